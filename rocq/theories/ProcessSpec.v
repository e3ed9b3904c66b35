(** * ProcessSpec: what a process gets and what it may do *)
From Coq Require Import Ascii String List NArith Arith Bool.
From Verif Require Import Base Spec DfaModel ValidateModel TableSpec TableModel ApiModel Messages CliModel FileModel ShareModel WriteModel ArgsModel
  CliSpec FileSpec ShareSpec WriteSpec ArgsSpec.
Import ListNotations.
Close Scope string_scope.
Open Scope list_scope.

(** The machine of a run that was asked to be silent or not *)
Definition asked (env : cli_env) (a : dandy_args) : cli_env :=
  mk_cli_env (ce_read env) (ce_nom_display env) (ce_nom_debug env) (ce_seg env) (ce_dbg env) (negb (da_no_log a)) (ce_millis env).
(** A machine on which output files are created as [create] says *)
Definition creating (create : str -> result unit str) : machine := mk_machine (fun _ => Err []) (fun _ _ => false) create.

(** What a process with the lines [ls] and the result [r] may do: all of it is about the texts found by the reads. *)
Definition says (env : cli_env) (seen : sights) (a : dandy_args) (ls : list (bool * str)) (r : result unit str) : Prop :=
  shared_outcome (asked env a) seen (da_command a) (results ls) (logged ls) r /\ (da_no_log a = true -> logged ls = []).
