(** * WriteSpec: how far a run gets when writing fails *)
From Coq Require Import Ascii String List NArith Arith Bool.
From Verif Require Import Base Spec DfaModel ValidateModel TableSpec TableModel ApiModel Messages CliModel FileModel CliSpec FileSpec WriteModel.
Import ListNotations.
Close Scope string_scope.
Open Scope list_scope.

Definition prefix_of {A} (u v : list A) : Prop := exists w, v = u ++ w.

(** Lines on the terminal, marked: results ([true]) and logs ([false]) *)
Definition texts (ls : list (bool * str)) : list str := map snd ls.
Definition results (ls : list (bool * str)) : list str := map snd (filter fst ls).
Definition logged (ls : list (bool * str)) : list str := map snd (filter (fun l => negb (fst l)) ls).

(** The notices about a file that cannot be created, and the lines of the error *)
Definition notices (m : machine) (file : option str) : list str :=
  match file with
  | Some p => match m_create m p with
              | Err e => [of_string "Error creating output file " ++ e; of_string "Execution will continue but no data will be written to file"]
              | Ok _ => []
              end
  | None => []
  end.
Definition complaint (op : operation) (r : result unit str) : list str := match r with Err e => [error_prefix op ++ e] | Ok _ => [] end.

(** The text of the output file, if there is one *)
Definition in_file (m : machine) (file : option str) (u : str) : option str :=
  match file with
  | Some p => match m_create m p with Ok _ => Some u | Err _ => None end
  | None => None
  end.

Definition maybe (o : option str) : str := match o with Some u => u | None => [] end.

(** ** Which writes succeed *)
Section Writing.
Variables (fails : world) (m : machine) (file : option str).
(** the line about the file, after those before it *)
Definition notice_write (before : list str) (l : str) : option nat := fails [] (with_lf before) [] ToStderr (l ++ [10%N]).
(** the line on the terminal, after those before it *)
Definition print_write (before : list (bool * str)) (l : str) : option nat :=
  fails (with_lf (texts before)) (with_lf (notices m file)) (maybe (in_file m file (concat (results before)))) ToStdout (l ++ [10%N]).
(** the result in the file, after it was printed *)
Definition file_write (before : list (bool * str)) (l : str) : option nat :=
  fails (with_lf (texts before ++ [l])) [] (concat (results before)) ToFile l.
(** the error, after everything else *)
Definition error_write (ls : list (bool * str)) (l : str) : option nat :=
  fails (with_lf (texts ls)) (with_lf (notices m file)) (maybe (in_file m file (concat (results ls)))) ToStderr (l ++ [10%N]).

Definition notices_fine (ns : list str) : Prop := forall before l after, ns = before ++ l :: after -> notice_write before l = None.
Definition lines_fine (ls : list (bool * str)) : Prop := forall before b l after, ls = before ++ (b, l) :: after ->
  print_write before l = None /\
  forall p u, b = true -> file = Some p -> m_create m p = Ok u -> l <> [] -> file_write before l = None.

(** ** How the run with the lines [ls], ending with [r], ends *)
Inductive ends (op : operation) (ls : list (bool * str)) (r : result unit str) : run_end -> Prop :=
(** It gets everything out, *)
| ends_well : notices_fine (notices m file) -> lines_fine ls -> (forall l, complaint op r = [l] -> error_write ls l = None) ->
    ends op ls r (mk_run_end (with_lf (texts ls)) (with_lf (notices m file ++ complaint op r)) (in_file m file (concat (results ls))) 0)
(** or stops at the first write that fails, after [n] characters: while telling that there is no file, *)
| ends_notice before l after n : notices m file = before ++ l :: after -> notices_fine before -> notice_write before l = Some n ->
    ends op ls r (mk_run_end [] (with_lf before ++ firstn n (l ++ [10%N])) None 101)
(** while printing a line, *)
| ends_print before b l after n : notices_fine (notices m file) -> ls = before ++ (b, l) :: after -> lines_fine before ->
    print_write before l = Some n ->
    ends op ls r
      (mk_run_end (with_lf (texts before) ++ firstn n (l ++ [10%N])) (with_lf (notices m file)) (in_file m file (concat (results before))) 101)
(** while writing a result, which was printed already, into the file, *)
| ends_file before l after n p u : ls = before ++ (true, l) :: after -> file = Some p -> m_create m p = Ok u -> l <> [] ->
    lines_fine before -> print_write before l = None -> file_write before l = Some n ->
    ends op ls r (mk_run_end (with_lf (texts before ++ [l])) [] (Some (concat (results before) ++ firstn n l)) 101)
(** or while telling the error, at the end. *)
| ends_error l n : notices_fine (notices m file) -> lines_fine ls -> complaint op r = [l] -> error_write ls l = Some n ->
    ends op ls r
      (mk_run_end (with_lf (texts ls)) (with_lf (notices m file) ++ firstn n (l ++ [10%N])) (in_file m file (concat (results ls))) 101).
End Writing.

(** ** Worlds *)

(** Nothing fails. *)
Definition healthy : world := fun _ _ _ _ _ => None.
(** The stream takes [k] characters, and then no more: the reader of a pipe has left, the disk is full. The others take everything. *)
Definition room (st : stream) (k : nat) : world := fun out err file st' s =>
  if stream_eqb st st' then
    let have := match st with ToStdout => out | ToStderr => err | ToFile => file end in
    if length have + length s <=? k then None else Some (k - length have)
  else None.

(** What a run brings to a stream *)
Definition brought (e : run_end) (st : stream) : str :=
  match st with ToStdout => re_stdout e | ToStderr => re_stderr e | ToFile => maybe (re_file e) end.
Definition should_bring (res : main_result) (st : stream) : str :=
  match st with ToStdout => mr_stdout res | ToStderr => mr_stderr res | ToFile => maybe (mr_file res) end.
