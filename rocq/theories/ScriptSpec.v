(** * ScriptSpec: sequences of runs of dandy-cli that pass files to each other *)
From Coq Require Import Ascii String List NArith Arith Bool.
From Verif Require Import Base Spec TableSpec LayoutSpec DfaModel ValidateModel TableModel ApiModel Messages CliModel CliSpec FileModel FileSpec ArgsModel ArgsSpec CliReproSpec.
Import ListNotations.
Close Scope string_scope.
Local Open Scope list_scope.

(** What is known about a file: read as an automaton of the type, it has these elements in this order and this language. *)
Record fact : Type := mk_fact { f_path : str; f_type : automata_type; f_alphabet : list str; f_lang : word -> Prop }.
Definition holds (env : cli_env) (m : machine) (f : fact) : Prop :=
  exists a, loads (on env m) (f_path f) (f_type f) a /\ a_alphabet a = f_alphabet f /\ forall w, a_lang a w <-> f_lang f w.

(** One run: a set operation on two files, written to a third with --out *)
Record script_run : Type := mk_script_run {
  sr_operation : set_op; sr_minimized : bool; sr_first : str; sr_first_type : automata_type;
  sr_second : str; sr_second_type : automata_type; sr_out : str }.
(** [second]: --second-type, may be left out if both types are the same; [compared]: --compared-type, without effect *)
Definition run_args (no_log : bool) (second : option automata_type) (compared : automata_type) (r : script_run) : dandy_args :=
  mk_dandy_args (Some (sr_out r)) no_log
    (OpBinary (sr_operation r)
       (mk_binary_op_args (sr_first_type r) second compared (sr_minimized r) None (sr_first r) (sr_second r) None)).

(** What the runs tell about files, given what is known before.  [same]: the paths name the same file; [creates]: the file can be created *)
Inductive tells (same : str -> str -> bool) (creates : str -> Prop) : list fact -> list script_run -> list fact -> Prop :=
| tells_end K : tells same creates K [] K
| tells_run K r rs K' f1 f2 :
    In f1 K -> f_path f1 = sr_first r -> f_type f1 = sr_first_type r ->
    In f2 K -> f_path f2 = sr_second r -> f_type f2 = sr_second_type r ->
    same_set (f_alphabet f1) (f_alphabet f2) -> f_alphabet f1 <> [] -> Forall legal_token (f_alphabet f1) ->
    same (sr_out r) (sr_first r) = false -> same (sr_out r) (sr_second r) = false -> same (sr_out r) (sr_out r) = true -> creates (sr_out r) ->
    tells same creates
      (mk_fact (sr_out r) TDfa (f_alphabet f1) (fun w => set_op_spec (sr_operation r) (f_lang f1 w) (f_lang f2 w)) ::
       filter (fun f => negb (same (sr_out r) (f_path f))) K) rs K' ->
    tells same creates K (r :: rs) K'.
Definition creatable (m : machine) (p : str) : Prop := exists u, m_create m p = Ok u.

(** The runs one after the other, each with its own arguments, iteration orders, time and debug flag: what they printed, and the files afterwards *)
Record start : Type := mk_start { st_argv : list str; st_orders : orders; st_debug : bool; st_millis : nat }.
Fixpoint shell (env : cli_env) (m : machine) (l : list start) : option (R (list main_result * machine)) :=
  match l with
  | [] => Some (Ret ([], m))
  | s :: l =>
      match dandy (rebuilt env (st_debug s) (st_millis s)) m (st_orders s) (st_argv s) with
      | Some (Ret (res, m')) =>
          match shell env m' l with
          | Some (Ret (rs, m'')) => Some (Ret (res :: rs, m''))
          | other => other
          end
      | Some Panic => Some Panic
      | Some Diverge => Some Diverge
      | None => None
      end
  end.
Definition starts (s : start) (r : script_run) : Prop := exists no_log second compared,
  match second with Some t => t | None => sr_first_type r end = sr_second_type r /\ asks_for (st_argv s) (run_args no_log second compared r).

(** ** Expressions over files *)
Inductive file_expr : Type :=
| EFile (f : fact)
| EOp (o : set_op) (minimized : bool) (e1 e2 : file_expr).
Fixpoint e_lang (e : file_expr) (w : word) : Prop :=
  match e with
  | EFile f => f_lang f w
  | EOp o _ e1 e2 => set_op_spec o (e_lang e1 w) (e_lang e2 w)
  end.
Fixpoint e_files (e : file_expr) : list fact :=
  match e with EFile f => [f] | EOp _ _ e1 e2 => e_files e1 ++ e_files e2 end.
(** the elements in the order of the leftmost file *)
Fixpoint e_alphabet (e : file_expr) : list str :=
  match e with EFile f => f_alphabet f | EOp _ _ e1 _ => e_alphabet e1 end.

(** The runs for an expression, with one temporary file for each operation: the runs, the path and type of the result, the number of the
    next temporary file *)
Fixpoint runs_for (tmp : nat -> str) (k : nat) (e : file_expr) : list script_run * (str * automata_type) * nat :=
  match e with
  | EFile f => ([], (f_path f, f_type f), k)
  | EOp o mn e1 e2 =>
      let '(r1, (p1, t1), k1) := runs_for tmp k e1 in
      let '(r2, (p2, t2), k2) := runs_for tmp k1 e2 in
      (r1 ++ r2 ++ [mk_script_run o mn p1 t1 p2 t2 (tmp k2)], (tmp k2, TDfa), S k2)
  end.

(** ** What expressions over given files can mean.  [bits]: which of the files contain the word *)
Definition member_bits (fs : list fact) (w : word) (bits : list bool) : Prop := Forall2 (fun f b => b = true <-> f_lang f w) fs bits.
(** The expression denotes the Boolean function of the files *)
Definition denotes (fs : list fact) (e : file_expr) (fn : list bool -> bool) : Prop :=
  forall w bits, member_bits fs w bits -> (e_lang e w <-> fn bits = true).
