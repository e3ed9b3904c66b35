(** * FileSpec: the files a command reads and the file it writes *)
From Coq Require Import Ascii String List NArith Arith Bool.
From Verif Require Import Base Spec LayoutSpec MessageSpec WasmModel WasmSpec ApiModel DfaModel ValidateModel TableSpec TableModel Messages CliModel FileModel CliSpec.
Import ListNotations.
Close Scope string_scope.
Open Scope list_scope.

(** The machine a command runs on *)
Definition on (env : cli_env) (m : machine) : cli_env :=
  mk_cli_env (m_text m) (ce_nom_display env) (ce_nom_debug env) (ce_seg env) (ce_dbg env) (ce_log env) (ce_millis env).

(** The files a command cannot do without *)
Definition inputs (op : operation) : list str :=
  match op with
  | OpEquivalence args => [ea_automata args]
  | OpBinary _ args => [ba_first args; ba_second args]
  | OpEnumerateRegex _ _ => []
  | OpEnumerateFile _ _ f => [f]
  | OpTestFile _ _ a _ => [a]
  end.
(** and the other files it reads *)
Definition others (op : operation) : list str :=
  match op with
  | OpEquivalence args => ea_files args
  | OpBinary _ args => match ba_compare_against args with Some p => [p] | None => [] end
  | OpTestFile _ _ _ fs => fs
  | _ => []
  end.

(** The file of --out is none of them. *)
Definition apart (m : machine) (out : option str) (op : operation) : Prop :=
  forall p q, out = Some p -> In q (inputs op ++ others op) -> m_same m p q = false.

(** After the run only the file of --out, if there is one and it could be created, has changed; [f] is its text. *)
Definition only_written (m m' : machine) (out : option str) (f : option str) : Prop :=
  m_same m' = m_same m /\ m_create m' = m_create m /\
  (forall p u, out = Some p -> m_create m p = Ok u -> exists v, f = Some v /\ forall q, m_same m p q = true -> m_text m' q = Ok v) /\
  (forall q, (forall p u, out = Some p -> m_create m p = Ok u -> m_same m p q = false) -> m_text m' q = m_text m q).

(** ** Every run *)

(** What a command finds in a file after [w] was written to the file of --out: the file is emptied at the start. *)
Definition after_writing (env : cli_env) (m : machine) (out : option str) (w : str) : cli_env :=
  on env (mk_machine (fun q => match out with
                               | None => m_text m q
                               | Some p => match m_create m p with
                                           | Err _ => m_text m q
                                           | Ok _ => if m_same m p q then Ok w else m_text m q
                                           end
                               end) (m_same m) (m_create m)).

(** test-file: as [test_report], but every file is read when the results about those before it were written *)
Inductive test_report_files (at_ : str -> cli_env) (a : automata) (t : test_type) : str -> list str -> list str -> result unit str -> Prop :=
| trf_end w : test_report_files at_ a t w [] [] (Ok tt)
| trf_unreadable w f fs e : ce_read (at_ w) f = Err e -> test_report_files at_ a t w (f :: fs) [] (Err e)
| trf_file w f fs u lines out1 out2 r :
    ce_read (at_ w) f = Ok u -> text_lines u lines -> file_report (ce_seg (at_ w)) a t f lines out1 ->
    test_report_files at_ a t (w ++ concat out1) fs out2 r -> test_report_files at_ a t w (f :: fs) (out1 ++ out2) r.

(** Set operations: as [binary_outcome], but the third automaton is read when the table and the words were written *)
Definition binary_outcome_files (at_ : str -> cli_env) (args : binary_op_args) (o : set_op) (out : list str) (r : result unit str) : Prop :=
  let env := at_ [] in
  let ty2 := match ba_second_type args with Some t => t | None => ba_type args end in
  (exists m, load_error env (ba_first args) (ba_type args) m /\ out = [] /\ r = Err (of_string "Error reading 1: " ++ m)) \/
  (exists a1 m, loads env (ba_first args) (ba_type args) a1 /\ load_error env (ba_second args) ty2 m /\
     out = [] /\ r = Err (of_string "Error reading 2: " ++ m)) \/
  (exists a1 a2, loads env (ba_first args) (ba_type args) a1 /\ loads env (ba_second args) ty2 a2 /\
     ~ same_set (a_alphabet a1) (a_alphabet a2) /\
     out = [] /\ r = Err (of_string "Different alphabets in input DFAs, can't do product construction")) \/
  (exists a1 a2 d table ls1 ls2, loads env (ba_first args) (ba_type args) a1 /\ loads env (ba_second args) ty2 a2 /\
     same_set (a_alphabet a1) (a_alphabet a2) /\
     dfa_valid d /\ dfa_alphabet d = a_alphabet a1 /\
     (forall w, dfa_lang d w <-> set_op_spec o (a_lang a1 w) (a_lang a2 w)) /\
     (ba_minimized args = true -> minimal d) /\
     dfa_to_table d = Ret table /\ (a_alphabet a1 <> [] -> Forall legal_token (a_alphabet a1) -> loads_dfa table d) /\
     out = ([table] ++ ls1) ++ ls2 /\ enumeration o d (ba_enumerate args) ls1 /\
     comparison (at_ (concat ([table] ++ ls1))) args o d ls2 r).

(** As [op_outcome] *)
Definition file_outcome (env : cli_env) (m : machine) (file : option str) (op : operation) (out lg : list str) (r : result unit str) : Prop :=
  let at_ := after_writing env m file in
  match op with
  | OpBinary o args => binary_outcome_files at_ args o out r
  | OpTestFile ty t automata files =>
      (exists e, load_error (at_ []) automata ty e /\ out = [] /\ r = Err e) \/
      (exists a, loads (at_ []) automata ty a /\ test_report_files at_ a t [] files out r)
  | _ => op_outcome (at_ []) op out lg r
  end.
