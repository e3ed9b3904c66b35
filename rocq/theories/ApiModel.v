(** * ApiModel: client programs built from calls of the public API

    A client program is a term: the leaves are texts (or regex trees) given to the library, the inner nodes are calls of public
    operations.  Methods that take [&mut self] are modelled as functions from the old to the new value.  Every call of an
    operation that iterates over hash containers has its own hash order. *)
From Coq Require Import List NArith Arith Bool.
From Verif Require Import Base Spec TableSpec LayoutSpec DfaModel NfaModel RegexModel ValidateModel ParserModel RegexParserModel.
Import ListNotations.

(** The four set operations of DFAs: dandy/src/dfa/mod.rs:350, 381, 412, 443 *)
Inductive set_op : Type := OUnion | OIntersection | ODifference | OSymmetricDifference.

(** calls of dandy/src/dfa/mod.rs, dandy/src/nfa/mod.rs, dandy/src/regex/mod.rs and dandy/src/parser/mod.rs, as a
    client composes them *)
Inductive dfa_prog : Type :=
| PDParse (u : str)                                              (* parser::dfa(u)?.try_into()? *)
| PDOfNfa (h : hash_order) (p : nfa_prog)                        (* Nfa::to_dfa *)
| PDInvert (p : dfa_prog)                                        (* Dfa::invert *)
| PDRemoveUnreachable (h : hash_order) (dbg : bool) (p : dfa_prog) (* Dfa::remove_unreachable_states *)
| PDMerge (h : hash_order) (dbg : bool) (p : dfa_prog)           (* Dfa::merge_nondistinguishable_states *)
| PDMinimize (h : hash_order) (dbg : bool) (p : dfa_prog)        (* Dfa::minimize *)
| PDSetOp (o : set_op) (h : hash_order) (p1 p2 : dfa_prog)       (* Dfa::union, intersection, difference, symmetric_difference *)
| PDProduct (h : hash_order) (comb : dfa_state -> dfa_state -> bool) (p1 p2 : dfa_prog) (* Dfa::product_construction *)
with nfa_prog : Type :=
| PNParse (u : str)                                              (* parser::nfa(u)?.try_into()? *)
| PNRegex (seg : str -> list str) (h : hash_order) (u : str)     (* parser::regex(u)?.to_nfa() *)
| PNTree (h : hash_order) (t : regex_tree)                       (* Regex { tree: t }.to_nfa() *)
| PNOfDfa (p : dfa_prog)                                         (* Dfa::to_nfa *)
| PNRemoveUnreachable (h : hash_order) (dbg : bool) (p : nfa_prog) (* Nfa::remove_unreachable_states *)
| PNRemoveEpsilon (h : hash_order) (dbg : bool) (p : nfa_prog)   (* Nfa::remove_epsilon_moves *)
| PNOptimize (h : hash_order) (dbg : bool) (p : nfa_prog)        (* Nfa::optimize *)
| PNUnion (p1 p2 : nfa_prog)                                     (* Nfa::union *)
| PNIntersection (h : hash_order) (p1 p2 : nfa_prog)             (* Nfa::intersection *)
| PNProduct (h : hash_order) (comb : option nfa_state -> option nfa_state -> bool) (p1 p2 : nfa_prog). (* Nfa::product_construction *)

(** [None]: one of the calls returned an error ([Err] of the parsers and of [Nfa::union], [None] of the set
    operations). The [?] of a client of dandy/src/lib.rs *)
Definition obind {A B} (m : R (option A)) (f : A -> R (option B)) : R (option B) :=
  o <- m ;; match o with None => Ret None | Some a => f a end.

(** [Result::ok], to forget which error a call of dandy/src/dfa/parse.rs:27 or dandy/src/nfa/parse.rs:27 gave *)
Definition result_option {A E} (r : result A E) : option A := match r with Ok a => Some a | Err _ => None end.

(** dandy/src/dfa/mod.rs:350 [union], 381 [intersection], 412 [difference], 443 [symmetric_difference] *)
Definition dfa_set_op (o : set_op) : hash_order -> dfa -> dfa -> R (option dfa) :=
  match o with
  | OUnion => dfa_union
  | OIntersection => dfa_intersection
  | ODifference => dfa_difference
  | OSymmetricDifference => dfa_symmetric_difference
  end.

(** dandy/src/parser/mod.rs:102-115 followed by dandy/src/dfa/parse.rs:24-108, dandy/src/nfa/parse.rs:24-143 [try_into] *)
Definition load_dfa (u : str) : R (option dfa) := obind (parse_dfa u) (fun p => Ret (result_option (dfa_try_from p))).

(** dandy/src/parser/mod.rs:111-115 [nfa], then dandy/src/nfa/parse.rs:27-143 *)
Definition load_nfa (u : str) : R (option nfa) := obind (parse_nfa u) (fun p => Ret (result_option (nfa_try_from p))).

(** Running a program: the calls of dandy/src/dfa/mod.rs, dandy/src/nfa/mod.rs and dandy/src/regex/mod.rs named above *)
Fixpoint run_dfa (p : dfa_prog) : R (option dfa) :=
  match p with
  | PDParse u => load_dfa u
  | PDOfNfa h p => obind (run_nfa p) (fun n => d <- nfa_to_dfa h n ;; Ret (Some d))
  | PDInvert p => obind (run_dfa p) (fun d => Ret (Some (dfa_invert d)))
  | PDRemoveUnreachable h dbg p => obind (run_dfa p) (fun d => d' <- dfa_remove_unreachable_states h dbg d ;; Ret (Some d'))
  | PDMerge h dbg p => obind (run_dfa p) (fun d => d' <- dfa_merge_nondistinguishable_states h dbg d ;; Ret (Some d'))
  | PDMinimize h dbg p => obind (run_dfa p) (fun d => d' <- dfa_minimize h dbg d ;; Ret (Some d'))
  | PDSetOp o h p1 p2 => obind (run_dfa p1) (fun d1 => obind (run_dfa p2) (fun d2 => dfa_set_op o h d1 d2))
  | PDProduct h comb p1 p2 =>
      obind (run_dfa p1) (fun d1 => obind (run_dfa p2) (fun d2 => dfa_product_construction h d1 d2 comb))
  end
with run_nfa (p : nfa_prog) : R (option nfa) :=
  match p with
  | PNParse u => load_nfa u
  | PNRegex seg h u => obind (parse_regex seg u) (fun t => Ret (Some (regex_to_nfa h t)))
  | PNTree h t => Ret (Some (regex_to_nfa h t))
  | PNOfDfa p => obind (run_dfa p) (fun d => Ret (Some (dfa_to_nfa d)))
  | PNRemoveUnreachable h dbg p => obind (run_nfa p) (fun n => n' <- nfa_remove_unreachable_states h dbg n ;; Ret (Some n'))
  | PNRemoveEpsilon h dbg p => obind (run_nfa p) (fun n => n' <- nfa_remove_epsilon_moves h dbg n ;; Ret (Some n'))
  | PNOptimize h dbg p => obind (run_nfa p) (fun n => n' <- nfa_optimize h dbg n ;; Ret (Some n'))
  | PNUnion p1 p2 =>
      obind (run_nfa p1) (fun n1 => obind (run_nfa p2) (fun n2 =>
        r <- nfa_union n1 n2 ;; Ret (match r with inl n => Some n | inr _ => None end)))
  | PNIntersection h p1 p2 => obind (run_nfa p1) (fun n1 => obind (run_nfa p2) (fun n2 => nfa_intersection h n1 n2))
  | PNProduct h comb p1 p2 =>
      obind (run_nfa p1) (fun n1 => obind (run_nfa p2) (fun n2 => nfa_product_construction h n1 n2 comb))
  end.

(** ** What programs mean: languages by set operations alone *)

(** The alphabet of the result. (Specification, not code: the alphabets that dandy/src/dfa/mod.rs and
    dandy/src/nfa/mod.rs give their results) *)
Fixpoint dfa_prog_symbol (p : dfa_prog) (a : str) : Prop :=
  match p with
  | PDParse u => exists t, dfa_text t u /\ In a (pd_head t)
  | PDOfNfa _ p => nfa_prog_symbol p a
  | PDInvert p | PDRemoveUnreachable _ _ p | PDMerge _ _ p | PDMinimize _ _ p => dfa_prog_symbol p a
  | PDSetOp _ _ p1 _ | PDProduct _ _ p1 _ => dfa_prog_symbol p1 a
  end
with nfa_prog_symbol (p : nfa_prog) (a : str) : Prop :=
  match p with
  | PNParse u => exists t, nfa_text t u /\ In (Element a) (pn_head t)
  | PNRegex seg _ u => exists t, parse_regex seg u = Ret (Some t) /\ In a (regex_graphemes t)
  | PNTree _ t => In a (regex_graphemes t)
  | PNOfDfa p => dfa_prog_symbol p a
  | PNRemoveUnreachable _ _ p | PNRemoveEpsilon _ _ p | PNOptimize _ _ p => nfa_prog_symbol p a
  | PNUnion p1 _ | PNIntersection _ p1 _ | PNProduct _ _ p1 _ => nfa_prog_symbol p1 a
  end.

(** (Specification, not code: what the documentation of dandy/src/dfa/mod.rs:322-443 says) *)
Definition set_op_spec (o : set_op) (A B : Prop) : Prop :=
  match o with
  | OUnion => A \/ B
  | OIntersection => A /\ B
  | ODifference => A /\ ~ B
  | OSymmetricDifference => A /\ ~ B \/ ~ A /\ B
  end.

(** (Specification, not code: the languages that the documentation of dandy/src/dfa/mod.rs and dandy/src/nfa/mod.rs
    promises) *)
Fixpoint dfa_prog_lang (p : dfa_prog) (w : word) : Prop :=
  match p with
  | PDParse u => exists t d, dfa_text t u /\ dfa_denotes t d /\ dfa_lang d w
  | PDOfNfa _ p => nfa_prog_lang p w
  | PDInvert p => Forall (dfa_prog_symbol p) w /\ ~ dfa_prog_lang p w
  | PDRemoveUnreachable _ _ p | PDMerge _ _ p | PDMinimize _ _ p => dfa_prog_lang p w
  | PDSetOp o _ p1 p2 => set_op_spec o (dfa_prog_lang p1 w) (dfa_prog_lang p2 w)
  | PDProduct _ _ _ _ => False (* excluded by [dfa_prog_sets] below *)
  end
with nfa_prog_lang (p : nfa_prog) (w : word) : Prop :=
  match p with
  | PNParse u => exists t n, nfa_text t u /\ nfa_denotes t n /\ nfa_lang n w
  | PNRegex seg _ u => exists t, parse_regex seg u = Ret (Some t) /\ matches t w
  | PNTree _ t => matches t w
  | PNOfDfa p => dfa_prog_lang p w
  | PNRemoveUnreachable _ _ p | PNRemoveEpsilon _ _ p | PNOptimize _ _ p => nfa_prog_lang p w
  | PNUnion p1 p2 => nfa_prog_lang p1 w \/ nfa_prog_lang p2 w
  | PNIntersection _ p1 p2 => nfa_prog_lang p1 w /\ nfa_prog_lang p2 w
  | PNProduct _ _ _ _ => False (* excluded by [nfa_prog_sets] below *)
  end.

(** Programs without a call of [product_construction] with a combinator of the client. (Specification, not code;
    [product_construction] is dandy/src/dfa/mod.rs:452 and dandy/src/nfa/mod.rs:475) *)
Fixpoint dfa_prog_sets (p : dfa_prog) : Prop :=
  match p with
  | PDParse _ => True
  | PDOfNfa _ p => nfa_prog_sets p
  | PDInvert p | PDRemoveUnreachable _ _ p | PDMerge _ _ p | PDMinimize _ _ p => dfa_prog_sets p
  | PDSetOp _ _ p1 p2 => dfa_prog_sets p1 /\ dfa_prog_sets p2
  | PDProduct _ _ _ _ => False
  end
with nfa_prog_sets (p : nfa_prog) : Prop :=
  match p with
  | PNParse _ | PNRegex _ _ _ | PNTree _ _ => True
  | PNOfDfa p => dfa_prog_sets p
  | PNRemoveUnreachable _ _ p | PNRemoveEpsilon _ _ p | PNOptimize _ _ p => nfa_prog_sets p
  | PNUnion p1 p2 | PNIntersection _ p1 p2 => nfa_prog_sets p1 /\ nfa_prog_sets p2
  | PNProduct _ _ _ _ => False
  end.

(** Programs whose regular expressions use legal tokens of the table format only (no whitespace, '#', braces, '*',
    ...). (Specification, not code of dandy/src/) *)
Fixpoint dfa_prog_legal (p : dfa_prog) : Prop :=
  match p with
  | PDParse _ => True
  | PDOfNfa _ p => nfa_prog_legal p
  | PDInvert p | PDRemoveUnreachable _ _ p | PDMerge _ _ p | PDMinimize _ _ p => dfa_prog_legal p
  | PDSetOp _ _ p1 p2 | PDProduct _ _ p1 p2 => dfa_prog_legal p1 /\ dfa_prog_legal p2
  end
with nfa_prog_legal (p : nfa_prog) : Prop :=
  match p with
  | PNParse _ => True
  | PNRegex seg _ u => forall t, parse_regex seg u = Ret (Some t) -> Forall legal_token (regex_graphemes t)
  | PNTree _ t => Forall legal_token (regex_graphemes t)
  | PNOfDfa p => dfa_prog_legal p
  | PNRemoveUnreachable _ _ p | PNRemoveEpsilon _ _ p | PNOptimize _ _ p => nfa_prog_legal p
  | PNUnion p1 p2 | PNIntersection _ p1 p2 | PNProduct _ _ p1 p2 => nfa_prog_legal p1 /\ nfa_prog_legal p2
  end.

(** Programs that succeed: every table is a legal text of a well-formed table, every expression parses, and the
    operands of every binary operation have the same symbols. (Specification, not code of dandy/src/) *)
Fixpoint dfa_prog_defined (p : dfa_prog) : Prop :=
  match p with
  | PDParse u => exists t, dfa_text t u /\ dfa_well_formed t
  | PDOfNfa _ p => nfa_prog_defined p
  | PDInvert p | PDRemoveUnreachable _ _ p | PDMerge _ _ p | PDMinimize _ _ p => dfa_prog_defined p
  | PDSetOp _ _ p1 p2 | PDProduct _ _ p1 p2 =>
      dfa_prog_defined p1 /\ dfa_prog_defined p2 /\ forall a, dfa_prog_symbol p1 a <-> dfa_prog_symbol p2 a
  end
with nfa_prog_defined (p : nfa_prog) : Prop :=
  match p with
  | PNParse u => exists t, nfa_text t u /\ nfa_well_formed t
  | PNRegex seg _ u => exists t, parse_regex seg u = Ret (Some t)
  | PNTree _ _ => True
  | PNOfDfa p => dfa_prog_defined p
  | PNRemoveUnreachable _ _ p | PNRemoveEpsilon _ _ p | PNOptimize _ _ p => nfa_prog_defined p
  | PNUnion p1 p2 | PNIntersection _ p1 p2 | PNProduct _ _ p1 p2 =>
      nfa_prog_defined p1 /\ nfa_prog_defined p2 /\ forall a, nfa_prog_symbol p1 a <-> nfa_prog_symbol p2 a
  end.
