(** * AlgebraSpec: laws, that is client programs with free variables for automata

    A law term describes a pipeline of calls on automata that the caller already has ([LVar i] and [MVar i]).  Every call of an
    operation that iterates over hash containers has its own hash order.  [None]: a call returned [None] or [Err]. *)
From Coq Require Import List NArith Arith Bool.
From Verif Require Import Base DfaModel NfaModel Spec ApiModel.
Import ListNotations.

Inductive dfa_law : Type :=
| LVar (i : nat)
| LOfNfa (h : hash_order) (m : nfa_law)                       (* Nfa::to_dfa *)
| LInvert (l : dfa_law)                                       (* Dfa::invert *)
| LRemoveUnreachable (h : hash_order) (dbg : bool) (l : dfa_law) (* Dfa::remove_unreachable_states *)
| LMerge (h : hash_order) (dbg : bool) (l : dfa_law)          (* Dfa::merge_nondistinguishable_states *)
| LMinimize (h : hash_order) (dbg : bool) (l : dfa_law)       (* Dfa::minimize *)
| LSetOp (o : set_op) (h : hash_order) (l1 l2 : dfa_law)      (* Dfa::union, intersection, difference, symmetric_difference *)
with nfa_law : Type :=
| MVar (i : nat)
| MOfDfa (l : dfa_law)                                        (* Dfa::to_nfa *)
| MRemoveUnreachable (h : hash_order) (dbg : bool) (m : nfa_law) (* Nfa::remove_unreachable_states *)
| MRemoveEpsilon (h : hash_order) (dbg : bool) (m : nfa_law)  (* Nfa::remove_epsilon_moves *)
| MOptimize (h : hash_order) (dbg : bool) (m : nfa_law)       (* Nfa::optimize *)
| MUnion (m1 m2 : nfa_law)                                    (* Nfa::union *)
| MIntersection (h : hash_order) (m1 m2 : nfa_law).           (* Nfa::intersection *)

Section Run.
  Variable dv : nat -> dfa.
  Variable nv : nat -> nfa.
  (** The calls of dandy/src/dfa/mod.rs and dandy/src/nfa/mod.rs named above, in the order of the term *)
  Fixpoint run_dfa_law (l : dfa_law) : R (option dfa) :=
    match l with
    | LVar i => Ret (Some (dv i))
    | LOfNfa h m => obind (run_nfa_law m) (fun n => d <- nfa_to_dfa h n ;; Ret (Some d))
    | LInvert l => obind (run_dfa_law l) (fun d => Ret (Some (dfa_invert d)))
    | LRemoveUnreachable h dbg l => obind (run_dfa_law l) (fun d => d' <- dfa_remove_unreachable_states h dbg d ;; Ret (Some d'))
    | LMerge h dbg l => obind (run_dfa_law l) (fun d => d' <- dfa_merge_nondistinguishable_states h dbg d ;; Ret (Some d'))
    | LMinimize h dbg l => obind (run_dfa_law l) (fun d => d' <- dfa_minimize h dbg d ;; Ret (Some d'))
    | LSetOp o h l1 l2 => obind (run_dfa_law l1) (fun d1 => obind (run_dfa_law l2) (fun d2 => dfa_set_op o h d1 d2))
    end
  with run_nfa_law (m : nfa_law) : R (option nfa) :=
    match m with
    | MVar i => Ret (Some (nv i))
    | MOfDfa l => obind (run_dfa_law l) (fun d => Ret (Some (dfa_to_nfa d)))
    | MRemoveUnreachable h dbg m => obind (run_nfa_law m) (fun n => n' <- nfa_remove_unreachable_states h dbg n ;; Ret (Some n'))
    | MRemoveEpsilon h dbg m => obind (run_nfa_law m) (fun n => n' <- nfa_remove_epsilon_moves h dbg n ;; Ret (Some n'))
    | MOptimize h dbg m => obind (run_nfa_law m) (fun n => n' <- nfa_optimize h dbg n ;; Ret (Some n'))
    | MUnion m1 m2 =>
        obind (run_nfa_law m1) (fun n1 => obind (run_nfa_law m2) (fun n2 =>
          r <- nfa_union n1 n2 ;; Ret (match r with inl n => Some n | inr _ => None end)))
    | MIntersection h m1 m2 => obind (run_nfa_law m1) (fun n1 => obind (run_nfa_law m2) (fun n2 => nfa_intersection h n1 n2))
    end.
End Run.

(** The propositional reading of a law term: variables are truth values, the operations are connectives, and everything that only
    changes the representation of an automaton is the identity *)
Definition connective (o : set_op) : bool -> bool -> bool :=
  match o with
  | OUnion => orb
  | OIntersection => andb
  | ODifference => fun a b => a && negb b
  | OSymmetricDifference => xorb
  end.
Section Truth.
  Variable dt nt : nat -> bool.
  Fixpoint dfa_truth (l : dfa_law) : bool :=
    match l with
    | LVar i => dt i
    | LOfNfa _ m => nfa_truth m
    | LInvert l => negb (dfa_truth l)
    | LRemoveUnreachable _ _ l | LMerge _ _ l | LMinimize _ _ l => dfa_truth l
    | LSetOp o _ l1 l2 => connective o (dfa_truth l1) (dfa_truth l2)
    end
  with nfa_truth (m : nfa_law) : bool :=
    match m with
    | MVar i => nt i
    | MOfDfa l => dfa_truth l
    | MRemoveUnreachable _ _ m | MRemoveEpsilon _ _ m | MOptimize _ _ m => nfa_truth m
    | MUnion m1 m2 => nfa_truth m1 || nfa_truth m2
    | MIntersection _ m1 m2 => nfa_truth m1 && nfa_truth m2
    end.
End Truth.

(** All variables are valid automata over one and the same alphabet, in whatever order each lists it *)
Definition over_one_alphabet (al : list str) (dv : nat -> dfa) (nv : nat -> nfa) : Prop :=
  (forall i, dfa_valid (dv i) /\ same_set (dfa_alphabet (dv i)) al) /\
  (forall i, nfa_valid (nv i) /\ same_set (nfa_alphabet (nv i)) al).

(** The number of words of at most [len] symbols over [a] symbols *)
Fixpoint words_up_to (a len : nat) : nat :=
  match len with
  | O => 1
  | S len' => a ^ len + words_up_to a len'
  end.
