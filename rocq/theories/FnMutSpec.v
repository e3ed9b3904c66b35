(** * FnMutSpec: what it means to call a function with memory once for every element of a list *)
From Coq Require Import List NArith Arith Bool.
From Verif Require Import Base Spec.
Import ListNotations.

(** [f] is a closure with memory of type [M]: called on an argument it answers with a flag and has a new memory; a call may
    also panic or never return.  [answers f m l bs m']: called on the elements of [l] in this order, starting with the
    memory [m], it answers [bs] and ends with the memory [m']. *)
Inductive answers {M X} (f : M -> X -> R (bool * M)) : M -> list X -> list bool -> M -> Prop :=
| ans_nil m : answers f m [] [] m
| ans_cons m x l b bs m' m'' : f m x = Ret (b, m') -> answers f m' l bs m'' -> answers f m (x :: l) (b :: bs) m''.

(** The calls go through up to one that ends in [bad] *)
Definition ends_in {M X} (f : M -> X -> R (bool * M)) (bad : R (bool * M)) (m : M) (l : list X) : Prop :=
  exists before x after bs m', l = before ++ x :: after /\ answers f m before bs m' /\ f m' x = bad.

(** The same automaton with other accepting flags *)
Definition dfa_with_flags (bs : list bool) (d : dfa) : dfa :=
  {| dfa_alphabet := dfa_alphabet d;
     dfa_states := map (fun '(b, s) => mk_dfa_state (ds_name s) (ds_initial s) b (ds_transitions s)) (combine bs (dfa_states d));
     dfa_initial := dfa_initial d |}.
Definition nfa_with_flags (bs : list bool) (n : nfa) : nfa :=
  {| nfa_alphabet := nfa_alphabet n;
     nfa_states := map (fun '(b, s) => mk_nfa_state (ns_name s) (ns_initial s) b (ns_eps s) (ns_transitions s)) (combine bs (nfa_states n));
     nfa_initial := nfa_initial n |}.
