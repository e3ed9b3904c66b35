(** * HistorySpec: which elements of a history an evaluator takes *)
From Coq Require Import List NArith Arith Bool.
From Verif Require Import Base Spec Histories.
Import ListNotations.

(** An NFA evaluator takes the elements of its alphabet; a call with several elements ends at the first foreign one *)
Inductive taken_call (alphabet : list str) : ev_call -> word -> Prop :=
| tc_known a : In a alphabet -> taken_call alphabet (CStep a) [a]
| tc_foreign a : ~ In a alphabet -> taken_call alphabet (CStep a) []
| tc_all l : over alphabet l -> taken_call alphabet (CStepMultiple l) l
| tc_prefix l1 a l2 : over alphabet l1 -> ~ In a alphabet -> taken_call alphabet (CStepMultiple (l1 ++ a :: l2)) l1.
Definition taken (alphabet : list str) (cs : list ev_call) (w : word) : Prop :=
  exists ws, Forall2 (taken_call alphabet) cs ws /\ w = concat ws.

(** What precedes the first foreign element of a word *)
Definition before_foreign (alphabet : list str) (w u : word) : Prop :=
  exists a v, w = u ++ a :: v /\ over alphabet u /\ ~ In a alphabet.
