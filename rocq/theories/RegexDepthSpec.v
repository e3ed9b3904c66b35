(** * RegexDepthSpec: how deep the groups of an expression are nested, and how high its tree is

    Nothing of the code is modelled here. *)
From Coq Require Import List NArith Arith Bool.
From Verif Require Import Base Spec RegexModel.
Import ListNotations.

(** the groups that are open after the tokens [gs], when [d] are open before them *)
Fixpoint open_after (d : nat) (gs : list str) : nat :=
  match gs with
  | [] => d
  | g :: gs => open_after (if eqb g [40%N] then S d else if eqb g [41%N] then pred d else d) gs
  end.
(** [n] is the largest number of groups that are open at one place of the tokens [gs] *)
Definition nested (gs : list str) (n : nat) : Prop :=
  (exists u v, gs = u ++ v /\ open_after 0 u = n) /\ (forall u v, gs = u ++ v -> open_after 0 u <= n).

(** the nodes on the longest way from the root of a tree to a leaf *)
Fixpoint height (t : regex_tree) : nat :=
  match t with
  | RAlt l => S (fold_right (fun t m => max (height t) m) 0 l)
  | RSequence l => S (fold_right (fun t m => max (height t) m) 0 l)
  | RRepeat t => S (height t)
  | RChar _ => 1
  end.

(** the expression [((a+b|c)+b|c)+b|c] with [n] groups *)
Fixpoint tall (n : nat) : list str :=
  (match n with O => [[97%N]] | S n => [40%N] :: tall n ++ [[41%N]] end) ++ [[43%N]; [98%N]; [124%N]; [99%N]].
