(** * SizeSpec: the size of a regular expression *)
From Coq Require Import List NArith Arith Lia.
From Verif Require Import Base Spec.
Import ListNotations.

(** the nodes of the tree *)
Fixpoint regex_nodes (t : regex_tree) : nat :=
  match t with
  | RSequence l | RAlt l => S (list_sum (map regex_nodes l))
  | RRepeat r => S (regex_nodes r)
  | RChar _ => 1
  end.
(** the nodes that are elements of a sequence *)
Fixpoint sequence_elements (t : regex_tree) : nat :=
  match t with
  | RSequence l => length l + list_sum (map sequence_elements l)
  | RAlt l => list_sum (map sequence_elements l)
  | RRepeat r => sequence_elements r
  | RChar _ => 0
  end.

(** ** Texts of expressions, as lists of graphemes *)

(** the plus signs of a text *)
Definition plus_signs (gs : list str) : nat := length (filter (eqb [43%N]) gs).

(** the text ((...(a)+...)+)+ *)
Fixpoint nested_plus (n : nat) : list str :=
  match n with
  | O => [[97%N]]
  | S n => [40%N] :: nested_plus n ++ [[41%N]; [43%N]]
  end.
