(** * CutSpec: tables whose end is missing *)
From Coq Require Import List NArith.
From Verif Require Import Base.
Import ListNotations.

(** Texts without comments and carriage returns, like the tables that are printed *)
Definition plain (u : str) : Prop := forall c, In c u -> c <> 35%N /\ c <> 13%N.

(** No name is the beginning of another one. *)
Definition apart (names : list str) : Prop := forall m y, In m names -> In (m ++ y) names -> y = [].
