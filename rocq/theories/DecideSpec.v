(** * DecideSpec: finite languages

    Nothing of the code is modelled here. *)
From Coq Require Import List.
From Verif Require Import Base Spec.
Import ListNotations.

(** Some list contains all words *)
Definition finite_lang (L : word -> Prop) : Prop := exists ws : list word, forall w, L w -> In w ws.
