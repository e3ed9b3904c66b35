(** * DrawBytesSpec: ASCII art with labels of any length and any characters

    The labels of a level are written one after the other, from left to right.  A label starts behind the character at the start
    of its link, and as many bytes are replaced as the label has characters.  This is possible only if these bytes are characters. *)
From Coq Require Import List NArith Arith Bool Permutation Sorted.
From Verif Require Import Base TableModel DrawModel DrawSpec Utf8Spec.
Import ListNotations.

Definition put_label (line : str) (x : nat) (label line' : str) : Prop :=
  exists b j, x < length line /\ char_at line x b /\ char_at line (S x) (b + 1) /\ char_at line j (b + 1 + length label) /\
    line' = firstn (S x) line ++ label ++ skipn j line.
Inductive put_labels (w : nat) : str -> list link -> str -> Prop :=
  | put_none line : put_labels w line [] line
  | put_next line l ls line1 line2 : put_label line (lk_start w l) (lk_label l) line1 -> put_labels w line1 ls line2 ->
      put_labels w line (l :: ls) line2.
(** The lower line of a level without its labels *)
Definition bar_cell (w : nat) (links : list link) (level x : nat) : N :=
  if existsb (fun l => (level <=? lk_level l) && lk_bar w l x) links then 124%N else 32%N.
(** The lower line of a level *)
Definition lower_line (w n : nat) (links : list link) (level : nat) (line : str) : Prop :=
  exists ls, Permutation ls (filter (fun l => (lk_level l =? level) && negb (lk_loop l)) links) /\
    StronglySorted (fun a b => lk_left a < lk_left b) ls /\
    put_labels w (map (bar_cell w links level) (seq 0 (art_width w n))) ls line.
Definition picture_is (w : nat) (states : list draw_state) (links : list link) (levels : nat) (art : str) : Prop :=
  exists lower : nat -> str, (forall k, k < levels -> lower_line w (length states) links k (lower k)) /\
    art = joined [10%N] (flat_map (fun k => [map (top_cell w links k) (seq 0 (art_width w (length states))); lower k]) (rev (seq 0 levels)) ++
                       [states_line w states]).
