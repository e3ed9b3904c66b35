(** * Utf8Spec: texts as sequences of bytes (RFC 3629) *)
From Coq Require Import List NArith Arith Bool.
From Verif Require Import Base.
Import ListNotations.
Local Open Scope N_scope.

Definition utf8 (c : N) : list N :=
  if c <? 128 then [c]
  else if c <? 2048 then [192 + c / 64; 128 + c mod 64]
  else if c <? 65536 then [224 + c / 4096; 128 + (c / 64) mod 64; 128 + c mod 64]
  else [240 + c / 262144; 128 + (c / 4096) mod 64; 128 + (c / 64) mod 64; 128 + c mod 64].
(** The bytes of a text *)
Definition bytes (s : str) : list N := flat_map utf8 s.
(** The character with number [i] starts at byte [b], or the text has [i] characters and [b] bytes *)
Definition char_at (s : str) (i b : nat) : Prop := (i <= length s)%nat /\ b = length (bytes (firstn i s)).
