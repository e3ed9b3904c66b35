(** * RegexTrimSpec: the parts of an expression, with blank ones at the ends cut off *)
From Coq Require Import List NArith.
From Verif Require Import Base Spec LayoutSpec.
Import ListNotations.

(** The parts of an expression that are written one after the other *)
Fixpoint parts (t : regex_tree) : list regex_tree :=
  match t with
  | RSequence l => flat_map parts l
  | _ => [t]
  end.

(** The part [x] is a symbol consisting of whitespace *)
Definition blank (x : regex_tree) : Prop := exists g, x = RChar (RGrapheme g) /\ forall c, In c g -> whitespace c.

(** The parts [l] are [core] with blank ones around it, and [core] neither begins nor ends with a blank one *)
Definition strips_to (l before core after : list regex_tree) : Prop :=
  l = before ++ core ++ after /\ (forall x, In x before \/ In x after -> blank x) /\
  (forall x k, core = x :: k -> ~ blank x) /\ (forall x k, core = k ++ [x] -> ~ blank x).

(** The symbol [g] consists of whitespace, or neither begins nor ends with it *)
Definition plain_ends (g : str) : Prop :=
  (forall c, In c g -> whitespace c) \/ (forall c v, g = c :: v -> ~ whitespace c) /\ (forall c v, g = v ++ [c] -> ~ whitespace c).
