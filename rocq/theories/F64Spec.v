(** * F64Spec: values of double precision numbers, and marks on a canvas with rational coordinates *)
From Coq Require Import List NArith ZArith QArith Bool SpecFloat.
From Verif Require Import Base Spec DrawModel DrawSpec CanvasModel CanvasSpec F32Model F32Spec F64Model.
Import ListNotations.

(** The numbers that a [f32] can be: mantissas of 24 bits *)
Definition single (x : F f32) : Prop :=
  match x with S754_finite _ m e => (Zpos m < 2 ^ 24 /\ -149 <= e <= 104)%Z | _ => True end.
Definition f64_value (x : D f64) : option Q :=
  match x with
  | S754_zero _ => Some 0%Q
  | S754_finite s m e => Some (Qred (inject_Z (if s then Zneg m else Zpos m) * Qpower 2 e))
  | _ => None
  end.

(** two times the double precision number that is closest to pi *)
Definition whole_turn : Q := 884279719003555 # 140737488355328.
(** A mark is the shape: a line of the right colour, width and ends; a whole circle; a centred text *)
Definition is_point (p : point f64) (q : Q * Q) : Prop :=
  match p with PAt _ x y => f64_value x = Some (fst q) /\ f64_value y = Some (snd q) | _ => False end.
Definition mark_is (m : mark f64) (cs : option colour * @shape rationals) : Prop :=
  let '(c, s) := cs in
  match m, s with
  | MStroke _ style width [SLine _ a b], Line p q t => style = css c /\ is_point a p /\ is_point b q /\ f64_value width = Some t
  | MStroke _ style width [SArc _ x y r from to], Circle p r' t =>
      style = css c /\ f64_value x = Some (fst p) /\ f64_value y = Some (snd p) /\ f64_value r = Some r' /\
      f64_value from = Some 0%Q /\ f64_value to = Some whole_turn /\ f64_value width = Some t
  | MText _ style align baseline x y text, Text p text' =>
      style = css c /\ align = [99; 101; 110; 116; 101; 114]%N /\ baseline = [109; 105; 100; 100; 108; 101]%N /\
      f64_value x = Some (fst p) /\ f64_value y = Some (snd p) /\ text = text'
  | _, _ => False
  end.
