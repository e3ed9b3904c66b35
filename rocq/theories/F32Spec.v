(** * F32Spec: the values of single precision numbers, and drawings with exact rational numbers *)
From Coq Require Import List NArith ZArith QArith Bool SpecFloat.
From Verif Require Import Base Spec DrawModel DrawSpec F32Model.
Import ListNotations.

(** Rational numbers in lowest terms *)
Definition rationals : floats :=
  mk_floats Q (fun a b => Qred (a + b)) (fun a b => Qred (a - b)) (fun a b => Qred (a * b)) (fun a b => Qred (a / b)) (fun a => Qred (- a))
            (fun n => inject_Z (Z.of_nat n)) (1 # 2).

(** The value of a number, in lowest terms; [None] for infinities and NaN *)
Definition f32_value (x : F f32) : option Q :=
  match x with
  | S754_zero _ => Some 0%Q
  | S754_finite s m e => Some (Qred (inject_Z (if s then Zneg m else Zpos m) * Qpower 2 e))
  | _ => None
  end.

(** A shape with coordinates of single precision and the same shape with rational coordinates *)
Definition same_point (x : F f32 * F f32) (q : Q * Q) : Prop := f32_value (fst x) = Some (fst q) /\ f32_value (snd x) = Some (snd q).
Definition same_shape (x : option colour * @shape f32) (q : option colour * @shape rationals) : Prop :=
  fst x = fst q /\
  match snd x, snd q with
  | Circle p r t, Circle p' r' t' => same_point p p' /\ f32_value r = Some r' /\ f32_value t = Some t'
  | Text p s, Text p' s' => same_point p p' /\ s = s'
  | Line p q t, Line p' q' t' => same_point p p' /\ same_point q q' /\ f32_value t = Some t'
  | _, _ => False
  end.

(** The total version of [f32_value] *)
Definition f32_val (x : F f32) : Q := match f32_value x with Some q => q | None => 0%Q end.

(** The drawing of an automaton with [n] states and with arrows on [levels] levels, moved by [x] and [y], is small *)
Definition small_drawing (n levels x y : nat) : Prop :=
  (80 * Z.of_nat n + 50 + Z.of_nat x < 2 ^ 22 /\ 25 * Z.of_nat levels + 165 + Z.of_nat y < 2 ^ 22)%Z.
