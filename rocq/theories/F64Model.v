(** * F64Model: the canvas with IEEE 754 double precision numbers *)
From Coq Require Import ZArith SpecFloat.
From Verif Require Import Base DrawModel CanvasModel F32Model.
Local Open Scope Z_scope.

(** [as f64] (dandy-draw/src/canvas.rs:34-37, 44, 59-61): every single precision number is a double precision number, only written with a
    longer mantissa *)
Definition to_f64 (x : spec_float) : spec_float :=
  match x with
  | S754_finite s m e => binary_normalize 53 1024 (if s then Zneg m else Zpos m) e s
  | other => other
  end.
(** [std::f64::consts::PI], dandy-draw/src/canvas.rs:3 *)
Definition f64_pi : spec_float := S754_finite false 7074237752028440 (-51).
(** dandy-draw/src/canvas.rs:32-64: [0.0], the initial line width 1.0, [2.0 * PI] and the tests of the HTML standard *)
Definition f64 : doubles f32 :=
  mk_doubles f32 spec_float to_f64 (S754_zero false) (binary_normalize 53 1024 1 0 false) (SFmul 53 1024 (binary_normalize 53 1024 2 0 false) f64_pi)
    (fun x => match x with S754_zero _ | S754_finite _ _ _ => true | _ => false end)
    (fun x => SFltb (S754_zero false) x) (fun x => SFltb x (S754_zero false)).
