(** * F32Model: the numbers of drawings are IEEE 754 single precision numbers

    Everywhere else the type [f32] of dandy-draw/src/lib.rs is any type with any operations ([floats]).  Here it is binary32 with
    rounding to the nearest even number, as specified by Coq's library [SpecFloat] (which is the format of Rust's [f32]). *)
From Coq Require Import ZArith SpecFloat.
From Verif Require Import Base DrawModel.

(** The operators [+], [-], [*], [/], unary [-], [as f32] and the constant [0.5] of dandy-draw/src/lib.rs:156-314 and
    dandy-draw/src/pos2.rs:31-109: 24 bits of precision, exponents below 128 *)
Definition f32 : floats :=
  mk_floats spec_float (SFadd 24 128) (SFsub 24 128) (SFmul 24 128) (SFdiv 24 128) SFopp
            (fun n => binary_normalize 24 128 (Z.of_nat n) 0 false) (S754_finite false 8388608 (-24)).
