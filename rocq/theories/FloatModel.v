(** f32 as far as the ADSR envelope uses it, on the floats of the standard library's SpecFloat (exact
    IEEE 754 arithmetic, rounding to nearest even) with the precision of binary32. No proofs in
    this file. *)
From Coq Require Import ZArith NArith SpecFloat.
From Verif Require Import Base.
Set Implicit Arguments.

Definition f32 : Type := spec_float.
Definition f_zero : f32 := S754_zero false.
Definition f_one : f32 := S754_finite false 8388608 (-23).
Definition f_epsilon : f32 := S754_finite false 8388608 (-46).        (* f32::EPSILON, 2^-23 *)
Definition f_add : f32 -> f32 -> f32 := SFadd 24 128.
Definition f_sub : f32 -> f32 -> f32 := SFsub 24 128.
Definition f_mul : f32 -> f32 -> f32 := SFmul 24 128.
Definition f_div : f32 -> f32 -> f32 := SFdiv 24 128.
Definition f_of (n : N) : f32 := binary_normalize 24 128 (Z.of_N n) 0 false.   (* n as f32 *)
Definition is_nan (x : f32) : bool := match x with S754_nan => true | _ => false end.

(** f32::clamp(0.0, 1.0), which leaves NaN as it is. *)
Definition clamp01 (x : f32) : f32 :=
  let y := if SFltb x f_zero then f_zero else x in if SFltb f_one y then f_one else y.
(** f32::max, which ignores NaN. *)
Definition f_max (x y : f32) : f32 := if is_nan x then y else if is_nan y then x else if SFltb x y then y else x.

(** Duration::as_secs_f32, of a duration in nanoseconds. *)
Definition billion : N := 1000000000.
Definition secs_of (n : N) : f32 := f_add (f_of (n / billion)) (f_div (f_of (n mod billion)) (f_of billion)).
Definition secs (t : nat) : f32 := secs_of (N.of_nat t).
