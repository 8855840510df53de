(** Conversions between float, double and the integer types, and the code that
    goes through double although its operands are of another type. *)
From Coq Require Import ZArith Reals List Bool.
From Flocq Require Import Core BinarySingleNaN.
From Verif Require Import Base Scalar Utility Float.
Open Scope Z_scope.

(** static_cast between binary formats: round to nearest, ties to even; infinities,
    signed zeros and NaN are kept. *)
Definition cast {p1 e1} p2 e2 `{Prec_gt_0 p2} `{Prec_lt_emax p2 e2} (x : binary_float p1 e1) : binary_float p2 e2 :=
  match x with
  | B754_zero s => B754_zero s
  | B754_infinity s => B754_infinity s
  | B754_nan => B754_nan
  | B754_finite s m e _ => binary_normalize p2 e2 _ _ mode_NE (cond_Zopp s (Zpos m)) e s
  end.

(** float to double and double to float. *)
Definition widen (x : float) : double := cast 53 1024 x.
Definition narrow (x : double) : float := cast 24 128 x.

(** Integer to double, and double to integer type N: the value is truncated; outside
    the range of N, or not finite, the behaviour is undefined. *)
Definition double_of_int (z : Z) : double := binary_normalize 53 1024 _ _ mode_NE z 0 false.
Definition int_of_double (N : itype) (x : double) : outcome Z :=
  if is_finite x then
    let z := Btrunc x in
    if (it_min N <=? z) && (z <=? it_max N) then Ret z else Undef
  else Undef.

(** ops::relu_scalar (ops/activation.hpp:23-29) for an integer type R: the type of
    [x > 0 ? x : 0.0] is double, and the result is converted back to R. *)
Definition relu_scalar_int (N : itype) (x : Z) : outcome Z :=
  int_of_double N (if 0 <? x then double_of_int x else B754_zero false).
(** ... for float, [x > 0] compares with 0 converted to float ... *)
Definition relu_scalar_float (x : float) : float :=
  narrow (if Bltb (B754_zero false) x then widen x else B754_zero false).
(** ... and for double. *)
Definition relu_scalar_double (x : double) : double :=
  if Bltb (B754_zero false) x then x else B754_zero false.

(** The pixel functions [p / 255.0] (examples/example_train_mnist_slp.cpp:83,
    tests/test_pointwise.cpp:32): p is promoted to int and then to double, the
    quotient is a double; the test and the example convert it to float. *)
Definition pixel (p : Z) : double := Bdiv mode_NE (double_of_int p) (double_of_int 255).
Definition pixel_float (p : Z) : float := narrow (pixel p).
