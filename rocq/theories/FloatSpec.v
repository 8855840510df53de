(** What rounding may do to a sum of products. *)
From Coq Require Import ZArith Reals List.
From Flocq Require Import Core BinarySingleNaN.
From Verif Require Import Base Scalar RealScalar.
Open Scope Z_scope.

Section FloatSpec.
  Context (prec emax : Z).

  (** Half the distance of 1 to the next number (2^-24 for float), and half the
      smallest positive number (2^-150 for float). *)
  Definition unit_roundoff : R := (/ 2 * bpow radix2 (- prec + 1))%R.
  Definition half_tiny : R := (/ 2 * bpow radix2 (3 - emax - prec))%R.

  (** The error bound of a sum of [n] products whose absolute values sum up to
      [T]. *)
  Definition dot_bound (n : nat) (T : R) : R :=
    (((1 + unit_roundoff) ^ n - 1) * T + INR n * half_tiny * (1 + unit_roundoff) ^ n)%R.

  (** The sum cannot overflow. *)
  Definition no_overflow (n : nat) (T : R) : Prop := (T + dot_bound n T < bpow radix2 emax)%R.

  (** [v] is finite and approximates the sum over [l] of the products of [a] and
      [b] taken in exact arithmetic. *)
  Definition approximates {A} (l : list A) (a b : A -> R) (v : binary_float prec emax) : Prop :=
    is_finite v = true /\
    (Rabs (B2R v - sum_over Rsc l (fun k => a k * b k))
       <= dot_bound (length l) (sum_over Rsc l (fun k => Rabs (a k * b k))))%R.

  (** The special cases of std::exp (C standard, annex F.10.3.1) and its sign;
      nothing else is assumed of its accuracy. *)
  Definition exp_ok (exp_ : binary_float prec emax -> binary_float prec emax) : Prop :=
    (forall x, is_nan x = true -> is_nan (exp_ x) = true) /\
    (forall x, is_nan x = false -> is_nan (exp_ x) = false /\ Bltb (exp_ x) (B754_zero false) = false) /\
    (forall s, B2R (exp_ (B754_zero s)) = 1%R) /\
    exp_ (B754_infinity false) = B754_infinity false.

  (** An integer value. *)
  Definition integral (v : binary_float prec emax) (z : Z) : Prop := is_finite v = true /\ B2R v = IZR z.
End FloatSpec.
