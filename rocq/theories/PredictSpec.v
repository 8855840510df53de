(** Predicted classes and distributions. *)
From Coq Require Import ZArith Reals.
From Flocq Require Import Core BinarySingleNaN.
From Verif Require Import Base RealScalar ActivationSpec.
Open Scope Z_scope.

(** [j] is the position of the greatest of f 0 .. f (n-1), the first one when
    there are several. *)
Definition first_greatest (n : Z) (f : Z -> R) (j : Z) : Prop :=
  0 <= j < n /\
  (forall k, 0 <= k < n -> (f k <= f j)%R) /\
  (forall k, 0 <= k < j -> (f k < f j)%R).

(** Non-negative numbers with sum 1. *)
Definition distribution (n : Z) (P : Z -> R) : Prop :=
  (forall i, 0 <= i < n -> (0 <= P i)%R) /\ rsum n P = 1%R.

(** The special cases of std::log (C standard, annex F.10.3.7) and that it is
    finite on positive finite numbers; nothing is assumed of its accuracy. *)
Definition log_ok {prec emax} (log_ : binary_float prec emax -> binary_float prec emax) : Prop :=
  (forall s, log_ (B754_zero s) = B754_infinity true) /\
  (forall v, is_finite v = true -> (0 < B2R v)%R -> is_finite (log_ v) = true).
