(** Accuracy of the C library's exp and log, and what it means for softmax and
    cross entropy. *)
From Coq Require Import ZArith Reals List.
From Flocq Require Import Core BinarySingleNaN.
From Verif Require Import Base Scalar RealScalar FloatSpec FloatSumSpec.
Open Scope R_scope.

Section FloatSoftSpec.
  Context (prec emax : Z).
  Notation u := (unit_roundoff prec).
  Notation flt := (binary_float prec emax).

  (** Between -D and D the function [exp_] has the relative accuracy [d]. *)
  Definition exp_acc (d D : R) (exp_ : flt -> flt) : Prop :=
    forall x, is_finite x = true -> Rabs (B2R x) <= D -> within prec emax (d * exp (B2R x)) (exp (B2R x)) (exp_ x).

  (** On positive numbers the function [log_] has the relative accuracy [d]. *)
  Definition log_acc (d : R) (log_ : flt -> flt) : Prop :=
    forall x, is_finite x = true -> 0 < B2R x -> within prec emax (d * Rabs (ln (B2R x))) (ln (B2R x)) (log_ x).

  (** The sum of [n] exponentials of numbers that differ by at most [B] comes
      out between [soft_lo] and [soft_hi] times its value. *)
  Definition soft_hi (d B : R) (n : nat) : R := (1 + d) * exp (u * B) * (1 + u) ^ Nat.pred n.
  Definition soft_lo (d B : R) (n : nat) : R := (1 - d) * exp (- (u * B)) * (2 - (1 + u) ^ Nat.pred n).
End FloatSoftSpec.
