(** What rounding may do to gradients and variances. *)
From Coq Require Import ZArith Reals List.
From Flocq Require Import Core BinarySingleNaN.
From Verif Require Import Base Scalar RealScalar FloatSpec FloatSumSpec.
Open Scope R_scope.

Section FloatGradSpec.
  Context (prec emax : Z).
  Notation u := (unit_roundoff prec).
  Notation eta := (half_tiny prec emax).

  (** [k] sums of [n] products, added up; the absolute values of all products
      sum up to [T]. *)
  Definition sumdot_bound (n k : nat) (T : R) : R :=
    ((1 + u) ^ (n + Nat.pred k) - 1) * T + INR k * INR n * eta * (1 + u) ^ (n + Nat.pred k).

  (** Derivative of output [i] of softmax with respect to input [j], from the
      outputs [y]. *)
  Definition soft_jac (y : Z -> R) (i j : Z) : R := if Z.eqb i j then y i * (1 - y i) else - y i * y j.
  (** The sum over i of the incoming gradient times the derivative: [T] is the
      sum of the absolute values, [G] that of the incoming gradient. *)
  Definition soft_grad_bound (n : nat) (T G : R) : R :=
    ((1 + u) ^ (n + 2) - 1) * T + (1 + u) ^ n * (INR n + G) * eta.

  (** g * (- x / y) for r = - x / y. *)
  Definition xent_grad_bound (g r : R) : R := ((1 + u) ^ 2 - 1) * Rabs (g * r) + ((1 + u) * Rabs g + 1) * eta.

  (** The mean and the (population) variance of the [f a]. *)
  Definition mean_of {A} (l : list A) (f : A -> R) : R := sum_over Rsc l f / INR (length l).
  Definition var_of {A} (l : list A) (f : A -> R) : R := mean_of l (fun a => (f a - mean_of l f) ^ 2).
  (** How far the computed mean is off (C100). *)
  Definition mean_err {A} (l : list A) (f : A -> R) : R :=
    ((1 + u) ^ length l - 1) * mean_of l (fun a => Rabs (f a)) + eta.
  (** How far the computed variance of [n] numbers with variance [v] is off if
      the computed mean is off by at most [e]. *)
  Definition var_bound (n : nat) (v e : R) : R :=
    ((1 + u) ^ (n + 3) - 1) * v + (1 + u) ^ (n + 3) * e ^ 2 + ((1 + u) ^ n + 1) * eta.
  Definition var_fits (n : nat) (v e : R) : Prop :=
    INR n * ((1 + u) ^ (n + 3) * (v + e ^ 2) + (1 + u) ^ n * eta) < bpow radix2 emax.
End FloatGradSpec.
