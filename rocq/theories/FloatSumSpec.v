(** What rounding may do to sums, means and single operations. *)
From Coq Require Import ZArith Reals List.
From Flocq Require Import Core BinarySingleNaN.
From Verif Require Import Base Scalar RealScalar FloatSpec.
Open Scope R_scope.

Section FloatSumSpec.
  Context (prec emax : Z).
  Notation u := (unit_roundoff prec).
  Notation eta := (half_tiny prec emax).
  Notation flt := (binary_float prec emax).

  (** [v] is finite and differs from [r] by at most [b]. *)
  Definition within (b r : R) (v : flt) : Prop := is_finite v = true /\ Rabs (B2R v - r) <= b.

  (** A sum of [n] numbers whose absolute values sum up to [T] is the result of
      [n - 1] roundings; it never underflows. *)
  Definition sum_bound (n : nat) (T : R) : R := ((1 + u) ^ Nat.pred n - 1) * T.
  Definition sum_fits (n : nat) (T : R) : Prop := (1 + u) ^ Nat.pred n * T < bpow radix2 emax.

  (** [v] approximates the sum of the [f a] over [l]. *)
  Definition sums {A} (l : list A) (f : A -> R) (v : flt) : Prop :=
    within (sum_bound (length l) (sum_over Rsc l (fun a => Rabs (f a)))) (sum_over Rsc l f) v.

  (** [v] approximates the mean of the [f a]: one more rounding, which may
      underflow. *)
  Definition means {A} (l : list A) (f : A -> R) (v : flt) : Prop :=
    let n := length l in
    within (((1 + u) ^ n - 1) * (sum_over Rsc l (fun a => Rabs (f a)) / INR n) + eta)
           (sum_over Rsc l f / INR n) v.

  (** Results of this size do not overflow. *)
  Definition in_range (r : R) : Prop := (1 + u) * Rabs r + eta < bpow radix2 emax.
End FloatSumSpec.
