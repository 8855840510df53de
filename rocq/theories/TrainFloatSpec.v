(** What rounding may do to a training run. *)
From Coq Require Import ZArith List Reals.
From Flocq Require Import Core BinarySingleNaN.
From Verif Require Import Base Scalar RealScalar ActivationSpec Backprop FloatSpec FloatSumSpec FloatSoftSpec FloatGradSpec NetFloatSpec.
Import ListNotations.
Open Scope R_scope.

Section TrainFloatSpec.
  Context (prec emax : Z).
  Notation flt := (binary_float prec emax).
  Notation u := (unit_roundoff prec).
  Notation eta := (half_tiny prec emax).
  Notation matrix := (Z -> Z -> flt).
  Notation vector := (Z -> flt).

  (** Batches of [n] examples of [d] numbers, [k] classes.  No number exceeds
      [peak]; the absolute values of the numbers of an example sum to at most
      [l1].  The weight of an example is 1 / n up to the relative error [omega];
      [eps] is the lower bound of softmax. *)
  Context (n d k : Z) (l1 peak omega eps : R).

  (** Examples and labels: the labels of an example are non-negative and sum to
      at most 1 (one-hot, or nothing at all). *)
  Definition examples (X Y : matrix) : Prop :=
    forall i, (0 <= i < n)%Z ->
      (forall a, (0 <= a < d)%Z -> is_finite (X i a) = true /\ Rabs (B2R (X i a)) <= peak) /\
      (forall j, (0 <= j < k)%Z -> is_finite (Y i j) = true /\ 0 <= B2R (Y i j)) /\
      rsum k (fun j => B2R (Y i j)) <= 1.
  Definition light (X : matrix) : Prop :=
    forall i, (0 <= i < n)%Z -> rsum d (fun a => Rabs (B2R (X i a))) <= l1.

  (** All parameters are finite and at most [m]. *)
  Definition params_within (m : R) (p : matrix * vector) : Prop :=
    (forall a j, (0 <= a < d)%Z -> (0 <= j < k)%Z -> is_finite (fst p a j) = true /\ Rabs (B2R (fst p a j)) <= m) /\
    (forall j, (0 <= j < k)%Z -> is_finite (snd p j) = true /\ Rabs (B2R (snd p j)) <= m).
  (** They differ from the real parameters by at most [e]. *)
  Definition params_close (e : R) (p : matrix * vector) (q : (Z -> Z -> R) * (Z -> R)) : Prop :=
    (forall a j, (0 <= a < d)%Z -> (0 <= j < k)%Z -> Rabs (B2R (fst p a j) - fst q a j) <= e) /\
    (forall j, (0 <= j < k)%Z -> Rabs (B2R (snd p j) - snd q j) <= e).

  (** ** Gradients *)

  Definition weight : R := (1 + omega) / IZR n.
  Definition rate_ok (c : flt) : Prop := is_finite c = true /\ 0 <= B2R c /\ Rabs (B2R c - / IZR n) <= omega / IZR n.

  (** The gradients with respect to the scores: what underflow adds, all
      roundings (those of the gradient of the cross entropy and those of the
      gradient of softmax), and the largest value. *)
  Definition delta_tiny : R := INR (Z.to_nat k) * (((1 + u) * weight + 1) * eta).
  Definition delta_rounding : R :=
    soft_grad_bound prec emax (Z.to_nat k) ((1 + u) ^ 2 * weight + delta_tiny) ((1 + u) ^ 2 * (weight / eps) + delta_tiny) +
    (((1 + u) ^ 2 - 1) * weight + delta_tiny).
  Definition delta_size : R := weight + delta_rounding.

  (** The gradients with respect to the parameters. *)
  Definition grad_size : R := IZR n * peak * delta_size.
  Definition grad_rounding : R := dot_bound prec emax (Z.to_nat n) grad_size.

  (** No label divided by a probability overflows. *)
  Definition ratio_room : Prop :=
    in_range prec emax (/ eps) /\ (1 + u) ^ 2 * (weight / eps) + ((1 + u) * weight + 1) * eta < bpow radix2 emax.

  (** ** Steps *)

  (** Parameters of at most [m] do not exceed this after a step. *)
  Definition step_size (m : R) : R := (1 + u) * (m + grad_size + grad_rounding).
  Definition step_room (m : R) : Prop := step_size m + eta < bpow radix2 emax.

  (** The scores computed from parameters of at most [m]: their roundings, their
      size, and what softmax makes of errors [e] of the parameters ([acc] is the
      accuracy of std::exp). *)
  Definition score_rounding (m : R) : R :=
    let r := dot_bound prec emax (Z.to_nat d) (l1 * m) in r + u * (l1 * m + r + m).
  Definition score_size (m : R) : R := l1 * m + m + score_rounding m.
  Definition score_room (acc : R) (exp_ : flt -> flt) (m : R) : Prop :=
    score_size m + eta < bpow radix2 emax /\ room prec emax acc exp_ (LSoftmax 1 k) (/ 2) 0 (score_size m).
  Definition prob_error (acc m e : R) : R :=
    / 2 * ((l1 + 1) * e + score_rounding m) + rounding prec emax acc (LSoftmax 1 k) (/ 2) 0 (score_size m).

  (** The distance of the computed from the exact parameters after a step. *)
  Definition step_error (acc m e : R) : R :=
    e + IZR n * peak * (weight * prob_error acc m e + omega / IZR n + delta_rounding) + grad_rounding +
    u * (m + grad_size + grad_rounding).

  (** ... after [t] steps. *)
  Fixpoint train_size (t : nat) (m : R) : R :=
    match t with
    | O => m
    | S t => step_size (train_size t m)
    end.
  Fixpoint train_error (acc : R) (t : nat) (m e : R) : R :=
    match t with
    | O => e
    | S t => step_error acc (train_size t m) (train_error acc t m e)
    end.
End TrainFloatSpec.
