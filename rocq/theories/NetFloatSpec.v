(** How far rounding may move the result of a network. *)
From Coq Require Import ZArith List Bool Reals.
From Flocq Require Import Core BinarySingleNaN.
From Verif Require Import Base Traits Scalar RealScalar Conv ConvSpec LinAlg Backprop BackpropSpec StableSpec
  FloatSpec FloatSumSpec FloatSoftSpec.
Import ListNotations.
Open Scope Z_scope.

(** The layer uses the multiplication that is built in: the order in which a
    CBLAS library adds up products is not specified. *)
Definition builtin (L : layer) : Prop :=
  match L with
  | LMatmul e _ _ _ | LConv e _ _ _ _ _ _ _ _ _ _ => e = Builtin
  | _ => True
  end.

Section NetFloatSpec.
  Context (prec emax : Z).
  Notation flt := (binary_float prec emax).
  Notation u := (unit_roundoff prec).
  Notation eta := (half_tiny prec emax).

  (** The real numbers that the floating-point numbers of a tensor stand for. *)
  Definition reals (X : list Z -> flt) : tens := fun ix => B2R (X ix).

  Definition finite_on (ds : list Z) (X : list Z -> flt) : Prop :=
    forall ix, valid ds ix -> is_finite (X ix) = true.

  (** The parameter is finite; [b] bounds what is added to the input. *)
  Definition weights_ok (L : layer) (P : list Z -> flt) (b : R) : Prop :=
    finite_on (par_shape L) P /\
    match L with
    | LAdd _ | LBias _ _ | LBiasImg _ _ _ _ => (0 <= b)%R /\ bounded (par_shape L) b (reals P)
    | _ => True
    end.

  Fixpoint all_weights_ok (k : nat) (net : list layer) (P : nat -> list Z -> flt) (B : nat -> R) : Prop :=
    match net with
    | [] => True
    | L :: net => weights_ok L (P k) (B k) /\ all_weights_ok (S k) net P B
    end.

  (** No exact result of the layer exceeds this when no input exceeds [m]; [a]
      is the factor of the layer. *)
  Definition reach (L : layer) (a b m : R) : R :=
    match L with
    | LAdd _ | LBias _ _ | LBiasImg _ _ _ _ => (m + b)%R
    | LMul _ | LMatmul _ _ _ _ | LConv _ _ _ _ _ _ _ _ _ _ _ => (a * m)%R
    | LRelu _ | LFlatten _ _ => m
    | LSoftmax _ _ => 1%R
    end.

  (** The roundings of a layer, [d] being the accuracy of std::exp. *)
  Definition rounding (d : R) (L : layer) (a b m : R) : R :=
    match L with
    | LAdd _ | LBias _ _ | LBiasImg _ _ _ _ => (u * reach L a b m)%R
    | LMul _ => (u * reach L a b m + eta)%R
    | LMatmul _ _ l _ => dot_bound prec emax (Z.to_nat l) (reach L a b m)
    | LConv _ _ _ _ _ c r s _ _ _ => dot_bound prec emax (Z.to_nat (r * s * c)) (reach L a b m)
    | LRelu _ | LFlatten _ _ => 0%R
    | LSoftmax _ n =>
        ((1 + u) / soft_lo prec d (2 * m) (Z.to_nat n) - (1 - u) / soft_hi prec d (2 * m) (Z.to_nat n) + eta)%R
    end.

  (** Nothing overflows; softmax: the exponentials of the differences of the
      inputs stay in range, and so does their sum. *)
  Definition room (d : R) (exp_ : flt -> flt) (L : layer) (a b m : R) : Prop :=
    (reach L a b m + rounding d L a b m + eta < bpow radix2 emax)%R /\
    match L with
    | LSoftmax _ n =>
        let N := Z.to_nat n in
        (0 <= d < 1)%R /\ exp_acc prec emax d ((1 + u) * (2 * m)) exp_ /\ in_range prec emax (2 * m) /\
        ((1 + u) ^ Nat.pred N < 2)%R /\
        (soft_hi prec d (2 * m) N * (IZR n * exp (2 * m)) < bpow radix2 emax)%R /\
        ((1 + u) / soft_lo prec d (2 * m) N + eta < bpow radix2 emax)%R
    | _ => True
    end.

  (** The same for every layer; [m] bounds the input of the first of them. *)
  Fixpoint net_room (d : R) (exp_ : flt -> flt) (k : nat) (net : list layer) (A B : nat -> R) (m : R) : Prop :=
    match net with
    | [] => True
    | L :: net => room d exp_ L (A k) (B k) m /\
                  net_room d exp_ (S k) net A B (reach L (A k) (B k) m + rounding d L (A k) (B k) m)%R
    end.

  (** The distance of the computed from the exact result, [e] being the distance
      of the inputs: every layer enlarges what it is given by its factor and
      adds its own roundings. *)
  Fixpoint net_error (d : R) (k : nat) (net : list layer) (A B : nat -> R) (m e : R) : R :=
    match net with
    | [] => e
    | L :: net =>
        let r := rounding d L (A k) (B k) m in
        net_error d (S k) net A B (reach L (A k) (B k) m + r) (A k * e + r)
    end%R.
End NetFloatSpec.
