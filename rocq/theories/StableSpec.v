(** How far small changes of the input and of the parameters of a network move
    its result. *)
From Coq Require Import ZArith List Bool Reals.
From Verif Require Import Base Traits Scalar RealScalar Conv ConvSpec ActivationSpec Backprop BackpropSpec.
Import ListNotations.
Open Scope Z_scope.

(** ** Inference: the tensors used by the forward calls alone *)

(** The shapes of the values between the layers and of the parameters. *)
Definition infer_nodes (d0 : list Z) (net : list layer) (c : node) : option (list Z) :=
  match c with
  | Out _ | Par _ => net_nodes 0 d0 net c
  | _ => None
  end.

(** The parameters of the layers number k, k+1, ... hold [P]. *)
Fixpoint params_held {V T} (dt : dtype V T) (E : node -> tensor) (s : st V) (k : nat) (net : list layer)
  (P : nat -> list Z -> T) : Prop :=
  match net with
  | [] => True
  | L :: net => holds dt s (E (Par k)) (P k) /\ params_held dt E s (S k) net P
  end.

(** ** Distances *)

Notation tens := (list Z -> R).

(** The entries of two tensors of shape [ds] differ by at most [d]. *)
Definition close (ds : list Z) (d : R) (X X' : tens) : Prop :=
  forall ix, valid ds ix -> (Rabs (X ix - X' ix) <= d)%R.

(** The entries are at most [m] in absolute value. *)
Definition bounded (ds : list Z) (m : R) (X : tens) : Prop :=
  forall ix, valid ds ix -> (Rabs (X ix) <= m)%R.

(** [a] bounds the factor by which a layer with parameter [P] enlarges
    differences of its input: the largest sum of the absolute values of the
    weights that lead to one output. *)
Definition gain (L : layer) (P : tens) (a : R) : Prop :=
  match L with
  | LAdd _ | LBias _ _ | LBiasImg _ _ _ _ | LRelu _ | LFlatten _ _ => (1 <= a)%R
  | LMul ds => (0 <= a)%R /\ bounded ds a P
  | LMatmul _ _ l n => (0 <= a)%R /\ forall j, 0 <= j < n -> (rsum l (fun k => Rabs (P [k; j])) <= a)%R
  | LConv _ _ _ _ _ c r s d _ _ =>
      (0 <= a)%R /\
      forall t, 0 <= t < d -> (sum_over Rsc (indices [r; s; c]) (arg3 (fun p q k => Rabs (P [p; q; k; t]))) <= a)%R
  | LSoftmax _ _ => (/ 2 <= a)%R
  end.

Fixpoint gains (k : nat) (net : list layer) (P : nat -> tens) (A : nat -> R) : Prop :=
  match net with
  | [] => True
  | L :: net => gain L (P k) (A k) /\ gains (S k) net P A
  end.

(** The product of the factors. *)
Fixpoint net_gain (k : nat) (net : list layer) (A : nat -> R) : R :=
  match net with
  | [] => 1%R
  | _ :: net => (A k * net_gain (S k) net A)%R
  end.

(** By how much a change of the parameter by at most 1 moves the result when no
    entry of the input exceeds [m]. *)
Definition par_gain (L : layer) (m : R) : R :=
  match L with
  | LAdd _ | LBias _ _ | LBiasImg _ _ _ _ => 1%R
  | LMul _ => m
  | LMatmul _ _ l _ => (IZR l * m)%R
  | LConv _ _ _ _ _ c r s _ _ _ => (IZR (r * s * c) * m)%R
  | LRelu _ | LSoftmax _ _ | LFlatten _ _ => 0%R
  end.

(** The distance of the results when the inputs differ by [d] and the parameters
    of layer i by [G i], layer i having the factor [A i] and inputs of at most [M i]. *)
Fixpoint drift (k : nat) (net : list layer) (A M G : nat -> R) (d : R) : R :=
  match net with
  | [] => d
  | L :: net => drift (S k) net A M G (A k * d + par_gain L (M k) * G k)%R
  end.

(** No entry of the input of layer i exceeds [M i]. *)
Fixpoint net_bounded (eps : R) (k : nat) (net : list layer) (P : nat -> tens) (X : tens) (M : nat -> R) : Prop :=
  match net with
  | [] => True
  | L :: net => (0 <= M k)%R /\ bounded (in_shape L) (M k) X /\ net_bounded eps (S k) net P (layer_fn eps L (P k) X) M
  end.

(** The parameters of layer i differ by at most [G i]. *)
Fixpoint pars_close (k : nat) (net : list layer) (P P' : nat -> tens) (G : nat -> R) : Prop :=
  match net with
  | [] => True
  | L :: net => (0 <= G k)%R /\ close (par_shape L) (G k) (P k) (P' k) /\ pars_close (S k) net P P' G
  end.

(** In every row of [n] numbers one entry exceeds all the others by more than [g]. *)
Definition leads (n : Z) (f : Z -> R) (g : R) (j : Z) : Prop :=
  0 <= j < n /\ forall k, 0 <= k < n -> k <> j -> (f k + g < f j)%R.
