(** Size of parameters and examples; repeated training steps. *)
From Coq Require Import ZArith Reals.
From Verif Require Import Base RealScalar ActivationSpec TrainSpec.
Open Scope Z_scope.

(** Sum of the squares of the parameters. *)
Definition sqnorm (d k : Z) (W : mat) (B : vec) : R :=
  (rsum d (fun a => rsum k (fun j => W a j ^ 2)) + rsum k (fun j => B j ^ 2))%R.

(** Mean over the examples of the sum of their squared entries. *)
Definition mean_square (n d : Z) (X : mat) : R :=
  (rsum n (fun i => rsum d (fun a => X i a ^ 2)) / IZR n)%R.

(** Every row of labels is a distribution. *)
Definition labelled (n k : Z) (Y : mat) : Prop :=
  forall i, 0 <= i < n -> (forall j, 0 <= j < k -> (0 <= Y i j)%R) /\ rsum k (Y i) = 1%R.

(** No prediction for the examples is clamped. *)
Definition clear (eps : R) (n d k : Z) (X : mat) (W : mat) (B : vec) : Prop :=
  forall i, 0 <= i < n -> unclamped eps k (scores d X W B i).
