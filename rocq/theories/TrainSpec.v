(** Specification of the training example over the reals. *)
From Coq Require Import ZArith List Reals.
From Coquelicot Require Import Coquelicot.
From Verif Require Import Base Scalar RealScalar ActivationSpec Train.
Import ListNotations.
Open Scope Z_scope.

(** Shapes of the variables for a batch of [n] examples of [d] numbers and [k]
    classes. *)
Definition var_shape (n d k : Z) (v : var) : list Z :=
  match v with
  | W_ | G_W => [d; k]
  | B_ | G_B => [k]
  | XS => [n; d]
  | ZS | YS | Y_S | G_YS | G_ZS => [n; k]
  | LS | G_LS => [n]
  | L_ | G_L => []
  end.

(** The variables have these shapes and share no memory. *)
Definition env_ok (n d k : Z) (E : var -> tensor) : Prop :=
  (forall v, tdims (E v) = var_shape n d k v) /\ (forall u v, u <> v -> disjoint (E u) (E v)).

(** Only the variables in [P] may have changed. *)
Definition only_vars {V} (P : var -> Prop) (E : var -> tensor) (s s' : st V) : Prop :=
  nextb s <= nextb s' /\
  forall p, (forall v, P v -> ~ foot (E v) p) -> cells s' p = cells s p.

(** The variables read but not written by a step. *)
Definition is_input (v : var) : Prop := v = XS \/ v = Y_S \/ v = G_L \/ v = G_LS.

Definition mat := Z -> Z -> R.
Definition vec := Z -> R.

(** Class scores of the examples [X] under weights [W] and biases [B]. *)
Definition scores (d : Z) (X W : mat) (B : vec) (i : Z) : vec :=
  fun j => (rsum d (fun a => X i a * W a j) + B j)%R.

(** Predicted probabilities. *)
Definition predict (eps : R) (d k : Z) (X W : mat) (B : vec) (i : Z) : vec :=
  softmax_fn eps k (scores d X W B i).

(** Mean cross entropy between the labels [Y] and the predictions. *)
Definition slp_loss (eps : R) (n d k : Z) (X Y W : mat) (B : vec) : R :=
  (rsum n (fun i => xent_fn k (Y i) (predict eps d k X W B i)) / IZR n)%R.

(** (GW, GB) is the gradient of [phi] at (W, B): the derivative along every
    direction is the inner product. *)
Definition is_gradient2 (d k : Z) (phi : mat -> vec -> R) (W : mat) (B : vec) (GW : mat) (GB : vec) : Prop :=
  forall (DW : mat) (DB : vec),
    is_derive (fun t : R => phi (fun a j => W a j + t * DW a j)%R (fun j => B j + t * DB j)%R) 0%R
      (rsum d (fun a => rsum k (fun j => GW a j * DW a j)) + rsum k (fun j => GB j * DB j))%R.

(** Error of the predictions, per score. *)
Definition slp_delta (eps : R) (n d k : Z) (X Y W : mat) (B : vec) : mat :=
  fun i j => ((predict eps d k X W B i j * rsum k (Y i) - Y i j) / IZR n)%R.

Definition slp_gw (eps : R) (n d k : Z) (X Y W : mat) (B : vec) : mat :=
  fun a j => rsum n (fun i => X i a * slp_delta eps n d k X Y W B i j)%R.
Definition slp_gb (eps : R) (n d k : Z) (X Y W : mat) (B : vec) : vec :=
  fun j => rsum n (fun i => slp_delta eps n d k X Y W B i j).

(** One step of gradient descent with rate 1. *)
Definition descend (eps : R) (n d k : Z) (X Y : mat) (p : mat * vec) : mat * vec :=
  (fun a j => fst p a j - slp_gw eps n d k X Y (fst p) (snd p) a j,
   fun j => snd p j - slp_gb eps n d k X Y (fst p) (snd p) j)%R.

(** Batch number [o] of [n] examples out of images [I] (of width [w]) and
    labels [L]. *)
Definition batch_x (f : Z -> R) (w n : Z) (I : Z -> Z -> Z -> Z) (o : Z) : mat :=
  fun i a => f (I (o * n + i) (a / w) (a mod w)).
Definition batch_y (n : Z) (L : Z -> Z) (o : Z) : mat :=
  fun i j => if L (o * n + i) =? j then 1%R else 0%R.

(** One pass over the first [steps] batches. *)
Definition epoch (eps : R) (n d k : Z) (xs ys : Z -> mat) (steps : Z) (p : mat * vec) : mat * vec :=
  fold_left (fun p o => descend eps n d k (xs o) (ys o) p) (zrange steps) p.

(** [j] is the first position of the greatest of [k] numbers. *)
Definition first_max (k : Z) (X : vec) (j : Z) : Prop :=
  0 <= j < k /\ (forall i, 0 <= i < k -> (X i <= X j)%R) /\ (forall i, 0 <= i < j -> (X i < X j)%R).

(** How many of 0 .. n-1 satisfy the test. *)
Definition count (n : Z) (p : Z -> bool) : Z := Z.of_nat (length (List.filter p (zrange n))).
