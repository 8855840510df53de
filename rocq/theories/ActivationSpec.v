(** Specifications of softmax and cross entropy over the reals. *)
From Coq Require Import ZArith List Reals.
From Coquelicot Require Import Coquelicot.
From Verif Require Import Base Scalar RealScalar.
Import ListNotations.
Open Scope Z_scope.

(** Real sums over 0 .. n-1. *)
Definition rsum (n : Z) (f : Z -> R) : R := sum_over Rsc (zrange n) f.

(** softmax of a row of [n] numbers, clamped from below. *)
Definition softmax_fn (eps : R) (n : Z) (X : Z -> R) (i : Z) : R :=
  Rmax eps (exp (X i) / rsum n (fun j => exp (X j))).

(** No output of the row is clamped. *)
Definition unclamped (eps : R) (n : Z) (X : Z -> R) : Prop :=
  forall i, 0 <= i < n -> (eps < exp (X i) / rsum n (fun j => exp (X j)))%R.

(** Cross entropy of two rows. *)
Definition xent_fn (n : Z) (X Y : Z -> R) : R := (- rsum n (fun j => X j * ln (Y j)))%R.

(** [G] is the gradient at [X] of the real function [phi] of [n] variables:
    its derivative along every line through [X] is the inner product of [G]
    with the direction. *)
Definition is_gradient (n : Z) (phi : (Z -> R) -> R) (X G : Z -> R) : Prop :=
  forall D : Z -> R, is_derive (fun t : R => phi (fun j => X j + t * D j)%R) 0%R (rsum n (fun j => G j * D j)%R).

(** Row [ix] of a tensor. *)
Definition row {T} (X : list Z -> T) (ix : list Z) : Z -> T := fun j => X (ix ++ [j]).

(** What a call y := softmax(y) computes: entry k is computed when the entries
    before it have already been replaced.  [step Y k] is the new value of entry
    [k] computed from the contents [Y]. *)
Fixpoint overwrite {T} (step : (Z -> T) -> Z -> T) (k : nat) (X : Z -> T) : Z -> T :=
  match k with
  | O => X
  | S k' => let Y := overwrite step k' X in
            fun j => if j =? Z.of_nat k' then step Y j else Y j
  end.
