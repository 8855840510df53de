(** Reordering the entries of an axis. *)
From Coq Require Import ZArith List.
From Verif Require Import Base Traits Scalar LinAlg Elem ElemSpec.
Import ListNotations.
Open Scope Z_scope.
Open Scope model_scope.

(** [f] reorders 0 .. n-1. *)
Definition reorders (n : Z) (f : Z -> Z) : Prop :=
  (forall k, 0 <= k < n -> 0 <= f k < n) /\
  (forall k k', 0 <= k < n -> 0 <= k' < n -> f k = f k' -> k = k').

(** Index with coordinate [p] replaced by [f] of it. *)
Definition at_axis (p : nat) (f : Z -> Z) (ix : list Z) : list Z :=
  firstn p ix ++ f (nth p ix 0) :: skipn (S p) ix.

(** A network with one hidden layer [t]: t = act(x w1 + b1), z = t w2 + b2. *)
Definition two_layers {V T} (dt : dtype V T) (sc : scalar T) (e1 e2 : engine) (act : T -> T)
    (x w1 b1 t w2 b2 z : tensor) : M V unit :=
  op_matmul dt sc e1 t x w1 ;;;
  op_bias dt hw (f_add sc) t t b1 ;;;
  op_pointwise dt act t t ;;;
  op_matmul dt sc e2 z t w2 ;;;
  op_bias dt hw (f_add sc) z z b2.

(** Proper calls of a bias operator and of batch normalisation: [ds] is the
    shape of the images, [n] the length of their channel axis [p]. *)
Definition bias_call {V T} (dt : dtype V T) (ds : list Z) (p : nat) (n : Z) (s : st V) (z x b : tensor)
    (X B : list Z -> T) : Prop :=
  Forall (fun d => 0 <= d) ds /\ nth p ds 0 = n /\ tdims z = ds /\ tdims x = ds /\ tdims b = [n] /\
  holds dt s x X /\ holds dt s b B /\ mapped s z /\ safe z x /\ disjoint z b.
Definition bn_call {V T} (dt : dtype V T) (ds : list Z) (p : nat) (n : Z) (s : st V) (y x m v : tensor)
    (X Mu Va : list Z -> T) : Prop :=
  Forall (fun d => 0 <= d) ds /\ nth p ds 0 = n /\ tdims y = ds /\ tdims x = ds /\ tdims m = [n] /\ tdims v = [n] /\
  holds dt s x X /\ holds dt s m Mu /\ holds dt s v Va /\ mapped s y /\ safe y x /\ disjoint y m /\ disjoint y v.

(** Proper calls of an operator on rows of length [n]. *)
Definition row_call {V T} (dt : dtype V T) (ds : list Z) (n : Z) (s : st V) (y x : tensor) (X : list Z -> T) : Prop :=
  Forall (fun d => 0 <= d) (ds ++ [n]) /\ tdims x = ds ++ [n] /\ holds dt s x X /\ mapped s y /\ disjoint y x.

(** The rows of [X2] are the rows of [X] reordered by [f]. *)
Definition rows_reordered {T} (ds : list Z) (n : Z) (f : Z -> Z) (X X2 : list Z -> T) : Prop :=
  forall ix k, valid ds ix -> 0 <= k < n -> X2 (ix ++ [k]) = X (ix ++ [f k]).

(** The elements of a tensor in storage order. *)
Definition elements {T} (x : tensor) (X : list Z -> T) : list T := map X (indices (tdims x)).
