(** Model of ops/transpose.hpp. *)
From Coq Require Import ZArith List Bool.
From Verif Require Import Base.
Import ListNotations.
Open Scope Z_scope.
Open Scope model_scope.

(** transpose<nchw, nhwc> shape (ops/transpose.hpp:19-23). *)
Definition to_first_shape (x : list Z) : list Z :=
  [nth 0 x 0; nth 3 x 0; nth 1 x 0; nth 2 x 0].

(** transpose<nhwc, nchw> shape (ops/transpose.hpp:46-50). *)
Definition to_last_shape (x : list Z) : list Z :=
  [nth 0 x 0; nth 2 x 0; nth 3 x 0; nth 1 x 0].

Section Transpose.
  (** Source elements of type [S_], target elements of type [R]; [f] is the
      function object including the conversion to [R]. *)
  Context {V R S_ : Type} (dr : dtype V R) (ds : dtype V S_) (f : S_ -> R).

  (** transpose<nchw, nhwc> (ops/transpose.hpp:25-40). *)
  Definition to_first (y x : tensor) : M V unit :=
    let n := nth_dim x 0 in let h := nth_dim x 1 in
    let w := nth_dim x 2 in let c := nth_dim x 3 in
    for_ (zrange n) (fun l => for_ (zrange c) (fun k =>
      for_ (zrange h) (fun i => for_ (zrange w) (fun j =>
        v <- at_ ds x [l; i; j; k] ;;
        set_ dr y [l; k; i; j] (f v))))).

  (** transpose<nhwc, nchw> (ops/transpose.hpp:52-67). *)
  Definition to_last (y x : tensor) : M V unit :=
    let n := nth_dim x 0 in let c := nth_dim x 1 in
    let h := nth_dim x 2 in let w := nth_dim x 3 in
    for_ (zrange n) (fun l => for_ (zrange h) (fun i =>
      for_ (zrange w) (fun j => for_ (zrange c) (fun k =>
        v <- at_ ds x [l; k; i; j] ;;
        set_ dr y [l; i; j; k] (f v))))).
End Transpose.
