(** Model of experimental/functional (invoke) and layers/concat.hpp. *)
From Coq Require Import ZArith List Bool.
From Verif Require Import Base Traits Scalar Elem Layers Examples.
Import ListNotations.
Open Scope Z_scope.
Open Scope model_scope.

(** ttl::nn::invoke<R>(f, x0, xs...) (include/ttl/nn/experimental/functional:7-15).
    [sh] is f(x0.shape(), xs.shape()...), [op y] is f(ref(y), x0, xs...).  The
    tensor [y] is a local variable that is moved to the caller. *)
Definition invoke {V} (sh : outcome (list Z)) (op : tensor -> M V unit) : M V tensor :=
  ds <- lift sh ;; moved_out ds (fun y => op y ;;; ret y).

Section Concat.
  Context {V T : Type} (dt : dtype V T).

  (** layers::concat_channel4d (layers/concat.hpp:6-18) with the shape function
      of ops/concat.hpp:12-17, for the two combinations of layout and number of
      inputs that have a kernel (kernels/cpu/concat.hpp). *)
  Definition concat_layer_nchw2 (x y : tensor) : M V layer :=
    z <- new_result (concat_shape 1 (tdims x) [tdims y]) (fun z => concat_nchw2 dt z x y) ;;
    ret (mklayer z []).
  Definition concat_layer_nhwc3 (w x y : tensor) : M V layer :=
    z <- new_result (concat_shape 3 (tdims w) [tdims x; tdims y]) (fun z => concat_nhwc3 dt z w x y) ;;
    ret (mklayer z []).
End Concat.
