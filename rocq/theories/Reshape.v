(** Model of ops::copy_flatten (ops/reshape.hpp:20-39) and of its gradient
    (ops/gradients/reshape.hpp:7-30). *)
From Coq Require Import ZArith List.
From Verif Require Import Base Elem Shapes.
Import ListNotations.
Open Scope Z_scope.

Section Reshape.
  Context {V T : Type} (dt : dtype V T).

  (** std::copy(x.data(), x.data_end(), y.data()) (ops/reshape.hpp:34-38): the
      length is the length of [x]; the shape of [y] is not looked at. *)
  Definition copy_flatten (y x : tensor) : M V unit := transform1 dt dt (fun v => v) y x.

  (** The shape function (ops/reshape.hpp:28-31). *)
  Definition copy_flatten_shape (rs : list nat) (x : list Z) : outcome (list Z) := Ret (flatten_shape rs x).

  (** ops/gradients/reshape.hpp:22-29. *)
  Definition grad_copy_flatten (gx gy : tensor) : M V unit := transform1 dt dt (fun v => v) gx gy.
End Reshape.
