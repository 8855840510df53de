(** Model of the example programs example_1.cpp, example_ops.cpp,
    example_mlp.cpp, example_layer_mlp.cpp and of examples/utils.hpp. *)
From Coq Require Import ZArith List Bool String.
From Verif Require Import Base Traits Shapes Scalar LinAlg Conv Conv1d Elem Activation Pool Reshape Layers.
Import ListNotations.
Open Scope Z_scope.
Open Scope model_scope.

(** The line printed by show_signature(y, x...) (examples/utils.hpp:9-19), from
    the shapes of the arguments; [ts] is ttl::to_string of stdtensor (external). *)
Definition show_signature (ts : list Z -> string) (y : list Z) (xs : list (list Z)) : string :=
  (ts y ++ " <- " ++ String.concat ", " (map ts xs))%string.

(** The line printed by pprint(t, name) (examples/utils.hpp:21-25). *)
Definition pprint (ts : list Z -> string) (t : list Z) (name : string) : string :=
  (name ++ " :: " ++ ts t)%string.

Section Programs.
  Context {V T : Type} (dt : dtype V T) (di : dtype V Z) (sc : scalar T) (e : engine).

  (** What is put into the tensor or parameter of the given name when it is
      made.  The programs as written put nothing: [fun _ => noop1]. *)
  Context (init : string -> tensor -> M V unit).

  (** [tensor<R, r> t(ds)] in a block whose rest is [k]. *)
  Definition local {A} (name : string) (ds : list Z) (k : tensor -> M V A) : M V A :=
    with_tensor ds (fun t => init name t ;;; k t).

  (** [tensor<R, r> y(op(shapes)); op(ref(y), ...)] in a block whose rest is [k]. *)
  Definition result {A} (sh : outcome (list Z)) (op : tensor -> M V unit) (k : tensor -> M V A) : M V A :=
    ds <- lift sh ;; with_tensor ds (fun y => op y ;;; k y).

  (** examples::example_add (examples/example_1.cpp:10-21). *)
  Definition example_add (n c h w : Z) : M V unit :=
    local "x" [n; h; w; c] (fun x =>
    local "y" [n; h; w; c] (fun y =>
    result (binary_endofunction (tdims x) (tdims y)) (fun z => op_add dt sc z x y) (fun _ => ret tt))).

  (** One block of example_conv (examples/example_1.cpp:32-49): the shape of [z]. *)
  Definition conv_block (C : conv_trait) (x y : tensor) : M V (list Z) :=
    result (conv_infer C nhwc rscd (tdims x) (tdims y)) (fun z => conv_nhwc dt di sc e C z x y) (fun z => ret (tdims z)).

  (** examples::example_conv (examples/example_1.cpp:23-50), for [r] x [s] = 3 x 3
      and [d] = 32; returns the shapes of the three results. *)
  Definition example_conv (n c h w r s d : Z) : M V (list (list Z)) :=
    local "x" [n; h; w; c] (fun x =>
    local "y" [r; s; c; d] (fun y =>
      z1 <- conv_block new_conv x y ;;
      z2 <- conv_block (new_conv_p (mkpadding 1 1) (mkpadding 1 1)) x y ;;
      z3 <- local "y2" [4; 4; c; d] (fun y2 =>
              conv_block (new_conv_ps (mkpadding 2 2) (mkpadding 2 2) 4 4) x y2) ;;
      ret [z1; z2; z3])).

  Context (lowest : T).

  (** examples::example_pool (examples/example_1.cpp:52-60). *)
  Definition example_pool (n c h w : Z) : M V (list Z) :=
    P <- lift new_pool ;;
    local "x" [n; h; w; c] (fun x =>
    result (pooled_shape nhwc P (tdims x)) (fun y => op_pool_nhwc dt (max_acc sc lowest) P y x) (fun y => ret (tdims y))).

  (** example_conv1d (examples/example_ops.cpp:3-10), for sizes [n] = 10 and
      [k] = 3; conv1d() has stride 1, rate 1, padding 0 (ops/conv1d.hpp:22-26). *)
  Definition example_conv1d (n k : Z) : M V (list Z) :=
    let f := mkconv1d 1 1 (mkpadding 0 0) in
    local "x" [n] (fun x =>
    local "y" [k] (fun y =>
    result (conv1d_shape f (tdims x) (tdims y)) (fun z => conv1d dt sc f z x y) (fun z => ret (tdims z)))).

  Context (ts : list Z -> string).

  (** example_mlp (examples/example_mlp.cpp:8-41): the lines printed, for
      [n], [h], [w], [c] = 10, 28, 28, 3 and [d1], [d2] = 32, 64. *)
  Definition example_mlp (n h w c d1 d2 : Z) : M V (list string) :=
    let C := new_conv_p (mkpadding 1 1) (mkpadding 1 1) in
    P <- lift new_pool ;;
    local "x" [n; h; w; c] (fun x =>
    local "w1" [3; 3; c; d1] (fun w1 =>
    result (conv_infer C nhwc rscd (tdims x) (tdims w1)) (fun l1 => conv_nhwc dt di sc e C l1 x w1) (fun l1 =>
    local "w2" [3; 3; d1; d2] (fun w2 =>
    result (conv_infer C nhwc rscd (tdims l1) (tdims w2)) (fun l2 => conv_nhwc dt di sc e C l2 l1 w2) (fun l2 =>
    result (pooled_shape nhwc P (tdims l2)) (fun l3 => op_pool_nhwc dt (max_acc sc lowest) P l3 l2) (fun l3 =>
    result (pooled_shape nhwc P (tdims l3)) (fun l4 => op_pool_nhwc dt (max_acc sc lowest) P l4 l3) (fun l4 =>
      ret [ show_signature ts (tdims l1) [tdims x; tdims w1];
            show_signature ts (tdims l2) [tdims l1; tdims w2];
            show_signature ts (tdims l3) [tdims l2];
            show_signature ts (tdims l4) [tdims l3] ]))))))).

  Context (exp_ : T -> T) (eps : T).

  (** [l.arg<i>()] (layers/layer.hpp:25-29): the shape of the [i]th weight. *)
  Definition arg_dims (l : layer) (i : nat) : list Z := tdims (nth i (weights l) (output l)).

  (** example_mlp (examples/example_layer_mlp.cpp:8-48): the lines printed, for
      [n], [h], [w], [c] = 10, 32, 32, 3, [d1], [d2] = 32, 64 and [k] = 1000
      logits.  The last tensor [l] is never written. *)
  Definition example_layer_mlp (n h w c d1 d2 k : Z) : M V (list string) :=
    local "x" [n; h; w; c] (fun x =>
    with_layer (conv_bias_layer dt di sc e nhwc noop2 (new_conf_k d1 3 3) (init "l1.0") (init "l1.1") x) (fun l1 =>
    with_layer (conv_bias_layer dt di sc e nhwc noop2 (new_conf_k d2 3 3) (init "l2.0") (init "l2.1") (output l1)) (fun l2 =>
    with_layer (pool_layer dt (max_acc sc lowest) nhwc (new_pconf 4 4 (padding_same U32) 4 4) (output l2)) (fun l3 =>
    let l3_flat := as_matrix 1 (output l3) in
    with_layer (dense dt sc e noop2 k (init "l4.0") (init "l4.1") l3_flat) (fun l4 =>
    with_layer (activation (op_softmax dt sc exp_ 2 eps) (output l4)) (fun l5 =>
    local "y_" (tdims (output l5)) (fun y_ =>
    ds <- lift (binary_reduce_function (tdims (output l5)) (tdims y_)) ;;
    with_tensor ds (fun l =>
      ret [ show_signature ts (tdims (output l1)) [tdims x; arg_dims l1 0; arg_dims l1 1];
            show_signature ts (tdims (output l2)) [tdims (output l1); arg_dims l2 0; arg_dims l2 1];
            show_signature ts (tdims (output l3)) [tdims (output l2)];
            show_signature ts (tdims l3_flat) [tdims (output l3)];
            show_signature ts (tdims (output l4)) [tdims l3_flat; arg_dims l4 0; arg_dims l4 1];
            show_signature ts (tdims (output l5)) [tdims (output l4)];
            show_signature ts (tdims l) [tdims (output l4); tdims y_] ])))))))).
End Programs.
