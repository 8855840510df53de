(** Model of examples/example_model_vgg16.cpp: a network assembled from layers
    with models::sequential and layers::with_init.  (The printing macro PPRINT
    is left out.) *)
From Coq Require Import ZArith List Bool String Ascii.
From Verif Require Import Base Traits Scalar LinAlg Conv Elem Activation Pool Utility Io Layers.
Import ListNotations.
Open Scope Z_scope.
Open Scope model_scope.

(** vgg16_model::p (example_model_vgg16.cpp:38-41): readtar(prefix_, name).  A
    never ending indexing loop counts as undefined. *)
Definition tar_init {V T} (dt : dtype V T) (cd : codec T) (code : Z) (fuel : nat) (fs : filesystem) (prefix : list Z)
    (name : string) (y : tensor) : M V unit :=
  fun s => match op_readtar dt cd code fuel fs prefix (map (fun a => Z.of_nat (nat_of_ascii a)) (list_ascii_of_string name)) y s with
           | Some r => r
           | None => UB
           end.

Section Vgg.
  Context {V T : Type} (dt : dtype V T) (di : dtype V Z) (sc : scalar T) (exp_ : T -> T) (eps lowest : T) (e : engine).

  (** layers::with_init (models/sequential.hpp:6-39) for layers with two
      parameters: the initialisers are passed on in order. *)
  Definition with_init (layer_ : (tensor -> M V unit) -> (tensor -> M V unit) -> tensor -> M V layer)
      (i0 i1 : tensor -> M V unit) (x : tensor) : M V layer := layer_ i0 i1 x.

  (** conv(d) (example_model_vgg16.cpp:28-34) and pool(pool::ksize(2, 2))
      (layers/pool.hpp:43-48: padding same, stride = kernel). *)
  Definition vgg_conv (d : Z) : (tensor -> M V unit) -> (tensor -> M V unit) -> tensor -> M V layer :=
    conv_bias_layer dt di sc e nhwc (op_relu dt sc) (new_conf d 3 3 (padding_same U32) 1 1 1 1).
  Definition vgg_pool : tensor -> M V layer :=
    pool_layer dt (max_acc sc lowest) nhwc (new_pconf 2 2 (padding_same U32) 2 2).

  (** dense_relu(n), dense(n), softmax() (example_model_vgg16.cpp:22-25). *)
  Definition vgg_dense_relu (n : Z) : (tensor -> M V unit) -> (tensor -> M V unit) -> tensor -> M V layer :=
    dense dt sc e (op_relu dt sc) n.
  Definition vgg_dense (n : Z) : (tensor -> M V unit) -> (tensor -> M V unit) -> tensor -> M V layer :=
    dense dt sc e noop2 n.
  Definition vgg_softmax : tensor -> M V layer := activation (op_softmax dt sc exp_ 2 eps).

  (** [p name]: the initialiser p("name") (example_model_vgg16.cpp:38-41). *)
  Context (p : string -> tensor -> M V unit).

  (** A block of convolutions, each with its number of filters and its name,
      followed by pooling. *)
  Definition vgg_unit (u : Z * string) : tensor -> M V layer :=
    with_init (vgg_conv (fst u)) (p (snd u ++ "_W")%string) (p (snd u ++ "_b")%string).
  Definition vgg_block (b : list (Z * string)) : list (tensor -> M V layer) := map vgg_unit b ++ [vgg_pool].
  Definition vgg_hidden (u : Z * string) : tensor -> M V layer :=
    with_init (vgg_dense_relu (fst u)) (p (snd u ++ "_W")%string) (p (snd u ++ "_b")%string).

  (** conv_layers (example_model_vgg16.cpp:54-72) and dense_layers (74-78) for
      given blocks, hidden layers and classes. *)
  Definition conv_layers (bs : list (list (Z * string))) : tensor -> M V layer :=
    sequential (identity_layer dt) (flat_map vgg_block bs).
  Definition dense_layers (hs : list (Z * string)) (k : Z * string) : tensor -> M V layer :=
    sequential (identity_layer dt)
      (map vgg_hidden hs ++
       [with_init (vgg_dense (fst k)) (p (snd k ++ "_W")%string) (p (snd k ++ "_b")%string); vgg_softmax]).

  (** vgg16_model::operator() (example_model_vgg16.cpp:49-92).  The layers l5_4
      and out die at the end, the results [y] and [z] are handed to the caller.
      (top over uint32_t positions does not throw, so nothing is said about [y]
      and [z] in that case.) *)
  Definition vgg_model (bs : list (list (Z * string))) (hs : list (Z * string)) (k : Z * string) (m : Z)
      (x : tensor) : M V (tensor * tensor) :=
    with_layer (conv_layers bs x) (fun l5 =>
    with_layer (dense_layers hs k (as_matrix 1 (output l5))) (fun out =>
      y <- new_tensor [to_u32 m] ;;
      z <- new_tensor [to_u32 m] ;;
      op_top dt di (mkitype false 32) sc y z (sub (output out) 0) ;;;
      ret (y, z))).

  (** The numbers and names of example_model_vgg16.cpp:16, 56-78. *)
  Definition vgg16_blocks : list (list (Z * string)) :=
    [ [(64, "conv1_1"); (64, "conv1_2")];
      [(128, "conv2_1"); (128, "conv2_2")];
      [(256, "conv3_1"); (256, "conv3_2"); (256, "conv3_3")];
      [(512, "conv4_1"); (512, "conv4_2"); (512, "conv4_3")];
      [(512, "conv5_1"); (512, "conv5_2"); (512, "conv5_3")] ]%string.
  Definition vgg16_hidden : list (Z * string) := [(4096, "fc6"); (4096, "fc7")]%string.
  Definition vgg16_classes : Z * string := (1000, "fc8"%string).
  Definition vgg16_model : Z -> tensor -> M V (tensor * tensor) := vgg_model vgg16_blocks vgg16_hidden vgg16_classes.
End Vgg.
