(** Networks of any depth built from the library's operators and trained by
    calling the operators of ops/gradients in the reverse order, the way
    examples/example_train_mnist_slp.cpp:127-149 does it for one layer.

    Every layer calls one operator of ops/*.hpp in the forward pass and the
    corresponding operators of ops/gradients/*.hpp in the backward pass.  The
    sequence of the calls is that of the example (forward calls, loss, gradient
    calls from the loss to the input, then updates); the list of layers, which
    is fixed in the example, is a parameter here. *)
From Coq Require Import ZArith List Bool.
From Verif Require Import Base Traits Scalar LinAlg Shapes Conv Elem Activation Pool Summary Reshape.
Import ListNotations.
Open Scope Z_scope.
Open Scope model_scope.

(** One layer, with the sizes of its operands.
    - [LAdd], [LMul]: ops::add, ops::mul (ops/elementary.hpp), the second operand a parameter;
    - [LMatmul e m l n]: ops::matmul_<E> (ops/blas.hpp:25-47) of an m x l input and an l x n parameter;
    - [LBias m n]: ops::add_bias<hw>; [LBiasImg n h w c]: ops::add_bias<nhwc> (ops/bias.hpp);
    - [LConv]: ops::conv<nhwc, rscd> (ops/conv2d.hpp), an n x h x w x c image, r x s x c x d filters
      and an n x h' x w' x d result;
    - [LRelu], [LSoftmax]: ops::relu, ops::softmax on matrices (ops/activation.hpp);
    - [LFlatten rs ds]: ops::copy_flatten<rs...> (ops/reshape.hpp). *)
Inductive layer : Type :=
| LAdd (ds : list Z)
| LMul (ds : list Z)
| LMatmul (e : engine) (m l n : Z)
| LBias (m n : Z)
| LBiasImg (n h w c : Z)
| LConv (e : engine) (C : conv_trait) (n h w c r s d h' w' : Z)
| LRelu (ds : list Z)
| LSoftmax (m n : Z)
| LFlatten (rs : list nat) (ds : list Z).

(** The tensors of the program: the values between the layers ([Out 0] is the
    input), the parameters, their gradients, and the variables of the loss. *)
Inductive node : Type :=
| Out (i : nat) | GOut (i : nat) | Par (i : nat) | GPar (i : nat)
| Labels | Losses | GLosses | Loss.

(** Whether the layer has a parameter. *)
Definition has_par (L : layer) : bool :=
  match L with
  | LAdd _ | LMul _ | LMatmul _ _ _ _ | LBias _ _ | LBiasImg _ _ _ _ | LConv _ _ _ _ _ _ _ _ _ _ _ => true
  | LRelu _ | LSoftmax _ _ | LFlatten _ _ => false
  end.

Section Backprop.
  Context {V T : Type} (dt : dtype V T) (di : dtype V Z) (sc : scalar T).
  (** std::exp, std::log, the lower bound of softmax (ops/activation.hpp:16) and
      the division of an R by a uint32_t. *)
  Context (exp_ log_ : T -> T) (eps : T) (div_n : T -> Z -> outcome T).

  (** The forward call: z from the input x and the parameter p. *)
  Definition forward (L : layer) (z x p : tensor) : M V unit :=
    match L with
    | LAdd _ => op_add dt sc z x p
    | LMul _ => op_mul dt sc z x p
    | LMatmul e _ _ _ => op_matmul dt sc e z x p
    | LBias _ _ => op_bias dt hw (f_add sc) z x p
    | LBiasImg _ _ _ _ => op_bias dt nhwc (f_add sc) z x p
    | LConv e C _ _ _ _ _ _ _ _ _ => conv_nhwc dt di sc e C z x p
    | LRelu _ => op_relu dt sc z x
    | LSoftmax _ _ => op_softmax dt sc exp_ 2 eps z x
    | LFlatten _ _ => copy_flatten dt z x
    end.

  (** The gradient with respect to the parameter (ops/gradients/add.hpp, mul.hpp,
      matmul.hpp, bias.hpp, conv2d.hpp, the operators with index 1). *)
  Definition backward_par (L : layer) (gp gz x : tensor) : M V unit :=
    match L with
    | LAdd _ => grad_add dt gp gz
    | LMul _ => grad_mul1 dt sc gp gz x
    | LMatmul e _ _ _ => grad_matmul1 dt sc e gp gz x
    | LBias _ _ => grad_bias1_hw dt sc gp gz
    | LBiasImg _ _ _ _ => grad_bias1_nhwc dt sc gp gz
    | LConv e C _ _ _ _ _ _ _ _ _ => conv_grad_y dt sc e C gp gz x
    | LRelu _ | LSoftmax _ _ | LFlatten _ _ => ret tt
    end.

  (** The gradient with respect to the input (the operators with index 0;
      ops/gradients/activation.hpp, softmax.hpp, reshape.hpp). *)
  Definition backward_in (L : layer) (gx gz z x p : tensor) : M V unit :=
    match L with
    | LAdd _ => grad_add dt gx gz
    | LMul _ => grad_mul0 dt sc gx gz p
    | LMatmul e _ _ _ => grad_matmul0 dt sc e gx gz p
    | LBias _ _ => grad_bias0 dt gx gz
    | LBiasImg _ _ _ _ => grad_bias0 dt gx gz
    | LConv e C _ _ _ _ _ _ _ _ _ => conv_grad_x dt sc e C gx gz p
    | LRelu _ => op_relu_grad dt sc gx gz x
    | LSoftmax _ _ => softmax_grad2 dt sc gx gz z x
    | LFlatten _ _ => grad_copy_flatten dt gx gz
    end.

  Context (E : node -> tensor).

  (** The forward calls of the layers number k, k+1, ... *)
  Fixpoint forward_from (k : nat) (net : list layer) : M V unit :=
    match net with
    | [] => ret tt
    | L :: net => forward L (E (Out (S k))) (E (Out k)) (E (Par k)) ;;; forward_from (S k) net
    end.

  (** The gradient calls, last layer first. *)
  Fixpoint backward_from (k : nat) (net : list layer) : M V unit :=
    match net with
    | [] => ret tt
    | L :: net =>
        backward_from (S k) net ;;;
        backward_par L (E (GPar k)) (E (GOut (S k))) (E (Out k)) ;;;
        backward_in L (E (GOut k)) (E (GOut (S k))) (E (Out (S k))) (E (Out k)) (E (Par k))
    end.

  (** The updates (example_train_mnist_slp.cpp:147-148). *)
  Fixpoint update_from (k : nat) (net : list layer) : M V unit :=
    match net with
    | [] => ret tt
    | L :: net =>
        (if has_par L then op_sub dt sc (E (Par k)) (E (Par k)) (E (GPar k)) else ret tt) ;;;
        update_from (S k) net
    end.

  (** The loss and its gradient (example_train_mnist_slp.cpp:130-137), [N] being
      the number of layers. *)
  Definition loss_calls (N : nat) : M V unit :=
    op_xentropy dt sc log_ 2 (E Losses) (E Labels) (E (Out N)) ;;;
    op_mean dt sc div_n 0 (E Loss) (E Losses) ;;;
    xentropy_grad2 dt sc (E (GOut N)) (E GLosses) (E Labels) (E (Out N)).

  (** One training step (example_train_mnist_slp.cpp:127-149). *)
  Definition net_step (net : list layer) : M V unit :=
    forward_from 0 net ;;;
    loss_calls (length net) ;;;
    backward_from 0 net ;;;
    update_from 0 net.

  (** [m] steps on the same examples (the loop at example_train_mnist_slp.cpp:118-149
      without the loading of a new batch). *)
  Fixpoint net_train (m : nat) (net : list layer) : M V unit :=
    match m with
    | O => ret tt
    | S m => net_step net ;;; net_train m net
    end.
End Backprop.
