(** Model of ops/std_function.hpp, ops/shape_algo.hpp (check_shape,
    gradient_shape) and of the shape functions of ops/gradients/*.hpp.

    Ranks are template parameters: a call whose ranks do not fit does not
    compile, so nothing is claimed about such calls. *)
From Coq Require Import ZArith List Bool.
From Verif Require Import Base Traits Elem.
Import ListNotations.
Open Scope Z_scope.
Open Scope model_scope.

(** basic_endofunction (ops/std_function.hpp:15-23). *)
Definition endofunction (x : list Z) : outcome (list Z) := Ret x.

(** basic_binary_endofunction (ops/std_function.hpp:25-35). *)
Definition binary_endofunction (x y : list Z) : outcome (list Z) :=
  if shape_eqb x y then Ret x else Exn InvalidArgument.

(** std::copy(dims.begin(), dims.end() - 1, ...) (ops/std_function.hpp:43-45). *)
Definition copy_but_last (s : list Z) : list Z := firstn (length s - 1) s.

(** basic_reduce_function (ops/std_function.hpp:37-47). *)
Definition reduce_function (s : list Z) : outcome (list Z) := Ret (copy_but_last s).

(** basic_binary_reduce_function (ops/std_function.hpp:49-61). *)
Definition binary_reduce_function (s t : list Z) : outcome (list Z) :=
  if shape_eqb s t then Ret (copy_but_last s) else Exn InvalidArgument.

(** basic_vectorize_function (ops/std_function.hpp:63-80); k_ is a uint32_t. *)
Definition vectorize_function (k : Z) (s : list Z) : outcome (list Z) := Ret (s ++ [to_u32 k]).

(** check_shape (ops/shape_algo.hpp:40-46). *)
Definition check_shape (f : list (list Z) -> outcome (list Z)) (y : list Z) (xs : list (list Z)) : outcome unit :=
  z <<- f xs ;; if shape_eqb y z then Ret tt else Exn LogicError.

(** gradient_shape<i> (ops/shape_algo.hpp:48-55) and basic_gradient_function
    (ops/std_function.hpp:82-100), the same statements. *)
Definition gradient_shape (i : nat) (f : list (list Z) -> outcome (list Z)) (gy y : list Z) (xs : list (list Z))
  : outcome (list Z) :=
  z <<- f xs ;; _ <<- ocontract (shape_eqb y z) ;; _ <<- ocontract (shape_eqb y gy) ;; Ret (nth i xs []).

(** flatten_shape<rs...> (stdtensor): consecutive groups of rs axes become one.
    Simplification: products in Z (stdtensor multiplies uint32_t). *)
Fixpoint flatten_shape (rs : list nat) (x : list Z) : list Z :=
  match rs with
  | [] => []
  | r :: rs => prod (firstn r x) :: flatten_shape rs (skipn r x)
  end.

(** The gradient classes of ops/gradients/*.hpp: operator and argument. *)
Inductive gradient_op : Type :=
| GradAdd (i : nat)                      (* add.hpp:12-46, i = 0, 1 *)
| GradMul (i : nat)                      (* mul.hpp:12-46 *)
| GradRelu                               (* activation.hpp:12-28 *)
| GradSoftmax                            (* softmax.hpp:12-22 *)
| GradXentropy                           (* xentropy.hpp:11-21 *)
| GradBias (o : order) (i : nat)         (* bias.hpp:16-77 *)
| GradMatmul (i : nat)                   (* matmul.hpp:12-50 *)
| GradConv (c : conv_trait) (i : nat)    (* conv2d.hpp:13-76: nhwc, rscd *)
| GradFlatten (rs : list nat).           (* reshape.hpp:7-20 *)

(** The argument differentiated. *)
Definition wrt (g : gradient_op) : nat :=
  match g with
  | GradAdd i | GradMul i | GradBias _ i | GradMatmul i | GradConv _ i => i
  | GradXentropy => 1
  | GradRelu | GradSoftmax | GradFlatten _ => 0
  end%nat.

(** The forward shape function each gradient class names: ops/elementary.hpp:94,
    120, ops/activation.hpp:9, 33, ops/loss.hpp:8, ops/bias.hpp:16, ops/blas.hpp:32,
    ops/conv2d_trait.hpp, ops/reshape.hpp:28-31. *)
Definition forward (g : gradient_op) (xs : list (list Z)) : outcome (list Z) :=
  let x := nth 0 xs [] in let y := nth 1 xs [] in
  match g with
  | GradAdd _ | GradMul _ => binary_endofunction x y
  | GradRelu | GradSoftmax => endofunction x
  | GradXentropy => binary_reduce_function x y
  | GradBias o _ => bias_shape o x y
  | GradMatmul _ => matmul_shape x y
  | GradConv c _ => conv_infer c nhwc rscd x y
  | GradFlatten rs => Ret (flatten_shape rs x)
  end.

Definition grad_infer (g : gradient_op) (gy y : list Z) (xs : list (list Z)) : outcome (list Z) :=
  gradient_shape (wrt g) (forward g) gy y xs.
