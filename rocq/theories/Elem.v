(** Model of the elementwise kernels and operators, biases, normalisation,
    concatenation, contractions, and the gradients of matmul, add, mul,
    add_bias and relu. *)
From Coq Require Import ZArith List Bool.
From Verif Require Import Base Traits Scalar LinAlg.
Import ListNotations.
Open Scope Z_scope.
Open Scope model_scope.

(** ** Standard algorithms on raw storage *)

(** std::transform(x.data(), x.data_end(), y.data(), f), unary. *)
Definition transform1 {V R S_} (dr : dtype V R) (ds : dtype V S_) (f : S_ -> R) (y x : tensor) : M V unit :=
  for_ (zrange (size x)) (fun i =>
    v <- load ds (daddr x i) ;;
    store dr (daddr y i) (f v)).

(** std::transform(x.data(), x.data_end(), y.data(), z.data(), f), binary; the
    length is the length of [x].  [f] may be undefined (integer division). *)
Definition transform2 {V T} (dt : dtype V T) (f : T -> T -> outcome T) (z x y : tensor) : M V unit :=
  for_ (zrange (size x)) (fun i =>
    a <- load dt (daddr x i) ;;
    b <- load dt (daddr y i) ;;
    v <- lift (f a b) ;;
    store dt (daddr z i) v).

Section Elem.
  Context {V T : Type} (dt : dtype V T) (sc : scalar T).

  (** ** kernels/cpu/elementary.hpp, ops/elementary.hpp *)

  (** kernels::pointwise (kernels/cpu/elementary.hpp:18-22) on flattened
      tensors; also ops::pointwise (ops/elementary.hpp:72-77). *)
  Definition op_pointwise (f : T -> T) (y x : tensor) : M V unit :=
    transform1 dt dt f (flat y) (flat x).

  (** kernels::identity, std::copy (kernels/cpu/elementary.hpp:35-39) through
      ops::identity (ops/elementary.hpp:14-19). *)
  Definition op_identity (y x : tensor) : M V unit :=
    transform1 dt dt (fun v => v) (flat y) (flat x).

  (** kernels::binary_pointwise (kernels/cpu/elementary.hpp:49-54). *)
  Definition binary_pointwise (f : T -> T -> outcome T) (z x y : tensor) : M V unit :=
    transform2 dt f z x y.

  (** scalar_add, scalar_sub, scalar_mul (ops/elementary.hpp:38-60), std::plus,
      std::minus, std::multiplies, std::divides. *)
  Definition f_add (a b : T) : outcome T := Ret (sadd sc a b).
  Definition f_sub (a b : T) : outcome T := Ret (ssub sc a b).
  Definition f_mul (a b : T) : outcome T := Ret (smul sc a b).
  Definition f_div (a b : T) : outcome T := sdiv sc a b.

  (** ops::add, sub, mul (ops/elementary.hpp:94-131) and kernels::div
      (kernels/cpu/elementary.hpp:60-78). *)
  Definition op_add (z x y : tensor) : M V unit := binary_pointwise f_add (flat z) (flat x) (flat y).
  Definition op_sub (z x y : tensor) : M V unit := binary_pointwise f_sub (flat z) (flat x) (flat y).
  Definition op_mul (z x y : tensor) : M V unit := binary_pointwise f_mul (flat z) (flat x) (flat y).
  Definition op_div (z x y : tensor) : M V unit := binary_pointwise f_div (flat z) (flat x) (flat y).

  (** kernels::axpy (kernels/cpu/blas.hpp:18-25) through ops::axpy
      (ops/blas.hpp:19-26); [a] is a rank-0 tensor. *)
  Definition op_axpy (z a x y : tensor) : M V unit :=
    av <- load dt (daddr a 0) ;;
    transform2 dt (fun x y => Ret (sadd sc (smul sc av x) y)) (flat z) (flat x) (flat y).

  (** host_scalar_relu (kernels/cpu/activation.hpp:40-46). *)
  Definition relu1 (x : T) : T := if sltb sc (s0 sc) x then x else s0 sc.
  (** host_scaler_relu_grad (kernels/cpu/activation.hpp:53-59). *)
  Definition relu_grad1 (gy x : T) : T := if sltb sc (s0 sc) x then gy else s0 sc.

  (** ops::relu (ops/activation.hpp:38-43). *)
  Definition op_relu (y x : tensor) : M V unit := op_pointwise relu1 y x.
  (** grad::relu<0> (ops/gradients/activation.hpp:20-27). *)
  Definition op_relu_grad (gx gy x : tensor) : M V unit :=
    binary_pointwise (fun g v => Ret (relu_grad1 g v)) (flat gx) (flat gy) (flat x).

  (** ** kernels/cpu/bias.hpp, ops/bias.hpp *)

  (** Shape (ops/bias.hpp:16-20), [p] = bias_position. *)
  Definition bias_shape (o : order) (x y : list Z) : outcome (list Z) :=
    _ <<- ocontract (nth (bias_position o) x 0 =? nth 0 y 0) ;; Ret x.

  (** Generic kernel (kernels/cpu/bias.hpp:20-30); [coord<p>(i)] is coordinate
      [p] of the element at offset [i]. *)
  Definition bias_generic (p : nat) (f : T -> T -> outcome T) (z x y : tensor) : M V unit :=
    for_ (zrange (size x)) (fun i =>
      let j := nth p (expand (tdims x) i) 0 in
      a <- load dt (daddr x i) ;;
      b <- load dt (daddr y j) ;;
      v <- lift (f a b) ;;
      store dt (daddr z i) v).

  (** nhwc kernel on matrices (kernels/cpu/bias.hpp:50-56). *)
  Definition bias_rows (f : T -> T -> outcome T) (z x y : tensor) : M V unit :=
    for_ (zrange (nth_dim z 0)) (fun i => binary_pointwise f (sub z i) (sub x i) y).

  (** ops::apply_bias (ops/bias.hpp:22-27); nhwc goes through as_matrix<3,1>
      (kernels/cpu/bias.hpp:58-62). *)
  Definition op_bias (o : order) (f : T -> T -> outcome T) (z x y : tensor) : M V unit :=
    match o with
    | nhwc => bias_rows f (as_matrix 3 z) (as_matrix 3 x) y
    | _ => bias_generic (bias_position o) f z x y
    end.

  (** ** kernels/cpu/normalization.hpp, ops/bn.hpp *)

  (** normalizer_mean_var (kernels/cpu/normalization.hpp:18-28); [sqrt_] is
      std::sqrt and [eps] the constant .000001f. *)
  Definition normalize (sqrt_ : T -> T) (eps x mean var : T) : outcome T :=
    sdiv sc (ssub sc x mean) (sadd sc (sqrt_ var) eps).

  (** Shape functions (ops/bn.hpp:13-20, 38-48). *)
  Definition bn_shape (o : order) (x m v : list Z) : outcome (list Z) :=
    let c := channel_size o x in
    _ <<- ocontract (c =? nth 0 m 0) ;; _ <<- ocontract (c =? nth 0 v 0) ;; Ret x.
  Definition bn_bias_shape (o : order) (x m v b g : list Z) : outcome (list Z) :=
    let c := channel_size o x in
    _ <<- ocontract (c =? nth 0 m 0) ;; _ <<- ocontract (c =? nth 0 v 0) ;;
    _ <<- ocontract (c =? nth 0 b 0) ;; _ <<- ocontract (c =? nth 0 g 0) ;; Ret x.

  (** batch_norm, nhwc (kernels/cpu/normalization.hpp:34-51) and nchw (58-74). *)
  Definition bn_nhwc (norm : T -> T -> T -> outcome T) (y x m v : tensor) : M V unit :=
    for_ (zrange (nth_dim x 0)) (fun l => for_ (zrange (nth_dim x 1)) (fun i =>
      for_ (zrange (nth_dim x 2)) (fun j => for_ (zrange (nth_dim x 3)) (fun k =>
        a <- at_ dt x [l; i; j; k] ;;
        mk <- at_ dt m [k] ;;
        vk <- at_ dt v [k] ;;
        r <- lift (norm a mk vk) ;;
        set_ dt y [l; i; j; k] r)))).
  Definition bn_nchw (norm : T -> T -> T -> outcome T) (y x m v : tensor) : M V unit :=
    for_ (zrange (nth_dim x 0)) (fun l => for_ (zrange (nth_dim x 1)) (fun k =>
      for_ (zrange (nth_dim x 2)) (fun i => for_ (zrange (nth_dim x 3)) (fun j =>
        a <- at_ dt x [l; k; i; j] ;;
        mk <- at_ dt m [k] ;;
        vk <- at_ dt v [k] ;;
        r <- lift (norm a mk vk) ;;
        set_ dt y [l; k; i; j] r)))).
  Definition op_bn (o : order) (norm : T -> T -> T -> outcome T) (y x m v : tensor) : M V unit :=
    match o with nchw => bn_nchw norm y x m v | _ => bn_nhwc norm y x m v end.

  (** batch_norm_with_bias (ops/bn.hpp:50-60). *)
  Definition op_bn_bias (o : order) (norm : T -> T -> T -> outcome T) (y x m v beta gamma : tensor) : M V unit :=
    op_bn o norm y x m v ;;;
    op_bias o f_mul y y gamma ;;;
    op_bias o f_add y y beta.

  (** ** kernels/cpu/concat.hpp *)

  (** concat_channel4d<nchw, 2> (kernels/cpu/concat.hpp:14-41). *)
  Definition concat_nchw2 (t x y : tensor) : M V unit :=
    let c1 := nth_dim x 1 in
    for_ (zrange (nth_dim t 0)) (fun l => for_ (zrange (nth_dim t 1)) (fun k =>
      for_ (zrange (nth_dim t 2)) (fun i => for_ (zrange (nth_dim t 3)) (fun j =>
        v <- (if k <? c1 then at_ dt x [l; k; i; j] else at_ dt y [l; k - c1; i; j]) ;;
        set_ dt t [l; k; i; j] v)))).

  (** concat_channel4d<nhwc, 3> (kernels/cpu/concat.hpp:48-81). *)
  Definition concat_nhwc3 (t x y z : tensor) : M V unit :=
    let c1 := nth_dim x 3 in let c2 := nth_dim y 3 in
    for_ (zrange (nth_dim t 0)) (fun l => for_ (zrange (nth_dim t 1)) (fun i =>
      for_ (zrange (nth_dim t 2)) (fun j => for_ (zrange (nth_dim t 3)) (fun k =>
        v <- (if k <? c1 then at_ dt x [l; i; j; k]
              else if k <? c1 + c2 then at_ dt y [l; i; j; k - c1]
              else at_ dt z [l; i; j; k - c1 - c2]) ;;
        set_ dt t [l; i; j; k] v)))).

  (** ** kernels/cpu/reduce.hpp *)

  (** [ttl::sum(v)] of a vector view (stdtensor): accumulate from 0. *)
  Definition vsum (v : tensor) : M V T :=
    foldM (zrange (size v)) (fun acc i => a <- load dt (daddr v i) ;; ret (sadd sc acc a)) (s0 sc).

  (** inner_contraction (kernels/cpu/reduce.hpp:16-21): iterating a matrix view
      yields its rows. *)
  Definition inner_contraction (y x : tensor) : M V unit :=
    for_ (zrange (nth_dim x 0)) (fun i =>
      v <- vsum (sub x i) ;;
      store dt (daddr y i) v).

  (** outter_contraction (kernels/cpu/reduce.hpp:28-34). *)
  Definition outter_contraction (y x : tensor) : M V unit :=
    fill dt y (s0 sc) ;;;
    for_ (zrange (nth_dim x 0)) (fun i => binary_pointwise f_add y y (sub x i)).

  (** ** Gradients *)

  (** grad::add<0>, add<1> (ops/gradients/add.hpp:20-27, 38-45). *)
  Definition grad_add (gx gz : tensor) : M V unit := op_identity gx gz.
  (** grad::mul<0> (ops/gradients/mul.hpp:20-27): gz * y; grad::mul<1>
      (38-45): gz * x. *)
  Definition grad_mul0 (gx gz y : tensor) : M V unit := op_mul gx gz y.
  Definition grad_mul1 (gy gz x : tensor) : M V unit := op_mul gy gz x.
  (** grad::matmul<0>, <1> (ops/gradients/matmul.hpp:21-29, 41-49). *)
  Definition grad_matmul0 (e : engine) (gx gz y : tensor) : M V unit := k_mmt dt sc e gx gz y.
  Definition grad_matmul1 (e : engine) (gy gz x : tensor) : M V unit := k_mtm dt sc e gy x gz.
  (** ops::matmul (ops/blas.hpp:40-46). *)
  Definition op_matmul (e : engine) (z x y : tensor) : M V unit := k_mm dt sc e z x y.
  (** grad::add_bias<o, 0> (ops/gradients/bias.hpp:29-36). *)
  Definition grad_bias0 (gx gz : tensor) : M V unit := op_identity gx gz.
  (** grad::add_bias<hw, 1> (ops/gradients/bias.hpp:49-56) and
      add_bias<nhwc, 1> (69-76). *)
  Definition grad_bias1_hw (gy gz : tensor) : M V unit := outter_contraction gy gz.
  Definition grad_bias1_nhwc (gy gz : tensor) : M V unit := outter_contraction gy (as_matrix 3 gz).
End Elem.

(** ops::matmul shape (ops/blas.hpp:32-38); ops::axpy shape (11-17). *)
Definition matmul_shape (x y : list Z) : outcome (list Z) :=
  _ <<- ocontract (nth 1 x 0 =? nth 0 y 0) ;; Ret [nth 0 x 0; nth 1 y 0].
Definition shape_eqb (x y : list Z) : bool := if list_eq_dec Z.eq_dec x y then true else false.
Definition axpy_shape (x y : list Z) : outcome (list Z) :=
  _ <<- ocontract (shape_eqb x y) ;; Ret x.

(** ** ops/shape_algo.hpp: concatenation of shapes *)

(** concat2shapes<p> (ops/shape_algo.hpp:11-25): the loop over the axes from
    [i] on, uint32_t addition. *)
Fixpoint concat2_from (p i : nat) (s t : list Z) : outcome (list Z) :=
  match s, t with
  | a :: s', b :: t' =>
      d <<- (if Nat.eqb i p then iadd U32 a b else _ <<- ocontract (a =? b) ;; Ret a) ;;
      ds <<- concat2_from p (S i) s' t' ;;
      Ret (d :: ds)
  | _, _ => Ret []
  end.
Definition concat2shapes (p : nat) (s t : list Z) : outcome (list Z) := concat2_from p 0 s t.

(** concat_shape<p> (ops/shape_algo.hpp:27-37): a right fold. *)
Fixpoint concat_shape (p : nat) (s : list Z) (ss : list (list Z)) : outcome (list Z) :=
  match ss with
  | [] => Ret s
  | t :: ts => u <<- concat_shape p t ts ;; concat2shapes p s u
  end.
