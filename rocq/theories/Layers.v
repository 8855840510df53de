(** Model of layers/*.hpp and models/sequential.hpp. *)
From Coq Require Import ZArith List Bool.
From Verif Require Import Base Traits Scalar LinAlg Conv Elem Pool.
Import ListNotations.
Open Scope Z_scope.
Open Scope model_scope.

(** layers::layer (layers/layer.hpp:8-33): the output and the weights, each
    owned through a std::unique_ptr. *)
Record layer : Type := mklayer { output : tensor; weights : list tensor }.

(** All tensors owned by a layer. *)
Definition owned (l : layer) : list tensor := output l :: weights l.

(** The destructors of tensors allocated by [new]. *)
Definition release {V} (ts : list tensor) (s : st V) : st V :=
  fold_left (fun s t => dealloc (tblk t) s) ts s.

(** ~layer: unique_ptr releases every owned tensor. *)
Definition destroy {V} (l : layer) (s : st V) : st V := release (owned l) s.

(** A layer held in a local variable: destroyed when the scope is left normally
    or by an exception. *)
Definition with_layer {V A} (m : M V layer) (k : layer -> M V A) : M V A :=
  fun s => match m s with
           | Ok l s1 =>
               match k l s1 with
               | Ok a s2 => Ok a (destroy l s2)
               | Throw e s2 => Throw e (destroy l s2)
               | UB => UB
               end
           | Throw e s1 => Throw e s1
           | UB => UB
           end.

(** [new T(shape)]: stdtensor allocates shape.size() uninitialised elements. *)
Definition new_tensor {V} (ds : list Z) : M V tensor :=
  b <- alloc (prod ds) ;; ret (mktensor b 0 ds).

(** ops::new_result (layers/call.hpp:6-12).  [sh] is the result of the shape
    function: when it throws, the new-expression releases what it allocated.
    The pointer [y] is raw: when [op] throws, nothing releases it. *)
Definition new_result {V} (sh : outcome (list Z)) (op : tensor -> M V unit) : M V tensor :=
  ds <- lift sh ;; y <- new_tensor ds ;; op y ;;; ret y.

(** ops::new_parameter (layers/call.hpp:14-20). *)
Definition new_parameter {V} (ds : list Z) (init : tensor -> M V unit) : M V tensor :=
  w <- new_tensor ds ;; init w ;;; ret w.

(** ops::noop (ops/elementary.hpp:22-36): as an initialiser, as an activation. *)
Definition noop1 {V} (y : tensor) : M V unit := ret tt.
Definition noop2 {V} (y x : tensor) : M V unit := ret tt.

Section Layers.
  Context {V T : Type} (dt : dtype V T) (di : dtype V Z) (sc : scalar T).

  (** dense::operator() (layers/dense.hpp:9-46); the size_t [logits] becomes a
      uint32_t dimension in weight_shape and bias_shape (17-22).  [act] is Act. *)
  Definition dense (e : engine) (act : tensor -> tensor -> M V unit) (logits : Z)
      (w_init b_init : tensor -> M V unit) (x : tensor) : M V layer :=
    let n := to_u32 logits in
    let wd := [nth_dim x 1; n] in
    w <- new_parameter wd w_init ;;
    y <- new_result (matmul_shape (tdims x) wd) (fun y => op_matmul dt sc e y x w) ;;
    b <- new_parameter [n] b_init ;;
    op_bias dt hw (f_add sc) y y b ;;;
    act y y ;;;
    ret (mklayer y [w; b]).

  (** layers::conv_trait (layers/conv.hpp:12-97): kernel size, padding policy,
      stride, rate; the dimensions are those of shape<2> (uint32_t), n_filters_
      is a uint32_t initialised from a size_t. *)
  Record conv_conf : Type := mkconf {
    c_filters : Z; c_kh : Z; c_kw : Z; c_pad : padding_policy;
    c_sh : Z; c_sw : Z; c_rh : Z; c_rw : Z }.

  (** conv_trait(size_t, ksize, padding, stride, rate) and its shorter forms
      (layers/conv.hpp:45-72), through the static int constructors (33-35). *)
  Definition new_conf (n kh kw : Z) (p : padding_policy) (sh sw rh rw : Z) : conv_conf :=
    mkconf (to_u32 n) (to_u32 kh) (to_u32 kw) p (to_u32 sh) (to_u32 sw) (to_u32 rh) (to_u32 rw).
  Definition new_conf_k (n kh kw : Z) : conv_conf := new_conf n kh kw (padding_valid U32) 1 1 1 1.

  (** op_trait (layers/conv.hpp:87-96): one padding per axis from the policy.
      (The order in which the two policies are evaluated is unspecified; here
      the height first.) *)
  Definition conf_trait (c : conv_conf) (x : list Z) : outcome conv_trait :=
    ph <<- c_pad c (c_kh c) (c_sh c) (c_rh c) (nth 0 x 0) ;;
    pw <<- c_pad c (c_kw c) (c_sw c) (c_rw c) (nth 1 x 0) ;;
    Ret (new_conv_psr ph pw (c_sh c) (c_sw c) (c_rh c) (c_rw c)).

  (** ops::conv<nhwc, rscd> and ops::conv<nchw, dcrs>. *)
  Definition op_conv (io : order) (e : engine) (C : conv_trait) (z x y : tensor) : M V unit :=
    match io with nchw => conv_nchw dt sc e C z x y | _ => conv_nhwc dt di sc e C z x y end.
  Definition filter_of (io : order) : filter_order := match io with nchw => dcrs | _ => rscd end.

  (** The statements shared by both specialisations (layers/conv.hpp:119-124,
      139-144). *)
  Definition conv_start (e : engine) (io : order) (c : conv_conf) (w_init : tensor -> M V unit) (x : tensor)
    : M V (tensor * tensor) :=
    let wd := conv_filter_shape (filter_of io) (channel_size io (tdims x)) [c_kh c; c_kw c] (c_filters c) in
    w <- new_parameter wd w_init ;;
    C <- lift (conf_trait c (image_shape io (tdims x))) ;;
    y <- new_result (conv_infer C io (filter_of io) (tdims x) wd) (fun y => op_conv io e C y x w) ;;
    ret (w, y).

  (** conv<..., false, Act> (layers/conv.hpp:106-128). *)
  Definition conv_layer (e : engine) (io : order) (act : tensor -> tensor -> M V unit) (c : conv_conf)
      (w_init : tensor -> M V unit) (x : tensor) : M V layer :=
    wy <- conv_start e io c w_init x ;;
    let (w, y) := wy in
    act y y ;;;
    ret (mklayer y [w]).

  (** conv<..., true, Act> (layers/conv.hpp:130-152). *)
  Definition conv_bias_layer (e : engine) (io : order) (act : tensor -> tensor -> M V unit) (c : conv_conf)
      (w_init b_init : tensor -> M V unit) (x : tensor) : M V layer :=
    wy <- conv_start e io c w_init x ;;
    let (w, y) := wy in
    b <- new_parameter [c_filters c] b_init ;;
    op_bias dt io (f_add sc) y y b ;;;
    act y y ;;;
    ret (mklayer y [w; b]).

  (** layers::pool_trait<hw> (layers/pool.hpp:14-63). *)
  Record pool_conf : Type := mkpconf { p_kh : Z; p_kw : Z; p_pad : padding_policy; p_sh : Z; p_sw : Z }.
  Definition new_pconf (kh kw : Z) (p : padding_policy) (sh sw : Z) : pool_conf :=
    mkpconf (to_u32 kh) (to_u32 kw) p (to_u32 sh) (to_u32 sw).
  (** Defaults (layers/pool.hpp:41-48): kernel 2 x 2, padding same, stride = kernel. *)
  Definition default_pconf : pool_conf := mkpconf 2 2 (padding_same U32) 2 2.

  (** op_trait (layers/pool.hpp:56-63). *)
  Definition pconf_trait (c : pool_conf) (x : list Z) : outcome pool_trait :=
    ph <<- p_pad c (p_kh c) (p_sh c) 1 (nth 0 x 0) ;;
    pw <<- p_pad c (p_kw c) (p_sw c) 1 (nth 1 x 0) ;;
    new_pool_kps (p_kh c) (p_kw c) ph pw (p_sh c) (p_sw c).

  (** layers::pool (layers/pool.hpp:66-81). *)
  Definition pool_layer (A : accumulator T) (io : order) (c : pool_conf) (x : tensor) : M V layer :=
    P <- lift (pconf_trait c (image_shape io (tdims x))) ;;
    y <- new_result (pooled_shape io P (tdims x))
           (fun y => match io with nchw => op_pool_nchw dt A P y x | _ => op_pool_nhwc dt A P y x end) ;;
    ret (mklayer y []).

  (** batch_norm<..., Act, true> (layers/bn.hpp:42-78).  (The specialisation
      without bias, 12-37, does not compile: it asks a tensor for dims().) *)
  Definition bn_layer (io : order) (norm : T -> T -> T -> outcome T) (act : tensor -> tensor -> M V unit)
      (mean_init var_init beta_init gamma_init : tensor -> M V unit) (x : tensor) : M V layer :=
    let d := [channel_size io (tdims x)] in
    mean <- new_parameter d mean_init ;;
    var <- new_parameter d var_init ;;
    beta <- new_parameter d beta_init ;;
    gamma <- new_parameter d gamma_init ;;
    y <- new_result (bn_bias_shape io (tdims x) d d d d) (fun y => op_bn_bias dt sc io norm y x mean var beta gamma) ;;
    act y y ;;;
    ret (mklayer y [mean; var; beta; gamma]).

  (** layers::activation (layers/activation.hpp:8-19) and layers::identity
      (layers/elementary.hpp:8-21): the shape functions are endofunctions. *)
  Definition activation (act : tensor -> tensor -> M V unit) (x : tensor) : M V layer :=
    y <- new_result (Ret (tdims x)) (fun y => act y x) ;; ret (mklayer y []).
  Definition identity_layer : tensor -> M V layer := activation (op_identity dt).

  (** models::composed (models/sequential.hpp:46-62): the layer [y] dies when
      the call returns or throws. *)
  Definition composed (f g : tensor -> M V layer) (x : tensor) : M V layer :=
    with_layer (f x) (fun y => g (output y)).

  (** [seq << l1 << ... << ln] (models/sequential.hpp:80-98); [op] is the
      operator of [seq], by default layers::identity (73-77).  The call operator
      forwards to [op_] (87-91). *)
  Definition sequential (op : tensor -> M V layer) (ls : list (tensor -> M V layer)) : tensor -> M V layer :=
    fold_left composed ls op.
End Layers.
