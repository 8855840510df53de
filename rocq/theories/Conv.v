(** Model of im2col, col2im and 2-D convolution:
    kernels/cpu/im2col.hpp, kernels/cpu/col2im.hpp, kernels/cpu/conv2d.hpp,
    ops/im2col.hpp, ops/col2im.hpp, ops/combinators.hpp. *)
From Coq Require Import ZArith List Bool.
From Verif Require Import Base Traits Scalar LinAlg.
Import ListNotations.
Open Scope Z_scope.
Open Scope model_scope.

(** The input cell seen by tap (u, v) of window (i_, j_): the common text
    [i = h_sample(i_, u); j = w_sample(j_, v);
     h_sample.inside(i, h) && w_sample.inside(j, w) ? (h_sample.unpad(i), w_sample.unpad(j)) : none]
    of im2col.hpp:33-41, 76-83, 108-115, 143-151, col2im.hpp:31-37 and pool.hpp. *)
Definition source (H W : sample) (h w i_ j_ u v : Z) : outcome (option (Z * Z)) :=
  i <<- sample_pos U32 H i_ u ;;
  j <<- sample_pos U32 W j_ v ;;
  ih <<- sample_inside U32 H i h ;;
  if ih then
    jw <<- sample_inside U32 W j w ;;
    if jw then
      i0 <<- sample_unpad U32 H i ;;
      j0 <<- sample_unpad U32 W j ;;
      Ret (Some (i0, j0))
    else Ret None
  else Ret None.

(** ** Shape functions *)

(** ops::im2col<hw, hwrs> (ops/im2col.hpp:17-21). *)
Definition im2col_hwrs_shape (H W : sample) (x : list Z) : outcome (list Z) :=
  y <<- multi_shape [H; W] x ;; Ret (y ++ multi_ksize [H; W]).
(** ops::im2col<hw, rshw> (ops/im2col.hpp:38-42). *)
Definition im2col_rshw_shape (H W : sample) (x : list Z) : outcome (list Z) :=
  y <<- multi_shape [H; W] x ;; Ret (multi_ksize [H; W] ++ y).
(** ops::im2col<hwc, hwrsc> (ops/im2col.hpp:61-67). *)
Definition im2col_hwrsc_shape (H W : sample) (x : list Z) : outcome (list Z) :=
  y <<- multi_shape [H; W] [nth 0 x 0; nth 1 x 0] ;;
  Ret (y ++ multi_ksize [H; W] ++ [nth 2 x 0]).
(** ops::internal::batched, shape part (ops/combinators.hpp:14-19). *)
Definition batched_shape (f : list Z -> outcome (list Z)) (x : list Z) : outcome (list Z) :=
  y <<- f (tl x) ;; Ret (nth 0 x 0 :: y).

(** ops::col2im origin_size (ops/col2im.hpp:18-24), uint32_t arithmetic. *)
Definition origin_size (m : Z) (sp : sample) : outcome Z :=
  m1 <<- isub U32 m 1 ;;
  a <<- imul U32 m1 (stride (sfilter sp)) ;;
  ps <<- patch_size U32 (sfilter sp) ;;
  b <<- iadd U32 a ps ;;
  p0 <<- pad_len U32 (spadding sp) 0 ;;
  isub U32 b p0.
(** ops::col2im<hwc, hwrsc> shape (ops/col2im.hpp:27-35): through [const int]. *)
Definition col2im_shape (H W : sample) (x : list Z) : outcome (list Z) :=
  _ <<- ocontract ((ksize (sfilter H) =? nth 2 x 0) && (ksize (sfilter W) =? nth 3 x 0)) ;;
  h <<- origin_size (nth 0 x 0) H ;;
  w <<- origin_size (nth 1 x 0) W ;;
  Ret [to_u32 (to_i32 h); to_u32 (to_i32 w); nth 4 x 0].

Section Conv.
  Context {V T : Type} (dt : dtype V T) (di : dtype V Z) (sc : scalar T).

  (** im2col_2d<hw, hwrs> (kernels/cpu/im2col.hpp:68-88). *)
  Definition im2col_hwrs (H W : sample) (y x : tensor) : M V unit :=
    let h := nth_dim x 0 in let w := nth_dim x 1 in
    for_ (zrange (nth_dim y 0)) (fun i_ =>
      for_ (zrange (nth_dim y 1)) (fun j_ =>
        for_ (zrange (nth_dim y 2)) (fun u =>
          for_ (zrange (nth_dim y 3)) (fun v =>
            q <- lift (source H W h w i_ j_ u v) ;;
            value <- match q with
                     | Some (i, j) => at_ dt x [i; j]
                     | None => ret (s0 sc)
                     end ;;
            set_ dt y [i_; j_; u; v] value)))).

  (** im2col_2d<hw, rshw> (kernels/cpu/im2col.hpp:100-120). *)
  Definition im2col_rshw (H W : sample) (y x : tensor) : M V unit :=
    let h := nth_dim x 0 in let w := nth_dim x 1 in
    for_ (zrange (nth_dim y 0)) (fun u =>
      for_ (zrange (nth_dim y 1)) (fun v =>
        for_ (zrange (nth_dim y 2)) (fun i_ =>
          for_ (zrange (nth_dim y 3)) (fun j_ =>
            q <- lift (source H W h w i_ j_ u v) ;;
            value <- match q with
                     | Some (i, j) => at_ dt x [i; j]
                     | None => ret (s0 sc)
                     end ;;
            set_ dt y [u; v; i_; j_] value)))).

  (** im2col_2d<hwc, hwrsc> (kernels/cpu/im2col.hpp:132-157). *)
  Definition im2col_hwrsc (H W : sample) (y x : tensor) : M V unit :=
    let h := nth_dim x 0 in let w := nth_dim x 1 in let c := nth_dim x 2 in
    contract (nth_dim y 4 =? c) ;;;
    for_ (zrange (nth_dim y 0)) (fun i_ =>
      for_ (zrange (nth_dim y 1)) (fun j_ =>
        for_ (zrange (nth_dim y 2)) (fun u =>
          for_ (zrange (nth_dim y 3)) (fun v =>
            for_ (zrange c) (fun k =>
              q <- lift (source H W h w i_ j_ u v) ;;
              value <- match q with
                       | Some (i, j) => at_ dt x [i; j; k]
                       | None => ret (s0 sc)
                       end ;;
              set_ dt y [i_; j_; u; v; k] value))))).

  (** im2col_idx_map, building the table (kernels/cpu/im2col.hpp:22-43).  [x] is
      the image shape; the uint32_t offset is converted to int. *)
  Definition idx_map_build (H W : sample) (y : tensor) (x : list Z) : M V unit :=
    let h := nth 0 x 0 in let w := nth 1 x 0 in
    for_ (zrange (size y)) (fun idx =>
      let e := expand (tdims y) idx in
      q <- lift (source H W h w (nth 0 e 0) (nth 1 e 0) (nth 2 e 0) (nth 3 e 0)) ;;
      store di (daddr y idx)
        (match q with
         | Some (i, j) => to_i32 (to_u32 (offset x [i; j; nth 4 e 0]))
         | None => -1
         end)).

  (** im2col_idx_map, gathering (kernels/cpu/im2col.hpp:45-56). *)
  Definition idx_map_gather (z y x : tensor) : M V unit :=
    for_ (zrange (size z)) (fun i =>
      j <- load di (daddr y i) ;;
      if 0 <=? j then
        v <- load dt (daddr x j) ;;
        store dt (daddr z i) v
      else store dt (daddr z i) (s0 sc)).

  (** im2col_2d<nhwc, nhwrsc> (kernels/cpu/im2col.hpp:169-176). *)
  Definition im2col_nhwc (H W : sample) (y x : tensor) : M V unit :=
    with_tensor (tl (tdims y)) (fun q =>
      idx_map_build H W q (tl (tdims x)) ;;;
      for_ (zrange (nth_dim x 0)) (fun i => idx_map_gather (sub y i) q (sub x i))).

  (** ops::internal::batched, tensor part (ops/combinators.hpp:21-27). *)
  Definition batched (f : tensor -> tensor -> M V unit) (y x : tensor) : M V unit :=
    for_ (zrange (nth_dim x 0)) (fun i => f (sub y i) (sub x i)).

  (** col2im_2d<hwc, hwrsc> (kernels/cpu/col2im.hpp:20-44). *)
  Definition col2im (H W : sample) (y x : tensor) : M V unit :=
    let h := nth_dim y 0 in let w := nth_dim y 1 in
    contract (nth_dim y 2 =? nth_dim x 4) ;;;
    fill dt y (s0 sc) ;;;
    for_ (zrange (nth_dim x 0)) (fun i_ =>
      for_ (zrange (nth_dim x 1)) (fun j_ =>
        for_ (zrange (nth_dim x 2)) (fun u =>
          for_ (zrange (nth_dim x 3)) (fun v =>
            for_ (zrange (nth_dim x 4)) (fun k =>
              q <- lift (source H W h w i_ j_ u v) ;;
              match q with
              | Some (i, j) =>
                  b <- at_ dt x [i_; j_; u; v; k] ;;
                  a <- at_ dt y [i; j; k] ;;
                  set_ dt y [i; j; k] (sadd sc a b)
              | None => ret tt
              end))))).

  (** kernels::conv2d<nhwc, rscd> (kernels/cpu/conv2d.hpp:28-52).
      [C] is the conv_trait, [e] the linear algebra engine. *)
  Definition conv_nhwc (e : engine) (C : conv_trait) (z x y : tensor) : M V unit :=
    let rs := filter_shape rscd (tdims y) in
    H <- lift (lconv_sample (h_trait C) (nth 0 rs 0)) ;;
    W <- lift (lconv_sample (w_trait C) (nth 1 rs 0)) ;;
    up <- lift (batched_shape (im2col_hwrsc_shape H W) (tdims x)) ;;
    with_tensor up (fun x_upper =>
      im2col_nhwc H W x_upper x ;;;
      k_mm dt sc e (as_matrix 3 z) (as_matrix 3 x_upper) (as_matrix 3 y)).

  (** kernels::conv2d<nchw, dcrs> (kernels/cpu/conv2d.hpp:66-82). *)
  Definition conv_nchw (e : engine) (C : conv_trait) (z x y : tensor) : M V unit :=
    let rs := filter_shape dcrs (tdims y) in
    H <- lift (lconv_sample (h_trait C) (nth 0 rs 0)) ;;
    W <- lift (lconv_sample (w_trait C) (nth 1 rs 0)) ;;
    up <- lift (batched_shape (im2col_rshw_shape H W) (tl (tdims x))) ;;
    with_tensor up (fun x_upper =>
      let n := batch_size nchw (tdims z) in
      for_ (zrange n) (fun l =>
        batched (im2col_rshw H W) x_upper (sub x l) ;;;
        k_mm dt sc e (as_matrix 1 (sub z l)) (as_matrix 1 y) (as_matrix 3 x_upper))).

  (** ops::grad::conv<nhwc, rscd, 0> (ops/gradients/conv2d.hpp:22-44). *)
  Definition conv_grad_x (e : engine) (C : conv_trait) (gx gz y : tensor) : M V unit :=
    let rs := filter_shape rscd (tdims y) in
    H <- lift (lconv_sample (h_trait C) (nth 0 rs 0)) ;;
    W <- lift (lconv_sample (w_trait C) (nth 1 rs 0)) ;;
    up <- lift (batched_shape (im2col_hwrsc_shape H W) (tdims gx)) ;;
    with_tensor up (fun gx_upper =>
      k_mmt dt sc e (as_matrix 3 gx_upper) (as_matrix 3 gz) (as_matrix 3 y) ;;;
      batched (col2im H W) gx gx_upper).

  (** ops::grad::conv<nhwc, rscd, 1> (ops/gradients/conv2d.hpp:56-75). *)
  Definition conv_grad_y (e : engine) (C : conv_trait) (gy gz x : tensor) : M V unit :=
    let rs := filter_shape rscd (tdims gy) in
    H <- lift (lconv_sample (h_trait C) (nth 0 rs 0)) ;;
    W <- lift (lconv_sample (w_trait C) (nth 1 rs 0)) ;;
    up <- lift (batched_shape (im2col_hwrsc_shape H W) (tdims x)) ;;
    with_tensor up (fun x_upper =>
      batched (im2col_hwrsc H W) x_upper x ;;;
      k_mtm dt sc e (as_matrix 3 gy) (as_matrix 3 x_upper) (as_matrix 3 gz)).
End Conv.
