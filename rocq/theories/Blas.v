(** The CBLAS engine with an arbitrary library behind it.

    [LinAlg.gemm] adds the products of an entry in increasing order.  The C
    interface of BLAS does not fix how they are added: libraries add in blocks,
    in several accumulators, with fused multiply-adds, in several threads.  Here
    the value of every entry is left to a function [lib] that is only given the
    products to be added; the callers are those of LinAlg.v, Elem.v, Conv.v and
    Backprop.v with this gemm in place of the other. *)
From Coq Require Import ZArith List Bool.
From Verif Require Import Base Traits Scalar LinAlg Shapes Conv Elem Activation Pool Reshape Backprop.
Import ListNotations.
Open Scope Z_scope.
Open Scope model_scope.

(** What a library may look at besides the numbers: the arguments of the call
    and the position of the entry. *)
Record call : Type := mkcall {
  c_transa : bool; c_transb : bool; c_m : Z; c_n : Z; c_k : Z;
  c_a : loc; c_lda : Z; c_b : loc; c_ldb : Z; c_c : loc; c_ldc : Z;
  c_i : Z; c_j : Z }.

(** The value of an entry from the pairs to be multiplied and added.  It may
    also depend on the state of the memory at the call (e.g. on the alignment of
    blocks). *)
Definition library (V T : Type) : Type := st V -> call -> list (T * T) -> T.

Section Blas.
  Context {V T : Type} (dt : dtype V T) (di : dtype V Z) (sc : scalar T).
  Context (exp_ : T -> T) (eps : T).
  Context (lib : library V T).

  (** cblas_sgemm, cblas_dgemm (called in engines/cblas_impl.hpp:13-30, 52-62) for
      CblasRowMajor, beta = 0; illegal arguments as in [LinAlg.gemm]. *)
  Definition gemm_lib (trans_a trans_b : bool) (Mm N K : Z) (alpha : T)
             (A : loc) (lda : Z) (B : loc) (ldb : Z) (C : loc) (ldc : Z) : M V unit := fun s =>
    (if (lda <? Z.max 1 (if trans_a then Mm else K))
        || (ldb <? Z.max 1 (if trans_b then K else N))
        || (ldc <? Z.max 1 N) || (Mm <? 0) || (N <? 0) || (K <? 0)
     then undef
     else
       for_ (zrange Mm) (fun i =>
         for_ (zrange N) (fun j =>
           pairs <- foldM (zrange K) (fun acc k =>
                      aa <- load dt (elt A trans_a lda i k) ;;
                      bb <- load dt (elt B trans_b ldb k j) ;;
                      ret (acc ++ [(aa, bb)])) [] ;;
           store dt (elt C false ldc i j)
             (smul sc alpha (lib s (mkcall trans_a trans_b Mm N K A lda B ldb C ldc i j) pairs))))) s.

  (** cblas_impl::_gemm, mm, mmt, mtm (engines/cblas_impl.hpp:52-81). *)
  Definition blas_gemm (a : tensor) (trans_a : bool) (b : tensor) (trans_b : bool) (c : tensor) : M V unit :=
    gemm_lib trans_a trans_b (len c) (wid c) (if trans_b then wid b else len b) (s1 sc)
      (daddr a 0) (wid a) (daddr b 0) (wid b) (daddr c 0) (wid c).
  Definition blas_mm (a b c : tensor) : M V unit := blas_gemm a false b false c.
  Definition blas_mmt (a b c : tensor) : M V unit := blas_gemm a false b true c.
  Definition blas_mtm (a b c : tensor) : M V unit := blas_gemm a true b false c.

  (** cblas_sgemv, cblas_dgemv (called in engines/cblas_impl.hpp:32-38) for
      CblasRowMajor, beta = 0 and unit increments; a vector is handed on as a
      matrix with one column. *)
  Definition gemv_lib (trans_a : bool) (Mm N : Z) (alpha : T)
             (A : loc) (lda : Z) (X Y : loc) : M V unit := fun s =>
    (if (lda <? Z.max 1 N) || (Mm <? 0) || (N <? 0) then undef
     else
       let rows := if trans_a then N else Mm in
       let cols := if trans_a then Mm else N in
       for_ (zrange rows) (fun i =>
         pairs <- foldM (zrange cols) (fun acc k =>
                    aa <- load dt (elt A trans_a lda i k) ;;
                    bb <- load dt (fst X, snd X + k) ;;
                    ret (acc ++ [(aa, bb)])) [] ;;
         store dt (fst Y, snd Y + i)
           (smul sc alpha (lib s (mkcall trans_a false rows 1 cols A lda X 1 Y 1 i 0) pairs)))) s.

  (** cblas_impl::mv, vm (engines/cblas_impl.hpp:83-93). *)
  Definition blas_mv (a b c : tensor) : M V unit :=
    gemv_lib false (len a) (wid a) (s1 sc) (daddr a 0) (wid a) (daddr b 0) (daddr c 0).
  Definition blas_vm (a b c : tensor) : M V unit :=
    gemv_lib true (len b) (wid b) (s1 sc) (daddr b 0) (wid b) (daddr a 0) (daddr c 0).

  (** [engines::linag<E>] (engines/linag.hpp). *)
  Definition l_mv (e : engine) : tensor -> tensor -> tensor -> M V unit :=
    match e with Builtin => mv dt sc | Cblas => blas_mv end.
  Definition l_vm (e : engine) : tensor -> tensor -> tensor -> M V unit :=
    match e with Builtin => vm dt sc | Cblas => blas_vm end.
  Definition l_mm (e : engine) : tensor -> tensor -> tensor -> M V unit :=
    match e with Builtin => mm dt sc | Cblas => blas_mm end.
  Definition l_mmt (e : engine) : tensor -> tensor -> tensor -> M V unit :=
    match e with Builtin => mmt dt sc | Cblas => blas_mmt end.
  Definition l_mtm (e : engine) : tensor -> tensor -> tensor -> M V unit :=
    match e with Builtin => mtm dt sc | Cblas => blas_mtm end.

  (** ops::matmul (ops/blas.hpp:40-46), grad::matmul<0> and <1>
      (ops/gradients/matmul.hpp). *)
  Definition op_matmul_lib (e : engine) (z x y : tensor) : M V unit := l_mm e x y z.
  Definition grad_matmul0_lib (e : engine) (gx gz y : tensor) : M V unit := l_mmt e gz y gx.
  Definition grad_matmul1_lib (e : engine) (gy gz x : tensor) : M V unit := l_mtm e x gz gy.

  (** kernels::conv2d<nhwc, rscd> (kernels/cpu/conv2d.hpp:28-52). *)
  Definition conv_nhwc_lib (e : engine) (C : conv_trait) (z x y : tensor) : M V unit :=
    let rs := filter_shape rscd (tdims y) in
    H <- lift (lconv_sample (h_trait C) (nth 0 rs 0)) ;;
    W <- lift (lconv_sample (w_trait C) (nth 1 rs 0)) ;;
    up <- lift (batched_shape (im2col_hwrsc_shape H W) (tdims x)) ;;
    with_tensor up (fun x_upper =>
      im2col_nhwc dt di sc H W x_upper x ;;;
      l_mm e (as_matrix 3 x_upper) (as_matrix 3 y) (as_matrix 3 z)).

  (** ops::grad::conv<nhwc, rscd, 1> (ops/gradients/conv2d.hpp:56-75). *)
  Definition conv_grad_y_lib (e : engine) (C : conv_trait) (gy gz x : tensor) : M V unit :=
    let rs := filter_shape rscd (tdims gy) in
    H <- lift (lconv_sample (h_trait C) (nth 0 rs 0)) ;;
    W <- lift (lconv_sample (w_trait C) (nth 1 rs 0)) ;;
    up <- lift (batched_shape (im2col_hwrsc_shape H W) (tdims x)) ;;
    with_tensor up (fun x_upper =>
      batched (im2col_hwrsc dt sc H W) x_upper x ;;;
      l_mtm e (as_matrix 3 x_upper) (as_matrix 3 gz) (as_matrix 3 gy)).

  (** kernels::conv2d<nchw, dcrs> (kernels/cpu/conv2d.hpp:66-92). *)
  Definition conv_nchw_lib (e : engine) (C : conv_trait) (z x y : tensor) : M V unit :=
    let rs := filter_shape dcrs (tdims y) in
    H <- lift (lconv_sample (h_trait C) (nth 0 rs 0)) ;;
    W <- lift (lconv_sample (w_trait C) (nth 1 rs 0)) ;;
    up <- lift (batched_shape (im2col_rshw_shape H W) (tl (tdims x))) ;;
    with_tensor up (fun x_upper =>
      let n := batch_size nchw (tdims z) in
      for_ (zrange n) (fun l =>
        batched (im2col_rshw dt sc H W) x_upper (sub x l) ;;;
        l_mm e (as_matrix 1 y) (as_matrix 3 x_upper) (as_matrix 1 (sub z l)))).

  (** ops::grad::conv<nhwc, rscd, 0> (ops/gradients/conv2d.hpp:22-44). *)
  Definition conv_grad_x_lib (e : engine) (C : conv_trait) (gx gz y : tensor) : M V unit :=
    let rs := filter_shape rscd (tdims y) in
    H <- lift (lconv_sample (h_trait C) (nth 0 rs 0)) ;;
    W <- lift (lconv_sample (w_trait C) (nth 1 rs 0)) ;;
    up <- lift (batched_shape (im2col_hwrsc_shape H W) (tdims gx)) ;;
    with_tensor up (fun gx_upper =>
      l_mmt e (as_matrix 3 gz) (as_matrix 3 y) (as_matrix 3 gx_upper) ;;;
      batched (col2im dt sc H W) gx gx_upper).

  (** The forward calls of a network ([Backprop.forward], [forward_from]). *)
  Definition forward_lib (L : layer) (z x p : tensor) : M V unit :=
    match L with
    | LMatmul e _ _ _ => op_matmul_lib e z x p
    | LConv e C _ _ _ _ _ _ _ _ _ => conv_nhwc_lib e C z x p
    | _ => forward dt di sc exp_ eps L z x p
    end.

  Fixpoint net_lib (E : node -> tensor) (k : nat) (net : list layer) : M V unit :=
    match net with
    | [] => ret tt
    | L :: net => forward_lib L (E (Out (S k))) (E (Out k)) (E (Par k)) ;;; net_lib E (S k) net
    end.
End Blas.

(** The library that adds in increasing order, starting from 0. *)
Definition in_order {V T} (sc : scalar T) : library V T :=
  fun _ _ l => fold_left (fun tmp p => sadd sc tmp (smul sc (fst p) (snd p))) l (s0 sc).
