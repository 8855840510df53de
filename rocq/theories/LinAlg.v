(** Model of the linear algebra engines: engines/plain_impl.hpp (builtin),
    engines/cblas_impl.hpp and the wrappers kernels/cpu/blas.hpp. *)
From Coq Require Import ZArith List Bool.
From Verif Require Import Base Scalar.
Import ListNotations.
Open Scope Z_scope.
Open Scope model_scope.

Section LinAlg.
  Context {V T : Type} (dt : dtype V T) (sc : scalar T).

  (** [std::memset(c.data(), 0, c.data_size())]: all bytes zero, which is the
      value 0 of every arithmetic type used. *)
  Definition memset0 (c : tensor) : M V unit := fill dt c (s0 sc).

  (** plain_impl::mm (engines/plain_impl.hpp:22-38). *)
  Definition mm (a b c : tensor) : M V unit :=
    let m := nth_dim a 0 in let l := nth_dim a 1 in
    let l' := nth_dim b 0 in let n := nth_dim b 1 in
    contract (l' =? l) ;;;
    contract (m =? nth_dim c 0) ;;;
    contract (n =? nth_dim c 1) ;;;
    memset0 c ;;;
    for_ (zrange m) (fun i =>
      for_ (zrange l) (fun k =>
        aa <- at_ dt a [i; k] ;;
        for_ (zrange n) (fun j =>
          cc <- at_ dt c [i; j] ;;
          bb <- at_ dt b [k; j] ;;
          set_ dt c [i; j] (sadd sc cc (smul sc aa bb))))).

  (** plain_impl::mmt (engines/plain_impl.hpp:40-56). *)
  Definition mmt (a b c : tensor) : M V unit :=
    let m := nth_dim a 0 in let l := nth_dim a 1 in
    let n := nth_dim b 0 in let l' := nth_dim b 1 in
    contract (l' =? l) ;;;
    contract (m =? nth_dim c 0) ;;;
    contract (n =? nth_dim c 1) ;;;
    for_ (zrange m) (fun i =>
      for_ (zrange n) (fun j =>
        tmp <- foldM (zrange l) (fun tmp k =>
                 aa <- at_ dt a [i; k] ;;
                 bb <- at_ dt b [j; k] ;;
                 ret (sadd sc tmp (smul sc aa bb))) (s0 sc) ;;
        set_ dt c [i; j] tmp)).

  (** plain_impl::mtm (engines/plain_impl.hpp:58-74). *)
  Definition mtm (a b c : tensor) : M V unit :=
    let l := nth_dim a 0 in let m := nth_dim a 1 in
    let l' := nth_dim b 0 in let n := nth_dim b 1 in
    contract (l' =? l) ;;;
    contract (m =? nth_dim c 0) ;;;
    contract (n =? nth_dim c 1) ;;;
    for_ (zrange m) (fun i =>
      for_ (zrange n) (fun j =>
        tmp <- foldM (zrange l) (fun tmp k =>
                 aa <- at_ dt a [k; i] ;;
                 bb <- at_ dt b [k; j] ;;
                 ret (sadd sc tmp (smul sc aa bb))) (s0 sc) ;;
        set_ dt c [i; j] tmp)).

  (** plain_impl::mv (engines/plain_impl.hpp:76-88). *)
  Definition mv (a b c : tensor) : M V unit :=
    let m := nth_dim a 0 in let n := nth_dim a 1 in
    contract (n =? nth_dim b 0) ;;;
    contract (m =? nth_dim c 0) ;;;
    for_ (zrange m) (fun i =>
      tmp <- foldM (zrange n) (fun tmp j =>
               aa <- at_ dt a [i; j] ;;
               bb <- at_ dt b [j] ;;
               ret (sadd sc tmp (smul sc aa bb))) (s0 sc) ;;
      set_ dt c [i] tmp).

  (** plain_impl::vm (engines/plain_impl.hpp:90-102). *)
  Definition vm (a b c : tensor) : M V unit :=
    let m := nth_dim b 0 in let n := nth_dim b 1 in
    contract (m =? nth_dim a 0) ;;;
    contract (n =? nth_dim c 0) ;;;
    for_ (zrange n) (fun i =>
      tmp <- foldM (zrange m) (fun tmp j =>
               aa <- at_ dt a [j] ;;
               bb <- at_ dt b [j; i] ;;
               ret (sadd sc tmp (smul sc aa bb))) (s0 sc) ;;
      set_ dt c [i] tmp).

  (** ** The CBLAS engine.

      [gemm] and [gemv] are external (netlib CBLAS).  They are given here by
      their reference semantics for CblasRowMajor, beta = 0 (the output is not
      read), unit vector increments.  An illegal leading dimension makes the
      reference implementation abort in xerbla, rendered as [undef].
      Simplification: the order of summation of a real BLAS is unspecified;
      here it is increasing, which makes no difference under ring laws.  [Blas.v]
      has gemm with any order, for floating point. *)
  Definition elt (p : loc) (trans : bool) (ld : Z) (i k : Z) : loc :=
    (fst p, snd p + (if trans then k * ld + i else i * ld + k)).

  Definition gemm (trans_a trans_b : bool) (Mm N K : Z) (alpha : T)
             (A : loc) (lda : Z) (B : loc) (ldb : Z) (C : loc) (ldc : Z) : M V unit :=
    if (lda <? Z.max 1 (if trans_a then Mm else K))
       || (ldb <? Z.max 1 (if trans_b then K else N))
       || (ldc <? Z.max 1 N) || (Mm <? 0) || (N <? 0) || (K <? 0)
    then undef
    else
      for_ (zrange Mm) (fun i =>
        for_ (zrange N) (fun j =>
          tmp <- foldM (zrange K) (fun tmp k =>
                   aa <- load dt (elt A trans_a lda i k) ;;
                   bb <- load dt (elt B trans_b ldb k j) ;;
                   ret (sadd sc tmp (smul sc aa bb))) (s0 sc) ;;
          store dt (elt C false ldc i j) (smul sc alpha tmp))).

  Definition gemv (trans_a : bool) (Mm N : Z) (alpha : T)
             (A : loc) (lda : Z) (X Y : loc) : M V unit :=
    if (lda <? Z.max 1 N) || (Mm <? 0) || (N <? 0) then undef
    else
      let rows := if trans_a then N else Mm in
      let cols := if trans_a then Mm else N in
      for_ (zrange rows) (fun i =>
        tmp <- foldM (zrange cols) (fun tmp k =>
                 aa <- load dt (elt A trans_a lda i k) ;;
                 bb <- load dt (fst X, snd X + k) ;;
                 ret (sadd sc tmp (smul sc aa bb))) (s0 sc) ;;
        store dt (fst Y, snd Y + i) (smul sc alpha tmp)).

  (** [len], [wid] (engines/cblas_impl.hpp:40-50).  Simplification: the
      conversion of the dimension to int is the identity (dimensions < 2^31). *)
  Definition len (t : tensor) : Z := nth_dim t 0.
  Definition wid (t : tensor) : Z := nth_dim t 1.

  (** cblas_impl::_gemm (engines/cblas_impl.hpp:52-62). *)
  Definition cblas_gemm (a : tensor) (trans_a : bool) (b : tensor) (trans_b : bool) (c : tensor) : M V unit :=
    gemm trans_a trans_b (len c) (wid c) (if trans_b then wid b else len b) (s1 sc)
         (daddr a 0) (wid a) (daddr b 0) (wid b) (daddr c 0) (wid c).

  (** cblas_impl::mm, mmt, mtm (engines/cblas_impl.hpp:65-81). *)
  Definition cblas_mm (a b c : tensor) : M V unit := cblas_gemm a false b false c.
  Definition cblas_mmt (a b c : tensor) : M V unit := cblas_gemm a false b true c.
  Definition cblas_mtm (a b c : tensor) : M V unit := cblas_gemm a true b false c.

  (** cblas_impl::mv, vm (engines/cblas_impl.hpp:83-93). *)
  Definition cblas_mv (a b c : tensor) : M V unit :=
    gemv false (len a) (wid a) (s1 sc) (daddr a 0) (wid a) (daddr b 0) (daddr c 0).
  Definition cblas_vm (a b c : tensor) : M V unit :=
    gemv true (len b) (wid b) (s1 sc) (daddr b 0) (wid b) (daddr a 0) (daddr c 0).

  (** [engines::default_blas<host_memory>::type] (engines/config.hpp:19-41): cblas
      when STDNN_OPS_HAVE_CBLAS is defined, builtin otherwise. *)
  Inductive engine : Type := Builtin | Cblas.

  (** [engines::linag<E>] (engines/linag.hpp) forwards to the backend. *)
  Definition e_mm (e : engine) : tensor -> tensor -> tensor -> M V unit :=
    match e with Builtin => mm | Cblas => cblas_mm end.
  Definition e_mmt (e : engine) : tensor -> tensor -> tensor -> M V unit :=
    match e with Builtin => mmt | Cblas => cblas_mmt end.
  Definition e_mtm (e : engine) : tensor -> tensor -> tensor -> M V unit :=
    match e with Builtin => mtm | Cblas => cblas_mtm end.

  (** kernels::mm/mtm/mmt (kernels/cpu/blas.hpp:28-65): (z, x, y) -> engine(x, y, z). *)
  Definition k_mm (e : engine) (z x y : tensor) : M V unit := e_mm e x y z.
  Definition k_mtm (e : engine) (z x y : tensor) : M V unit := e_mtm e x y z.
  Definition k_mmt (e : engine) (z x y : tensor) : M V unit := e_mmt e x y z.
End LinAlg.
