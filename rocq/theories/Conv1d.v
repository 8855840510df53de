(** Model of the 1-D operators: ops/im2col1d.hpp, ops/impl/im2col1d.hpp,
    ops/col2im1d.hpp, ops/impl/col2im1d.hpp, ops/conv1d.hpp,
    ops/impl/conv1d.hpp.  Tensor dimensions and loop variables are uint32_t,
    the geometry is int32_t; conversions are written out. *)
From Coq Require Import ZArith List Bool.
From Verif Require Import Base Traits Scalar.
Import ListNotations.
Open Scope Z_scope.
Open Scope model_scope.

(** im2col1d shape (ops/im2col1d.hpp:24-29): the sample is called on an int32_t,
    [make_shape(m, ksize)] converts back. *)
Definition im2col1d_shape (sp : sample) (x : list Z) : outcome (list Z) :=
  m <<- sample_len I32 sp (to_i32 (nth 0 x 0)) ;;
  Ret [to_u32 m; to_u32 (ksize (sfilter sp))].

(** col2im1d shape (ops/col2im1d.hpp:25-32): [(m - 1) * stride + patch_size]
    is computed in uint32_t, stored in an int, and [n - padding(0)] in int. *)
Definition col2im1d_shape (sp : sample) (x : list Z) : outcome (list Z) :=
  let m := nth 0 x 0 in
  _ <<- ocontract (to_u32 (ksize (sfilter sp)) =? nth 1 x 0) ;;
  m1 <<- isub U32 m 1 ;;
  a <<- imul U32 m1 (to_u32 (stride (sfilter sp))) ;;
  ps <<- patch_size I32 (sfilter sp) ;;
  b <<- iadd U32 a (to_u32 ps) ;;
  let n := to_i32 b in
  p0 <<- pad_len I32 (spadding sp) 0 ;;
  r <<- isub I32 n p0 ;;
  Ret [to_u32 r].

(** The 1-D convolution operator: stride, rate and padding
    (ops/conv1d.hpp:9-27). *)
Record conv1d_trait : Type := mkconv1d { cstride : Z; crate : Z; cpad : padding }.

(** [filter(n, padding)] (traits/filter.hpp:51-64) instantiated with
    dim_t = uint32_t and N = int32_t, as called from ops/conv1d.hpp:42. *)
Definition filter_len_mixed (f : filter) (p : padding) (n : Z) : outcome Z :=
  let n_padded := to_u32 (to_u32 (left_ p + n) + right_ p) in
  ps0 <<- patch_size I32 f ;;
  let ps := to_u32 ps0 in
  if n_padded <? ps then Exn InvalidArgument
  else
    let d := to_u32 (n_padded - ps) in
    q <<- irem U32 d (to_u32 (stride f)) ;;
    if negb (q =? 0) then Exn InvalidArgument
    else
      d2 <<- idiv U32 d (to_u32 (stride f)) ;;
      iadd U32 d2 1.

(** conv1d shape (ops/conv1d.hpp:37-43). *)
Definition conv1d_shape (c : conv1d_trait) (x y : list Z) : outcome (list Z) :=
  f <<- new_filter (to_i32 (nth 0 y 0)) (cstride c) (crate c) ;;
  m <<- filter_len_mixed f (cpad c) (nth 0 x 0) ;;
  Ret [m].

Section Conv1d.
  Context {V T : Type} (dt : dtype V T) (sc : scalar T).

  (** The input element seen by tap [k] of window [j]: the common part of
      ops/impl/im2col1d.hpp:14-16 and ops/impl/col2im1d.hpp:15-16. *)
  Definition source1 (sp : sample) (n j k : Z) : outcome (option Z) :=
    i <<- sample_pos I32 sp (to_i32 j) (to_i32 k) ;;
    b <<- sample_inside I32 sp i (to_i32 n) ;;
    if b then
      q <<- sample_unpad I32 sp i ;;
      Ret (Some (to_u32 q))
    else Ret None.

  (** im2col1d (ops/impl/im2col1d.hpp:7-22). *)
  Definition im2col1d (sp : sample) (y x : tensor) : M V unit :=
    let n := nth_dim x 0 in
    for_ (zrange (nth_dim y 0)) (fun j =>
      for_ (zrange (nth_dim y 1)) (fun k =>
        q <- lift (source1 sp n j k) ;;
        v <- match q with Some i => at_ dt x [i] | None => ret (s0 sc) end ;;
        set_ dt y [j; k] v)).

  (** col2im1d (ops/impl/col2im1d.hpp:8-19). *)
  Definition col2im1d (sp : sample) (y x : tensor) : M V unit :=
    let n := nth_dim y 0 in
    fill dt y (s0 sc) ;;;
    for_ (zrange (nth_dim x 0)) (fun j =>
      for_ (zrange (nth_dim x 1)) (fun k =>
        q <- lift (source1 sp n j k) ;;
        match q with
        | Some i =>
            b <- at_ dt x [j; k] ;;
            a <- at_ dt y [i] ;;
            set_ dt y [i] (sadd sc a b)
        | None => ret tt
        end)).

  (** [filter(j, k)], [padding_.inside(i, n)] and [padding_.unpad(i)] with
      dim_t = uint32_t and N = int32_t (traits/filter.hpp:66-71,
      traits/padding.hpp:28-35), as called from ops/impl/conv1d.hpp:17-19. *)
  Definition source1_mixed (f : filter) (p : padding) (n j k : Z) : outcome (option Z) :=
    let i := to_u32 (to_u32 (j * stride f) + to_u32 (k * rate f)) in
    b <<- pad_inside I32 p (to_i32 i) (to_i32 n) ;;
    if b then Ret (Some (to_u32 (i - left_ p))) else Ret None.

  (** conv1d (ops/impl/conv1d.hpp:7-24). *)
  Definition conv1d (c : conv1d_trait) (z x y : tensor) : M V unit :=
    f <- lift (new_filter (to_i32 (nth_dim y 0)) (cstride c) (crate c)) ;;
    let n := nth_dim x 0 in
    for_ (zrange (nth_dim z 0)) (fun j =>
      xi <- foldM (zrange (nth_dim y 0)) (fun xi k =>
              q <- lift (source1_mixed f (cpad c) n j k) ;;
              match q with
              | Some i =>
                  yk <- load dt (daddr y k) ;;
                  xv <- load dt (daddr x i) ;;
                  ret (sadd sc xi (smul sc yk xv))
              | None => ret xi
              end) (s0 sc) ;;
      store dt (daddr z j) xi).
End Conv1d.
