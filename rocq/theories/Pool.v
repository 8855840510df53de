(** Model of pooling: kernels/cpu/pool.hpp, ops/pool.hpp. *)
From Coq Require Import ZArith List Bool.
From Verif Require Import Base Traits Scalar Conv.
Import ListNotations.
Open Scope Z_scope.
Open Scope model_scope.

(** ** Accumulators *)

(** The interface used by the kernels: default construction, operator()(R) and
    conversion to R (undefined for an integer division by zero). *)
Record accumulator (T : Type) : Type := mkacc {
  acc_st : Type;
  acc0 : acc_st;
  acc_step : acc_st -> T -> acc_st;
  acc_get : acc_st -> outcome T
}.
Arguments acc_st {T} _.
Arguments acc0 {T} _.
Arguments acc_step {T} _ _ _.
Arguments acc_get {T} _ _.

(** max_accumulator (kernels/cpu/pool.hpp:14-28); [lowest] is
    std::numeric_limits<R>::lowest(). *)
Definition max_acc {T} (sc : scalar T) (lowest : T) : accumulator T :=
  mkacc T T lowest (fun val x => if sltb sc val x then x else val) (fun val => Ret val).

(** mean_accumulator (kernels/cpu/pool.hpp:30-46).  [div_n] is the C++ division
    of an R by a uint32_t, converted back to R. *)
Definition mean_acc {T} (sc : scalar T) (div_n : T -> Z -> outcome T) : accumulator T :=
  mkacc T (T * Z) (s0 sc, 0)
    (fun a x => (sadd sc (fst a) x, to_u32 (snd a + 1)))
    (fun a => div_n (fst a) (snd a)).

(** R / uint32_t for a floating point R: the divisor is converted to R. *)
Definition div_float {T} (sc : scalar T) (a : T) (n : Z) : outcome T := sdiv sc a (sofZ sc n).

(** int32_t / uint32_t: the usual arithmetic conversions convert the dividend to
    uint32_t; the quotient is converted back to int32_t. *)
Definition div_i32 (a : Z) (n : Z) : outcome Z :=
  if n =? 0 then Undef else Ret (to_i32 (to_u32 a / n)).

Section Pool.
  Context {V T : Type} (dt : dtype V T) (A : accumulator T).

  (** kernels::pool<hw> (kernels/cpu/pool.hpp:71-93). *)
  Definition pool_hw (H W : sample) (y x : tensor) : M V unit :=
    let h := nth_dim x 0 in let w := nth_dim x 1 in
    for_ (zrange (nth_dim y 0)) (fun i_ =>
      for_ (zrange (nth_dim y 1)) (fun j_ =>
        acc <- foldM (zrange (ksize (sfilter H))) (fun acc u =>
                 foldM (zrange (ksize (sfilter W))) (fun acc v =>
                   q <- lift (source H W h w i_ j_ u v) ;;
                   match q with
                   | Some (i, j) => a <- at_ dt x [i; j] ;; ret (acc_step A acc a)
                   | None => ret acc
                   end) acc) (acc0 A) ;;
        r <- lift (acc_get A acc) ;;
        set_ dt y [i_; j_] r)).

  (** kernels::pool<hwc> (kernels/cpu/pool.hpp:105-133). *)
  Definition pool_hwc (H W : sample) (y x : tensor) : M V unit :=
    let h := nth_dim x 0 in let w := nth_dim x 1 in let c := nth_dim x 2 in
    contract (c =? nth_dim y 2) ;;;
    for_ (zrange (nth_dim y 2)) (fun k =>
      for_ (zrange (nth_dim y 0)) (fun i_ =>
        for_ (zrange (nth_dim y 1)) (fun j_ =>
          acc <- foldM (zrange (ksize (sfilter H))) (fun acc u =>
                   foldM (zrange (ksize (sfilter W))) (fun acc v =>
                     q <- lift (source H W h w i_ j_ u v) ;;
                     match q with
                     | Some (i, j) => a <- at_ dt x [i; j; k] ;; ret (acc_step A acc a)
                     | None => ret acc
                     end) acc) (acc0 A) ;;
          r <- lift (acc_get A acc) ;;
          set_ dt y [i_; j_; k] r))).

  (** ops::pool<hw> and ops::pool<hwc> (ops/pool.hpp:24-30, 40-46). *)
  Definition op_pool_hw (P : pool_trait) : tensor -> tensor -> M V unit := pool_hw (h_sample P) (w_sample P).
  Definition op_pool_hwc (P : pool_trait) : tensor -> tensor -> M V unit := pool_hwc (h_sample P) (w_sample P).

  (** The inner operator of the 4-D pools, [op(get_ksize(), get_stride())]
      (ops/pool.hpp:74, 96): the padding is not passed on. *)
  Definition inner_pool (P : pool_trait) : outcome pool_trait :=
    new_pool_ks (ksize (sfilter (h_sample P))) (ksize (sfilter (w_sample P)))
                (stride (sfilter (h_sample P))) (stride (sfilter (w_sample P))).

  (** ops::pool<nhwc> (ops/pool.hpp:70-76). *)
  Definition op_pool_nhwc (P : pool_trait) (y x : tensor) : M V unit :=
    P0 <- lift (inner_pool P) ;;
    for_ (zrange (nth_dim x 0)) (fun i => op_pool_hwc P0 (sub y i) (sub x i)).

  (** ops::pool<nchw> (ops/pool.hpp:92-100). *)
  Definition op_pool_nchw (P : pool_trait) (y x : tensor) : M V unit :=
    P0 <- lift (inner_pool P) ;;
    for_ (zrange (nth_dim x 0)) (fun i =>
      for_ (zrange (nth_dim x 1)) (fun j =>
        op_pool_hw P0 (sub (sub y i) j) (sub (sub x i) j))).
End Pool.
