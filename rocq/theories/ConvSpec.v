(** Specification of windows over a zero-padded image, independent of the code. *)
From Coq Require Import ZArith List Bool.
From Verif Require Import Base Traits TraitsSpec Scalar.
Import ListNotations.
Open Scope Z_scope.

(** [q] is an index of an axis of length [n]. *)
Definition inb (n q : Z) : bool := (0 <=? q) && (q <? n).

(** The image extended by zeros to all integer coordinates. *)
Definition zpad {T} (zero : T) (h w : Z) (X : Z -> Z -> T) (i j : Z) : T :=
  if inb h i && inb w j then X i j else zero.

(** Image coordinate (possibly negative or too large) of tap [u] of window
    [j], for an axis with the given stride, rate and left padding. *)
Definition wpos (sp : sample) (j u : Z) : Z :=
  tap (stride (sfilter sp)) (rate (sfilter sp)) j u - left_ (spadding sp).

(** An axis of length [n] is admissible and gives [m] windows; all lengths fit
    in uint32_t. *)
Definition axis_ok (sp : sample) (n m : Z) : Prop :=
  let k := ksize (sfilter sp) in let s := stride (sfilter sp) in let r := rate (sfilter sp) in
  let pl := left_ (spadding sp) in let pr := right_ (spadding sp) in
  1 <= k /\ 1 <= s /\ 1 <= r /\ 0 <= pl /\ 0 <= pr /\ 0 <= n /\
  pl + n + pr < 2 ^ 32 /\ valid_config k s r pl pr n m.

(** The sample of a convolution axis for kernel size [k]. *)
Definition axis_of (c : lconv) (k : Z) : sample :=
  mksample (mkfilter k (lstride c) (lrate c)) (lpad c).

(** 2-D convolution (cross-correlation) with zero padding, channels last:
    sum over (u, v, k) in row-major order. *)
Definition conv_spec_nhwc {T} (sc : scalar T) (H W : sample) (h w r s c : Z)
  (X Y : list Z -> T) : list Z -> T :=
  arg4 (fun l i j d =>
    sum_over sc (indices [r; s; c]) (arg3 (fun u v k =>
      smul sc (zpad (s0 sc) h w (fun p q => X [l; p; q; k]) (wpos H i u) (wpos W j v))
              (Y [u; v; k; d])))).

(** The same, channels first. *)
Definition conv_spec_nchw {T} (sc : scalar T) (H W : sample) (h w r s c : Z)
  (X Y : list Z -> T) : list Z -> T :=
  arg4 (fun l d i j =>
    sum_over sc (indices [c; r; s]) (arg3 (fun k u v =>
      smul sc (Y [d; k; u; v])
              (zpad (s0 sc) h w (fun p q => X [l; k; p; q]) (wpos H i u) (wpos W j v))))).

(** Sum, in row-major order of (i, j, u, v), of the column cells that sample
    pixel (p, q). *)
Definition col2im_spec {T} (sc : scalar T) (H W : sample) (h' w' r s : Z) (C : list Z -> T) : list Z -> T :=
  arg3 (fun p q k =>
    sum_over sc (List.filter (arg4 (fun i j u v => (wpos H i u =? p) && (wpos W j v =? q)))
                        (indices [h'; w'; r; s]))
             (arg4 (fun i j u v => C [i; j; u; v; k]))).

(** Gradient of the nhwc convolution with respect to the image and the filter,
    in the order of evaluation of the code. *)
Definition conv_gx_spec {T} (sc : scalar T) (H W : sample) (h' w' r s d : Z) (GZ Y : list Z -> T) : list Z -> T :=
  arg4 (fun l p q k =>
    col2im_spec sc H W h' w' r s
      (arg5 (fun i j u v k' => sum_over sc (zrange d) (fun t => smul sc (GZ [l; i; j; t]) (Y [u; v; k'; t]))))
      [p; q; k]).
Definition conv_gy_spec {T} (sc : scalar T) (H W : sample) (n h w h' w' : Z) (GZ X : list Z -> T) : list Z -> T :=
  arg4 (fun u v k t =>
    sum_over sc (indices [n; h'; w']) (arg3 (fun l i j =>
      smul sc (zpad (s0 sc) h w (fun p q => X [l; p; q; k]) (wpos H i u) (wpos W j v)) (GZ [l; i; j; t])))).
