(** Vocabulary for algebraic properties of the convolution operators, for both
    layouts at once: cells named by (image, row, column, channel) and
    (tap, tap, channel in, channel out). *)
From Coq Require Import ZArith List Bool.
From Verif Require Import Base Traits TraitsSpec Scalar LinAlg Conv ConvSpec ConvFacts.
Import ListNotations.
Open Scope Z_scope.

(** Index of pixel (p, q), channel k, of image l; of the weight of tap (u, v)
    from channel k to channel t. *)
Definition pix (io : order) (l p q k : Z) : list Z := match io with nchw => [l; k; p; q] | _ => [l; p; q; k] end.
Definition wgt (io : order) (u v k t : Z) : list Z := match io with nchw => [t; k; u; v] | _ => [u; v; k; t] end.

(** Sizes of a convolution: [gn] images of [gh] x [gw] pixels and [gc] channels,
    filters of [gr] x [gs] taps, [gd] channels out, results of [gh'] x [gw']. *)
Record geom : Type := mkgeom { gn : Z; gh : Z; gw : Z; gc : Z; gr : Z; gs : Z; gd : Z; gh' : Z; gw' : Z }.

Definition axis_h (C : conv_trait) (g : geom) : sample := axis_of (h_trait C) (gr g).
Definition axis_w (C : conv_trait) (g : geom) : sample := axis_of (w_trait C) (gs g).

(** The layouts that exist, admissible axes, and sizes for which the int table
    of im2col is exact. *)
Definition geom_ok (io : order) (C : conv_trait) (g : geom) : Prop :=
  (io = nhwc /\ gh g * gw g * gc g <= 2 ^ 31 \/ io = nchw) /\
  axis_ok (axis_h C g) (gh g) (gh' g) /\ axis_ok (axis_w C g) (gw g) (gw' g) /\
  0 <= gn g /\ 0 <= gc g /\ 0 <= gd g.

(** Tensors with contents [X] and [Y], and a result tensor of the right shape. *)
Definition called {V T} (dt : dtype V T) (sc : scalar T) (io : order) (e : engine) (C : conv_trait) (g : geom)
    (s : st V) (z x y : tensor) (X Y : list Z -> T) : Prop :=
  geom_ok io C g /\ engine_ok sc e [gn g; gc g; gd g] /\
  tdims x = pix io (gn g) (gh g) (gw g) (gc g) /\ tdims y = wgt io (gr g) (gs g) (gc g) (gd g) /\
  tdims z = pix io (gn g) (gh' g) (gw' g) (gd g) /\
  fresh_ok s /\ holds dt s x X /\ holds dt s y Y /\ mapped s z /\ disjoint z x /\ disjoint z y.

(** Channel [k] of image [l], extended by zeros. *)
Definition zimg {T} (sc : scalar T) (io : order) (g : geom) (X : list Z -> T) (l k : Z) : Z -> Z -> T :=
  zpad (s0 sc) (gh g) (gw g) (fun p q => X (pix io l p q k)).

Definition in_out (g : geom) (l i j t : Z) : Prop :=
  0 <= l < gn g /\ 0 <= i < gh' g /\ 0 <= j < gw' g /\ 0 <= t < gd g.
Definition in_img (g : geom) (l p q k : Z) : Prop :=
  0 <= l < gn g /\ 0 <= p < gh g /\ 0 <= q < gw g /\ 0 <= k < gc g.
Definition in_flt (g : geom) (u v k t : Z) : Prop :=
  0 <= u < gr g /\ 0 <= v < gs g /\ 0 <= k < gc g /\ 0 <= t < gd g.
