(** Vocabulary for algebraic properties of the pooling operators, for the four
    layouts at once: cells named by (image, row, column, channel). *)
From Coq Require Import ZArith List Bool.
From Verif Require Import Base Traits TraitsSpec Scalar Conv ConvSpec Pool PoolSpec.
Import ListNotations.
Open Scope Z_scope.

(** Index of pixel (p, q), channel k, of image l. *)
Definition pcell (o : order) (l p q k : Z) : list Z :=
  match o with
  | hw => [p; q] | hwc => [p; q; k] | chw => [k; p; q] | nhwc => [l; p; q; k] | nchw => [l; k; p; q]
  end.

(** The operator of a layout (there is none for chw). *)
Definition op_pool {V T} (dt : dtype V T) (o : order) (A : accumulator T) (P : pool_trait) : tensor -> tensor -> M V unit :=
  match o with
  | hw => op_pool_hw dt A P | hwc => op_pool_hwc dt A P
  | nhwc => op_pool_nhwc dt A P | nchw => op_pool_nchw dt A P
  | chw => fun _ _ => undef
  end.

(** Sizes: [pgn] images of [pgh] x [pgw] pixels and [pgc] channels, pooled to
    [pgh'] x [pgw']. *)
Record pgeom : Type := mkpgeom { pgn : Z; pgh : Z; pgw : Z; pgc : Z; pgh' : Z; pgw' : Z }.

(** The sampling that takes effect: 4-D pools drop the padding (C38). *)
Definition effective (o : order) (sp : sample) : sample :=
  match o with nhwc | nchw => unpadded sp | _ => sp end.

(** The pixels that output (i, j) summarises, and their values. *)
Definition pwindow (o : order) (P : pool_trait) (g : pgeom) (i j : Z) : list (Z * Z) :=
  window (effective o (h_sample P)) (effective o (w_sample P)) (pgh g) (pgw g) i j.
Definition pseen {T} (o : order) (P : pool_trait) (g : pgeom) (X : list Z -> T) (l i j k : Z) : list T :=
  map (fun p => X (pcell o l (fst p) (snd p) k)) (pwindow o P g i j).

Definition kh_of (P : pool_trait) : Z := ksize (sfilter (h_sample P)).
Definition kw_of (P : pool_trait) : Z := ksize (sfilter (w_sample P)).

(** An operator built by its constructor and applied to an image tensor [x] and
    a result tensor [y] of the right shapes, every output cell having at least
    one pixel (C40 says when). *)
Definition psized (o : order) (P : pool_trait) (g : pgeom) (y x : tensor) : Prop :=
  match o with hw => pgn g = 1 /\ pgc g = 1 | hwc => pgn g = 1 | chw => False | _ => True end /\
  (exists kh kw ph pw sh sw, new_pool_kps kh kw ph pw sh sw = Ret P /\ kh * kw < 2 ^ 32) /\
  axis_fits (effective o (h_sample P)) (pgh g) (pgh' g) /\ axis_fits (effective o (w_sample P)) (pgw g) (pgw' g) /\
  0 <= pgn g /\ 0 <= pgc g /\
  (forall i j, 0 <= i < pgh' g -> 0 <= j < pgw' g -> pwindow o P g i j <> []) /\
  tdims x = pcell o (pgn g) (pgh g) (pgw g) (pgc g) /\ tdims y = pcell o (pgn g) (pgh' g) (pgw' g) (pgc g).

(** A call, the image holding [X]. *)
Definition pcalled {V T} (dt : dtype V T) (o : order) (P : pool_trait) (g : pgeom)
    (s : st V) (y x : tensor) (X : list Z -> T) : Prop :=
  psized o P g y x /\ holds dt s x X /\ mapped s y /\ disjoint y x.

(** [m] runs to its end and leaves [Y] in [y]. *)
Definition leaves {V T} (dt : dtype V T) (m : M V unit) (s : st V) (y : tensor) (Y : list Z -> T) : Prop :=
  exists s', m s = Ok tt s' /\ holds dt s' y Y.

Definition pin (g : pgeom) (l p q k : Z) : Prop :=
  0 <= l < pgn g /\ 0 <= p < pgh g /\ 0 <= q < pgw g /\ 0 <= k < pgc g.
Definition pout (g : pgeom) (l i j k : Z) : Prop :=
  0 <= l < pgn g /\ 0 <= i < pgh' g /\ 0 <= j < pgw' g /\ 0 <= k < pgc g.

(** Values that max pooling orders: comparable, and none below its start
    value. *)
Definition orderly {T} (sc : scalar T) (dom : T -> Prop) (lowest : T) (o : order) (g : pgeom) (X : list Z -> T) : Prop :=
  weak_order dom (sltb sc) /\ dom lowest /\
  forall l p q k, pin g l p q k ->
    dom (X (pcell o l p q k)) /\ (sltb sc lowest (X (pcell o l p q k)) = true \/ X (pcell o l p q k) = lowest).

(** Incomparable values are equal. *)
Definition total_on {T} (dom : T -> Prop) (lt : T -> T -> bool) : Prop :=
  forall a b, dom a -> dom b -> lt a b = false -> lt b a = false -> a = b.

(** The accumulator yields a value from every window that has a pixel. *)
Definition yields {T} (A : accumulator T) (k : Z) : Prop :=
  forall v l, Z.of_nat (length (v :: l)) <= k ->
    exists r, acc_get A (fold_left (acc_step A) (v :: l) (acc0 A)) = Ret r.
