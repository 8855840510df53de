(** Vocabulary for two convolutions in sequence. *)
From Coq Require Import ZArith List Bool.
From Verif Require Import Base Traits TraitsSpec Scalar LinAlg Conv ConvSpec ConvFacts ConvAlgSpec.
Import ListNotations.
Open Scope Z_scope.

(** The trait of the one convolution: the padding of the first, the product of
    the strides, no dilation. *)
Definition stack_axis (a1 a2 : lconv) : lconv := mklconv (lpad a1) (lstride a1 * lstride a2) 1.
Definition stack_trait (C1 C2 : conv_trait) : conv_trait :=
  mkconv (stack_axis (h_trait C1) (h_trait C2)) (stack_axis (w_trait C1) (w_trait C2)).
(** Tap [u1] of the first under tap [u2] of the second; the number of taps. *)
Definition stack_tap (a1 a2 : lconv) (u1 u2 : Z) : Z := u2 * (lrate a2 * lstride a1) + u1 * lrate a1.
Definition stack_taps (a1 a2 : lconv) (k1 k2 : Z) : Z := stack_tap a1 a2 (k1 - 1) (k2 - 1) + 1.
Definition stack_geom (C1 C2 : conv_trait) (g1 g2 : geom) : geom :=
  mkgeom (gn g1) (gh g1) (gw g1) (gc g1)
    (stack_taps (h_trait C1) (h_trait C2) (gr g1) (gr g2)) (stack_taps (w_trait C1) (w_trait C2) (gs g1) (gs g2))
    (gd g2) (gh' g2) (gw' g2).

(** The second convolution reads what the first writes, without padding. *)
Definition follows (C2 : conv_trait) (g1 g2 : geom) : Prop :=
  gn g2 = gn g1 /\ gh g2 = gh' g1 /\ gw g2 = gw' g1 /\ gc g2 = gd g1 /\
  lpad (h_trait C2) = mkpadding 0 0 /\ lpad (w_trait C2) = mkpadding 0 0.

(** The filters of the one convolution: tap (a, b) sums the products over all
    pairs of taps that land on it and all channels between. *)
Definition stacked {T} (sc : scalar T) (io : order) (C1 C2 : conv_trait) (g1 g2 : geom) (Y1 Y2 : list Z -> T)
    (a b k t : Z) : T :=
  sum_over sc
    (List.filter (arg5 (fun u2 v2 m u1 v1 => (stack_tap (h_trait C1) (h_trait C2) u1 u2 =? a) &&
                                             (stack_tap (w_trait C1) (w_trait C2) v1 v2 =? b)))
                 (indices [gr g2; gs g2; gd g1; gr g1; gs g1]))
    (arg5 (fun u2 v2 m u1 v1 => smul sc (Y1 (wgt io u1 v1 k m)) (Y2 (wgt io u2 v2 m t)))).
(** The bias of the one layer: what the first bias contributes, plus the second. *)
Definition stacked_bias {T} (sc : scalar T) (io : order) (g2 : geom) (B1 Y2 B2 : list Z -> T) (t : Z) : T :=
  sadd sc (sum_over sc (indices [gr g2; gs g2; gc g2]) (arg3 (fun u v m => smul sc (B1 [m]) (Y2 (wgt io u v m t)))))
          (B2 [t]).
