(** Vocabulary for the algebra of convolution gradients and of folding:
    calls of the two gradient operators, dual traits, coverage of pixels. *)
From Coq Require Import ZArith List Bool.
From Verif Require Import Base Traits TraitsSpec Scalar LinAlg Conv ConvSpec ConvFacts ConvAlgSpec.
Import ListNotations.
Open Scope Z_scope.

(** Calls of the gradient operators, with contents [GZ] (gradient of the
    result), [Y] (filters) and [X] (images). *)
Definition axes_ok (C : conv_trait) (g : geom) : Prop :=
  axis_ok (axis_h C g) (gh g) (gh' g) /\ axis_ok (axis_w C g) (gw g) (gw' g) /\
  0 <= gn g /\ 0 <= gc g /\ 0 <= gd g.
Definition img_dims (g : geom) : list Z := [gn g; gh g; gw g; gc g].
Definition out_dims (g : geom) : list Z := [gn g; gh' g; gw' g; gd g].
Definition flt_dims (g : geom) : list Z := [gr g; gs g; gc g; gd g].

Definition called_gx {V T} (dt : dtype V T) (sc : scalar T) (e : engine) (C : conv_trait) (g : geom)
    (s : st V) (gx gz y : tensor) (GZ Y : list Z -> T) : Prop :=
  axes_ok C g /\ engine_ok sc e [gn g; gc g; gd g] /\
  tdims gx = img_dims g /\ tdims gz = out_dims g /\ tdims y = flt_dims g /\
  fresh_ok s /\ holds dt s gz GZ /\ holds dt s y Y /\ mapped s gx /\ disjoint gx gz /\ disjoint gx y.
Definition called_gy {V T} (dt : dtype V T) (sc : scalar T) (e : engine) (C : conv_trait) (g : geom)
    (s : st V) (gy gz x : tensor) (GZ X : list Z -> T) : Prop :=
  axes_ok C g /\ engine_ok sc e [gn g; gc g; gd g] /\
  tdims gy = flt_dims g /\ tdims gz = out_dims g /\ tdims x = img_dims g /\
  fresh_ok s /\ holds dt s gz GZ /\ holds dt s x X /\ mapped s gy /\ disjoint gy gz /\ disjoint gy x.

(** Axis that slides a window of [k] taps backwards: stride 1, the same rate,
    and the padding that completes the given one to (k - 1) * rate. *)
Definition back_axis (a : lconv) (k : Z) : lconv :=
  mklconv (mkpadding ((k - 1) * lrate a - left_ (lpad a)) ((k - 1) * lrate a - right_ (lpad a))) 1 (lrate a).
Definition back_trait (C : conv_trait) (g : geom) : conv_trait :=
  mkconv (back_axis (h_trait C) (gr g)) (back_axis (w_trait C) (gs g)).

(** Length of [m] cells spread at distance [s], and its cells: cell a * s holds
    the value of cell a, the others hold zero. *)
Definition spread_len (m s : Z) : Z := (m - 1) * s + 1.
Definition spread {T} (zero : T) (sh sw : Z) (F : list Z -> T) : list Z -> T :=
  arg4 (fun l a b t => if (a mod sh =? 0) && (b mod sw =? 0) then F [l; a / sh; b / sw; t] else zero).

(** Geometry of the convolution of the spread gradient with the turned filters. *)
Definition back_geom (C : conv_trait) (g : geom) : geom :=
  mkgeom (gn g) (spread_len (gh' g) (lstride (h_trait C))) (spread_len (gw' g) (lstride (w_trait C)))
         (gd g) (gr g) (gs g) (gc g) (gh g) (gw g).
(** Filters turned by 180 degrees, channels in and out exchanged. *)
Definition turned {T} (r s : Z) (Y : list Z -> T) : list Z -> T :=
  arg4 (fun u v t k => Y [r - 1 - u; s - 1 - v; k; t]).

(** Stride and rate exchanged; images and channels exchanged; the gradient of
    the result as filters. *)
Definition swap_axis (a : lconv) : lconv := mklconv (lpad a) (lrate a) (lstride a).
Definition swap_trait (C : conv_trait) : conv_trait := mkconv (swap_axis (h_trait C)) (swap_axis (w_trait C)).
Definition swap_geom (g : geom) : geom :=
  mkgeom (gc g) (gh g) (gw g) (gn g) (gh' g) (gw' g) (gd g) (gr g) (gs g).

(** Number of (window, tap) pairs that look at position [p]. *)
Definition cover (sp : sample) (m p : Z) : Z :=
  Z.of_nat (length (List.filter (arg2 (fun i u => wpos sp i u =? p)) (indices [m; ksize (sfilter sp)]))).
(** The sum of [n] copies of [a]. *)
Definition times {T} (sc : scalar T) (n : Z) (a : T) : T := sum_over sc (zrange n) (fun _ => a).
