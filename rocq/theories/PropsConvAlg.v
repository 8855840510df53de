(** Property C89: algebra of the convolution operators.  Every statement is
    about calls of [op_conv] (both layouts, [pix] and [wgt] name the cells). *)
From Coq Require Import ZArith QArith List Bool Lia ZifyBool Reals Lra.
From Verif Require Import Base BaseFacts TensorFacts Traits TraitsSpec Scalar RealScalar LinAlg LinAlgFacts SumFacts
  Elem ElemSpec ElemFacts Conv ConvSpec ConvFacts ConvAlgSpec ConvAlgFacts Layers PropsConv PropsElem PropsNorm PropsLayers2 Demo.
Import ListNotations.
Open Scope Z_scope.
Open Scope model_scope.

(** Trait with other strides, rates or paddings. *)
Definition unit_stride (a : lconv) : lconv := mklconv (lpad a) 1 (lrate a).
Definition no_padding (a : lconv) : lconv := mklconv (mkpadding 0 0) (lstride a) (lrate a).
Definition unit_rate (a : lconv) : lconv := mklconv (lpad a) (lstride a) 1.
Definition on_axes (f : lconv -> lconv) (C : conv_trait) : conv_trait := mkconv (f (h_trait C)) (f (w_trait C)).

Section Props.
  Context {V T : Type} (dt : dtype V T) (di : dtype V Z) (sc : scalar T).
  Notation "a [+] b" := (sadd sc a b) (at level 50, left associativity).
  Notation "a [*] b" := (smul sc a b) (at level 40, left associativity).
  Notation conv := (op_conv dt di sc).

  (** Equal windows and equal filters give equal results, whatever the two
      calls are.  No law of arithmetic is used, here and in the next five. *)
  Theorem C89_window : forall io e e2 C C2 g g2 s s2 z z2 x x2 y y2 X X2 Y Y2,
    called dt sc io e C g s z x y X Y -> called dt sc io e2 C2 g2 s2 z2 x2 y2 X2 Y2 ->
    gr g = gr g2 -> gs g = gs g2 -> gc g = gc g2 ->
    exists Z Z2, writes dt (conv io e C z x y) s z Z /\ writes dt (conv io e2 C2 z2 x2 y2) s2 z2 Z2 /\
      forall l i j t l2 i2 j2 t2, in_out g l i j t -> in_out g2 l2 i2 j2 t2 ->
        (forall u v k, 0 <= u < gr g -> 0 <= v < gs g -> 0 <= k < gc g ->
           zimg sc io g X l k (wpos (axis_h C g) i u) (wpos (axis_w C g) j v)
           = zimg sc io g2 X2 l2 k (wpos (axis_h C2 g2) i2 u) (wpos (axis_w C2 g2) j2 v) /\
           Y (wgt io u v k t) = Y2 (wgt io u v k t2)) ->
        Z (pix io l i j t) = Z2 (pix io l2 i2 j2 t2).
  Proof.
    intros io e e2 C C2 g g2 s s2 z z2 x x2 y y2 X X2 Y Y2 K K2 Er Es Ec.
    exists (conv_fn sc io C g X Y), (conv_fn sc io C2 g2 X2 Y2).
    split; [apply conv_result; auto|]. split; [apply conv_result; auto|].
    intros l i j t l2 i2 j2 t2 _ _ H. rewrite !conv_fn_pix. apply conv_at_window; auto.
  Qed.

  (** Changing one pixel of one image changes only results whose window
      contains it. *)
  Theorem C89_local : forall io e C g s s2 z x y X X2 Y l0 p0 q0,
    called dt sc io e C g s z x y X Y -> called dt sc io e C g s2 z x y X2 Y ->
    (forall l p q k, in_img g l p q k -> ~ (l = l0 /\ p = p0 /\ q = q0) -> X (pix io l p q k) = X2 (pix io l p q k)) ->
    exists Z Z2, writes dt (conv io e C z x y) s z Z /\ writes dt (conv io e C z x y) s2 z Z2 /\
      forall l i j t, in_out g l i j t -> Z (pix io l i j t) <> Z2 (pix io l i j t) ->
        l = l0 /\ exists u v, 0 <= u < gr g /\ 0 <= v < gs g /\
          wpos (axis_h C g) i u = p0 /\ wpos (axis_w C g) j v = q0.
  Proof.
    intros io e C g s s2 z x y X X2 Y l0 p0 q0 K K2 E.
    exists (conv_fn sc io C g X Y), (conv_fn sc io C g X2 Y).
    split; [apply conv_result; auto|]. split; [apply conv_result; auto|].
    intros l i j t (Hl & Hi & Hj & Ht). rewrite !conv_fn_pix. intros Ne.
    destruct (Z.eq_dec l l0) as [->|Nl].
    - split; auto.
      set (hit := existsb (fun u => existsb (fun v => (wpos (axis_h C g) i u =? p0) && (wpos (axis_w C g) j v =? q0))
                                      (zrange (gs g))) (zrange (gr g))).
      destruct hit eqn:Eh; unfold hit in Eh.
      + apply existsb_exists in Eh. destruct Eh as (u & Hu & Eh). apply existsb_exists in Eh.
        destruct Eh as (v & Hv & Eh). apply in_zrange in Hu. apply in_zrange in Hv. exists u, v. lia.
      + exfalso. apply Ne. apply conv_at_window; auto. intros u v k Hu Hv Hk. split; auto.
        unfold zimg, zpad. destruct (inb (gh g) _ && inb (gw g) _) eqn:B; auto.
        unfold inb in B. apply E; [unfold in_img; lia|]. intros (_ & A & B'). apply not_true_iff_false in Eh. apply Eh.
        apply existsb_exists. exists u. split; [apply in_zrange; auto|]. apply existsb_exists. exists v.
        split; [apply in_zrange; auto|]. lia.
    - exfalso. apply Ne. apply conv_at_window; auto. intros u v k Hu Hv Hk. split; auto.
      unfold zimg, zpad. destruct (inb (gh g) _ && inb (gw g) _) eqn:B; auto.
      unfold inb in B. apply E; [unfold in_img; lia|]. tauto.
  Qed.

  (** Translation by multiples of the strides. *)
  Theorem C89_translate : forall io e C g s s2 z x y X X2 Y a b,
    called dt sc io e C g s z x y X Y -> called dt sc io e C g s2 z x y X2 Y ->
    (forall l p q k, 0 <= l < gn g -> 0 <= k < gc g ->
       zimg sc io g X2 l k p q = zimg sc io g X l k (p + a * lstride (h_trait C)) (q + b * lstride (w_trait C))) ->
    exists Z Z2, writes dt (conv io e C z x y) s z Z /\ writes dt (conv io e C z x y) s2 z Z2 /\
      forall l i j t, in_out g l i j t -> in_out g l (i + a) (j + b) t ->
        Z2 (pix io l i j t) = Z (pix io l (i + a) (j + b) t).
  Proof.
    intros io e C g s s2 z x y X X2 Y a b K K2 E.
    exists (conv_fn sc io C g X Y), (conv_fn sc io C g X2 Y).
    split; [apply conv_result; auto|]. split; [apply conv_result; auto|].
    intros l i j t (Hl & Hi & Hj & Ht) _. rewrite !conv_fn_pix. apply conv_at_window; auto.
    intros u v k Hu Hv Hk. split; auto. rewrite E by auto. f_equal; unfold wpos, tap, axis_h, axis_w, axis_of; cbn; ring.
  Qed.

  (** A strided convolution is the convolution of stride 1 at every stride-th
      place. *)
  Theorem C89_stride : forall io e e2 C g g2 s s2 z z2 x y X Y,
    called dt sc io e C g s z x y X Y ->
    g2 = mkgeom (gn g) (gh g) (gw g) (gc g) (gr g) (gs g) (gd g) (gh' g2) (gw' g2) ->
    called dt sc io e2 (on_axes unit_stride C) g2 s2 z2 x y X Y ->
    exists Z Z2, writes dt (conv io e C z x y) s z Z /\
      writes dt (conv io e2 (on_axes unit_stride C) z2 x y) s2 z2 Z2 /\
      forall l i j t, in_out g l i j t ->
        in_out g2 l (i * lstride (h_trait C)) (j * lstride (w_trait C)) t /\
        Z (pix io l i j t) = Z2 (pix io l (i * lstride (h_trait C)) (j * lstride (w_trait C)) t).
  Proof.
    intros io e e2 C g g2 s s2 z z2 x y X Y K Eg K2.
    exists (conv_fn sc io C g X Y), (conv_fn sc io (on_axes unit_stride C) g2 X Y).
    split; [apply conv_result; auto|]. split; [apply conv_result; auto|].
    intros l i j t (Hl & Hi & Hj & Ht). split.
    - destruct K as [(_ & AH & AW & _) _]. destruct K2 as [(_ & AH2 & AW2 & _) _].
      destruct g as [n h w c r q d h' w'], g2 as [n2 h2 w2 c2 r2 q2 d2 h2' w2']. injection Eg as -> -> -> -> -> -> ->.
      destruct C as [[pa sa ra] [pb sb rb]].
      unfold in_out, axis_h, axis_w, axis_of, axis_ok, valid_config, span, on_axes, unit_stride in *.
      cbn [h_trait w_trait lpad lstride lrate sfilter spadding ksize stride rate gn gh gw gc gr gs gd gh' gw'] in *.
      assert (h2' - 1 = sa * (h' - 1)) by lia. assert (w2' - 1 = sb * (w' - 1)) by lia.
      assert (sa * (h' - 1) >= i * sa) by nia. assert (sb * (w' - 1) >= j * sb) by nia. nia.
    - rewrite !conv_fn_pix. apply conv_at_window; try (rewrite Eg; reflexivity).
      intros u v k Hu Hv Hk. split; auto. unfold zimg. rewrite Eg; cbn [gh gw].
      f_equal; unfold wpos, tap, axis_h, axis_w, axis_of; cbn; ring.
  Qed.

  (** Padding is the same as convolving the padded image. *)
  Theorem C89_padding : forall io e e2 C g s s2 z x x2 y X X2 Y,
    let ph := lpad (h_trait C) in let pw := lpad (w_trait C) in
    called dt sc io e C g s z x y X Y ->
    called dt sc io e2 (on_axes no_padding C)
      (mkgeom (gn g) (left_ ph + gh g + right_ ph) (left_ pw + gw g + right_ pw) (gc g) (gr g) (gs g) (gd g) (gh' g) (gw' g))
      s2 z x2 y X2 Y ->
    (forall l p q k, 0 <= l < gn g -> 0 <= p < left_ ph + gh g + right_ ph -> 0 <= q < left_ pw + gw g + right_ pw ->
       0 <= k < gc g -> X2 (pix io l p q k) = zimg sc io g X l k (p - left_ ph) (q - left_ pw)) ->
    exists Z, writes dt (conv io e C z x y) s z Z /\ writes dt (conv io e2 (on_axes no_padding C) z x2 y) s2 z Z.
  Proof.
    intros io e e2 C g s s2 z x x2 y X X2 Y ph pw K K2 E.
    exists (conv_fn sc io C g X Y). split; [apply conv_result; auto|].
    eapply writes_ext; [reflexivity| |apply conv_result; exact K2].
    intros ix Hix. pose proof K as (G & _ & _ & _ & Ez & _). rewrite Ez in Hix.
    destruct (pix_cases io _ _ _ _ _ (called_io dt sc _ _ _ _ _ _ _ _ _ _ K) Hix) as (l & i & j & t & -> & Hl & Hi & Hj & Ht).
    rewrite !conv_fn_pix. symmetry. apply conv_at_window; auto. intros u v k Hu Hv Hk. split; auto.
    destruct G as (_ & AH & AW & _).
    pose proof (axis_pos _ _ _ i u AH Hi Hu) as PH. pose proof (axis_pos _ _ _ j v AW Hj Hv) as PW.
    unfold zimg at 2, zpad. cbn [gh gw gc gn]. set (g2 := mkgeom _ _ _ _ _ _ _ _ _).
    assert (Eh : wpos (axis_h (on_axes no_padding C) g2) i u = wpos (axis_h C g) i u + left_ ph)
      by (unfold wpos, axis_h, axis_of, on_axes; cbn; subst ph; lia).
    assert (Ew : wpos (axis_w (on_axes no_padding C) g2) j v = wpos (axis_w C g) j v + left_ pw)
      by (unfold wpos, axis_w, axis_of, on_axes; cbn; subst pw; lia).
    rewrite Eh, Ew.
    assert (BH : 0 <= wpos (axis_h C g) i u + left_ ph < left_ ph + gh g + right_ ph).
    { revert PH AH. unfold axis_h, wpos, axis_of, axis_ok, valid_config, span, tap; cbn; subst ph. clear -Hi Hu. cbn. nia. }
    assert (BW : 0 <= wpos (axis_w C g) j v + left_ pw < left_ pw + gw g + right_ pw).
    { revert PW AW. unfold axis_w, wpos, axis_of, axis_ok, valid_config, span, tap; cbn; subst pw. clear -Hj Hv. cbn. nia. }
    replace (inb _ _ && inb _ _) with true by (unfold inb; lia).
    rewrite E by auto. f_equal; lia.
  Qed.

  (** Each output channel is computed from its own filters. *)
  Theorem C89_filters : forall io e e2 C g g2 s s2 z z2 x y y2 X Y Y2 f,
    called dt sc io e C g s z x y X Y ->
    g2 = mkgeom (gn g) (gh g) (gw g) (gc g) (gr g) (gs g) (gd g2) (gh' g) (gw' g) ->
    called dt sc io e2 C g2 s2 z2 x y2 X Y2 ->
    (forall t, 0 <= t < gd g2 -> 0 <= f t < gd g) ->
    (forall u v k t, in_flt g2 u v k t -> Y2 (wgt io u v k t) = Y (wgt io u v k (f t))) ->
    exists Z Z2, writes dt (conv io e C z x y) s z Z /\ writes dt (conv io e2 C z2 x y2) s2 z2 Z2 /\
      forall l i j t, in_out g2 l i j t -> Z2 (pix io l i j t) = Z (pix io l i j (f t)).
  Proof.
    intros io e e2 C g g2 s s2 z z2 x y y2 X Y Y2 f K Eg K2 Hf E.
    exists (conv_fn sc io C g X Y), (conv_fn sc io C g2 X Y2).
    split; [apply conv_result; auto|]. split; [apply conv_result; auto|].
    intros l i j t (Hl & Hi & Hj & Ht). rewrite !conv_fn_pix. apply conv_at_window; try (rewrite Eg; reflexivity).
    intros u v k Hu Hv Hk. split; [rewrite Eg; reflexivity|]. apply E. unfold in_flt. tauto.
  Qed.

  (** Stride 1, no padding. *)
  Definition plain (C : conv_trait) : Prop :=
    lpad (h_trait C) = mkpadding 0 0 /\ lpad (w_trait C) = mkpadding 0 0 /\
    lstride (h_trait C) = 1 /\ lstride (w_trait C) = 1.

  (** A 1 x 1 convolution is a matrix product, with the same rounding. *)
  Theorem C89_pointwise_nhwc : forall e C g s z x y X Y,
    called dt sc nhwc e C g s z x y X Y -> plain C -> gr g = 1 -> gs g = 1 ->
    exists Z, writes dt (conv nhwc e C z x y) s z Z /\
      writes dt (op_matmul dt sc Builtin (as_matrix 3 z) (as_matrix 3 x) (as_matrix 3 y)) s z Z.
  Proof.
    intros e C [n h w c r q d h' w'] s z x y X Y K (P1 & P2 & S1 & S2) Er Es. cbn [gr gs] in Er, Es. subst r q.
    eexists. split; [apply conv_result; exact K|].
    destruct K as (G & _ & Ex & Ey & Ez & _ & HX & HY & HZ & D1 & D2). destruct G as (_ & AH & AW & Hn & Hc & Hd).
    cbn [gn gh gw gc gr gs gd gh' gw' pix wgt] in *.
    destruct C as [[ph sh rh] [pw sw rw]]. cbn in P1, P2, S1, S2. subst.
    assert (h' = h /\ w' = w) as [-> ->].
    { geo. lia. }
    pose proof (axis_m _ _ _ AH). pose proof (axis_m _ _ _ AW).
    eapply writes_ext; [reflexivity| |
      eapply (matmul_view dt sc 3 3 3 z x y [n; h; w] [d] [n; h; w] [c] [1; 1; c] [d] X Y s); auto].
    - intros ix Hix. rewrite Ez in Hix. apply valid_4 in Hix. destruct Hix as (l & i & j & t & -> & Hl & Hi & Hj & Ht).
      unfold conv_fn, arg4; cbn [nth firstn skipn].
      rewrite (expand_offset [n; h; w] [l; i; j]), (expand_offset [d] [t]) by (cbn [valid]; lia).
      unfold conv_at, tapsum. cbn [gr gs gc indices]. change (zrange 1) with [0]. cbn [flat_map map].
      rewrite !app_nil_r, map_map, !sum_over_map. cbn [prod]. rewrite Z.mul_1_r. rewrite flat_map_concat_map.
      replace (concat (map (fun i0 => [[i0]]) (zrange c))) with (map (fun i0 => [i0]) (zrange c))
        by (induction (zrange c) as [|b bs IHb]; cbn; congruence).
      rewrite sum_over_map. apply sum_over_ext. intros k Hk. apply in_zrange in Hk.
      pose proof (expand_offset [1; 1; c] [0; 0; k]) as E1. pose proof (expand_offset [c] [k]) as E2.
      cbn [offset prod] in E1, E2. rewrite Z.mul_1_r, Z.add_0_r in E2. 
      replace (0 * (1 * (c * 1)) + (0 * (c * 1) + (k * 1 + 0))) with k in E1 by lia.
      rewrite E1, E2 by (cbn [valid]; lia). unfold arg3; cbn [nth app]. unfold mulo, zimg, zpad, wpos, tap; cbn.
      replace (inb h _ && inb w _) with true by (unfold inb; lia). f_equal. f_equal. unfold pix. repeat (f_equal; try lia).
    - cbn [prod]; lia.
    - unfold dims_ok; rewrite Ez; repeat constructor; lia.
    - unfold dims_ok; rewrite Ex; repeat constructor; lia.
    - unfold dims_ok; rewrite Ey; repeat constructor; lia.
  Qed.

  Theorem C89_pointwise_nchw : forall e C g s z x y X Y,
    called dt sc nchw e C g s z x y X Y -> plain C -> gr g = 1 -> gs g = 1 ->
    exists Z, writes dt (conv nchw e C z x y) s z Z /\
      forall l, 0 <= l < gn g ->
        writes dt (op_matmul dt sc Builtin (as_matrix 1 (sub z l)) (as_matrix 1 y) (as_matrix 1 (sub x l))) s
          (sub z l) (fun ix => Z (l :: ix)).
  Proof.
    intros e C [n h w c r q d h' w'] s z x y X Y K (P1 & P2 & S1 & S2) Er Es. cbn [gr gs] in Er, Es. subst r q.
    eexists. split; [apply conv_result; exact K|].
    destruct K as (G & _ & Ex & Ey & Ez & _ & HX & HY & HZ & D1 & D2). destruct G as (_ & AH & AW & Hn & Hc & Hd).
    cbn [gn gh gw gc gr gs gd gh' gw' pix wgt] in *. intros l Hl.
    destruct C as [[ph sh rh] [pw sw rw]]. cbn in P1, P2, S1, S2. subst.
    assert (h' = h /\ w' = w) as [-> ->] by (geo; lia).
    pose proof (axis_m _ _ _ AH). pose proof (axis_m _ _ _ AW).
    assert (Dz : dims_ok z) by (unfold dims_ok; rewrite Ez; repeat constructor; lia).
    assert (Dx : dims_ok x) by (unfold dims_ok; rewrite Ex; repeat constructor; lia).
    eapply writes_ext; [reflexivity| |
      eapply (matmul_view dt sc 1 1 1 (sub z l) y (sub x l) [d] [h; w] [d] [c; 1; 1] [c] [h; w] Y (fun ix => X (l :: ix)) s); auto].
    - intros ix Hix. rewrite (tdims_sub z l _ _ Ez) in Hix. apply valid_3 in Hix. destruct Hix as (t & i & j & -> & Ht & Hi & Hj).
      unfold conv_fn, arg4; cbn [nth firstn skipn].
      rewrite (expand_offset [h; w] [i; j]), (expand_offset [d] [t]) by (cbn [valid]; lia).
      unfold conv_at, tapsum. cbn [gr gs gc].
      rewrite <- (sum_over_indices sc [c; 1; 1] _) by (repeat constructor; lia).
      apply sum_over_ext. intros k Hk. apply in_zrange in Hk. cbn [prod] in Hk.
      pose proof (expand_offset [c; 1; 1] [k; 0; 0]) as E1. pose proof (expand_offset [c] [k]) as E2.
      cbn [offset prod] in E1, E2. rewrite Z.mul_1_r, Z.add_0_r in E2. 
      replace (k * (1 * (1 * 1)) + (0 * (1 * 1) + (0 * 1 + 0))) with k in E1 by lia.
      rewrite E1, E2 by (cbn [valid]; lia). unfold arg3; cbn [nth app]. unfold mulo, zimg, zpad, wpos, tap; cbn.
      replace (inb h _ && inb w _) with true by (unfold inb; lia). f_equal. f_equal. unfold pix. repeat (f_equal; try lia).
    - exact (tdims_sub z l _ _ Ez).
    - exact (tdims_sub x l _ _ Ex).
    - unfold dims_ok; rewrite (tdims_sub z l _ _ Ez); repeat constructor; lia.
    - unfold dims_ok; rewrite Ey; repeat constructor; lia.
    - unfold dims_ok; rewrite (tdims_sub x l _ _ Ex); repeat constructor; lia.
    - eapply holds_sub; eauto.
    - eapply mapped_sub; eauto.
    - eapply disjoint_sub_l; eauto.
    - eapply disjoint_sub_l; eauto. eapply disjoint_sub_r; eauto.
  Qed.

  (** With filters of the size of the image, convolution is the dense layer: the
      product of the flattened images and the filters as a matrix. *)
  Theorem C89_dense : forall e C g s z x y X Y,
    called dt sc nhwc e C g s z x y X Y -> plain C -> lrate (h_trait C) = 1 -> lrate (w_trait C) = 1 ->
    gr g = gh g -> gs g = gw g ->
    exists Z, writes dt (conv nhwc e C z x y) s z Z /\
      writes dt (op_matmul dt sc Builtin (as_matrix 1 z) (as_matrix 1 x) (as_matrix 3 y)) s z Z.
  Proof.
    intros e C [n h w c r q d h' w'] s z x y X Y K (P1 & P2 & S1 & S2) R1 R2 Er Es. cbn [gr gs gh gw] in Er, Es. subst r q.
    eexists. split; [apply conv_result; exact K|].
    destruct K as (G & _ & Ex & Ey & Ez & _ & HX & HY & HZ & D1 & D2). destruct G as (_ & AH & AW & Hn & Hc & Hd).
    cbn [gn gh gw gc gr gs gd gh' gw' pix wgt] in *.
    destruct C as [[ph sh rh] [pw sw rw]]. cbn in P1, P2, S1, S2, R1, R2. subst.
    assert (h' = 1 /\ w' = 1) as [-> ->] by (geo; lia).
    pose proof (axis_k _ _ _ AH) as KH. pose proof (axis_k _ _ _ AW) as KW. cbn in KH, KW.
    eapply writes_ext; [reflexivity| |
      eapply (matmul_view dt sc 1 1 3 z x y [n] [1; 1; d] [n] [h; w; c] [h; w; c] [d] X Y s); auto].
    - intros ix Hix. rewrite Ez in Hix. apply valid_4 in Hix. destruct Hix as (l & i & j & t & -> & Hl & Hi & Hj & Ht).
      assert (i = 0) by lia. assert (j = 0) by lia. subst i j.
      unfold conv_fn, arg4; cbn [nth firstn skipn].
      rewrite (expand_offset [n] [l]) by (cbn [valid]; lia).
      pose proof (expand_offset [d] [t]) as E3. cbn [offset prod] in E3.
      cbn [offset prod]. replace (0 * (1 * (d * 1)) + (0 * (d * 1) + (t * 1 + 0))) with (t * 1 + 0) by lia.
      rewrite E3 by (cbn [valid]; lia).
      unfold conv_at, tapsum. cbn [gr gs gc].
      change (h * (w * (c * 1))) with (prod [h; w; c]).
      rewrite <- (sum_over_indices sc [h; w; c] _) by (repeat constructor; lia).
      apply sum_over_ext. intros k Hk. apply in_zrange in Hk.
      pose proof (valid_expand [h; w; c] k ltac:(repeat constructor; lia) Hk) as Vk.
      remember (expand [h; w; c] k) as kk. apply valid_3 in Vk. destruct Vk as (u & v & k2 & -> & Hu & Hv & Hk2).
      unfold arg3; cbn [nth app]. unfold mulo, zimg, zpad, wpos, tap; cbn [axis_h axis_w axis_of h_trait w_trait].
      geo. replace (inb h _ && inb w _) with true by (unfold inb; lia). f_equal. f_equal. unfold pix. repeat (f_equal; try lia).
    - cbn [prod]; lia.
    - unfold dims_ok; rewrite Ez; repeat constructor; lia.
    - unfold dims_ok; rewrite Ex; repeat constructor; lia.
    - unfold dims_ok; rewrite Ey; repeat constructor; lia.
  Qed.

  (** ** With the laws of a commutative ring *)
  Context (laws : ring_laws sc).
  Let rt : Ring_theory.ring_theory (s0 sc) (s1 sc) (sadd sc) (smul sc) (ssub sc) (sneg sc) (@eq T) := laws.
  Add Ring sc_ring_pca : rt.

  (** Linear in the image ... *)
  Theorem C89_linear_image : forall io e C g s s2 s3 z x y X X2 X3 Y a b,
    called dt sc io e C g s z x y X Y -> called dt sc io e C g s2 z x y X2 Y -> called dt sc io e C g s3 z x y X3 Y ->
    (forall l p q k, in_img g l p q k -> X3 (pix io l p q k) = a [*] X (pix io l p q k) [+] b [*] X2 (pix io l p q k)) ->
    exists Z Z2, writes dt (conv io e C z x y) s z Z /\ writes dt (conv io e C z x y) s2 z Z2 /\
      writes dt (conv io e C z x y) s3 z (fun ix => a [*] Z ix [+] b [*] Z2 ix).
  Proof.
    intros io e C g s s2 s3 z x y X X2 X3 Y a b K K2 K3 E.
    exists (conv_fn sc io C g X Y), (conv_fn sc io C g X2 Y).
    split; [apply conv_result; auto|]. split; [apply conv_result; auto|].
    eapply writes_ext; [reflexivity| |apply conv_result; exact K3].
    intros ix Hix. pose proof K as (_ & _ & _ & _ & Ez & _). rewrite Ez in Hix.
    destruct (pix_cases io _ _ _ _ _ (called_io dt sc _ _ _ _ _ _ _ _ _ _ K) Hix) as (l & i & j & t & -> & Hl & Hi & Hj & Ht).
    rewrite !conv_fn_pix. unfold conv_at. rewrite <- !(tapsum_scale sc laws), <- (tapsum_add sc laws).
    apply tapsum_ext; auto. intros u v k Hu Hv Hk. rewrite !(mulo_mul sc laws). unfold zimg, zpad.
    destruct (inb (gh g) _ && inb (gw g) _) eqn:B; [|ring]. unfold inb in B.
    rewrite E by (unfold in_img; lia). ring.
  Qed.

  (** ... and in the filters. *)
  Theorem C89_linear_filter : forall io e C g s s2 s3 z x y X Y Y2 Y3 a b,
    called dt sc io e C g s z x y X Y -> called dt sc io e C g s2 z x y X Y2 -> called dt sc io e C g s3 z x y X Y3 ->
    (forall u v k t, in_flt g u v k t -> Y3 (wgt io u v k t) = a [*] Y (wgt io u v k t) [+] b [*] Y2 (wgt io u v k t)) ->
    exists Z Z2, writes dt (conv io e C z x y) s z Z /\ writes dt (conv io e C z x y) s2 z Z2 /\
      writes dt (conv io e C z x y) s3 z (fun ix => a [*] Z ix [+] b [*] Z2 ix).
  Proof.
    intros io e C g s s2 s3 z x y X Y Y2 Y3 a b K K2 K3 E.
    exists (conv_fn sc io C g X Y), (conv_fn sc io C g X Y2).
    split; [apply conv_result; auto|]. split; [apply conv_result; auto|].
    eapply writes_ext; [reflexivity| |apply conv_result; exact K3].
    intros ix Hix. pose proof K as (_ & _ & _ & _ & Ez & _). rewrite Ez in Hix.
    destruct (pix_cases io _ _ _ _ _ (called_io dt sc _ _ _ _ _ _ _ _ _ _ K) Hix) as (l & i & j & t & -> & Hl & Hi & Hj & Ht).
    rewrite !conv_fn_pix. unfold conv_at. rewrite <- !(tapsum_scale sc laws), <- (tapsum_add sc laws).
    apply tapsum_ext; auto. intros u v k Hu Hv Hk. rewrite !(mulo_mul sc laws).
    rewrite E by (unfold in_flt; tauto). ring.
  Qed.

  (** Filters with a single one at the tap that looks at the pixel itself copy
      the image. *)
  Theorem C89_identity : forall io e C g s z x y X Y u0 v0,
    called dt sc io e C g s z x y X Y ->
    gd g = gc g -> gh' g = gh g -> gw' g = gw g -> lstride (h_trait C) = 1 -> lstride (w_trait C) = 1 ->
    0 <= u0 < gr g -> 0 <= v0 < gs g ->
    u0 * lrate (h_trait C) = left_ (lpad (h_trait C)) -> v0 * lrate (w_trait C) = left_ (lpad (w_trait C)) ->
    (forall u v k t, in_flt g u v k t ->
       Y (wgt io u v k t) = if (u =? u0) && (v =? v0) && (k =? t) then s1 sc else s0 sc) ->
    writes dt (conv io e C z x y) s z X.
  Proof.
    intros io e C g s z x y X Y u0 v0 K Ed Eh Ew S1 S2 Hu0 Hv0 P1 P2 E.
    eapply writes_ext; [reflexivity| |apply conv_result; exact K].
    intros ix Hix. pose proof K as (_ & _ & _ & _ & Ez & _). rewrite Ez in Hix.
    destruct (pix_cases io _ _ _ _ _ (called_io dt sc _ _ _ _ _ _ _ _ _ _ K) Hix) as (l & i & j & t & -> & Hl & Hi & Hj & Ht).
    rewrite conv_fn_pix. unfold conv_at. rewrite (tapsum_nest sc laws).
    rewrite (sum_single sc laws _ u0); auto using NoDup_zrange; [|apply in_zrange; auto|].
    2:{ intros u Hu Ne. apply in_zrange in Hu. apply (sum_zero_ext sc laws). intros v Hv. apply in_zrange in Hv.
        apply (sum_zero_ext sc laws). intros k Hk. apply in_zrange in Hk. rewrite (mulo_mul sc laws).
        rewrite E by (unfold in_flt; auto). replace (u =? u0) with false by lia. cbn [andb]. ring. }
    rewrite (sum_single sc laws _ v0); auto using NoDup_zrange; [|apply in_zrange; auto|].
    2:{ intros v Hv Ne. apply in_zrange in Hv.
        apply (sum_zero_ext sc laws). intros k Hk. apply in_zrange in Hk. rewrite (mulo_mul sc laws).
        rewrite E by (unfold in_flt; auto). replace (v =? v0) with false by lia. rewrite andb_false_r. cbn [andb]. ring. }
    rewrite (sum_single sc laws _ t); auto using NoDup_zrange; [|apply in_zrange; lia|].
    2:{ intros k Hk Ne. apply in_zrange in Hk. rewrite (mulo_mul sc laws).
        rewrite E by (unfold in_flt; auto). replace (k =? t) with false by lia. rewrite andb_false_r. ring. }
    rewrite (mulo_mul sc laws), E by (unfold in_flt; lia). rewrite !Z.eqb_refl. cbn [andb].
    unfold zimg, zpad, wpos, tap, axis_h, axis_w, axis_of; cbn [sfilter spadding stride rate].
    rewrite S1, S2, P1, P2. replace (inb _ _ && inb _ _) with true by (unfold inb; lia).
    replace (i * 1 + left_ (lpad (h_trait C)) - left_ (lpad (h_trait C))) with i by lia.
    replace (j * 1 + left_ (lpad (w_trait C)) - left_ (lpad (w_trait C))) with j by lia. ring.
  Qed.

  (** Convolving an image whose channels are those of two images (with the
      filters stacked likewise) adds the two results. *)
  Theorem C89_channels : forall io e e2 e3 C g g2 g3 s s2 s3 z x y x2 y2 x3 y3 X Y X2 Y2 X3 Y3,
    called dt sc io e C g s z x y X Y -> called dt sc io e2 C g2 s2 z x2 y2 X2 Y2 ->
    called dt sc io e3 C g3 s3 z x3 y3 X3 Y3 ->
    g2 = mkgeom (gn g) (gh g) (gw g) (gc g2) (gr g) (gs g) (gd g) (gh' g) (gw' g) ->
    g3 = mkgeom (gn g) (gh g) (gw g) (gc g + gc g2) (gr g) (gs g) (gd g) (gh' g) (gw' g) ->
    (forall l p q k, in_img g3 l p q k ->
       X3 (pix io l p q k) = if k <? gc g then X (pix io l p q k) else X2 (pix io l p q (k - gc g))) ->
    (forall u v k t, in_flt g3 u v k t ->
       Y3 (wgt io u v k t) = if k <? gc g then Y (wgt io u v k t) else Y2 (wgt io u v (k - gc g) t)) ->
    exists Z Z2, writes dt (conv io e C z x y) s z Z /\ writes dt (conv io e2 C z x2 y2) s2 z Z2 /\
      writes dt (conv io e3 C z x3 y3) s3 z (fun ix => Z ix [+] Z2 ix).
  Proof.
    intros io e e2 e3 C g g2 g3 s s2 s3 z x y x2 y2 x3 y3 X Y X2 Y2 X3 Y3 K K2 K3 Eg2 Eg3 EX EY.
    exists (conv_fn sc io C g X Y), (conv_fn sc io C g2 X2 Y2).
    split; [apply conv_result; auto|]. split; [apply conv_result; auto|].
    eapply writes_ext; [reflexivity| |apply conv_result; exact K3].
    intros ix Hix. pose proof K as ((_ & _ & _ & _ & Hc & _) & _ & _ & _ & Ez & _). rewrite Ez in Hix.
    pose proof K2 as ((_ & _ & _ & _ & Hc2 & _) & _).
    destruct (pix_cases io _ _ _ _ _ (called_io dt sc _ _ _ _ _ _ _ _ _ _ K) Hix) as (l & i & j & t & -> & Hl & Hi & Hj & Ht).
    rewrite !conv_fn_pix. unfold conv_at. rewrite !(tapsum_nest sc laws).
    destruct g as [n h w c r q d h' w'], g2 as [n2 h2 w2 c2 r2 q2 d2 h2' w2']. cbn [gn gh gw gc gr gs gd gh' gw'] in *.
    injection Eg2 as -> -> -> -> -> -> -> ->. subst g3. cbn [gn gh gw gc gr gs gd gh' gw'] in *.
    rewrite <- (sum_add sc laws). apply sum_over_ext. intros u Hu. apply in_zrange in Hu.
    rewrite <- (sum_add sc laws). apply sum_over_ext. intros v Hv. apply in_zrange in Hv.
    rewrite zrange_app by auto. rewrite (sum_app sc laws), sum_over_map. f_equal; apply sum_over_ext; intros k Hk; apply in_zrange in Hk;
      rewrite !(mulo_mul sc laws); unfold zimg, zpad; rewrite EY by (unfold in_flt; cbn; lia).
    - replace (k <? c) with true by lia. f_equal. geo.
      destruct (inb h _ && inb w _) eqn:B; auto. unfold inb in B. rewrite EX by (unfold in_img; cbn; lia).
      replace (k <? c) with true by lia. reflexivity.
    - replace (c + k <? c) with false by lia. replace (c + k - c) with k by lia. f_equal. geo.
      destruct (inb h _ && inb w _) eqn:B; auto. unfold inb in B. rewrite EX by (unfold in_img; cbn; lia).
      replace (c + k <? c) with false by lia. replace (c + k - c) with k by lia. reflexivity.
  Qed.

  (** A dilated convolution is the undilated one with zeros between the taps. *)
  Theorem C89_dilate : forall io e e2 C g s s2 z x y y2 X Y Y2,
    let rh := lrate (h_trait C) in let rw := lrate (w_trait C) in
    called dt sc io e C g s z x y X Y ->
    called dt sc io e2 (on_axes unit_rate C)
      (mkgeom (gn g) (gh g) (gw g) (gc g) ((gr g - 1) * rh + 1) ((gs g - 1) * rw + 1) (gd g) (gh' g) (gw' g))
      s2 z x y2 X Y2 ->
    (forall u v k t, in_flt g u v k t -> Y2 (wgt io (u * rh) (v * rw) k t) = Y (wgt io u v k t)) ->
    (forall u v k t, 0 <= u <= (gr g - 1) * rh -> 0 <= v <= (gs g - 1) * rw -> 0 <= k < gc g -> 0 <= t < gd g ->
       u mod rh <> 0 \/ v mod rw <> 0 -> Y2 (wgt io u v k t) = s0 sc) ->
    exists Z, writes dt (conv io e C z x y) s z Z /\ writes dt (conv io e2 (on_axes unit_rate C) z x y2) s2 z Z.
  Proof.
    intros io e e2 C g s s2 z x y y2 X Y Y2 rh rw K K2 E E0.
    exists (conv_fn sc io C g X Y). split; [apply conv_result; auto|].
    eapply writes_ext; [reflexivity| |apply conv_result; exact K2].
    intros ix Hix. pose proof K as (G & _ & _ & _ & Ez & _). rewrite Ez in Hix.
    destruct (pix_cases io _ _ _ _ _ (called_io dt sc _ _ _ _ _ _ _ _ _ _ K) Hix) as (l & i & j & t & -> & Hl & Hi & Hj & Ht).
    destruct G as (_ & AH & AW & _).
    assert (Rh : 1 <= rh /\ 1 <= gr g) by (geo; subst rh; lia).
    assert (Rw : 1 <= rw /\ 1 <= gs g) by (geo; subst rw; lia).
    rewrite !conv_fn_pix. unfold conv_at. rewrite !(tapsum_nest sc laws). cbn [gr gs gc].
    rewrite (sum_multiples sc laws); [|lia|lia|].
    2:{ intros u Hu Nu. apply (sum_zero_ext sc laws). intros v Hv. apply in_zrange in Hv.
        apply (sum_zero_ext sc laws). intros k Hk. apply in_zrange in Hk. rewrite (mulo_mul sc laws).
        rewrite E0; try lia; [ring|]. left. intros M. apply (Nu (u / rh)).
        - split; [apply Z.div_pos; lia|]. apply Z.div_lt_upper_bound; [lia|]. nia.
        - pose proof (Z.div_mod u rh ltac:(lia)). lia. }
    apply sum_over_ext. intros u Hu. apply in_zrange in Hu.
    rewrite (sum_multiples sc laws); [|lia|lia|].
    2:{ intros v Hv Nv. apply (sum_zero_ext sc laws). intros k Hk. apply in_zrange in Hk. rewrite (mulo_mul sc laws).
        rewrite E0; try lia; [ring|nia|]. right. intros M. apply (Nv (v / rw)).
        - split; [apply Z.div_pos; lia|]. apply Z.div_lt_upper_bound; [lia|]. nia.
        - pose proof (Z.div_mod v rw ltac:(lia)). lia. }
    apply sum_over_ext. intros v Hv. apply in_zrange in Hv.
    apply sum_over_ext. intros k Hk. apply in_zrange in Hk.
    rewrite E by (unfold in_flt; auto). f_equal. unfold zimg; cbn [gh gw].
    f_equal; unfold wpos, tap, axis_h, axis_w, axis_of, on_axes, unit_rate; cbn; subst rh rw; ring.
  Qed.

  (** Exchanging rows and columns of image, filters and trait exchanges those of
      the result. *)
  Theorem C89_swap : forall io e e2 C g s s2 z z2 x x2 y y2 X X2 Y Y2,
    called dt sc io e C g s z x y X Y ->
    called dt sc io e2 (mkconv (w_trait C) (h_trait C))
      (mkgeom (gn g) (gw g) (gh g) (gc g) (gs g) (gr g) (gd g) (gw' g) (gh' g)) s2 z2 x2 y2 X2 Y2 ->
    (forall l p q k, in_img g l p q k -> X2 (pix io l q p k) = X (pix io l p q k)) ->
    (forall u v k t, in_flt g u v k t -> Y2 (wgt io v u k t) = Y (wgt io u v k t)) ->
    exists Z Z2, writes dt (conv io e C z x y) s z Z /\
      writes dt (conv io e2 (mkconv (w_trait C) (h_trait C)) z2 x2 y2) s2 z2 Z2 /\
      forall l i j t, in_out g l i j t -> Z2 (pix io l j i t) = Z (pix io l i j t).
  Proof.
    intros io e e2 C g s s2 z z2 x x2 y y2 X X2 Y Y2 K K2 EX EY. eexists; eexists.
    split; [apply conv_result; exact K|]. split; [apply conv_result; exact K2|].
    intros l i j t (Hl & Hi & Hj & Ht). rewrite !conv_fn_pix. unfold conv_at. rewrite !(tapsum_nest sc laws). cbn [gr gs gc].
    rewrite (sum_swap sc laws). apply sum_over_ext. intros u Hu. apply in_zrange in Hu.
    apply sum_over_ext. intros v Hv. apply in_zrange in Hv. apply sum_over_ext. intros k Hk. apply in_zrange in Hk.
    rewrite EY by (unfold in_flt; auto). f_equal. unfold zimg, zpad, axis_h, axis_w; cbn [gh gw gr gs h_trait w_trait].
    rewrite andb_comm. destruct (inb (gh g) _ && inb (gw g) _) eqn:B; auto. unfold inb in B. apply EX. unfold in_img. lia.
  Qed.
End Props.

(** Inference-time folding: over the reals, batch normalisation with scale and
    shift after a convolution is one convolution with scaled filters followed
    by a bias. *)
Theorem C89_fold_bn : forall V (dt : dtype V R) di io e C g s z x y y2 m v be ga b X Y Y2 Mu Va Be Ga B eps,
  called dt Rsc io e C g s z x y X Y -> called dt Rsc io e C g s z x y2 X Y2 -> (0 < eps)%R ->
  tdims m = [gd g] -> tdims v = [gd g] -> tdims be = [gd g] -> tdims ga = [gd g] -> tdims b = [gd g] ->
  holds dt s m Mu -> holds dt s v Va -> holds dt s be Be -> holds dt s ga Ga -> holds dt s b B ->
  disjoint z m -> disjoint z v -> disjoint z be -> disjoint z ga -> disjoint z b ->
  (forall u v k t, in_flt g u v k t ->
     Y2 (wgt io u v k t) = (Y (wgt io u v k t) * (Ga [t] / (sqrt (Va [t]) + eps)))%R) ->
  (forall t, 0 <= t < gd g -> B [t] = (Be [t] - Mu [t] * (Ga [t] / (sqrt (Va [t]) + eps)))%R) ->
  exists Z,
    writes dt (op_conv dt di Rsc io e C z x y ;;; op_bn_bias dt Rsc io (normalize Rsc sqrt eps) z z m v be ga) s z Z /\
    writes dt (op_conv dt di Rsc io e C z x y2 ;;; op_bias dt io (f_add Rsc) z z b) s z Z.
Proof.
  intros V dt di io e C g s z x y y2 m v be ga b X Y Y2 Mu Va Be Ga B eps K K2 He Em Ev Ebe Ega Eb
    HM HV HBe HGa HB Dm Dv Dbe Dga Db EY EB.
  pose proof (called_io dt Rsc _ _ _ _ _ _ _ _ _ _ K) as Hio.
  pose proof K as ((_ & AH & AW & Hn & _ & Hd) & _ & _ & _ & Ez & _ & _ & _ & HZ & _).
  pose proof (axis_m _ _ _ AH). pose proof (axis_m _ _ _ AW).
  set (p := match io with nchw => 1%nat | _ => 3%nat end).
  assert (Dz : dims_ok z).
  { unfold dims_ok. rewrite Ez. destruct Hio as [-> | ->]; cbn [pix]; repeat constructor; lia. }
  assert (Lz : length (tdims z) = 4%nat) by (rewrite Ez; destruct Hio as [-> | ->]; reflexivity).
  assert (Cz : nth p (tdims z) 0 = gd g) by (rewrite Ez; destruct Hio as [-> | ->]; reflexivity).
  assert (Sz : safe z z) by (right; unfold same_cells; auto).
  set (F := conv_fn Rsc io C g X Y).
  exists (fun ix => ((F ix - Mu [nth p ix 0%Z]) / (sqrt (Va [nth p ix 0%Z]) + eps) * Ga [nth p ix 0%Z] + Be [nth p ix 0%Z])%R).
  split.
  - eapply (writes_bind dt); [apply conv_result; exact K|]. intros s' HF O.
    eapply (C32_bn_bias dt Rsc io p _ z z m v be ga (gd g) F Mu Va Be Ga); eauto using only_changes_holds, only_changes_mapped.
    + destruct Hio as [-> | ->]; [left|right]; auto.
    + eapply holds_mapped; eauto.
    + intros ix Hix. apply C32_formula; auto.
  - eapply (writes_bind dt); [apply conv_result; exact K2|]. intros s' HF O.
    eapply writes_ext; [reflexivity| |eapply (C30_add_bias dt Rsc io 4 p z z b (gd g) _ B); eauto using only_changes_holds, holds_mapped].
    2:{ destruct Hio as [-> | ->]; [right; left|right; right]; auto. }
    intros ix Hix. rewrite Ez in Hix. destruct (pix_cases io _ _ _ _ _ Hio Hix) as (l & i & j & t & -> & Hl & Hi & Hj & Ht).
    replace (nth p (pix io l i j t) 0) with t by (destruct Hio as [-> | ->]; reflexivity).
    rewrite EB by auto. unfold F. rewrite !conv_fn_pix. unfold conv_at.
    pose proof (tapsum_scale Rsc Rsc_laws io g (Ga [t] / (sqrt (Va [t]) + eps))%R
      (fun u v k => mulo Rsc io (zimg Rsc io g X l k (wpos (axis_h C g) i u) (wpos (axis_w C g) j v)) (Y (wgt io u v k t)))) as Q.
    rewrite (tapsum_ext Rsc io g g _ (fun u v k => smul Rsc (Ga [t] / (sqrt (Va [t]) + eps))%R
      (mulo Rsc io (zimg Rsc io g X l k (wpos (axis_h C g) i u) (wpos (axis_w C g) j v)) (Y (wgt io u v k t))))); auto.
    + rewrite Q. cbn [sadd smul Rsc]. pose proof (sqrt_pos (Va [t])). field. lra.
    + intros u w k Hu Hw Hk. rewrite EY by (unfold in_flt; auto). rewrite !(mulo_mul Rsc Rsc_laws). cbn [smul Rsc]. ring.
Qed.

(** *** Concrete cases over the integers. *)
Definition cv (io : order) (C : conv_trait) (zd xd yd X Y : list Z) :=
  run (op_conv zt zt Zsc io Builtin C (T_ 2 zd) (T_ 0 xd) (T_ 1 yd)) (demo [X; Y; blank 40]) (T_ 2 [prod zd]).
Definition trait_of (ph pw : Z * Z) (sh sw rh rw : Z) : conv_trait :=
  mkconv (mklconv (mkpadding (fst ph) (snd ph)) sh rh) (mklconv (mkpadding (fst pw) (snd pw)) sw rw).
Definition simple : conv_trait := trait_of (0, 0) (0, 0) 1 1 1 1.
Definition nine : list Z := [1; 2; 3; 4; 5; 6; 7; 8; 9].
Definition taps : list Z := [1; 10; 100; 1000].

(** The hypotheses of the theorems hold for such calls. *)
Example C89_called_case :
  called zt Zsc nhwc Builtin simple (mkgeom 1 3 3 1 2 2 1 2 2) (demo [nine; taps; blank 4])
    (T_ 2 [1; 2; 2; 1]) (T_ 0 [1; 3; 3; 1]) (T_ 1 [2; 2; 1; 1])
    (arg4 (fun _ i j _ => nth (Z.to_nat (3 * i + j)) nine 0)) (arg4 (fun u v _ _ => nth (Z.to_nat (2 * u + v)) taps 0)).
Proof.
  split; [|split; [exact I|]].
  - unfold geom_ok; cbn [gn gh gw gc gr gs gd gh' gw']. split; [left; split; [reflexivity|lia]|].
    unfold simple, trait_of. geo. cbn [fst snd]. lia.
  - repeat (split; [reflexivity|]). split; [apply PropsLayers2.demo_fresh|]. split.
    { intros ix Hix. apply valid_4 in Hix. destruct Hix as (l & i & j & k & -> & Hl & Hi & Hj & Hk).
      assert (l = 0 /\ k = 0) as [-> ->] by lia.
      assert (i = 0 \/ i = 1 \/ i = 2) as [-> | [-> | ->]] by lia;
      assert (j = 0 \/ j = 1 \/ j = 2) as [-> | [-> | ->]] by lia; reflexivity. }
    split.
    { intros ix Hix. apply valid_4 in Hix. destruct Hix as (i & j & l & k & -> & Hi & Hj & Hl & Hk).
      assert (l = 0 /\ k = 0) as [-> ->] by lia.
      assert (i = 0 \/ i = 1) as [-> | ->] by lia; assert (j = 0 \/ j = 1) as [-> | ->] by lia; reflexivity. }
    split.
    { intros p [o [Ho ->]]. change (size (T_ 2 [1; 2; 2; 1])) with 4 in Ho.
      assert (o = 0 \/ o = 1 \/ o = 2 \/ o = 3) as [-> | [-> | [-> | ->]]] by lia; discriminate. }
    split; intros p [o [_ ->]] [o' [_ E]]; discriminate.
Qed.

(** Content moved by (1, 1): the results move too. *)
Example C89_translate_case :
  cv nhwc simple [1; 2; 2; 1] [1; 3; 3; 1] [2; 2; 1; 1] [1; 2; 0; 3; 4; 0; 0; 0; 0] taps = Some (inits [4321; 402; 43; 4]) /\
  cv nhwc simple [1; 2; 2; 1] [1; 3; 3; 1] [2; 2; 1; 1] [0; 0; 0; 0; 1; 2; 0; 3; 4] taps = Some (inits [1000; 2100; 3010; 4321]).
Proof. vm_compute. auto. Qed.

(** Stride 2 against stride 1 (cells 0, 2, 6 and 8) and against the padded image. *)
Example C89_stride_padding_case :
  cv nchw (trait_of (1, 0) (0, 1) 2 2 1 1) [1; 1; 2; 2] [1; 1; 3; 3] [1; 1; 2; 2] nine taps
    = Some (inits [2100; 300; 8754; 906]) /\
  cv nchw (trait_of (1, 0) (0, 1) 1 1 1 1) [1; 1; 3; 3] [1; 1; 3; 3] [1; 1; 2; 2] nine taps
    = Some (inits [2100; 3200; 300; 5421; 6532; 603; 8754; 9865; 906]) /\
  cv nchw (trait_of (0, 0) (0, 0) 2 2 1 1) [1; 1; 2; 2] [1; 1; 4; 4] [1; 1; 2; 2]
    [0; 0; 0; 0;  1; 2; 3; 0;  4; 5; 6; 0;  7; 8; 9; 0] taps = Some (inits [2100; 300; 8754; 906]).
Proof. vm_compute. auto. Qed.

(** One changed pixel (the centre, 5 becomes 6), then the corner. *)
Example C89_local_case :
  cv nhwc simple [1; 2; 2; 1] [1; 3; 3; 1] [2; 2; 1; 1] nine taps = Some (inits [5421; 6532; 8754; 9865]) /\
  cv nhwc simple [1; 2; 2; 1] [1; 3; 3; 1] [2; 2; 1; 1] [2; 2; 3; 4; 5; 6; 7; 8; 9] taps = Some (inits [5422; 6532; 8754; 9865]).
Proof. vm_compute. auto. Qed.

(** Two filters at once, and the second alone. *)
Example C89_filters_case :
  cv nhwc simple [1; 1; 2; 2] [1; 1; 2; 1] [1; 1; 1; 2] [3; 5] [10; 100] = Some (inits [30; 300; 50; 500]) /\
  cv nhwc simple [1; 1; 2; 1] [1; 1; 2; 1] [1; 1; 1; 1] [3; 5] [100] = Some (inits [300; 500]).
Proof. vm_compute. auto. Qed.

Example C89_dilate_case :
  cv nhwc (trait_of (0, 0) (0, 0) 1 1 2 1) [1; 1; 2; 1] [1; 3; 3; 1] [2; 2; 1; 1] nine taps = Some (inits [8721; 9832]) /\
  cv nhwc (trait_of (0, 0) (0, 0) 1 1 1 1) [1; 1; 2; 1] [1; 3; 3; 1] [3; 2; 1; 1] nine [1; 10; 0; 0; 100; 1000]
    = Some (inits [8721; 9832]).
Proof. vm_compute. auto. Qed.

Example C89_pointwise_case :
  let X := [1; 2; 3; 4; 5; 6; 7; 8; 9; 10; 11; 12] in let Y := [1; 0; 0; 1; 10; 100] in
  cv nhwc simple [1; 2; 2; 2] [1; 2; 2; 3] [1; 1; 3; 2] X Y = Some (inits [31; 302; 64; 605; 97; 908; 130; 1211]) /\
  run (op_matmul zt Zsc Builtin (T_ 2 [4; 2]) (T_ 0 [4; 3]) (T_ 1 [3; 2])) (demo [X; Y; blank 8]) (T_ 2 [8])
    = Some (inits [31; 302; 64; 605; 97; 908; 130; 1211]) /\
  cv nchw simple [1; 1; 2; 2] [1; 2; 2; 2] [1; 2; 1; 1] [1; 2; 3; 4; 5; 6; 7; 8] [1; 10] = Some (inits [51; 62; 73; 84]).
Proof. vm_compute. auto. Qed.

Example C89_dense_case :
  let Y := [1; 0; 0; 1; 10; 100; 5; 6] in
  cv nhwc simple [1; 1; 1; 2] [1; 2; 2; 1] [2; 2; 1; 2] [1; 2; 3; 4] Y = Some (inits [51; 326]) /\
  run (op_matmul zt Zsc Builtin (T_ 2 [1; 2]) (T_ 0 [1; 4]) (T_ 1 [4; 2])) (demo [[1; 2; 3; 4]; Y; blank 2]) (T_ 2 [2])
    = Some (inits [51; 326]).
Proof. vm_compute. auto. Qed.

(** 3 x 1 filters, padding (1, 1): the centre tap copies both channels. *)
Example C89_identity_case :
  cv nchw (trait_of (1, 1) (0, 0) 1 1 1 1) [1; 2; 2; 2] [1; 2; 2; 2] [2; 2; 3; 1] [1; 2; 3; 4; 5; 6; 7; 8]
    [0; 1; 0;  0; 0; 0;  0; 0; 0;  0; 1; 0] = Some (inits [1; 2; 3; 4; 5; 6; 7; 8]).
Proof. vm_compute. auto. Qed.

(** 2 * [nine] - [ones], and the transposed image with transposed taps. *)
Example C89_linear_swap_case :
  cv nhwc simple [1; 2; 2; 1] [1; 3; 3; 1] [2; 2; 1; 1] (repeat 1 9) taps = Some (inits [1111; 1111; 1111; 1111]) /\
  cv nhwc simple [1; 2; 2; 1] [1; 3; 3; 1] [2; 2; 1; 1] (map (fun a => 2 * a - 1) nine) taps
    = Some (inits [9731; 11953; 16397; 18619]) /\
  cv nhwc simple [1; 2; 2; 1] [1; 3; 3; 1] [2; 2; 1; 1] [1; 4; 7; 2; 5; 8; 3; 6; 9] [1; 100; 10; 1000]
    = Some (inits [5421; 8754; 6532; 9865]).
Proof. vm_compute. auto. Qed.

(** Channels of two images together. *)
Example C89_channels_case :
  cv nhwc simple [1; 1; 2; 1] [1; 1; 2; 1] [1; 1; 1; 1] [3; 5] [10] = Some (inits [30; 50]) /\
  cv nhwc simple [1; 1; 2; 1] [1; 1; 2; 2] [1; 1; 2; 1] [1; 2; 3; 4] [7; 8] = Some (inits [23; 53]) /\
  cv nhwc simple [1; 1; 2; 1] [1; 1; 2; 3] [1; 1; 3; 1] [3; 1; 2; 5; 3; 4] [10; 7; 8] = Some (inits [53; 103]).
Proof. vm_compute. auto. Qed.

(** Folding, over the rationals: mean 2, divisor 2 (the normaliser gets it as
    variance), scale 6, shift 1. *)
Example C89_fold_bn_case :
  let norm x m v := sdiv Qsc (ssub Qsc x m) v in
  let qt := dt_inl Q Z in let di := dt_inr Q Z in
  let s := demo (map (map (fun a => inl (inject_Z a))) [[5; 7]; [4]; [0; 0]; [2]; [2]; [1]; [6]; [12]; [-5]]) in
  let z := T_ 2 [1; 1; 2; 1] in let x := T_ 0 [1; 1; 2; 1] in
  run (op_conv qt di Qsc nhwc Builtin simple z x (T_ 1 [1; 1; 1; 1]) ;;;
       op_bn_bias qt Qsc nhwc norm z z (T_ 3 [1]) (T_ 4 [1]) (T_ 5 [1]) (T_ 6 [1])) s (T_ 2 [2])
  = Some (map (fun a => Init (inl (inject_Z a))) [55; 79]) /\
  run (op_conv qt di Qsc nhwc Builtin simple z x (T_ 7 [1; 1; 1; 1]) ;;;
         op_bias qt nhwc (f_add Qsc) z z (T_ 8 [1])) s (T_ 2 [2])
  = Some (map (fun a => Init (inl (inject_Z a))) [55; 79]).
Proof. vm_compute. auto. Qed.

Print Assumptions C89_window.
Print Assumptions C89_local.
Print Assumptions C89_translate.
Print Assumptions C89_stride.
Print Assumptions C89_padding.
Print Assumptions C89_filters.
Print Assumptions C89_pointwise_nhwc.
Print Assumptions C89_pointwise_nchw.
Print Assumptions C89_dense.
Print Assumptions C89_linear_image.
Print Assumptions C89_linear_filter.
Print Assumptions C89_identity.
Print Assumptions C89_channels.
Print Assumptions C89_dilate.
Print Assumptions C89_swap.
Print Assumptions C89_fold_bn.
