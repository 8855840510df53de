(** Property C98: algebra of the convolution gradients and of folding. *)
From Coq Require Import ZArith QArith List Bool Lia ZifyBool Ring_theory Ring.
From Verif Require Import Base BaseFacts TensorFacts Traits TraitsSpec Scalar LinAlg LinAlgFacts SumFacts
  Elem ElemSpec ElemFacts Conv ConvSpec ConvFacts ConvAlgSpec ConvAlgFacts ConvDualSpec ConvDualFacts Layers
  PropsConv PropsElem PropsNorm PropsLayers2 Demo ConvGradFacts.
Import ListNotations.
Open Scope Z_scope.
Open Scope model_scope.

(** The axis of the backward convolution is admissible, with as many windows as
    the image has pixels, exactly when the paddings are at most (k - 1) * rate
    and the sizes stay below 2^32. *)
Theorem C98_back_axis : forall a k n m, axis_ok (axis_of a k) n m -> 1 <= n ->
  (axis_ok (axis_of (back_axis a k) k) (spread_len m (lstride a)) n <->
   left_ (lpad a) <= (k - 1) * lrate a /\ right_ (lpad a) <= (k - 1) * lrate a /\ n + (k - 1) * lrate a < 2 ^ 32).
Proof.
  intros [[pl pr] s r] k n m A Hn. unfold axis_ok, valid_config, span, spread_len, axis_of, back_axis in *.
  cbn [lpad lstride lrate left_ right_ sfilter spadding ksize stride rate] in *.
  destruct A as (Hk & Hs & Hr & Hl & Hrr & H0 & Hb & Hm & E).
  assert (0 <= (k - 1) * r) by nia. assert (0 <= (m - 1) * s) by nia. lia.
Qed.

(** The axis of the filter gradient seen as a convolution is always admissible. *)
Theorem C98_swap_axis : forall a k n m, axis_ok (axis_of a k) n m -> axis_ok (axis_of (swap_axis a) m) n k.
Proof.
  intros [[pl pr] s r] k n m A. unfold axis_ok, valid_config, span, axis_of, swap_axis in *.
  cbn [lpad lstride lrate left_ right_ sfilter spadding ksize stride rate] in *. lia.
Qed.

(** How many windows look at pixel [p], without dilation. *)
Theorem C98_cover : forall sp m p, 0 <= m -> 1 <= stride (sfilter sp) -> rate (sfilter sp) = 1 ->
  let P := p + left_ (spadding sp) in
  let first := Z.max 0 ((P - ksize (sfilter sp)) / stride (sfilter sp) + 1) in
  let last := Z.min (m - 1) (P / stride (sfilter sp)) in
  cover sp m p = Z.max 0 (last - first + 1).
Proof. exact cover_rate1. Qed.

(** Windows as long as the stride, without padding, tile the axis. *)
Theorem C98_tile : forall sp n m p, axis_ok sp n m -> stride (sfilter sp) = ksize (sfilter sp) -> rate (sfilter sp) = 1 ->
  left_ (spadding sp) = 0 -> right_ (spadding sp) = 0 -> 0 <= p < n -> cover sp m p = 1.
Proof.
  intros sp n m p (Hk & Hs & _ & _ & _ & _ & _ & Hm & E) Es Er El Err Hp. rewrite cover_rate1 by lia.
  rewrite El, Es, Z.add_0_r. rewrite Es, Er, El, Err in E. unfold span in E.
  set (k := ksize (sfilter sp)) in *. clearbody k.
  replace (p - k) with (p + (-1) * k) by ring. rewrite Z.div_add by lia.
  pose proof (Z.div_mod p k ltac:(lia)). pose proof (Z.mod_pos_bound p k ltac:(lia)).
  assert (0 <= p / k <= m - 1) by nia. lia.
Qed.

Section Props.
  Context {V T : Type} (dt : dtype V T) (di : dtype V Z) (sc : scalar T).
  Notation "a [+] b" := (sadd sc a b) (at level 50, left associativity).
  Notation "a [*] b" := (smul sc a b) (at level 40, left associativity).
  Notation conv := (op_conv dt di sc nhwc).
  Notation grad_x := (conv_grad_x dt sc).
  Notation grad_y := (conv_grad_y dt sc).

  Lemma gx_result : forall e C g s gx gz y GZ Y, called_gx dt sc e C g s gx gz y GZ Y ->
    writes dt (grad_x e C gx gz y) s gx
      (conv_gx_spec sc (axis_h C g) (axis_w C g) (gh' g) (gw' g) (gr g) (gs g) (gd g) GZ Y).
  Proof.
    intros e C [n h w c r q d h' w'] s gx gz y GZ Y (A & He & Ex & Ez & Ey & Hf & HZ & HY & HX & D1 & D2).
    destruct A as (AH & AW & Hn & Hc & Hd). unfold img_dims, out_dims, flt_dims, axis_h, axis_w in *.
    cbn [gn gh gw gc gr gs gd gh' gw'] in *.
    apply (conv_grad_x_writes dt sc e C gx gz y n h w c r q d h' w' GZ Y s); auto.
  Qed.
  Lemma gy_result : forall e C g s gy gz x GZ X, called_gy dt sc e C g s gy gz x GZ X ->
    writes dt (grad_y e C gy gz x) s gy
      (conv_gy_spec sc (axis_h C g) (axis_w C g) (gn g) (gh g) (gw g) (gh' g) (gw' g) GZ X).
  Proof.
    intros e C [n h w c r q d h' w'] s gy gz x GZ X (A & He & Ey & Ez & Ex & Hf & HZ & HX & HY & D1 & D2).
    destruct A as (AH & AW & Hn & Hc & Hd). unfold img_dims, out_dims, flt_dims, axis_h, axis_w in *.
    cbn [gn gh gw gc gr gs gd gh' gw'] in *.
    apply (conv_grad_y_writes dt sc e C gy gz x n h w c r q d h' w' GZ X s); auto.
  Qed.

  Section Ring.
  Context (laws : ring_laws sc).
  Let rt : ring_theory (s0 sc) (s1 sc) (sadd sc) (smul sc) (ssub sc) (sneg sc) (@eq T) := laws.
  Add Ring sc_ring_pcd : rt.

  (** The input gradient is a convolution: of the gradient of the result, its
      cells spread at distance stride, with the filters turned by 180 degrees,
      channels in and out exchanged. *)
  Theorem C98_grad_x_is_conv : forall e e2 C g s s2 gx gz y gx2 gz2 y2 GZ Y GZ2 Y2,
    called_gx dt sc e C g s gx gz y GZ Y ->
    called dt sc nhwc e2 (back_trait C g) (back_geom C g) s2 gx2 gz2 y2 GZ2 Y2 ->
    (forall l a b t, 0 <= l < gn g -> 0 <= a < spread_len (gh' g) (lstride (h_trait C)) ->
       0 <= b < spread_len (gw' g) (lstride (w_trait C)) -> 0 <= t < gd g ->
       GZ2 [l; a; b; t] = if (a mod lstride (h_trait C) =? 0) && (b mod lstride (w_trait C) =? 0)
                          then GZ [l; a / lstride (h_trait C); b / lstride (w_trait C); t] else s0 sc) ->
    (forall u v k t, in_flt g u v k t -> Y2 [u; v; t; k] = Y [gr g - 1 - u; gs g - 1 - v; k; t]) ->
    exists GX, writes dt (grad_x e C gx gz y) s gx GX /\
               writes dt (conv e2 (back_trait C g) gx2 gz2 y2) s2 gx2 GX.
  Proof.
    intros e e2 C g s s2 gx gz y gx2 gz2 y2 GZ Y GZ2 Y2 K K2 EG EY.
    eexists. split; [apply gx_result; exact K|].
    eapply writes_ext; [reflexivity| |apply (conv_result dt di); exact K2].
    intros ix Hix. pose proof K2 as (_ & _ & _ & _ & Ez & _). rewrite Ez in Hix. cbn [pix] in Hix.
    apply valid_4 in Hix. destruct Hix as (l & p & q & k & -> & Hl & Hp & Hq & Hk).
    destruct K as [A _]. rewrite (gx_back sc laws) by exact A.
    change (conv_at sc nhwc (back_trait C g) (back_geom C g) GZ2 Y2 l p q k
      = conv_at sc nhwc (back_trait C g) (back_geom C g)
          (spread (s0 sc) (lstride (h_trait C)) (lstride (w_trait C)) GZ) (turned (gr g) (gs g) Y) l p q k).
    cbn [back_geom gn gh gw gc gr gs gd gh' gw'] in *.
    apply conv_at_window; auto. cbn [back_geom gn gh gw gc gr gs gd gh' gw' wgt]. intros u v t Hu Hv Ht. split.
    - unfold zimg, zpad. destruct (inb _ _ && inb _ _) eqn:B; auto. cbn [pix]. rewrite EG; auto;
      cbn [back_geom gh gw] in B; unfold inb in B; lia.
    - rewrite EY by (unfold in_flt; auto). reflexivity.
  Qed.

  (** In particular for stride 1: the same gradient tensor, nothing to spread. *)
  Theorem C98_grad_x_stride1 : forall e e2 C g s gx gz y gx2 y2 GZ Y Y2,
    lstride (h_trait C) = 1 -> lstride (w_trait C) = 1 ->
    called_gx dt sc e C g s gx gz y GZ Y ->
    called dt sc nhwc e2 (back_trait C g) (mkgeom (gn g) (gh' g) (gw' g) (gd g) (gr g) (gs g) (gc g) (gh g) (gw g))
      s gx2 gz y2 GZ Y2 ->
    (forall u v k t, in_flt g u v k t -> Y2 [u; v; t; k] = Y [gr g - 1 - u; gs g - 1 - v; k; t]) ->
    exists GX, writes dt (grad_x e C gx gz y) s gx GX /\
               writes dt (conv e2 (back_trait C g) gx2 gz y2) s gx2 GX.
  Proof.
    intros e e2 C g s gx gz y gx2 y2 GZ Y Y2 S1 S2 K K2 EY.
    apply (C98_grad_x_is_conv e e2 C g s s gx gz y gx2 gz y2 GZ Y GZ Y2); auto.
    - unfold back_geom. rewrite S1, S2. unfold spread_len. rewrite !Z.mul_1_r, !Z.sub_add. exact K2.
    - intros l a b t _ _ _ _. rewrite S1, S2, !Z.mod_1_r, !Z.div_1_r. reflexivity.
  Qed.

  (** The filter gradient is a convolution: of the images, channels taken as
      images, with the gradient of the result as filters, stride and rate
      exchanged. *)
  Theorem C98_grad_y_is_conv : forall e e2 C g s s2 gy gz x z2 x2 y2 GZ X X2 Y2,
    called_gy dt sc e C g s gy gz x GZ X ->
    called dt sc nhwc e2 (swap_trait C) (swap_geom g) s2 z2 x2 y2 X2 Y2 ->
    (forall l p q k, in_img g l p q k -> X2 [k; p; q; l] = X [l; p; q; k]) ->
    (forall l i j t, in_out g l i j t -> Y2 [i; j; l; t] = GZ [l; i; j; t]) ->
    exists GY Z2, writes dt (grad_y e C gy gz x) s gy GY /\
      writes dt (conv e2 (swap_trait C) z2 x2 y2) s2 z2 Z2 /\
      forall u v k t, in_flt g u v k t -> GY [u; v; k; t] = Z2 [k; u; v; t].
  Proof.
    intros e e2 C g s s2 gy gz x z2 x2 y2 GZ X X2 Y2 K K2 EX EY.
    eexists _, _. split; [apply gy_result; exact K|]. split; [apply (conv_result dt di); exact K2|].
    intros u v k t (Hu & Hv & Hk & Ht). rewrite (gy_swap sc laws).
    apply (conv_at_window sc nhwc); auto. cbn [swap_geom gn gh gw gc gr gs gd gh' gw' wgt]. intros i j l Hi Hj Hl. split.
    - unfold zimg, zpad. destruct (inb _ _ && inb _ _) eqn:B; auto. cbn [pix]. unfold arg4; cbn [nth].
      symmetry. apply EX. cbn [swap_geom gh gw nth] in B. unfold inb in B. unfold in_img. lia.
    - unfold arg4; cbn [nth]. symmetry. apply EY. unfold in_out. auto.
  Qed.

  (** Both gradients are linear in each argument. *)
  Theorem C98_linear_x : forall e e1 e2 C g s s1 s2 gx gz y gz1 y1 gz2 y2 GZ Y GZ1 Y1 GZ2 Y2 a,
    called_gx dt sc e C g s gx gz y GZ Y -> called_gx dt sc e1 C g s1 gx gz1 y1 GZ1 Y1 ->
    called_gx dt sc e2 C g s2 gx gz2 y2 GZ2 Y2 ->
    (forall u v k t, in_flt g u v k t -> Y1 [u; v; k; t] = Y [u; v; k; t] /\ Y2 [u; v; k; t] = Y [u; v; k; t]) /\
    (forall l i j t, in_out g l i j t -> GZ [l; i; j; t] = a [*] GZ1 [l; i; j; t] [+] GZ2 [l; i; j; t]) \/
    (forall u v k t, in_flt g u v k t -> Y [u; v; k; t] = a [*] Y1 [u; v; k; t] [+] Y2 [u; v; k; t]) /\
    (forall l i j t, in_out g l i j t -> GZ1 [l; i; j; t] = GZ [l; i; j; t] /\ GZ2 [l; i; j; t] = GZ [l; i; j; t]) ->
    exists G G1 G2, writes dt (grad_x e C gx gz y) s gx G /\ writes dt (grad_x e1 C gx gz1 y1) s1 gx G1 /\
      writes dt (grad_x e2 C gx gz2 y2) s2 gx G2 /\
      forall l p q k, in_img g l p q k -> G [l; p; q; k] = a [*] G1 [l; p; q; k] [+] G2 [l; p; q; k].
  Proof.
    intros e e1 e2 C g s s1 s2 gx gz y gz1 y1 gz2 y2 GZ Y GZ1 Y1 GZ2 Y2 a K K1 K2 E.
    eexists _, _, _. split; [apply gx_result; exact K|]. split; [apply gx_result; exact K1|].
    split; [apply gx_result; exact K2|]. intros l p q k (Hl & Hp & Hq & Hk). rewrite !(gx_taps sc laws).
    rewrite <- (sum_scale_l sc laws), <- (sum_add sc laws). apply sum_over_ext. intros u Hu. apply in_zrange in Hu.
    rewrite <- (sum_scale_l sc laws), <- (sum_add sc laws). apply sum_over_ext. intros v Hv. apply in_zrange in Hv.
    rewrite <- (sum_scale_l sc laws), <- (sum_add sc laws). apply sum_over_ext. intros t Ht. apply in_zrange in Ht.
    set (F := fun G : list Z -> T => sum_over sc (zrange (gh' g)) (fun i => if wpos (axis_h C g) i u =? p then
      sum_over sc (zrange (gw' g)) (fun j => if wpos (axis_w C g) j v =? q then G [l; i; j; t] else s0 sc) else s0 sc)).
    fold (F GZ). fold (F GZ1). fold (F GZ2).
    assert (Ext : forall G G', (forall i j, 0 <= i < gh' g -> 0 <= j < gw' g -> G [l; i; j; t] = G' [l; i; j; t]) -> F G = F G').
    { intros G G' Q. unfold F. apply sum_over_ext. intros i Hi. apply in_zrange in Hi.
      destruct (_ =? p); auto. apply sum_over_ext. intros j Hj. apply in_zrange in Hj. rewrite Q by auto. reflexivity. }
    destruct E as [[EY EG]|[EY EG]].
    - destruct (EY u v k t) as [-> ->]; [unfold in_flt; auto|].
      assert (F GZ = a [*] F GZ1 [+] F GZ2) as ->.
      { unfold F. rewrite <- (sum_scale_l sc laws), <- (sum_add sc laws). apply sum_over_ext. intros i Hi. apply in_zrange in Hi.
        destruct (_ =? p); [|ring].
        rewrite <- (sum_scale_l sc laws), <- (sum_add sc laws). apply sum_over_ext. intros j Hj. apply in_zrange in Hj.
        destruct (_ =? q); [|ring]. apply EG. unfold in_out; auto. }
      ring.
    - rewrite (Ext GZ1 GZ), (Ext GZ2 GZ) by (intros i j Hi Hj; apply EG; unfold in_out; auto).
      rewrite EY by (unfold in_flt; auto). ring.
  Qed.

  Theorem C98_linear_y : forall e e1 e2 C g s s1 s2 gy gz x gz1 x1 gz2 x2 GZ X GZ1 X1 GZ2 X2 a,
    called_gy dt sc e C g s gy gz x GZ X -> called_gy dt sc e1 C g s1 gy gz1 x1 GZ1 X1 ->
    called_gy dt sc e2 C g s2 gy gz2 x2 GZ2 X2 ->
    (forall l p q k, in_img g l p q k -> X1 [l; p; q; k] = X [l; p; q; k] /\ X2 [l; p; q; k] = X [l; p; q; k]) /\
    (forall l i j t, in_out g l i j t -> GZ [l; i; j; t] = a [*] GZ1 [l; i; j; t] [+] GZ2 [l; i; j; t]) \/
    (forall l p q k, in_img g l p q k -> X [l; p; q; k] = a [*] X1 [l; p; q; k] [+] X2 [l; p; q; k]) /\
    (forall l i j t, in_out g l i j t -> GZ1 [l; i; j; t] = GZ [l; i; j; t] /\ GZ2 [l; i; j; t] = GZ [l; i; j; t]) ->
    exists G G1 G2, writes dt (grad_y e C gy gz x) s gy G /\ writes dt (grad_y e1 C gy gz1 x1) s1 gy G1 /\
      writes dt (grad_y e2 C gy gz2 x2) s2 gy G2 /\
      forall u v k t, in_flt g u v k t -> G [u; v; k; t] = a [*] G1 [u; v; k; t] [+] G2 [u; v; k; t].
  Proof.
    intros e e1 e2 C g s s1 s2 gy gz x gz1 x1 gz2 x2 GZ X GZ1 X1 GZ2 X2 a K K1 K2 E.
    eexists _, _, _. split; [apply gy_result; exact K|]. split; [apply gy_result; exact K1|].
    split; [apply gy_result; exact K2|]. intros u v k t (Hu & Hv & Hk & Ht).
    unfold conv_gy_spec, arg4; cbn [nth]. rewrite <- (sum_scale_l sc laws), <- (sum_add sc laws).
    apply sum_over_ext. intros ix Hix. apply in_indices, valid_3 in Hix. destruct Hix as (l & i & j & -> & Hl & Hi & Hj).
    unfold arg3; cbn [nth]. unfold zpad. destruct E as [[EX EG]|[EX EG]].
    - rewrite EG by (unfold in_out; auto). destruct (inb _ _ && inb _ _) eqn:B; [|ring].
      destruct (EX l (wpos (axis_h C g) i u) (wpos (axis_w C g) j v) k) as [-> ->]; [|ring].
      unfold inb in B. unfold in_img. lia.
    - destruct (EG l i j t) as [-> ->]; [unfold in_out; auto|]. destruct (inb _ _ && inb _ _) eqn:B; [|ring].
      rewrite EX by (unfold inb in B; unfold in_img; lia). ring.
  Qed.

  (** The filter gradient of a batch is the sum of those of its two halves. *)
  Theorem C98_batch_y : forall e e1 e2 C g n1 n2 s s1 s2 gy gz x gz1 x1 gz2 x2 GZ X GZ1 X1 GZ2 X2,
    let part n := mkgeom n (gh g) (gw g) (gc g) (gr g) (gs g) (gd g) (gh' g) (gw' g) in
    gn g = n1 + n2 ->
    called_gy dt sc e C g s gy gz x GZ X -> called_gy dt sc e1 C (part n1) s1 gy gz1 x1 GZ1 X1 ->
    called_gy dt sc e2 C (part n2) s2 gy gz2 x2 GZ2 X2 ->
    (forall l i j t, in_out (part n1) l i j t -> GZ1 [l; i; j; t] = GZ [l; i; j; t]) ->
    (forall l i j t, in_out (part n2) l i j t -> GZ2 [l; i; j; t] = GZ [n1 + l; i; j; t]) ->
    (forall l p q k, in_img (part n1) l p q k -> X1 [l; p; q; k] = X [l; p; q; k]) ->
    (forall l p q k, in_img (part n2) l p q k -> X2 [l; p; q; k] = X [n1 + l; p; q; k]) ->
    exists G G1 G2, writes dt (grad_y e C gy gz x) s gy G /\ writes dt (grad_y e1 C gy gz1 x1) s1 gy G1 /\
      writes dt (grad_y e2 C gy gz2 x2) s2 gy G2 /\
      forall u v k t, in_flt g u v k t -> G [u; v; k; t] = G1 [u; v; k; t] [+] G2 [u; v; k; t].
  Proof.
    intros e e1 e2 C g n1 n2 s s1 s2 gy gz x gz1 x1 gz2 x2 GZ X GZ1 X1 GZ2 X2 part En K K1 K2 EG1 EG2 EX1 EX2.
    eexists _, _, _. split; [apply gy_result; exact K|]. split; [apply gy_result; exact K1|].
    split; [apply gy_result; exact K2|]. intros u v k t (Hu & Hv & Hk & Ht).
    destruct K1 as [(_ & _ & N1 & _) _]. destruct K2 as [(_ & _ & N2 & _) _].
    unfold part in *; cbn [gn gh gw gc gr gs gd gh' gw'] in *. unfold conv_gy_spec, arg4; cbn [nth].
    rewrite !(sum3 sc laws), En, zrange_app, (sum_app sc laws), sum_over_map by auto. f_equal;
    apply sum_over_ext; intros l Hl; apply in_zrange in Hl; apply sum_over_ext; intros i Hi; apply in_zrange in Hi;
    apply sum_over_ext; intros j Hj; apply in_zrange in Hj; unfold zpad;
    change (axis_h C (mkgeom _ _ _ _ _ _ _ _ _)) with (axis_h C g);
    change (axis_w C (mkgeom _ _ _ _ _ _ _ _ _)) with (axis_w C g).
    - rewrite EG1 by (unfold in_out; cbn [gn gh' gw' gd]; auto). destruct (inb _ _ && inb _ _) eqn:B; auto.
      rewrite EX1; auto. unfold inb in B. unfold in_img; cbn [gn gh gw gc]. lia.
    - rewrite EG2 by (unfold in_out; cbn [gn gh' gw' gd]; auto). destruct (inb _ _ && inb _ _) eqn:B; auto.
      rewrite EX2; auto. unfold inb in B. unfold in_img; cbn [gn gh gw gc]. lia.
  Qed.
  End Ring.

  (** Unfolding, then folding, multiplies each pixel by the number of windows
      that look at it.  No law of arithmetic is used: it is the sum, from zero,
      of that many copies of the pixel. *)
  Theorem C98_fold_unfold : forall H W x cols y h w c h' w' X s,
    axis_ok H h h' -> axis_ok W w w' -> 0 <= c ->
    tdims x = [h; w; c] -> tdims cols = [h'; w'; ksize (sfilter H); ksize (sfilter W); c] -> tdims y = [h; w; c] ->
    holds dt s x X -> mapped s cols -> mapped s y -> disjoint cols x -> disjoint y cols ->
    exists s', (im2col_hwrsc dt sc H W cols x ;;; col2im dt sc H W y cols) s = Ok tt s' /\
      (forall p, ~ foot cols p -> ~ foot y p -> cells s' p = cells s p) /\
      holds dt s' y (arg3 (fun p q k => times sc (cover H h' p * cover W w' q) (X [p; q; k]))).
  Proof.
    intros H W x cols y h w c h' w' X s AH AW Hc Ex Ec Ey HX Mc My D1 D2.
    destruct (writes_then dt dt _ (col2im dt sc H W y cols) s cols y _
      (arg3 (fun p q k => times sc (cover H h' p * cover W w' q) (X [p; q; k])))
      (im2col_hwrsc_writes dt sc H W cols x h w c h' w' X s AH AW Hc Ex Ec HX Mc D1)) as (s' & E & _ & HY & F).
    - intros s1 HC OC.
      eapply writes_ext; [reflexivity| |apply (col2im_writes dt sc H W y cols h w c h' w' _ s1 AH AW Hc Ec Ey HC)].
      + intros ix Hix. rewrite Ey in Hix. apply valid_3 in Hix. destruct Hix as (p & q & k & -> & Hp & Hq & Hk).
        apply (fold_unfold_spec sc H W h w c); auto.
      + eapply only_changes_mapped; eauto. intros p Hp1 Hp2. exact (D2 p Hp2 Hp1).
      + exact D2.
    - exists s'. auto.
  Qed.

  (** Folding, then unfolding, gives the columns back when the windows do not
      overlap and nothing is padded. *)
  Theorem C98_unfold_fold : ring_laws sc -> forall H W cols y cols2 h w c h' w' X s,
    axis_ok H h h' -> axis_ok W w w' -> 0 <= c ->
    left_ (spadding H) = 0 -> right_ (spadding H) = 0 -> left_ (spadding W) = 0 -> right_ (spadding W) = 0 ->
    (forall p, 0 <= p < h -> cover H h' p <= 1) -> (forall q, 0 <= q < w -> cover W w' q <= 1) ->
    tdims y = [h; w; c] -> tdims cols = [h'; w'; ksize (sfilter H); ksize (sfilter W); c] -> tdims cols2 = tdims cols ->
    holds dt s cols X -> mapped s y -> mapped s cols2 -> disjoint y cols -> disjoint cols2 y ->
    exists s', (col2im dt sc H W y cols ;;; im2col_hwrsc dt sc H W cols2 y) s = Ok tt s' /\
      (forall p, ~ foot y p -> ~ foot cols2 p -> cells s' p = cells s p) /\ holds dt s' cols2 X.
  Proof.
    intros laws H W cols y cols2 h w c h' w' X s AH AW Hc LH RH LW RW CH CW Ey Ec Ec2 HX My Mc D1 D2.
    destruct (writes_then dt dt _ (im2col_hwrsc dt sc H W cols2 y) s y cols2 _ X
      (col2im_writes dt sc H W y cols h w c h' w' X s AH AW Hc Ec Ey HX My D1)) as (s' & E & _ & HY & F).
    - intros s1 HC OC. rewrite Ec in Ec2.
      eapply writes_ext; [reflexivity| |apply (im2col_hwrsc_writes dt sc H W cols2 y h w c h' w' _ s1 AH AW Hc Ey Ec2 HC)].
      + intros ix Hix. rewrite Ec2 in Hix. apply valid_5 in Hix.
        destruct Hix as (i & j & u & v & k & -> & Hi & Hj & Hu & Hv & Hk). unfold arg5; cbn [nth].
        assert (Bp : 0 <= wpos H i u < h).
        { destruct AH as (_ & Hs & Hr & _ & _ & _ & _ & Hm & Q). rewrite LH, RH in Q. unfold span in Q.
          unfold wpos, tap. rewrite LH. nia. }
        assert (Bq : 0 <= wpos W j v < w).
        { destruct AW as (_ & Hs & Hr & _ & _ & _ & _ & Hm & Q). rewrite LW, RW in Q. unfold span in Q.
          unfold wpos, tap. rewrite LW. nia. }
        unfold zpad. replace (inb h _ && inb w _) with true by (unfold inb; lia).
        unfold col2im_spec, arg3; cbn [nth]. rewrite (sum_filter sc laws).
        rewrite (sum_single sc laws _ [i; j; u; v]).
        * unfold arg4; cbn [nth]. rewrite !Z.eqb_refl. reflexivity.
        * apply NoDup_indices. pose proof (axis_m _ _ _ AH). pose proof (axis_m _ _ _ AW). repeat constructor; lia.
        * apply in_indices. cbn. tauto.
        * intros ix Hix Ne. apply in_indices, valid_4 in Hix. destruct Hix as (i' & j' & u' & v' & -> & Hi' & Hj' & Hu' & Hv').
          unfold arg4; cbn [nth]. destruct (_ && _) eqn:B; auto. exfalso. apply Ne.
          destruct (cover_inj H h' (wpos H i u) i u i' u') as [-> ->]; auto; [lia|].
          destruct (cover_inj W w' (wpos W j v) j v j' v') as [-> ->]; auto; lia.
      + eapply only_changes_mapped; eauto. intros p Hp1 Hp2. exact (D2 p Hp2 Hp1).
      + exact D2.
    - exists s'. auto.
  Qed.
End Props.

(** *** Concrete cases over the integers. *)
Definition gxv (C : conv_trait) (xd zd yd Z_ Y : list Z) :=
  run (conv_grad_x zt Zsc Builtin C (T_ 2 xd) (T_ 0 zd) (T_ 1 yd)) (demo [Z_; Y; blank 40]) (T_ 2 [prod xd]).
Definition gyv (C : conv_trait) (yd zd xd Z_ X : list Z) :=
  run (conv_grad_y zt Zsc Builtin C (T_ 2 yd) (T_ 0 zd) (T_ 1 xd)) (demo [Z_; X; blank 40]) (T_ 2 [prod yd]).
Definition cvv (C : conv_trait) (zd xd yd X Y : list Z) :=
  run (op_conv zt zt Zsc nhwc Builtin C (T_ 2 zd) (T_ 0 xd) (T_ 1 yd)) (demo [X; Y; blank 40]) (T_ 2 [prod zd]).

Definition tr98 : conv_trait := mkconv (mklconv (mkpadding 1 0) 2 1) (mklconv (mkpadding 0 1) 1 1).
Definition g98 : geom := mkgeom 1 3 3 1 2 2 2 2 3.

(** The hypotheses of the theorems hold for such calls: both gradients, and the
    two convolutions. *)
Example C98_called_case :
  let GZ := arg4 (fun _ i j t => 1 + 6 * i + 2 * j + t) in
  let s := demo [[1; 2; 3; 4; 5; 6; 7; 8; 9; 10; 11; 12]; [1; 10; 100; 1000; 2; 20; 200; 2000]; blank 40] in
  called_gx zt Zsc Builtin tr98 g98 s (T_ 2 [1; 3; 3; 1]) (T_ 0 [1; 2; 3; 2]) (T_ 1 [2; 2; 1; 2]) GZ
    (arg4 (fun u v _ t => (u + 1) * 10 ^ (2 * v + t))) /\
  geom_ok nhwc (back_trait tr98 g98) (back_geom tr98 g98) /\ geom_ok nhwc (swap_trait tr98) (swap_geom g98).
Proof.
  intros GZ s. split; [|split].
  - split; [|split; [exact I|]].
    + unfold axes_ok, tr98, g98. geo. lia.
    + repeat (split; [reflexivity|]). split; [apply PropsLayers2.demo_fresh|]. split.
      { intros ix Hix. apply valid_4 in Hix. destruct Hix as (l & i & j & t & -> & Hl & Hi & Hj & Ht).
        assert (l = 0) as -> by lia. assert (i = 0 \/ i = 1) as [-> | ->] by lia;
        assert (j = 0 \/ j = 1 \/ j = 2) as [-> | [-> | ->]] by lia; assert (t = 0 \/ t = 1) as [-> | ->] by lia; reflexivity. }
      split.
      { intros ix Hix. apply valid_4 in Hix. destruct Hix as (u & v & k & t & -> & Hu & Hv & Hk & Ht).
        assert (k = 0) as -> by lia. assert (u = 0 \/ u = 1) as [-> | ->] by lia;
        assert (v = 0 \/ v = 1) as [-> | ->] by lia; assert (t = 0 \/ t = 1) as [-> | ->] by lia; reflexivity. }
      split; [|split].
      { intros q Hq. destruct Hq as (o & Ho & ->). cbn in Ho.
        assert (o = 0 \/ o = 1 \/ o = 2 \/ o = 3 \/ o = 4 \/ o = 5 \/ o = 6 \/ o = 7 \/ o = 8)
          as [-> | [-> | [-> | [-> | [-> | [-> | [-> | [-> | ->]]]]]]]] by lia; discriminate. }
      { intros q (o & _ & ->) (o' & _ & Q). discriminate Q. }
      { intros q (o & _ & ->) (o' & _ & Q). discriminate Q. }
  - unfold geom_ok, back_trait, back_geom, spread_len, back_axis, tr98, g98. geo. split; [left; split; [reflexivity|lia]|]. lia.
  - unfold geom_ok, swap_trait, swap_geom, swap_axis, tr98, g98. geo. split; [left; split; [reflexivity|lia]|]. lia.
Qed.

(** Stride 2 down, 1 across; two filters.  The rows of the gradient are spread
    with a row of zeros between them, the filters turned. *)
Example C98_grad_x_case :
  gxv tr98 [1; 3; 3; 1] [1; 2; 3; 2] [2; 2; 1; 2] [1; 2; 3; 4; 5; 6; 7; 8; 9; 10; 11; 12] [1; 10; 100; 1000; 2; 20; 200; 2000]
    = Some (inits [42; 4286; 8730; 87; 8809; 11031; 174; 17618; 22062]) /\
  cvv (back_trait tr98 g98) [1; 3; 3; 1] [1; 3; 3; 2] [2; 2; 2; 1]
    [1; 2; 3; 4; 5; 6; 0; 0; 0; 0; 0; 0; 7; 8; 9; 10; 11; 12] [200; 2000; 2; 20; 100; 1000; 1; 10]
    = Some (inits [42; 4286; 8730; 87; 8809; 11031; 174; 17618; 22062]).
Proof. vm_compute. auto. Qed.

(** Two channels, stride 1: the gradient tensor itself is convolved. *)
Example C98_stride1_case :
  let C := mkconv (mklconv (mkpadding 0 0) 1 1) (mklconv (mkpadding 1 0) 1 1) in
  gxv C [1; 2; 2; 2] [1; 1; 2; 1] [2; 2; 2; 1] [1; 3] [1; 10; 100; 1000; 2; 20; 200; 2000]
    = Some (inits [103; 1030; 300; 3000; 206; 2060; 600; 6000]) /\
  cvv (back_trait C (mkgeom 1 2 2 2 2 2 1 1 2)) [1; 2; 2; 2] [1; 1; 2; 1] [2; 2; 1; 2] [1; 3] [200; 2000; 2; 20; 100; 1000; 1; 10]
    = Some (inits [103; 1030; 300; 3000; 206; 2060; 600; 6000]).
Proof. vm_compute. auto. Qed.

Example C98_grad_y_case :
  let Z_ := [1; 0; 0; 1; 0; 0; 10; 0; 0; 0; 0; 100] in let X := [1; 2; 3; 4; 5; 6; 7; 8; 9] in
  gyv tr98 [2; 2; 1; 2] [1; 2; 3; 2] [1; 3; 3; 1] Z_ X = Some (inits [40; 600; 50; 0; 71; 902; 82; 3]) /\
  cvv (swap_trait tr98) [1; 2; 2; 2] [1; 3; 3; 1] [2; 3; 1; 2] X Z_ = Some (inits [40; 600; 50; 0; 71; 902; 82; 3]).
Proof. vm_compute. auto. Qed.

(** Two images: the sum of the gradients of each; and twice a gradient. *)
Example C98_batch_case :
  let C := mkconv (mklconv (mkpadding 0 0) 1 1) (mklconv (mkpadding 0 0) 1 1) in
  gyv C [1; 2; 1; 1] [2; 1; 2; 1] [2; 1; 3; 1] [1; 10; 2; 20] [1; 2; 3; 4; 5; 6] = Some (inits [129; 162]) /\
  gyv C [1; 2; 1; 1] [1; 1; 2; 1] [1; 1; 3; 1] [1; 10] [1; 2; 3] = Some (inits [21; 32]) /\
  gyv C [1; 2; 1; 1] [1; 1; 2; 1] [1; 1; 3; 1] [2; 20] [4; 5; 6] = Some (inits [108; 130]) /\
  gyv C [1; 2; 1; 1] [1; 1; 2; 1] [1; 1; 3; 1] [2; 20] [1; 2; 3] = Some (inits [42; 64]) /\
  gxv C [1; 1; 3; 1] [1; 1; 2; 1] [1; 2; 1; 1] [1; 10] [1; 2] = Some (inits [1; 12; 20]) /\
  gxv C [1; 1; 3; 1] [1; 1; 2; 1] [1; 2; 1; 1] [2; 20] [1; 2] = Some (inits [2; 24; 40]).
Proof. vm_compute. repeat split. Qed.

(** Windows of 2 x 2 at stride 1 on 3 x 3: the centre is seen 4 times, the
    corners once.  At stride 2 on 4 x 2, folding and unfolding are inverse. *)
Definition s98 (s : Z) : sample := mksample (mkfilter 2 s 1) (mkpadding 0 0).
Example C98_fold_case :
  map (cover (s98 1) 2) [0; 1; 2] = [1; 2; 1] /\ map (cover (s98 2) 2) [0; 1; 2; 3] = [1; 1; 1; 1] /\
  run (im2col_hwrsc zt Zsc (s98 1) (s98 1) (T_ 1 [2; 2; 2; 2; 1]) (T_ 0 [3; 3; 1]) ;;;
       col2im zt Zsc (s98 1) (s98 1) (T_ 2 [3; 3; 1]) (T_ 1 [2; 2; 2; 2; 1]))
    (demo [[1; 2; 3; 4; 5; 6; 7; 8; 9]; blank 16; blank 9]) (T_ 2 [9]) = Some (inits [1; 4; 3; 8; 20; 12; 7; 16; 9]) /\
  run (im2col_hwrsc zt Zsc (s98 2) (s98 2) (T_ 1 [2; 1; 2; 2; 1]) (T_ 0 [4; 2; 1]) ;;;
       col2im zt Zsc (s98 2) (s98 2) (T_ 2 [4; 2; 1]) (T_ 1 [2; 1; 2; 2; 1]))
    (demo [[1; 2; 3; 4; 5; 6; 7; 8]; blank 16; blank 9]) (T_ 2 [8]) = Some (inits [1; 2; 3; 4; 5; 6; 7; 8]) /\
  run (col2im zt Zsc (s98 2) (s98 2) (T_ 1 [2; 4; 1]) (T_ 0 [1; 2; 2; 2; 1]) ;;;
       im2col_hwrsc zt Zsc (s98 2) (s98 2) (T_ 2 [1; 2; 2; 2; 1]) (T_ 1 [2; 4; 1]))
    (demo [[1; 2; 3; 4; 5; 6; 7; 8]; blank 8; blank 8]) (T_ 2 [8]) = Some (inits [1; 2; 3; 4; 5; 6; 7; 8]).
Proof. vm_compute. repeat split. Qed.

(** A padded window of stride 2: how many windows see each pixel. *)
Example C98_cover_case :
  map (cover (mksample (mkfilter 3 2 1) (mkpadding 1 1)) 3) [0; 1; 2; 3; 4] = [1; 2; 1; 2; 1] /\
  (forall p, 0 <= p < 5 -> cover (mksample (mkfilter 3 2 1) (mkpadding 1 1)) 3 p = 1 + p mod 2).
Proof.
  split; [reflexivity|]. intros p Hp. rewrite C98_cover by (cbn; lia). cbn [sfilter spadding stride ksize left_].
  assert (p = 0 \/ p = 1 \/ p = 2 \/ p = 3 \/ p = 4) as [-> | [-> | [-> | [-> | ->]]]] by lia; reflexivity.
Qed.

Print Assumptions C98_back_axis.
Print Assumptions C98_swap_axis.
Print Assumptions C98_cover.
Print Assumptions C98_tile.
Print Assumptions C98_grad_x_is_conv.
Print Assumptions C98_grad_x_stride1.
Print Assumptions C98_grad_y_is_conv.
Print Assumptions C98_linear_x.
Print Assumptions C98_linear_y.
Print Assumptions C98_batch_y.
Print Assumptions C98_fold_unfold.
Print Assumptions C98_unfold_fold.
