(** Property C99: two convolutions in sequence are one convolution. *)
From Coq Require Import ZArith QArith List Bool Lia ZifyBool Ring_theory Ring.
From Verif Require Import Base BaseFacts TensorFacts Traits TraitsSpec Scalar LinAlg LinAlgFacts SumFacts
  Elem ElemSpec ElemFacts Conv ConvSpec ConvFacts ConvAlgSpec ConvAlgFacts ConvStackSpec ConvDualSpec ConvDualFacts Layers
  PropsConv PropsElem PropsNorm PropsLayers2 Demo ConvGradFacts.
Import ListNotations.
Open Scope Z_scope.
Open Scope model_scope.

(** The axis of the one convolution is admissible whenever the two are, and
    gives as many windows as the second. *)
Theorem C99_axis : forall a1 a2 k1 k2 n m1 m2,
  axis_ok (axis_of a1 k1) n m1 -> axis_ok (axis_of a2 k2) m1 m2 -> lpad a2 = mkpadding 0 0 ->
  axis_ok (axis_of (stack_axis a1 a2) (stack_taps a1 a2 k1 k2)) n m2.
Proof.
  intros [[pl pr] s1 r1] [p2 s2 r2] k1 k2 n m1 m2 A1 A2 E. cbn [lpad] in E. subst p2.
  unfold axis_ok, valid_config, span, axis_of, stack_axis, stack_taps, stack_tap in *.
  cbn [lpad lstride lrate left_ right_ sfilter spadding ksize stride rate] in *.
  destruct A1 as (K1 & S1 & R1 & L1 & Rr1 & N1 & B1 & M1 & E1). destruct A2 as (K2 & S2 & R2 & _ & _ & N2 & B2 & M2 & E2).
  assert (0 <= (k1 - 1) * r1) by nia. assert (0 <= (k2 - 1) * (r2 * s1)) by (apply Z.mul_nonneg_nonneg; nia).
  repeat split; try lia; try nia.
Qed.

Section Props.
  Context {V T : Type} (dt : dtype V T) (di : dtype V Z) (sc : scalar T) (laws : ring_laws sc).
  Notation "a [+] b" := (sadd sc a b) (at level 50, left associativity).
  Notation "a [*] b" := (smul sc a b) (at level 40, left associativity).
  Notation sum := (sum_over sc).
  Notation conv := (op_conv dt di sc).
  Let rt : ring_theory (s0 sc) (s1 sc) (sadd sc) (smul sc) (ssub sc) (sneg sc) (@eq T) := laws.
  Add Ring sc_ring_st : rt.

  Lemma sum5 : forall a b c d e (f : Z -> Z -> Z -> Z -> Z -> T),
    sum (indices [a; b; c; d; e]) (arg5 f)
    = sum (zrange a) (fun i => sum (zrange b) (fun j => sum (zrange c) (fun k => sum (zrange d) (fun l => sum (zrange e) (fun m => f i j k l m))))).
  Proof using laws.
    intros. rewrite (sum_indices_cons sc laws). apply sum_over_ext. intros i _. exact (sum4 sc laws b c d e (f i)).
  Qed.

  (** A sum over (u, v, k) exchanged with one over five indices, and the picks. *)
  Lemma stack_sum : forall A B K r2 q2 m r1 q1 (F : Z -> Z -> Z -> T) (P Q : Z -> Z -> Z) (G : Z -> Z -> Z -> Z -> Z -> Z -> T),
    (forall u2 u1, 0 <= u2 < r2 -> 0 <= u1 < r1 -> 0 <= P u1 u2 < A) ->
    (forall v2 v1, 0 <= v2 < q2 -> 0 <= v1 < q1 -> 0 <= Q v1 v2 < B) ->
    sum (zrange A) (fun a => sum (zrange B) (fun b => sum (zrange K) (fun k => F a b k [*]
      sum (List.filter (arg5 (fun u2 v2 m u1 v1 => (P u1 u2 =? a) && (Q v1 v2 =? b))) (indices [r2; q2; m; r1; q1]))
        (arg5 (fun u2 v2 m u1 v1 => G u2 v2 m u1 v1 k)))))
    = sum (zrange r2) (fun u2 => sum (zrange q2) (fun v2 => sum (zrange m) (fun m =>
        sum (zrange r1) (fun u1 => sum (zrange q1) (fun v1 => sum (zrange K) (fun k =>
          F (P u1 u2) (Q v1 v2) k [*] G u2 v2 m u1 v1 k)))))).
  Proof using laws.
    intros A B K r2 q2 m r1 q1 F P Q G HP HQ.
    set (D := indices [r2; q2; m; r1; q1]).
    transitivity (sum D (arg5 (fun u2 v2 m u1 v1 => sum (zrange K) (fun k => F (P u1 u2) (Q v1 v2) k [*] G u2 v2 m u1 v1 k)))).
    2:{ unfold D. apply sum5. }
    transitivity (sum (zrange A) (fun a => sum (zrange B) (fun b => sum (zrange K) (fun k => sum D (fun ix =>
      if arg5 (fun u2 v2 m u1 v1 => (P u1 u2 =? a) && (Q v1 v2 =? b)) ix
      then F a b k [*] arg5 (fun u2 v2 m u1 v1 => G u2 v2 m u1 v1 k) ix else s0 sc))))).
    { apply sum_over_ext; intros a _. apply sum_over_ext; intros b _. apply sum_over_ext; intros k _.
      rewrite (sum_filter sc laws), <- (sum_scale_l sc laws). apply sum_over_ext. intros ix _.
      destruct (arg5 _ ix); [reflexivity|ring]. }
    transitivity (sum (zrange A) (fun a => sum (zrange B) (fun b => sum D (fun ix => sum (zrange K) (fun k =>
      if arg5 (fun u2 v2 m u1 v1 => (P u1 u2 =? a) && (Q v1 v2 =? b)) ix
      then F a b k [*] arg5 (fun u2 v2 m u1 v1 => G u2 v2 m u1 v1 k) ix else s0 sc))))).
    { apply sum_over_ext; intros a _. apply sum_over_ext; intros b _. apply (sum_swap sc laws). }
    transitivity (sum (zrange A) (fun a => sum D (fun ix => sum (zrange B) (fun b => sum (zrange K) (fun k =>
      if arg5 (fun u2 v2 m u1 v1 => (P u1 u2 =? a) && (Q v1 v2 =? b)) ix
      then F a b k [*] arg5 (fun u2 v2 m u1 v1 => G u2 v2 m u1 v1 k) ix else s0 sc))))).
    { apply sum_over_ext; intros a _. apply (sum_swap sc laws). }
    rewrite (sum_swap sc laws). apply sum_over_ext. intros ix Hix. unfold D in Hix.
    apply in_indices, valid_5 in Hix. destruct Hix as (u2 & v2 & c & u1 & v1 & -> & Hu2 & Hv2 & Hc & Hu1 & Hv1).
    unfold arg5; cbn [nth].
    rewrite (sum_over_ext sc _ _ (fun a => if P u1 u2 =? a then
      (fun a => sum (zrange K) (fun k => F a (Q v1 v2) k [*] G u2 v2 c u1 v1 k)) a else s0 sc)).
    - rewrite (sum_pick sc laws). specialize (HP u2 u1 Hu2 Hu1).
      replace ((0 <=? P u1 u2) && (P u1 u2 <? A)) with true by lia. reflexivity.
    - intros a _. destruct (P u1 u2 =? a); cbn [andb].
      + rewrite (sum_over_ext sc _ _ (fun b => if Q v1 v2 =? b then
          (fun b => sum (zrange K) (fun k => F a b k [*] G u2 v2 c u1 v1 k)) b else s0 sc)).
        * rewrite (sum_pick sc laws). specialize (HQ v2 v1 Hv2 Hv1).
          replace ((0 <=? Q v1 v2) && (Q v1 v2 <? B)) with true by lia. reflexivity.
        * intros b _. destruct (Q v1 v2 =? b); auto. apply (sum_zero sc laws).
      + apply (sum_zero_ext sc laws). intros b _. apply (sum_zero sc laws).
  Qed.

  (** A convolution (its result shifted by [B1]) seen through the second one. *)
  Lemma stack_at : forall io C1 C2 g1 g2 X Y1 Y2 Y3 B1 F l i j t,
    axis_ok (axis_h C1 g1) (gh g1) (gh' g1) -> axis_ok (axis_w C1 g1) (gw g1) (gw' g1) ->
    axis_ok (axis_h C2 g2) (gh g2) (gh' g2) -> axis_ok (axis_w C2 g2) (gw g2) (gw' g2) ->
    follows C2 g1 g2 -> in_out g2 l i j t ->
    (forall p q m, 0 <= p < gh' g1 -> 0 <= q < gw' g1 -> 0 <= m < gd g1 ->
       F (pix io l p q m) = conv_at sc io C1 g1 X Y1 l p q m [+] B1 m) ->
    (forall a b k, in_flt (stack_geom C1 C2 g1 g2) a b k t -> Y3 (wgt io a b k t) = stacked sc io C1 C2 g1 g2 Y1 Y2 a b k t) ->
    conv_at sc io C2 g2 F Y2 l i j t
    = conv_at sc io (stack_trait C1 C2) (stack_geom C1 C2 g1 g2) X Y3 l i j t
      [+] sum (indices [gr g2; gs g2; gc g2]) (arg3 (fun u v m => B1 m [*] Y2 (wgt io u v m t))).
  Proof using laws.
    intros io C1 C2 g1 g2 X Y1 Y2 Y3 B1 F l i j t AH1 AW1 AH2 AW2 (En & Eh & Ew & Ec & P1 & P2) (Hl & Hi & Hj & Ht) EF EY.
    unfold conv_at. rewrite !(tapsum_nest sc laws), (sum3 sc laws).
    transitivity (sum (zrange (gr g2)) (fun u2 => sum (zrange (gs g2)) (fun v2 => sum (zrange (gc g2)) (fun m =>
      (sum (zrange (gr g1)) (fun u1 => sum (zrange (gs g1)) (fun v1 => sum (zrange (gc g1)) (fun k =>
        zimg sc io g1 X l k (wpos (axis_h C1 g1) (wpos (axis_h C2 g2) i u2) u1) (wpos (axis_w C1 g1) (wpos (axis_w C2 g2) j v2) v1)
        [*] (Y1 (wgt io u1 v1 k m) [*] Y2 (wgt io u2 v2 m t))))))
      [+] B1 m [*] Y2 (wgt io u2 v2 m t))))).
    { apply sum_over_ext; intros u2 Hu2. apply sum_over_ext; intros v2 Hv2. apply sum_over_ext; intros m Hm.
      apply in_zrange in Hu2, Hv2, Hm. rewrite (mulo_mul sc laws).
      assert (Bp : 0 <= wpos (axis_h C2 g2) i u2 < gh' g1).
      { destruct AH2 as (_ & Hs & Hr & _ & _ & _ & _ & Hm2 & Q). rewrite <- Eh. unfold wpos, tap, span in *.
        unfold axis_h, axis_of in *. rewrite P1 in *. cbn [left_ right_ spadding sfilter stride rate ksize] in *. nia. }
      assert (Bq : 0 <= wpos (axis_w C2 g2) j v2 < gw' g1).
      { destruct AW2 as (_ & Hs & Hr & _ & _ & _ & _ & Hm2 & Q). rewrite <- Ew. unfold wpos, tap, span in *.
        unfold axis_w, axis_of in *. rewrite P2 in *. cbn [left_ right_ spadding sfilter stride rate ksize] in *. nia. }
      unfold zimg at 1, zpad. rewrite Eh, Ew. replace (inb (gh' g1) _ && inb (gw' g1) _) with true by (unfold inb; lia).
      rewrite EF by (auto; lia). unfold conv_at. rewrite (tapsum_nest sc laws).
      match goal with |- (?a [+] ?b) [*] ?c = _ => replace ((a [+] b) [*] c) with (c [*] a [+] b [*] c) by ring end.
      f_equal.
      rewrite <- (sum_scale_l sc laws). apply sum_over_ext; intros u1 _.
      rewrite <- (sum_scale_l sc laws). apply sum_over_ext; intros v1 _.
      rewrite <- (sum_scale_l sc laws). apply sum_over_ext; intros k _. rewrite (mulo_mul sc laws). ring. }
    rewrite (sum_over_ext sc _ _ (fun u2 =>
      sum (zrange (gs g2)) (fun v2 => sum (zrange (gc g2)) (fun m => sum (zrange (gr g1)) (fun u1 => sum (zrange (gs g1)) (fun v1 => sum (zrange (gc g1)) (fun k =>
        zimg sc io g1 X l k (wpos (axis_h C1 g1) (wpos (axis_h C2 g2) i u2) u1) (wpos (axis_w C1 g1) (wpos (axis_w C2 g2) j v2) v1)
        [*] (Y1 (wgt io u1 v1 k m) [*] Y2 (wgt io u2 v2 m t)))))))
      [+] sum (zrange (gs g2)) (fun v2 => sum (zrange (gc g2)) (fun m => B1 m [*] Y2 (wgt io u2 v2 m t))))).
    2:{ intros u2 _. rewrite <- (sum_add sc laws). apply sum_over_ext; intros v2 _. apply (sum_add sc laws). }
    rewrite (sum_add sc laws). f_equal. symmetry.
    set (K := gc (stack_geom C1 C2 g1 g2)). assert (EK : K = gc g1) by reflexivity. 
    rewrite (sum_over_ext sc _ _ (fun a => sum (zrange (gs (stack_geom C1 C2 g1 g2))) (fun b => sum (zrange K) (fun k =>
      zimg sc io (stack_geom C1 C2 g1 g2) X l k (wpos (axis_h (stack_trait C1 C2) (stack_geom C1 C2 g1 g2)) i a)
        (wpos (axis_w (stack_trait C1 C2) (stack_geom C1 C2 g1 g2)) j b) [*] stacked sc io C1 C2 g1 g2 Y1 Y2 a b k t)))).
    2:{ intros a Ha. apply in_zrange in Ha. apply sum_over_ext; intros b Hb. apply in_zrange in Hb.
        apply sum_over_ext; intros k Hk. apply in_zrange in Hk. rewrite (mulo_mul sc laws), EY; auto. unfold in_flt. auto. }
    unfold stacked.
    rewrite (stack_sum _ _ K (gr g2) (gs g2) (gd g1) (gr g1) (gs g1)
      (fun a b k => zimg sc io (stack_geom C1 C2 g1 g2) X l k (wpos (axis_h (stack_trait C1 C2) (stack_geom C1 C2 g1 g2)) i a)
        (wpos (axis_w (stack_trait C1 C2) (stack_geom C1 C2 g1 g2)) j b))
      (stack_tap (h_trait C1) (h_trait C2)) (stack_tap (w_trait C1) (w_trait C2))
      (fun u2 v2 m u1 v1 k => Y1 (wgt io u1 v1 k m) [*] Y2 (wgt io u2 v2 m t))).
    - rewrite EK, <- Ec.
      apply sum_over_ext; intros u2 _. apply sum_over_ext; intros v2 _. apply sum_over_ext; intros m _.
      apply sum_over_ext; intros u1 _. apply sum_over_ext; intros v1 _. apply sum_over_ext; intros k _.
      f_equal. unfold zimg, stack_geom, stack_trait, stack_axis, stack_tap, stack_taps. cbn [gh gw]. f_equal; geo;
      rewrite ?P1, ?P2; cbn [left_]; ring.
    - intros u2 u1 Hu2 Hu1. destruct AH1 as (_ & S1 & R1 & _). destruct AH2 as (_ & S2 & R2 & _).
      cbn [stack_geom gr]. unfold stack_taps, stack_tap. geo. 
      assert (0 <= lrate (h_trait C2) * lstride (h_trait C1)) by nia. nia.
    - intros v2 v1 Hv2 Hv1. destruct AW1 as (_ & S1 & R1 & _). destruct AW2 as (_ & S2 & R2 & _).
      cbn [stack_geom gs]. unfold stack_taps, stack_tap. geo. 
      assert (0 <= lrate (w_trait C2) * lstride (w_trait C1)) by nia. nia.
  Qed.

  (** The second convolution after the first is one convolution, with the
      stacked filters, provided the second does not pad. *)
  Theorem C99_stack : forall io e1 e2 e3 C1 C2 g1 g2 s s3 t z x y1 y2 z3 x3 y3 X X3 Y1 Y2 Y3,
    follows C2 g1 g2 -> called dt sc io e1 C1 g1 s t x y1 X Y1 ->
    geom_ok io C2 g2 -> engine_ok sc e2 [gn g2; gc g2; gd g2] ->
    tdims y2 = wgt io (gr g2) (gs g2) (gc g2) (gd g2) -> tdims z = pix io (gn g2) (gh' g2) (gw' g2) (gd g2) ->
    holds dt s y2 Y2 -> mapped s z -> disjoint z t -> disjoint z y2 -> disjoint t y2 ->
    called dt sc io e3 (stack_trait C1 C2) (stack_geom C1 C2 g1 g2) s3 z3 x3 y3 X3 Y3 ->
    (forall l p q k, in_img g1 l p q k -> X3 (pix io l p q k) = X (pix io l p q k)) ->
    (forall a b k d, in_flt (stack_geom C1 C2 g1 g2) a b k d ->
       Y3 (wgt io a b k d) = stacked sc io C1 C2 g1 g2 Y1 Y2 a b k d) ->
    exists F s', (conv io e1 C1 t x y1 ;;; conv io e2 C2 z t y2) s = Ok tt s' /\ holds dt s' z F /\
      (forall p, ~ foot t p -> ~ foot z p -> cells s' p = cells s p) /\
      writes dt (conv io e3 (stack_trait C1 C2) z3 x3 y3) s3 z3 F.
  Proof using laws.
    intros io e1 e2 e3 C1 C2 g1 g2 s s3 t z x y1 y2 z3 x3 y3 X X3 Y1 Y2 Y3 Fo K1 G2 He2 Ey2 Ez HY2 Mz Dzt Dz2 Dt2 K3 EX EY.
    pose proof (called_io dt sc _ _ _ _ _ _ _ _ _ _ K1) as Hio.
    pose proof K1 as (G1 & _ & _ & _ & Et & Hf & _ & _ & Mt & _).
    pose proof Fo as (En & Eh & Ew & Ec & _).
    destruct (writes_then dt dt _ (conv io e2 C2 z t y2) s t z _ (conv_fn sc io C2 g2 (conv_fn sc io C1 g1 X Y1) Y2)
      (conv_result dt di sc _ _ _ _ _ _ _ _ _ _ K1)) as (s' & E & _ & HZ & F).
    - intros s1 HT O. apply conv_result.
      split; [exact G2|]. split; [exact He2|]. split; [rewrite Et, En, Eh, Ew, Ec; reflexivity|].
      split; [exact Ey2|]. split; [exact Ez|]. split; [eapply fresh_ok_only_changes; eauto|]. split; [exact HT|].
      split; [eapply only_changes_holds; [exact O|exact Dt2|exact HY2]|].
      split; [eapply only_changes_mapped; [exact O| |exact Mz]; intros p A B; exact (Dzt p B A)|].
      split; [exact Dzt|exact Dz2].
    - eexists _, s'. split; [exact E|]. split; [exact HZ|]. split; [exact F|].
      eapply writes_ext; [reflexivity| |apply conv_result; exact K3].
      pose proof K3 as (_ & _ & _ & _ & Ez3 & _). intros ix Hix. rewrite Ez3 in Hix.
      destruct (pix_cases io _ _ _ _ _ Hio Hix) as (l & i & j & d & -> & Hl & Hi & Hj & Hd). rewrite !conv_fn_pix.
      cbn [stack_geom gn gh' gw' gd] in Hl, Hi, Hj, Hd.
      rewrite (stack_at io C1 C2 g1 g2 X Y1 Y2 Y3 (fun _ => s0 sc) _ l i j d); try apply G1; try apply G2; auto.
      + rewrite (sum_zero_ext sc laws).
        * match goal with |- ?a = ?b [+] _ => transitivity b; [|ring] end.
          apply conv_at_window; auto. intros u v k Hu Hv Hk. split; auto.
          unfold zimg, zpad. cbn [stack_geom gh gw]. destruct (inb _ _ && inb _ _) eqn:B; auto. apply EX. unfold inb in B.
          unfold in_img. cbn [stack_geom gc] in Hk. lia.
        * intros ix' _. unfold arg3. apply (mul_zero_l sc laws).
      + unfold in_out. lia.
      + intros p q m Hp Hq Hm. rewrite conv_fn_pix. ring.
  Qed.

  (** The same for layers with biases. *)
  Theorem C99_stack_bias : forall io e1 e2 e3 C1 C2 g1 g2 s s3 t z x y1 b1 y2 b2 z3 x3 y3 b3 X X3 Y1 B1 Y2 B2 Y3 B3,
    follows C2 g1 g2 -> called dt sc io e1 C1 g1 s t x y1 X Y1 ->
    geom_ok io C2 g2 -> engine_ok sc e2 [gn g2; gc g2; gd g2] ->
    tdims y2 = wgt io (gr g2) (gs g2) (gc g2) (gd g2) -> tdims z = pix io (gn g2) (gh' g2) (gw' g2) (gd g2) ->
    holds dt s y2 Y2 -> mapped s z -> disjoint z t -> disjoint z y2 -> disjoint t y2 ->
    called dt sc io e3 (stack_trait C1 C2) (stack_geom C1 C2 g1 g2) s3 z3 x3 y3 X3 Y3 ->
    tdims b1 = [gd g1] -> tdims b2 = [gd g2] -> tdims b3 = [gd g2] ->
    holds dt s b1 B1 -> holds dt s b2 B2 -> holds dt s3 b3 B3 ->
    disjoint t b1 -> disjoint t b2 -> disjoint z b2 -> disjoint z3 b3 ->
    (forall l p q k, in_img g1 l p q k -> X3 (pix io l p q k) = X (pix io l p q k)) ->
    (forall a b k d, in_flt (stack_geom C1 C2 g1 g2) a b k d ->
       Y3 (wgt io a b k d) = stacked sc io C1 C2 g1 g2 Y1 Y2 a b k d) ->
    (forall d, 0 <= d < gd g2 -> B3 [d] = stacked_bias sc io g2 B1 Y2 B2 d) ->
    exists F s', ((conv io e1 C1 t x y1 ;;; op_bias dt io (f_add sc) t t b1) ;;;
                  (conv io e2 C2 z t y2 ;;; op_bias dt io (f_add sc) z z b2)) s = Ok tt s' /\ holds dt s' z F /\
      (forall p, ~ foot t p -> ~ foot z p -> cells s' p = cells s p) /\
      writes dt (conv io e3 (stack_trait C1 C2) z3 x3 y3 ;;; op_bias dt io (f_add sc) z3 z3 b3) s3 z3 F.
  Proof using laws.
    intros io e1 e2 e3 C1 C2 g1 g2 s s3 t z x y1 b1 y2 b2 z3 x3 y3 b3 X X3 Y1 B1 Y2 B2 Y3 B3
      Fo K1 G2 He2 Ey2 Ez HY2 Mz Dzt Dz2 Dt2 K3 Eb1 Eb2 Eb3 HB1 HB2 HB3 Dt1 Dtb2 Dzb Dzb3 EX EY EB.
    pose proof (called_io dt sc _ _ _ _ _ _ _ _ _ _ K1) as Hio.
    pose proof K1 as (G1 & _ & _ & _ & Et & Hf & _ & _ & Mt & _).
    pose proof Fo as (En & Eh & Ew & Ec & _).
    set (c := match io with nchw => 1%nat | _ => 3%nat end).
    assert (BL : bias_layout io 4 c) by (unfold c; destruct Hio as [-> | ->]; [right; left|right; right]; auto).
    assert (Pc : forall l p q k, nth c (pix io l p q k) 0 = k) by (intros; unfold c; destruct Hio as [-> | ->]; reflexivity).
    assert (Lp : forall l p q k, length (pix io l p q k) = 4%nat) by (intros; destruct Hio as [-> | ->]; reflexivity).
    assert (bias : forall (s : st V) z g b F B, tdims z = pix io (gn g) (gh' g) (gw' g) (gd g) -> tdims b = [gd g] ->
      0 <= gn g -> 0 <= gh' g -> 0 <= gw' g -> 0 <= gd g ->
      holds dt s z F -> holds dt s b B -> disjoint z b ->
      writes dt (op_bias dt io (f_add sc) z z b) s z (fun ix => F ix [+] B [nth c ix 0])).
    { intros s' z' g b F B E Eb N1 N2 N3 N4 HF HB D.
      assert (Dz : dims_ok z') by (unfold dims_ok; rewrite E; destruct Hio as [-> | ->]; cbn [pix]; repeat constructor; lia).
      apply (C30_add_bias dt sc io 4 c z' z' b (gd g)); auto.
      - rewrite E. apply Lp.
      - rewrite E. apply Pc.
      - eapply holds_mapped; eauto.
      - right. unfold same_cells. auto. }
    assert (nn1 : 0 <= gn g1 /\ 0 <= gh' g1 /\ 0 <= gw' g1 /\ 0 <= gd g1).
    { destruct G1 as (_ & A1 & A2 & ? & ? & ?). pose proof (axis_m _ _ _ A1). pose proof (axis_m _ _ _ A2). lia. }
    assert (nn2 : 0 <= gn g2 /\ 0 <= gh' g2 /\ 0 <= gw' g2 /\ 0 <= gd g2).
    { destruct G2 as (_ & A1 & A2 & ? & ? & ?). pose proof (axis_m _ _ _ A1). pose proof (axis_m _ _ _ A2). lia. }
    assert (W1 : writes dt (conv io e1 C1 t x y1 ;;; op_bias dt io (f_add sc) t t b1) s t
      (fun ix => conv_fn sc io C1 g1 X Y1 ix [+] B1 [nth c ix 0])).
    { eapply (writes_bind dt); [apply conv_result; exact K1|]. intros s' HT O.
      apply (bias s' t g1); auto; try tauto. eapply only_changes_holds; eauto. }
    destruct (writes_then dt dt _ (conv io e2 C2 z t y2 ;;; op_bias dt io (f_add sc) z z b2) s t z _
      (fun ix => conv_fn sc io C2 g2 (fun ix => conv_fn sc io C1 g1 X Y1 ix [+] B1 [nth c ix 0]) Y2 ix [+] B2 [nth c ix 0]) W1)
      as (s' & E & _ & HZ & F).
    - intros s1 HT O. eapply (writes_bind dt).
      + apply conv_result. split; [exact G2|]. split; [exact He2|]. split; [rewrite Et, En, Eh, Ew, Ec; reflexivity|].
        split; [exact Ey2|]. split; [exact Ez|]. split; [eapply fresh_ok_only_changes; eauto|]. split; [exact HT|].
        split; [eapply only_changes_holds; [exact O|exact Dt2|exact HY2]|].
        split; [eapply only_changes_mapped; [exact O| |exact Mz]; intros p A B; exact (Dzt p B A)|].
        split; [exact Dzt|exact Dz2].
      + intros s2 HZ O2. apply (bias s2 z g2); auto; try tauto.
        eapply only_changes_holds; [exact O2|exact Dzb|]. eapply only_changes_holds; [exact O|exact Dtb2|exact HB2].
    - eexists _, s'. split; [exact E|]. split; [exact HZ|]. split; [exact F|].
      pose proof K3 as (_ & _ & _ & _ & Ez3 & _).
      eapply (writes_bind dt); [apply conv_result; exact K3|]. intros s2 HZ3 O.
      eapply writes_ext; [reflexivity| |apply (bias s2 z3 (stack_geom C1 C2 g1 g2) b3); cbn [stack_geom gn gh' gw' gd]; try exact HZ3;
        auto; try tauto; try exact (proj1 nn1); eapply only_changes_holds; [exact O|exact Dzb3|exact HB3]].
      intros ix Hix. rewrite Ez3 in Hix.
      destruct (pix_cases io _ _ _ _ _ Hio Hix) as (l & i & j & d & -> & Hl & Hi & Hj & Hd). rewrite !conv_fn_pix, Pc.
      cbn [stack_geom gn gh' gw' gd] in Hl, Hi, Hj, Hd. rewrite EB by auto. unfold stacked_bias.
      rewrite (stack_at io C1 C2 g1 g2 X Y1 Y2 Y3 (fun m => B1 [m]) _ l i j d); try apply G1; try apply G2; auto.
      + match goal with |- ?a [+] (?b [+] ?c) = ?a' [+] ?b [+] ?c => replace a with a'; [ring|] end.
        symmetry. apply conv_at_window; auto. intros u v k Hu Hv Hk. split; auto.
        unfold zimg, zpad. cbn [stack_geom gh gw]. destruct (inb _ _ && inb _ _) eqn:B; auto. apply EX. unfold inb in B.
        unfold in_img. cbn [stack_geom gc] in Hk. lia.
      + unfold in_out. lia.
      + intros p q m Hp Hq Hm. rewrite conv_fn_pix, Pc. reflexivity.
  Qed.
End Props.

(** *** Concrete cases over the integers. *)
Definition two (io : order) (C1 C2 : conv_trait) (td zd xd y1d y2d X Y1 Y2 : list Z) :=
  run (op_conv zt zt Zsc io Builtin C1 (T_ 3 td) (T_ 0 xd) (T_ 1 y1d) ;;;
       op_conv zt zt Zsc io Builtin C2 (T_ 4 zd) (T_ 3 td) (T_ 2 y2d))
    (demo [X; Y1; Y2; blank 40; blank 40]) (T_ 4 [prod zd]).
Definition one (io : order) (C : conv_trait) (zd xd yd X Y : list Z) :=
  run (op_conv zt zt Zsc io Builtin C (T_ 2 zd) (T_ 0 xd) (T_ 1 yd)) (demo [X; Y; blank 40]) (T_ 2 [prod zd]).
Definition on_list (ds l : list Z) : list Z -> Z := fun ix => nth (Z.to_nat (offset ds ix)) l 0.

(** First: rows with stride 2 and padding (1, 0), columns plain, one channel to
    two.  Second: rows dilated by 2, columns with stride 2, two channels to one. *)
Definition c1 : conv_trait := mkconv (mklconv (mkpadding 1 0) 2 1) (mklconv (mkpadding 0 0) 1 1).
Definition c2 : conv_trait := mkconv (mklconv (mkpadding 0 0) 1 2) (mklconv (mkpadding 0 0) 2 1).
Definition g1 : geom := mkgeom 1 5 4 1 2 2 2 3 3.
Definition g2 : geom := mkgeom 1 3 3 2 2 1 1 1 2.
Definition w1 := [1; 2; 3; 4; 5; 6; 7; 8].
Definition w2 := [1; 10; 100; 1000].
Definition w3 := [21; 43; 65; 87; 0; 0; 0; 0; 2100; 4300; 6500; 8700].
Definition img := [1; 2; 3; 4; 5; 6; 7; 8; 9; 10; 11; 12; 13; 14; 15; 16; 17; 18; 19; 20].

(** The hypotheses of the theorems hold for these sizes. *)
Example C99_hypotheses_case : follows c2 g1 g2 /\ geom_ok nhwc c1 g1 /\ geom_ok nhwc c2 g2 /\
  geom_ok nhwc (stack_trait c1 c2) (stack_geom c1 c2 g1 g2) /\ geom_ok nchw (stack_trait c1 c2) (stack_geom c1 c2 g1 g2).
Proof.
  split; [unfold follows; repeat split|].
  assert (S : stack_trait c1 c2 = mkconv (mklconv (mkpadding 1 0) 2 1) (mklconv (mkpadding 0 0) 2 1)) by reflexivity.
  assert (G : stack_geom c1 c2 g1 g2 = mkgeom 1 5 4 1 6 2 1 1 2) by reflexivity.
  rewrite S, G. unfold geom_ok, c1, c2, g1, g2. geo.
  repeat (split; [split; [first [right; reflexivity | left; split; [reflexivity|lia]]|lia]|]).
  split; [right; reflexivity|lia].
Qed.

(** The stacked filters, and the two programs. *)
Example C99_stack_case :
  map (arg4 (stacked Zsc nhwc c1 c2 g1 g2 (on_list [2; 2; 1; 2] w1) (on_list [2; 1; 2; 1] w2))) (indices [6; 2; 1; 1]) = w3 /\
  two nhwc c1 c2 [1; 3; 3; 2] [1; 1; 2; 1] [1; 5; 4; 1] [2; 2; 1; 2] [2; 1; 2; 1] img w1 w2 = Some (inits [354839; 398343]) /\
  one nhwc (stack_trait c1 c2) [1; 1; 2; 1] [1; 5; 4; 1] [6; 2; 1; 1] img w3 = Some (inits [354839; 398343]) /\
  two nchw c1 c2 [1; 2; 3; 3] [1; 1; 1; 2] [1; 1; 5; 4] [2; 1; 2; 2] [1; 2; 2; 1] img [1; 3; 5; 7; 2; 4; 6; 8] [1; 100; 10; 1000]
    = Some (inits [354839; 398343]) /\
  one nchw (stack_trait c1 c2) [1; 1; 1; 2] [1; 1; 5; 4] [1; 1; 6; 2] img w3 = Some (inits [354839; 398343]).
Proof. vm_compute. repeat split. Qed.

(** With biases 1 and 2 after the first and 5 after the second: the one layer
    has bias 1 * (1 + 100) + 2 * (10 + 1000) + 5 = 2126. *)
Example C99_bias_case :
  let one_ d := stacked_bias Zsc nhwc g2 (on_list [2] [1; 2]) (on_list [2; 1; 2; 1] w2) (on_list [1] [5]) d in
  one_ 0 = 2126 /\
  run ((op_conv zt zt Zsc nhwc Builtin c1 (T_ 3 [1; 3; 3; 2]) (T_ 0 [1; 5; 4; 1]) (T_ 1 [2; 2; 1; 2]) ;;;
        op_bias zt nhwc (f_add Zsc) (T_ 3 [1; 3; 3; 2]) (T_ 3 [1; 3; 3; 2]) (T_ 5 [2])) ;;;
       (op_conv zt zt Zsc nhwc Builtin c2 (T_ 4 [1; 1; 2; 1]) (T_ 3 [1; 3; 3; 2]) (T_ 2 [2; 1; 2; 1]) ;;;
        op_bias zt nhwc (f_add Zsc) (T_ 4 [1; 1; 2; 1]) (T_ 4 [1; 1; 2; 1]) (T_ 6 [1])))
    (demo [img; w1; w2; blank 40; blank 2; [1; 2]; [5]]) (T_ 4 [2]) = Some (inits [354839 + 2126; 398343 + 2126]) /\
  run (op_conv zt zt Zsc nhwc Builtin (stack_trait c1 c2) (T_ 2 [1; 1; 2; 1]) (T_ 0 [1; 5; 4; 1]) (T_ 1 [6; 2; 1; 1]) ;;;
       op_bias zt nhwc (f_add Zsc) (T_ 2 [1; 1; 2; 1]) (T_ 2 [1; 1; 2; 1]) (T_ 3 [1]))
    (demo [img; w3; blank 2; [2126]]) (T_ 2 [2]) = Some (inits [354839 + 2126; 398343 + 2126]).
Proof. vm_compute. repeat split. Qed.

(** Without the hypothesis on the padding the claim is false: a second
    convolution that pads sees zeros where the one convolution, with the
    paddings added, sees part of the image. *)
Definition pad_left : conv_trait := mkconv (mklconv (mkpadding 0 0) 1 1) (mklconv (mkpadding 1 0) 1 1).
Definition plain_ : conv_trait := mkconv (mklconv (mkpadding 0 0) 1 1) (mklconv (mkpadding 0 0) 1 1).
Theorem C99_padding_refuted :
  map (arg4 (stacked Zsc nhwc plain_ pad_left (mkgeom 1 1 2 1 1 2 1 1 1) (mkgeom 1 1 1 1 1 2 1 1 1)
    (on_list [1; 2; 1; 1] [1; 1]) (on_list [1; 2; 1; 1] [1; 1]))) (indices [1; 3; 1; 1]) = [1; 2; 1] /\
  two nhwc plain_ pad_left [1; 1; 1; 1] [1; 1; 1; 1] [1; 1; 2; 1] [1; 2; 1; 1] [1; 2; 1; 1] [3; 4] [1; 1] [1; 1]
    = Some (inits [7]) /\
  one nhwc pad_left [1; 1; 1; 1] [1; 1; 2; 1] [1; 3; 1; 1] [3; 4] [1; 2; 1] = Some (inits [10]).
Proof. vm_compute. repeat split. Qed.

Print Assumptions C99_axis.
Print Assumptions C99_stack.
Print Assumptions C99_stack_bias.
Print Assumptions C99_padding_refuted.
