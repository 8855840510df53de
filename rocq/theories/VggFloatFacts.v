(** Proofs about VGG networks in floating point. *)
From Coq Require Import ZArith List Bool Lia String Reals Lra Permutation.
From Coquelicot Require Import Coquelicot.
From Flocq Require Import Core BinarySingleNaN.
From Verif Require Import Base BaseFacts TensorFacts Traits TraitsSpec TraitsFacts PropsTraits Scalar LinAlg LinAlgFacts Conv ConvSpec ConvFacts
  Elem ElemSpec ElemFacts PropsElem RealScalar Activation ActivationSpec ActivationFacts SoftmaxFacts PropsSoftmax
  Pool PoolSpec PoolFacts PropsPool PropsSummary Utility UtilityFacts PropsUtility
  Layers LayersSpec LayersFacts LayerCalls PropsLayers PropsLayers2 PropsDefaults Vgg VggSpec VggFacts PropsVgg
  Backprop BackpropSpec Float FloatSpec FloatFacts FloatNan FloatSumSpec FloatSoftSpec FloatSoftFacts
  BackpropFacts StableSpec StableFacts NetFloatSpec NetFloatFacts VggFloatSpec.
Import ListNotations.
Open Scope Z_scope.
Open Scope model_scope.

(** A convolution that keeps the image size. *)
Definition trait3 : conv_trait := new_conv_psr (mkpadding 1 1) (mkpadding 1 1) 1 1 1 1.

Lemma close_ext : forall ds e X Y Y', close ds e X Y -> (forall ix, valid ds ix -> Y ix = Y' ix) -> close ds e X Y'.
Proof. intros ds e X Y Y' C E ix Hix. rewrite <- E by exact Hix. apply C, Hix. Qed.

Lemma Rmax_close2 : forall a b a' b' e, (Rabs (a - a') <= e)%R -> (Rabs (b - b') <= e)%R ->
  (Rabs (Rmax a b - Rmax a' b') <= e)%R.
Proof.
  intros a b a' b' e H1 H2. unfold Rmax. destruct (Rle_dec a b), (Rle_dec a' b'); revert H1 H2; unfold Rabs;
    repeat destruct Rcase_abs; lra.
Qed.

Lemma Rmax_abs : forall a b m, (Rabs a <= m)%R -> (Rabs b <= m)%R -> (Rabs (Rmax a b) <= m)%R.
Proof. intros a b m H1 H2. unfold Rmax. destruct (Rle_dec a b); auto. Qed.

Lemma last_size_chan : forall c b, last_size c b = chan c b.
Proof. reflexivity. Qed.

Section Float.
  Context (prec emax : Z) {Hprec : Prec_gt_0 prec} {Hmax : Prec_lt_emax prec emax}.
  Notation sc := (Fsc prec emax).
  Notation flt := (binary_float prec emax).
  Notation u := (unit_roundoff prec).
  Notation eta := (half_tiny prec emax).
  Notation tns := (list Z -> flt).
  Context (exp_ : flt -> flt) (eps lowest : flt).
  Context (Fe : is_finite eps = true) (Le : (B2R eps <= 1)%R).

  (** The computed numbers [X] are finite, at most [m] and within [e] of [x]. *)
  Definition good (ds : list Z) (m e : R) (X : tns) (x : list Z -> R) : Prop :=
    (0 <= m)%R /\ (0 <= e)%R /\ finite_on prec emax ds X /\ bounded ds m (reals prec emax X) /\ close ds e (reals prec emax X) x.

  Lemma good_ext : forall ds m e X x x', good ds m e X x -> (forall ix, valid ds ix -> x ix = x' ix) -> good ds m e X x'.
  Proof using All. intros ds m e X x x' (H1 & H2 & H3 & H4 & H5) E. repeat split; auto. eapply close_ext; eauto. Qed.

  Lemma layer_step : forall d L P X x a b m e, layer_ok L -> good (in_shape L) m e X x ->
    weights_ok prec emax L P b -> gain L (reals prec emax P) a -> room prec emax d exp_ L a b m ->
    good (out_shape L) (reach L a b m + rounding prec emax d L a b m) (a * e + rounding prec emax d L a b m)
      (layer_float prec emax exp_ eps L P X) (layer_fn (B2R eps) L (reals prec emax P) x).
  Proof using All.
    intros d L P X x a b m e Hok (Hm & He & FX & BX & CX) HW HG HR.
    destruct (layer_rounding prec emax exp_ eps d L P X a b m) as (F & C & Bd); auto.
    destruct (rounding_nonneg prec emax exp_ d L P a b m Hm HG HW HR) as [N1 N2]. pose proof (gain_nonneg L _ a HG) as Na.
    pose proof (layer_close0 (B2R eps) L (reals prec emax P) _ _ a e Hok HG He CX) as C2.
    split; [lra|]. split; [assert (0 <= a * e)%R by (apply Rmult_le_pos; auto); lra|]. split; [exact F|]. split.
    - intros ix Hix. specialize (C ix Hix). specialize (Bd ix Hix).
      replace (reals prec emax (layer_float prec emax exp_ eps L P X) ix) with
        (layer_fn (B2R eps) L (reals prec emax P) (reals prec emax X) ix +
         (reals prec emax (layer_float prec emax exp_ eps L P X) ix - layer_fn (B2R eps) L (reals prec emax P) (reals prec emax X) ix))%R by ring.
      eapply Rle_trans; [apply Rabs_triang|]. lra.
    - intros ix Hix. specialize (C ix Hix). specialize (C2 ix Hix).
      match goal with |- (Rabs (?p - ?q) <= _)%R =>
        replace (p - q)%R with ((p - layer_fn (B2R eps) L (reals prec emax P) (reals prec emax X) ix) +
          (layer_fn (B2R eps) L (reals prec emax P) (reals prec emax X) ix - q))%R by ring end.
      eapply Rle_trans; [apply Rabs_triang|]. lra.
  Qed.

  (** A sum of products, then a bias, then relu. *)
  Definition conv_float (n h w c d : Z) (W B X : tns) : tns :=
    layer_float prec emax exp_ eps (LBiasImg n h w d) B
      (layer_float prec emax exp_ eps (LConv Builtin trait3 n h w c 3 3 d h w) W X).
  Definition dense_float (n l d : Z) (W B X : tns) : tns :=
    layer_float prec emax exp_ eps (LBias n d) B (layer_float prec emax exp_ eps (LMatmul Builtin n l d) W X).

  Lemma relu_step : forall ds X x m e, List.Forall (fun d => 0 <= d) ds -> (m + eta < bpow radix2 emax)%R ->
    good ds m e X x -> good ds m e (fun ix => relu1 sc (X ix)) (fun ix => Rmax 0 (x ix)).
  Proof using All.
    intros ds X x m e N O G. assert (Pe := eta_pos prec emax).
    pose proof (layer_step 0 (LRelu ds) (fun _ => B754_zero false) X x 1 0 m e N G) as Q.
    cbn [out_shape layer_float layer_fn reach rounding room gain weights_ok par_shape] in Q.
    replace (m + 0)%R with m in Q by ring. replace (1 * e + 0)%R with e in Q by ring.
    eapply good_ext; [apply Q|].
    - split; [|exact I]. intros ix _. reflexivity.
    - lra.
    - split; [cbn; lra|exact I].
    - intros ix _. cbv beta. apply Rmax_comm.
  Qed.

  Lemma affine_rooms : forall q a b m, (0 <= a)%R -> (0 <= b)%R -> (0 <= m)%R ->
    (a * m + b + params_rounding prec emax q a b m + eta < bpow radix2 emax)%R ->
    let r := dot_bound prec emax (Z.to_nat (prod (p_ins q))) (a * m) in
    (0 <= a * m)%R /\ (0 <= r)%R /\ (a * m + r + eta < bpow radix2 emax)%R /\
    (a * m + r + b + u * (a * m + r + b) + eta < bpow radix2 emax)%R.
  Proof using All.
    intros q a b m Ha Hb Hm O r. unfold params_rounding in O. cbv zeta in O. fold r in O.
    assert (Pu := u_pos prec). assert (Pe := eta_pos prec emax).
    assert (H : (0 <= a * m)%R) by (apply Rmult_le_pos; auto).
    assert (Hr : (0 <= r)%R).
    { unfold r, dot_bound. pose proof (pow_ge1 prec (Z.to_nat (prod (p_ins q)))). pose proof (pos_INR (Z.to_nat (prod (p_ins q)))).
      apply Rplus_le_le_0_compat; [apply Rmult_le_pos; lra|]. apply Rmult_le_pos; [apply Rmult_le_pos|]; lra. }
    assert (0 <= u * (a * m + r + b))%R by (apply Rmult_le_pos; lra).
    split; [exact H|]. split; [exact Hr|]. split; lra.
  Qed.

  Lemma conv_step : forall nm n h w c d W B X x a b m e, 1 <= n -> 1 <= h -> h + 3 < 2 ^ 32 -> 1 <= w -> w + 3 < 2 ^ 32 ->
    1 <= c -> 1 <= d -> h * w * c <= 2 ^ 31 ->
    let q := mkparams nm [3; 3; c] d in
    params_ok prec emax q W B a b -> (a * m + b + params_rounding prec emax q a b m + eta < bpow radix2 emax)%R ->
    good [n; h; w; c] m e X x ->
    good [n; h; w; d] (a * m + b + params_rounding prec emax q a b m) (a * e + params_rounding prec emax q a b m)
      (fun ix => relu1 sc (conv_float n h w c d W B X ix)) (conv3 h w c (reals prec emax W) (reals prec emax B) x).
  Proof using All.
    intros nm n h w c d W B X x a b m e Hn Hh Fh Hw Fw Hc Hd Hs q (FW & FB & Ha & Hb & BB & SW) O G.
    pose proof G as (Hm & He & _). destruct (affine_rooms q a b m Ha Hb Hm O) as (Pam & Pr & R1 & R2).
    cbn [p_ins p_outs q app] in FW, FB, BB, SW.
    assert (Ep : 3 * 3 * c = prod (p_ins q)) by (cbn [prod p_ins q]; lia).
    set (r := dot_bound prec emax (Z.to_nat (prod (p_ins q))) (a * m)) in *.
    assert (HC : layer_ok (LConv Builtin trait3 n h w c 3 3 d h w)).
    { cbn [layer_ok]. split; [exact (proj2 (same3 h Hh Fh))|]. split; [exact (proj2 (same3 w Hw Fw))|].
      split; [repeat (constructor; [lia|]); constructor|exact Hs]. }
    assert (G1 := layer_step 0 (LConv Builtin trait3 n h w c 3 3 d h w) W X x a 0 m e HC G).
    cbn [out_shape reach rounding] in G1. rewrite Ep in G1. fold r in G1.
    specialize (G1 (conj FW I)).
    assert (G2 := layer_step 0 (LBiasImg n h w d) B _ _ 1 b _ _ ltac:(cbn; lia) (G1
      ltac:(split; [exact Ha|intros t Ht; eapply Rle_trans; [|exact (SW t Ht)]; right; apply sum_over_ext; intros ix Hix; apply in_indices in Hix;
        apply valid_3 in Hix; destruct Hix as (i1 & i2 & i3 & -> & _); reflexivity])
      ltac:(split; [cbn [reach rounding]; rewrite Ep; exact R1|exact I]))).
    cbn [out_shape reach rounding] in G2.
    specialize (G2 (conj FB (conj Hb BB)) ltac:(cbn; lra) ltac:(split; [exact R2|exact I])).
    replace (a * m + r + b + u * (a * m + r + b))%R with (a * m + b + params_rounding prec emax q a b m)%R in G2
      by (unfold params_rounding; cbv zeta; fold r; ring).
    replace (1 * (a * e + r) + u * (a * m + r + b))%R with (a * e + params_rounding prec emax q a b m)%R in G2
      by (unfold params_rounding; cbv zeta; fold r; ring).
    apply relu_step in G2; [|repeat (constructor; [lia|]); constructor|exact O].
    eapply good_ext; [exact G2|]. intros ix Hix. apply valid_4 in Hix.
    destruct Hix as (l & i & j & t & -> & Hl & Hi & Hj & Ht). cbv beta. unfold conv3.
    cbn [layer_fn]. unfold conv_spec_nhwc. unfold arg4. cbn [nth]. cbv zeta. f_equal. f_equal.
    apply sum_over_ext. intros v Hv. unfold arg3. cbn [smul s0 Rsc]. unfold wpos, tap, axis_of, trait3, new_conv_psr.
    cbn [h_trait w_trait lstride lrate lpad stride rate sfilter left_ spadding]. f_equal. f_equal; lia.
  Qed.

  Lemma dense_step : forall nm n l d W B X x a b m e, 1 <= n -> 1 <= l -> 1 <= d ->
    let q := mkparams nm [l] d in
    params_ok prec emax q W B a b -> (a * m + b + params_rounding prec emax q a b m + eta < bpow radix2 emax)%R ->
    good [n; l] m e X x ->
    good [n; d] (a * m + b + params_rounding prec emax q a b m) (a * e + params_rounding prec emax q a b m)
      (dense_float n l d W B X) (affine l (reals prec emax W) (reals prec emax B) x).
  Proof using All.
    intros nm n l d W B X x a b m e Hn Hl Hd q (FW & FB & Ha & Hb & BB & SW) O G.
    pose proof G as (Hm & He & _). destruct (affine_rooms q a b m Ha Hb Hm O) as (Pam & Pr & R1 & R2).
    cbn [p_ins p_outs q app] in FW, FB, BB, SW.
    assert (Ep : l = prod (p_ins q)) by (cbn [prod p_ins q]; lia).
    set (r := dot_bound prec emax (Z.to_nat (prod (p_ins q))) (a * m)) in *.
    assert (Er : dot_bound prec emax (Z.to_nat l) (a * m) = r) by (unfold r; rewrite <- Ep; reflexivity).
    assert (HC : layer_ok (LMatmul Builtin n l d)) by (repeat (constructor; [lia|]); constructor).
    assert (G1 := layer_step 0 (LMatmul Builtin n l d) W X x a 0 m e HC G).
    cbn [out_shape reach rounding] in G1. rewrite Er in G1.
    specialize (G1 (conj FW I)).
    assert (G2 := layer_step 0 (LBias n d) B _ _ 1 b _ _ ltac:(cbn; lia) (G1
      ltac:(split; [exact Ha|intros t Ht; eapply Rle_trans; [|exact (SW t Ht)]; right; rewrite indices_1, sum_over_map; reflexivity])
      ltac:(split; [cbn [reach rounding]; rewrite Er; exact R1|exact I]))).
    cbn [out_shape reach rounding] in G2.
    specialize (G2 (conj FB (conj Hb BB)) ltac:(cbn; lra) ltac:(split; [exact R2|exact I])).
    replace (a * m + r + b + u * (a * m + r + b))%R with (a * m + b + params_rounding prec emax q a b m)%R in G2
      by (unfold params_rounding; cbv zeta; fold r; ring).
    replace (1 * (a * e + r) + u * (a * m + r + b))%R with (a * e + params_rounding prec emax q a b m)%R in G2
      by (unfold params_rounding; cbv zeta; fold r; ring).
    exact G2.
  Qed.

  (** Maximum of 2 x 2 squares; [lowest] is the smallest number of the type. *)
  Definition pool_float (X : tns) : tns :=
    arg4 (fun l i j k =>
      smax sc (smax sc (smax sc (smax sc lowest (X [l; 2 * i; 2 * j; k])) (X [l; 2 * i; 2 * j + 1; k]))
        (X [l; 2 * i + 1; 2 * j; k])) (X [l; 2 * i + 1; 2 * j + 1; k])).
  Context (Fl : is_finite lowest = true) (Ll : forall v : flt, is_finite v = true -> (B2R lowest <= B2R v)%R).

  Lemma pool_step : forall n h w c X x m e, h mod 2 = 0 -> w mod 2 = 0 ->
    good [n; h; w; c] m e X x -> good [n; h / 2; w / 2; c] m e (pool_float X) (pool2 x).
  Proof using All.
    intros n h w c X x m e Eh Ew (Hm & He & FX & BX & CX).
    pose proof (Z.div_mod h 2 ltac:(lia)). pose proof (Z.div_mod w 2 ltac:(lia)).
    assert (Q : forall l i j k, valid [n; h / 2; w / 2; c] [l; i; j; k] ->
      is_finite (pool_float X [l; i; j; k]) = true /\
      B2R (pool_float X [l; i; j; k]) = pool2 (reals prec emax X) [l; i; j; k] /\
      valid [n; h; w; c] [l; 2 * i; 2 * j; k] /\ valid [n; h; w; c] [l; 2 * i; 2 * j + 1; k] /\
      valid [n; h; w; c] [l; 2 * i + 1; 2 * j; k] /\ valid [n; h; w; c] [l; 2 * i + 1; 2 * j + 1; k]).
    { intros l i j k Hv. cbn [valid] in Hv.
      assert (V1 : valid [n; h; w; c] [l; 2 * i; 2 * j; k]) by (cbn [valid]; lia).
      assert (V2 : valid [n; h; w; c] [l; 2 * i; 2 * j + 1; k]) by (cbn [valid]; lia).
      assert (V3 : valid [n; h; w; c] [l; 2 * i + 1; 2 * j; k]) by (cbn [valid]; lia).
      assert (V4 : valid [n; h; w; c] [l; 2 * i + 1; 2 * j + 1; k]) by (cbn [valid]; lia).
      pose proof (FX _ V1) as F1. pose proof (FX _ V2) as F2. pose proof (FX _ V3) as F3. pose proof (FX _ V4) as F4.
      unfold pool_float, pool2, arg4. cbn [nth]. unfold smax. cbn [sltb Fsc].
      destruct (smax_val prec emax lowest _ Fl F1) as [Fa Ea].
      destruct (smax_val prec emax _ _ Fa F2) as [Fb Eb]. destruct (smax_val prec emax _ _ Fb F3) as [Fc Ec].
      destruct (smax_val prec emax _ _ Fc F4) as [Fd Ed].
      split; [exact Fd|]. split; [|tauto]. rewrite Ed, Ec, Eb, Ea. rewrite (Rmax_right (B2R lowest)) by auto.
      unfold reals. symmetry. apply Rmax_assoc. }
    split; [exact Hm|]. split; [exact He|]. split; [|split].
    - intros ix Hix. pose proof Hix as Hv. apply valid_4 in Hix. destruct Hix as (l & i & j & k & -> & _). apply (Q l i j k Hv).
    - intros ix Hix. pose proof Hix as Hv. apply valid_4 in Hix. destruct Hix as (l & i & j & k & -> & _).
      destruct (Q l i j k Hv) as (_ & E & V1 & V2 & V3 & V4). unfold reals at 1. rewrite E. unfold pool2, arg4. cbn [nth].
      repeat apply Rmax_abs; apply BX; assumption.
    - intros ix Hix. pose proof Hix as Hv. apply valid_4 in Hix. destruct Hix as (l & i & j & k & -> & _).
      destruct (Q l i j k Hv) as (_ & E & V1 & V2 & V3 & V4). unfold reals at 1. rewrite E. unfold pool2, arg4. cbn [nth].
      repeat apply Rmax_close2; apply CX; assumption.
  Qed.

  Definition flat_float (h w c : Z) (X : tns) : tns := arg2 (fun i a => X [i; a / (w * c); a / c mod w; a mod c]).

  Lemma flat_step : forall n h w c X x m e, 1 <= h -> 1 <= w -> 1 <= c ->
    good [n; h; w; c] m e X x -> good [n; h * w * c] m e (flat_float h w c X) (flattened h w c x).
  Proof using All.
    intros n h w c X x m e Hh Hw Hc (Hm & He & FX & BX & CX).
    assert (Q : forall i a, 0 <= i < n -> 0 <= a < h * w * c -> valid [n; h; w; c] [i; a / (w * c); a / c mod w; a mod c]).
    { intros i a Hi Ha. cbn [valid]. pose proof (Z.mod_pos_bound a c ltac:(lia)). pose proof (Z.mod_pos_bound (a / c) w ltac:(lia)).
      assert (0 <= a / (w * c)) by (apply Z.div_pos; nia). assert (a / (w * c) < h) by (apply Z.div_lt_upper_bound; nia). lia. }
    split; [exact Hm|]. split; [exact He|]. split; [|split]; intros ix Hix; apply valid_2 in Hix; destruct Hix as (i & a & -> & Hi & Ha).
    - apply (FX _ (Q i a Hi Ha)).
    - apply (BX _ (Q i a Hi Ha)).
    - apply (CX _ (Q i a Hi Ha)).
  Qed.

  (** *** Runs *)
  Section Run.
    Context {V : Type} (dt : dtype V flt) (di : dtype V Z).

    Lemma conv_run : forall d w_init b_init n h w c W B s x X,
      1 <= n -> 1 <= h -> h + 3 < 2 ^ 32 -> 1 <= w -> w + 3 < 2 ^ 32 -> 1 <= c -> 1 <= d < 2 ^ 32 -> h * w * c <= 2 ^ 31 ->
      fills dt w_init [3; 3; c; d] W -> fills dt b_init [d] B -> input dt s x ([n; h; w; c], X) ->
      creates dt (vgg_conv dt di sc Builtin d w_init b_init x) s ([n; h; w; d], fun ix => relu1 sc (conv_float n h w c d W B X ix))
        [([3; 3; c; d], W); ([d], B)].
    Proof using All.
      intros d w_init b_init n h w c W B s x X Hn Hh Fh Hw Fw Hc Hd Hs HW HB I.
      destruct (same3 h Hh Fh) as [Ph Ah]. destruct (same3 w Hw Fw) as [Pw Aw].
      unfold vgg_conv, new_conf. rewrite (to_u32_id d) by lia. change (to_u32 3) with 3. change (to_u32 1) with 1.
      set (c0 := mkconf d 3 3 (padding_same U32) 1 1 1 1).
      destruct (C62_conv_nhwc dt di sc Builtin c0 (op_relu dt sc) w_init b_init n h w c h w (mkpadding 1 1) (mkpadding 1 1) W B
                  (fun Y ix => relu1 sc (Y ix)) Ph Pw Ah Aw ltac:(lia) ltac:(lia) ltac:(cbn; lia) Logic.I s x X Hs HW) as [_ Q]; [|exact I|].
      { apply acts_pointwise. cbn [c_filters c0]. repeat (constructor; [lia|]). constructor. }
      specialize (Q HB). eapply creates_ext; [exact Q|]. intros ix Hix. apply valid_4 in Hix.
      destruct Hix as (l & i & j & t & -> & Hl & Hi & Hj & Ht). reflexivity.
    Qed.

    Lemma pool_run : forall n h w c s x X,
      1 <= n -> 1 <= h -> h + 3 < 2 ^ 32 -> 1 <= w -> w + 3 < 2 ^ 32 -> 1 <= c -> h mod 2 = 0 -> w mod 2 = 0 ->
      input dt s x ([n; h; w; c], X) ->
      creates dt (vgg_pool dt sc lowest x) s ([n; h / 2; w / 2; c], pool_float X) [].
    Proof using All.
      intros n h w c s x X Hn Hh Fh Hw Fw Hc Eh Ew I.
      pose proof (Z.div_mod h 2 ltac:(lia)). pose proof (Z.div_mod w 2 ltac:(lia)).
      set (P := mkpool (mksample (mkfilter 2 2 1) (mkpadding 0 0)) (mksample (mkfilter 2 2 1) (mkpadding 0 0))).
      unfold vgg_pool, new_pconf. change (to_u32 2) with 2.
      apply (C72_pool_nhwc dt (max_acc sc lowest) (mkpconf 2 2 (padding_same U32) 2 2) (mkpadding 0 0) (mkpadding 0 0) P P
               n h w c (h / 2) (w / 2) (pool_float X) s x X); cbn [p_pad p_kh p_kw p_sh p_sw].
      - rewrite same2 by lia. rewrite Eh. reflexivity.
      - rewrite same2 by lia. rewrite Ew. reflexivity.
      - unfold pool_args. cbn. lia.
      - apply new_pool_kps_iff; lia.
      - apply new_pool_kps_iff; lia.
      - apply C38_shape. exists (h / 2), (w / 2). split; [|reflexivity].
        apply (C79_pool_k_shape 2 2 P h w (h / 2) (w / 2)); try lia. apply new_pool_kps_iff; lia.
      - lia.
      - lia.
      - exact I.
      - intros l i j k Hv. cbn [valid] in Hv. cbn [h_sample w_sample P].
        rewrite window2 by (try lia; tauto). cbn [map fst snd]. unfold pooled. cbn [max_acc acc_st acc0 acc_step acc_get fold_left].
        unfold pool_float, arg4. cbn [nth]. unfold smax. reflexivity.
    Qed.

    Lemma dense_relu_run : forall d w_init b_init n l W B s x X, 1 <= n -> 1 <= l -> 1 <= d < 2 ^ 32 ->
      fills dt w_init [l; d] W -> fills dt b_init [d] B -> input dt s x ([n; l], X) ->
      creates dt (vgg_dense_relu dt sc Builtin d w_init b_init x) s ([n; d], fun ix => relu1 sc (dense_float n l d W B X ix))
        [([l; d], W); ([d], B)].
    Proof using All.
      intros d w_init b_init n l W B s x X Hn Hl Hd HW HB I.
      pose proof (C62_dense dt sc Builtin (op_relu dt sc) d w_init b_init n l W B (fun Y ix => relu1 sc (Y ix)) s x X ltac:(lia)
        Logic.I HW HB) as Q.
      eapply creates_ext; [apply Q; [|exact I]|].
      - apply acts_pointwise. repeat (constructor; [lia|]). constructor.
      - intros ix Hix. apply valid_2 in Hix. destruct Hix as (i & j & -> & _). reflexivity.
    Qed.

    Lemma dense_run : forall d w_init b_init n l W B s x X, 1 <= n -> 1 <= l -> 1 <= d < 2 ^ 32 ->
      fills dt w_init [l; d] W -> fills dt b_init [d] B -> input dt s x ([n; l], X) ->
      creates dt (vgg_dense dt sc Builtin d w_init b_init x) s ([n; d], dense_float n l d W B X) [([l; d], W); ([d], B)].
    Proof using All.
      intros d w_init b_init n l W B s x X Hn Hl Hd HW HB I.
      eapply creates_ext; [exact (C62_dense dt sc Builtin noop2 d w_init b_init n l W B (fun Y => Y) s x X ltac:(lia)
        Logic.I HW HB (acts_noop dt _) I)|].
      intros ix Hix. apply valid_2 in Hix. destruct Hix as (i & j & -> & _). reflexivity.
    Qed.

    Lemma softmax_run : forall n k s x X, 0 <= n -> 0 <= k -> input dt s x ([n; k], X) ->
      creates dt (vgg_softmax dt sc exp_ eps x) s ([n; k], layer_float prec emax exp_ eps (LSoftmax n k) X X) [].
    Proof using All.
      intros n k s x X Hn Hk I. unfold vgg_softmax.
      apply (C72_activation dt (op_softmax dt sc exp_ 2 eps) [n; k] _ s x X I).
      intros s2 y F H E M D. destruct I as (_ & N & Ex & _). cbn [fst] in N, Ex.
      set (z0 := mktensor (tblk x) (tbase x) [0]).
      assert (N0 : forall q, ~ foot z0 q) by (intros q (a & Ha & _); cbn in Ha; lia).
      apply (forward_float prec emax exp_ eps dt di (LSoftmax n k) y x z0 X X s2); auto.
      - cbn; auto.
      - exact Logic.I.
      - intros ix Hix. cbn in Hix. destruct ix as [|? [|? ?]]; cbn in Hix; lia.
      - intros q _ Hq. exact (N0 q Hq).
    Qed.
  Lemma top_float : forall m k P (o : tensor) s, fresh_ok s -> 0 <= m < 2 ^ 32 -> 0 <= k < 2 ^ 32 ->
    tdims o = [k] -> holds dt s o (arg1 P) -> (forall i, 0 <= i < k -> is_finite (P i : flt) = true) ->
    exists y z s' L,
      (y <- new_tensor [to_u32 m] ;; z <- new_tensor [to_u32 m] ;;
       op_top dt di (mkitype false 32) sc y z o ;;; ret (y, z)) s = Ok (y, z) s' /\
      grown s s' [y; z] /\ tdims y = [m] /\ tdims z = [m] /\ Z.of_nat (List.length L) = Z.min k m /\ lists_top k (fun i => B2R (P i)) L /\
      (forall q i, nth_error L q = Some i ->
         cells s' (addr y [Z.of_nat q]) = Init (emb dt (P i)) /\ cells s' (addr z [Z.of_nat q]) = Init (emb di i)).
  Proof using All.
    intros m k P o s F Hm Hk Eo Ho FP. rewrite to_u32_id by lia.
    destruct (new_tensor_born s [m] F) as (y & s1 & E1 & B1). pose proof (grown_born s s s1 [] y _ (grown_nil s F) B1) as G1.
    pose proof G1 as (F1 & _). destruct (new_tensor_born s1 [m] F1) as (z & s2 & E2 & B2).
    pose proof (grown_born s s1 s2 [y] z _ G1 B2) as G2.
    assert (Dy : tdims y = [m]) by apply B1. assert (Dz : tdims z = [m]) by apply B2.
    assert (Mo : mapped s o) by (eapply holds_mapped; [|exact Ho]; unfold dims_ok; rewrite Eo; repeat constructor; lia).
    assert (Ho2 : holds dt s2 o (arg1 P)) by (apply (grown_holds dt s s2 [z; y]); auto).
    pose proof G2 as (F2 & N2 & ND & A2 & C2). inversion A2 as [|? ? (Bz & Zz & Mz) A3]; subst.
    inversion A3 as [|? ? (By & Zy & My) _]; subst.
    assert (Nyz : tblk y <> tblk z) by (cbn [map] in ND; inversion ND as [|? ? Q _]; subst; cbn in Q; intros Q'; apply Q; left; auto).
    assert (C32 : forall a, 0 <= a < 2 ^ 32 -> conv (mkitype false 32) a = a).
    { intros a Ha. apply C48_fits; cbn; lia. }
    destruct (C48_top V flt dt di (mkitype false 32) sc (fun v => is_nan v = false) y z o k m (arg1 P) s2) as (s3 & L & E3 & N3 & Ln & NDL & InL & Wr & Ord & Out & Fr);
      auto; try lia; try (rewrite C32; lia); [cbn; lia|apply blk_disjoint; auto|apply float_order|rewrite C32 by lia; intros i Hi; unfold arg1; cbn [nth]; specialize (FP i Hi); destruct (P i); try discriminate; reflexivity|].
    rewrite !C32 in * by lia.
    assert (Frame : forall q, (fst q <> tblk y -> fst q <> tblk z -> cells s3 q = cells s2 q)).
    { intros q Q1 Q2. apply Fr. intros a _. split; intros ->; [apply Q1|apply Q2]; reflexivity. }
    assert (Keep : forall t, t = y \/ t = z -> forall q, foot t q -> cells s3 q <> Unmapped).
    { intros t Ht q Hq. assert (Mt : mapped s2 t) by (destruct Ht; subst t; auto). assert (Et : tdims t = [m]) by (destruct Ht; subst t; auto).
      destruct Hq as (a & Ha & ->). unfold size in Ha. rewrite Et in Ha. cbn [prod] in Ha.
      assert (Ea : forall b, addr t [b] = daddr t b). { intros b. unfold addr. rewrite Et. cbn. f_equal. lia. }
      destruct (Z_lt_dec a (Z.min k m)) as [La|La].
      - destruct (nth_error L (Z.to_nat a)) as [i|] eqn:En; [|apply nth_error_None in En; lia].
        destruct (Wr _ _ En) as [W1 W2]. rewrite Z2Nat.id in W1, W2 by lia. rewrite <- Ea.
        destruct Ht; subst t; [rewrite W1|rewrite W2]; discriminate.
      - rewrite Fr; [apply Mt; exists a; split; [unfold size; rewrite Et; cbn; lia|reflexivity]|].
        intros b Hb. destruct Ht; subst t.
        + split; [rewrite Ea; unfold daddr; intros Q; injection Q; lia|]. unfold addr, daddr. intros Q. apply Nyz. congruence.
        + split; [unfold addr, daddr; intros Q; apply Nyz; congruence|]. rewrite Ea. unfold daddr; intros Q; injection Q; lia. }
    exists y, z, s3, L. split.
    { rewrite (bind_ok _ _ _ _ _ E1), (bind_ok _ _ _ _ _ E2), (bind_ok _ _ _ _ _ E3). reflexivity. }
    split.
    { apply (grown_perm s s3 [z; y]); [apply perm_swap|]. split; [|split; [lia|split; [exact ND|split]]].
      - intros q Hq. rewrite Frame; [apply F2| |]; lia.
      - constructor; [split; [lia|split; [auto|intros q; apply Keep; auto]]|].
        constructor; [split; [lia|split; [auto|intros q; apply Keep; auto]]|constructor].
      - intros q Hq. cbn [map In] in Hq. rewrite Frame by (intros Q; apply Hq; auto). apply C2. cbn [map In]. auto. }
    split; [exact Dy|]. split; [exact Dz|]. split; [exact Ln|]. split; [|exact Wr].
    assert (T : forall i j, 0 <= i < k -> 0 <= j < k ->
      sltb sc (arg1 P [i]) (arg1 P [j]) = false /\ (sltb sc (arg1 P [j]) (arg1 P [i]) = false -> j < i) ->
      (B2R (P j) < B2R (P i))%R \/ B2R (P i) = B2R (P j) /\ j < i).
    { intros i j Hi Hj [Q1 Q2]. unfold arg1 in *. cbn [nth sltb Fsc] in *. rewrite Bltb_correct in Q1, Q2 by (apply FP; assumption).
      destruct (Rlt_bool_spec (B2R (P i)) (B2R (P j))) as [?|Q]; [discriminate|].
      destruct (Rle_lt_or_eq_dec _ _ Q) as [Q'|Q']; [left; auto|right; split; auto]. apply Q2. apply Rlt_bool_false. lra. }
    assert (In' : forall q i, nth_error L q = Some i -> 0 <= i < k) by (intros q i En; apply InL; eapply nth_error_In; exact En).
    split; [exact NDL|]. split; [exact InL|]. split.
    - intros a b i j Hab Ea Eb. apply T; [eapply In'; exact Ea|eapply In'; exact Eb|]. eapply Ord; eauto.
    - intros i j Hi Hj Nj. apply T; [apply InL; exact Hi|exact Hj|]. apply Out; auto.
  Qed.

  Lemma flat_input : forall n h w c s t X, 1 <= n -> 1 <= h -> 1 <= w -> 1 <= c -> input dt s t ([n; h; w; c], X) ->
    input dt s (as_matrix 1 t) ([n; h * w * c], flat_float h w c X).
  Proof using All.
    intros n h w c s t X Hn Hh Hw Hc (F & N & E & H). cbn [fst snd] in *.
    assert (Ed : tdims (as_matrix 1 t) = [n; h * w * c]).
    { rewrite tdims_as_matrix, E. cbn [firstn skipn prod]. f_equal; [lia|]. f_equal. lia. }
    split; [exact F|]. split; [apply nonneg2; nia|]. split; [exact Ed|].
    cbn [snd]. assert (D : dims_ok t) by (unfold dims_ok; rewrite E; exact N).
    eapply holds_ext; [|exact (holds_as_matrix dt s 1 t X D H)].
    intros ix Hix. rewrite Ed in Hix. apply valid_2 in Hix.
    destruct Hix as (i & a & -> & Hi & Ha). unfold flat_float, arg2. cbn [nth]. rewrite E. cbn [firstn skipn].
    rewrite expand_hwc by lia. cbn [expand prod app]. rewrite Z.div_1_r. reflexivity.
  Qed.


    (** *** Sequences of layers.  [W], [B]: the parameters by name, [A], [D]: their bounds. *)
    Context (p : string -> tensor -> M V unit) (W B : string -> tns) (A D : string -> R).

    Notation stored := (stored prec emax dt p W B A D).

    Notation rW := (fun nm => reals prec emax (W nm)).
    Notation rB := (fun nm => reals prec emax (B nm)).
    Notation csize := (chain_size prec emax A D).
    Notation cerror := (chain_error prec emax A D).
    Notation croom := (chain_room prec emax A D).

    Lemma convs_float : forall n h w b c op s x X x0 Ws m e, fresh_ok s ->
      1 <= n -> 1 <= h -> h + 3 < 2 ^ 32 -> 1 <= w -> w + 3 < 2 ^ 32 -> 1 <= c ->
      (forall c0, In c0 (c :: map fst b) -> h * w * c0 <= 2 ^ 31) ->
      (forall q, In q (conv_params c b) -> stored q) -> croom (conv_params c b) m ->
      creates dt (op x) s ([n; h; w; c], X) Ws -> good [n; h; w; c] m e X x0 ->
      exists Ws' Y, creates dt (sequential op (map (vgg_unit dt di sc Builtin p) b) x) s ([n; h; w; last_size c b], Y) Ws' /\
        good [n; h; w; last_size c b] (csize (conv_params c b) m) (cerror (conv_params c b) m e) Y (snd (convs rW rB h w c b x0)).
    Proof using All.
      intros n h w b. induction b as [|[d nm] b IH]; intros c op s x X x0 Ws m e F Hn Hh Fh Hw Fw Hc HS HQ HR Cr G.
      - exists Ws, X. split; [exact Cr|exact G].
      - cbn [conv_params chain_room p_name] in HR. destruct HR as [R1 R2].
        destruct (HQ _ (or_introl eq_refl)) as (Hd & HW & Hb & HP). cbn [p_name p_ins p_outs app] in *.
        cbn [map conv_params chain_size chain_error convs last_size fold_left fst p_name]. unfold sequential. cbn [fold_left].
        assert (C1 : creates dt (composed op (vgg_unit dt di sc Builtin p (d, nm)) x) s
          ([n; h; w; d], fun ix => relu1 sc (conv_float n h w c d (W nm) (B nm) X ix)) [([3; 3; c; d], W nm); ([d], B nm)]).
        { eapply composed_creates; [exact F| |exact Cr|]; [apply nonneg4; lia|]. intros s' y I'.
          apply (conv_run d _ _ n h w c (W nm) (B nm) s' y X); auto. apply HS. left. reflexivity. }
        pose proof (conv_step nm n h w c d (W nm) (B nm) X x0 (A nm) (D nm) m e Hn Hh Fh Hw Fw Hc ltac:(lia)
          (HS c (or_introl eq_refl)) HP R1 G) as G1.
        apply (IH d _ s x _ _ _ _ _ F Hn Hh Fh Hw Fw ltac:(lia)) with (2 := fun q Hq => HQ q (or_intror Hq)) (3 := R2) (4 := C1) (5 := G1).
        intros c0 Hc0. apply HS. right. exact Hc0.
    Qed.

    Lemma chain_size_app : forall qs rs m, csize (qs ++ rs) m = csize rs (csize qs m).
    Proof using. induction qs as [|q qs IH]; intros rs m; cbn [app chain_size]; [reflexivity|apply IH]. Qed.
    Lemma chain_error_app : forall qs rs m e, cerror (qs ++ rs) m e = cerror rs (csize qs m) (cerror qs m e).
    Proof using. induction qs as [|q qs IH]; intros rs m e; cbn [app chain_size chain_error]; [reflexivity|apply IH]. Qed.
    Lemma chain_room_app : forall qs rs m, croom (qs ++ rs) m <-> croom qs m /\ croom rs (csize qs m).
    Proof using.
      induction qs as [|q qs IH]; intros rs m; cbn [app chain_size chain_room].
      - split; [intros H; split; [exact Logic.I|exact H]|intros [_ H]; exact H].
      - rewrite IH. symmetry. apply and_assoc.
    Qed.

    Lemma convs_last : forall h w b c x0, fst (convs rW rB h w c b x0) = last_size c b.
    Proof using. intros h w b. induction b as [|[d nm] b IH]; intros c x0; cbn [convs last_size fold_left fst]; [reflexivity|apply IH]. Qed.
    Lemma hidden_last : forall hs l x0, fst (hidden rW rB l hs x0) = last_size l hs.
    Proof using. intros hs. induction hs as [|[d nm] hs IH]; intros c x0; cbn [hidden last_size fold_left fst]; [reflexivity|apply IH]. Qed.

    Lemma last_in : forall b c, In (last_size c b) (c :: map fst b).
    Proof using.
      intros b. induction b as [|[d nm] b IH]; intros c; cbn [last_size fold_left fst map]; [left; reflexivity|]. right. apply (IH d).
    Qed.
    Lemma outs_pos : forall b c, (forall q, In q (conv_params c b) -> stored q) -> forall d, In d (map fst b) -> 1 <= d.
    Proof using All.
      intros b. induction b as [|[d nm] b IH]; intros c H d0 Hd; [contradiction|]. destruct Hd as [<-|Hd].
      - destruct (H _ (or_introl eq_refl)) as ((H1 & _) & _). exact H1.
      - apply (IH d (fun q Hq => H q (or_intror Hq)) d0 Hd).
    Qed.

    Lemma all_outs_pos : forall bs c, (forall q, In q (block_params c bs) -> stored q) ->
      forall d, In d (map fst (List.concat bs)) -> 1 <= d.
    Proof using All.
      induction bs as [|b bs IH]; intros c H2 c0 Hc0; [contradiction|].
      cbn [List.concat block_params] in *. rewrite map_app in Hc0. apply in_app_or in Hc0. destruct Hc0 as [Hc0|Hc0].
      - apply (outs_pos b c (fun q Hq => H2 q (in_or_app _ _ _ (or_introl Hq))) _ Hc0).
      - apply (IH (last_size c b)); [intros q Hq; apply H2, in_or_app; right; exact Hq|exact Hc0].
    Qed.

    Lemma blocks_float : forall n bs h w c op s x X x0 Ws m e, fresh_ok s ->
      1 <= n -> 1 <= h -> h + 3 < 2 ^ 32 -> 1 <= w -> w + 3 < 2 ^ 32 -> 1 <= c ->
      (2 ^ Z.of_nat (List.length bs) | h) -> (2 ^ Z.of_nat (List.length bs) | w) ->
      (forall c0, In c0 (c :: map fst (List.concat bs)) -> h * w * c0 <= 2 ^ 31) ->
      (forall q, In q (block_params c bs) -> stored q) -> croom (block_params c bs) m ->
      creates dt (op x) s ([n; h; w; c], X) Ws -> good [n; h; w; c] m e X x0 ->
      exists Ws' h' w' c' Y y, 1 <= h' /\ 1 <= w' /\ 1 <= c' /\
        h' * w' * c' = features h w c bs /\ blocks rW rB h w c bs x0 = (h', w', c', y) /\
        creates dt (sequential op (flat_map (vgg_block dt di sc lowest Builtin p) bs) x) s ([n; h'; w'; c'], Y) Ws' /\
        good [n; h'; w'; c'] (csize (block_params c bs) m) (cerror (block_params c bs) m e) Y y.
    Proof using All.
      intros n bs. induction bs as [|b bs IH]; intros h w c op s x X x0 Ws m e F Hn Hh Fh Hw Fw Hc Dh Dw HS HQ HR Cr G.
      { exists Ws, h, w, c, X, x0. repeat (split; [assumption|]). split; [unfold features; cbn; rewrite !Z.div_1_r; reflexivity|].
        split; [reflexivity|]. split; [exact Cr|exact G]. }
      cbn [block_params] in HQ, HR. rewrite chain_room_app in HR. destruct HR as [R1 R2].
      cbn [List.concat] in HS. rewrite map_app in HS.
      destruct (convs_float n h w b c op s x X x0 Ws m e) as (Ws1 & Y1 & C1 & G1); auto.
      { intros c0 [<-|Hc0]; apply HS; [left; reflexivity|right; apply in_or_app; left; exact Hc0]. }
      { intros q Hq. apply HQ, in_or_app. left. exact Hq. }
      assert (Hd : 1 <= last_size c b).
      { destruct (last_in b c) as [Q|Q]; [rewrite <- Q; exact Hc|].
        apply (outs_pos b c (fun q Hq => HQ q (in_or_app _ _ _ (or_introl Hq))) _ Q). }
      cbn [flat_map vgg_block]. unfold vgg_block at 1. rewrite <- app_assoc. cbn [app].
      rewrite seq_app. set (op1 := sequential op (map (vgg_unit dt di sc Builtin p) b)) in *.
      unfold sequential. cbn [fold_left].
      replace (Z.of_nat (List.length (b :: bs))) with (Z.of_nat (List.length bs) + 1) in Dh, Dw by (cbn [List.length]; lia).
      rewrite Z.pow_add_r, Z.pow_1_r in Dh, Dw by lia.
      assert (K : forall q a, 1 <= a -> (q * 2 | a) -> a mod 2 = 0 /\ a = 2 * (a / 2) /\ 1 <= a / 2 /\ (q | a / 2)).
      { intros q a Ha [z Hz]. assert (E : a = z * q * 2) by lia. assert (E2 : a mod 2 = 0) by (rewrite E; apply Z.mod_mul; lia).
        pose proof (Z.div_mod a 2 ltac:(lia)). split; [exact E2|]. split; [lia|]. split; [lia|]. exists z. lia. }
      destruct (K _ h Hh Dh) as (Eh & Eh2 & Ph & Dh2). destruct (K _ w Hw Dw) as (Ew & Ew2 & Pw & Dw2).
      assert (C2 : creates dt (composed op1 (vgg_pool dt sc lowest) x) s ([n; h / 2; w / 2; last_size c b], pool_float Y1) []).
      { eapply composed_creates; [exact F| |exact C1|]; [apply nonneg4; lia|]. intros s' y I'. apply pool_run; auto. }
      pose proof (pool_step n h w (last_size c b) Y1 _ _ _ Eh Ew G1) as G2.
      assert (HS2 : forall c0, In c0 (last_size c b :: map fst (List.concat bs)) -> h / 2 * (w / 2) * c0 <= 2 ^ 31).
      { intros c0 Hc0. assert (B0 : 1 <= c0 /\ h * w * c0 <= 2 ^ 31).
        { assert (J : In c0 (c :: map fst b) \/ In c0 (map fst (List.concat bs))).
          { destruct Hc0 as [<-|Hc0]; [left; apply last_in|right; exact Hc0]. }
          split; [|apply HS; destruct J as [[<-|J]|J]; [left; reflexivity|right; apply in_or_app; left; exact J|right; apply in_or_app; right; exact J]].
          destruct Hc0 as [<-|Hc0]; [exact Hd|].
          exact (all_outs_pos bs (last_size c b) (fun q Hq => HQ q (in_or_app _ _ _ (or_intror Hq))) c0 Hc0). }
        destruct B0 as [B1 B2]. assert (h / 2 * (w / 2) <= h * w) by nia. nia. }
      destruct (IH (h / 2) (w / 2) (last_size c b) (composed op1 (vgg_pool dt sc lowest)) s x _ _ _ _ _ F Hn Ph ltac:(lia) Pw ltac:(lia) Hd Dh2 Dw2
        HS2 (fun q Hq => HQ q (in_or_app _ _ _ (or_intror Hq))) R2 C2 G2)
        as (Ws' & h' & w' & c' & Y & y & Ph' & Pw' & Pc' & Ef & EB & Cr' & G').
      exists Ws', h', w', c', Y, y. split; [exact Ph'|]. split; [exact Pw'|]. split; [exact Pc'|]. split; [|split; [|split]].
      - rewrite Ef. unfold features. cbn [List.length fold_left]. rewrite Nat2Z.inj_succ, Z.pow_succ_r by lia.
        assert (0 < 2 ^ Z.of_nat (List.length bs)) by (apply Z.pow_pos_nonneg; lia). rewrite !Zdiv_Zdiv by lia. reflexivity.
      - cbn [blocks]. destruct (convs rW rB h w c b x0) as [d Y0] eqn:EC. pose proof (convs_last h w b c x0) as El. rewrite EC in El.
        cbn [fst] in El. subst d. exact EB.
      - exact Cr'.
      - cbn [block_params]. rewrite chain_size_app, chain_error_app. exact G'.
    Qed.

    Lemma hidden_float : forall n hs l op s x X x0 Ws m e, fresh_ok s -> 1 <= n -> 1 <= l ->
      (forall q, In q (hidden_params l hs) -> stored q) -> croom (hidden_params l hs) m ->
      creates dt (op x) s ([n; l], X) Ws -> good [n; l] m e X x0 ->
      1 <= last_size l hs /\
      exists Ws' Y, creates dt (sequential op (map (vgg_hidden dt sc Builtin p) hs) x) s ([n; last_size l hs], Y) Ws' /\
        good [n; last_size l hs] (csize (hidden_params l hs) m) (cerror (hidden_params l hs) m e) Y (snd (hidden rW rB l hs x0)).
    Proof using All.
      intros n hs. induction hs as [|[d nm] hs IH]; intros l op s x X x0 Ws m e F Hn Hl HQ HR Cr G.
      - split; [exact Hl|]. exists Ws, X. split; [exact Cr|exact G].
      - cbn [hidden_params chain_room p_name] in HR. destruct HR as [R1 R2].
        destruct (HQ _ (or_introl eq_refl)) as (Hd & HW & Hb & HP). cbn [p_name p_ins p_outs app] in *.
        cbn [map hidden_params chain_size chain_error hidden last_size fold_left fst p_name]. unfold sequential. cbn [fold_left].
        assert (C1 : creates dt (composed op (vgg_hidden dt sc Builtin p (d, nm)) x) s
          ([n; d], fun ix => relu1 sc (dense_float n l d (W nm) (B nm) X ix)) [([l; d], W nm); ([d], B nm)]).
        { eapply composed_creates; [exact F| |exact Cr|]; [apply nonneg2; lia|]. intros s' y I'.
          apply (dense_relu_run d _ _ n l (W nm) (B nm) s' y X); auto. }
        pose proof (dense_step nm n l d (W nm) (B nm) X x0 (A nm) (D nm) m e Hn Hl ltac:(lia) HP R1 G) as G1.
        apply relu_step in G1; [|apply nonneg2; lia|exact R1].
        exact (IH d _ s x _ _ _ _ _ F Hn ltac:(lia) (fun q Hq => HQ q (or_intror Hq)) R2 C1 G1).
    Qed.

    Lemma dense_float_run : forall d n l hs k s x X x0 m e, 1 <= n -> 1 <= l ->
      let qs := hidden_params l hs ++ [mkparams (snd k) [last_size l hs] (fst k)] in
      (forall q, In q qs -> stored q) -> croom qs m ->
      room prec emax d exp_ (LSoftmax n (fst k)) (/ 2) 0 (csize qs m) ->
      input dt s x ([n; l], X) -> good [n; l] m e X x0 ->
      let (q, Y) := hidden rW rB l hs x0 in
      exists Z, creates dt (dense_layers dt sc exp_ eps Builtin p hs k x) s ([n; fst k], Z) [] /\
        good [n; fst k] (1 + rounding prec emax d (LSoftmax n (fst k)) (/ 2) 0 (csize qs m))
          (/ 2 * cerror qs m e + rounding prec emax d (LSoftmax n (fst k)) (/ 2) 0 (csize qs m)) Z
          (arg2 (fun i => softmax_fn (B2R eps) (fst k) (fun j => affine q (rW (snd k)) (rB (snd k)) Y [i; j]))).
    Proof using All.
      intros d n l hs k s x X x0 m e Hn Hl qs HQ HR HS I G. unfold qs in HR. rewrite chain_room_app in HR. destruct HR as [R1 R2].
      pose proof I as (F & _). unfold dense_layers.
      destruct (hidden_float n hs l (identity_layer dt) s x X x0 [] m e F Hn Hl
        (fun q Hq => HQ q (in_or_app _ _ _ (or_introl Hq))) R1 (C72_identity dt [n; l] s x X I) G) as (Pl & Ws' & Y' & Cr & G1).
      pose proof (hidden_last hs l x0) as El. destruct (hidden rW rB l hs x0) as [q Y] eqn:E. cbn [fst snd] in El, G1. subst q.
      destruct (HQ (mkparams (snd k) [last_size l hs] (fst k)) ltac:(apply in_or_app; right; left; reflexivity)) as (Hk & HW & HB & HP).
      cbn [p_name p_ins p_outs app chain_room] in *. destruct R2 as [R2 _].
      pose proof (dense_step (snd k) n (last_size l hs) (fst k) (W (snd k)) (B (snd k)) Y' Y (A (snd k)) (D (snd k)) _ _ Hn Pl ltac:(lia) HP R2 G1) as G2.
      set (S := dense_float n (last_size l hs) (fst k) (W (snd k)) (B (snd k)) Y') in *.
      exists (layer_float prec emax exp_ eps (LSoftmax n (fst k)) S S). split.
      - rewrite seq_app. unfold sequential at 1. cbn [fold_left].
        assert (C2 : creates dt (composed (sequential (identity_layer dt) (map (vgg_hidden dt sc Builtin p) hs))
                       (with_init (vgg_dense dt sc Builtin (fst k)) (p (snd k ++ "_W")%string) (p (snd k ++ "_b")%string)) x) s
                       ([n; fst k], S) [([last_size l hs; fst k], W (snd k)); ([fst k], B (snd k))]).
        { eapply composed_creates; [exact F| |exact Cr|]; [apply nonneg2; lia|]. intros s' y I'. apply dense_run; auto. }
        eapply composed_creates; [exact F| |exact C2|]; [apply nonneg2; lia|]. intros s' y I'. apply softmax_run; [lia|lia|exact I'].
      - unfold qs in HS |- *. rewrite chain_size_app in HS. rewrite chain_size_app, chain_error_app.
        cbn [chain_size chain_error p_name] in HS |- *.
        eapply good_ext.
        + apply (layer_step d (LSoftmax n (fst k)) S S _ (/ 2) 0 _ _ ltac:(cbn; lia) G2); [|cbn; lra|exact HS].
          split; [|exact Logic.I]. intros ix Hix. cbn in Hix. destruct ix as [|? [|? ?]]; cbn in Hix; lia.
        + intros ix Hix. reflexivity.
    Qed.
  End Run.
End Float.
