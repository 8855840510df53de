(** Proofs about rounding in networks. *)
From Coq Require Import ZArith List Bool Lia Reals Lra.
From Coquelicot Require Import Coquelicot.
From Flocq Require Import Core BinarySingleNaN.
From Verif Require Import Base BaseFacts Traits TraitsSpec Scalar RealScalar SumFacts TensorFacts LinAlg LinAlgFacts Shapes Conv
  ConvSpec ConvFacts Elem ElemSpec Activation ActivationSpec ActivationFacts SoftmaxFacts Pool Reshape Backprop BackpropSpec
  Utility Float FloatSpec FloatFacts FloatNan FloatSumSpec FloatSumFacts FloatSoftSpec FloatSoftFacts PredictSpec PredictFacts
  PropsLinAlg PropsElem PropsNorm PropsConv PropsReshape
  ConvGradFacts BackpropFacts BackpropRun StableSpec StableFacts NetFloatSpec.
Import ListNotations.
Open Scope Z_scope.
Open Scope model_scope.

Section NetFloat.
  Context (prec emax : Z) {Hprec : Prec_gt_0 prec} {Hmax : Prec_lt_emax prec emax}.
  Notation sc := (Fsc prec emax).
  Notation flt := (binary_float prec emax).
  Notation u := (unit_roundoff prec).
  Notation eta := (half_tiny prec emax).
  Notation tns := (list Z -> flt).
  Context (exp_ : flt -> flt) (eps : flt).

  (** What a layer computes. *)
  Definition layer_float (L : layer) (P X : tns) : tns :=
    match L with
    | LAdd _ => fun ix => Bplus mode_NE (X ix) (P ix)
    | LMul _ => fun ix => Bmult mode_NE (X ix) (P ix)
    | LMatmul _ _ l _ => arg2 (fun i j => sum_over sc (zrange l) (fun k => smul sc (X [i; k]) (P [k; j])))
    | LBias _ _ => arg2 (fun i j => Bplus mode_NE (X [i; j]) (P [j]))
    | LBiasImg _ _ _ _ => arg4 (fun l i j c => Bplus mode_NE (X [l; i; j; c]) (P [c]))
    | LConv _ C _ h w c r s _ _ _ =>
        conv_spec_nhwc sc (axis_of (h_trait C) r) (axis_of (w_trait C) s) h w r s c X P
    | LRelu _ => fun ix => relu1 sc (X ix)
    | LSoftmax _ n => arg2 (fun i j => smax sc eps (Bdiv mode_NE Bone (soft_tot sc exp_ n (fun k => X [i; k]) j)))
    | LFlatten rs ds => fun ix => X (expand ds (offset (flatten_shape rs ds) ix))
    end.

  Lemma forward_float {V} (dt : dtype V flt) (di : dtype V Z) : forall L z x p P X s, layer_ok L -> builtin L ->
    tdims z = out_shape L -> tdims x = in_shape L -> tdims p = par_shape L ->
    fresh_ok s -> holds dt s x X -> holds dt s p P -> mapped s z -> disjoint z x -> disjoint z p ->
    writes dt (forward dt di sc exp_ eps L z x p) s z (layer_float L P X).
  Proof.
    intros L z x p P X s Hok Hb Ez Ex Ep Hf HX HP HZ D1 D2.
    destruct (layer_nonneg L Hok) as (Ni & No & Np).
    assert (Dz : dims_ok z) by (unfold dims_ok; rewrite Ez; exact No).
    assert (Dx : dims_ok x) by (unfold dims_ok; rewrite Ex; exact Ni).
    destruct L as [ds|ds|e m l n|m n|n h w c|e C n h w c r t d h' w'|ds|m n|rs ds];
      cbn [forward layer_float out_shape in_shape par_shape layer_ok builtin] in *.
    - apply (C27_add dt sc z x p X P s); auto; try congruence; left; auto.
    - apply (C27_mul dt sc z x p X P s); auto; try congruence; left; auto.
    - subst e. destruct (sizes3 _ _ _ _ Hok) as (Hm & Hl & Hn).
      apply (C26_matmul dt sc Builtin z x p m l n X P s); auto. exact I.
    - eapply writes_ext; [reflexivity| |apply (C30_add_bias dt sc hw 2 1 z x p n X P s); auto].
      + intros ix Hix. rewrite Ez in Hix. apply valid_2 in Hix. destruct Hix as (i & j & -> & _). reflexivity.
      + left; auto.
      + rewrite Ez; reflexivity.
      + congruence.
      + rewrite Ez; reflexivity.
      + left; auto.
    - eapply writes_ext; [reflexivity| |apply (C30_add_bias dt sc nhwc 4 3 z x p c X P s); auto].
      + intros ix Hix. rewrite Ez in Hix. apply valid_4 in Hix. destruct Hix as (i & j & k & t & -> & _). reflexivity.
      + right; left; auto.
      + rewrite Ez; reflexivity.
      + congruence.
      + rewrite Ez; reflexivity.
      + left; auto.
    - subst e. destruct Hok as (A1 & A2 & A3 & A4). destruct (sizes3 _ _ _ _ A3) as (Hn & Hc & Hd).
      apply (C16_conv_nhwc dt di sc Builtin C z x p n h w c r t d h' w' X P s); auto. exact I.
    - apply (C28_relu dt sc z x X s); auto; try congruence; left; auto.
    - eapply writes_ext; [reflexivity| |apply (op_softmax_writes dt sc exp_ eps z x [m] n X (Bdiv mode_NE Bone) s); auto].
      intros ix Hix. rewrite Ez in Hix. apply valid_2 in Hix. destruct Hix as (i & j & -> & _). reflexivity.
    - destruct Hok as [_ Hc]. rewrite <- Ez, <- Ex. apply (C67_value dt rs z x X s); auto.
      + unfold covers. rewrite Ex. exact Hc.
      + unfold copy_flatten_shape. rewrite Ex, Ez. reflexivity.
  Qed.

  Lemma bound_le : forall n T T', (0 <= T <= T')%R -> (dot_bound prec emax n T <= dot_bound prec emax n T')%R.
  Proof.
    intros n T T' H. unfold dot_bound. pose proof (pow_ge1 prec n). apply Rplus_le_compat_r. apply Rmult_le_compat_l; lra.
  Qed.

  (** A sum of products of numbers of at most [m] with weights of sum [a]. *)
  Lemma dot_layer : forall {A} (l : list A) (f g : A -> flt) a m, (0 <= m)%R ->
    (forall k, In k l -> is_finite (f k) = true /\ is_finite (g k) = true /\ (Rabs (B2R (f k)) <= m)%R) ->
    (sum_over Rsc l (fun k => Rabs (B2R (g k))) <= a)%R ->
    (a * m + dot_bound prec emax (length l) (a * m) < bpow radix2 emax)%R ->
    let v := sum_over sc l (fun k => smul sc (f k) (g k)) in
    let r := sum_over Rsc l (fun k => B2R (f k) * B2R (g k))%R in
    is_finite v = true /\ (Rabs (B2R v - r) <= dot_bound prec emax (length l) (a * m))%R /\ (Rabs r <= a * m)%R.
  Proof.
    intros A l f g a m Hm H Ha HO v r.
    assert (HT : (sum_over Rsc l (fun k => Rabs (B2R (f k) * B2R (g k))) <= a * m)%R).
    { eapply Rle_trans; [apply (list_sum_le l _ (fun k => m * Rabs (B2R (g k)))%R)|].
      - intros k Hk. destruct (H k Hk) as (_ & _ & B). rewrite Rabs_mult. apply Rmult_le_compat_r; [apply Rabs_pos|exact B].
      - rewrite (sumR_scale l m (fun k => Rabs (B2R (g k)))), Rmult_comm. apply Rmult_le_compat_r; auto. }
    assert (H0 : (0 <= sum_over Rsc l (fun k => Rabs (B2R (f k) * B2R (g k))))%R) by (apply sumR_nonneg; intros; apply Rabs_pos).
    pose proof (bound_le (length l) _ _ (conj H0 HT)) as HB.
    destruct (dot_approx prec emax l f g) as (F & E).
    - intros k Hk. destruct (H k Hk) as (A1 & A2 & _). auto.
    - unfold no_overflow. lra.
    - split; [exact F|]. split; [unfold v, r; lra|].
      unfold r. eapply Rle_trans; [apply list_sum_abs|exact HT].
  Qed.

  Lemma soft_sides : forall d m n, (0 <= m)%R -> (0 <= d < 1)%R -> ((1 + u) ^ Nat.pred n < 2)%R ->
    (0 < soft_lo prec d (2 * m) n)%R /\ (soft_lo prec d (2 * m) n <= 1)%R /\ (1 <= soft_hi prec d (2 * m) n)%R.
  Proof.
    intros d m n Hm Hd H2. assert (Pu := u_pos prec). assert (Q1 := pow_ge1 prec (Nat.pred n)).
    unfold soft_lo, soft_hi. assert (PB : (0 <= u * (2 * m))%R) by (apply Rmult_le_pos; lra).
    assert (X1 : (exp (- (u * (2 * m))) <= 1)%R) by (rewrite <- exp_0; apply exp_le; lra).
    assert (X2 : (1 <= exp (u * (2 * m)))%R) by (rewrite <- exp_0; apply exp_le; lra).
    assert (X0 := exp_pos (- (u * (2 * m)))).
    assert (X3 : (0 < (1 - d) * exp (- (u * (2 * m))) <= 1)%R) by (split; [apply Rmult_lt_0_compat; lra|nra]).
    assert (X4 : (1 <= (1 + d) * exp (u * (2 * m)))%R) by nra.
    split; [apply Rmult_lt_0_compat; lra|]. split; nra.
  Qed.

  Lemma soft_entry_float : forall d n (x : Z -> flt) m i, (0 <= m)%R -> is_finite eps = true -> 0 <= i < n ->
    (forall j, 0 <= j < n -> is_finite (x j) = true /\ (Rabs (B2R (x j)) <= m)%R) ->
    (0 <= d < 1)%R -> exp_acc prec emax d ((1 + u) * (2 * m)) exp_ -> in_range prec emax (2 * m) ->
    ((1 + u) ^ Nat.pred (Z.to_nat n) < 2)%R ->
    (soft_hi prec d (2 * m) (Z.to_nat n) * (IZR n * exp (2 * m)) < bpow radix2 emax)%R ->
    ((1 + u) / soft_lo prec d (2 * m) (Z.to_nat n) + eta < bpow radix2 emax)%R ->
    let v := smax sc eps (Bdiv mode_NE Bone (soft_tot sc exp_ n x i)) in
    let r := softmax_fn (B2R eps) n (fun k => B2R (x k)) i in
    is_finite v = true /\
    (Rabs (B2R v - r) <= (1 + u) / soft_lo prec d (2 * m) (Z.to_nat n) - (1 - u) / soft_hi prec d (2 * m) (Z.to_nat n) + eta)%R /\
    (B2R eps <= 1 -> Rabs r <= 1)%R.
  Proof.
    intros d n x m i Hm Fe Hi Hx Hd EA HR H2 HO HL v r.
    set (B := (2 * m)%R) in *. assert (HB : (0 <= B)%R) by (unfold B; lra).
    set (hi := soft_hi prec d B (Z.to_nat n)) in *. set (lo := soft_lo prec d B (Z.to_nat n)) in *.
    set (E := rsum n (fun j => exp (B2R (x j) - B2R (x i)))%R).
    assert (HD : forall j, 0 <= j < n -> (Rabs (B2R (x j) - B2R (x i)) <= B)%R).
    { intros j Hj. destruct (Hx j Hj) as [_ B1]. destruct (Hx i Hi) as [_ B2].
      apply Rabs_le_2 in B1. apply Rabs_le_2 in B2. apply Rabs_le_2. unfold B. lra. }
    assert (Ep : (exp (B2R (x i)) / rsum n (fun k => exp (B2R (x k))) = / E)%R).
    { unfold E, rsum.
      rewrite (sumR_ext (zrange n) (fun j => exp (B2R (x j) - B2R (x i)))%R (fun j => / exp (B2R (x i)) * exp (B2R (x j)))%R).
      - rewrite sumR_scale, Rinv_mult, Rinv_inv. reflexivity.
      - intros j _. unfold Rminus. rewrite exp_plus, exp_Ropp. ring. }
    assert (E1 : (1 <= E)%R).
    { unfold E, rsum. rewrite <- exp_0. replace 0%R with (B2R (x i) - B2R (x i))%R at 1 by ring.
      apply (sumR_pick (zrange n) (fun j => exp (B2R (x j) - B2R (x i)))%R i); [apply in_zrange; auto|].
      intros. apply Rlt_le, exp_pos. }
    assert (E2 : (E <= IZR n * exp B)%R).
    { unfold E, rsum. replace (IZR n) with (INR (length (zrange n))).
      - rewrite <- (sumR_const (zrange n) (exp B)). apply sumR_le. intros j Hj. apply in_zrange in Hj.
        apply exp_le. specialize (HD j Hj). apply Rabs_le_2 in HD. lra.
      - rewrite length_zrange, INR_IZR_INZ, Z2Nat.id by lia. reflexivity. }
    assert (Pu := u_pos prec). assert (Pe := eta_pos prec emax).
    assert (Q1 := pow_ge1 prec (Nat.pred (Z.to_nat n))).
    destruct (soft_sides d m (Z.to_nat n) Hm Hd H2) as (Plo & L1 & L2). fold B in Plo, L1, L2. fold lo in Plo, L1. fold hi in L2.
    destruct (soft_sum prec emax exp_ d B Hd HB EA (zrange n) x (x i)) as (Fs & Bs); auto.
    - intros j Hj. apply in_zrange in Hj. split; [apply Hx; auto|apply HD; auto].
    - apply Hx; auto.
    - rewrite length_zrange. fold hi. eapply Rle_lt_trans; [|exact HO]. apply Rmult_le_compat_l; auto. lra.
    - rewrite length_zrange. exact H2.
    - rewrite length_zrange in Bs. fold hi lo in Bs.
      change (sum_over Rsc (zrange n) (fun a => exp (B2R (x a) - B2R (x i)))%R) with E in Bs.
      destruct (soft_quot prec emax _ lo hi E Fs Plo E1 Bs HL) as (Fq & Bq).
      change (sum_over sc (zrange n) (fun a => exp_ (Bminus mode_NE (x a) (x i)))) with (soft_tot sc exp_ n x i) in *.
      set (q := Bdiv mode_NE Bone (soft_tot sc exp_ n x i)) in *.
      destruct (smax_val prec emax eps q Fe Fq) as (Fm & Em).
      change v with (if Bltb eps q then q else eps).
      assert (P1 : (0 < / E)%R) by (apply Rinv_0_lt_compat; lra).
      assert (P2 : (/ E <= 1)%R) by (rewrite <- Rinv_1; apply Rinv_le_contravar; lra).
      unfold r, softmax_fn. rewrite Ep.
      split; [exact Fm|]. split.
      + rewrite Em.
        assert (K1 : (1 <= (1 + u) / lo)%R) by (apply Rle_div_r; lra).
        assert (K2 : ((1 - u) / hi <= 1)%R) by (apply Rle_div_l; lra).
        assert (K : (Rabs (B2R q - / E) <= (1 + u) / lo - (1 - u) / hi + eta)%R).
        { apply Rabs_le_2. destruct Bq as [Bq1 Bq2].
          assert (((1 + u) / lo - 1) * / E <= (1 + u) / lo - 1)%R by nra.
          assert ((1 - (1 - u) / hi) * / E <= 1 - (1 - u) / hi)%R by nra. lra. }
        apply Rabs_le_2 in K. apply Rabs_le_2. unfold Rmax. destruct (Rle_dec (B2R eps) (B2R q)), (Rle_dec (B2R eps) (/ E)); lra.
      + intros Le. apply Rabs_le_2. unfold Rmax. destruct (Rle_dec (B2R eps) (/ E)); lra.
  Qed.

  (** The roundings of one layer, its input being taken as it is. *)
  Lemma layer_rounding : forall d L P X a b m, layer_ok L -> (0 <= m)%R -> is_finite eps = true -> (B2R eps <= 1)%R ->
    finite_on prec emax (in_shape L) X -> bounded (in_shape L) m (reals prec emax X) ->
    weights_ok prec emax L P b -> gain L (reals prec emax P) a -> room prec emax d exp_ L a b m ->
    finite_on prec emax (out_shape L) (layer_float L P X) /\
    close (out_shape L) (rounding prec emax d L a b m) (reals prec emax (layer_float L P X))
      (layer_fn (B2R eps) L (reals prec emax P) (reals prec emax X)) /\
    bounded (out_shape L) (reach L a b m) (layer_fn (B2R eps) L (reals prec emax P) (reals prec emax X)).
  Proof.
    intros d L P X a b m Hok Hm Fe He FX BX [FP WP] G [RO RS].
    assert (Pu := u_pos prec). assert (Pe := eta_pos prec emax).
    assert (ADD : forall x p : flt, is_finite x = true -> is_finite p = true -> (Rabs (B2R x) <= m)%R -> (Rabs (B2R p) <= b)%R ->
      (m + b + u * (m + b) + eta < bpow radix2 emax)%R ->
      is_finite (Bplus mode_NE x p) = true /\ (Rabs (B2R (Bplus mode_NE x p) - (B2R x + B2R p)) <= u * (m + b))%R /\
      (Rabs (B2R x + B2R p) <= m + b)%R).
    { intros x p Fx Fp Bx Bp O.
      assert (Q : (Rabs (B2R x + B2R p) <= m + b)%R) by (eapply Rle_trans; [apply Rabs_triang|]; lra).
      destruct (add_within prec emax x p Fx Fp) as (F & E).
      { unfold in_range. assert ((1 + u) * Rabs (B2R x + B2R p) <= (1 + u) * (m + b))%R by (apply Rmult_le_compat_l; lra). lra. }
      split; [exact F|]. split; [|exact Q]. eapply Rle_trans; [exact E|]. apply Rmult_le_compat_l; lra. }
    unfold finite_on, close, bounded, reals in *.
    destruct L as [ds|ds|e q l n|q n|n h w c|e C n h w c r t k h' w'|ds|q n|rs ds];
      cbn [layer_float layer_fn out_shape in_shape par_shape layer_ok rounding reach gain] in *.
    - destruct WP as [Hb BP].
      assert (H : forall ix, valid ds ix -> is_finite (Bplus mode_NE (X ix) (P ix)) = true /\
        (Rabs (B2R (Bplus mode_NE (X ix) (P ix)) - (B2R (X ix) + B2R (P ix))) <= u * (m + b))%R /\
        (Rabs (B2R (X ix) + B2R (P ix)) <= m + b)%R).
      { intros ix Hv. apply ADD; auto. }
      split; [|split]; intros ix Hv; apply H; auto.
    - destruct G as [Ha Gp].
      assert (H : forall ix, valid ds ix -> is_finite (Bmult mode_NE (X ix) (P ix)) = true /\
        (Rabs (B2R (Bmult mode_NE (X ix) (P ix)) - (B2R (X ix) * B2R (P ix))) <= u * (a * m) + eta)%R /\
        (Rabs (B2R (X ix) * B2R (P ix)) <= a * m)%R).
      { intros ix Hv. pose proof (FX ix Hv) as F1. pose proof (FP ix Hv) as F2. pose proof (BX ix Hv) as B1. pose proof (Gp ix Hv) as B2.
        cbv beta in B2.
        assert (Q : (Rabs (B2R (X ix) * B2R (P ix)) <= a * m)%R).
        { rewrite Rabs_mult, (Rmult_comm a). apply Rmult_le_compat; auto using Rabs_pos. }
        destruct (mul_within prec emax (X ix) (P ix) F1 F2) as (F & E).
        { unfold in_range. assert ((1 + u) * Rabs (B2R (X ix) * B2R (P ix)) <= (1 + u) * (a * m))%R by (apply Rmult_le_compat_l; lra). lra. }
        split; [exact F|]. split; [|exact Q]. eapply Rle_trans; [exact E|]. apply Rplus_le_compat_r. apply Rmult_le_compat_l; lra. }
      split; [|split]; intros ix Hv; apply H; auto.
    - destruct G as [Ha G]. destruct (sizes3 _ _ _ _ Hok) as (_ & Hl & _).
      assert (H : forall i j, 0 <= i < q -> 0 <= j < n ->
        let v := sum_over sc (zrange l) (fun k => smul sc (X [i; k]) (P [k; j])) in
        let r := rsum l (fun k => B2R (X [i; k]) * B2R (P [k; j]))%R in
        is_finite v = true /\ (Rabs (B2R v - r) <= dot_bound prec emax (Z.to_nat l) (a * m))%R /\ (Rabs r <= a * m)%R).
      { intros i j Hi Hj v r. rewrite <- (length_zrange l). apply (dot_layer (zrange l) (fun k => X [i; k]) (fun k => P [k; j])); auto.
        - intros k Hk. apply in_zrange in Hk. repeat split; [apply FX|apply FP|apply BX]; cbn; lia.
        - apply G; auto.
        - rewrite length_zrange. lra. }
      split; [|split]; intros ix Hv; apply valid_2 in Hv; destruct Hv as (i & j & -> & Hi & Hj); cbn [arg2]; apply H; auto.
    - destruct WP as [Hb BP].
      assert (H : forall i j, 0 <= i < q -> 0 <= j < n -> is_finite (Bplus mode_NE (X [i; j]) (P [j])) = true /\
        (Rabs (B2R (Bplus mode_NE (X [i; j]) (P [j])) - (B2R (X [i; j]) + B2R (P [j]))) <= u * (m + b))%R /\
        (Rabs (B2R (X [i; j]) + B2R (P [j])) <= m + b)%R).
      { intros i j Hi Hj. apply ADD; auto; [apply FX|apply FP|apply BX|apply BP]; cbn; lia. }
      split; [|split]; intros ix Hv; apply valid_2 in Hv; destruct Hv as (i & j & -> & Hi & Hj); cbn [arg2]; apply H; auto.
    - destruct WP as [Hb BP].
      assert (H : forall l i j k, 0 <= l < n -> 0 <= i < h -> 0 <= j < w -> 0 <= k < c ->
        is_finite (Bplus mode_NE (X [l; i; j; k]) (P [k])) = true /\
        (Rabs (B2R (Bplus mode_NE (X [l; i; j; k]) (P [k])) - (B2R (X [l; i; j; k]) + B2R (P [k]))) <= u * (m + b))%R /\
        (Rabs (B2R (X [l; i; j; k]) + B2R (P [k])) <= m + b)%R).
      { intros l i j k Hl Hi Hj Hk. apply ADD; auto; [apply FX|apply FP|apply BX|apply BP]; cbn; lia. }
      split; [|split]; intros ix Hv; apply valid_4 in Hv; destruct Hv as (l & i & j & k & -> & Hl & Hi & Hj & Hk); cbn [arg4]; apply H; auto.
    - destruct G as [Ha G]. destruct Hok as (A1 & A2 & A3 & A4). destruct (sizes3 _ _ _ _ A3) as (_ & Hc & _).
      set (H_ := axis_of (h_trait C) r) in *. set (W_ := axis_of (w_trait C) t) in *.
      assert (Hr : 0 <= r) by (destruct A1 as [Q _]; unfold H_ in Q; cbn in Q; lia).
      assert (Ht : 0 <= t) by (destruct A2 as [Q _]; unfold W_ in Q; cbn in Q; lia).
      assert (LI : length (indices [r; t; c]) = Z.to_nat (r * t * c)).
      { pose proof (length_indices [r; t; c] ltac:(repeat constructor; lia)) as Q. cbn [prod] in Q. lia. }
      assert (H : forall l i j o, 0 <= l < n -> 0 <= o < k ->
        let v := conv_spec_nhwc sc H_ W_ h w r t c X P [l; i; j; o] in
        let y := conv_spec_nhwc Rsc H_ W_ h w r t c (fun ix => B2R (X ix)) (fun ix => B2R (P ix)) [l; i; j; o] in
        is_finite v = true /\ (Rabs (B2R v - y) <= dot_bound prec emax (Z.to_nat (r * t * c)) (a * m))%R /\ (Rabs y <= a * m)%R).
      { intros l i j o Hl Ho v y.
        set (f := arg3 (fun p q k => zpad (B754_zero false) h w (fun p q => X [l; p; q; k]) (wpos H_ i p) (wpos W_ j q)) : list Z -> flt).
        set (g := arg3 (fun p q k => P [p; q; k; o]) : list Z -> flt).
        assert (Ev : v = sum_over sc (indices [r; t; c]) (fun z => smul sc (f z) (g z))).
        { unfold v, conv_spec_nhwc. cbn [arg4]. apply sum_over_ext. intros z Hz. apply in_indices, valid_3 in Hz.
          destruct Hz as (p & q & s & -> & _). reflexivity. }
        assert (Ey : y = sum_over Rsc (indices [r; t; c]) (fun z => B2R (f z) * B2R (g z))%R).
        { unfold y, conv_spec_nhwc. cbn [arg4]. apply sum_over_ext. intros z Hz. apply in_indices, valid_3 in Hz.
          destruct Hz as (p & q & s & -> & _). unfold f, g, arg3, arg4, zpad; cbn [nth smul Rsc].
          destruct (inb h (wpos H_ i p) && inb w (wpos W_ j q)); cbn [s0 Rsc B2R]; reflexivity. }
        rewrite Ev, Ey, <- LI. apply dot_layer; auto.
        - intros z Hz. apply in_indices, valid_3 in Hz. destruct Hz as (p & q & s & -> & Hp & Hq & Hs). unfold f, g, arg3; cbn [nth].
          assert (Z0 : is_finite (zpad (B754_zero false) h w (fun p q => X [l; p; q; s]) (wpos H_ i p) (wpos W_ j q)) = true /\
            (Rabs (B2R (zpad (B754_zero false) h w (fun p q => X [l; p; q; s]) (wpos H_ i p) (wpos W_ j q))) <= m)%R).
          { unfold zpad, inb. destruct (andb _ _) eqn:Q.
            - split; [apply FX|apply BX]; cbn; lia.
            - split; [reflexivity|]. cbn. rewrite Rabs_R0. exact Hm. }
          destruct Z0. repeat split; auto. apply FP. cbn; lia.
        - eapply Rle_trans; [|apply (G o Ho)]. apply Req_le. apply sum_over_ext. intros z Hz. apply in_indices, valid_3 in Hz.
          destruct Hz as (p & q & s & -> & _). reflexivity.
        - rewrite LI. lra. }
      split; [|split]; intros ix Hv; apply valid_4 in Hv; destruct Hv as (l & i & j & o & -> & Hl & Hi & Hj & Ho); apply H; auto.
    - assert (H : forall ix, valid ds ix -> is_finite (relu1 sc (X ix)) = true /\ B2R (relu1 sc (X ix)) = Rmax (B2R (X ix)) 0).
      { intros ix Hv. destruct (smax_val prec emax (B754_zero false) (X ix)) as [F E]; [reflexivity|apply FX; auto|].
        unfold relu1; cbn [sltb s0 Fsc]. split; [exact F|]. rewrite E, Rmax_comm. reflexivity. }
      split; [|split]; intros ix Hv; destruct (H ix Hv) as [F E]; auto.
      + rewrite E, Rminus_eq_0, Rabs_R0. lra.
      + specialize (BX ix Hv). apply Rabs_le_2 in BX. apply Rabs_le_2. unfold Rmax. destruct (Rle_dec (B2R (X ix)) 0); lra.
    - destruct RS as (Hd & EA & HR & H2 & HO & HL).
      assert (H : forall i j, 0 <= i < q -> 0 <= j < n ->
        let v := smax sc eps (Bdiv mode_NE Bone (soft_tot sc exp_ n (fun k => X [i; k]) j)) in
        let r := softmax_fn (B2R eps) n (fun k => B2R (X [i; k])) j in
        is_finite v = true /\
        (Rabs (B2R v - r) <= (1 + u) / soft_lo prec d (2 * m) (Z.to_nat n) - (1 - u) / soft_hi prec d (2 * m) (Z.to_nat n) + eta)%R /\
        (B2R eps <= 1 -> Rabs r <= 1)%R).
      { intros i j Hi Hj. apply soft_entry_float; auto. intros p Hp. split; [apply FX|apply BX]; cbn; lia. }
      split; [|split]; intros ix Hv; apply valid_2 in Hv; destruct Hv as (i & j & -> & Hi & Hj); cbn [arg2]; apply H; auto.
    - assert (H : forall ix, valid (flatten_shape rs ds) ix -> valid ds (expand ds (offset (flatten_shape rs ds) ix))).
      { intros ix Hv. apply valid_expand; [apply Hok|]. destruct Hok as [N1 N2].
        pose proof (offset_bound (flatten_shape rs ds) ix Hv) as Q.
        rewrite (proj1 (C67_size rs ds N2)) in Q. exact Q. }
      split; [|split]; intros ix Hv; auto.
      rewrite Rminus_eq_0, Rabs_R0. lra.
  Qed.
  Lemma gain_nonneg : forall L P a, gain L P a -> (0 <= a)%R.
  Proof using. intros L P a G. destruct L; cbn in G; try (destruct G; assumption); lra. Qed.

  Lemma rounding_nonneg : forall d L P a b m, (0 <= m)%R -> gain L (reals prec emax P) a -> weights_ok prec emax L P b ->
    room prec emax d exp_ L a b m -> (0 <= reach L a b m)%R /\ (0 <= rounding prec emax d L a b m)%R.
  Proof.
    intros d L P a b m Hm G [_ W] [_ RS]. assert (Pu := u_pos prec). assert (Pe := eta_pos prec emax).
    pose proof (gain_nonneg _ _ _ G) as Ha.
    assert (HR : (0 <= reach L a b m)%R).
    { destruct L; cbn [reach] in *; try lra; try (destruct W; lra); apply Rmult_le_pos; auto. }
    split; [exact HR|].
    assert (HD : forall n T, (0 <= T)%R -> (0 <= dot_bound prec emax n T)%R).
    { intros n T HT. unfold dot_bound. pose proof (pow_ge1 prec n). pose proof (pos_INR n).
      apply Rplus_le_le_0_compat; [apply Rmult_le_pos; lra|]. apply Rmult_le_pos; [apply Rmult_le_pos|]; lra. }
    assert (HU : (0 <= u * reach L a b m)%R) by (apply Rmult_le_pos; lra).
    destruct L; cbn [rounding]; auto; try lra.
    destruct RS as (Hd & _ & _ & H2 & _). destruct (soft_sides d m (Z.to_nat n) Hm Hd H2) as (Plo & L1 & L2).
    set (lo := soft_lo prec d (2 * m) (Z.to_nat n)) in *. set (hi := soft_hi prec d (2 * m) (Z.to_nat n)) in *.
    assert (K1 : (1 <= (1 + u) / lo)%R) by (apply Rle_div_r; lra).
    assert (K2 : ((1 - u) / hi <= 1)%R) by (apply Rle_div_l; lra). lra.
  Qed.

  (** The whole network. *)
  Lemma net_rounding : forall d net k d0 P X x A B m e, net_ok d0 net -> (0 <= m)%R -> (0 <= e)%R ->
    is_finite eps = true -> (B2R eps <= 1)%R ->
    finite_on prec emax d0 X -> bounded d0 m (reals prec emax X) -> close d0 e (reals prec emax X) x ->
    all_weights_ok prec emax k net P B -> gains k net (fun i => reals prec emax (P i)) A ->
    net_room prec emax d exp_ k net A B m ->
    finite_on prec emax (net_out d0 net) (net_run layer_float k net P X) /\
    close (net_out d0 net) (net_error prec emax d k net A B m e) (reals prec emax (net_run layer_float k net P X))
      (net_fn (B2R eps) k net (fun i => reals prec emax (P i)) x).
  Proof.
    intros d net. induction net as [|L net IH]; intros k d0 P X x A B m e H Hm He Fe Le FX BX CX HW HG HR.
    - cbn. auto.
    - destruct H as (H1 & H2 & H3). subst d0. destruct HW as [W1 W2]. destruct HG as [G1 G2]. destruct HR as [R1 R2].
      destruct (layer_rounding d L (P k) X (A k) (B k) m) as (F & C & Bd); auto.
      destruct (rounding_nonneg d L (P k) (A k) (B k) m Hm G1 W1 R1) as [N1 N2]. pose proof (gain_nonneg _ _ _ G1) as Na.
      pose proof (layer_close0 (B2R eps) L (reals prec emax (P k)) _ _ (A k) e H1 G1 He CX) as C2.
      assert (Ne : (0 <= A k * e)%R) by (apply Rmult_le_pos; auto).
      cbn [net_out net_run net_fn net_error]. cbv zeta. apply IH; auto; try lra.
      + intros ix Hv. specialize (C ix Hv). specialize (Bd ix Hv). apply Rabs_le_2 in C. apply Rabs_le_2 in Bd. apply Rabs_le_2. lra.
      + intros ix Hv. specialize (C ix Hv). specialize (C2 ix Hv). apply Rabs_le_2 in C. apply Rabs_le_2 in C2. apply Rabs_le_2. lra.
  Qed.

  (** argmax of finite numbers. *)
  Lemma scan_float : forall n (f : Z -> flt), 1 <= n -> (forall k, 0 <= k < n -> is_finite (f k) = true) ->
    scan sc n f = scan Rsc n (fun k => B2R (f k)).
  Proof.
    intros n f Hn H. unfold scan.
    assert (G : forall l, (forall i, In i l -> 0 <= i < n - 1) -> forall b : Z * flt, is_finite (snd b) = true ->
      fst (fold_left (fun b i => if sltb sc (snd b) (f (i + 1)) then (i + 1, f (i + 1)) else b) l b)
      = fst (fold_left (fun b i => if sltb Rsc (snd b) (B2R (f (i + 1))) then (i + 1, B2R (f (i + 1))) else b) l (fst b, B2R (snd b)))).
    { induction l as [|i l IH]; intros Hl b Fb; [reflexivity|]. cbn [fold_left snd].
      assert (Fi : is_finite (f (i + 1)) = true) by (apply H; specialize (Hl i (or_introl eq_refl)); lia).
      assert (Q : sltb sc (snd b) (f (i + 1)) = sltb Rsc (B2R (snd b)) (B2R (f (i + 1)))).
      { cbn [sltb Fsc Rsc]. rewrite Bltb_correct by auto. unfold Rltb. destruct (Rlt_dec _ _).
        - apply Rlt_bool_true; auto.
        - apply Rlt_bool_false. lra. }
      rewrite Q. destruct (sltb Rsc _ _); (rewrite IH; [reflexivity| |assumption]); intros j Hj; apply Hl; right; auto. }
    rewrite (G (zrange (n - 1))); [reflexivity| |apply H; lia]. intros i Hi. apply in_zrange in Hi. exact Hi.
  Qed.
End NetFloat.
