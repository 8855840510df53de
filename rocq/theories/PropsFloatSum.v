(** Properties C100, C101: rounding errors of everything that is not a bare
    product or convolution (C84). *)
From Coq Require Import ZArith Reals List Bool Lia Lra SpecFloat.
From Flocq Require Import Core BinarySingleNaN.
From Verif Require Import Base BaseFacts TensorFacts Traits TraitsSpec TraitsFacts Scalar RealScalar LinAlg LinAlgFacts
  Elem ElemSpec ElemFacts Conv ConvSpec ConvFacts Pool PoolSpec PoolFacts Activation ActivationSpec ActivationFacts
  RowFacts SoftmaxFacts Summary SummaryFacts Layers LayersSpec LayersFacts PredictFacts Float FloatSpec FloatFacts FloatNan
  FloatSumSpec FloatSumFacts FloatNormFacts FloatSoftSpec FloatSoftFacts
  PropsElem PropsPool PropsSummary PropsNorm PropsLayers PropsFloat Demo.
Import ListNotations.
Open Scope Z_scope.
Open Scope model_scope.

Section Rounding.
  Context {V : Type} (prec emax : Z) {Hprec : Prec_gt_0 prec} {Hmax : Prec_lt_emax prec emax}.
  Context (dt : dtype V (binary_float prec emax)).
  Notation sc := (Fsc prec emax).
  Notation flt := (binary_float prec emax).
  Notation u := (unit_roundoff prec).
  Notation eta := (half_tiny prec emax).
  Notation fin v := (is_finite v = true).
  Notation magnitude l f := (sum_over Rsc l (fun a => Rabs (B2R (f a)))).

  (** *** C100: sums, means and single operations. *)

  (** Single operations: one rounding; only products and quotients underflow. *)
  Section Pointwise.
    Context (z x y : tensor) (X Y : list Z -> flt) (s : st V).
    Context (Hd : dims_ok z) (Ex : tdims x = tdims z) (Ey : tdims y = tdims z)
      (HX : holds dt s x X) (HY : holds dt s y Y) (HZ : mapped s z) (Sx : safe z x) (Sy : safe z y).
    Context (FX : forall ix, valid (tdims z) ix -> fin (X ix)) (FY : forall ix, valid (tdims z) ix -> fin (Y ix)).

    Theorem C100_add : exists Z, writes dt (op_add dt sc z x y) s z Z /\
      forall ix, valid (tdims z) ix -> let r := (B2R (X ix) + B2R (Y ix))%R in
        in_range prec emax r -> within prec emax (u * Rabs r) r (Z ix).
    Proof using All.
      eexists. split; [apply (C27_add dt sc z x y X Y); auto|]. intros ix Hv r Hr. apply (add_within prec emax); auto.
    Qed.

    Theorem C100_sub : exists Z, writes dt (op_sub dt sc z x y) s z Z /\
      forall ix, valid (tdims z) ix -> let r := (B2R (X ix) - B2R (Y ix))%R in
        in_range prec emax r -> within prec emax (u * Rabs r) r (Z ix).
    Proof using All.
      eexists. split; [apply (C27_sub dt sc z x y X Y); auto|]. intros ix Hv r Hr. apply (sub_within prec emax); auto.
    Qed.

    Theorem C100_mul : exists Z, writes dt (op_mul dt sc z x y) s z Z /\
      forall ix, valid (tdims z) ix -> let r := (B2R (X ix) * B2R (Y ix))%R in
        in_range prec emax r -> within prec emax (u * Rabs r + eta) r (Z ix).
    Proof using All.
      eexists. split; [apply (C27_mul dt sc z x y X Y); auto|]. intros ix Hv r Hr. apply (mul_within prec emax); auto.
    Qed.

    Theorem C100_div : (forall ix, valid (tdims z) ix -> B2R (Y ix) <> 0%R) ->
      exists Z, writes dt (op_div dt sc z x y) s z Z /\
      forall ix, valid (tdims z) ix -> let r := (B2R (X ix) / B2R (Y ix))%R in
        in_range prec emax r -> within prec emax (u * Rabs r + eta) r (Z ix).
    Proof using All.
      intros NY. eexists. split; [apply (C27_div dt sc z x y X Y s Hd Ex Ey HX HY HZ Sx Sy (fun ix => Bdiv mode_NE (X ix) (Y ix))); reflexivity|].
      intros ix Hv r Hr. apply (div_within prec emax); auto.
    Qed.

    (** a x + y, the update of gradient descent: two roundings. *)
    Theorem C100_axpy : forall a A, tdims a = [] -> holds dt s a A -> fin (A []) ->
      exists Z, writes dt (op_axpy dt sc z a x y) s z Z /\
      forall ix, valid (tdims z) ix ->
        let p := (B2R (A []) * B2R (X ix))%R in let r := (p + B2R (Y ix))%R in let b := (u * Rabs p + eta)%R in
        in_range prec emax p -> ((1 + u) * (Rabs r + b) < bpow radix2 emax)%R ->
        within prec emax (u * Rabs r + (1 + u) * b) r (Z ix).
    Proof using All.
      intros a A Ea HA FA. eexists. split; [apply (C27_axpy dt sc z x y X Y s Hd Ex Ey HX HY HZ Sx Sy a A Ea HA)|].
      intros ix Hv p r b H1 H2. apply (add_approx prec emax); auto. apply (mul_within prec emax); auto.
    Qed.
  End Pointwise.

  (** Sums: summaries::sum, the contractions, the bias gradients. *)
  Theorem C100_sum : forall x X s, dims_ok x -> holds dt s x X ->
    (forall ix, valid (tdims x) ix -> fin (X ix)) ->
    sum_fits prec emax (length (indices (tdims x))) (magnitude (indices (tdims x)) X) ->
    exists v, s_sum dt sc x s = Ok v s /\ sums prec emax (indices (tdims x)) (fun ix => B2R (X ix)) v.
  Proof.
    intros x X s D HX HF HO. eexists. split; [apply C43_sum; eauto|]. apply (sum_approx prec emax); auto.
    intros ix Hi. apply HF. apply in_indices; auto.
  Qed.

  Theorem C100_inner : forall y x m n X s,
    tdims x = [m; n] -> tdims y = [m] -> 0 <= m -> 0 <= n -> holds dt s x X -> mapped s y -> disjoint y x ->
    exists Y, writes dt (inner_contraction dt sc y x) s y Y /\
      forall i, 0 <= i < m -> (forall j, 0 <= j < n -> fin (X [i; j])) ->
        sum_fits prec emax (Z.to_nat n) (magnitude (zrange n) (fun j => X [i; j])) ->
        sums prec emax (zrange n) (fun j => B2R (X [i; j])) (Y [i]).
  Proof.
    intros y x m n X s Ex Ey Hm Hn HX HY D. eexists. split; [apply (C42_inner dt sc y x m n X s); auto|].
    intros i Hi HF HO. apply (sum_approx prec emax (zrange n) (fun j => X [i; j])).
    - intros j Hj. apply HF. apply in_zrange; auto.
    - rewrite length_zrange. exact HO.
  Qed.

  Theorem C100_bias1_hw : forall gy gz m n GZ s,
    tdims gz = [m; n] -> tdims gy = [n] -> 0 <= m -> 0 <= n -> holds dt s gz GZ -> mapped s gy -> disjoint gy gz ->
    exists GY, writes dt (grad_bias1_hw dt sc gy gz) s gy GY /\
      forall j, 0 <= j < n -> (forall i, 0 <= i < m -> fin (GZ [i; j])) ->
        sum_fits prec emax (Z.to_nat m) (magnitude (zrange m) (fun i => GZ [i; j])) ->
        sums prec emax (zrange m) (fun i => B2R (GZ [i; j])) (GY [j]).
  Proof.
    intros gy gz m n GZ s Ex Ey Hm Hn HX HY D. eexists. split; [apply (C42_outter dt sc gy gz m n GZ s); auto|].
    intros j Hj HF HO. apply (sum_approx prec emax (zrange m) (fun i => GZ [i; j])).
    - intros i Hi. apply HF. apply in_zrange; auto.
    - rewrite length_zrange. exact HO.
  Qed.

  (** Means: summaries::mean, the mean reduction, mean pooling.  The number of
      elements must be a number of the type, at most 2^prec. *)
  Theorem C100_mean : forall x X s, dims_ok x -> 1 <= size x <= 2 ^ prec -> holds dt s x X ->
    (forall ix, valid (tdims x) ix -> fin (X ix)) ->
    sum_fits prec emax (length (indices (tdims x))) (magnitude (indices (tdims x)) X) ->
    exists v, s_mean dt sc (div_float sc) x s = Ok v s /\ means prec emax (indices (tdims x)) (fun ix => B2R (X ix)) v.
  Proof.
    intros x X s D Hn HX HF HO. eexists. split; [eapply s_mean_ok; eauto; reflexivity|].
    apply (mean_approx prec emax); auto; [symmetry; apply length_indices; auto|].
    intros ix Hi. apply HF. apply in_indices; auto.
  Qed.

  Theorem C100_mean_rows : forall y x ds n X s,
    tdims x = ds ++ [n] -> tdims y = ds -> dims_ok x -> 1 <= n <= 2 ^ prec ->
    holds dt s x X -> mapped s y -> disjoint y x ->
    exists Y, writes dt (op_mean dt sc (div_float sc) (length ds) y x) s y Y /\
      forall ix, valid ds ix -> (forall j, 0 <= j < n -> fin (row X ix j)) ->
        sum_fits prec emax (Z.to_nat n) (magnitude (zrange n) (row X ix)) ->
        means prec emax (zrange n) (fun j => B2R (row X ix j)) (Y ix).
  Proof.
    intros y x ds n X s Ex Ey D Hn HX HY Dy.
    exists (fun ix => Bdiv mode_NE (sum_over sc (zrange n) (row X ix)) (sofZ sc n)). split.
    - eapply C42_mean; eauto.
    - intros ix Hv HF HO. apply (mean_approx prec emax (zrange n) (row X ix) n); auto.
      + rewrite length_zrange. lia.
      + intros j Hj. apply HF. apply in_zrange; auto.
      + rewrite length_zrange. exact HO.
  Qed.

  Theorem C100_pool_hw : forall kh kw ph pw sh sw P h w ds y x X s,
    pool_args kh kw ph pw h w -> kh * kw <= 2 ^ prec -> kh * kw < 2 ^ 32 -> new_pool_kps kh kw ph pw sh sw = Ret P ->
    pool_shape2 P [h; w] = Ret ds -> tdims x = [h; w] -> tdims y = ds ->
    holds dt s x X -> mapped s y -> disjoint y x ->
    exists Y, writes dt (op_pool_hw dt (mean_acc sc (div_float sc)) P y x) s y Y /\
      forall i j, valid ds [i; j] ->
        let l := window (h_sample P) (w_sample P) h w i j in let f := fun p => X [fst p; snd p] in
        l <> [] -> (forall p, In p l -> fin (f p)) -> sum_fits prec emax (length l) (magnitude l f) ->
        means prec emax l (fun p => B2R (f p)) (Y [i; j]).
  Proof.
    intros kh kw ph pw sh sw P h w ds y x X s G Hk1 Hk EP ES Ex Ey HX HY D.
    exists (arg2 (fun i j => let l := window (h_sample P) (w_sample P) h w i j in
      Bdiv mode_NE (sum_over sc l (fun p => X [fst p; snd p])) (sofZ sc (Z.of_nat (length l))))). split.
    - eapply C37_mean_hw; eauto.
    - intros i j Hv l f Hl HF HO. unfold arg2; cbn [nth]. apply (mean_approx prec emax l f); auto.
      destruct (pool_axes _ _ _ _ _ _ _ _ _ _ G EP ES) as (E & h' & w' & -> & AH & AW).
      pose proof (axis_k _ _ _ AH) as K1. pose proof (axis_k _ _ _ AW) as K2.
      pose proof (window_length (h_sample P) (w_sample P) h w i j ltac:(lia) ltac:(lia)) as L.
      assert (Ek : ksize (sfilter (h_sample P)) = kh /\ ksize (sfilter (w_sample P)) = kw) by (subst P; auto).
      destruct Ek as [Ek1 Ek2]. rewrite Ek1, Ek2 in L. fold l in L. split; [|eapply Z.le_trans; [exact L|exact Hk1]].
      assert (length l <> 0)%nat by (intros Q; apply length_zero_iff_nil in Q; auto). fold l. lia.
  Qed.

  Theorem C100_pool_hwc : forall kh kw ph pw sh sw P h w c h' w' y x X s,
    pool_args kh kw ph pw h w -> kh * kw <= 2 ^ prec -> kh * kw < 2 ^ 32 -> new_pool_kps kh kw ph pw sh sw = Ret P ->
    pool_shape2 P [h; w] = Ret [h'; w'] -> tdims x = [h; w; c] -> tdims y = [h'; w'; c] -> 0 <= c ->
    holds dt s x X -> mapped s y -> disjoint y x ->
    exists Y, writes dt (op_pool_hwc dt (mean_acc sc (div_float sc)) P y x) s y Y /\
      forall i j k, valid [h'; w'; c] [i; j; k] ->
        let l := window (h_sample P) (w_sample P) h w i j in let f := fun p => X [fst p; snd p; k] in
        l <> [] -> (forall p, In p l -> fin (f p)) -> sum_fits prec emax (length l) (magnitude l f) ->
        means prec emax l (fun p => B2R (f p)) (Y [i; j; k]).
  Proof.
    intros kh kw ph pw sh sw P h w c h' w' y x X s G Hk1 Hk EP ES Ex Ey Hc HX HY D.
    exists (arg3 (fun i j k => let l := window (h_sample P) (w_sample P) h w i j in
      Bdiv mode_NE (sum_over sc l (fun p => X [fst p; snd p; k])) (sofZ sc (Z.of_nat (length l))))). split.
    - eapply C37_mean_hwc; eauto.
    - intros i j k Hv l f Hl HF HO. unfold arg3; cbn [nth]. apply (mean_approx prec emax l f); auto.
      destruct (pool_axes _ _ _ _ _ _ _ _ _ _ G EP ES) as (E & h2 & w2 & E2 & AH & AW).
      pose proof (axis_k _ _ _ AH) as K1. pose proof (axis_k _ _ _ AW) as K2.
      pose proof (window_length (h_sample P) (w_sample P) h w i j ltac:(lia) ltac:(lia)) as L.
      assert (Ek : ksize (sfilter (h_sample P)) = kh /\ ksize (sfilter (w_sample P)) = kw) by (subst P; auto).
      destruct Ek as [Ek1 Ek2]. rewrite Ek1, Ek2 in L. fold l in L. split; [|eapply Z.le_trans; [exact L|exact Hk1]].
      assert (length l <> 0)%nat by (intros Q; apply length_zero_iff_nil in Q; auto). fold l. lia.
  Qed.

  (** A dense layer without activation: the error of the product and one more
      rounding for the bias. *)
  Theorem C100_dense : forall logits w_init b_init m l W B s x X,
    0 <= logits < 2 ^ 32 -> fills dt w_init [l; logits] W -> fills dt b_init [logits] B ->
    input dt s x ([m; l], X) ->
    exists Y, creates dt (dense dt sc Builtin noop2 logits w_init b_init x) s ([m; logits], Y) [([l; logits], W); ([logits], B)] /\
      forall i j, 0 <= i < m -> 0 <= j < logits ->
        (forall k, 0 <= k < l -> fin (X [i; k]) /\ fin (W [k; j])) -> fin (B [j]) ->
        let p := fun k => (B2R (X [i; k]) * B2R (W [k; j]))%R in
        let r := (sum_over Rsc (zrange l) p + B2R (B [j]))%R in
        let b := dot_bound prec emax (Z.to_nat l) (sum_over Rsc (zrange l) (fun k => Rabs (p k))) in
        no_overflow prec emax (Z.to_nat l) (sum_over Rsc (zrange l) (fun k => Rabs (p k))) ->
        ((1 + u) * (Rabs r + b) < bpow radix2 emax)%R ->
        within prec emax (u * Rabs r + (1 + u) * b) r (Y [i; j]).
  Proof.
    intros logits w_init b_init m l W B s x X Hlo HW HB HI. eexists. split.
    - apply (C62_dense dt sc Builtin noop2 logits w_init b_init m l W B (fun Y => Y) s x X); auto; [exact I|apply acts_noop].
    - intros i j Hi Hj HF HFB p r b HO HR. unfold arg2; cbn [nth]. apply (add_approx prec emax); auto.
      destruct (dot_approx prec emax (zrange l) (fun k => X [i; k]) (fun k => W [k; j])) as (F & E).
      + intros k Hk. apply HF. apply in_zrange; auto.
      + rewrite length_zrange. exact HO.
      + split; [exact F|]. rewrite length_zrange in E. exact E.
  Qed.

  (** Batch normalisation with a correctly rounded square root: every output has
      a small relative error, about 4u. *)
  Theorem C100_batch_norm : forall o p eps y x m v c X Mu Va s, bn_axis o p -> 2 <= prec ->
    length (tdims x) = 4%nat -> dims_ok x -> tdims y = tdims x -> nth p (tdims x) 0 = c ->
    tdims m = [c] -> tdims v = [c] ->
    holds dt s x X -> holds dt s m Mu -> holds dt s v Va ->
    mapped s y -> safe y x -> disjoint y m -> disjoint y v -> fin eps -> (0 < B2R eps)%R ->
    exists Y, writes dt (op_bn dt o (normalize sc (Bsqrt mode_NE) eps) y x m v) s y Y /\
      forall ix, valid (tdims x) ix ->
        let mu := Mu [nth p ix 0] in let va := Va [nth p ix 0] in
        fin (X ix) -> fin mu -> fin va -> (0 <= B2R va)%R ->
        let num := (B2R (X ix) - B2R mu)%R in let den := (sqrt (B2R va) + B2R eps)%R in
        let k := ((1 + u) ^ 2 / (1 - u) ^ 2)%R in
        in_range prec emax num -> ((1 + u) ^ 2 * den < bpow radix2 emax)%R ->
        (k * Rabs (num / den) + eta < bpow radix2 emax)%R ->
        within prec emax ((k - 1) * Rabs (num / den) + eta) (num / den) (Y ix).
  Proof.
    intros o p eps y x m v c X Mu Va s A Hp Hl Dx Ey Ec Em Ev HX HM HV HY S Dm Dv Fe Pe.
    exists (fun ix => Bdiv mode_NE (Bminus mode_NE (X ix) (Mu [nth p ix 0])) (Bplus mode_NE (Bsqrt mode_NE (Va [nth p ix 0])) eps)).
    split; [eapply (C32_bn dt o p _ y x m v c X Mu Va); eauto; reflexivity|].
    intros ix Hv mu va F1 F2 F3 Pv num den k R1 R2 R3. apply (norm_within prec emax); auto.
    unfold unit_roundoff. assert (Q : (bpow radix2 (- prec + 1) <= / 2)%R).
    { change (/ 2)%R with (bpow radix2 (-1)). apply bpow_le. lia. } lra.
  Qed.

  (** Integers are summed exactly, and averaged with one rounding, as long as
      the absolute values add up to at most 2^prec. *)
  Theorem C100_integers : forall x X N s, dims_ok x -> 1 <= size x <= 2 ^ prec -> holds dt s x X ->
    (forall ix, valid (tdims x) ix -> integral prec emax (X ix) (N ix)) ->
    sum_over Zsc (indices (tdims x)) (fun ix => Z.abs (N ix)) <= 2 ^ prec ->
    let t := sum_over Zsc (indices (tdims x)) N in
    exists a b, s_sum dt sc x s = Ok a s /\ s_mean dt sc (div_float sc) x s = Ok b s /\
      integral prec emax a t /\ is_finite b = true /\
      B2R b = round radix2 (FLT_exp (3 - emax - prec) prec) ZnearestE (IZR t / IZR (size x)).
  Proof.
    intros x X N s D Hn HX HI HO t. eexists; eexists. split; [apply C43_sum; eauto|].
    split; [eapply s_mean_ok; eauto; reflexivity|].
    assert (Q : integral prec emax (sum_over sc (indices (tdims x)) X) t).
    { apply (sum_exact prec emax); auto. intros ix Hi. apply HI. apply in_indices; auto. }
    split; [exact Q|]. destruct Q as (F & E). rewrite <- E. apply (fdiv_n prec emax); auto.
  Qed.

  (** Sums and means are monotone in spite of rounding. *)
  Theorem C100_monotone : forall x x' X X' s, dims_ok x -> tdims x' = tdims x -> 1 <= size x <= 2 ^ prec ->
    holds dt s x X -> holds dt s x' X' ->
    (forall ix, valid (tdims x) ix -> fin (X ix) /\ fin (X' ix) /\ (B2R (X ix) <= B2R (X' ix))%R) ->
    sum_fits prec emax (length (indices (tdims x))) (magnitude (indices (tdims x)) X) ->
    sum_fits prec emax (length (indices (tdims x))) (magnitude (indices (tdims x)) X') ->
    exists a a' b b', s_sum dt sc x s = Ok a s /\ s_sum dt sc x' s = Ok a' s /\
      s_mean dt sc (div_float sc) x s = Ok b s /\ s_mean dt sc (div_float sc) x' s = Ok b' s /\
      (B2R a <= B2R a')%R /\ (B2R b <= B2R b')%R.
  Proof.
    intros x x' X X' s D Ed Hn HX HX' HF O1 O2.
    assert (D' : dims_ok x') by (unfold dims_ok in *; congruence).
    assert (Sz : size x' = size x) by (unfold size; rewrite Ed; reflexivity).
    eexists; eexists; eexists; eexists. split; [apply C43_sum; eauto|]. split; [apply C43_sum; eauto|].
    split; [eapply s_mean_ok; eauto; reflexivity|]. split; [eapply s_mean_ok; eauto; reflexivity|].
    rewrite Ed, Sz.
    assert (HF' : forall ix, In ix (indices (tdims x)) -> fin (X ix) /\ fin (X' ix) /\ (B2R (X ix) <= B2R (X' ix))%R).
    { intros ix Hi. apply HF. apply in_indices; auto. }
    pose proof (sum_mono prec emax (indices (tdims x)) X X' HF' O1 O2) as M. split; [exact M|].
    destruct (sum_approx prec emax (indices (tdims x)) X) as (F1 & _); [intros; apply HF'; auto|exact O1|].
    destruct (sum_approx prec emax (indices (tdims x)) X') as (F2 & _); [intros; apply HF'; auto|exact O2|].
    rewrite (proj2 (fdiv_n prec emax _ (size x) F1 Hn)), (proj2 (fdiv_n prec emax _ (size x) F2 Hn)).
    apply rnd_le; auto. unfold Rdiv. apply Rmult_le_compat_r; [|exact M].
    apply Rlt_le, Rinv_0_lt_compat. apply (IZR_lt 0). lia.
  Qed.

  (** *** C101: softmax and cross entropy. *)

  (** Each output of softmax is the probability up to a factor close to 1 (before
      clamping to eps), if exp is accurate and the inputs of the row differ by at
      most [B]. *)
  Theorem C101_softmax : forall exp_ d B eps y x ds n X s, (0 <= d < 1)%R -> (0 <= B)%R ->
    exp_acc prec emax d ((1 + u) * B) exp_ -> in_range prec emax B -> fin eps ->
    tdims x = ds ++ [n] -> tdims y = ds ++ [n] -> dims_ok x ->
    holds dt s x X -> mapped s y -> disjoint y x ->
    let hi := soft_hi prec d B (Z.to_nat n) in let lo := soft_lo prec d B (Z.to_nat n) in
    ((1 + u) ^ Nat.pred (Z.to_nat n) < 2)%R -> (hi * (IZR n * exp B) < bpow radix2 emax)%R ->
    ((1 + u) / lo + eta < bpow radix2 emax)%R ->
    exists Y, writes dt (op_softmax dt sc exp_ (length ds + 1) eps y x) s y Y /\
      forall ix, valid ds ix -> (forall i, 0 <= i < n -> fin (row X ix i)) ->
        (forall i j, 0 <= i < n -> 0 <= j < n -> (Rabs (B2R (row X ix i) - B2R (row X ix j)) <= B)%R) ->
        forall i, 0 <= i < n ->
          let p := (exp (B2R (row X ix i)) / rsum n (fun j => exp (B2R (row X ix j))))%R in
          fin (row Y ix i) /\
          (Rmax (B2R eps) ((1 - u) / hi * p - eta) <= B2R (row Y ix i) <= Rmax (B2R eps) ((1 + u) / lo * p + eta))%R.
  Proof.
    intros exp_ d B eps y x ds n X s Hd HB EA HR Fe Ex Ey Dx HX HY D hi lo H2 HO HL.
    exists (fun ix => smax sc eps (Bdiv mode_NE Bone (soft_tot sc exp_ n (row X (removelast ix)) (last ix 0)))).
    split; [apply (op_softmax_writes dt sc exp_ eps y x ds n X (Bdiv mode_NE Bone) s); auto|].
    intros ix Hv HF HD i Hi p.
    assert (RY : row (fun ix => smax sc eps (Bdiv mode_NE Bone (soft_tot sc exp_ n (row X (removelast ix)) (last ix 0)))) ix i
      = smax sc eps (Bdiv mode_NE Bone (soft_tot sc exp_ n (row X ix) i))).
    { unfold row at 1. rewrite removelast_last, last_last. reflexivity. }
    rewrite RY; clear RY.
    set (xi := row X ix i) in *. set (E := rsum n (fun j => exp (B2R (row X ix j) - B2R xi))%R).
    assert (Ep : p = (/ E)%R).
    { unfold p, E, rsum. fold xi.
      rewrite (sumR_ext (zrange n) (fun j => exp (B2R (row X ix j) - B2R xi))%R (fun j => / exp (B2R xi) * exp (B2R (row X ix j)))%R).
      - rewrite sumR_scale, Rinv_mult, Rinv_inv. reflexivity.
      - intros j _. unfold Rminus. rewrite exp_plus, exp_Ropp. ring. }
    assert (E1 : (1 <= E)%R).
    { unfold E, rsum. rewrite <- exp_0. replace 0%R with (B2R xi - B2R xi)%R at 1 by ring.
      apply (sumR_pick (zrange n) (fun j => exp (B2R (row X ix j) - B2R xi))%R i); [apply in_zrange; auto|].
      intros. apply Rlt_le, exp_pos. }
    assert (E2 : (E <= IZR n * exp B)%R).
    { unfold E, rsum. replace (IZR n) with (INR (length (zrange n))).
      - rewrite <- (sumR_const (zrange n) (exp B)). apply sumR_le. intros j Hj. apply in_zrange in Hj.
        apply exp_le. specialize (HD j i Hj Hi). apply Rabs_le_inv in HD. fold xi in HD. lra.
      - rewrite length_zrange, INR_IZR_INZ, Z2Nat.id by lia. reflexivity. }
    assert (Pu := u_pos prec).
    assert (Plo : (0 < lo)%R).
    { unfold lo, soft_lo. apply Rmult_lt_0_compat; [|lra]. apply Rmult_lt_0_compat; [lra|apply exp_pos]. }
    assert (Phi : (0 <= hi)%R).
    { unfold hi, soft_hi. apply Rmult_le_pos; [apply Rmult_le_pos; [lra|apply Rlt_le, exp_pos]|].
      pose proof (pow_ge1 prec (Nat.pred (Z.to_nat n))). lra. }
    destruct (soft_sum prec emax exp_ d B Hd HB EA (zrange n) (row X ix) xi) as (Fs & Bs); auto.
    - intros j Hj. apply in_zrange in Hj. split; [apply HF; auto|apply HD; auto].
    - apply HF; auto.
    - rewrite length_zrange. fold hi. eapply Rle_lt_trans; [|exact HO]. apply Rmult_le_compat_l; auto.
    - rewrite length_zrange. exact H2.
    - rewrite length_zrange in Bs. fold hi lo in Bs. change (sum_over Rsc (zrange n) (fun a => exp (B2R (row X ix a) - B2R xi))%R) with E in Bs.
      destruct (soft_quot prec emax _ lo hi E Fs Plo E1 Bs HL) as (Fq & Bq).
      change (sum_over sc (zrange n) (fun a => exp_ (Bminus mode_NE (row X ix a) xi))) with (soft_tot sc exp_ n (row X ix) i) in *.
      set (q := Bdiv mode_NE Bone (soft_tot sc exp_ n (row X ix) i)) in *.
      destruct (smax_val prec emax eps q Fe Fq) as (Fm & Em).
      unfold smax; cbn [sltb Fsc]. split; [exact Fm|]. rewrite Em, Ep. split; apply Rle_max_compat_l; lra.
  Qed.

  (** The cross entropy of a row, if log is accurate to [d] on its predictions. *)
  Theorem C101_xentropy : forall log_ d z x y ds n X Y s, (0 <= d)%R ->
    tdims x = ds ++ [n] -> tdims y = ds ++ [n] -> tdims z = ds -> dims_ok x ->
    holds dt s x X -> holds dt s y Y -> mapped s z -> disjoint z x -> disjoint z y ->
    exists Z, writes dt (op_xentropy dt sc log_ (length ds + 1) z x y) s z Z /\
      forall ix, valid ds ix ->
        (forall j, 0 <= j < n -> fin (row X ix j) /\
           within prec emax (d * Rabs (ln (B2R (row Y ix j)))) (ln (B2R (row Y ix j))) (log_ (row Y ix j))) ->
        let t := fun j => (B2R (row X ix j) * ln (B2R (row Y ix j)))%R in
        let T := rsum n (fun j => Rabs (t j)) in
        no_overflow prec emax (Z.to_nat n) ((1 + d) * T) ->
        within prec emax (dot_bound prec emax (Z.to_nat n) ((1 + d) * T) + d * T)
          (xent_fn n (fun j => B2R (row X ix j)) (fun j => B2R (row Y ix j))) (Z ix).
  Proof.
    intros log_ d z x y ds n X Y s Hd Ex Ey Ez Dx HX HY HZ D1 D2.
    eexists. split; [apply (op_xentropy_writes dt sc log_ z x y ds n X Y s); auto|].
    intros ix Hv HL t T HO. cbv beta.
    set (lg := fun j => log_ (row Y ix j)).
    assert (A : forall j, In j (zrange n) -> (Rabs (B2R (row X ix j) * B2R (lg j)) <= (1 + d) * Rabs (t j))%R /\
      (Rabs (B2R (row X ix j) * B2R (lg j) - t j) <= d * Rabs (t j))%R).
    { intros j Hj. apply in_zrange in Hj. destruct (HL j Hj) as (_ & _ & E). fold (lg j) in E. unfold t.
      assert (Q : (Rabs (B2R (row X ix j) * B2R (lg j) - B2R (row X ix j) * ln (B2R (row Y ix j)))
        <= d * Rabs (B2R (row X ix j) * ln (B2R (row Y ix j))))%R).
      { replace (B2R (row X ix j) * B2R (lg j) - B2R (row X ix j) * ln (B2R (row Y ix j)))%R
          with (B2R (row X ix j) * (B2R (lg j) - ln (B2R (row Y ix j))))%R by ring.
        rewrite !Rabs_mult.
        replace (d * (Rabs (B2R (row X ix j)) * Rabs (ln (B2R (row Y ix j)))))%R
          with (Rabs (B2R (row X ix j)) * (d * Rabs (ln (B2R (row Y ix j)))))%R by ring.
        apply Rmult_le_compat_l; [apply Rabs_pos|exact E]. }
      split; [|exact Q].
      replace (B2R (row X ix j) * B2R (lg j))%R with (B2R (row X ix j) * ln (B2R (row Y ix j))
        + (B2R (row X ix j) * B2R (lg j) - B2R (row X ix j) * ln (B2R (row Y ix j))))%R by ring.
      eapply Rle_trans; [apply Rabs_triang|]. lra. }
    assert (M1 : (sum_over Rsc (zrange n) (fun j => Rabs (B2R (row X ix j) * B2R (lg j))) <= (1 + d) * T)%R).
    { unfold T, rsum. rewrite <- sumR_scale. apply sumR_le. intros j Hj. apply A; auto. }
    assert (M0 : (0 <= sum_over Rsc (zrange n) (fun j => Rabs (B2R (row X ix j) * B2R (lg j))))%R)
      by (apply sumR_nonneg; intros; apply Rabs_pos).
    assert (Mb : forall k a b, (0 <= a <= b)%R -> (dot_bound prec emax k a <= dot_bound prec emax k b)%R).
    { intros k a b Hab. unfold dot_bound. pose proof (pow_ge1 prec k). apply Rplus_le_compat_r.
      apply Rmult_le_compat_l; lra. }
    destruct (dot_approx prec emax (zrange n) (row X ix) lg) as (F & E).
    - intros j Hj. apply in_zrange in Hj. destruct (HL j Hj) as (F1 & F2 & _). auto.
    - rewrite length_zrange. unfold no_overflow in *. pose proof (Mb (Z.to_nat n) _ _ (conj M0 M1)). lra.
    - rewrite length_zrange in E. change (sum_over sc (zrange n) (fun a => smul sc (row X ix a) (lg a))) with
        (sum_over sc (zrange n) (fun j => smul sc (row X ix j) (log_ (row Y ix j)))) in *.
      cbn [sneg Fsc]. split; [rewrite is_finite_Bopp; exact F|]. rewrite B2R_Bopp. unfold xent_fn.
      set (v := B2R (sum_over sc (zrange n) (fun j => smul sc (row X ix j) (log_ (row Y ix j))))) in *.
      set (q := sum_over Rsc (zrange n) (fun j => B2R (row X ix j) * B2R (lg j))%R) in *.
      assert (Dq : (Rabs (q - rsum n t) <= d * T)%R).
      { replace (q - rsum n t)%R with (rsum n (fun j => B2R (row X ix j) * B2R (lg j) - t j)%R).
        - unfold rsum. eapply Rle_trans; [apply sumR_abs|]. unfold T, rsum. rewrite <- sumR_scale.
          apply sumR_le. intros j Hj. apply A; auto.
        - unfold q, rsum. rewrite (SumFacts.sum_sub Rsc Rsc_laws). reflexivity. }
      change (rsum n (fun j => B2R (row X ix j) * ln (B2R (row Y ix j)))%R) with (rsum n t).
      replace (- v - - rsum n t)%R with (- ((v - q) + (q - rsum n t)))%R by ring. rewrite Rabs_Ropp.
      eapply Rle_trans; [apply Rabs_triang|]. pose proof (Mb (Z.to_nat n) _ _ (conj M0 M1)). lra.
  Qed.
End Rounding.

(** *** What the bounds amount to. *)
Section Bounds.
  Context (prec emax : Z) {Hprec : Prec_gt_0 prec} {Hmax : Prec_lt_emax prec emax}.
  Notation u := (unit_roundoff prec).

  Lemma pow_inv : forall n, (INR n * u < 1 -> (1 + u) ^ n <= / (1 - INR n * u))%R.
  Proof using.
    intros n Hn. pose proof (u_pos prec) as Pu.
    assert (E : ((1 + u) ^ n <= exp (INR n * u))%R).
    { clear Hn. induction n as [|n IH]; [cbn; rewrite Rmult_0_l, exp_0; lra|].
      rewrite S_INR, Rmult_plus_distr_r, Rmult_1_l, exp_plus. cbn [pow]. rewrite Rmult_comm.
      pose proof (exp_ineq1_le u). apply Rmult_le_compat; try lra. apply pow_le. lra. }
    eapply Rle_trans; [exact E|]. rewrite <- (Rinv_inv (exp _)), <- exp_Ropp. apply Rinv_le_contravar; [lra|].
    pose proof (exp_ineq1_le (- (INR n * u))). lra.
  Qed.

  (** At most [2 n u] relative to the sum of the absolute values, for sums and
      means of up to 1/(2u) numbers; at most [5 u] for batch normalisation. *)
  Theorem C100_bound : forall n T, (0 <= T)%R -> (INR n * u <= / 2)%R ->
    (sum_bound prec n T <= 2 * INR n * u * T)%R /\ ((1 + u) ^ n - 1 <= 2 * INR n * u)%R.
  Proof using.
    intros n T HT Hn. pose proof (u_pos prec) as Pu.
    assert (P : forall k, (INR k * u <= / 2 -> (1 + u) ^ k <= 1 + 2 * INR k * u)%R).
    { induction k as [|k IH]; intros Hk; [cbn; lra|]. rewrite S_INR in *. cbn [pow].
      assert (Hk' : (INR k * u <= / 2)%R) by lra. specialize (IH Hk').
      apply Rle_trans with ((1 + u) * (1 + 2 * INR k * u))%R; [apply Rmult_le_compat_l; lra|].
      assert (Q : (2 * (INR k * u) * u <= 1 * u)%R) by (apply Rmult_le_compat_r; lra). lra. }
    split; [|specialize (P n Hn); lra]. unfold sum_bound. apply Rmult_le_compat_r; [exact HT|].
    assert (L : (INR (Nat.pred n) <= INR n)%R) by (apply le_INR; lia).
    assert (L' : (INR (Nat.pred n) * u <= INR n * u)%R) by (apply Rmult_le_compat_r; lra).
    specialize (P (Nat.pred n) ltac:(lra)). lra.
  Qed.

  Theorem C100_bound_norm : 4 <= prec -> ((1 + u) ^ 2 / (1 - u) ^ 2 - 1 <= 5 * u)%R.
  Proof using.
    intros Hp. pose proof (u_pos prec) as Pu.
    assert (Hu : (u <= / 16)%R).
    { unfold unit_roundoff. assert (Q : (bpow radix2 (- prec + 1) <= / 8)%R).
      { change (/ 8)%R with (bpow radix2 (-3)). apply bpow_le. lia. } lra. }
    assert (P : (0 < (1 - u) ^ 2)%R) by (apply pow_lt; lra).
    apply Rmult_le_reg_r with ((1 - u) ^ 2)%R; [exact P|].
    replace (((1 + u) ^ 2 / (1 - u) ^ 2 - 1) * (1 - u) ^ 2)%R with ((1 + u) ^ 2 - (1 - u) ^ 2)%R by (field; lra).
    assert (Q : (4 / 5 <= (1 - u) ^ 2)%R) by (cbn [pow]; nra).
    assert (5 * u * (4 / 5) <= 5 * u * (1 - u) ^ 2)%R by (apply Rmult_le_compat_l; lra). cbn [pow] in *. lra.
  Qed.

  (** softmax: with e the sum of the accuracy of exp, u times the spread of the
      row and u times its length, the outputs lie between 1 - 2e and 1 + 4e times
      the probabilities (up to underflow); the other hypotheses of C101_softmax
      follow for rows that do not overflow. *)
  Theorem C101_bound : forall d B n, (0 <= d)%R -> (0 <= B)%R -> (1 <= n)%nat ->
    let e := (d + u * B + INR n * u)%R in (e <= / 8)%R ->
    ((1 + u) ^ Nat.pred n < 2)%R /\
    (0 < soft_hi prec d B n /\ 1 - 2 * e <= (1 - u) / soft_hi prec d B n)%R /\
    (0 < soft_lo prec d B n /\ (1 + u) / soft_lo prec d B n <= 1 + 4 * e)%R.
  Proof using.
    intros d B n Hd HB Hn e He. pose proof (u_pos prec) as Pu.
    assert (PB : (0 <= u * B)%R) by (apply Rmult_le_pos; lra).
    assert (Pn : (u <= INR n * u)%R).
    { rewrite <- (Rmult_1_l u) at 1. apply Rmult_le_compat_r; [lra|]. apply (le_INR 1). exact Hn. }
    assert (L : (INR (Nat.pred n) * u <= INR n * u)%R).
    { apply Rmult_le_compat_r; [lra|]. apply le_INR. lia. }
    set (N := (INR n * u)%R) in *. set (D := (u * B)%R) in *.
    assert (Q : ((1 + u) ^ Nat.pred n <= / (1 - N))%R).
    { eapply Rle_trans; [apply pow_inv; unfold e in He; lra|]. apply Rinv_le_contravar; unfold e in He; lra. }
    assert (Q1 : (1 <= (1 + u) ^ Nat.pred n)%R) by apply pow_ge1.
    assert (I1 : (/ (1 - N) <= 1 + 2 * N)%R).
    { apply Rmult_le_reg_r with (1 - N)%R; [unfold e in He; lra|]. rewrite Rinv_l by (unfold e in He; lra).
      unfold e in He. nra. }
    unfold soft_hi, soft_lo. fold D. set (q := ((1 + u) ^ Nat.pred n)%R) in *.
    split; [unfold e in He; lra|].
    assert (E1 : (exp D <= / (1 - D))%R).
    { rewrite <- (Rinv_inv (exp D)), <- exp_Ropp. apply Rinv_le_contravar; [unfold e in He; lra|].
      pose proof (exp_ineq1_le (- D)). lra. }
    assert (E2 : (1 - D <= exp (- D))%R) by (pose proof (exp_ineq1_le (- D)); lra).
    assert (E0 : (1 + d <= / (1 - d))%R).
    { apply Rmult_le_reg_r with (1 - d)%R; [unfold e in He; lra|]. rewrite Rinv_l by (unfold e in He; lra). nra. }
    pose proof (exp_pos D) as PD. unfold e in He. split.
    - assert (Ph : (0 < (1 + d) * exp D * q)%R) by (apply Rmult_lt_0_compat; [apply Rmult_lt_0_compat; lra|lra]).
      split; [exact Ph|].
      assert (H : ((1 + d) * exp D * q <= / (1 - e))%R).
      { apply Rle_trans with (/ (1 - d) * / (1 - D) * / (1 - N))%R.
        - apply Rmult_le_compat; try lra; [apply Rmult_le_pos; lra|]. apply Rmult_le_compat; lra.
        - rewrite <- !Rinv_mult. apply Rinv_le_contravar; [unfold e; lra|]. unfold e.
          assert (0 <= d * D)%R by nra. assert (0 <= D * N)%R by nra. assert (0 <= d * N)%R by nra.
          assert (d * D * N <= d * D * 1)%R by (apply Rmult_le_compat_l; lra). lra. }
      assert (H' : (1 - e <= / ((1 + d) * exp D * q))%R).
      { rewrite <- (Rinv_inv (1 - e)). apply Rinv_le_contravar; auto. }
      unfold Rdiv. apply Rle_trans with ((1 - u) * (1 - e))%R; [unfold e; nra|].
      apply Rmult_le_compat_l; lra.
    - assert (G : (1 - 2 * e <= (1 - d) * exp (- D) * (2 - q))%R).
      { apply Rle_trans with ((1 - d) * (1 - D) * (1 - 2 * N))%R.
        - unfold e. assert (0 <= d * D)%R by nra. assert (0 <= D * N)%R by nra. assert (0 <= d * N)%R by nra.
          assert (d * D * N <= d * D * / 2)%R by (apply Rmult_le_compat_l; lra). lra.
        - apply Rmult_le_compat; try lra; [apply Rmult_le_pos; lra|]. apply Rmult_le_compat_l; lra. }
      assert (Pl : (0 < (1 - d) * exp (- D) * (2 - q))%R) by (unfold e in G; lra).
      split; [exact Pl|].
      apply Rmult_le_reg_r with ((1 - d) * exp (- D) * (2 - q))%R; [exact Pl|]. unfold Rdiv.
      rewrite Rmult_assoc, Rinv_l by lra. rewrite Rmult_1_r.
      apply Rle_trans with ((1 + 4 * e) * (1 - 2 * e))%R; [|apply Rmult_le_compat_l; [unfold e; lra|exact G]].
      assert (Ee : (u <= e)%R) by (unfold e; lra). assert (He8 : (e <= / 8)%R) by (unfold e; lra). nra.
  Qed.
End Bounds.

(** The mean of (0.1 0.2 0.3) is 13421773 / 2^26, the float next to 0.2; batch
    normalisation of (0.1 0.2 0.3) with means 0, 1/4, 1 and variances 4, 2, 0. *)
Example C100_example :
  shown (run (op_mean ft F32 (div_float F32) 1 (T_ 1 [1]) (T_ 0 [1; 3])) (demo [tenths; [f32 0 0]]) (T_ 1 [1]))
    = floats [f32 13421773 (-26)] /\
  shown (run (op_bn ft nhwc (normalize F32 (Bsqrt mode_NE) (f32 8796093 (-43)))
      (T_ 3 [1; 1; 1; 3]) (T_ 0 [1; 1; 1; 3]) (T_ 1 [3]) (T_ 2 [3]))
      (demo [tenths; [f32 0 0; f32 1 (-2); f32 1 0]; [f32 4 0; f32 2 0; f32 0 0]; repeat (f32 0 0) 3]) (T_ 3 [3]))
    = floats [f32 13421767 (-28); f32 (-9490620) (-28); f32 (-11200000) (-4)].
Proof. split; vm_compute; reflexivity. Qed.

(** The bias gradient of integers is exact; a float sum loses the 1 in
    2^24 + 1 + 1 (C100_integers asks for at most 2^24). *)
Example C100_example_integers :
  shown (run (grad_bias1_hw ft F32 (T_ 1 [2]) (T_ 0 [3; 2]))
    (demo [[f32 3 0; f32 1 24; f32 (-5) 0; f32 1 0; f32 9 0; f32 1 0]; [f32 0 0; f32 0 0]]) (T_ 1 [2]))
    = floats [f32 7 0; f32 1 24].
Proof. vm_compute. reflexivity. Qed.

(** Because of rounding the mean need not lie between the smallest and the
    largest element: a 3 x 3 mean pool of a constant image is not that constant
    (1 + 2^-22, all nine cells, gives 1 + 2^-23). *)
Theorem C100_mean_refuted :
  exists P, new_pool_ks 3 3 1 1 = Ret P /\
  let c := f32 8388610 (-23) in let s := demo [repeat c 9; [f32 0 0]] in
  shown (run (op_pool_hw ft (mean_acc F32 (div_float F32)) P (T_ 1 [1; 1]) (T_ 0 [3; 3])) s (T_ 1 [1]))
    = floats [f32 8388609 (-23)] /\
  Bltb (f32 8388609 (-23)) c = true.
Proof. eexists. split; [reflexivity|]. vm_compute. split; reflexivity. Qed.

(** The assumption of C101 about exp can be met: rounding the exact value is
    accurate to u between -10 and 10 in float. *)
Example C101_example :
  exp_acc 24 128 (unit_roundoff 24) 10 (fun x : float => of_real 24 128 (exp (B2R x))).
Proof.
  assert (E : (exp 10 <= 3 ^ 10)%R).
  { replace 10%R with (INR 10 * 1)%R by (cbn; lra).
    assert (Q : forall n, (exp (INR n * 1) <= 3 ^ n)%R).
    { induction n as [|n IH]; [cbn; rewrite Rmult_0_l, exp_0; lra|].
      rewrite S_INR, Rmult_plus_distr_r, exp_plus. cbn [pow]. rewrite (Rmult_comm 3).
      pose proof exp_le_3. pose proof (exp_pos (INR n * 1)). rewrite Rmult_1_l. apply Rmult_le_compat; try lra; apply Rlt_le, exp_pos. }
    apply (Q 10%nat). }
  apply exp_acc_exists; [lra| |].
  - assert (U : (unit_roundoff 24 <= 1)%R).
    { unfold unit_roundoff. assert (bpow radix2 (-24 + 1) <= bpow radix2 0)%R by (apply bpow_le; lia). cbn in *. lra. }
    assert (B : (bpow radix2 40 <= bpow radix2 128)%R) by (apply bpow_le; lia).
    assert (bpow radix2 40 = 1099511627776)%R by reflexivity.
    pose proof (exp_pos 10). nra.
  - rewrite exp_Ropp. apply Rle_trans with (bpow radix2 (-40)); [apply bpow_le; lia|].
    change (-40)%Z with (Z.opp 40). rewrite bpow_opp. apply Rinv_le_contravar; [apply exp_pos|].
    assert (bpow radix2 40 = 1099511627776)%R by reflexivity. lra.
Qed.

(** softmax and cross entropy with crude stand-ins for exp and log. *)
Example C101_example_run :
  shown (run (op_softmax ft F32 exp_toy 2 (f32 1 (-20)) (T_ 1 [1; 3]) (T_ 0 [1; 3]))
    (demo [[f32 0 0; f32 0 0; f32 0 0]; repeat (f32 9 0) 3]) (T_ 1 [3]))
    = floats [f32 11184811 (-25); f32 11184811 (-25); f32 11184811 (-25)] /\
  shown (run (op_xentropy ft F32 (fun _ => f32 (-1) 0) 2 (T_ 2 [1]) (T_ 0 [1; 3]) (T_ 1 [1; 3]))
    (demo [tenths; tenths; [f32 9 0]]) (T_ 2 [1]))
    = floats [f32 10066330 (-24)].
Proof. split; vm_compute; reflexivity. Qed.

Print Assumptions C100_add.
Print Assumptions C100_sub.
Print Assumptions C100_mul.
Print Assumptions C100_div.
Print Assumptions C100_axpy.
Print Assumptions C100_sum.
Print Assumptions C100_inner.
Print Assumptions C100_bias1_hw.
Print Assumptions C100_mean.
Print Assumptions C100_mean_rows.
Print Assumptions C100_pool_hw.
Print Assumptions C100_pool_hwc.
Print Assumptions C100_dense.
Print Assumptions C100_batch_norm.
Print Assumptions C100_integers.
Print Assumptions C100_monotone.
Print Assumptions C100_bound.
Print Assumptions C100_bound_norm.
Print Assumptions C100_mean_refuted.
Print Assumptions C101_softmax.
Print Assumptions C101_xentropy.
Print Assumptions C101_bound.
