(** Properties C75 - C78: training and testing of a single-layer perceptron.

    Floating point is replaced by exact real arithmetic; std::exp, std::log are
    the real exponential and logarithm. *)
From Coq Require Import ZArith List Bool Lia Reals Lra FunctionalExtensionality QArith_base Qreduction Qround.
From Coquelicot Require Import Coquelicot.
From Verif Require Import Base BaseFacts Traits Scalar RealScalar SumFacts TensorFacts LinAlg LinAlgFacts ConvFacts
  ConvGradFacts Elem ElemSpec ElemFacts PropsElem Activation ActivationSpec ActivationFacts SoftmaxFacts
  PropsSoftmax Pool PoolSpec Summary PropsSummary Utility UtilityFacts PropsUtility LayersFacts Demo
  Train TrainSpec TrainFacts TrainGrad TrainEpoch TrainTest.
Import ListNotations.
Open Scope Z_scope.
Open Scope model_scope.

(** *** C75: one training step. *)
(** The shape function of slp. *)
Theorem C75_shape : forall n d d' k k' r,
  slp_shape [n; d] [d'; k] [k'] = Ret r <-> d = d' /\ k = k' /\ r = [n; k].
Proof.
  intros n d d' k k' r. unfold slp_shape, ocontract. cbn [nth].
  destruct (d =? d') eqn:E1; cbn; [destruct (k =? k') eqn:E2; cbn|]; split.
  - intros H. injection H as <-. repeat split; lia.
  - intros (-> & -> & ->). reflexivity.
  - discriminate.
  - lia.
  - discriminate.
  - lia.
Qed.

Section Step.
  Context {V : Type} (dt : dtype V R).

  (** The parameters move against (GW, GB), the loss variable holds the loss
      before the step, the inputs and everything outside the variables are
      untouched; (GW, GB) is the gradient of the loss of the batch wherever no
      prediction is clamped. *)
  Theorem C75_step : forall n d k E e eps X Y W B s,
    1 <= n -> 0 <= d -> 0 <= k -> env_ok n d k E -> engine_ok Rsc e [n; d; k] ->
    fresh_ok s -> (forall v, mapped s (E v)) ->
    holds dt s (E XS) (arg2 X) -> holds dt s (E Y_S) (arg2 Y) ->
    holds dt s (E W_) (arg2 W) -> holds dt s (E B_) (arg1 B) ->
    holds dt s (E G_LS) (fun _ => / IZR n)%R ->
    exists s' GW GB, train_step dt Rsc exp ln eps (div_float Rsc) e E s = Ok tt s' /\
      holds dt s' (E W_) (arg2 (fun a j => W a j - GW a j)%R) /\
      holds dt s' (E B_) (arg1 (fun j => B j - GB j)%R) /\
      holds dt s' (E L_) (fun _ => slp_loss eps n d k X Y W B) /\
      only_vars (fun v => ~ is_input v) E s s' /\ fresh_ok s' /\
      ((forall i, 0 <= i < n -> unclamped eps k (scores d X W B i)) ->
       is_gradient2 d k (slp_loss eps n d k X Y) W B GW GB).
  Proof using.
    intros n d k E e eps X Y W B s Hn Hd Hk OK He Hf Hm HX HY HW HB HG.
    set (A := fun v => match v with
                       | XS => Some (arg2 X) | Y_S => Some (arg2 Y) | W_ => Some (arg2 W) | B_ => Some (arg1 B)
                       | G_LS => Some (fun _ : list Z => / IZR n)%R | _ => None end).
    destruct (train_step_ok dt n d k E Hn Hd Hk OK e eps X Y W B A s He) as (s' & A' & E' & I' & O' & W' & B' & L' & _);
      try reflexivity.
    { split; [exact Hf|]. split; [exact Hm|]. intros v Z0 Q. destruct v; cbn in Q; try discriminate; injection Q as <-; assumption. }
    exists s', (slp_gw eps n d k X Y W B), (slp_gb eps n d k X Y W B).
    destruct I' as (F' & _ & H').
    split; [exact E'|]. split; [exact (H' _ _ W')|]. split; [exact (H' _ _ B')|]. split; [exact (H' _ _ L')|].
    split; [exact O'|]. split; [exact F'|]. intros Hu. apply slp_gradient; auto. apply (IZR_lt 0). lia.
  Qed.

  (** The same with the update spelled out, clamped or not: when the labels of
      every example sum to 1 the error of a score is (prediction - label)/n. *)
  Theorem C75_update : forall n d k E e eps X Y W B s,
    1 <= n -> 0 <= d -> 0 <= k -> env_ok n d k E -> engine_ok Rsc e [n; d; k] ->
    fresh_ok s -> (forall v, mapped s (E v)) ->
    holds dt s (E XS) (arg2 X) -> holds dt s (E Y_S) (arg2 Y) ->
    holds dt s (E W_) (arg2 W) -> holds dt s (E B_) (arg1 B) ->
    holds dt s (E G_LS) (fun _ => / IZR n)%R ->
    (forall i, 0 <= i < n -> rsum k (Y i) = 1%R) ->
    let err i j := ((predict eps d k X W B i j - Y i j) / IZR n)%R in
    exists s', train_step dt Rsc exp ln eps (div_float Rsc) e E s = Ok tt s' /\
      holds dt s' (E W_) (arg2 (fun a j => W a j - rsum n (fun i => X i a * err i j)))%R /\
      holds dt s' (E B_) (arg1 (fun j => B j - rsum n (fun i => err i j)))%R.
  Proof using.
    intros n d k E e eps X Y W B s Hn Hd Hk OK He Hf Hm HX HY HW HB HG H1 err.
    set (A := fun v => match v with
                       | XS => Some (arg2 X) | Y_S => Some (arg2 Y) | W_ => Some (arg2 W) | B_ => Some (arg1 B)
                       | G_LS => Some (fun _ : list Z => / IZR n)%R | _ => None end).
    destruct (train_step_ok dt n d k E Hn Hd Hk OK e eps X Y W B A s He) as (s' & A' & E' & I' & O' & W' & B' & L' & _);
      try reflexivity.
    { split; [exact Hf|]. split; [exact Hm|]. intros v Z0 Q. destruct v; cbn in Q; try discriminate; injection Q as <-; assumption. }
    destruct I' as (F' & _ & H'). exists s'. split; [exact E'|].
    assert (Q : forall i j, 0 <= i < n -> slp_delta eps n d k X Y W B i j = err i j).
    { intros i j Hi. unfold slp_delta, err. rewrite (H1 i Hi), Rmult_1_r. reflexivity. }
    split; (eapply holds_ext; [|apply H'; eassumption]); intros ix _; unfold arg1, arg2, descend, slp_gw, slp_gb;
      cbn [fst snd]; f_equal; apply rsum_ext; intros i Hi; rewrite Q by auto; reflexivity.
  Qed.
End Step.

(** Along the direction of the step the loss decreases at first ... *)
Theorem C75_descent : forall eps n d k X Y W B, 1 <= n ->
  (forall i, 0 <= i < n -> unclamped eps k (scores d X W B i)) ->
  exists GW GB, is_gradient2 d k (slp_loss eps n d k X Y) W B GW GB /\
    is_derive (fun t => slp_loss eps n d k X Y (fun a j => W a j - t * GW a j)%R (fun j => B j - t * GB j)%R) 0%R
      (- (rsum d (fun a => rsum k (fun j => GW a j ^ 2)) + rsum k (fun j => GB j ^ 2)))%R.
Proof.
  intros eps n d k X Y W B Hn Hu.
  pose proof (slp_gradient eps n d k X Y W B ltac:(apply (IZR_lt 0); lia) Hu) as G.
  eexists _, _. split; [exact G|].
  set (GW := slp_gw eps n d k X Y W B) in *. set (GB := slp_gb eps n d k X Y W B) in *.
  pose proof (G (fun a j => - GW a j)%R (fun j => - GB j)%R) as Q.
  replace (- (rsum d (fun a => rsum k (fun j => GW a j ^ 2)) + rsum k (fun j => GB j ^ 2)))%R
    with (rsum d (fun a => rsum k (fun j => GW a j * - GW a j)) + rsum k (fun j => GB j * - GB j))%R.
  - eapply is_derive_ext; [|exact Q]. intros t. unfold slp_loss, Rdiv. f_equal.
    apply rsum_ext. intros i Hi. apply xent_ext. intros j Hj. apply softmax_ext. intros l. unfold scores.
    f_equal; [apply rsum_ext; intros; ring|ring].
  - transitivity (-1 * (rsum d (fun a => rsum k (fun j => GW a j ^ 2)) + rsum k (fun j => GB j ^ 2)))%R; [|ring].
    rewrite Rmult_plus_distr_l, <- !rsum_scal_l. f_equal.
    + apply rsum_ext. intros a Ha. rewrite <- rsum_scal_l. apply rsum_ext. intros; ring.
    + apply rsum_ext. intros; ring.
Qed.

(** ... but the step has length 1 and may overshoot. *)
Theorem C75_increase_refuted : forall eps, (0 < eps < 1 / 4)%R -> exists n d k X Y W B,
  1 <= n /\ (forall i, 0 <= i < n -> rsum k (Y i) = 1%R) /\
  (forall i, 0 <= i < n -> unclamped eps k (scores d X W B i)) /\
  let err i j := ((predict eps d k X W B i j - Y i j) / IZR n)%R in
  (slp_loss eps n d k X Y W B <
   slp_loss eps n d k X Y (fun a j => W a j - rsum n (fun i => X i a * err i j)) (fun j => B j - rsum n (fun i => err i j)))%R.
Proof.
  intros eps He.
  set (X := fun (i : Z) (_ : Z) => if i =? 0 then 10%R else 9%R).
  set (Y := fun i j : Z => if i =? j then 1%R else 0%R).
  set (W := fun _ _ : Z => 0%R). set (B := fun _ : Z => 0%R).
  exists 2, 1, 2, X, Y, W, B.
  assert (R1 : forall f, rsum 1 f = f 0).
  { intros f. unfold rsum. change (zrange 1) with [0]. rewrite list_sum_cons. cbn. ring. }
  assert (Sc : forall i j, scores 1 X W B i j = 0%R).
  { intros i j. unfold scores. rewrite R1. unfold W, B. ring. }
  assert (Pr : forall i j, predict eps 1 2 X W B i j = (1/2)%R).
  { intros i j. unfold predict, softmax_fn. rewrite rsum_2, !Sc, exp_0. rewrite Rmax_right; lra. }
  split; [lia|]. split; [|split].
  - intros i Hi. rewrite rsum_2. unfold Y. assert (C : i = 0 \/ i = 1) by lia. destruct C as [-> | ->]; cbn; lra.
  - intros i Hi j Hj. rewrite rsum_2, !Sc, exp_0. lra.
  - intros err.
    assert (L0 : slp_loss eps 2 1 2 X Y W B = ln 2).
    { unfold slp_loss, xent_fn. rewrite !rsum_2, !Pr. unfold Y; cbn.
      replace (1/2)%R with (/2)%R by lra. rewrite ln_Rinv by lra. lra. }
    rewrite L0.
    set (W' := fun a j => (W a j - rsum 2 (fun i => X i a * err i j))%R).
    set (B' := fun j => (B j - rsum 2 (fun i => err i j))%R).
    assert (S1 : scores 1 X W' B' 1 0 = (9/4)%R /\ scores 1 X W' B' 1 1 = (-9/4)%R).
    { unfold scores. rewrite !R1. unfold W', B'. rewrite !rsum_2. unfold err. rewrite !Pr. unfold X, Y, W, B. cbn. lra. }
    destruct S1 as [S10 S11].
    set (p11 := predict eps 1 2 X W' B' 1 1). set (p00 := predict eps 1 2 X W' B' 0 0).
    assert (P11 : (p11 < 1/4)%R).
    { unfold p11, predict, softmax_fn. rewrite rsum_2, S10, S11. apply Rmax_lub_lt; [lra|].
      pose proof (exp_pos (-9/4)) as Q1. pose proof (exp_pos (9/4)) as Q2.
      apply Rmult_lt_reg_r with (exp (9 / 4) + exp (-9 / 4))%R; [lra|].
      unfold Rdiv at 1. rewrite Rmult_assoc, Rinv_l, Rmult_1_r by lra.
      assert (Q3 : exp (9/4) = (exp (9/2) * exp (-9/4))%R) by (rewrite <- exp_plus; f_equal; lra).
      rewrite Q3. pose proof (exp_ineq1 (9/2) ltac:(lra)). nra. }
    assert (P11' : (0 < p11)%R) by (apply C33_range; lia).
    assert (P00 : (0 < p00 <= 1)%R).
    { split; [apply C33_range; lia|]. unfold p00, predict.
      pose proof (C33_range eps 2 (scores 1 X W' B' 0) 0 ltac:(lia)) as [[_ Q] _].
      rewrite Rmax_right in Q by lra. exact Q. }
    unfold slp_loss, xent_fn. rewrite !rsum_2. unfold Y; cbn -[IZR p00 p11]. fold p00 p11.
    assert (A1 : (ln (p11) < - (2 * ln 2))%R).
    { replace (- (2 * ln 2))%R with (ln (1/4)).
      - apply ln_increasing; auto.
      - replace (1/4)%R with (/ (2 * 2))%R by lra. rewrite ln_Rinv, ln_mult by lra. ring. }
    assert (A2 : (ln (p00) <= 0)%R).
    { rewrite <- ln_1. destruct P00 as [Q1 [Q2|Q2]]; [left; apply ln_increasing; auto|rewrite Q2; lra]. }
    fold W' B'. lra.
Qed.

(** *** C76: loading a batch. *)
(** Row [i] of the batch is image [off + i] with its pixels converted and its
    rows concatenated; row [i] of the labels is the indicator of label [off + i]. *)
Theorem C76_load : forall V (dt : dtype V R) (du : dtype V Z) f N h w n k off images labels xs y_s I_ L s,
  0 <= n -> 0 <= h -> 0 <= w -> 0 <= k <= 255 -> 0 <= off -> off + n <= N ->
  tdims images = [N; h; w] -> tdims labels = [N] -> tdims xs = [n; h * w] -> tdims y_s = [n; k] ->
  holds du s images (arg3 I_) -> holds du s labels (arg1 L) -> mapped s xs -> mapped s y_s ->
  disjoint xs images -> disjoint xs labels -> disjoint y_s labels -> disjoint xs y_s ->
  exists s', load_data dt du Rsc f h w images labels off n xs y_s s = Ok tt s' /\
    holds dt s' xs (arg2 (fun i a => f (I_ (off + i) (a / w) (a mod w)))) /\
    holds dt s' y_s (arg2 (fun i j => if L (off + i) =? j then 1%R else 0%R)) /\
    nextb s <= nextb s' /\ (forall p, ~ foot xs p -> ~ foot y_s p -> cells s' p = cells s p).
Proof.
  intros V dt du f N h w n k off images labels xs y_s I_ L s Hn Hh Hw Hk Ho Hb Ei El Ex Ey HI HL Mx My D1 D2 D3 D4.
  destruct (load_x dt du n h w N off images Hn Hh Hw Ei Ho Hb f I_ xs s Ex Mx D1 HI) as (s1 & E1 & H1 & N1 & F1).
  destruct (load_y dt Rsc du n N off labels Hn El Ho Hb L k y_s s1 Hk Ey) as (s2 & E2 & H2 & N2 & F2); auto.
  { eapply mapped_frame; [|exact My]. intros p Hp. apply F1. intros Q. exact (D4 p Q Hp). }
  { eapply holds_frame; [|exact HL]. intros p Hp. apply F1. intros Q. exact (D2 p Q Hp). }
  exists s2. unfold load_data. rewrite (bind_ok _ _ _ _ _ E1). split; [exact E2|].
  split; [|split; [exact H2|split; [lia|]]].
  - eapply holds_frame; [|exact H1]. intros p Hp. apply F2. intros Q. exact (D4 p Hp Q).
  - intros p Q1 Q2. rewrite F2, F1; auto.
Qed.

(** *** C77: the training loop. *)
Theorem C77_train : forall V (dt : dtype V R) (du : dtype V Z) e eps f half N h w n k images labels wt b I_ L W B s,
  1 <= n < 2 ^ 32 -> 0 <= N < 2 ^ 32 -> 0 <= h -> 0 <= w -> 0 <= k <= 255 -> engine_ok Rsc e [n; h * w; k] ->
  tdims images = [N; h; w] -> tdims labels = [N] -> tdims wt = [h * w; k] -> tdims b = [k] -> fresh_ok s ->
  holds du s images (arg3 I_) -> holds du s labels (arg1 L) -> holds dt s wt (arg2 W) -> holds dt s b (arg1 B) ->
  disjoint wt b -> disjoint wt images -> disjoint wt labels -> disjoint b images -> disjoint b labels ->
  let P := epoch eps n (h * w) k (batch_x f w n I_) (batch_y n L) (N / n) (W, B) in
  exists s', train_slp_model dt du Rsc exp ln eps (div_float Rsc) e f half (/ IZR n)%R k images labels wt b n s = Ok tt s' /\
    holds dt s' wt (arg2 (fst P)) /\ holds dt s' b (arg1 (snd P)) /\
    nextb s <= nextb s' /\ (forall p, ~ foot wt p -> ~ foot b p -> cells s' p = cells s p).
Proof.
  intros V dt du e eps f half N h w n k images labels wt b I_ L W B s Hn HN Hh Hw Hk He Ei El Ew Eb Hf HI HL HW HB
    D1 D2 D3 D4 D5 P.
  pose proof (train_run dt Rsc du exp ln eps (div_float Rsc) e (/ IZR n)%R (descend eps n (h * w) k) f half N h w n k
    images labels wt b I_ L W B s Hn HN Hh Hw Hk) as Q. apply Q; auto.
  intros E X Y W0 B0 A s0 OK I0 AX AY AW AB AG.
  destruct (train_step_ok dt n (h * w) k E ltac:(lia) ltac:(nia) ltac:(lia) OK e eps X Y W0 B0 A s0)
    as (s' & A' & E' & I' & O' & W' & B' & _ & K'); auto.
  exists s', A'. auto 10.
Qed.

(** A batch size of 0 divides by zero. *)
Theorem C77_zero_batch : forall V (dt : dtype V R) (du : dtype V Z) e eps f half inv k images labels wt b s,
  fresh_ok s -> 
  train_slp_model dt du Rsc exp ln eps (div_float Rsc) e f half inv k images labels wt b 0 s = UB.
Proof.
  intros V dt du e eps f half inv k images labels wt b s Hf. unfold train_slp_model. cbv zeta.
  match goal with |- with_vars ?l ?E ?k s = UB =>
    destruct (with_vars_run l E k s Hf ltac:(repeat constructor; cbn; intuition discriminate))
      as (E' & s1 & (N1 & F1 & C1 & L1 & K1 & B1) & R1) end.
  destruct (L1 G_L [] ltac:(cbn; tauto)) as (Q1 & Q2 & Q3). destruct (L1 G_LS [0] ltac:(cbn; tauto)) as (Q4 & Q5 & Q6).
  assert (FG : foot (E' G_L) (daddr (E' G_L) 0)) by (apply daddr_foot; unfold size; rewrite Q2; cbn; lia).
  rewrite (bind_ok _ _ _ _ _ (store_ok dt s1 (daddr (E' G_L) 0) half (Q3 _ FG))) in R1.
  match type of R1 with context[(fill dt (E' G_LS) inv ;;; _) ?s2] =>
    destruct (fill_holds dt (E' G_LS) inv s2) as (s3 & Q7 & _) end.
  { unfold dims_ok. rewrite Q5. repeat constructor; lia. }
  { intros p (o & Ho & _). unfold size in Ho. rewrite Q5 in Ho. cbn in Ho. lia. }
  rewrite (bind_ok _ _ _ _ _ Q7) in R1. exact R1.
Qed.

(** Examples after the last full batch have no influence. *)
Lemma descend_ext : forall eps n d k X Y X' Y' P,
  (forall i a, 0 <= i < n -> X i a = X' i a) -> (forall i j, 0 <= i < n -> Y i j = Y' i j) ->
  descend eps n d k X Y P = descend eps n d k X' Y' P.
Proof.
  intros eps n d k X Y X' Y' [W B] HX HY.
  assert (E : forall i j, 0 <= i < n -> slp_delta eps n d k X Y W B i j = slp_delta eps n d k X' Y' W B i j).
  { intros i j Hi. unfold slp_delta. rewrite HY by auto.
    replace (rsum k (Y i)) with (rsum k (Y' i)) by (apply rsum_ext; intros; symmetry; auto).
    do 3 f_equal. unfold predict. apply softmax_ext. intros l. unfold scores. f_equal. apply rsum_ext. intros a Ha.
    rewrite HX by auto. reflexivity. }
  unfold descend, slp_gw, slp_gb. cbn [fst snd]. f_equal.
  - apply functional_extensionality. intros a. apply functional_extensionality. intros j. f_equal.
    apply rsum_ext. intros i Hi. rewrite E, HX by auto. reflexivity.
  - apply functional_extensionality. intros j. f_equal. apply rsum_ext. auto.
Qed.

Theorem C77_remainder : forall eps f n w h k N I1 I2 L1 L2 P, 1 <= n -> 0 <= N ->
  (forall i, 0 <= i < N - N mod n -> (forall y x, I1 i y x = I2 i y x) /\ L1 i = L2 i) ->
  epoch eps n (h * w) k (batch_x f w n I1) (batch_y n L1) (N / n) P =
  epoch eps n (h * w) k (batch_x f w n I2) (batch_y n L2) (N / n) P.
Proof.
  intros eps f n w h k N I1 I2 L1 L2 P Hn HN H. unfold epoch.
  assert (Q : forall l P, (forall o, In o l -> 0 <= o < N / n) ->
    fold_left (fun p o => descend eps n (h * w) k (batch_x f w n I1 o) (batch_y n L1 o) p) l P =
    fold_left (fun p o => descend eps n (h * w) k (batch_x f w n I2 o) (batch_y n L2 o) p) l P).
  { induction l as [|o l IH]; intros P0 Hl; [reflexivity|]. cbn [fold_left].
    assert (Ho : 0 <= o < N / n) by (apply Hl; left; reflexivity).
    assert (Hb : forall i, 0 <= i < n -> 0 <= o * n + i < N - N mod n).
    { intros i Hi. pose proof (Z.div_mod N n ltac:(lia)). nia. }
    rewrite (descend_ext eps n (h * w) k (batch_x f w n I1 o) (batch_y n L1 o) (batch_x f w n I2 o) (batch_y n L2 o)).
    - apply IH. intros; apply Hl; right; auto.
    - intros i a Hi. unfold batch_x. rewrite (proj1 (H _ (Hb i Hi))). reflexivity.
    - intros i j Hi. unfold batch_y. rewrite (proj2 (H _ (Hb i Hi))). reflexivity. }
  apply Q. intros o. apply in_zrange.
Qed.

(** *** C78: testing. *)
Theorem C78_accuracy : forall V (dt : dtype V R) (dn : dtype V Z) (df : dtype V R) n k ys y_s X Y s,
  fresh_ok s -> 1 <= n -> 1 <= k <= 2 ^ 32 ->
  tdims ys = [n; k] -> tdims y_s = [n; k] -> holds dt s ys (arg2 X) -> holds dt s y_s (arg2 Y) ->
  exists s' (J1 J2 : Z -> Z),
    accuracy dt dn Rsc df Rsc ys y_s s = Ok (IZR (count n (fun i => J1 i =? J2 i)) / IZR n)%R s' /\
    nextb s <= nextb s' /\ (forall p, cells s' p = cells s p) /\
    (forall i, 0 <= i < n -> first_max k (X i) (J1 i) /\ first_max k (Y i) (J2 i)).
Proof. intros V dt dn df. exact (accuracy_ok dt dn df). Qed.

Lemma slp_writes : forall V (dt : dtype V R) e ys xs wt b n d k X W B s, engine_ok Rsc e [n; d; k] ->
  tdims ys = [n; k] -> tdims xs = [n; d] -> tdims wt = [d; k] -> tdims b = [k] -> 0 <= n -> 0 <= d -> 0 <= k ->
  holds dt s xs (arg2 X) -> holds dt s wt (arg2 W) -> holds dt s b (arg1 B) -> mapped s ys ->
  disjoint ys xs -> disjoint ys wt -> disjoint ys b ->
  writes dt (slp dt Rsc e ys xs wt b) s ys (arg2 (scores d X W B)).
Proof.
  intros V dt e ys xs wt b n d k X W B s He Ey Ex Ew Eb Hn Hd Hk HX HW HB My D1 D2 D3.
  assert (Dy : dims_ok ys) by (unfold dims_ok; rewrite Ey; repeat constructor; lia).
  destruct (writes_then dt dt (op_matmul dt Rsc e ys xs wt) (op_bias dt hw (f_add Rsc) ys ys b) s ys ys
    (matmul_fn Rsc d (arg2 X) (arg2 W)) (arg2 (scores d X W B))) as (s' & E' & N' & H' & F').
  - eapply (C26_matmul dt Rsc e _ _ _ n d k); eauto.
  - intros s1 H1 O1. eapply writes_ext; [reflexivity| |
      eapply (C30_add_bias dt Rsc hw 2 1 ys ys b k (matmul_fn Rsc d (arg2 X) (arg2 W)) (arg1 B))]; auto.
    + left; auto.
    + rewrite Ey; reflexivity.
    + rewrite Ey; reflexivity.
    + destruct O1 as [_ F]. eapply holds_frame; [|exact HB]. intros p Hp. apply F. intros Q. exact (D3 p Q Hp).
    + eapply holds_mapped; eauto.
    + apply safe_refl.
  - exists s'. split; [exact E'|]. split; [exact H'|]. split; [exact N'|]. intros p Hp. auto.
Qed.

(** The accuracy is the share of examples whose greatest score (the first, if
    several are equal) is at the position of the label; nothing is modified. *)
Theorem C78_test : forall V (dt : dtype V R) (du dn : dtype V Z) (df : dtype V R) e f N h w k images labels wt b I_ L W B s,
  1 <= N -> 0 <= h -> 0 <= w -> 1 <= k <= 255 -> engine_ok Rsc e [N; h * w; k] ->
  tdims images = [N; h; w] -> tdims labels = [N] -> tdims wt = [h * w; k] -> tdims b = [k] -> fresh_ok s ->
  holds du s images (arg3 I_) -> holds du s labels (arg1 L) -> holds dt s wt (arg2 W) -> holds dt s b (arg1 B) ->
  (forall i, 0 <= i < N -> 0 <= L i < k) ->
  let pixel i a := f (I_ i (a / w) (a mod w)) in
  let score i j := (rsum (h * w)%Z (fun a => pixel i a * W a j) + B j)%R in
  exists s' J, test_slp_model dt du dn Rsc e df Rsc f k images labels wt b s
      = Ok (IZR (count N (fun i => J i =? L i)) / IZR N)%R s' /\
    (forall i, 0 <= i < N -> first_max k (score i) (J i)) /\
    nextb s <= nextb s' /\ (forall p, cells s' p = cells s p).
Proof.
  intros V dt du dn df e f N h w k images labels wt b I_ L W B s HN Hh Hw Hk He Ei El Ew Eb Hf HI HL HW HB Lk pixel score.
  set (d := h * w) in *. assert (Hd : 0 <= d) by (unfold d; nia).
  assert (Mw : mapped s wt) by (eapply holds_mapped; eauto; unfold dims_ok; rewrite Ew; repeat constructor; lia).
  assert (Mb : mapped s b) by (eapply holds_mapped; eauto; unfold dims_ok; rewrite Eb; repeat constructor; lia).
  assert (Mi : mapped s images) by (eapply holds_mapped; eauto; unfold dims_ok; rewrite Ei; repeat constructor; lia).
  assert (Ml : mapped s labels) by (eapply holds_mapped; eauto; unfold dims_ok; rewrite El; repeat constructor; lia).
  unfold test_slp_model. cbv zeta. unfold nth_dim. rewrite Ei. cbn [nth]. fold d.
  match goal with |- context[with_vars ?l ?E ?k s] =>
    destruct (with_vars_run l E k s Hf ltac:(repeat constructor; cbn; intuition discriminate))
      as (E' & s1 & (N1 & F1 & C1 & L1 & K1 & B1) & R1) end.
  destruct (L1 XS [N; d] ltac:(cbn; tauto)) as (Bx & Ex & Mx).
  destruct (L1 YS [N; k] ltac:(cbn; tauto)) as (By & Ey & My).
  destruct (L1 Y_S [N; k] ltac:(cbn; tauto)) as (Bz & Ez & Mz).
  assert (Dxy : disjoint (E' XS) (E' YS)) by (apply blk_disjoint, B1; cbn; [tauto|tauto|discriminate]).
  assert (Dxz : disjoint (E' XS) (E' Y_S)) by (apply blk_disjoint, B1; cbn; [tauto|tauto|discriminate]).
  assert (Dyz : disjoint (E' YS) (E' Y_S)) by (apply blk_disjoint, B1; cbn; [tauto|tauto|discriminate]).
  assert (Ewt : E' W_ = wt) by (rewrite K1; [reflexivity|cbn; intuition discriminate]).
  assert (Ebt : E' B_ = b) by (rewrite K1; [reflexivity|cbn; intuition discriminate]).
  rewrite Ewt, Ebt in R1. clear K1 B1 L1.
  assert (Old : forall t p, mapped s t -> foot t p -> fst p < nextb s) by (intros; eapply foot_fresh; eauto).
  assert (Dn : forall v t, nextb s <= tblk (E' v) -> mapped s t -> disjoint (E' v) t).
  { intros v t Q Mt p (o & _ & ->) P2. pose proof (Old _ _ Mt P2). cbn in *. lia. }
  assert (Kp : forall T (dt : dtype V T) t X, mapped s t -> holds dt s t X -> holds dt s1 t X).
  { intros T dt' t X Mt H. eapply holds_frame; [|exact H]. intros p Hp. apply C1. eauto. }
  destruct (C76_load V dt du f N h w N k 0 images labels (E' XS) (E' Y_S) I_ L s1) as (s2 & E2 & HX & HY & N2 & F2);
    try lia; auto; try (apply Dn; [lia|assumption]).
  rewrite (bind_ok _ _ _ _ _ E2) in R1.
  assert (K2 : forall T (dt : dtype V T) t X, mapped s t -> holds dt s1 t X -> holds dt s2 t X).
  { intros T dt' t X Mt H. eapply holds_frame; [|exact H]. intros p Hp. apply F2; intros (o & _ & Q); subst p.
    - pose proof (Old _ _ Mt Hp). cbn in *. lia.
    - pose proof (Old _ _ Mt Hp). cbn in *. lia. }
  destruct (slp_writes V dt e (E' YS) (E' XS) wt b N d k _ W B s2 He Ey Ex Ew Eb ltac:(lia) Hd ltac:(lia) HX) as (s3 & E3 & HS & N3 & F3);
    auto; try (apply Dn; [lia|assumption]).
  { eapply mapped_frame; [|exact My]. intros p Hp. apply F2; intros Q; [exact (Dxy p Q Hp)|exact (Dyz p Hp Q)]. }
  { apply disjoint_sym, Dxy. }
  rewrite (bind_ok _ _ _ _ _ E3) in R1.
  assert (F3' : fresh_ok s3).
  { intros p Hp. rewrite F3, F2; [apply F1; lia| | |]; intros (o & _ & ->); cbn in Hp; lia. }
  destruct (accuracy_ok dt dn df N k (E' YS) (E' Y_S) _ _ s3 F3' HN ltac:(lia) Ey Ez HS
    ltac:(eapply holds_frame; [|exact HY]; intros p Hp; apply F3; intros Q; exact (Dyz p Q Hp)))
    as (s4 & J1 & J2 & E4 & N4 & F4 & HJ).
  rewrite E4 in R1. destruct R1 as (s' & R1 & Nr & Cr).
  assert (EJ : forall i, 0 <= i < N -> J2 i = L i).
  { intros i Hi. destruct (proj2 (HJ i Hi)) as (Q1 & Q2 & _). specialize (Q2 (L i) (Lk i Hi)). cbv beta in Q2.
    change (0 + i) with i in Q2. rewrite Z.eqb_refl in Q2. destruct (L i =? J2 i) eqn:Q; [lia|]. lra. }
  exists s', J1. split; [|split; [|split]].
  - rewrite R1. replace (count N (fun i => J1 i =? L i)) with (count N (fun i => J1 i =? J2 i)); [reflexivity|].
    unfold count. do 2 f_equal. apply filter_ext_in. intros i Hi. apply in_zrange in Hi.
    rewrite EJ by auto. reflexivity.
  - intros i Hi. exact (proj1 (HJ i Hi)).
  - lia.
  - intros p. rewrite Cr. destruct ((nextb s <=? fst p) && (fst p <? nextb s1)) eqn:Q.
    + symmetry. apply Hf. lia.
    + assert (G : forall v, nextb s <= tblk (E' v) < nextb s1 -> ~ foot (E' v) p).
      { intros v Hv (o & _ & ->). cbn in Q. lia. }
      rewrite F4, F3, F2 by auto.
      destruct (Z_lt_dec (fst p) (nextb s)) as [Q1|Q1]; [apply C1; auto|].
      rewrite (F1 p) by lia. symmetry. apply Hf. lia.
Qed.

(** *** Examples. *)
(** Rational cells, integers stored as rationals; powers of two in place of exp. *)
Lemma qz_proof : forall x : Z, Some (Qfloor (inject_Z x)) = Some x.
Proof. intros x. rewrite Qfloor_Z. reflexivity. Qed.
Definition qz : dtype Q Z := mkdtype Q Z inject_Z (fun q => Some (Qfloor q)) qz_proof.
Definition logq (q : Q) : Q := Qred (q - 1).
Definition divq (q : Q) (n : Z) : outcome Q := sdiv Qsc q (inject_Z n).
Local Open Scope Q_scope.
(** Images (2 0), (0 1), (1 1) with labels 0 0 1, weights and biases. *)
Definition mnist3 : st Q := demo [[2; 0; 0; 1; 1; 1]; [0; 0; 1]; [0; 0; 0; 0]; [0; 0]].
Definition imgs := T_ 0 [3; 1; 2]%Z.
Definition labs := T_ 1 [3]%Z.
Definition wgt := T_ 2 [2; 2]%Z.
Definition bia := T_ 3 [2]%Z.

(** The step on the first two examples: the predictions are 1/2 each, so the
    errors are (-1/4 1/4) for both. *)
Example C75_example :
  let E v := T_ (match v with W_ => 0 | B_ => 1 | XS => 2 | ZS => 3 | YS => 4 | Y_S => 5 | LS => 6 | L_ => 7 | G_L => 8
                 | G_LS => 9 | G_YS => 10 | G_ZS => 11 | G_W => 12 | G_B => 13 end)%Z (var_shape 2 2 2 v) in
  let s := demo [[0; 0; 0; 0]; [0; 0]; [2; 0; 0; 1]; [9; 9; 9; 9]; [9; 9; 9; 9]; [1; 0; 1; 0]; [9; 9]; [9]; [9];
                 [1#2; 1#2]; [9; 9; 9; 9]; [9; 9; 9; 9]; [9; 9; 9; 9]; [9; 9]] in
  let m := train_step qt Qsc exp2 logq (1#1000) divq Builtin E in
  run m s (E W_) = Some (inits [1#2; -1#2; 1#4; -1#4]) /\
  run m s (E B_) = Some (inits [1#2; -1#2]) /\
  run m s (E L_) = Some (inits [1#2]).
Proof. vm_compute. auto. Qed.

Example C76_example :
  let m := load_data qt qz Qsc (fun x => Qred (inject_Z x / 2)) 1 2 imgs labs 1 2 (T_ 2 [2; 2]%Z) (T_ 4 [2; 2]%Z) in
  let s := demo [[2; 0; 0; 1; 1; 1]; [0; 0; 1]; [9; 9; 9; 9]; [0; 0]; [9; 9; 9; 9]] in
  run m s (T_ 2 [4%Z]) = Some (inits [0; 1#2; 1#2; 1#2]) /\ run m s (T_ 4 [4%Z]) = Some (inits [1; 0; 0; 1]).
Proof. vm_compute. auto. Qed.

(** Batches of 2 of the 3 examples: one step; the third example is not used. *)
Example C77_example :
  let m := train_slp_model qt qz Qsc exp2 logq (1#1000) divq Builtin inject_Z (1#2) (1#2) 2 imgs labs wgt bia 2 in
  run m mnist3 wgt = Some (inits [1#2; -1#2; 1#4; -1#4]) /\
  run m mnist3 bia = Some (inits [1#2; -1#2]) /\
  match m mnist3 with Ok _ s => cells s (4, 0)%Z = Unmapped | _ => False end.
Proof. vm_compute. auto. Qed.

(** With the parameters above, 2 of the 3 examples are classified correctly. *)
Example C78_example :
  match test_slp_model qt qz qz Qsc Builtin qt Qsc inject_Z 2 imgs labs wgt bia
    (demo [[2; 0; 0; 1; 1; 1]; [0; 0; 1]; [1#2; -1#2; 1#4; -1#4]; [1#2; -1#2]]) with
  | Ok a _ => a = 2#3 | _ => False end.
Proof. vm_compute. auto. Qed.
Local Close Scope Q_scope.

Print Assumptions C75_shape.
Print Assumptions C75_step.
Print Assumptions C75_update.
Print Assumptions C75_descent.
Print Assumptions C75_increase_refuted.
Print Assumptions C76_load.
Print Assumptions C77_train.
Print Assumptions C77_zero_batch.
Print Assumptions C77_remainder.
Print Assumptions C78_accuracy.
Print Assumptions C78_test.
