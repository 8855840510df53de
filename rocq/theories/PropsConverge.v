(** Property C91: when training makes progress.

    The training step of example_train_mnist_slp.cpp over exact reals. *)
From Coq Require Import ZArith List Bool Lia ZifyBool Reals Lra.
From Coquelicot Require Import Coquelicot.
From Verif Require Import Base BaseFacts Traits Scalar RealScalar SumFacts TensorFacts LinAlg LinAlgFacts
  Activation ActivationSpec ActivationFacts SoftmaxFacts PropsSoftmax Summary PropsSummary Pool Elem ConvFacts ConvGradFacts Train TrainSpec TrainFacts TrainGrad
  PredictSpec PredictFacts PropsTrain Demo PropsLayers2 ConvergeSpec ConvergeFacts.
Import ListNotations.
Open Scope Z_scope.
Open Scope model_scope.

(** *** C91: when training makes progress. *)
Section Converge.
  Context {V : Type} (dt : dtype V R).

  Lemma run_step : forall n d k E e eps X Y W B s,
    1 <= n -> 0 <= d -> 0 <= k -> env_ok n d k E -> engine_ok Rsc e [n; d; k] ->
    fresh_ok s -> (forall v, mapped s (E v)) ->
    holds dt s (E XS) (arg2 X) -> holds dt s (E Y_S) (arg2 Y) ->
    holds dt s (E W_) (arg2 W) -> holds dt s (E B_) (arg1 B) ->
    holds dt s (E G_LS) (fun _ => / IZR n)%R ->
    exists s', train_step dt Rsc exp ln eps (div_float Rsc) e E s = Ok tt s' /\
      fresh_ok s' /\ (forall v, mapped s' (E v)) /\
      holds dt s' (E XS) (arg2 X) /\ holds dt s' (E Y_S) (arg2 Y) /\
      holds dt s' (E W_) (arg2 (fst (descend eps n d k X Y (W, B)))) /\
      holds dt s' (E B_) (arg1 (snd (descend eps n d k X Y (W, B)))) /\
      holds dt s' (E G_LS) (fun _ => / IZR n)%R.
  Proof using.
    intros n d k E e eps X Y W B s Hn Hd Hk OK He Hf Hm HX HY HW HB HG.
    set (A := fun v => match v with
                       | XS => Some (arg2 X) | Y_S => Some (arg2 Y) | W_ => Some (arg2 W) | B_ => Some (arg1 B)
                       | G_LS => Some (fun _ : list Z => / IZR n)%R | _ => None end).
    destruct (train_step_ok dt n d k E Hn Hd Hk OK e eps X Y W B A s He) as (s' & A' & E' & I' & O' & W' & B' & L' & K');
      try reflexivity.
    { split; [exact Hf|]. split; [exact Hm|]. intros v Z0 Q. destruct v; cbn in Q; try discriminate; injection Q as <-; assumption. }
    destruct I' as (F' & M' & H'). exists s'. unfold is_input in K'.
    repeat (split; [first [exact E' | exact F' | exact M' | apply H'; first [exact W' | exact B' | rewrite K' by tauto; reflexivity]]|]).
    apply H'. rewrite K' by tauto. reflexivity.
  Qed.

  (** One step on a batch with labels that are distributions and no clamped
      prediction: the loss of the batch drops by (3 - M)/4 times the squared
      length of the step, M being the mean squared length of the examples. *)
  Theorem C91_step : forall n d k E e eps X Y W B s,
    1 <= n -> 0 <= d -> 1 <= k -> env_ok n d k E -> engine_ok Rsc e [n; d; k] ->
    fresh_ok s -> (forall v, mapped s (E v)) ->
    holds dt s (E XS) (arg2 X) -> holds dt s (E Y_S) (arg2 Y) ->
    holds dt s (E W_) (arg2 W) -> holds dt s (E B_) (arg1 B) ->
    holds dt s (E G_LS) (fun _ => / IZR n)%R ->
    labelled n k Y -> clear eps n d k X W B ->
    exists s' W' B', train_step dt Rsc exp ln eps (div_float Rsc) e E s = Ok tt s' /\
      holds dt s' (E W_) (arg2 W') /\ holds dt s' (E B_) (arg1 B') /\
      (slp_loss eps n d k X Y W' B' <=
       slp_loss eps n d k X Y W B -
       (3 - mean_square n d X) / 4 * sqnorm d k (fun a j => W a j - W' a j) (fun j => B j - B' j))%R.
  Proof using.
    intros n d k E e eps X Y W B s Hn Hd Hk OK He Hf Hm HX HY HW HB HG HL HC.
    destruct (run_step n d k E e eps X Y W B s) as (s' & R & _ & _ & _ & _ & W' & B' & _); auto; [lia|].
    exists s', (fst (descend eps n d k X Y (W, B))), (snd (descend eps n d k X Y (W, B))).
    split; [exact R|]. split; [exact W'|]. split; [exact B'|].
    eapply Rle_trans; [apply loss_le_free; auto|]. rewrite (loss_free eps n d k X Y W B HL HC).
    eapply Rle_trans; [apply (step_decrease eps n d k X Y Hn ltac:(lia) HL (W, B) HC)|]. right. do 2 f_equal.
    unfold sqnorm, descend; cbn [fst snd]. f_equal; apply rsum_ext; intros; [apply rsum_ext; intros|]; ring.
  Qed.

  (** Where a step changes nothing, no unclamped parameters have a lower loss. *)
  Theorem C91_optimal : forall n d k E e eps X Y W B s s',
    1 <= n -> 0 <= d -> 1 <= k -> env_ok n d k E -> engine_ok Rsc e [n; d; k] ->
    fresh_ok s -> (forall v, mapped s (E v)) ->
    holds dt s (E XS) (arg2 X) -> holds dt s (E Y_S) (arg2 Y) ->
    holds dt s (E W_) (arg2 W) -> holds dt s (E B_) (arg1 B) ->
    holds dt s (E G_LS) (fun _ => / IZR n)%R ->
    labelled n k Y -> clear eps n d k X W B ->
    train_step dt Rsc exp ln eps (div_float Rsc) e E s = Ok tt s' ->
    holds dt s' (E W_) (arg2 W) -> holds dt s' (E B_) (arg1 B) ->
    forall W1 B1, clear eps n d k X W1 B1 ->
      (slp_loss eps n d k X Y W B <= slp_loss eps n d k X Y W1 B1)%R.
  Proof using.
    intros n d k E e eps X Y W B s s' Hn Hd Hk OK He Hf Hm HX HY HW HB HG HL HC R HW' HB' W1 B1 HC1.
    destruct (run_step n d k E e eps X Y W B s) as (s2 & R2 & _ & _ & _ & _ & W2 & B2 & _); auto; [lia|].
    rewrite R in R2. injection R2 as <-.
    rewrite !loss_free by auto. pose proof (loss_convex eps n d k X Y W B W1 B1 Hn ltac:(lia) HL HC) as C.
    assert (GW : forall a j, 0 <= a < d -> 0 <= j < k -> slp_gw eps n d k X Y W B a j = 0%R).
    { intros a j Ha Hj. assert (Q : valid (tdims (E W_)) [a; j]) by (rewrite (proj1 OK); cbn; lia).
      pose proof (HW' _ Q) as Q1. pose proof (W2 _ Q) as Q2. rewrite Q1 in Q2. injection Q2 as Q2.
      apply (f_equal (prj dt)) in Q2. rewrite !prj_emb in Q2. unfold arg2, descend in Q2; cbn [fst snd] in Q2.
      injection Q2 as Q2. lra. }
    assert (GB : forall j, 0 <= j < k -> slp_gb eps n d k X Y W B j = 0%R).
    { intros j Hj. assert (Q : valid (tdims (E B_)) [j]) by (rewrite (proj1 OK); cbn; lia).
      pose proof (HB' _ Q) as Q1. pose proof (B2 _ Q) as Q2. rewrite Q1 in Q2. injection Q2 as Q2.
      apply (f_equal (prj dt)) in Q2. rewrite !prj_emb in Q2. unfold arg1, descend in Q2; cbn [fst snd] in Q2.
      injection Q2 as Q2. lra. }
    replace (inner d k (slp_gw eps n d k X Y W B) (fun a j => W1 a j - W a j)%R (slp_gb eps n d k X Y W B) (fun j => B1 j - B j)%R)
      with 0%R in C; [lra|].
    unfold inner. replace 0%R with (0 + 0)%R at 1 by ring. f_equal.
    - transitivity (rsum d (fun a => 0 * 1)%R); [rewrite rsum_scal_l; ring|]. apply rsum_ext. intros a Ha.
      transitivity (rsum k (fun a => 0 * 1)%R); [rewrite rsum_scal_l; ring|]. apply rsum_ext. intros j Hj.
      rewrite GW by auto. ring.
    - transitivity (rsum k (fun a => 0 * 1)%R); [rewrite rsum_scal_l; ring|]. apply rsum_ext. intros j Hj.
      rewrite GB by auto. ring.
  Qed.

  Lemma run_steps : forall n d k E e eps X Y,
    1 <= n -> 0 <= d -> 0 <= k -> env_ok n d k E -> engine_ok Rsc e [n; d; k] ->
    forall (l : list Z) p s,
    fresh_ok s -> (forall v, mapped s (E v)) ->
    holds dt s (E XS) (arg2 X) -> holds dt s (E Y_S) (arg2 Y) ->
    holds dt s (E W_) (arg2 (fst p)) -> holds dt s (E B_) (arg1 (snd p)) ->
    holds dt s (E G_LS) (fun _ => / IZR n)%R ->
    exists s', for_ l (fun _ => train_step dt Rsc exp ln eps (div_float Rsc) e E) s = Ok tt s' /\
      holds dt s' (E W_) (arg2 (fst (Nat.iter (length l) (descend eps n d k X Y) p))) /\
      holds dt s' (E B_) (arg1 (snd (Nat.iter (length l) (descend eps n d k X Y) p))).
  Proof using.
    intros n d k E e eps X Y Hn Hd Hk OK He. induction l as [|x l IH]; intros [W B] s Hf Hm HX HY HW HB HG.
    - exists s. cbn. auto.
    - destruct (run_step n d k E e eps X Y W B s) as (s1 & R & F1 & M1 & X1 & Y1 & W1 & B1 & G1); auto.
      destruct (IH (descend eps n d k X Y (W, B)) s1) as (s' & R' & W' & B'); auto.
      exists s'. cbn [for_]. rewrite (bind_ok _ _ _ _ _ R). split; [exact R'|].
      cbn [length].
      replace (Nat.iter (S (length l)) (descend eps n d k X Y) (W, B))
        with (Nat.iter (length l) (descend eps n d k X Y) (descend eps n d k X Y (W, B))); [auto|].
      clear. induction (length l) as [|m IH]; [reflexivity|]. exact (f_equal (descend eps n d k X Y) IH).
  Qed.

  (** T steps on the same batch: when the mean squared length of the examples is
      at most 1, the loss comes within D/(2T) of that of any parameters at
      squared distance D from the first ones. *)
  Theorem C91_rate : forall n d k E e eps X Y W B s T,
    1 <= n -> 0 <= d -> 1 <= k -> env_ok n d k E -> engine_ok Rsc e [n; d; k] ->
    fresh_ok s -> (forall v, mapped s (E v)) ->
    holds dt s (E XS) (arg2 X) -> holds dt s (E Y_S) (arg2 Y) ->
    holds dt s (E W_) (arg2 W) -> holds dt s (E B_) (arg1 B) ->
    holds dt s (E G_LS) (fun _ => / IZR n)%R ->
    labelled n k Y -> 1 <= T -> (mean_square n d X <= 1)%R ->
    (forall t, (t < Z.to_nat T)%nat ->
       let p := Nat.iter t (descend eps n d k X Y) (W, B) in clear eps n d k X (fst p) (snd p)) ->
    exists s' W' B',
      for_ (zrange T) (fun _ => train_step dt Rsc exp ln eps (div_float Rsc) e E) s = Ok tt s' /\
      holds dt s' (E W_) (arg2 W') /\ holds dt s' (E B_) (arg1 B') /\
      forall W1 B1, clear eps n d k X W1 B1 ->
        (slp_loss eps n d k X Y W' B' <=
         slp_loss eps n d k X Y W1 B1 + sqnorm d k (fun a j => W a j - W1 a j) (fun j => B j - B1 j) / (2 * IZR T))%R.
  Proof using.
    intros n d k E e eps X Y W B s T Hn Hd Hk OK He Hf Hm HX HY HW HB HG HL HT HM HC.
    destruct (run_steps n d k E e eps X Y Hn Hd ltac:(lia) OK He (zrange T) (W, B) s) as (s' & R & W' & B'); auto.
    rewrite length_zrange in W', B'. exists s'. eexists _, _. split; [exact R|]. split; [exact W'|]. split; [exact B'|].
    intros W1 B1 HC1. eapply Rle_trans; [apply loss_le_free; auto|]. rewrite (loss_free _ _ _ _ _ _ W1 B1) by auto.
    pose proof (steps_rate eps n d k X Y Hn ltac:(lia) HL (W1, B1) (W, B) (Z.to_nat T) HM HC) as S. cbn [fst snd] in S.
    rewrite INR_IZR_INZ, Z2Nat.id in S by lia. assert (PT : (0 < IZR T)%R) by (apply (IZR_lt 0); lia).
    pose proof (sqnorm_nonneg d k
      (fun a j => fst (Nat.iter (Z.to_nat T) (descend eps n d k X Y) (W, B)) a j - W1 a j)%R
      (fun j => snd (Nat.iter (Z.to_nat T) (descend eps n d k X Y) (W, B)) j - B1 j)%R) as N.
    apply (Rmult_le_reg_l (IZR T)); [exact PT|]. rewrite Rmult_plus_distr_l.
    replace (IZR T * (sqnorm d k (fun a j => W a j - W1 a j) (fun j => B j - B1 j) / (2 * IZR T)))%R
      with (/ 2 * sqnorm d k (fun a j => W a j - W1 a j) (fun j => B j - B1 j))%R by (field; lra).
    lra.
  Qed.
End Converge.

(** The bound 3 cannot be raised: beyond it a step may increase the loss. *)
Theorem C91_threshold_refuted : forall eps M, (eps < 1 / 10)%R -> (3 < M)%R ->
  exists n d k X Y W B, 1 <= n /\ 1 <= k /\ labelled n k Y /\ clear eps n d k X W B /\ mean_square n d X = M /\
    let err i j := ((predict eps d k X W B i j - Y i j) / IZR n)%R in
    (slp_loss eps n d k X Y W B <
     slp_loss eps n d k X Y (fun a j => W a j - rsum n (fun i => X i a * err i j)) (fun j => B j - rsum n (fun i => err i j)))%R.
Proof.
  intros eps M He HM.
  set (a := ((M - 3) / (M + 1))%R). set (h := (a / (M + 1))%R). set (r := sqrt M).
  assert (Rr : (r * r = M)%R) by (apply sqrt_sqrt; lra).
  assert (Ha : (0 < a < 1)%R).
  { unfold a. split; [apply Rdiv_lt_0_compat; lra|]. apply (Rmult_lt_reg_r (M + 1)); [lra|].
    unfold Rdiv. rewrite Rmult_assoc, Rinv_l by lra. lra. }
  assert (Eh : (h * (M + 1) = a)%R) by (unfold h; field; lra).
  assert (Ea : (a * (M + 1) = M - 3)%R) by (unfold a; field; lra).
  assert (Hh : (0 < h < 1 / 2)%R) by nra.
  set (X := fun _ _ : Z => r). set (Y := fun _ j : Z => if j =? 0 then (1 / 2 + h)%R else (1 / 2 - h)%R).
  set (W := fun _ _ : Z => 0%R). set (B := fun _ : Z => 0%R).
  exists 1, 1, 2, X, Y, W, B.
  assert (R1 : forall f, rsum 1 f = f 0).
  { intros f. unfold rsum. change (zrange 1) with [0]. rewrite list_sum_cons. cbn. ring. }
  assert (Sc : forall i j, scores 1 X W B i j = 0%R).
  { intros i j. unfold scores. rewrite R1. unfold W, B. ring. }
  assert (Pr : forall i j, predict eps 1 2 X W B i j = (1/2)%R).
  { intros i j. unfold predict, softmax_fn. rewrite rsum_2, !Sc, exp_0. rewrite Rmax_right; lra. }
  assert (HY : labelled 1 2 Y).
  { intros i Hi. split; [|rewrite rsum_2; unfold Y; cbn -[IZR]; lra].
    intros j Hj. unfold Y. destruct (j =? 0); lra. }
  assert (HC : clear eps 1 1 2 X W B).
  { intros i Hi j Hj. rewrite rsum_2, !Sc, exp_0. lra. }
  split; [lia|]. split; [lia|]. split; [exact HY|]. split; [exact HC|]. split.
  { unfold mean_square. rewrite !R1. unfold X. replace (r ^ 2)%R with (r * r)%R by ring. rewrite Rr. field. }
  intros err.
  set (W' := fun a j => (W a j - rsum 1 (fun i => X i a * err i j))%R).
  set (B' := fun j => (B j - rsum 1 (fun i => err i j))%R).
  assert (S1 : scores 1 X W' B' 0 0 = a /\ scores 1 X W' B' 0 1 = (- a)%R).
  { unfold scores. rewrite !R1. unfold W', B'. rewrite !R1. unfold err. rewrite !Pr. unfold X, Y, W, B. cbn -[IZR].
    rewrite <- Eh, <- Rr. split; field. }
  destruct S1 as [S10 S11].
  assert (E1 : (exp a * exp (- a) = 1)%R) by (rewrite <- exp_plus, Rplus_opp_r; apply exp_0).
  assert (P1 := exp_pos a). assert (P2 := exp_pos (- a)).
  assert (E3 : (exp a < 3)%R).
  { apply Rlt_le_trans with (exp 1); [apply exp_increasing; lra|apply exp_le_3]. }
  assert (E4 : (1 < exp a)%R) by (rewrite <- exp_0; apply exp_increasing; lra).
  assert (E5 : (exp (- a) < 1)%R) by (rewrite <- exp_0; apply exp_increasing; lra).
  assert (HC' : clear eps 1 1 2 X W' B').
  { intros i Hi j Hj. assert (Z1 : i = 0) by lia. subst i. rewrite rsum_2, S10, S11.
    assert (L : (1 / 10 * (exp a + exp (- a)) < exp (- a))%R) by nra.
    assert (C : j = 0 \/ j = 1) by lia.
    destruct C as [-> | ->]; [rewrite S10|rewrite S11];
      (apply (Rmult_lt_reg_r (exp a + exp (- a))); [lra|]; unfold Rdiv; rewrite Rmult_assoc, Rinv_l, Rmult_1_r by lra; nra). }
  rewrite !(loss_free eps) by assumption.
  assert (F0 : free_loss 1 1 2 X Y W B = ln 2).
  { unfold free_loss, lse, esum. rewrite R1, !rsum_2, !Sc, exp_0. replace (1 + 1)%R with 2%R by ring. field. }
  assert (F1 : free_loss 1 1 2 X Y W' B' = (ln (exp a + exp (- a)) - 2 * h * a)%R).
  { unfold free_loss, lse, esum. rewrite R1, !rsum_2, S10, S11. unfold Y; cbn -[IZR]. field. }
  rewrite F0, F1.
  (* cosh a >= 1 + a^2/2 *)
  assert (SH : forall t, (0 <= t)%R -> (t <= (exp t - exp (- t)) / 2)%R).
  { intros t Ht. pose proof (not_increasing (fun t => t - (exp t - exp (- t)) / 2)%R (fun t => 1 - (exp t + exp (- t)) / 2)%R) as N.
    assert (Q : (t - (exp t - exp (- t)) / 2 <= 0 - (exp 0 - exp (- 0)) / 2)%R); [|rewrite Ropp_0, exp_0 in Q; lra].
    apply N; [| |exact Ht].
    - intros u. auto_derive; [exact I|]. field.
    - intros u _. assert (U : (exp u * exp (- u) = 1)%R) by (rewrite <- exp_plus, Rplus_opp_r; apply exp_0).
      pose proof (exp_pos u). pose proof (exp_pos (- u)). pose proof (pow2_ge_0 (exp u - exp (- u))). nra. }
  assert (CH : (2 + a ^ 2 <= exp a + exp (- a))%R).
  { pose proof (SH (a / 2)%R ltac:(lra)) as Q.
    assert (U1 : (exp (a / 2) * exp (a / 2) = exp a)%R) by (rewrite <- exp_plus; f_equal; field).
    assert (U2 : (exp (- (a / 2)) * exp (- (a / 2)) = exp (- a))%R) by (rewrite <- exp_plus; f_equal; field).
    assert (U3 : (exp (a / 2) * exp (- (a / 2)) = 1)%R) by (rewrite <- exp_plus, Rplus_opp_r; apply exp_0).
    assert (Q2 : (a * a <= (exp (a / 2) - exp (- (a / 2))) * (exp (a / 2) - exp (- (a / 2))))%R)
      by (apply Rmult_le_compat; lra).
    nra. }
  assert (LN : (ln 2 + a ^ 2 / (2 + a ^ 2) <= ln (exp a + exp (- a)))%R).
  { apply Rle_trans with (ln (2 + a ^ 2)).
    - assert (A2 : (0 < 2 + a ^ 2)%R) by nra.
      pose proof (ln_le_sub1 (2 / (2 + a ^ 2)) ltac:(apply Rdiv_lt_0_compat; lra)) as Q.
      rewrite ln_div in Q by lra.
      replace (2 / (2 + a ^ 2) - 1)%R with (- (a ^ 2 / (2 + a ^ 2)))%R in Q by (field; lra). lra.
    - destruct CH as [C|C]; [left; apply ln_increasing; nra|rewrite C; lra]. }
  assert (K : (2 * h * a < a ^ 2 / (2 + a ^ 2))%R); [|lra].
  assert (A2 : (0 < 2 + a ^ 2)%R) by nra.
  apply (Rmult_lt_reg_r (2 + a ^ 2)); [exact A2|].
  replace (a ^ 2 / (2 + a ^ 2) * (2 + a ^ 2))%R with (a ^ 2)%R by (field; lra).
  (* 2 h (2 + a^2) < a, i.e. 2 (2 + a^2) < M + 1 *)
  assert (K : (2 * h * (2 + a ^ 2) < a)%R); [|nra].
  rewrite <- Eh at 2. assert (K : (2 * (2 + a ^ 2) < M + 1)%R); [|nra].
  assert (K : (2 * (a * a) < M - 3)%R); [|nra].
  rewrite <- Ea. nra.
Qed.

(** Clamping breaks optimality: parameters that a step does not move, with no
    clamped prediction, need not have the least loss among all parameters. *)
Theorem C91_optimal_refuted : forall eps, (0 < eps < 2 / 5)%R ->
  exists n d k X Y W B W1 B1, 1 <= n /\ 1 <= k /\ labelled n k Y /\ clear eps n d k X W B /\
    (forall i j, 0 <= i < n -> 0 <= j < k -> predict eps d k X W B i j = Y i j) /\
    (slp_loss eps n d k X Y W1 B1 < slp_loss eps n d k X Y W B)%R.
Proof.
  intros eps He. set (h := (9 / 8 * eps)%R). assert (Hh : (0 < h < 9 / 20)%R) by (unfold h; lra).
  set (X := fun _ _ : Z => 0%R). set (W := fun _ _ : Z => 0%R).
  set (Y := fun _ j : Z => if j =? 0 then (1 - h)%R else h).
  set (B := fun j : Z => if j =? 0 then ln ((1 - h) / h) else 0%R).
  set (B1 := fun j : Z => if j =? 0 then ln (8 / h) else 0%R).
  exists 1, 0, 2, X, Y, W, B, W, B1.
  assert (R1 : forall f, rsum 1 f = f 0).
  { intros f. unfold rsum. change (zrange 1) with [0]. rewrite list_sum_cons. cbn. ring. }
  assert (R0 : forall f, rsum 0 f = 0%R) by reflexivity.
  assert (Sc : forall C i j, scores 0 X W C i j = C j).
  { intros C i j. unfold scores. rewrite R0. ring. }
  assert (H1 : (0 < (1 - h) / h)%R) by (apply Rdiv_lt_0_compat; lra).
  assert (H8 : (0 < 8 / h)%R) by (apply Rdiv_lt_0_compat; lra).
  assert (E0 : exp (B 0) = ((1 - h) / h)%R) by (unfold B; cbn; apply exp_ln; auto).
  assert (E0' : exp (B 1) = 1%R) by (unfold B; cbn; apply exp_0).
  assert (E1 : exp (B1 0) = (8 / h)%R) by (unfold B1; cbn; apply exp_ln; auto).
  assert (E1' : exp (B1 1) = 1%R) by (unfold B1; cbn; apply exp_0).
  assert (Sf : forall i j, 0 <= j < 2 -> (exp (scores 0 X W B i j) / rsum 2 (fun l => exp (scores 0 X W B i l)) = Y i j)%R).
  { intros i j Hj. rewrite rsum_2, !Sc, E0, E0'. unfold Y.
    assert (C : j = 0 \/ j = 1) by lia. destruct C as [-> | ->]; cbn -[IZR B]; [rewrite E0|rewrite E0']; field; lra. }
  assert (HY : labelled 1 2 Y).
  { intros i Hi. split; [|rewrite rsum_2; unfold Y; cbn -[IZR]; lra].
    intros j Hj. unfold Y. destruct (j =? 0); lra. }
  assert (HC : clear eps 1 0 2 X W B).
  { intros i Hi j Hj. rewrite Sf by auto. unfold Y. destruct (j =? 0); unfold h; lra. }
  split; [lia|]. split; [lia|]. split; [exact HY|]. split; [exact HC|]. split.
  { intros i j Hi Hj. unfold predict, softmax_fn. rewrite Sf by auto. apply Rmax_right.
    unfold Y. destruct (j =? 0); unfold h; lra. }
  assert (P0 : predict eps 0 2 X W B1 0 0 = (8 / (8 + h))%R).
  { unfold predict, softmax_fn. rewrite rsum_2, !Sc, E1, E1'.
    replace (8 / h / (8 / h + 1))%R with (8 / (8 + h))%R by (field; lra). apply Rmax_right.
    apply (Rmult_le_reg_r (8 + h)); [lra|]. unfold Rdiv. rewrite Rmult_assoc, Rinv_l by lra. nra. }
  assert (P1 : predict eps 0 2 X W B1 0 1 = eps).
  { unfold predict, softmax_fn. rewrite rsum_2, !Sc, E1, E1'. apply Rmax_left.
    replace (1 / (8 / h + 1))%R with (h / (8 + h))%R by (field; lra).
    apply (Rmult_le_reg_r (8 + h)); [lra|]. unfold Rdiv. rewrite Rmult_assoc, Rinv_l by lra. unfold h. nra. }
  assert (Q0 : predict eps 0 2 X W B 0 0 = (1 - h)%R).
  { unfold predict, softmax_fn. rewrite Sf by lia. apply Rmax_right. unfold Y; cbn -[IZR]. unfold h; lra. }
  assert (Q1 : predict eps 0 2 X W B 0 1 = h).
  { unfold predict, softmax_fn. rewrite Sf by lia. apply Rmax_right. unfold Y; cbn -[IZR]. unfold h; lra. }
  unfold slp_loss, xent_fn. rewrite !R1, !rsum_2, P0, P1, Q0, Q1. unfold Y; cbn -[IZR ln].
  rewrite !Rdiv_1.
  (* ln (8/(8+h)) >= - h/8; ln (1-h) <= -h; ln h - ln eps = ln (9/8) <= 1/8 *)
  assert (A1 : (- (h / 8) <= ln (8 / (8 + h)))%R).
  { pose proof (ln_le_sub1 ((8 + h) / 8) ltac:(lra)) as Q. rewrite ln_div in Q by lra. rewrite ln_div by lra. lra. }
  assert (A2 : (ln (1 - h) <= - h)%R) by (pose proof (ln_le_sub1 (1 - h) ltac:(lra)); lra).
  assert (A3 : (ln h = ln (9 / 8) + ln eps)%R) by (unfold h; apply ln_mult; lra).
  assert (A4 : (ln (9 / 8) <= 1 / 8)%R) by (pose proof (ln_le_sub1 (9 / 8) ltac:(lra)); lra).
  rewrite A3. nra.
Qed.

(** *** Examples. *)
(** One example, the number 1, labelled (y, 1 - y); all parameters 0. *)
Definition tiny_env (v : var) : tensor :=
  T_ (match v with W_ => 0 | B_ => 1 | XS => 2 | ZS => 3 | YS => 4 | Y_S => 5 | LS => 6 | L_ => 7 | G_L => 8
      | G_LS => 9 | G_YS => 10 | G_ZS => 11 | G_W => 12 | G_B => 13 end) (var_shape 1 1 2 v).
Definition tiny (y : R) : st R :=
  demo [[0; 0]; [0; 0]; [1]; [9; 9]; [9; 9]; [y; 1 - y]; [9]; [9]; [9]; [1]; [9; 9]; [9; 9]; [9; 9]; [9; 9]]%R.
Definition tiny_y (y : R) : mat := fun _ j => if j =? 0 then y else (1 - y)%R.

Lemma tiny_ok : forall y, (0 <= y <= 1)%R ->
  env_ok 1 1 2 tiny_env /\ fresh_ok (tiny y) /\ (forall v, mapped (tiny y) (tiny_env v)) /\
  holds (dt_id R) (tiny y) (tiny_env XS) (arg2 (fun _ _ => 1%R)) /\
  holds (dt_id R) (tiny y) (tiny_env Y_S) (arg2 (tiny_y y)) /\
  holds (dt_id R) (tiny y) (tiny_env W_) (arg2 (fun _ _ => 0%R)) /\
  holds (dt_id R) (tiny y) (tiny_env B_) (arg1 (fun _ => 0%R)) /\
  holds (dt_id R) (tiny y) (tiny_env G_LS) (fun _ => / IZR 1)%R /\
  labelled 1 2 (tiny_y y) /\ mean_square 1 1 (fun _ _ => 1%R) = 1%R.
Proof.
  intros y Hy. assert (R1 : forall f, rsum 1 f = f 0).
  { intros f. unfold rsum. change (zrange 1) with [0]. rewrite list_sum_cons. cbn. ring. }
  assert (C2 : forall j, 0 <= j < 2 -> j = 0 \/ j = 1) by (intros; lia).
  assert (C1 : forall j, 0 <= j < 1 -> j = 0) by (intros; lia).
  split; [|split; [|split; [|split; [|split; [|split; [|split; [|split; [|split]]]]]]]].
  - split; [reflexivity|]. intros u v Ne p (o & _ & ->) (o' & _ & Q). apply (f_equal fst) in Q.
    destruct u, v; cbn in Q; try congruence; discriminate.
  - apply demo_fresh.
  - intros v p (o & Ho & ->). destruct v; cbn in Ho;
      first [apply C1 in Ho; subst o; cbn; discriminate | apply C2 in Ho; destruct Ho as [-> | ->]; cbn; discriminate].
  - intros ix Hix. destruct ix as [|i [|j [|]]]; cbn in Hix; try tauto. destruct Hix as (Hi & Hj & _).
    apply C1 in Hi, Hj. subst. reflexivity.
  - intros ix Hix. destruct ix as [|i [|j [|]]]; cbn in Hix; try tauto. destruct Hix as (Hi & Hj & _).
    apply C1 in Hi. apply C2 in Hj. subst. destruct Hj as [-> | ->]; reflexivity.
  - intros ix Hix. destruct ix as [|i [|j [|]]]; cbn in Hix; try tauto. destruct Hix as (Hi & Hj & _).
    apply C1 in Hi. apply C2 in Hj. subst. destruct Hj as [-> | ->]; reflexivity.
  - intros ix Hix. destruct ix as [|j [|]]; cbn in Hix; try tauto. destruct Hix as (Hj & _).
    apply C2 in Hj. destruct Hj as [-> | ->]; reflexivity.
  - intros ix Hix. destruct ix as [|j [|]]; cbn in Hix; try tauto. destruct Hix as (Hj & _).
    apply C1 in Hj. subst. change (@Init R 1%R = Init (/ 1)%R). f_equal. field.
  - intros i Hi. split; [|rewrite rsum_2; unfold tiny_y; cbn; ring]. intros j Hj. unfold tiny_y. destruct (j =? 0); lra.
  - unfold mean_square. rewrite !R1. field.
Qed.

Lemma all_clear : forall n d k X W B, clear 0 n d k X W B.
Proof. intros n d k X W B i Hi j Hj. apply soft_pos. exact Hj. Qed.

(** The loss ln 2 drops by at least 1/2. *)
Example C91_step_example : exists s' W' B',
  train_step (dt_id R) Rsc exp ln 0%R (div_float Rsc) Builtin tiny_env (tiny 1) = Ok tt s' /\
  holds (dt_id R) s' (tiny_env W_) (arg2 W') /\ holds (dt_id R) s' (tiny_env B_) (arg1 B') /\
  (slp_loss 0 1 1 2 (fun _ _ => 1) (tiny_y 1) W' B' <= ln 2 - 1 / 2)%R.
Proof.
  destruct (tiny_ok 1 ltac:(lra)) as (OK & Hf & Hm & HX & HY & HW & HB & HG & HL & HM).
  destruct (C91_step (dt_id R) 1 1 2 tiny_env Builtin 0%R (fun _ _ => 1%R) (tiny_y 1) (fun _ _ => 0%R) (fun _ => 0%R) (tiny 1%R))
    as (s' & W' & B' & Ru & W1 & B1 & L); auto; try lia; [exact I|apply all_clear|].
  destruct (C75_update (dt_id R) 1 1 2 tiny_env Builtin 0%R (fun _ _ => 1%R) (tiny_y 1) (fun _ _ => 0%R) (fun _ => 0%R) (tiny 1%R))
    as (s2 & R2 & W2 & B2); auto; try lia; [exact I|intros; apply HL; auto|].
  rewrite Ru in R2. injection R2 as <-.
  exists s', W', B'. split; [exact Ru|]. split; [exact W1|]. split; [exact B1|].
  assert (R1 : forall f, rsum 1 f = f 0).
  { intros f. unfold rsum. change (zrange 1) with [0]. rewrite list_sum_cons. cbn. ring. }
  assert (Sc : forall j, scores 1 (fun _ _ => 1%R) (fun _ _ => 0%R) (fun _ => 0%R) 0 j = 0%R).
  { intros. unfold scores. rewrite R1. ring. }
  assert (Pr : forall j, predict 0 1 2 (fun _ _ => 1%R) (fun _ _ => 0%R) (fun _ => 0%R) 0 j = (1/2)%R).
  { intros j. unfold predict, softmax_fn. rewrite rsum_2, !Sc, exp_0. rewrite Rmax_right; lra. }
  assert (L0 : slp_loss 0 1 1 2 (fun _ _ => 1%R) (tiny_y 1) (fun _ _ => 0%R) (fun _ => 0%R) = ln 2).
  { unfold slp_loss, xent_fn. rewrite R1, rsum_2, !Pr. unfold tiny_y; cbn -[IZR].
    replace (1/2)%R with (/2)%R by lra. rewrite ln_Rinv by lra. field. }
  assert (GW : forall j, 0 <= j < 2 -> W' 0 j = (if j =? 0 then 1 / 2 else - (1 / 2))%R).
  { intros j Hj. assert (Q : valid (tdims (tiny_env W_)) [0; j]) by (cbn; lia).
    specialize (W1 _ Q). specialize (W2 _ Q). rewrite W1 in W2. injection W2 as W2. unfold arg2 in W2. cbn [nth] in W2. rewrite W2, R1, Pr.
    unfold tiny_y. destruct (j =? 0); field. }
  assert (GB : forall j, 0 <= j < 2 -> B' j = (if j =? 0 then 1 / 2 else - (1 / 2))%R).
  { intros j Hj. assert (Q : valid (tdims (tiny_env B_)) [j]) by (cbn; lia).
    specialize (B1 _ Q). specialize (B2 _ Q). rewrite B1 in B2. injection B2 as B2. unfold arg1 in B2. cbn [nth] in B2. rewrite B2, R1, Pr.
    unfold tiny_y. destruct (j =? 0); field. }
  rewrite L0, HM in L. unfold sqnorm in L. rewrite R1, !rsum_2, !GW, !GB in L by lia. cbn -[IZR slp_loss] in L. lra.
Qed.

(** After 100 steps the loss is within 1/50 of that of the parameters 1, -1. *)
Example C91_rate_example : exists s' W' B',
  for_ (zrange 100) (fun _ => train_step (dt_id R) Rsc exp ln 0%R (div_float Rsc) Builtin tiny_env) (tiny 1) = Ok tt s' /\
  holds (dt_id R) s' (tiny_env W_) (arg2 W') /\ holds (dt_id R) s' (tiny_env B_) (arg1 B') /\
  (slp_loss 0 1 1 2 (fun _ _ => 1) (tiny_y 1) W' B' <=
   slp_loss 0 1 1 2 (fun _ _ => 1) (tiny_y 1) (fun _ j => if j =? 0 then 1 else -1) (fun j => if j =? 0 then 1 else -1) + 1 / 50)%R.
Proof.
  destruct (tiny_ok 1 ltac:(lra)) as (OK & Hf & Hm & HX & HY & HW & HB & HG & HL & HM).
  destruct (C91_rate (dt_id R) 1 1 2 tiny_env Builtin 0%R (fun _ _ => 1%R) (tiny_y 1) (fun _ _ => 0%R) (fun _ => 0%R) (tiny 1%R) 100)
    as (s' & W' & B' & Ru & W1 & B1 & L); auto; try lia; [exact I|lra|intros; apply all_clear|].
  exists s', W', B'. split; [exact Ru|]. split; [exact W1|]. split; [exact B1|].
  eapply Rle_trans; [apply L, all_clear|]. apply Rplus_le_compat_l. right.
  assert (R1 : forall f, rsum 1 f = f 0).
  { intros f. unfold rsum. change (zrange 1) with [0]. rewrite list_sum_cons. cbn. ring. }
  unfold sqnorm. rewrite R1, !rsum_2. cbn -[IZR]. field.
Qed.

(** With the labels (1/2, 1/2) a step changes nothing and the loss is least. *)
Example C91_optimal_example : forall W1 B1,
  (slp_loss 0 1 1 2 (fun _ _ => 1) (tiny_y (1 / 2)) (fun _ _ => 0) (fun _ => 0) <=
   slp_loss 0 1 1 2 (fun _ _ => 1) (tiny_y (1 / 2)) W1 B1)%R.
Proof.
  intros W1 B1. destruct (tiny_ok (1 / 2) ltac:(lra)) as (OK & Hf & Hm & HX & HY & HW & HB & HG & HL & HM).
  destruct (C75_update (dt_id R) 1 1 2 tiny_env Builtin 0%R (fun _ _ => 1%R) (tiny_y (1/2)) (fun _ _ => 0%R) (fun _ => 0%R) (tiny (1/2)))
    as (s2 & R2 & W2 & B2); auto; try lia; [exact I|intros; apply HL; auto|].
  assert (R1 : forall f, rsum 1 f = f 0).
  { intros f. unfold rsum. change (zrange 1) with [0]. rewrite list_sum_cons. cbn. ring. }
  assert (Sc : forall j, scores 1 (fun _ _ => 1%R) (fun _ _ => 0%R) (fun _ => 0%R) 0 j = 0%R).
  { intros. unfold scores. rewrite R1. ring. }
  assert (Pr : forall j, predict 0 1 2 (fun _ _ => 1%R) (fun _ _ => 0%R) (fun _ => 0%R) 0 j = (1/2)%R).
  { intros j. unfold predict, softmax_fn. rewrite rsum_2, !Sc, exp_0. rewrite Rmax_right; lra. }
  eapply (C91_optimal (dt_id R) 1 1 2 tiny_env Builtin); try eassumption; try lia; try apply all_clear.
  - exact I.
  - eapply holds_ext; [|exact W2]. intros ix _. unfold arg2. rewrite R1, Pr. unfold tiny_y. destruct (_ =? _); field.
  - eapply holds_ext; [|exact B2]. intros ix _. unfold arg1. rewrite R1, Pr. unfold tiny_y. destruct (_ =? _); field.
Qed.

Print Assumptions C91_step.
Print Assumptions C91_optimal.
Print Assumptions C91_rate.
Print Assumptions C91_threshold_refuted.
Print Assumptions C91_optimal_refuted.
