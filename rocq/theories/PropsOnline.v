(** Property C113: the losses during a pass over the data.

    The training loop of example_train_mnist_slp.cpp over exact reals. *)
From Coq Require Import ZArith List Bool Lia ZifyBool Reals Lra.
From Coquelicot Require Import Coquelicot.
From Verif Require Import Base BaseFacts Scalar RealScalar SumFacts TensorFacts LinAlg LinAlgFacts
  Activation ActivationSpec ActivationFacts SoftmaxFacts PropsSoftmax Summary PropsSummary Pool Elem ConvFacts ConvGradFacts Train TrainSpec TrainFacts TrainGrad
  PredictSpec PredictFacts PropsTrain Demo PropsLayers2 ConvergeSpec ConvergeFacts OnlineFacts.
Import ListNotations.
Open Scope Z_scope.
Open Scope model_scope.

(** The batches: [T] times [n] images of [h] x [w] pixels and their labels. *)
Section Online.
  Context (eps : R) (f : Z -> R) (h w n k T : Z) (I_ : Z -> Z -> Z -> Z) (L : Z -> Z).

  (** Mean cross entropy of batch [o] under the parameters [p]. *)
  Definition batch_loss (o : Z) (p : mat * vec) : R :=
    slp_loss eps n (h * w) k (batch_x f w n I_ o) (batch_y n L o) (fst p) (snd p).
  (** No probability of batch [o] is clamped. *)
  Definition batch_clear (o : Z) (p : mat * vec) : Prop := clear eps n (h * w) k (batch_x f w n I_ o) (fst p) (snd p).
  Definition sqdist (p q : mat * vec) : R := sqnorm (h * w) k (fun a j => fst p a j - fst q a j)%R (fun j => snd p j - snd q j)%R.
  (** Images of batch [o] whose greatest score does not belong to the label. *)
  Definition batch_mistakes (o : Z) (J : Z -> Z -> Z) : Z := count n (fun i => negb (J o i =? L (o * n + i))).

  (** train_slp_model gives the parameters [P o] on the first [o] batches. *)
  Definition trains_to (W : mat) (B : vec) (P : Z -> mat * vec) : Prop :=
    forall V (dt : dtype V R) (du : dtype V Z) e half o images labels wt b s,
      0 <= o <= T -> engine_ok Rsc e [n; h * w; k] ->
      tdims images = [o * n; h; w] -> tdims labels = [o * n] -> tdims wt = [h * w; k] -> tdims b = [k] -> fresh_ok s ->
      holds du s images (arg3 I_) -> holds du s labels (arg1 L) -> holds dt s wt (arg2 W) -> holds dt s b (arg1 B) ->
      disjoint wt b -> disjoint wt images -> disjoint wt labels -> disjoint b images -> disjoint b labels ->
      exists s', train_slp_model dt du Rsc exp ln eps (div_float Rsc) e f half (/ IZR n)%R k images labels wt b n s = Ok tt s' /\
        holds dt s' wt (arg2 (fst (P o))) /\ holds dt s' b (arg1 (snd (P o))).

  Context (Hn : 1 <= n) (Hh : 0 <= h) (Hw : 0 <= w) (Hk : 1 <= k <= 255) (HT : 0 <= T) (HN : T * n < 2 ^ 32)
    (HL : forall i, 0 <= i < T * n -> 0 <= L i < k).

  Notation X o := (batch_x f w n I_ o).
  Notation Y o := (batch_y n L o).
  Notation path W B o := (epoch eps n (h * w) k (batch_x f w n I_) (batch_y n L) o (W, B)).

  Lemma path_trains : n < 2 ^ 32 -> forall W B, trains_to W B (fun o => path W B o).
  Proof using Hn Hh Hw Hk HT HN.
    intros Hn2 W B V dt du e half o images labels wt b s Ho He Ei El Ew Eb Hf HI HLb HW HB D1 D2 D3 D4 D5.
    destruct (C77_train V dt du e eps f half (o * n) h w n k images labels wt b I_ L W B s) as (s' & E & W' & B' & _); auto; try lia.
    { split; [nia|]. apply Z.le_lt_trans with (T * n); [nia|lia]. }
    rewrite Z.div_mul in W', B' by lia. exists s'. auto.
  Qed.

  Lemma path_step : forall W B o, 0 <= o -> path W B (o + 1) = descend eps n (h * w) k (X o) (Y o) (path W B o).
  Proof using. intros W B o Ho. unfold epoch. rewrite zrange_succ, fold_left_app by lia. reflexivity. Qed.

  Lemma batch_labelled : forall o, 0 <= o < T -> labelled n k (Y o).
  Proof using Hn HL.
    intros o Ho i Hi. unfold batch_y. assert (Hl : 0 <= L (o * n + i) < k) by (apply HL; nia). split.
    - intros j Hj. destruct (L (o * n + i) =? j); lra.
    - transitivity (rsum k (fun j => if Z.eq_dec j (L (o * n + i)) then 1%R else 0%R)); [|exact (rsum_pick k (L (o * n + i)) (fun _ => 1%R) Hl)].
      apply rsum_ext. intros j Hj.
      destruct (Z.eq_dec j (L (o * n + i))) as [->|Ne]; [rewrite Z.eqb_refl; reflexivity|]. destruct (Z.eqb_spec (L (o * n + i)) j); [lia|reflexivity].
  Qed.

  (** *** The losses before the steps, compared with any parameters. *)
  Theorem C113_regret : n < 2 ^ 32 -> forall W B, exists P, trains_to W B P /\
    ((forall o, 0 <= o < T -> batch_clear o (P o)) ->
     forall Q, (forall o, 0 <= o < T -> batch_clear o Q) ->
       (rsum T (fun o => batch_loss o (P o)) <=
        rsum T (fun o => batch_loss o Q) + / 2 * sqdist (W, B) Q + / 2 * rsum T (fun o => sqdist (P o) (P (o + 1)%Z)))%R).
  Proof using Hn Hh Hw Hk HT HN HL.
    intros Hn2 W B. exists (fun o => path W B o). split; [apply path_trains; exact Hn2|]. intros HC Q HQ.
    assert (G : forall m, 0 <= m -> m <= T ->
      (2 * rsum m (fun o => batch_loss o (path W B o)) <=
       2 * rsum m (fun o => batch_loss o Q) + (sqdist (W, B) Q - sqdist (path W B m) Q) + rsum m (fun o => sqdist (path W B o) (path W B (o + 1)%Z)))%R).
    { refine (natlike_ind _ _ _); [intros _; cbn; lra|]. intros m Hm IH Hm'. specialize (IH ltac:(lia)).
      unfold Z.succ. rewrite !rsum_succ by lia. pose proof (batch_labelled m ltac:(lia)) as LB.
      pose proof (step_regret eps n (h * w) k (X m) (Y m) Hn ltac:(lia) LB (path W B m) Q (HC m ltac:(lia))) as S.
      rewrite <- (grad_move eps n (h * w) k (X m) (Y m)) in S. rewrite <- path_step in S by lia.
      unfold batch_loss at 2 4. rewrite !loss_free by (auto; apply HC || apply HQ; lia). unfold sqdist in *. lra. }
    specialize (G T HT ltac:(lia)).
    pose proof (sqnorm_nonneg (h * w) k (fun a j => fst (path W B T) a j - fst Q a j)%R (fun j => snd (path W B T) j - snd Q j)%R) as N.
    unfold sqdist at 2 in G. lra.
  Qed.

  (** *** When the images are short, the losses themselves. *)
  Theorem C113_short : n < 2 ^ 32 -> forall W B M, (M < 1)%R ->
    (forall o, 0 <= o < T -> (mean_square n (h * w) (X o) <= M)%R) ->
    exists P, trains_to W B P /\
    ((forall o, 0 <= o < T -> batch_clear o (P o)) ->
     forall Q, (forall o, 0 <= o < T -> batch_clear o Q) ->
       ((1 - M) * rsum T (fun o => batch_loss o (P o)) <= 2 * rsum T (fun o => batch_loss o Q) + sqdist (W, B) Q)%R).
  Proof using Hn Hh Hw Hk HT HN HL.
    intros Hn2 W B M HM HX. exists (fun o => path W B o). split; [apply path_trains; exact Hn2|]. intros HC Q HQ.
    assert (G : forall m, 0 <= m -> m <= T ->
      ((1 - M) * rsum m (fun o => batch_loss o (path W B o)) <=
       2 * rsum m (fun o => batch_loss o Q) + (sqdist (W, B) Q - sqdist (path W B m) Q))%R).
    { refine (natlike_ind _ _ _); [intros _; cbn; lra|]. intros m Hm IH Hm'. specialize (IH ltac:(lia)).
      unfold Z.succ. rewrite !rsum_succ by lia. pose proof (batch_labelled m ltac:(lia)) as LB.
      pose proof (step_regret eps n (h * w) k (X m) (Y m) Hn ltac:(lia) LB (path W B m) Q (HC m ltac:(lia))) as S.
      pose proof (self_bound eps n (h * w) k (X m) (Y m) Hn ltac:(lia) LB (path W B m) (HC m ltac:(lia))) as G.
      pose proof (free_nonneg n (h * w) k (X m) (Y m) (fst (path W B m)) (snd (path W B m)) Hn ltac:(lia) LB) as F.
      rewrite <- path_step in S by lia. specialize (HX m ltac:(lia)).
      unfold batch_loss at 2 4. rewrite !loss_free by (auto; apply HC || apply HQ; lia). unfold sqdist in *.
      set (l := free_loss n (h * w) k (X m) (Y m) (fst (path W B m)) (snd (path W B m))) in *.
      assert (H : ((mean_square n (h * w) (X m) + 1) * l <= (M + 1) * l)%R) by (apply Rmult_le_compat_r; lra).
      lra. }
    specialize (G T HT ltac:(lia)).
    pose proof (sqnorm_nonneg (h * w) k (fun a j => fst (path W B T) a j - fst Q a j)%R (fun j => snd (path W B T) j - snd Q j)%R) as N.
    unfold sqdist at 2 in G. lra.
  Qed.

  (** *** Mistakes: the images misclassified by the parameters before their step. *)
  Theorem C113_mistakes : n < 2 ^ 32 -> forall W B M, (M < 1)%R ->
    (forall o, 0 <= o < T -> (mean_square n (h * w) (X o) <= M)%R) ->
    exists P, trains_to W B P /\
    ((forall o, 0 <= o < T -> batch_clear o (P o)) ->
     forall Q J, (forall o, 0 <= o < T -> batch_clear o Q) ->
       (forall o i, 0 <= o < T -> 0 <= i < n -> first_max k (scores (h * w) (X o) (fst (P o)) (snd (P o)) i) (J o i)) ->
       ((1 - M) * ln 2 * rsum T (fun o => IZR (batch_mistakes o J)) <=
        IZR n * (2 * rsum T (fun o => batch_loss o Q) + sqdist (W, B) Q))%R).
  Proof using Hn Hh Hw Hk HT HN HL.
    intros Hn2 W B M HM HX. destruct (C113_short Hn2 W B M HM HX) as (P & TR & S). exists P. split; [exact TR|].
    intros HC Q J HQ HJ. specialize (S HC Q HQ). pose proof (IZR_lt 0 n ltac:(lia)) as Hn'.
    assert (C : (ln 2 * rsum T (fun o => IZR (batch_mistakes o J)) <= IZR n * rsum T (fun o => batch_loss o (P o)))%R).
    { rewrite <- !rsum_scal_l. apply rsum_le. intros o Ho. unfold batch_loss. rewrite loss_free by (auto using batch_labelled; apply HC; exact Ho).
      apply (mistakes_cost n (h * w) k (X o) (fun i => L (o * n + i)) (fst (P o)) (snd (P o)) (J o)); auto; [lia| ].
      intros i Hi. apply HL. nia. }
    apply Rle_trans with ((1 - M) * (IZR n * rsum T (fun o => batch_loss o (P o))))%R.
    - rewrite Rmult_assoc. apply Rmult_le_compat_l; lra.
    - replace ((1 - M) * (IZR n * rsum T (fun o => batch_loss o (P o))))%R
        with (IZR n * ((1 - M) * rsum T (fun o => batch_loss o (P o))))%R by ring.
      apply Rmult_le_compat_l; lra.
  Qed.
End Online.

(** ** Examples: images of one pixel, two classes, batches of one image *)

Lemma rsum_one : forall g, rsum 1 g = g 0.
Proof. intros g. unfold rsum. change (zrange 1) with [0]. rewrite list_sum_cons. cbn. ring. Qed.

Definition zero_params : mat * vec := (fun _ _ => 0%R, fun _ => 0%R).

(** Pixels 1/2: the mean square is 1/4; biases 1 and -1 are not clamped either. *)
Example C113_example :
  let Q : mat * vec := (fun _ _ => 0%R, fun j => if j =? 0 then 1%R else (-1)%R) in
  mean_square 1 1 (batch_x (fun _ => / 2)%R 1 1 (fun _ _ _ => 0) 0) = (/ 4)%R /\
  batch_clear (/ 11) (fun _ => / 2)%R 1 1 1 2 (fun _ _ _ => 0) 0 zero_params /\
  batch_clear (/ 11) (fun _ => / 2)%R 1 1 1 2 (fun _ _ _ => 0) 0 Q /\
  sqdist 1 1 2 zero_params Q = 2%R.
Proof.
  cbv zeta. split; [|split; [|split]].
  - unfold mean_square, batch_x. rewrite !rsum_one. field.
  - intros i Hi j Hj. rewrite rsum_2. unfold scores, zero_params. cbn [fst snd]. change (1 * 1) with 1.
    rewrite !rsum_one. rewrite Rmult_0_r, Rplus_0_r, exp_0. lra.
  - intros i Hi j Hj. rewrite rsum_2. unfold scores. cbn [fst snd]. change (1 * 1) with 1. rewrite !rsum_one. cbn [Z.eqb Pos.eqb].
    rewrite !Rmult_0_r, !Rplus_0_l.
    assert (E : (exp 1 * exp (-1) = 1)%R) by (rewrite <- exp_plus; replace (1 + -1)%R with 0%R by ring; apply exp_0).
    pose proof exp_le_3 as E3. pose proof (exp_pos 1) as P1. pose proof (exp_pos (-1)) as P2.
    assert (E9 : (exp 1 <= 9 * exp (-1))%R).
    { assert (exp 1 * exp 1 <= 9)%R by nra. assert (exp 1 = exp 1 * exp 1 * exp (-1))%R by (rewrite Rmult_assoc, E; ring). nra. }
    assert (E1 : (exp (-1) <= exp 1)%R) by (left; apply exp_increasing; lra).
    assert (S : (0 < exp 1 + exp (-1))%R) by lra.
    apply (Rmult_lt_reg_r (exp 1 + exp (-1))); [exact S|]. unfold Rdiv. rewrite Rmult_assoc, Rinv_l, Rmult_1_r by lra.
    destruct (j =? 0); lra.
  - unfold sqdist, sqnorm, zero_params. cbn [fst snd]. change (1 * 1) with 1. rewrite rsum_one, !rsum_2. cbn [Z.eqb Pos.eqb]. ring.
Qed.

(** Long images: no factor helps.  Two equal images with the labels 0 and 1; the
    first step makes the second loss as large as one likes, while the starting
    parameters lose ln 2 on each. *)
Theorem C113_long_refuted : forall K, (0 <= K)%R -> exists f L P,
  trains_to 0 f 1 1 1 2 2 (fun _ _ _ => 0) L (fst zero_params) (snd zero_params) P /\
  (forall o, 0 <= o < 2 -> 0 <= L o < 2) /\
  (forall o p, batch_clear 0 f 1 1 1 2 (fun _ _ _ => 0) o p) /\
  (K * (rsum 2 (fun o => batch_loss 0 f 1 1 1 2 (fun _ _ _ => 0%Z) L o zero_params) + sqdist 1 1 2 zero_params zero_params)
   < rsum 2 (fun o => batch_loss 0 f 1 1 1 2 (fun _ _ _ => 0%Z) L o (P o)))%R.
Proof.
  intros K HK. set (c := sqrt (2 * K)). assert (C2 : (c * c = 2 * K)%R) by (apply sqrt_sqrt; lra).
  set (f := fun _ : Z => c). set (L := fun o : Z => o).
  set (P := fun o => epoch 0 1 (1 * 1) 2 (batch_x f 1 1 (fun _ _ _ => 0)) (batch_y 1 L) o zero_params).
  exists f, L, P.
  assert (CL : forall o p, batch_clear 0 f 1 1 1 2 (fun _ _ _ => 0) o p).
  { intros o p i Hi j Hj. apply (soft_pos 2); exact Hj. }
  split; [exact (path_trains 0 f 1 1 1 2 2 (fun _ _ _ => 0) L ltac:(lia) ltac:(lia) ltac:(lia) ltac:(lia) ltac:(lia) ltac:(lia) ltac:(lia) _ _)|].
  split; [unfold L; lia|]. split; [exact CL|].
  assert (LB : forall o, 0 <= o < 2 -> labelled 1 2 (batch_y 1 L o)).
  { intros o Ho. apply (batch_labelled 1 2 2 L); [lia|unfold L; lia|exact Ho]. }
  assert (SC : forall o p i j, scores (1 * 1) (batch_x f 1 1 (fun _ _ _ => 0) o) (fst p) (snd p) i j = (c * fst p 0%Z j + snd p j)%R).
  { intros o p i j. unfold scores. change (1 * 1) with 1. rewrite rsum_one. reflexivity. }
  assert (LS : forall o p, 0 <= o < 2 -> batch_loss 0 f 1 1 1 2 (fun _ _ _ => 0) L o p =
    (ln (exp (c * fst p 0%Z 0%Z + snd p 0%Z) + exp (c * fst p 0%Z 1%Z + snd p 1%Z)) - (c * fst p 0%Z o + snd p o))%R).
  { intros o p Ho. unfold batch_loss. rewrite loss_free by (auto; apply CL). unfold free_loss. rewrite rsum_one. unfold lse, esum. rewrite !rsum_2, !SC.
    unfold batch_y, L. replace (o * 1 + 0) with o by lia. assert (K2 : o = 0 \/ o = 1) by lia. destruct K2 as [->| ->]; cbn [Z.eqb Pos.eqb]; field. }
  assert (Z0 : forall o, 0 <= o < 2 -> batch_loss 0 f 1 1 1 2 (fun _ _ _ => 0) L o zero_params = ln 2).
  { intros o Ho. rewrite LS by exact Ho. unfold zero_params. cbn [fst snd]. rewrite Rmult_0_r, Rplus_0_l, exp_0.
    replace (1 + 1)%R with 2%R by ring. ring. }
  assert (P0 : P 0 = zero_params) by reflexivity.
  assert (P1 : forall j, (j = 0 \/ j = 1) -> let v := (if j =? 0 then / 2 else - / 2)%R in fst (P 1) 0 j = (c * v)%R /\ snd (P 1) j = v).
  { intros j Hj v. assert (EP : P 1 = descend 0 1 (1 * 1) 2 (batch_x f 1 1 (fun _ _ _ => 0) 0) (batch_y 1 L 0) zero_params) by reflexivity.
    rewrite EP.
    unfold descend, slp_gw, slp_gb. cbn [fst snd]. rewrite !rsum_one.
    assert (D : slp_delta 0 1 (1 * 1) 2 (batch_x f 1 1 (fun _ _ _ => 0) 0) (batch_y 1 L 0) (fst zero_params) (snd zero_params) 0 j = (- v)%R).
    { unfold slp_delta. destruct (LB 0 ltac:(lia) 0 ltac:(lia)) as (_ & ->). unfold predict, softmax_fn. rewrite rsum_2, !SC.
      unfold zero_params. cbn [fst snd]. rewrite Rmult_0_r, Rplus_0_l, exp_0. rewrite Rmax_right by lra.
      unfold batch_y, L, v. destruct Hj as [->| ->]; cbn [Z.eqb Z.mul Z.add Pos.eqb Pos.mul]; field. }
    unfold zero_params in *. cbn [fst snd] in *. rewrite D. unfold batch_x, f. split; ring. }
  rewrite !rsum_2. rewrite !Z0 by lia. rewrite ?P0, ?Z0 by lia. rewrite (LS 1) by lia.
  destruct (P1 0 ltac:(auto)) as (-> & ->). destruct (P1 1 ltac:(auto)) as (-> & ->). cbn [Z.eqb Pos.eqb].
  set (s := ((2 * K + 1) / 2)%R).
  replace (c * (c * / 2) + / 2)%R with s by (unfold s; replace (c * (c * / 2))%R with (c * c * / 2)%R by ring; rewrite C2; field).
  replace (c * (c * - / 2) + - / 2)%R with (- s)%R by (unfold s; replace (c * (c * - / 2))%R with (- (c * c * / 2))%R by ring; rewrite C2; field).
  assert (Ls : (s < ln (exp s + exp (- s)))%R).
  { rewrite <- (ln_exp s) at 1. apply ln_increasing; [apply exp_pos|]. pose proof (exp_pos (- s)). lra. }
  assert (L2 : (0 < ln 2 < 1)%R).
  { split; [rewrite <- ln_1; apply ln_increasing; lra|]. rewrite <- (ln_exp 1). apply ln_increasing; [lra|]. pose proof (exp_ineq1 1 ltac:(lra)). lra. }
  assert (D0 : sqdist 1 1 2 zero_params zero_params = 0%R).
  { unfold sqdist, sqnorm, zero_params. cbn [fst snd]. change (1 * 1) with 1. rewrite rsum_one, !rsum_2. ring. }
  rewrite D0. assert (K * ln 2 <= K)%R by (rewrite <- (Rmult_1_r K) at 2; apply Rmult_le_compat_l; lra). unfold s in *. lra.
Qed.

Print Assumptions C113_regret.
Print Assumptions C113_short.
Print Assumptions C113_mistakes.
Print Assumptions C113_long_refuted.
