(** Convexity and smoothness of the loss of the single-layer perceptron. *)
From Coq Require Import ZArith List Bool Lia ZifyBool Reals Lra.
From Coquelicot Require Import Coquelicot.
From Verif Require Import Base BaseFacts Scalar RealScalar SumFacts
  ActivationSpec ActivationFacts SoftmaxFacts PropsSoftmax Train TrainSpec TrainGrad PredictSpec PredictFacts ConvergeSpec.
Import ListNotations.
Open Scope Z_scope.

(** ** The logarithm of a sum of exponentials *)

Definition esum (k : Z) (Z0 : Z -> R) : R := rsum k (fun j => exp (Z0 j)).
Definition lse (k : Z) (Z0 : Z -> R) : R := ln (esum k Z0).
Definition soft (k : Z) (Z0 : Z -> R) (j : Z) : R := (exp (Z0 j) / esum k Z0)%R.

Lemma esum_pos : forall k Z0, 0 < k -> (0 < esum k Z0)%R.
Proof. intros. apply sum_exp_pos; auto. Qed.

Lemma soft_total : forall k Z0, 0 < k -> rsum k (soft k Z0) = 1%R.
Proof. intros. apply soft_sum1; auto. Qed.

Lemma soft_nonneg : forall k Z0 j, 0 <= j < k -> (0 < soft k Z0 j)%R.
Proof. intros. apply soft_pos; auto. Qed.

(** It lies above its tangents. *)
Lemma lse_above : forall k Z0 Z1, 0 < k ->
  (lse k Z0 + rsum k (fun j => soft k Z0 j * (Z1 j - Z0 j)) <= lse k Z1)%R.
Proof.
  intros k Z0 Z1 Hk. pose proof (esum_pos k Z0 Hk) as S. pose proof (esum_pos k Z1 Hk) as S1.
  set (m := rsum k (fun j => soft k Z0 j * (Z1 j - Z0 j))%R).
  rewrite <- (ln_exp m). unfold lse. rewrite <- ln_mult by (try apply exp_pos; auto).
  assert (H : (esum k Z0 * exp m <= esum k Z1)%R).
  { replace (esum k Z1) with (esum k Z0 * rsum k (fun j => soft k Z0 j * exp (Z1 j - Z0 j)))%R.
    2:{ rewrite <- rsum_scal_l. apply rsum_ext. intros j Hj. unfold soft.
        replace (Z1 j) with (Z0 j + (Z1 j - Z0 j))%R at 2 by ring. rewrite exp_plus. field. lra. }
    apply Rmult_le_compat_l; [lra|].
    apply Rle_trans with (rsum k (fun j => soft k Z0 j * (exp m * (1 + (Z1 j - Z0 j - m))))%R).
    - right. transitivity (exp m * (rsum k (soft k Z0) * (1 - m) + m))%R.
      + rewrite soft_total by auto. ring.
      + unfold m at 3. rewrite Rmult_plus_distr_l, <- rsum_scal_r, <- !rsum_scal_l, <- rsum_plus.
        apply rsum_ext. intros j Hj. ring.
    - apply rsum_le. intros j Hj. apply Rmult_le_compat_l; [left; apply soft_nonneg; auto|].
      replace (Z1 j - Z0 j)%R with (m + (Z1 j - Z0 j - m))%R at 2 by ring. rewrite exp_plus.
      apply Rmult_le_compat_l; [left; apply exp_pos|].
      destruct (Req_dec (Z1 j - Z0 j - m) 0) as [->|Ne]; [rewrite exp_0; lra|]. left. apply exp_ineq1; auto. }
  destruct H as [H|H]; [left; apply ln_increasing; auto|right; rewrite H; reflexivity].
  apply Rmult_lt_0_compat; [auto|apply exp_pos].
Qed.

(** A function with non-positive derivative does not increase. *)
Lemma not_increasing : forall (f f' : R -> R), (forall t, is_derive f t (f' t)) ->
  (forall t, (0 <= t)%R -> (f' t <= 0)%R) -> forall t, (0 <= t)%R -> (f t <= f 0)%R.
Proof.
  intros f f' D N t Ht.
  destruct (MVT_gen f 0%R t f') as (c & Hc & E).
  - intros x _. apply D.
  - intros x _. apply derivable_continuous_pt. exists (f' x). apply is_derive_Reals, D.
  - rewrite Rmin_left, Rmax_right in Hc by lra. specialize (N c ltac:(lra)). nra.
Qed.

(** The variance of numbers between [lo] and [hi]. *)
Lemma variance_le : forall k (w D : Z -> R) lo hi, (forall j, 0 <= j < k -> (0 <= w j)%R) ->
  (forall j, 0 <= j < k -> (lo <= D j <= hi)%R) ->
  (rsum k (fun j => w j * D j ^ 2) * rsum k w - rsum k (fun j => w j * D j) ^ 2
    <= rsum k w ^ 2 * ((hi - lo) / 2) ^ 2)%R.
Proof.
  intros k w D lo hi Hw HD. set (c := ((hi + lo) / 2)%R). set (S := rsum k w). set (N := rsum k (fun j => w j * D j)%R).
  set (Q := rsum k (fun j => w j * D j ^ 2)%R).
  assert (P : (0 <= S)%R).
  { replace 0%R with (rsum k (fun j => w j * 0))%R by (rewrite rsum_scal_r; ring).
    apply rsum_le. intros j Hj. rewrite Rmult_0_r. auto. }
  assert (A : (Q - 2 * c * N + c ^ 2 * S <= S * ((hi - lo) / 2) ^ 2)%R).
  { replace (Q - 2 * c * N + c ^ 2 * S)%R with (rsum k (fun j => w j * (D j - c) ^ 2))%R.
    - unfold S. rewrite <- rsum_scal_r. apply rsum_le. intros j Hj. apply Rmult_le_compat_l; [auto|].
      specialize (HD j Hj). unfold c. nra.
    - unfold Q, N, S. rewrite <- !rsum_scal_l, <- rsum_minus, <- rsum_plus. apply rsum_ext. intros j Hj. ring. }
  assert (B : (Q * S - N ^ 2 <= S * (Q - 2 * c * N + c ^ 2 * S))%R) by (pose proof (pow2_ge_0 (N - c * S)); nra).
  apply Rle_trans with (S * (S * ((hi - lo) / 2) ^ 2))%R; [|right; ring].
  eapply Rle_trans; [exact B|]. apply Rmult_le_compat_l; auto.
Qed.

Lemma spread_le : forall k (D : Z -> R), 0 < k -> exists lo hi,
  (forall j, 0 <= j < k -> (lo <= D j <= hi)%R) /\ (((hi - lo) / 2) ^ 2 <= / 2 * rsum k (fun j => D j ^ 2))%R.
Proof.
  intros k D Hk.
  destruct (scan_first k D ltac:(lia)) as (Rh & Gh & _). destruct (scan_first k (fun j => - D j)%R ltac:(lia)) as (Rl & Gl & _).
  set (h := FloatNan.scan Rsc k D) in *. set (l := FloatNan.scan Rsc k (fun j => - D j)%R) in *.
  exists (D l), (D h). split; [intros j Hj; specialize (Gh j Hj); specialize (Gl j Hj); cbv beta in Gl; lra|].
  assert (P : forall j, 0 <= j < k -> (0 <= D j ^ 2)%R) by (intros; apply pow2_ge_0).
  destruct (Z.eq_dec h l) as [E|Ne].
  - rewrite E. replace ((D l - D l) / 2)%R with 0%R by field. pose proof (rsum_ge_one k l _ Rl P). cbv beta in H.
    pose proof (pow2_ge_0 (D l)). nra.
  - assert (B : (D h ^ 2 + D l ^ 2 <= rsum k (fun j => D j ^ 2))%R).
    { apply Rle_trans with (rsum k (fun j => (if Z.eq_dec j h then D j ^ 2 else 0) + (if Z.eq_dec j l then D j ^ 2 else 0))%R).
      - right. rewrite rsum_plus, !rsum_pick by auto. reflexivity.
      - apply rsum_le. intros j Hj. specialize (P j Hj). destruct (Z.eq_dec j h), (Z.eq_dec j l); subst; try congruence; lra. }
    pose proof (pow2_ge_0 (D h + D l)). nra.
Qed.

(** It lies below its tangents plus a quarter of the squared distance. *)
Lemma lse_below : forall k Z0 D, 0 < k ->
  (lse k (fun j => Z0 j + D j) <= lse k Z0 + rsum k (fun j => soft k Z0 j * D j) + / 4 * rsum k (fun j => D j ^ 2))%R.
Proof.
  intros k Z0 D Hk. destruct (spread_le k D Hk) as (lo & hi & HD & HV). set (V := (((hi - lo) / 2) ^ 2)%R) in *.
  set (S := fun t => esum k (fun j => Z0 j + t * D j)%R).
  set (w := fun t j => exp (Z0 j + t * D j)%R).
  set (N := fun t => rsum k (fun j => w t j * D j)%R).
  set (Q := fun t => rsum k (fun j => w t j * D j ^ 2)%R).
  assert (SP : forall t, (0 < S t)%R) by (intros; apply esum_pos; auto).
  assert (Dw : forall j t, is_derive (fun t => w t j) t (w t j * D j)%R).
  { intros j t. unfold w. auto_derive; [exact I|]. ring. }
  assert (DS : forall t, is_derive S t (N t)).
  { intros t. apply (is_derive_rsum k (fun j t => w t j)). intros j Hj. apply Dw. }
  assert (DN : forall t, is_derive N t (Q t)).
  { intros t. apply (is_derive_rsum k (fun j t => w t j * D j)%R). intros j Hj.
    replace (w t j * D j ^ 2)%R with (w t j * D j * D j)%R by ring.
    apply (is_derive_ext (fun t => D j * w t j)%R); [intros; apply Rmult_comm|]. replace (w t j * D j * D j)%R with (D j * (w t j * D j))%R by ring.
    apply is_derive_scal, Dw. }
  set (m := fun t => (N t / S t)%R).
  assert (Dm : forall t, is_derive m t ((Q t * S t - N t * N t) / S t ^ 2)%R).
  { intros t. apply (is_derive_div N S t); auto. apply Rgt_not_eq. apply SP. }
  assert (Dl : forall t, is_derive (fun t => ln (S t)) t (m t)).
  { intros t. assert (DL : is_derive ln (S t) (/ S t)%R) by (apply is_derive_Reals, derivable_pt_lim_ln, SP).
    pose proof (is_derive_comp ln S t _ _ DL (DS t)) as R0. unfold scal in R0; cbn in R0. unfold mult in R0; cbn in R0. exact R0. }
  assert (M1 : forall t, (0 <= t)%R -> (m t <= m 0 + V * t)%R).
  { intros t Ht.
    pose proof (not_increasing (fun t => m t - V * t)%R (fun t => (Q t * S t - N t * N t) / S t ^ 2 - V)%R) as NI.
    assert (H : (m t - V * t <= m 0 - V * 0)%R); [|lra].
    apply NI; [|clear t Ht|exact Ht].
    - intros u. apply (is_derive_minus m (fun u => V * u)%R); [apply Dm|]. auto_derive; [exact I|ring].
    - intros u _. assert (H : ((Q u * S u - N u * N u) / S u ^ 2 <= V)%R); [|lra].
      apply (Rmult_le_reg_r (S u ^ 2)); [apply pow_lt; auto|].
      replace ((Q u * S u - N u * N u) / S u ^ 2 * S u ^ 2)%R with (Q u * S u - N u ^ 2)%R
        by (field; apply Rgt_not_eq; apply SP).
      rewrite (Rmult_comm V). apply (variance_le k (w u) D lo hi); auto. intros j Hj. left. apply exp_pos. }
  assert (M2 : (ln (S 1) - m 0 * 1 - V / 2 * 1 ^ 2 <= ln (S 0) - m 0 * 0 - V / 2 * 0 ^ 2)%R).
  { apply (not_increasing (fun t => ln (S t) - m 0 * t - V / 2 * t ^ 2)%R (fun t => m t - m 0 - V * t)%R); [| |lra].
    - intros u. apply (is_derive_minus (fun u => ln (S u) - m 0 * u)%R (fun u => V / 2 * u ^ 2)%R).
      + apply (is_derive_minus (fun u => ln (S u)) (fun u => m 0 * u)%R); [apply Dl|]. auto_derive; [exact I|ring].
      + auto_derive; [exact I|field].
    - intros u Hu. specialize (M1 u Hu). lra. }
  assert (S1 : lse k (fun j => Z0 j + D j)%R = ln (S 1%R)).
  { unfold lse, S, esum. f_equal. apply rsum_ext. intros. do 2 f_equal. ring. }
  assert (S0 : S 0%R = esum k Z0) by (apply rsum_ext; intros; f_equal; ring).
  assert (Em : m 0%R = rsum k (fun j => soft k Z0 j * D j)%R).
  { unfold m. rewrite S0. unfold N, Rdiv. rewrite <- rsum_scal_r. apply rsum_ext. intros j Hj. unfold w, soft, Rdiv.
    replace (Z0 j + 0 * D j)%R with (Z0 j) by ring. ring. }
  rewrite S1, <- Em. unfold lse. rewrite <- S0. lra.
Qed.

(** ** The loss in terms of scores *)

Definition free_loss (n d k : Z) (X Y W : mat) (B : vec) : R :=
  (rsum n (fun i => lse k (scores d X W B i) - rsum k (fun j => Y i j * scores d X W B i j)) / IZR n)%R.

Lemma ln_soft : forall k Z0 j, 0 <= j < k -> ln (soft k Z0 j) = (Z0 j - lse k Z0)%R.
Proof.
  intros k Z0 j Hj. unfold soft, lse. rewrite ln_div by (try apply exp_pos; apply esum_pos; lia). rewrite ln_exp. reflexivity.
Qed.

Lemma xent_free : forall k Y Z0, rsum k Y = 1%R ->
  xent_fn k Y (soft k Z0) = (lse k Z0 - rsum k (fun j => Y j * Z0 j))%R.
Proof.
  intros k Y Z0 H1. unfold xent_fn.
  replace (rsum k (fun j => Y j * ln (soft k Z0 j)))%R with (rsum k (fun j => Y j * Z0 j) - rsum k Y * lse k Z0)%R.
  - rewrite H1. ring.
  - rewrite <- rsum_scal_r, <- rsum_minus. apply rsum_ext. intros j Hj. rewrite ln_soft by auto. ring.
Qed.

Lemma loss_free : forall eps n d k X Y W B, labelled n k Y -> clear eps n d k X W B ->
  slp_loss eps n d k X Y W B = free_loss n d k X Y W B.
Proof.
  intros eps n d k X Y W B HY HC. unfold slp_loss, free_loss, Rdiv. f_equal. apply rsum_ext. intros i Hi.
  rewrite <- xent_free by (apply HY; auto). apply xent_ext. intros j Hj. unfold predict, softmax_fn.
  rewrite Rmax_right; [reflexivity|]. left. apply (HC i Hi j Hj).
Qed.

Lemma loss_le_free : forall eps n d k X Y W B, 1 <= n -> labelled n k Y ->
  (slp_loss eps n d k X Y W B <= free_loss n d k X Y W B)%R.
Proof.
  intros eps n d k X Y W B Hn HY. unfold slp_loss, free_loss, Rdiv.
  apply Rmult_le_compat_r; [left; apply Rinv_0_lt_compat, (IZR_lt 0); lia|]. apply rsum_le. intros i Hi.
  rewrite <- xent_free by (apply HY; auto). unfold xent_fn. apply Ropp_le_contravar. apply rsum_le. intros j Hj.
  apply Rmult_le_compat_l; [apply HY; auto|]. pose proof (soft_nonneg k (scores d X W B i) j Hj) as P.
  unfold predict, softmax_fn. fold (esum k (scores d X W B i)). fold (soft k (scores d X W B i) j).
  destruct (Rle_dec (soft k (scores d X W B i) j) (Rmax eps (soft k (scores d X W B i) j))) as [[L|L]|L].
  - left. apply ln_increasing; auto.
  - rewrite <- L. lra.
  - exfalso. apply L, Rmax_r.
Qed.

(** ** Inner products *)

Definition inner (d k : Z) (GW DW : mat) (GB DB : vec) : R :=
  (rsum d (fun a => rsum k (fun j => GW a j * DW a j)) + rsum k (fun j => GB j * DB j))%R.

Lemma inner_scores : forall eps n d k X Y W B DW DB,
  inner d k (slp_gw eps n d k X Y W B) DW (slp_gb eps n d k X Y W B) DB =
  rsum n (fun i => rsum k (fun j => slp_delta eps n d k X Y W B i j * scores d X DW DB i j))%R.
Proof.
  intros eps n d k X Y W B DW DB. symmetry. unfold inner.
  transitivity (rsum n (fun i => rsum k (fun j => rsum d (fun a => X i a * slp_delta eps n d k X Y W B i j * DW a j)) +
                                 rsum k (fun j => slp_delta eps n d k X Y W B i j * DB j)))%R.
  { apply rsum_ext. intros i Hi. rewrite <- rsum_plus. apply rsum_ext. intros j Hj. unfold scores.
    rewrite Rmult_plus_distr_l, <- rsum_scal_l. f_equal. apply rsum_ext. intros; ring. }
  rewrite rsum_plus. f_equal.
  + transitivity (rsum k (fun j => rsum n (fun i => rsum d (fun a => X i a * slp_delta eps n d k X Y W B i j * DW a j))))%R.
    { apply rsum_swap. }
    transitivity (rsum k (fun j => rsum d (fun a => slp_gw eps n d k X Y W B a j * DW a j)))%R; [|apply rsum_swap].
    apply rsum_ext. intros j Hj. rewrite rsum_swap. apply rsum_ext. intros a Ha. unfold slp_gw.
    rewrite rsum_scal_r. reflexivity.
  + rewrite rsum_swap. apply rsum_ext. intros j Hj. unfold slp_gb. rewrite rsum_scal_r. reflexivity.
Qed.

Lemma inner_self : forall d k GW GB, inner d k GW GW GB GB = sqnorm d k GW GB.
Proof.
  intros. unfold inner, sqnorm. f_equal; [apply rsum_ext; intros; apply rsum_ext; intros; ring|apply rsum_ext; intros; ring].
Qed.

Lemma sqnorm_nonneg : forall d k W B, (0 <= sqnorm d k W B)%R.
Proof.
  assert (P : forall n f, (forall i, 0 <= i < n -> (0 <= f i)%R) -> (0 <= rsum n f)%R).
  { intros n f H. replace 0%R with (rsum n (fun j => f j * 0))%R by (rewrite rsum_scal_r; ring).
    apply rsum_le. intros j Hj. rewrite Rmult_0_r. auto. }
  intros. unfold sqnorm. apply Rplus_le_le_0_compat; apply P; intros; try apply P; intros; apply pow2_ge_0.
Qed.

Lemma scores_affine : forall d X W B DW DB c i j,
  scores d X (fun a j => W a j + c * DW a j)%R (fun j => B j + c * DB j)%R i j =
  (scores d X W B i j + c * scores d X DW DB i j)%R.
Proof.
  intros. unfold scores.
  replace (rsum d (fun a => X i a * (W a j + c * DW a j)))%R
    with (rsum d (fun a => X i a * W a j) + c * rsum d (fun a => X i a * DW a j))%R; [ring|].
  rewrite <- rsum_scal_l, <- rsum_plus. apply rsum_ext. intros; ring.
Qed.

Lemma scores_ext : forall d X W W' B B' i j, (forall a j, W a j = W' a j) -> (forall j, B j = B' j) ->
  scores d X W B i j = scores d X W' B' i j.
Proof. intros d X W W' B B' i j HW HB. unfold scores. rewrite HB. f_equal. apply rsum_ext. intros. rewrite HW. reflexivity. Qed.

Lemma lse_ext : forall k Z0 Z1, (forall j, Z0 j = Z1 j) -> lse k Z0 = lse k Z1.
Proof. intros k Z0 Z1 H. unfold lse, esum. f_equal. apply rsum_ext. intros. rewrite H. reflexivity. Qed.

(** The derivative of the loss along a direction, in terms of scores. *)
Lemma inner_free : forall eps n d k X Y W B DW DB, labelled n k Y -> clear eps n d k X W B ->
  inner d k (slp_gw eps n d k X Y W B) DW (slp_gb eps n d k X Y W B) DB =
  (rsum n (fun i => rsum k (fun j => (soft k (scores d X W B i) j - Y i j) * scores d X DW DB i j)) / IZR n)%R.
Proof.
  intros eps n d k X Y W B DW DB HY HC. rewrite inner_scores. unfold Rdiv. rewrite <- rsum_scal_r.
  apply rsum_ext. intros i Hi. rewrite <- rsum_scal_r. apply rsum_ext. intros j Hj. unfold slp_delta, predict, softmax_fn.
  rewrite Rmax_right by (left; apply (HC i Hi j Hj)). rewrite (proj2 (HY i Hi)). unfold soft, esum, Rdiv. ring.
Qed.

(** Convexity. *)
Lemma loss_convex : forall eps n d k X Y W B W1 B1, 1 <= n -> 0 < k -> labelled n k Y -> clear eps n d k X W B ->
  (free_loss n d k X Y W B +
   inner d k (slp_gw eps n d k X Y W B) (fun a j => W1 a j - W a j) (slp_gb eps n d k X Y W B) (fun j => B1 j - B j)
   <= free_loss n d k X Y W1 B1)%R.
Proof.
  intros eps n d k X Y W B W1 B1 Hn Hk HY HC. rewrite (inner_free eps n d k X Y W B _ _ HY HC).
  unfold free_loss, Rdiv. rewrite <- Rmult_plus_distr_r, <- rsum_plus.
  apply Rmult_le_compat_r; [left; apply Rinv_0_lt_compat, (IZR_lt 0); lia|]. apply rsum_le. intros i Hi.
  pose proof (lse_above k (scores d X W B i) (scores d X W1 B1 i) Hk) as L.
  assert (E : forall j, scores d X (fun a j => W1 a j - W a j)%R (fun j => B1 j - B j)%R i j = (scores d X W1 B1 i j - scores d X W B i j)%R).
  { intros j. rewrite (scores_ext d X _ (fun a j => W1 a j + -1 * W a j)%R _ (fun j => B1 j + -1 * B j)%R) by (intros; ring).
    rewrite scores_affine. ring. }
  replace (rsum k (fun j => (soft k (scores d X W B i) j - Y i j) * scores d X (fun a j => W1 a j - W a j) (fun j => B1 j - B j) i j))%R
    with (rsum k (fun j => soft k (scores d X W B i) j * (scores d X W1 B1 i j - scores d X W B i j))
          - (rsum k (fun j => Y i j * scores d X W1 B1 i j) - rsum k (fun j => Y i j * scores d X W B i j)))%R; [lra|].
  rewrite <- !rsum_minus. apply rsum_ext. intros j Hj. rewrite E. ring.
Qed.

(** Cauchy-Schwarz. *)
Lemma score_square : forall d (x g : Z -> R) b,
  ((rsum d (fun a => x a * g a) + b) ^ 2 <= (rsum d (fun a => x a ^ 2) + 1) * (rsum d (fun a => g a ^ 2) + b ^ 2))%R.
Proof.
  intros d x g b. set (q := rsum d (fun a => x a ^ 2)%R). set (p := rsum d (fun a => x a * g a)%R). set (h := rsum d (fun a => g a ^ 2)%R).
  assert (P : forall f, (forall i, 0 <= i < d -> (0 <= f i)%R) -> (0 <= rsum d f)%R).
  { intros f H. replace 0%R with (rsum d (fun j => f j * 0))%R by (rewrite rsum_scal_r; ring).
    apply rsum_le. intros j Hj. rewrite Rmult_0_r. auto. }
  assert (Q : (0 <= q)%R) by (apply P; intros; apply pow2_ge_0).
  assert (A : forall l, (0 <= h - 2 * l * p + l ^ 2 * q + (b - l) ^ 2)%R).
  { intros l. apply Rplus_le_le_0_compat; [|apply pow2_ge_0].
    replace (h - 2 * l * p + l ^ 2 * q)%R with (rsum d (fun a => (g a - l * x a) ^ 2))%R.
    - apply P. intros. apply pow2_ge_0.
    - unfold h, p, q. rewrite <- !rsum_scal_l, <- rsum_minus, <- rsum_plus. apply rsum_ext. intros; ring. }
  specialize (A ((p + b) / (q + 1))%R).
  assert (E : (h - 2 * ((p + b) / (q + 1)) * p + ((p + b) / (q + 1)) ^ 2 * q + (b - (p + b) / (q + 1)) ^ 2 = h + b ^ 2 - (p + b) ^ 2 / (q + 1))%R)
    by (field; lra).
  rewrite E in A. apply (Rmult_le_compat_r (q + 1)) in A; [|lra].
  replace ((h + b ^ 2 - (p + b) ^ 2 / (q + 1)) * (q + 1))%R with ((q + 1) * (h + b ^ 2) - (p + b) ^ 2)%R in A by (field; lra).
  lra.
Qed.

Lemma change_square : forall n d k X DW DB, 1 <= n ->
  (rsum n (fun i => rsum k (fun j => scores d X DW DB i j ^ 2)) / IZR n <= (mean_square n d X + 1) * sqnorm d k DW DB)%R.
Proof.
  intros n d k X DW DB Hn. pose proof (IZR_lt 0 n ltac:(lia)) as Hn'.
  apply Rle_trans with (rsum n (fun i => (rsum d (fun a => X i a ^ 2) + 1) * sqnorm d k DW DB) / IZR n)%R.
  - unfold Rdiv. apply Rmult_le_compat_r; [left; apply Rinv_0_lt_compat; lra|]. apply rsum_le. intros i Hi.
    replace (sqnorm d k DW DB) with (rsum k (fun j => rsum d (fun a => DW a j ^ 2) + DB j ^ 2))%R
      by (unfold sqnorm; rewrite rsum_plus; f_equal; apply rsum_swap).
    rewrite <- rsum_scal_l. apply rsum_le. intros j Hj. apply score_square.
  - right. rewrite rsum_scal_r, rsum_plus, rsum_const by lia. unfold mean_square. field. lra.
Qed.

(** A step of length [c] along a direction. *)
Lemma loss_smooth : forall eps n d k X Y W B DW DB, 1 <= n -> 0 < k -> labelled n k Y -> clear eps n d k X W B ->
  (free_loss n d k X Y (fun a j => W a j - DW a j) (fun j => B j - DB j)
   <= free_loss n d k X Y W B - inner d k (slp_gw eps n d k X Y W B) DW (slp_gb eps n d k X Y W B) DB
      + / 4 * ((mean_square n d X + 1) * sqnorm d k DW DB))%R.
Proof.
  intros eps n d k X Y W B DW DB Hn Hk HY HC.
  pose proof (change_square n d k X DW DB Hn) as CS. rewrite (inner_free eps n d k X Y W B _ _ HY HC).
  eapply Rle_trans; [|apply Rplus_le_compat_l; apply Rmult_le_compat_l; [lra|exact CS]].
  unfold free_loss, Rdiv. rewrite <- Rmult_minus_distr_r, <- Rmult_assoc, <- Rmult_plus_distr_r, <- rsum_minus, <- rsum_scal_l, <- rsum_plus.
  apply Rmult_le_compat_r; [left; apply Rinv_0_lt_compat, (IZR_lt 0); lia|]. apply rsum_le. intros i Hi.
  set (Z0 := scores d X W B i). set (D := scores d X DW DB i).
  assert (E : forall j, scores d X (fun a j => W a j - DW a j)%R (fun j => B j - DB j)%R i j = (Z0 j + - D j)%R).
  { intros j. rewrite (scores_ext d X _ (fun a j => W a j + -1 * DW a j)%R _ (fun j => B j + -1 * DB j)%R) by (intros; ring).
    rewrite scores_affine. unfold Z0, D. ring. }
  rewrite (lse_ext k _ _ E).
  pose proof (lse_below k Z0 (fun j => - D j)%R Hk) as L. cbv beta in L.
  replace (rsum k (fun j => (- D j) ^ 2))%R with (rsum k (fun j => D j ^ 2))%R in L by (apply rsum_ext; intros; ring).
  replace (rsum k (fun j => Y i j * scores d X (fun a j => W a j - DW a j) (fun j => B j - DB j) i j))%R
    with (rsum k (fun j => Y i j * Z0 j) - rsum k (fun j => Y i j * D j))%R
    by (rewrite <- rsum_minus; apply rsum_ext; intros; rewrite E; ring).
  replace (rsum k (fun j => soft k Z0 j * - D j))%R with (- rsum k (fun j => soft k Z0 j * D j))%R in L
    by (replace (rsum k (fun j => soft k Z0 j * - D j))%R with (-1 * rsum k (fun j => soft k Z0 j * D j))%R;
        [ring|rewrite <- rsum_scal_l; apply rsum_ext; intros; ring]).
  replace (rsum k (fun j => (soft k Z0 j - Y i j) * D j))%R
    with (rsum k (fun j => soft k Z0 j * D j) - rsum k (fun j => Y i j * D j))%R
    by (rewrite <- rsum_minus; apply rsum_ext; intros; ring).
  lra.
Qed.

(** ** Steps *)
Section Steps.
  Context (eps : R) (n d k : Z) (X Y : mat) (Hn : 1 <= n) (Hk : 0 < k) (HY : labelled n k Y).
  Notation loss p := (free_loss n d k X Y (fst p) (snd p)).
  Notation step := (descend eps n d k X Y).
  Notation ok p := (clear eps n d k X (fst p) (snd p)).
  Notation grad p := (sqnorm d k (slp_gw eps n d k X Y (fst p) (snd p)) (slp_gb eps n d k X Y (fst p) (snd p))).
  Notation dist p q := (sqnorm d k (fun a j => fst p a j - fst q a j)%R (fun j => snd p j - snd q j)%R).

  Lemma step_decrease : forall p : mat * vec, ok p -> (loss (step p) <= loss p - (3 - mean_square n d X) / 4 * grad p)%R.
  Proof using Hn Hk HY.
    intros p C. pose proof (loss_smooth eps n d k X Y (fst p) (snd p)
      (slp_gw eps n d k X Y (fst p) (snd p)) (slp_gb eps n d k X Y (fst p) (snd p)) Hn Hk HY C) as S.
    rewrite inner_self in S. unfold descend; cbn [fst snd]. lra.
  Qed.

  Lemma dist_step : forall p q : mat * vec,
    dist (step p) q = (dist p q - 2 * inner d k (slp_gw eps n d k X Y (fst p) (snd p)) (fun a j => fst p a j - fst q a j)%R
                                              (slp_gb eps n d k X Y (fst p) (snd p)) (fun j => snd p j - snd q j)%R + grad p)%R.
  Proof using.
    intros p q. unfold sqnorm, inner, descend; cbn [fst snd].
    set (GW := slp_gw eps n d k X Y (fst p) (snd p)). set (GB := slp_gb eps n d k X Y (fst p) (snd p)).
    assert (E1 : rsum d (fun a => rsum k (fun j => (fst p a j - GW a j - fst q a j) ^ 2))%R =
      (rsum d (fun a => rsum k (fun j => (fst p a j - fst q a j) ^ 2)) -
       2 * rsum d (fun a => rsum k (fun j => GW a j * (fst p a j - fst q a j))) + rsum d (fun a => rsum k (fun j => GW a j ^ 2)))%R).
    { rewrite <- rsum_scal_l, <- rsum_minus, <- rsum_plus. apply rsum_ext. intros a Ha.
      rewrite <- rsum_scal_l, <- rsum_minus, <- rsum_plus. apply rsum_ext. intros j Hj. ring. }
    assert (E2 : rsum k (fun j => (snd p j - GB j - snd q j) ^ 2)%R =
      (rsum k (fun j => (snd p j - snd q j) ^ 2) - 2 * rsum k (fun j => GB j * (snd p j - snd q j)) + rsum k (fun j => GB j ^ 2))%R).
    { rewrite <- rsum_scal_l, <- rsum_minus, <- rsum_plus. apply rsum_ext. intros j Hj. ring. }
    rewrite E1, E2. ring.
  Qed.

  (** One step towards any other parameters. *)
  Lemma step_towards : forall p q : mat * vec, (mean_square n d X <= 1)%R -> ok p ->
    (loss (step p) <= loss q + / 2 * (dist p q - dist (step p) q))%R.
  Proof using Hn Hk HY.
    intros p q HM C. pose proof (step_decrease p C) as S. pose proof (loss_convex eps n d k X Y _ _ (fst q) (snd q) Hn Hk HY C) as V.
    pose proof (dist_step p q) as D. pose proof (sqnorm_nonneg d k (slp_gw eps n d k X Y (fst p) (snd p)) (slp_gb eps n d k X Y (fst p) (snd p))) as G.
    assert (I : inner d k (slp_gw eps n d k X Y (fst p) (snd p)) (fun a j => fst q a j - fst p a j)%R
                        (slp_gb eps n d k X Y (fst p) (snd p)) (fun j => snd q j - snd p j)%R =
      (- inner d k (slp_gw eps n d k X Y (fst p) (snd p)) (fun a j => fst p a j - fst q a j)%R
                        (slp_gb eps n d k X Y (fst p) (snd p)) (fun j => snd p j - snd q j)%R)%R).
    { unfold inner. rewrite Ropp_plus_distr. f_equal.
      - replace (- rsum d (fun a => rsum k (fun j => slp_gw eps n d k X Y (fst p) (snd p) a j * (fst p a j - fst q a j))))%R
          with (-1 * rsum d (fun a => rsum k (fun j => slp_gw eps n d k X Y (fst p) (snd p) a j * (fst p a j - fst q a j))))%R by ring.
        rewrite <- rsum_scal_l. apply rsum_ext. intros a Ha. rewrite <- rsum_scal_l. apply rsum_ext. intros j Hj. ring.
      - replace (- rsum k (fun j => slp_gb eps n d k X Y (fst p) (snd p) j * (snd p j - snd q j)))%R
          with (-1 * rsum k (fun j => slp_gb eps n d k X Y (fst p) (snd p) j * (snd p j - snd q j)))%R by ring.
        rewrite <- rsum_scal_l. apply rsum_ext. intros j Hj. ring. }
    rewrite I in V.
    pose proof (Rmult_le_pos (1 - mean_square n d X) _ ltac:(lra) G) as H.
    lra.
  Qed.

  Lemma steps_rate : forall (q p : mat * vec) T, (mean_square n d X <= 1)%R ->
    (forall t, (t < T)%nat -> ok (Nat.iter t step p)) ->
    (INR T * loss (Nat.iter T step p) <= INR T * loss q + / 2 * (dist p q - dist (Nat.iter T step p) q))%R.
  Proof using Hn Hk HY.
    intros q p T HM. induction T as [|T IH]; intros C; [cbn; lra|].
    specialize (IH ltac:(intros; apply C; lia)). pose proof (C T ltac:(lia)) as CT.
    pose proof (step_towards (Nat.iter T step p) q HM CT) as St. pose proof (step_decrease (Nat.iter T step p) CT) as D.
    pose proof (sqnorm_nonneg d k (slp_gw eps n d k X Y (fst (Nat.iter T step p)) (snd (Nat.iter T step p)))
      (slp_gb eps n d k X Y (fst (Nat.iter T step p)) (snd (Nat.iter T step p)))) as G.
    change (Nat.iter (S T) step p) with (step (Nat.iter T step p)). rewrite S_INR. pose proof (pos_INR T) as P.
    assert (M : (loss (step (Nat.iter T step p)) <= loss (Nat.iter T step p))%R) by nra.
    apply (Rmult_le_compat_l (INR T)) in M; [|exact P]. lra.
  Qed.
End Steps.
