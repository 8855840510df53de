(** One pass over different batches: the losses before the steps. *)
From Coq Require Import ZArith List Bool Lia ZifyBool Reals Lra.
From Coquelicot Require Import Coquelicot.
From Verif Require Import Base BaseFacts Scalar RealScalar SumFacts
  ActivationSpec ActivationFacts SoftmaxFacts PropsSoftmax Train TrainSpec TrainGrad PredictSpec PredictFacts ConvergeSpec ConvergeFacts.
Import ListNotations.
Open Scope Z_scope.

Lemma rsum_succ : forall n f, 0 <= n -> rsum (n + 1) f = (rsum n f + f n)%R.
Proof. intros n f Hn. unfold rsum. rewrite zrange_succ by lia. unfold sum_over. rewrite fold_left_app. reflexivity. Qed.

Lemma rsum_nonneg : forall n f, (forall i, 0 <= i < n -> (0 <= f i)%R) -> (0 <= rsum n f)%R.
Proof.
  intros n f H. replace 0%R with (rsum n (fun j => f j * 0))%R by (rewrite rsum_scal_r; ring).
  apply rsum_le. intros j Hj. rewrite Rmult_0_r. auto.
Qed.

Lemma mean_square_nonneg : forall n d X, 1 <= n -> (0 <= mean_square n d X)%R.
Proof.
  intros n d X Hn. unfold mean_square. apply Rmult_le_pos; [|left; apply Rinv_0_lt_compat, (IZR_lt 0); lia].
  apply rsum_nonneg. intros i Hi. apply rsum_nonneg. intros. apply pow2_ge_0.
Qed.

(** ** The loss is non-negative and bounds the gradient *)

Lemma free_nonneg : forall n d k X Y W B, 1 <= n -> 0 < k -> labelled n k Y -> (0 <= free_loss n d k X Y W B)%R.
Proof.
  intros n d k X Y W B Hn Hk HY. unfold free_loss. apply Rmult_le_pos; [|left; apply Rinv_0_lt_compat, (IZR_lt 0); lia].
  apply rsum_nonneg. intros i Hi. destruct (HY i Hi) as (Y0 & Y1). rewrite <- xent_free by exact Y1. unfold xent_fn.
  assert (H : (0 <= rsum k (fun j => - (Y i j * ln (soft k (scores d X W B i) j))))%R).
  { apply rsum_nonneg. intros j Hj. specialize (Y0 j Hj).
    pose proof (soft_nonneg k (scores d X W B i) j Hj) as P. assert (Q : (soft k (scores d X W B i) j <= 1)%R) by (apply soft_le1; exact Hj).
    assert (L0 : (ln (soft k (scores d X W B i) j) <= 0)%R).
    { rewrite <- ln_1. destruct (Rle_lt_or_eq_dec _ _ Q) as [Q'|Q']; [left; apply ln_increasing; auto|rewrite Q'; lra]. }
    rewrite <- Ropp_mult_distr_r_reverse. apply Rmult_le_pos; lra. }
  replace (- rsum k (fun j => Y i j * ln (soft k (scores d X W B i) j)))%R
    with (rsum k (fun j => - (Y i j * ln (soft k (scores d X W B i) j)))%R); [exact H|].
  replace (- rsum k (fun j => Y i j * ln (soft k (scores d X W B i) j)))%R
    with (-1 * rsum k (fun j => Y i j * ln (soft k (scores d X W B i) j)))%R by ring.
  rewrite <- rsum_scal_l. apply rsum_ext. intros. ring.
Qed.

Section Steps.
  Context (eps : R) (n d k : Z) (X Y : mat) (Hn : 1 <= n) (Hk : 0 < k) (HY : labelled n k Y).
  Notation loss p := (free_loss n d k X Y (fst p) (snd p)).
  Notation step := (descend eps n d k X Y).
  Notation ok p := (clear eps n d k X (fst p) (snd p)).
  Notation grad p := (sqnorm d k (slp_gw eps n d k X Y (fst p) (snd p)) (slp_gb eps n d k X Y (fst p) (snd p))).
  Notation dist p q := (sqnorm d k (fun a j => fst p a j - fst q a j)%R (fun j => snd p j - snd q j)%R).

  Lemma self_bound : forall p : mat * vec, ok p -> (grad p <= (mean_square n d X + 1) * loss p)%R.
  Proof using Hn Hk HY.
    intros p C. set (GW := slp_gw eps n d k X Y (fst p) (snd p)). set (GB := slp_gb eps n d k X Y (fst p) (snd p)).
    pose proof (mean_square_nonneg n d X Hn) as M0. set (M := mean_square n d X) in *. set (c := (2 / (M + 1))%R).
    pose proof (loss_smooth eps n d k X Y (fst p) (snd p) (fun a j => c * GW a j)%R (fun j => c * GB j)%R Hn Hk HY C) as S.
    fold GW GB M in S.
    assert (E1 : inner d k GW (fun a j => c * GW a j)%R GB (fun j => c * GB j)%R = (c * sqnorm d k GW GB)%R).
    { rewrite <- inner_self. unfold inner. rewrite Rmult_plus_distr_l. f_equal.
      - rewrite <- rsum_scal_l. apply rsum_ext. intros a Ha. rewrite <- rsum_scal_l. apply rsum_ext. intros. ring.
      - rewrite <- rsum_scal_l. apply rsum_ext. intros. ring. }
    assert (E2 : sqnorm d k (fun a j => c * GW a j)%R (fun j => c * GB j)%R = (c * c * sqnorm d k GW GB)%R).
    { unfold sqnorm. rewrite Rmult_plus_distr_l. f_equal.
      - rewrite <- rsum_scal_l. apply rsum_ext. intros a Ha. rewrite <- rsum_scal_l. apply rsum_ext. intros. ring.
      - rewrite <- rsum_scal_l. apply rsum_ext. intros. ring. }
    rewrite E1, E2 in S. pose proof (free_nonneg n d k X Y (fun a j => fst p a j - c * GW a j)%R (fun j => snd p j - c * GB j)%R Hn Hk HY) as P.
    set (G := sqnorm d k GW GB) in *. set (l := loss p) in *.
    assert (E3 : (c * G - / 4 * ((M + 1) * (c * c * G)) = G / (M + 1))%R) by (unfold c; field; lra).
    assert (Q : (G / (M + 1) <= l)%R) by lra.
    apply (Rmult_le_compat_l (M + 1)) in Q; [|lra]. replace ((M + 1) * (G / (M + 1)))%R with G in Q by (field; lra). exact Q.
  Qed.

  (** The distance to other parameters changes by the losses and the step. *)
  Lemma step_regret : forall p q : mat * vec, ok p -> (2 * loss p <= 2 * loss q + dist p q - dist (step p) q + grad p)%R.
  Proof using Hn Hk HY.
    intros p q C. pose proof (loss_convex eps n d k X Y _ _ (fst q) (snd q) Hn Hk HY C) as V.
    pose proof (dist_step eps n d k X Y p q) as D.
    assert (I : inner d k (slp_gw eps n d k X Y (fst p) (snd p)) (fun a j => fst q a j - fst p a j)%R
                        (slp_gb eps n d k X Y (fst p) (snd p)) (fun j => snd q j - snd p j)%R =
      (- inner d k (slp_gw eps n d k X Y (fst p) (snd p)) (fun a j => fst p a j - fst q a j)%R
                        (slp_gb eps n d k X Y (fst p) (snd p)) (fun j => snd p j - snd q j)%R)%R).
    { unfold inner. rewrite Ropp_plus_distr. f_equal.
      - replace (- rsum d (fun a => rsum k (fun j => slp_gw eps n d k X Y (fst p) (snd p) a j * (fst p a j - fst q a j))))%R
          with (-1 * rsum d (fun a => rsum k (fun j => slp_gw eps n d k X Y (fst p) (snd p) a j * (fst p a j - fst q a j))))%R by ring.
        rewrite <- rsum_scal_l. apply rsum_ext. intros a Ha. rewrite <- rsum_scal_l. apply rsum_ext. intros j Hj. ring.
      - replace (- rsum k (fun j => slp_gb eps n d k X Y (fst p) (snd p) j * (snd p j - snd q j)))%R
          with (-1 * rsum k (fun j => slp_gb eps n d k X Y (fst p) (snd p) j * (snd p j - snd q j)))%R by ring.
        rewrite <- rsum_scal_l. apply rsum_ext. intros j Hj. ring. }
    rewrite I in V. lra.
  Qed.

  Lemma grad_move : forall p : mat * vec, dist p (step p) = grad p.
  Proof using.
    intros p. unfold sqnorm, descend; cbn [fst snd].
    f_equal; [apply rsum_ext; intros; apply rsum_ext; intros|apply rsum_ext; intros]; ring.
  Qed.
End Steps.

(** ** Wrong predictions cost at least ln 2 *)

Lemma wrong_cost : forall k z j l, 0 <= j < k -> 0 <= l < k -> j <> l -> (z l <= z j)%R -> (ln 2 <= lse k z - z l)%R.
Proof.
  intros k z j l Hj Hl Ne H. unfold lse, esum.
  assert (S : (2 * exp (z l) <= rsum k (fun a => exp (z a)))%R).
  { apply Rle_trans with (exp (z j) + exp (z l))%R.
    - assert (exp (z l) <= exp (z j))%R by (destruct (Rle_lt_or_eq_dec _ _ H) as [Q|Q]; [left; apply exp_increasing; exact Q|rewrite Q; lra]). lra.
    - rewrite <- (rsum_pick k j (fun a => exp (z a)) Hj), <- (rsum_pick k l (fun a => exp (z a)) Hl), <- rsum_plus.
      apply rsum_le. intros a Ha. pose proof (exp_pos (z a)). destruct (Z.eq_dec a j), (Z.eq_dec a l); try lra. lia. }
  assert (P : (0 < 2 * exp (z l))%R) by (pose proof (exp_pos (z l)); lra).
  assert (Q : (ln (2 * exp (z l)) <= ln (rsum k (fun a => exp (z a))))%R).
  { destruct (Rle_lt_or_eq_dec _ _ S) as [S'|S']; [left; apply ln_increasing; auto|rewrite S'; lra]. }
  rewrite ln_mult, ln_exp in Q by (try apply exp_pos; lra). lra.
Qed.

Lemma mistakes_cost : forall n d k X (lab : Z -> Z) W B (J : Z -> Z), 1 <= n -> 0 < k ->
  (forall i, 0 <= i < n -> 0 <= lab i < k) ->
  (forall i, 0 <= i < n -> first_max k (scores d X W B i) (J i)) ->
  (ln 2 * IZR (count n (fun i => negb (J i =? lab i))) <= IZR n * free_loss n d k X (fun i j => if lab i =? j then 1 else 0)%R W B)%R.
Proof.
  intros n d k X lab W B J Hn Hk Hl HJ. pose proof (IZR_lt 0 n ltac:(lia)) as Hn'.
  unfold free_loss. replace (IZR n * (rsum n (fun i => lse k (scores d X W B i) - rsum k (fun j => (if lab i =? j then 1 else 0) * scores d X W B i j)) / IZR n))%R
    with (rsum n (fun i => lse k (scores d X W B i) - rsum k (fun j => (if lab i =? j then 1 else 0) * scores d X W B i j)))%R by (field; lra).
  assert (EC : IZR (count n (fun i => negb (J i =? lab i))) = rsum n (fun i => if negb (J i =? lab i) then 1 else 0)%R).
  { unfold count, rsum. induction (zrange n) as [|i l IH]; [reflexivity|]. rewrite list_sum_cons. cbn [filter].
    destruct (negb (J i =? lab i)); cbn [length]; [rewrite Nat2Z.inj_succ, <- Z.add_1_r, plus_IZR|]; rewrite IH; cbn; ring. }
  rewrite EC, <- rsum_scal_l. apply rsum_le. intros i Hi. specialize (Hl i Hi). destruct (HJ i Hi) as (Rj & Gj & _).
  assert (EL : rsum k (fun j => (if lab i =? j then 1 else 0) * scores d X W B i j)%R = scores d X W B i (lab i)).
  { rewrite <- (rsum_pick k (lab i) (scores d X W B i) Hl). apply rsum_ext. intros j Hj.
    destruct (Z.eq_dec j (lab i)) as [->|Ne]; [rewrite Z.eqb_refl; ring|]. destruct (Z.eqb_spec (lab i) j); [lia|ring]. }
  rewrite EL. destruct (Z.eqb_spec (J i) (lab i)) as [E|Ne]; cbn [negb].
  - (* right *)
    assert (S : (exp (scores d X W B i (lab i)) <= esum k (scores d X W B i))%R).
    { unfold esum. apply (rsum_ge_one k (lab i) (fun j => exp (scores d X W B i j))); [exact Hl|]. intros. left. apply exp_pos. }
    assert (Q : (ln (exp (scores d X W B i (lab i))) <= ln (esum k (scores d X W B i)))%R).
    { destruct (Rle_lt_or_eq_dec _ _ S) as [S'|S']; [left; apply ln_increasing; [apply exp_pos|auto]|rewrite S'; lra]. }
    rewrite ln_exp in Q. unfold lse. lra.
  - rewrite Rmult_1_r. apply (wrong_cost k _ (J i) (lab i)); auto.
Qed.
