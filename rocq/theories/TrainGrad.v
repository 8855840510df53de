(** The gradient of the loss of the single-layer perceptron. *)
From Coq Require Import ZArith List Bool Lia Reals Lra.
From Coquelicot Require Import Coquelicot.
From Verif Require Import Base BaseFacts Scalar RealScalar SumFacts
  ActivationSpec ActivationFacts SoftmaxFacts PropsSoftmax Train TrainSpec.
Import ListNotations.
Open Scope Z_scope.

Lemma softmax_ext : forall eps k X X' i, (forall j, X j = X' j) -> softmax_fn eps k X i = softmax_fn eps k X' i.
Proof.
  intros eps k X X' i H. unfold softmax_fn. rewrite H. do 2 f_equal. apply rsum_ext. intros. rewrite H. reflexivity.
Qed.

Lemma xent_ext : forall k Y P P', (forall j, 0 <= j < k -> P j = P' j) -> xent_fn k Y P = xent_fn k Y P'.
Proof. intros k Y P P' H. unfold xent_fn. f_equal. apply rsum_ext. intros j Hj. rewrite H; auto. Qed.

(** Cross entropy after softmax, along a line. *)
Lemma xent_soft_derive : forall eps k Y Z0 D, unclamped eps k Z0 ->
  is_derive (fun t => xent_fn k Y (softmax_fn eps k (fun j => Z0 j + t * D j)%R)) 0%R
    (rsum k (fun j => (softmax_fn eps k Z0 j * rsum k Y - Y j) * D j)%R).
Proof.
  intros eps k Y Z0 D Hu.
  set (P := softmax_fn eps k Z0).
  assert (EP : forall i, 0 <= i < k -> P i = (exp (Z0 i) / rsum k (fun j => exp (Z0 j)))%R).
  { intros i Hi. unfold P, softmax_fn. apply Rmax_right. left. apply Hu; auto. }
  assert (PP : forall i, 0 <= i < k -> (0 < P i)%R).
  { intros i Hi. rewrite EP by auto. apply soft_pos; auto. }
  set (M := rsum k (fun j => P j * D j)%R).
  replace (rsum k (fun j => (P j * rsum k Y - Y j) * D j)%R)
    with (- rsum k (fun j => Y j * (D j - M)))%R.
  2:{ transitivity (rsum k (fun j => rsum k Y * (P j * D j) - Y j * D j)%R).
      - rewrite rsum_minus, rsum_scal_l. fold M.
        transitivity (- (rsum k (fun j => Y j * D j) - rsum k (fun j => Y j * M)))%R.
        + rewrite <- rsum_minus. f_equal. apply rsum_ext. intros; ring.
        + rewrite rsum_scal_r. ring.
      - apply rsum_ext. intros; ring. }
  unfold xent_fn.
  apply (is_derive_opp (fun t => rsum k (fun j => Y j * ln (softmax_fn eps k (fun j => Z0 j + t * D j) j)))%R).
  apply (is_derive_rsum k (fun j t => Y j * ln (softmax_fn eps k (fun j => Z0 j + t * D j) j))%R).
  intros i Hi. apply is_derive_scal.
  pose proof (soft_derive k Z0 D i Hi) as Q. cbv zeta beta in Q. rewrite <- (EP i Hi) in Q.
  replace (rsum k (fun j => exp (Z0 j) / rsum k (fun l => exp (Z0 l)) * D j))%R with M in Q.
  2:{ apply rsum_ext. intros j Hj. rewrite EP by auto. reflexivity. }
  assert (V0 : forall i, (exp (Z0 i + 0 * D i) / rsum k (fun j => exp (Z0 j + 0 * D j)) =
     exp (Z0 i) / rsum k (fun j => exp (Z0 j)))%R).
  { intros l. unfold Rdiv. f_equal; [f_equal; ring|]. f_equal. apply rsum_ext. intros; f_equal; ring. }
  assert (Dl : is_derive (fun t => softmax_fn eps k (fun j => Z0 j + t * D j) i)%R 0%R (P i * (D i - M))%R).
  { eapply is_derive_ext_loc; [|exact Q].
    assert (C : continuous (fun t => exp (Z0 i + t * D i) / rsum k (fun j => exp (Z0 j + t * D j)))%R 0%R).
    { apply (@ex_derive_continuous R_AbsRing R_NormedModule). eexists. exact Q. }
    assert (L0 : (eps < exp (Z0 i + 0 * D i) / rsum k (fun j => exp (Z0 j + 0 * D j)))%R).
    { rewrite V0. apply Hu; auto. }
    pose proof (C _ (open_gt eps _ L0)) as L. unfold filtermap in L.
    eapply filter_imp; [|exact L]. cbv beta. intros t Ht. unfold softmax_fn. symmetry. apply Rmax_right. lra. }
  assert (S0 : softmax_fn eps k (fun j => Z0 j + 0 * D j)%R i = P i).
  { unfold softmax_fn. rewrite V0. reflexivity. }
  assert (DL : is_derive ln (softmax_fn eps k (fun j => Z0 j + 0 * D j)%R i) (/ P i)%R).
  { rewrite S0. apply is_derive_Reals. apply derivable_pt_lim_ln. auto. }
  pose proof (is_derive_comp ln (fun t => softmax_fn eps k (fun j => Z0 j + t * D j)%R i) 0%R _ _ DL Dl) as R0.
  unfold scal in R0; cbn in R0. unfold mult in R0; cbn in R0.
  replace (D i - M)%R with (P i * (D i - M) * / P i)%R; [exact R0|].
  pose proof (PP i Hi). field. lra.
Qed.

Theorem slp_gradient : forall eps n d k X Y W B, (0 < IZR n)%R ->
  (forall i, 0 <= i < n -> unclamped eps k (scores d X W B i)) ->
  is_gradient2 d k (slp_loss eps n d k X Y) W B (slp_gw eps n d k X Y W B) (slp_gb eps n d k X Y W B).
Proof.
  intros eps n d k X Y W B Hn Hu DW DB.
  set (DZ := fun i j => (rsum d (fun a => X i a * DW a j) + DB j)%R).
  replace (rsum d (fun a => rsum k (fun j => slp_gw eps n d k X Y W B a j * DW a j)) +
           rsum k (fun j => slp_gb eps n d k X Y W B j * DB j))%R
    with (rsum n (fun i => rsum k (fun j => (predict eps d k X W B i j * rsum k (Y i) - Y i j) * DZ i j)) * / IZR n)%R.
  - unfold slp_loss, Rdiv.
    apply (is_derive_ext (fun t => / IZR n * rsum n (fun i => xent_fn k (Y i)
      (softmax_fn eps k (fun j => scores d X W B i j + t * DZ i j))))%R).
    { intros t. rewrite Rmult_comm. f_equal. apply rsum_ext. intros i Hi. apply xent_ext. intros j Hj. apply softmax_ext. clear j Hj.
      (* the scores are affine in the parameters *)
      intros j. unfold scores, DZ.
      replace (rsum d (fun a => X i a * (W a j + t * DW a j)))%R
        with (rsum d (fun a => X i a * W a j) + t * rsum d (fun a => X i a * DW a j))%R; [ring|].
      rewrite <- rsum_scal_l, <- rsum_plus. apply rsum_ext. intros; ring. }
    rewrite Rmult_comm. apply is_derive_scal.
    apply (is_derive_rsum n (fun i t => xent_fn k (Y i) (softmax_fn eps k (fun j => scores d X W B i j + t * DZ i j)%R))).
    intros i Hi. apply xent_soft_derive. auto.
  - rewrite <- rsum_scal_r.
    transitivity (rsum n (fun i => rsum k (fun j => slp_delta eps n d k X Y W B i j * DZ i j)))%R.
    { apply rsum_ext. intros i Hi. rewrite <- rsum_scal_r. apply rsum_ext. intros j Hj. unfold slp_delta. field. lra. }
    transitivity (rsum n (fun i => rsum k (fun j => rsum d (fun a => X i a * slp_delta eps n d k X Y W B i j * DW a j)) +
                                   rsum k (fun j => slp_delta eps n d k X Y W B i j * DB j)))%R.
    { apply rsum_ext. intros i Hi. rewrite <- rsum_plus. apply rsum_ext. intros j Hj. unfold DZ.
      rewrite Rmult_plus_distr_l, <- rsum_scal_l. f_equal. apply rsum_ext. intros; ring. }
    rewrite rsum_plus. f_equal.
    + transitivity (rsum k (fun j => rsum n (fun i => rsum d (fun a => X i a * slp_delta eps n d k X Y W B i j * DW a j))))%R.
      { apply rsum_swap. }
      transitivity (rsum k (fun j => rsum d (fun a => slp_gw eps n d k X Y W B a j * DW a j)))%R; [|apply rsum_swap].
      apply rsum_ext. intros j Hj. rewrite rsum_swap. apply rsum_ext. intros a Ha. unfold slp_gw.
      rewrite rsum_scal_r. reflexivity.
    + rewrite rsum_swap. apply rsum_ext. intros j Hj. unfold slp_gb. rewrite rsum_scal_r. reflexivity.
Qed.
