(** Real analysis of softmax and cross entropy. *)
From Coq Require Import ZArith List Bool Lia Reals Lra.
From Coquelicot Require Import Coquelicot.
From Verif Require Import Base BaseFacts Scalar RealScalar LinAlgFacts SumFacts
  Activation ActivationSpec ActivationFacts.
Import ListNotations.
Open Scope Z_scope.

Lemma smax_Rmax : forall a b, smax Rsc a b = Rmax a b.
Proof.
  intros a b. unfold smax; cbn. unfold Rltb. destruct (Rlt_dec a b).
  - rewrite Rmax_right; lra.
  - rewrite Rmax_left; lra.
Qed.

Lemma rsum_ext : forall n f g, (forall i, 0 <= i < n -> f i = g i) -> rsum n f = rsum n g.
Proof. intros n f g H. apply sum_over_ext. intros i Hi. apply H. apply in_zrange; auto. Qed.

Lemma rsum_scal_l : forall n c f, rsum n (fun i => c * f i)%R = (c * rsum n f)%R.
Proof. intros. exact (sum_scale_l Rsc Rsc_laws (zrange n) c f). Qed.

Lemma rsum_scal_r : forall n c f, rsum n (fun i => f i * c)%R = (rsum n f * c)%R.
Proof. intros. exact (sum_scale_r Rsc Rsc_laws (zrange n) c f). Qed.

Lemma rsum_plus : forall n f g, rsum n (fun i => f i + g i)%R = (rsum n f + rsum n g)%R.
Proof. intros. exact (sum_add Rsc Rsc_laws (zrange n) f g). Qed.

Lemma rsum_minus : forall n f g, rsum n (fun i => f i - g i)%R = (rsum n f - rsum n g)%R.
Proof. intros. exact (sum_sub Rsc Rsc_laws (zrange n) f g). Qed.

Lemma rsum_swap : forall n m (f : Z -> Z -> R),
  rsum n (fun i => rsum m (fun j => f i j)) = rsum m (fun j => rsum n (fun i => f i j)).
Proof. intros. exact (sum_swap Rsc Rsc_laws (zrange n) (zrange m) f). Qed.

Lemma list_sum_cons : forall {A} a (l : list A) f, sum_over Rsc (a :: l) f = (f a + sum_over Rsc l f)%R.
Proof. intros. exact (sum_cons Rsc Rsc_laws a l f). Qed.

Lemma list_sum_le : forall {A} (l : list A) f g, (forall a, In a l -> (f a <= g a)%R) ->
  (sum_over Rsc l f <= sum_over Rsc l g)%R.
Proof.
  intros A l f g. induction l as [|a l IH]; intros H; [cbn; lra|].
  rewrite !list_sum_cons. assert (f a <= g a)%R by (apply H; left; auto).
  assert (sum_over Rsc l f <= sum_over Rsc l g)%R by (apply IH; intros; apply H; right; auto). lra.
Qed.

Lemma rsum_le : forall n f g, (forall i, 0 <= i < n -> (f i <= g i)%R) -> (rsum n f <= rsum n g)%R.
Proof. intros n f g H. apply list_sum_le. intros i Hi. apply H. apply in_zrange; auto. Qed.

Lemma list_sum_const : forall {A} (l : list A) c, sum_over Rsc l (fun _ => c) = (INR (length l) * c)%R.
Proof.
  intros A l c. induction l as [|a l IH]; [cbn; lra|].
  rewrite list_sum_cons, IH. cbn [length]. rewrite S_INR. ring.
Qed.

Lemma rsum_const : forall n c, 0 <= n -> rsum n (fun _ => c) = (IZR n * c)%R.
Proof.
  intros n c H. unfold rsum. rewrite list_sum_const, length_zrange, INR_IZR_INZ, Z2Nat.id by lia. reflexivity.
Qed.

Lemma rsum_ge_one : forall n i f, 0 <= i < n -> (forall j, 0 <= j < n -> (0 <= f j)%R) -> (f i <= rsum n f)%R.
Proof.
  intros n i f Hi H.
  pose proof (sum_pick Rsc Rsc_laws n i f) as P. cbn in P.
  replace ((0 <=? i) && (i <? n)) with true in P by lia.
  change (rsum n (fun q => if i =? q then f q else 0%R) = f i) in P. rewrite <- P. apply rsum_le.
  intros j Hj. destruct (i =? j); [lra|apply H; auto].
Qed.

Lemma sum_exp_pos : forall n X, 0 < n -> (0 < rsum n (fun j => exp (X j)))%R.
Proof.
  intros n X Hn. apply Rlt_le_trans with (exp (X 0)); [apply exp_pos|].
  apply (rsum_ge_one n 0 (fun j => exp (X j))); [lia|]. intros. left. apply exp_pos.
Qed.

Lemma soft_tot_eq : forall n X i, (soft_tot Rsc exp n X i = rsum n (fun j => exp (X j)) / exp (X i))%R.
Proof.
  intros n X i. unfold soft_tot, Rdiv. rewrite <- rsum_scal_r. apply sum_over_ext. intros j _. cbn.
  unfold Rminus. rewrite exp_plus, exp_Ropp. reflexivity.
Qed.

Lemma soft_div : forall n X i, 0 < n ->
  sdiv Rsc 1%R (soft_tot Rsc exp n X i) = Ret (exp (X i) / rsum n (fun j => exp (X j)))%R.
Proof.
  intros n X i Hn. rewrite soft_tot_eq. pose proof (sum_exp_pos n X Hn). pose proof (exp_pos (X i)).
  rewrite Rdiv_ok.
  - f_equal. field. lra.
  - apply Rgt_not_eq. apply Rdiv_lt_0_compat; lra.
Qed.

(** ** Properties of the function *)

Lemma soft_sum1 : forall n X, 0 < n -> rsum n (fun i => exp (X i) / rsum n (fun j => exp (X j)))%R = 1%R.
Proof.
  intros n X Hn. unfold Rdiv. rewrite rsum_scal_r. apply Rinv_r. pose proof (sum_exp_pos n X Hn). lra.
Qed.

Lemma soft_le1 : forall n X i, 0 <= i < n -> (exp (X i) / rsum n (fun j => exp (X j)) <= 1)%R.
Proof.
  intros n X i Hi. pose proof (sum_exp_pos n X ltac:(lia)) as P.
  apply Rmult_le_reg_r with (rsum n (fun j => exp (X j))); [exact P|].
  unfold Rdiv. rewrite Rmult_assoc, Rinv_l, Rmult_1_r, Rmult_1_l by lra.
  apply (rsum_ge_one n i (fun j => exp (X j))); auto. intros. left. apply exp_pos.
Qed.

Lemma soft_pos : forall n X i, 0 <= i < n -> (0 < exp (X i) / rsum n (fun j => exp (X j)))%R.
Proof.
  intros n X i Hi. apply Rdiv_lt_0_compat; [apply exp_pos|]. apply sum_exp_pos. lia.
Qed.

(** ** Derivatives *)

Lemma is_derive_sum : forall {A} (l : list A) (f : A -> R -> R) (df : A -> R) x,
  (forall a, In a l -> is_derive (f a) x (df a)) ->
  is_derive (fun t => sum_over Rsc l (fun a => f a t)) x (sum_over Rsc l df).
Proof.
  intros A l f df x. induction l as [|a l IH]; intros H.
  - apply (is_derive_const 0%R x).
  - apply (is_derive_ext (fun t => f a t + sum_over Rsc l (fun b => f b t))%R).
    { intros t. rewrite list_sum_cons. reflexivity. }
    rewrite list_sum_cons. apply (is_derive_plus (f a) (fun t => sum_over Rsc l (fun b => f b t)) x).
    + apply H. left; auto.
    + apply IH. intros b Hb. apply H. right; auto.
Qed.

Lemma is_derive_rsum : forall n (f : Z -> R -> R) (df : Z -> R) x,
  (forall i, 0 <= i < n -> is_derive (f i) x (df i)) ->
  is_derive (fun t => rsum n (fun i => f i t)) x (rsum n df).
Proof.
  intros n f df x H. apply is_derive_sum. intros i Hi. apply H. apply in_zrange; auto.
Qed.

(** The unclamped softmax along a line. *)
Lemma soft_derive : forall n X D i, 0 <= i < n ->
  let y := fun j => (exp (X j) / rsum n (fun k => exp (X k)))%R in
  is_derive (fun t => exp (X i + t * D i) / rsum n (fun j => exp (X j + t * D j)))%R 0%R
    (y i * (D i - rsum n (fun j => y j * D j)))%R.
Proof.
  intros n X D i Hi y.
  set (S_ := rsum n (fun k => exp (X k))) in *.
  assert (P : (0 < S_)%R) by (apply sum_exp_pos; lia).
  assert (E0 : forall a d, (exp (a + 0 * d) = exp a)%R) by (intros; f_equal; ring).
  assert (Dn : is_derive (fun t => exp (X i + t * D i))%R 0%R (D i * exp (X i))%R).
  { auto_derive; [exact I|]. rewrite E0. ring. }
  assert (Ds : is_derive (fun t => rsum n (fun j => exp (X j + t * D j)))%R 0%R (rsum n (fun j => D j * exp (X j)))%R).
  { apply (is_derive_rsum n (fun j t => exp (X j + t * D j))%R). intros j Hj.
    auto_derive; [exact I|]. rewrite E0. ring. }
  assert (E1 : rsum n (fun j => exp (X j + 0 * D j))%R = S_) by (apply rsum_ext; intros; apply E0).
  pose proof (is_derive_div _ _ _ _ _ Dn Ds) as Q. cbv beta in Q. rewrite E1 in Q.
  specialize (Q ltac:(lra)). rewrite E0 in Q.
  replace (y i * (D i - rsum n (fun j => y j * D j)))%R with
    ((D i * exp (X i) * S_ - exp (X i) * rsum n (fun j => D j * exp (X j))) / S_ ^ 2)%R; [exact Q|].
  assert (E2 : (rsum n (fun j => y j * D j) = rsum n (fun j => D j * exp (X j)) / S_)%R).
  { unfold Rdiv. rewrite <- rsum_scal_r. apply rsum_ext. intros j Hj. unfold y. field. lra. }
  rewrite E2. unfold y. field. lra.
Qed.

(** The Jacobian rows used by the code. *)
Lemma jac_row : forall n Y D i, 0 <= i < n ->
  (rsum n (fun j => jac Rsc Y i j * D j) = Y i * (D i - rsum n (fun j => Y j * D j)))%R.
Proof.
  intros n Y D i Hi.
  transitivity (rsum n (fun j => (if i =? j then Y j * D j else 0) - Y i * (Y j * D j)))%R.
  - apply rsum_ext. intros j Hj. unfold jac; cbn. destruct (Z.eqb_spec i j) as [<-|]; ring.
  - rewrite rsum_minus, rsum_scal_l.
    pose proof (sum_pick Rsc Rsc_laws n i (fun j => Y j * D j)%R) as P. cbn in P.
    replace ((0 <=? i) && (i <? n)) with true in P by lia.
    change (rsum n (fun q => if i =? q then (Y q * D q)%R else 0%R) = (Y i * D i)%R) in P.
    rewrite P. ring.
Qed.

Lemma softmax_gradient : forall eps n X GY, unclamped eps n X ->
  is_gradient n (fun X => rsum n (fun i => GY i * softmax_fn eps n X i)%R) X
    (fun j => rsum n (fun i => GY i * jac Rsc (softmax_fn eps n X) i j)%R).
Proof.
  intros eps n X GY Hu D.
  set (Y := softmax_fn eps n X).
  assert (EY : forall i, 0 <= i < n -> Y i = (exp (X i) / rsum n (fun j => exp (X j)))%R).
  { intros i Hi. unfold Y, softmax_fn. apply Rmax_right. left. apply Hu; auto. }
  replace (rsum n (fun j => rsum n (fun i => GY i * jac Rsc Y i j) * D j))%R
    with (rsum n (fun i => GY i * (Y i * (D i - rsum n (fun j => Y j * D j)))))%R.
  - apply (is_derive_rsum n (fun i t => GY i * softmax_fn eps n (fun j => X j + t * D j) i))%R.
    intros i Hi. apply is_derive_scal.
    pose proof (soft_derive n X D i Hi) as Q. cbv zeta beta in Q. rewrite <- (EY i Hi) in Q.
    replace (rsum n (fun j => exp (X j) / rsum n (fun k => exp (X k)) * D j))%R
      with (rsum n (fun j => Y j * D j))%R in Q.
    2:{ apply rsum_ext. intros j Hj. rewrite EY by auto. reflexivity. }
    eapply is_derive_ext_loc; [|exact Q].
    assert (C : continuous (fun t => exp (X i + t * D i) / rsum n (fun j => exp (X j + t * D j)))%R 0%R).
    { apply (@ex_derive_continuous R_AbsRing R_NormedModule). eexists. exact Q. }
    assert (V0 : (eps < exp (X i + 0 * D i) / rsum n (fun j => exp (X j + 0 * D j)))%R).
    { replace (exp (X i + 0 * D i))%R with (exp (X i)) by (f_equal; ring).
      replace (rsum n (fun j => exp (X j + 0 * D j)))%R with (rsum n (fun j => exp (X j))).
      - apply Hu; auto.
      - apply rsum_ext. intros; f_equal; ring. }
    pose proof (C _ (open_gt eps _ V0)) as L. unfold filtermap in L.
    eapply filter_imp; [|exact L]. cbv beta. intros t Ht. unfold softmax_fn.
    symmetry. apply Rmax_right. lra.
  - transitivity (rsum n (fun j => rsum n (fun i => GY i * jac Rsc Y i j * D j)))%R.
    + rewrite rsum_swap. apply rsum_ext. intros i Hi. rewrite <- (jac_row n Y D i Hi).
      rewrite <- rsum_scal_l. apply rsum_ext. intros j Hj. ring.
    + apply rsum_ext. intros j Hj. rewrite rsum_scal_r. reflexivity.
Qed.

Lemma xent_gradient : forall n X Y, (forall i, 0 <= i < n -> (0 < Y i)%R) ->
  is_gradient n (fun Y => xent_fn n X Y) Y (fun j => - X j / Y j)%R.
Proof.
  intros n X Y HY D. unfold xent_fn.
  replace (rsum n (fun j => - X j / Y j * D j))%R with (- rsum n (fun j => X j * (D j / Y j)))%R.
  - apply (is_derive_opp (fun t => rsum n (fun j => X j * ln (Y j + t * D j)))%R).
    apply (is_derive_rsum n (fun j t => X j * ln (Y j + t * D j)))%R. intros j Hj.
    pose proof (HY j Hj) as P. apply is_derive_scal. auto_derive; [lra|]. field. lra.
  - rewrite <- (Rmult_1_l (rsum n (fun j => X j * (D j / Y j)))%R), Ropp_mult_distr_l, <- rsum_scal_l.
    apply rsum_ext. intros j Hj. pose proof (HY j Hj). field. lra.
Qed.
