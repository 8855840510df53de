(** Facts about predicted classes and the cross entropy loss. *)
From Coq Require Import ZArith List Bool Lia ZifyBool Reals Lra.
From Coquelicot Require Import Coquelicot.
From Flocq Require Import Core BinarySingleNaN.
From Verif Require Import Base BaseFacts TensorFacts Scalar SumFacts RealScalar LinAlgFacts
  Activation ActivationSpec ActivationFacts RowFacts SoftmaxFacts Utility UtilityFacts PoolSpec VggSpec
  Float FloatSpec FloatFacts FloatNan PredictSpec.
Import ListNotations.
Open Scope Z_scope.
Open Scope model_scope.

Section Writes.
  Context {V T : Type} (dt : dtype V T) (sc : scalar T) (log_ : T -> T).

  Lemma op_xentropy_writes : forall z x y ds n X Y s,
    tdims x = ds ++ [n] -> tdims y = ds ++ [n] -> tdims z = ds -> dims_ok x ->
    holds dt s x X -> holds dt s y Y -> mapped s z -> disjoint z x -> disjoint z y ->
    writes dt (op_xentropy dt sc log_ (length ds + 1) z x y) s z
      (fun ix => sneg sc (sum_over sc (zrange n) (fun j => smul sc (row X ix j) (log_ (row Y ix j))))).
  Proof.
    intros z x y ds n X Y s Ex Ey Ez Dx HX HY HZ D1 D2.
    destruct (nonneg_snoc x ds n Ex Dx) as (Hds & Hn & Hp).
    assert (Dy : dims_ok y) by (unfold dims_ok in *; congruence).
    assert (Dz : dims_ok z) by (unfold dims_ok; rewrite Ez; exact Hds).
    unfold op_xentropy. replace (length ds + 1 - 1)%nat with (length ds) by lia.
    assert (Fz : forall p, foot (flat z) p -> foot z p).
    { intros p Hpz. refine (proj1 (foot_reshape z [prod (tdims z)] p _) Hpz). unfold size; cbn; lia. }
    assert (W : writes dt (xentropy2 dt sc log_ (flat z) (as_matrix (length ds) x) (as_matrix (length ds) y)) s
      (flat z) (arg1 (fun a => sneg sc (sum_over sc (zrange n)
        (fun j => smul sc (X (expand ds a ++ [j])) (log_ (Y (expand ds a ++ [j])))))))).
    { eapply (xentropy2_writes dt sc log_ (flat z) (as_matrix (length ds) x) (as_matrix (length ds) y) (prod ds) n
        (arg2 (fun a b => X (expand ds a ++ [b]))) (arg2 (fun a b => Y (expand ds a ++ [b])))); auto.
      - unfold flat, reshape; cbn. rewrite Ez. reflexivity.
      - apply dims_as_rows; auto.
      - apply dims_as_rows; auto.
      - apply (holds_as_rows dt s x ds n X); auto.
      - apply (holds_as_rows dt s y ds n Y); auto.
      - intros p Hpz. apply HZ; auto.
      - intros p Hpz Hq. apply (D1 p); auto. exact (proj1 (foot_as_matrix _ x p) Hq).
      - intros p Hpz Hq. apply (D2 p); auto. exact (proj1 (foot_as_matrix _ y p) Hq). }
    eapply (writes_reshape dt _ s z [prod (tdims z)]); [exact Dz| | | |exact W].
    - unfold size; cbn; lia.
    - intros ix Hix. rewrite Ez in *. rewrite expand_1 by (apply offset_bound; auto).
      unfold arg1; cbn [nth]. rewrite expand_offset by auto. reflexivity.
    - rewrite Ez. repeat constructor. exact Hp.
  Qed.
End Writes.

(** ** Argmax over the reals *)

Lemma real_order : weak_order (fun _ : R => True) (sltb Rsc).
Proof.
  repeat split; intros; cbn [sltb Rsc] in *; unfold Rltb in *;
    repeat match goal with |- context [Rlt_dec ?a ?b] => destruct (Rlt_dec a b)
      | H : context [Rlt_dec ?a ?b] |- _ => destruct (Rlt_dec a b) end; try discriminate; auto; lra.
Qed.

Lemma scan_first : forall n f, 1 <= n -> first_greatest n f (scan Rsc n f).
Proof.
  intros n f Hn.
  destruct (scan_dom Rsc (fun _ => True) f real_order) with (n := n) as (R & _ & G & L);
    [intros v; left; exact I|intros a v H; destruct (H I)|exact I|exact Hn|].
  split; [exact R|]. split.
  - intros k Hk. specialize (G k Hk). cbn [sltb Rsc] in G. unfold Rltb in G. destruct (Rlt_dec _ _); [discriminate|lra].
  - intros k Hk. specialize (L k Hk I). cbn [sltb Rsc] in L. unfold Rltb in L. destruct (Rlt_dec _ _); [lra|discriminate].
Qed.

Lemma first_unique : forall n f i j, first_greatest n f i -> first_greatest n f j -> i = j.
Proof.
  intros n f i j (Ri & Gi & Li) (Rj & Gj & Lj). destruct (Z.lt_trichotomy i j) as [A|[A|A]]; [|exact A|].
  - specialize (Lj i ltac:(lia)). specialize (Gi j Rj). lra.
  - specialize (Li j ltac:(lia)). specialize (Gj i Ri). lra.
Qed.

Lemma first_ext : forall n f g j, (forall i, 0 <= i < n -> f i = g i) -> first_greatest n f j -> first_greatest n g j.
Proof.
  intros n f g j E (R & G & L). split; [exact R|]. split; intros k Hk.
  - rewrite <- !E by lia. auto.
  - rewrite <- !E by lia. auto.
Qed.

Lemma soft_div_lt : forall n X i j, 0 < n ->
  (exp (X i) / rsum n (fun k => exp (X k)) < exp (X j) / rsum n (fun k => exp (X k)) <-> X i < X j)%R.
Proof.
  intros n X i j Hn. pose proof (sum_exp_pos n X Hn) as S. unfold Rdiv. split; intros H.
  - apply exp_lt_inv. eapply Rmult_lt_reg_r; [|exact H]. apply Rinv_0_lt_compat; auto.
  - apply Rmult_lt_compat_r; [apply Rinv_0_lt_compat; auto|]. apply exp_increasing; auto.
Qed.

Lemma greatest_share : forall n X j, 1 <= n -> (forall k, 0 <= k < n -> (X k <= X j)%R) ->
  (1 / IZR n <= exp (X j) / rsum n (fun k => exp (X k)))%R.
Proof.
  intros n X j Hn G. pose proof (sum_exp_pos n X ltac:(lia)) as S. pose proof (IZR_le _ _ Hn) as Hn'.
  assert (B : (rsum n (fun k => exp (X k)) <= IZR n * exp (X j))%R).
  { rewrite <- (rsum_const n (exp (X j))) by lia. apply rsum_le. intros i Hi. destruct (G i Hi) as [L|E].
    - left. apply exp_increasing; auto.
    - rewrite E. lra. }
  apply (Rmult_le_reg_r (IZR n * rsum n (fun k => exp (X k)))); [nra|].
  replace (1 / IZR n * (IZR n * rsum n (fun k => exp (X k))))%R with (rsum n (fun k => exp (X k))) by (field; lra).
  replace (exp (X j) / rsum n (fun k => exp (X k)) * (IZR n * rsum n (fun k => exp (X k))))%R with (IZR n * exp (X j))%R by (field; lra).
  exact B.
Qed.

(** Clamping does not change the predicted class as long as the clamp is at most
    1/n. *)
Lemma soft_first : forall eps n X j, (eps <= 1 / IZR n)%R -> first_greatest n X j -> first_greatest n (softmax_fn eps n X) j.
Proof.
  intros eps n X j He (R & G & L). pose proof (greatest_share n X j ltac:(lia) G) as B.
  assert (M : softmax_fn eps n X j = (exp (X j) / rsum n (fun k => exp (X k)))%R).
  { unfold softmax_fn. apply Rmax_right. lra. }
  split; [exact R|]. split; intros k Hk; rewrite M; unfold softmax_fn.
  - apply Rmax_lub; [lra|]. destruct (Rlt_le_dec (exp (X j) / rsum n (fun k => exp (X k)))%R (exp (X k) / rsum n (fun k => exp (X k)))%R) as [C|C]; [|exact C].
    apply (soft_div_lt n X j k ltac:(lia)) in C. specialize (G k Hk). lra.
  - apply Rmax_lub_lt; [|apply soft_div_lt; [lia|apply L; auto]].
    apply Rle_lt_trans with (1 / IZR n)%R; [exact He|].
    (* strictly greater than the share of a constant row *)
    pose proof (sum_exp_pos n X ltac:(lia)) as S. assert (Hn : 1 <= n) by lia. pose proof (IZR_le _ _ Hn) as Hn'.
    assert (B' : (rsum n (fun q => exp (X q)) < IZR n * exp (X j))%R).
    { apply Rlt_le_trans with (rsum n (fun q => if k =? q then exp (X j) else exp (X q))).
      - assert (P : rsum n (fun q => (if k =? q then exp (X j) else exp (X q)) - exp (X q))%R = (exp (X j) - exp (X k))%R).
        { pose proof (sum_pick Rsc Rsc_laws n k (fun _ => exp (X j) - exp (X k))%R) as P. cbn in P.
          replace ((0 <=? k) && (k <? n)) with true in P by lia. rewrite <- P. apply rsum_ext. intros q Hq.
          destruct (Z.eqb_spec k q) as [->|]; lra. }
        rewrite rsum_minus in P. pose proof (exp_increasing _ _ (L k Hk)). lra.
      - rewrite <- (rsum_const n (exp (X j))) by lia. apply rsum_le. intros i Hi. destruct (k =? i); [lra|].
        destruct (G i Hi) as [A|E]; [left; apply exp_increasing; auto|rewrite E; lra]. }
    apply (Rmult_lt_reg_r (IZR n * rsum n (fun k => exp (X k)))); [nra|].
    replace (1 / IZR n * (IZR n * rsum n (fun k => exp (X k))))%R with (rsum n (fun k => exp (X k))) by (field; lra).
    replace (exp (X j) / rsum n (fun k => exp (X k)) * (IZR n * rsum n (fun k => exp (X k))))%R with (IZR n * exp (X j))%R by (field; lra).
    exact B'.
Qed.

(** A row whose class is lost when the clamp exceeds 1/n: the second of the
    numbers is slightly greater than the others. *)
Definition spoiled (d : R) (i : Z) : R := if i =? 1 then d else 0%R.

Lemma spoiled_first : forall n d, 2 <= n -> (0 < d)%R -> first_greatest n (spoiled d) 1.
Proof.
  intros n d Hn Hd. unfold spoiled. split; [lia|]. split; intros k Hk; cbn [Z.eqb Pos.eqb].
  - destruct (k =? 1); lra.
  - replace (k =? 1) with false by lia. exact Hd.
Qed.

Lemma spoiled_clamped : forall eps n, 2 <= n -> (1 / IZR n < eps)%R ->
  exists d, (0 < d)%R /\ forall i, 0 <= i < n -> softmax_fn eps n (spoiled d) i = eps.
Proof.
  intros eps n Hn He. pose proof (IZR_le _ _ Hn) as Hn'.
  assert (H1 : (1 < eps * IZR n)%R).
  { apply (Rmult_lt_compat_r (IZR n)) in He; [|lra]. replace (1 / IZR n * IZR n)%R with 1%R in He by (field; lra). exact He. }
  exists (ln (eps * IZR n)). split; [rewrite <- ln_1; apply ln_increasing; lra|].
  intros i Hi. unfold softmax_fn. apply Rmax_left.
  assert (S : rsum n (fun j => exp (spoiled (ln (eps * IZR n)) j)) = (IZR n - 1 + eps * IZR n)%R).
  { assert (P : rsum n (fun q => exp (spoiled (ln (eps * IZR n)) q) - 1)%R = (eps * IZR n - 1)%R).
    { pose proof (sum_pick Rsc Rsc_laws n 1 (fun _ => eps * IZR n - 1)%R) as P. cbn [s0 Rsc] in P.
      replace ((0 <=? 1) && (1 <? n)) with true in P by lia. rewrite <- P. apply rsum_ext. intros q Hq.
      unfold spoiled. rewrite (Z.eqb_sym q 1). destruct (1 =? q); [rewrite exp_ln by lra|rewrite exp_0]; lra. }
    rewrite rsum_minus, rsum_const in P by lia. lra. }
  rewrite S.
  assert (T : (exp (spoiled (ln (eps * IZR n)) i) <= eps * IZR n)%R).
  { unfold spoiled. destruct (i =? 1); [rewrite exp_ln by lra|rewrite exp_0]; lra. }
  apply Rle_trans with (eps * IZR n / (IZR n - 1 + eps * IZR n))%R.
  - unfold Rdiv. apply Rmult_le_compat_r; [|exact T]. left. apply Rinv_0_lt_compat. lra.
  - apply (Rmult_le_reg_r (IZR n - 1 + eps * IZR n)); [lra|].
    replace (eps * IZR n / (IZR n - 1 + eps * IZR n) * (IZR n - 1 + eps * IZR n))%R with (eps * IZR n)%R by (field; lra).
    assert (0 < eps)%R by nra. nra.
Qed.

(** ** Top *)

Lemma lists_top_order : forall n P Q L, (forall i j, 0 <= i < n -> 0 <= j < n -> (P i < P j <-> Q i < Q j)%R) ->
  lists_top n P L -> lists_top n Q L.
Proof.
  intros n P Q L E (N & I & S & T). split; [exact N|]. split; [exact I|].
  assert (G : forall i j, 0 <= i < n -> 0 <= j < n -> ((P j < P i)%R \/ P i = P j /\ j < i) -> ((Q j < Q i)%R \/ Q i = Q j /\ j < i)).
  { intros i j Hi Hj [A|[A B]]; [left; apply E; auto|right]. split; [|exact B].
    destruct (Rtotal_order (Q i) (Q j)) as [C|[C|C]]; [|exact C|]; apply E in C; auto; lra. }
  split.
  - intros p q i j H Hi Hj. apply G; [apply I; eapply nth_error_In; eauto|apply I; eapply nth_error_In; eauto|].
    apply (S p q); auto.
  - intros i j Hi Hj NI. apply G; auto.
Qed.

(** ** The loss *)

Lemma rsum_pick : forall n i f, 0 <= i < n -> rsum n (fun j => if Z.eq_dec j i then f j else 0%R) = f i.
Proof.
  intros n i f Hi. pose proof (sum_pick Rsc Rsc_laws n i f) as P. cbn in P.
  replace ((0 <=? i) && (i <? n)) with true in P by lia. rewrite <- P. apply rsum_ext. intros j Hj.
  destruct (Z.eq_dec j i) as [->|]; [rewrite Z.eqb_refl; reflexivity|]. replace (i =? j) with false by lia. reflexivity.
Qed.

Lemma xent_onehot : forall n l Y, 0 <= l < n ->
  xent_fn n (fun j => if Z.eq_dec j l then 1%R else 0%R) Y = (- ln (Y l))%R.
Proof.
  intros n l Y Hl. unfold xent_fn. f_equal. rewrite <- (rsum_pick n l (fun j => ln (Y j)) Hl). apply rsum_ext. intros j Hj.
  destruct (Z.eq_dec j l); ring.
Qed.

Lemma soft_range : forall eps n X i, (0 < eps <= 1)%R -> 0 <= i < n -> (eps <= softmax_fn eps n X i <= 1)%R.
Proof.
  intros eps n X i He Hi. unfold softmax_fn. split; [apply Rmax_l|]. apply Rmax_lub; [lra|apply soft_le1; auto].
Qed.

Lemma ln_bounds : forall eps q, (0 < eps)%R -> (eps <= q <= 1)%R -> (ln eps <= ln q <= 0)%R.
Proof.
  intros eps q He [A B]. split.
  - destruct A as [A| <-]; [left; apply ln_increasing; lra|lra].
  - destruct B as [B| ->]; [left; rewrite <- ln_1; apply ln_increasing; lra|rewrite ln_1; lra].
Qed.

Lemma xent_range : forall eps n P Q, distribution n P -> (0 < eps)%R ->
  (forall i, 0 <= i < n -> (eps <= Q i <= 1)%R) -> (0 <= xent_fn n P Q <= - ln eps)%R.
Proof.
  intros eps n P Q [HP S] He HQ. unfold xent_fn.
  assert (A : (rsum n (fun j => P j * ln (Q j)) <= rsum n (fun j => P j * 0))%R).
  { apply rsum_le. intros j Hj. specialize (HP j Hj). pose proof (ln_bounds eps (Q j) He (HQ j Hj)). nra. }
  assert (B : (rsum n (fun j => P j * ln eps) <= rsum n (fun j => P j * ln (Q j)))%R).
  { apply rsum_le. intros j Hj. specialize (HP j Hj). pose proof (ln_bounds eps (Q j) He (HQ j Hj)). nra. }
  rewrite rsum_scal_r in A, B. rewrite S in A, B. lra.
Qed.

Lemma ln_le_sub1 : forall t, (0 < t)%R -> (ln t <= t - 1)%R.
Proof.
  intros t Ht. destruct (Req_dec t 1) as [->|Ne]; [rewrite ln_1; lra|].
  rewrite <- (ln_exp (t - 1)). pose proof (exp_ineq1 (t - 1) ltac:(lra)).
  left. apply ln_increasing; lra.
Qed.

Lemma ln_lt_sub1 : forall t, (0 < t)%R -> t <> 1%R -> (ln t < t - 1)%R.
Proof.
  intros t Ht Ne. rewrite <- (ln_exp (t - 1)). apply ln_increasing; [lra|].
  pose proof (exp_ineq1 (t - 1) ltac:(lra)). lra.
Qed.

Lemma rsum_zero_eq : forall n f, (forall i, 0 <= i < n -> (0 <= f i)%R) -> (rsum n f <= 0)%R -> forall i, 0 <= i < n -> f i = 0%R.
Proof.
  intros n f H S i Hi. pose proof (rsum_ge_one n i f Hi H). specialize (H i Hi). lra.
Qed.

Lemma gibbs : forall n P Q, distribution n P -> (forall i, 0 <= i < n -> (0 < P i)%R) ->
  (forall i, 0 <= i < n -> (0 < Q i)%R) -> rsum n Q = 1%R ->
  (xent_fn n P P <= xent_fn n P Q)%R /\
  (xent_fn n P P = xent_fn n P Q -> forall i, 0 <= i < n -> P i = Q i).
Proof.
  intros n P Q [_ S] HP HQ SQ.
  set (g := fun j => (P j * (Q j / P j - 1 - ln (Q j / P j)))%R).
  assert (G0 : forall j, 0 <= j < n -> (0 <= g j)%R).
  { intros j Hj. unfold g. specialize (HP j Hj). specialize (HQ j Hj).
    pose proof (ln_le_sub1 (Q j / P j) ltac:(apply Rdiv_lt_0_compat; lra)). nra. }
  assert (E : (rsum n g = xent_fn n P Q - xent_fn n P P)%R).
  { unfold xent_fn.
    replace (- rsum n (fun j => P j * ln (Q j)) - - rsum n (fun j => P j * ln (P j)))%R
      with ((rsum n Q - rsum n P) - (rsum n (fun j => P j * ln (Q j)) - rsum n (fun j => P j * ln (P j))))%R by lra.
    rewrite <- !rsum_minus. apply rsum_ext. intros j Hj. unfold g. specialize (HP j Hj). specialize (HQ j Hj).
    rewrite ln_div by lra. field. lra. }
  assert (Pos : (0 <= rsum n g)%R).
  { replace 0%R with (rsum n (fun _ => 0%R) * 1)%R.
    - rewrite <- rsum_scal_r. apply rsum_le. intros i Hi. rewrite Rmult_0_l. auto.
    - rewrite Rmult_1_r. unfold rsum. rewrite list_sum_const. ring. }
  split; [lra|]. intros Eq i Hi.
  pose proof (rsum_zero_eq n g G0 ltac:(lra) i Hi) as Z0. unfold g in Z0.
  specialize (HP i Hi). specialize (HQ i Hi).
  destruct (Req_dec (Q i / P i) 1) as [E1|Ne].
  - apply (Rmult_eq_compat_r (P i)) in E1. unfold Rdiv in E1. rewrite Rmult_assoc, Rinv_l in E1 by lra. lra.
  - pose proof (ln_lt_sub1 (Q i / P i) ltac:(apply Rdiv_lt_0_compat; lra) Ne). nra.
Qed.

Lemma majority : forall n X l, 0 <= l < n -> (1 / 2 < exp (X l) / rsum n (fun j => exp (X j)))%R ->
  forall k, 0 <= k < n -> k <> l -> (X k < X l)%R.
Proof.
  intros n X l Hl H k Hk Ne. pose proof (sum_exp_pos n X ltac:(lia)) as S. set (T := rsum n (fun j => exp (X j))) in *.
  assert (A : (T < 2 * exp (X l))%R).
  { apply (Rmult_lt_compat_r (2 * T)) in H; [|lra].
    replace (1 / 2 * (2 * T))%R with T in H by field.
    replace (exp (X l) / T * (2 * T))%R with (2 * exp (X l))%R in H by (field; lra). exact H. }
  assert (B : (exp (X l) + exp (X k) <= T)%R).
  { assert (P : (rsum n (fun j => (if Z.eq_dec j l then exp (X j) else 0) + (if Z.eq_dec j k then exp (X j) else 0)) <= T)%R).
    { apply rsum_le. intros j Hj. pose proof (exp_pos (X j)). destruct (Z.eq_dec j l), (Z.eq_dec j k); subst; try congruence; lra. }
    rewrite rsum_plus, !rsum_pick in P by auto. exact P. }
  apply exp_lt_inv. lra.
Qed.

(** ** Floating point *)
Section FloatLoss.
  Context (prec emax : Z) {Hprec : Prec_gt_0 prec} {Hmax : Prec_lt_emax prec emax}.
  Notation flt := (binary_float prec emax).
  Notation sc := (Fsc prec emax).

  Lemma mul_one : forall v : flt, is_finite v = true -> is_finite (Bmult mode_NE Bone v) = true /\ B2R (Bmult mode_NE Bone v) = B2R v.
  Proof.
    intros v F. pose proof (Bmult_correct prec emax _ _ mode_NE Bone v) as M.
    rewrite Bone_correct, Rmult_1_l, round_generic in M by (try apply valid_rnd_round_mode; apply generic_format_B2R).
    rewrite Rlt_bool_true in M by (apply abs_B2R_lt_emax). destruct M as (A & B & _).
    rewrite B, F. split; [|exact A]. rewrite is_finite_Bone. reflexivity.
  Qed.

  Lemma mul_zero : forall v : flt, is_finite v = true -> exists s, Bmult mode_NE (B754_zero false) v = B754_zero s.
  Proof. intros [s|s| |s m e H] F; try discriminate; eexists; reflexivity. Qed.

  Lemma add_zero_r : forall (a : flt) s, is_finite a = true ->
    is_finite (Bplus mode_NE a (B754_zero s)) = true /\ B2R (Bplus mode_NE a (B754_zero s)) = B2R a.
  Proof.
    intros a s F. pose proof (Bplus_correct prec emax _ _ mode_NE a (B754_zero s) F eq_refl) as P.
    cbn [B2R] in P. rewrite Rplus_0_r, round_generic in P by (try apply valid_rnd_round_mode; apply generic_format_B2R).
    rewrite Rlt_bool_true in P by (apply abs_B2R_lt_emax). destruct P as (A & B & _). auto.
  Qed.

  Lemma add_zero_l : forall (a b : flt), is_finite a = true -> B2R a = 0%R -> is_finite b = true ->
    is_finite (Bplus mode_NE a b) = true /\ B2R (Bplus mode_NE a b) = B2R b.
  Proof.
    intros a b Fa Za F. pose proof (Bplus_correct prec emax _ _ mode_NE a b Fa F) as P.
    rewrite Za, Rplus_0_l, round_generic in P by (try apply valid_rnd_round_mode; apply generic_format_B2R).
    rewrite Rlt_bool_true in P by (apply abs_B2R_lt_emax). destruct P as (A & B & _). auto.
  Qed.

  Lemma onehot_sum : forall n l (L : Z -> flt), 0 <= l < n -> (forall j, 0 <= j < n -> is_finite (L j) = true) ->
    let v := sum_over sc (zrange n) (fun j => smul sc (if Z.eq_dec j l then s1 sc else s0 sc) (L j)) in
    is_finite v = true /\ B2R v = B2R (L l).
  Proof.
    intros n l L Hl HF.
    assert (G : forall m, 0 <= Z.of_nat m <= n ->
      let v := sum_over sc (zrange (Z.of_nat m)) (fun j => smul sc (if Z.eq_dec j l then s1 sc else s0 sc) (L j)) in
      is_finite v = true /\ B2R v = (if Z_lt_dec l (Z.of_nat m) then B2R (L l) else 0%R)).
    { induction m as [|m IH]; intros Hm.
      - cbn. split; [reflexivity|]. destruct (Z_lt_dec l 0); [lia|reflexivity].
      - destruct (IH ltac:(lia)) as [F E]. cbv zeta. rewrite zrange_S. unfold sum_over in *. rewrite fold_left_app. cbn [fold_left].
        set (a := fold_left _ (zrange (Z.of_nat m)) _) in *. cbn [sadd smul Fsc s0 s1] in *.
        destruct (Z.eq_dec (Z.of_nat m) l) as [e|Ne].
        + destruct (mul_one (L (Z.of_nat m)) ltac:(apply HF; lia)) as [F1 E1].
          destruct (Z_lt_dec l (Z.of_nat m)) as [|_]; [lia|].
          destruct (add_zero_l a (Bmult mode_NE Bone (L (Z.of_nat m))) F E F1) as [F2 E2]. split; [exact F2|].
          rewrite E2, E1. destruct (Z_lt_dec l (Z.of_nat (S m))) as [_|]; [|lia]. rewrite e. reflexivity.
        + destruct (mul_zero (L (Z.of_nat m)) ltac:(apply HF; lia)) as [s ->].
          destruct (add_zero_r a s F) as [F2 E2]. split; [exact F2|]. rewrite E2, E.
          destruct (Z_lt_dec l (Z.of_nat m)), (Z_lt_dec l (Z.of_nat (S m))); try lia; reflexivity. }
    specialize (G (Z.to_nat n) ltac:(lia)). rewrite Z2Nat.id in G by lia. destruct (Z_lt_dec l n); [exact G|lia].
  Qed.

  Lemma onehot_inf : forall n l (L : Z -> flt), 0 <= l < n -> L l = B754_infinity true ->
    (forall j, 0 <= j < n -> j <> l -> is_finite (L j) = true) ->
    sum_over sc (zrange n) (fun j => smul sc (if Z.eq_dec j l then s1 sc else s0 sc) (L j)) = B754_infinity true.
  Proof.
    intros n l L Hl El HF.
    assert (I1 : Bmult mode_NE Bone (B754_infinity true : flt) = B754_infinity true).
    { pose proof (Bone_correct prec emax _ _) as B. pose proof (is_finite_Bone prec emax _ _) as F. pose proof (Bsign_Bone prec emax _ _) as S.
      generalize dependent (Bone : flt). intros [b|b| |b m e Hm] B F S; try discriminate.
      - cbn [B2R] in B. exfalso. lra.
      - cbn [Bsign] in S. subst b. reflexivity. }
    assert (G : forall m, 0 <= Z.of_nat m <= n ->
      let v := sum_over sc (zrange (Z.of_nat m)) (fun j => smul sc (if Z.eq_dec j l then s1 sc else s0 sc) (L j)) in
      if Z_lt_dec l (Z.of_nat m) then v = B754_infinity true else is_finite v = true).
    { induction m as [|m IH]; intros Hm.
      - cbn. destruct (Z_lt_dec l 0); [lia|reflexivity].
      - specialize (IH ltac:(lia)). cbv zeta in *. rewrite zrange_S. unfold sum_over in *. rewrite fold_left_app. cbn [fold_left].
        set (a := fold_left _ (zrange (Z.of_nat m)) _) in *. cbn [sadd smul Fsc s0 s1] in *.
        destruct (Z.eq_dec (Z.of_nat m) l) as [e|Ne].
        + rewrite e, El, I1. destruct (Z_lt_dec l (Z.of_nat m)); [lia|].
          destruct (Z_lt_dec l (Z.of_nat (S m))); [|lia]. destruct a; try discriminate; reflexivity.
        + destruct (mul_zero (L (Z.of_nat m)) ltac:(apply HF; lia)) as [b ->].
          destruct (Z_lt_dec l (Z.of_nat m)), (Z_lt_dec l (Z.of_nat (S m))); try lia.
          * rewrite IH. reflexivity.
          * apply add_zero_r. exact IH. }
    specialize (G (Z.to_nat n) ltac:(lia)). rewrite Z2Nat.id in G by lia. cbv zeta in G. destruct (Z_lt_dec l n); [exact G|lia].
  Qed.
End FloatLoss.
