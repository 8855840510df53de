(** Rounding errors of composed sums: gradients and variances. *)
From Coq Require Import ZArith Reals List Bool Lia Lra.
From Flocq Require Import Core BinarySingleNaN.
From Verif Require Import Base BaseFacts Scalar RealScalar Float FloatSpec FloatFacts FloatSumSpec FloatSumFacts
  FloatNormFacts FloatSoftSpec FloatSoftFacts FloatGradSpec.
Import ListNotations.
Open Scope R_scope.

Section FloatGradFacts.
  Context (prec emax : Z) {Hprec : Prec_gt_0 prec} {Hmax : Prec_lt_emax prec emax}.
  Notation sc := (Fsc prec emax).
  Notation flt := (binary_float prec emax).
  Notation u := (unit_roundoff prec).
  Notation eta := (half_tiny prec emax).
  Notation fexp := (FLT_exp (3 - emax - prec) prec).
  Notation rnd := (round radix2 fexp ZnearestE).

  Lemma eta_half : eta <= / 2.
  Proof.
    unfold half_tiny. pose proof Hprec as P. pose proof Hmax as M. unfold Prec_gt_0 in P. unfold Prec_lt_emax in M.
    assert (bpow radix2 (3 - emax - prec) <= 1) by (change 1 with (bpow radix2 0); apply bpow_le; lia). lra.
  Qed.
  Lemma four_le : 4 <= bpow radix2 emax.
  Proof.
    pose proof Hprec as P. pose proof Hmax as M. unfold Prec_gt_0 in P. unfold Prec_lt_emax in M.
    change 4 with (bpow radix2 2). apply bpow_le. lia.
  Qed.

  Lemma sumR_plus : forall {A} (l : list A) f g, sum_over Rsc l (fun a => f a + g a) = sum_over Rsc l f + sum_over Rsc l g.
  Proof.
    intros A l f g. induction l as [|a l IH] using rev_ind; [cbn; ring|]. rewrite !sumR_snoc, IH. ring.
  Qed.
  Lemma sumR_dist : forall {A} (l : list A) f g b, (forall a, In a l -> Rabs (f a - g a) <= b a) ->
    Rabs (sum_over Rsc l f - sum_over Rsc l g) <= sum_over Rsc l b.
  Proof.
    intros A l f g b H. induction l as [|a l IH] using rev_ind.
    - cbn. rewrite Rminus_0_r, Rabs_R0. lra.
    - rewrite !sumR_snoc. replace (_ - _) with ((sum_over Rsc l f - sum_over Rsc l g) + (f a - g a)) by ring.
      eapply Rle_trans; [apply Rabs_triang|]. apply Rplus_le_compat.
      + apply IH. intros x Hx. apply H, in_or_app; auto.
      + apply H, in_or_app; right; left; auto.
  Qed.

  (** A sum of approximations. *)
  Lemma sum_within : forall {A} (l : list A) (f : A -> flt) r b,
    (forall a, In a l -> within prec emax (b a) (r a) (f a)) ->
    let P := (1 + u) ^ Nat.pred (length l) in
    let T := sum_over Rsc l (fun a => Rabs (r a)) in let E := sum_over Rsc l b in
    P * (T + E) < bpow radix2 emax ->
    within prec emax ((P - 1) * T + P * E) (sum_over Rsc l r) (sum_over sc l f).
  Proof.
    intros A l f r b H P T E HO.
    assert (L : sum_over Rsc l (fun a => Rabs (B2R (f a))) <= T + E).
    { unfold T, E. rewrite <- sumR_plus. apply sumR_le. intros a Ha. destruct (H a Ha) as (_ & Q).
      replace (B2R (f a)) with (r a + (B2R (f a) - r a)) by ring. eapply Rle_trans; [apply Rabs_triang|]. lra. }
    assert (P1 : 1 <= P) by apply pow_ge1.
    destruct (sum_approx prec emax l f) as (F & S).
    - intros a Ha. apply (H a Ha).
    - unfold sum_fits. fold P. eapply Rle_lt_trans; [|exact HO]. apply Rmult_le_compat_l; lra.
    - split; [exact F|]. unfold sum_bound in S. fold P in S.
      assert (D : Rabs (sum_over Rsc l (fun a => B2R (f a)) - sum_over Rsc l r) <= E).
      { apply sumR_dist. intros a Ha. apply (H a Ha). }
      replace (_ - _) with ((B2R (sum_over sc l f) - sum_over Rsc l (fun a => B2R (f a)))
        + (sum_over Rsc l (fun a => B2R (f a)) - sum_over Rsc l r)) by ring.
      eapply Rle_trans; [apply Rabs_triang|].
      apply Rle_trans with ((P - 1) * (T + E) + E); [|lra].
      apply Rplus_le_compat; [|exact D]. eapply Rle_trans; [exact S|]. apply Rmult_le_compat_l; lra.
  Qed.

  (** Sums of sums of products. *)
  Lemma sumdot_approx : forall {A B} (l : list A) (m : list B) (f g : A -> B -> flt),
    (forall a b, In a l -> In b m -> is_finite (f a b) = true /\ is_finite (g a b) = true) ->
    let T := sum_over Rsc l (fun a => sum_over Rsc m (fun b => Rabs (B2R (f a b) * B2R (g a b)))) in
    T + sumdot_bound prec emax (length m) (length l) T < bpow radix2 emax ->
    within prec emax (sumdot_bound prec emax (length m) (length l) T)
      (sum_over Rsc l (fun a => sum_over Rsc m (fun b => B2R (f a b) * B2R (g a b))))
      (sum_over sc l (fun a => sum_over sc m (fun b => smul sc (f a b) (g a b)))).
  Proof.
    intros A B l m f g HF T HO.
    set (n := length m) in *. set (k := length l) in *.
    set (t := fun a => sum_over Rsc m (fun b => Rabs (B2R (f a b) * B2R (g a b)))).
    set (D := (1 + u) ^ n). set (P := (1 + u) ^ Nat.pred k).
    assert (EQ : sumdot_bound prec emax n k T = (D * P - 1) * T + INR k * INR n * eta * (D * P)).
    { unfold sumdot_bound, D, P. rewrite pow_add. reflexivity. }
    assert (D1 : 1 <= D) by apply pow_ge1. assert (P1 : 1 <= P) by apply pow_ge1.
    pose proof (u_pos prec) as Pu. pose proof (eta_pos prec emax) as Pe.
    assert (t0 : forall a, 0 <= t a) by (intros a; unfold t; apply sumR_nonneg; intros; apply Rabs_pos).
    assert (T0 : 0 <= T) by (apply sumR_nonneg; auto).
    assert (N0 : 0 <= INR n) by apply pos_INR.
    assert (DP : D <= D * P) by nra.
    assert (W : forall a, In a l -> within prec emax (dot_bound prec emax n (t a))
              (sum_over Rsc m (fun b => B2R (f a b) * B2R (g a b))) (sum_over sc m (fun b => smul sc (f a b) (g a b)))).
    { intros a Ha. apply (dot_approx prec emax m (f a) (g a)); [intros b Hb; auto|].
      unfold no_overflow. change (sum_over Rsc m (fun b => Rabs (B2R (f a b) * B2R (g a b)))) with (t a). fold n.
      eapply Rle_lt_trans; [|exact HO]. rewrite EQ. unfold dot_bound. fold D.
      assert (Lt : t a <= T) by (apply (sumR_pick l t a); auto).
      assert (K1 : 1 <= INR k).
      { apply (le_INR 1). unfold k. destruct l; [contradiction|cbn; lia]. }
      assert (Q1 : D * t a <= D * P * T) by (apply Rmult_le_compat; try lra; auto).
      assert (Q2 : INR n * eta * D <= INR k * INR n * eta * (D * P)).
      { assert (0 <= INR n * eta) by (apply Rmult_le_pos; lra).
        apply Rmult_le_compat; try lra.
        rewrite Rmult_assoc. rewrite <- (Rmult_1_l (INR n * eta)) at 1. apply Rmult_le_compat_r; lra. }
      lra. }
    assert (E : sum_over Rsc l (fun a => dot_bound prec emax n (t a)) = (D - 1) * T + INR k * (INR n * eta * D)).
    { unfold dot_bound. fold D. rewrite sumR_plus, sumR_scale, sumR_const. reflexivity. }
    assert (R1 : sum_over Rsc l (fun a => Rabs (sum_over Rsc m (fun b => B2R (f a b) * B2R (g a b)))) <= T).
    { apply sumR_le. intros a _. apply sumR_abs. }
    destruct (sum_within l _ _ _ W) as (F & S).
    - fold k P. rewrite E. eapply Rle_lt_trans; [|exact HO]. rewrite EQ.
      replace (T + ((D * P - 1) * T + INR k * INR n * eta * (D * P)))
        with (P * (T + ((D - 1) * T + INR k * (INR n * eta * D)))) by ring.
      apply Rmult_le_compat_l; lra.
    - split; [exact F|]. fold k P in S. rewrite E in S. rewrite EQ. eapply Rle_trans; [exact S|].
      replace ((D * P - 1) * T + INR k * INR n * eta * (D * P))
        with ((P - 1) * T + P * ((D - 1) * T + INR k * (INR n * eta * D))) by ring.
      apply Rplus_le_compat_r, Rmult_le_compat_l; lra.
  Qed.

  (** The entries of the derivative of softmax. *)
  Definition fjac (y : Z -> flt) (i j : Z) : flt :=
    if Z.eqb i j then Bmult mode_NE (y i) (Bminus mode_NE Bone (y i)) else Bmult mode_NE (Bopp (y i)) (y j).

  Lemma fjac_within : forall y i j,
    is_finite (y i) = true -> is_finite (y j) = true -> 0 <= B2R (y i) <= 1 -> 0 <= B2R (y j) <= 1 ->
    let r := soft_jac (fun k => B2R (y k)) i j in
    within prec emax (((1 + u) ^ 2 - 1) * Rabs r + eta) r (fjac y i j).
  Proof.
    intros y i j Fi Fj Bi Bj. cbv zeta. unfold soft_jac, fjac.
    pose proof (u_pos prec) as Pu. pose proof (u_half prec) as Hu. pose proof (eta_pos prec emax) as Pe.
    pose proof eta_half as He. pose proof four_le as H4.
    destruct (Z.eqb i j).
    - set (r := B2R (y i) * (1 - B2R (y i))). assert (E1 : B2R (@Bone prec emax _ _) = 1) by apply Bone_correct.
      destruct (sub_within prec emax Bone (y i)) as (F & S); auto.
      { apply is_finite_Bone. }
      { rewrite E1. unfold in_range. rewrite Rabs_pos_eq by lra.
        apply Rle_lt_trans with ((1 + u) * 1 + eta); [apply Rplus_le_compat_r, Rmult_le_compat_l; lra|lra]. }
      rewrite E1 in S. set (d := Bminus mode_NE Bone (y i)) in *. rewrite (Rabs_pos_eq (1 - _)) in S by lra.
      set (yi := B2R (y i)) in *.
      assert (Bd : Rabs (B2R d) <= (1 + u) * (1 - yi)).
      { replace (B2R d) with ((1 - yi) + (B2R d - (1 - yi))) by ring. eapply Rle_trans; [apply Rabs_triang|].
        rewrite (Rabs_pos_eq (1 - yi)) by lra. lra. }
      assert (Bp : Rabs (yi * B2R d) <= (1 + u) * (yi * (1 - yi))).
      { rewrite Rabs_mult, (Rabs_pos_eq yi) by lra.
        apply Rle_trans with (yi * ((1 + u) * (1 - yi))); [apply Rmult_le_compat_l; lra|lra]. }
      assert (Y1 : yi * (1 - yi) <= 1) by nra. assert (Y0 : 0 <= yi * (1 - yi)) by (apply Rmult_le_pos; lra).
      destruct (mul_within prec emax (y i) d Fi F) as (F2 & S2).
      { unfold in_range. fold yi.
        apply Rle_lt_trans with ((1 + u) * ((1 + u) * 1) + eta); [|nra].
        apply Rplus_le_compat_r, Rmult_le_compat_l; [lra|]. eapply Rle_trans; [exact Bp|]. apply Rmult_le_compat_l; lra. }
      split; [exact F2|]. unfold r. fold yi. fold yi in S2. rewrite (Rabs_pos_eq (yi * (1 - yi))) by auto.
      replace (_ - _) with ((B2R (Bmult mode_NE (y i) d) - yi * B2R d) + yi * (B2R d - (1 - yi))) by ring.
      eapply Rle_trans; [apply Rabs_triang|]. rewrite (Rabs_mult yi), (Rabs_pos_eq yi) by lra.
      assert (Q1 : yi * Rabs (B2R d - (1 - yi)) <= u * (yi * (1 - yi))).
      { apply Rle_trans with (yi * (u * (1 - yi))); [apply Rmult_le_compat_l; lra|lra]. }
      assert (Q2 : u * Rabs (yi * B2R d) <= u * ((1 + u) * (yi * (1 - yi)))) by (apply Rmult_le_compat_l; lra).
      lra.
    - set (r := - B2R (y i) * B2R (y j)). assert (Fo : is_finite (Bopp (y i)) = true) by (rewrite is_finite_Bopp; auto).
      assert (Eo : B2R (Bopp (y i)) = - B2R (y i)) by apply B2R_Bopp.
      destruct (mul_within prec emax (Bopp (y i)) (y j) Fo Fj) as (F2 & S2); rewrite Eo in *.
      { unfold in_range. rewrite Rabs_mult, Rabs_Ropp, !Rabs_pos_eq by lra.
        assert (B2R (y i) * B2R (y j) <= 1) by nra.
        apply Rle_lt_trans with ((1 + u) * 1 + eta); [apply Rplus_le_compat_r, Rmult_le_compat_l; lra|lra]. }
      split; [exact F2|]. fold r in S2 |- *. eapply Rle_trans; [exact S2|].
      assert (0 <= Rabs r) by apply Rabs_pos. assert (0 <= u * Rabs r) by (apply Rmult_le_pos; lra).
      assert (0 <= u * u * Rabs r) by (apply Rmult_le_pos; [apply Rmult_le_pos; lra|lra]). lra.
  Qed.

  Lemma soft_grad_within : forall (n : Z) (gy y : Z -> flt) j,
    (forall i, (0 <= i < n)%Z -> is_finite (gy i) = true /\ is_finite (y i) = true /\ 0 <= B2R (y i) <= 1) ->
    (0 <= j < n)%Z ->
    let r := fun i => B2R (gy i) * soft_jac (fun k => B2R (y k)) i j in
    let T := sum_over Rsc (zrange n) (fun i => Rabs (r i)) in
    let G := sum_over Rsc (zrange n) (fun i => Rabs (B2R (gy i))) in
    T + soft_grad_bound prec emax (Z.to_nat n) T G < bpow radix2 emax ->
    within prec emax (soft_grad_bound prec emax (Z.to_nat n) T G) (sum_over Rsc (zrange n) r)
      (sum_over sc (zrange n) (fun i => smul sc (gy i) (fjac y i j))).
  Proof.
    intros n gy y j HF Hj r T G HO.
    pose proof (u_pos prec) as Pu. pose proof (eta_pos prec emax) as Pe.
    set (g := fun i => soft_jac (fun k => B2R (y k)) i j) in *.
    assert (W : forall i, (0 <= i < n)%Z -> within prec emax (((1 + u) ^ 2 - 1) * Rabs (g i) + eta) (g i) (fjac y i j)).
    { intros i Hi. destruct (HF i Hi) as (_ & F1 & B1). destruct (HF j Hj) as (_ & F2 & B2). apply fjac_within; auto. }
    set (D := (1 + u) ^ Z.to_nat n). assert (D1 : 1 <= D) by apply pow_ge1.
    assert (EQ : soft_grad_bound prec emax (Z.to_nat n) T G = (D * (1 + u) ^ 2 - 1) * T + D * (INR (Z.to_nat n) + G) * eta).
    { unfold soft_grad_bound, D. rewrite pow_add. reflexivity. }
    set (N := INR (Z.to_nat n)) in *.
    set (T' := sum_over Rsc (zrange n) (fun i => Rabs (B2R (gy i) * B2R (fjac y i j)))).
    assert (T0 : 0 <= T) by (apply sumR_nonneg; intros; apply Rabs_pos).
    assert (G0 : 0 <= G) by (apply sumR_nonneg; intros; apply Rabs_pos).
    assert (DT : Rabs (sum_over Rsc (zrange n) (fun i => B2R (gy i) * B2R (fjac y i j)) - sum_over Rsc (zrange n) r)
                 <= ((1 + u) ^ 2 - 1) * T + eta * G).
    { unfold T, G. rewrite <- !sumR_scale, <- sumR_plus. apply sumR_dist. intros i Hi. apply in_zrange in Hi.
      destruct (W i Hi) as (_ & Q). unfold r. fold (g i). rewrite <- Rmult_minus_distr_l, !Rabs_mult.
      apply Rle_trans with (Rabs (B2R (gy i)) * (((1 + u) ^ 2 - 1) * Rabs (g i) + eta)); [|lra].
      apply Rmult_le_compat_l; [apply Rabs_pos|exact Q]. }
    assert (TT : T' <= (1 + u) ^ 2 * T + eta * G).
    { unfold T', T, G. rewrite <- !sumR_scale, <- sumR_plus. apply sumR_le. intros i Hi. apply in_zrange in Hi.
      destruct (W i Hi) as (_ & Q). unfold r. fold (g i). rewrite !Rabs_mult.
      assert (Q' : Rabs (B2R (fjac y i j)) <= (1 + u) ^ 2 * Rabs (g i) + eta).
      { replace (B2R (fjac y i j)) with (g i + (B2R (fjac y i j) - g i)) by ring.
        eapply Rle_trans; [apply Rabs_triang|]. lra. }
      apply Rle_trans with (Rabs (B2R (gy i)) * ((1 + u) ^ 2 * Rabs (g i) + eta)); [|lra].
      apply Rmult_le_compat_l; [apply Rabs_pos|exact Q']. }
    destruct (dot_approx prec emax (zrange n) gy (fun i => fjac y i j)) as (F & S).
    - intros i Hi. apply in_zrange in Hi. split; [apply HF; auto|apply (W i Hi)].
    - unfold no_overflow, dot_bound. rewrite length_zrange. fold D T' N. eapply Rle_lt_trans; [|exact HO]. rewrite EQ.
      replace (T' + ((D - 1) * T' + N * eta * D)) with (D * T' + N * eta * D) by ring.
      apply Rle_trans with (D * ((1 + u) ^ 2 * T + eta * G) + N * eta * D); [|lra].
      apply Rplus_le_compat_r, Rmult_le_compat_l; lra.
    - split; [exact F|]. unfold dot_bound in S. rewrite length_zrange in S. fold D T' N in S. rewrite EQ.
      match goal with |- Rabs (?v - ?b) <= _ =>
        replace (v - b) with ((v - sum_over Rsc (zrange n) (fun i => B2R (gy i) * B2R (fjac y i j)))
          + (sum_over Rsc (zrange n) (fun i => B2R (gy i) * B2R (fjac y i j)) - b)) by ring end.
      eapply Rle_trans; [apply Rabs_triang|].
      assert (Q : (D - 1) * T' <= (D - 1) * ((1 + u) ^ 2 * T + eta * G)) by (apply Rmult_le_compat_l; lra).
      lra.
  Qed.

  Lemma xent_grad_within : forall g x y : flt, is_finite g = true -> is_finite x = true -> is_finite y = true -> B2R y <> 0 ->
    let r := - B2R x / B2R y in
    in_range prec emax r -> Rabs (B2R g * r) + xent_grad_bound prec emax (B2R g) r < bpow radix2 emax ->
    within prec emax (xent_grad_bound prec emax (B2R g) r) (B2R g * r) (Bmult mode_NE g (Bdiv mode_NE (Bopp x) y)).
  Proof.
    intros g x y Fg Fx Fy Ny r HR HO.
    pose proof (u_pos prec) as Pu. pose proof (eta_pos prec emax) as Pe.
    assert (Fo : is_finite (Bopp x) = true) by (rewrite is_finite_Bopp; auto).
    assert (Eo : B2R (Bopp x) = - B2R x) by apply B2R_Bopp.
    destruct (div_within prec emax (Bopp x) y Fo Ny) as (Fq & Q); [rewrite Eo; exact HR|]. rewrite Eo in Q. fold r in Q.
    set (q := Bdiv mode_NE (Bopp x) y) in *.
    assert (A0 : 0 <= Rabs (B2R g)) by apply Rabs_pos.
    assert (Bq : Rabs (B2R q) <= (1 + u) * Rabs r + eta).
    { replace (B2R q) with (r + (B2R q - r)) by ring. eapply Rle_trans; [apply Rabs_triang|]. lra. }
    assert (Bg : Rabs (B2R g * B2R q) <= (1 + u) * Rabs (B2R g * r) + Rabs (B2R g) * eta).
    { rewrite !Rabs_mult. apply Rle_trans with (Rabs (B2R g) * ((1 + u) * Rabs r + eta)); [apply Rmult_le_compat_l; auto|lra]. }
    unfold xent_grad_bound in *.
    destruct (mul_within prec emax g q Fg Fq) as (F & S).
    { unfold in_range. eapply Rle_lt_trans; [|exact HO].
      apply Rle_trans with ((1 + u) * ((1 + u) * Rabs (B2R g * r) + Rabs (B2R g) * eta) + eta); [|lra].
      apply Rplus_le_compat_r, Rmult_le_compat_l; lra. }
    split; [exact F|].
    replace (_ - _) with ((B2R (Bmult mode_NE g q) - B2R g * B2R q) + B2R g * (B2R q - r)) by ring.
    eapply Rle_trans; [apply Rabs_triang|].
    assert (Q1 : Rabs (B2R g * (B2R q - r)) <= u * Rabs (B2R g * r) + Rabs (B2R g) * eta).
    { rewrite !Rabs_mult. apply Rle_trans with (Rabs (B2R g) * (u * Rabs r + eta)); [apply Rmult_le_compat_l; auto|lra]. }
    assert (Q2 : u * Rabs (B2R g * B2R q) <= u * ((1 + u) * Rabs (B2R g * r) + Rabs (B2R g) * eta)) by (apply Rmult_le_compat_l; lra).
    lra.
  Qed.

  (** ** Variance *)
  Lemma mean_sq : forall {A} (l : list A) (f : A -> R) c, l <> [] ->
    mean_of l (fun a => (f a - c) ^ 2) = var_of l f + (c - mean_of l f) ^ 2.
  Proof.
    intros A l f c Nl.
    assert (N : INR (length l) <> 0) by (apply not_0_INR; destruct l; [contradiction|discriminate]).
    assert (Q : forall d, sum_over Rsc l (fun a => (f a - d) ^ 2) =
      sum_over Rsc l (fun a => f a ^ 2) + (-2 * d) * sum_over Rsc l f + INR (length l) * d ^ 2).
    { intros d. rewrite <- sumR_scale, <- sumR_const, <- !sumR_plus. apply sumR_ext. intros a _. ring. }
    unfold var_of, mean_of at 1 2. rewrite !Q. unfold mean_of. field. exact N.
  Qed.

  Lemma square_within : forall d : flt, is_finite d = true -> in_range prec emax (B2R d * B2R d) ->
    within prec emax (u * (B2R d) ^ 2 + eta) ((B2R d) ^ 2) (Bmult mode_NE d d) /\ 0 <= B2R (Bmult mode_NE d d).
  Proof.
    intros d F HR. assert (P : 0 <= B2R d * B2R d) by apply Rle_0_sqr.
    split.
    - destruct (mul_within prec emax d d F F HR) as (F2 & S). rewrite (Rabs_pos_eq (B2R d * B2R d)) in S by auto.
      split; [exact F2|]. replace (B2R d ^ 2) with (B2R d * B2R d) by ring. exact S.
    - destruct (fmul_ok prec emax d d F F) as (_ & E).
      { apply in_range_rnd; auto. }
      rewrite E. rewrite <- (round_0 radix2 fexp ZnearestE). apply rnd_le; auto.
  Qed.

  Lemma var_within : forall {A} (l : list A) (f : A -> flt) n, n = Z.of_nat (length l) -> (1 <= n <= 2 ^ prec)%Z ->
    (forall a, In a l -> is_finite (f a) = true) ->
    sum_fits prec emax (length l) (sum_over Rsc l (fun a => Rabs (B2R (f a)))) ->
    let v := var_of l (fun a => B2R (f a)) in let e := mean_err prec emax l (fun a => B2R (f a)) in
    var_fits prec emax (length l) v e ->
    let m := Bdiv mode_NE (sum_over sc l f) (sofZ sc n) in
    let w := Bdiv mode_NE (sum_over sc l (fun a => Bmult mode_NE (Bminus mode_NE (f a) m) (Bminus mode_NE (f a) m))) (sofZ sc n) in
    within prec emax (var_bound prec emax (length l) v e) v w /\ 0 <= B2R w.
  Proof.
    intros A l f n En Hn HF HS v e HV m w.
    pose proof (u_pos prec) as Pu. pose proof (u_half prec) as Hu. pose proof (eta_pos prec emax) as Pe.
    pose proof (eta_half) as He. pose proof four_le as H4.
    assert (Nl : l <> []) by (destruct l; [cbn in En; lia|discriminate]).
    assert (Nl' : (length l <> 0)%nat) by (destruct l; [contradiction|discriminate]).
    set (k := length l) in *. set (N := INR k).
    assert (EN : IZR n = N) by (unfold N; rewrite INR_IZR_INZ, En; reflexivity).
    assert (N1 : 1 <= N) by (apply (le_INR 1); lia).
    destruct (mean_approx prec emax l f n En Hn HF HS) as (Fm & Sm). fold m in Fm, Sm.
    change (Rabs (B2R m - mean_of l (fun a => B2R (f a))) <= e) in Sm.
    set (mu := B2R m) in *. set (M := mean_of l (fun a => B2R (f a))) in *.
    set (S := sum_over Rsc l (fun a => (B2R (f a) - mu) ^ 2)).
    assert (ES : S = N * (v + (mu - M) ^ 2)).
    { pose proof (mean_sq l (fun a => B2R (f a)) mu Nl) as Q. fold v M in Q. rewrite <- Q. unfold mean_of. fold k N S. field. lra. }
    assert (E2 : (mu - M) ^ 2 <= e ^ 2).
    { rewrite <- (Rabs_pos_eq ((mu - M) ^ 2)) by apply pow2_ge_0. rewrite <- RPow_abs.
      apply pow_incr. split; [apply Rabs_pos|exact Sm]. }
    assert (v0 : 0 <= v).
    { unfold v, var_of, mean_of at 1. apply Rmult_le_pos; [|apply Rlt_le, Rinv_0_lt_compat; fold k N; lra].
      apply sumR_nonneg. intros a. apply pow2_ge_0. }
    assert (S0 : 0 <= S) by (apply sumR_nonneg; intros a; apply pow2_ge_0).
    set (q := 1 + u) in *. assert (Q1 : 1 <= q) by (unfold q; lra).
    set (D := q ^ k) in *. assert (D1 : 1 <= D) by (apply pow_ge1).
    assert (D3 : q ^ (k + 3) = D * q ^ 3) by (unfold D; apply pow_add).
    assert (q3 : 1 <= q ^ 3) by (apply pow_R1_Rle; lra).
    assert (SN : S <= N * (v + e ^ 2)) by (rewrite ES; apply Rmult_le_compat_l; lra).
    unfold var_fits in HV. fold N q D in HV. rewrite D3 in HV.
    assert (Big : D * q ^ 3 * S + N * (D * eta) < bpow radix2 emax).
    { eapply Rle_lt_trans; [|exact HV]. rewrite Rmult_plus_distr_l. apply Rplus_le_compat_r.
      replace (N * (D * q ^ 3 * (v + e ^ 2))) with (D * q ^ 3 * (N * (v + e ^ 2))) by ring.
      apply Rmult_le_compat_l; [|exact SN]. apply Rmult_le_pos; lra. }
    assert (Et : eta <= N * (D * eta)).
    { rewrite <- (Rmult_1_l eta) at 1. rewrite <- Rmult_assoc. apply Rmult_le_compat_r; [lra|]. nra. }
    set (d := fun a => Bminus mode_NE (f a) m).
    set (dd := fun a => B2R (f a) - mu).
    assert (Pick : forall a, In a l -> (dd a) ^ 2 <= S).
    { intros a Ha. apply (sumR_pick l (fun a => (dd a) ^ 2) a Ha). intros; apply pow2_ge_0. }
    assert (Dif : forall a, In a l -> within prec emax (u * Rabs (dd a)) (dd a) (d a)).
    { intros a Ha. apply (sub_within prec emax (f a) m); auto. fold mu. change (B2R (f a) - mu) with (dd a).
      unfold in_range. fold q. destruct (Rle_lt_dec 1 (Rabs (dd a))) as [L|L].
      - eapply Rle_lt_trans; [|exact Big]. apply Rplus_le_compat; [|exact Et].
        assert (A1 : Rabs (dd a) <= (dd a) ^ 2).
        { rewrite <- (Rabs_pos_eq ((dd a) ^ 2)) by apply pow2_ge_0. rewrite <- RPow_abs. cbn [pow]. rewrite Rmult_1_r.
          rewrite <- (Rmult_1_r (Rabs (dd a))) at 1. apply Rmult_le_compat_l; [apply Rabs_pos|exact L]. }
        apply Rle_trans with (q * S).
        + apply Rmult_le_compat_l; [lra|]. pose proof (Pick a Ha). lra.
        + apply Rmult_le_compat_r; [exact S0|].
          assert (q <= q ^ 3) by (replace (q ^ 3) with (q * (q * q)) by ring; nra). nra.
      - apply Rle_lt_trans with (q * 1 + eta); [apply Rplus_le_compat_r, Rmult_le_compat_l; lra|unfold q; lra]. }
    assert (Sq : forall a, In a l -> within prec emax ((q ^ 3 - 1) * (dd a) ^ 2 + eta) ((dd a) ^ 2) (Bmult mode_NE (d a) (d a))
                  /\ 0 <= B2R (Bmult mode_NE (d a) (d a))).
    { intros a Ha. destruct (Dif a Ha) as (Fd & Sd). set (x := dd a) in *. set (x' := B2R (d a)) in *.
      assert (Ax : Rabs x' <= q * Rabs x).
      { replace x' with (x + (x' - x)) by ring. eapply Rle_trans; [apply Rabs_triang|]. unfold q. lra. }
      assert (X2 : x' ^ 2 <= q ^ 2 * x ^ 2).
      { rewrite <- (Rabs_pos_eq (x' ^ 2)), <- (Rabs_pos_eq (x ^ 2)) by apply pow2_ge_0. rewrite <- !RPow_abs, <- Rpow_mult_distr.
        apply pow_incr. split; [apply Rabs_pos|exact Ax]. }
      assert (Dx : Rabs (x' ^ 2 - x ^ 2) <= (q ^ 2 - 1) * x ^ 2).
      { replace (x' ^ 2 - x ^ 2) with ((x' - x) * (x' + x)) by ring. rewrite Rabs_mult.
        assert (As : Rabs (x' + x) <= (2 + u) * Rabs x).
        { replace (x' + x) with ((x' - x) + 2 * x) by ring. eapply Rle_trans; [apply Rabs_triang|].
          rewrite (Rabs_mult 2), (Rabs_pos_eq 2) by lra. lra. }
        replace ((q ^ 2 - 1) * x ^ 2) with (u * Rabs x * ((2 + u) * Rabs x)).
        - apply Rmult_le_compat; auto; apply Rabs_pos.
        - replace (x ^ 2) with (Rabs x * Rabs x); [unfold q; ring|]. rewrite <- Rabs_mult. rewrite Rabs_pos_eq; [ring|apply Rle_0_sqr]. }
      assert (x20 : 0 <= x ^ 2) by apply pow2_ge_0.
      destruct (square_within (d a) Fd) as ((F2 & S2) & P2).
      { unfold in_range. fold x'. replace (x' * x') with (x' ^ 2) by ring. rewrite Rabs_pos_eq by apply pow2_ge_0. fold q.
        eapply Rle_lt_trans; [|exact Big]. apply Rplus_le_compat; [|exact Et].
        apply Rle_trans with (q * (q ^ 2 * x ^ 2)); [apply Rmult_le_compat_l; lra|].
        replace (q * (q ^ 2 * x ^ 2)) with (1 * q ^ 3 * x ^ 2) by ring.
        apply Rmult_le_compat; auto; [apply Rmult_le_pos; lra|apply Rmult_le_compat_r; lra|apply Pick; auto]. }
      fold x' in S2. split; [|exact P2]. split; [exact F2|].
      replace (B2R (Bmult mode_NE (d a) (d a)) - x ^ 2)
        with ((B2R (Bmult mode_NE (d a) (d a)) - x' ^ 2) + (x' ^ 2 - x ^ 2)) by ring.
      eapply Rle_trans; [apply Rabs_triang|].
      assert (u * x' ^ 2 <= u * (q ^ 2 * x ^ 2)) by (apply Rmult_le_compat_l; lra).
      replace ((q ^ 3 - 1) * x ^ 2) with (u * (q ^ 2 * x ^ 2) + (q ^ 2 - 1) * x ^ 2) by (unfold q; ring). lra. }
    set (P := q ^ Nat.pred k) in *. assert (P1 : 1 <= P) by (apply pow_ge1).
    assert (PD : P * q = D).
    { unfold P, D. rewrite Rmult_comm. change (q * q ^ Nat.pred k) with (q ^ Datatypes.S (Nat.pred k)). f_equal. lia. }
    assert (TT : sum_over Rsc l (fun a => Rabs ((dd a) ^ 2)) = S).
    { apply sumR_ext. intros a _. apply Rabs_pos_eq, pow2_ge_0. }
    assert (TE : sum_over Rsc l (fun a => (q ^ 3 - 1) * (dd a) ^ 2 + eta) = (q ^ 3 - 1) * S + N * eta).
    { rewrite sumR_plus, sumR_scale, sumR_const. reflexivity. }
    assert (PleD : P <= D) by (rewrite <- PD; rewrite <- (Rmult_1_r P) at 1; apply Rmult_le_compat_l; lra).
    destruct (sum_within l (fun a => Bmult mode_NE (d a) (d a)) (fun a => (dd a) ^ 2) (fun a => (q ^ 3 - 1) * (dd a) ^ 2 + eta)) as (Fs & Ss).
    { intros a Ha. apply (Sq a Ha). }
    { fold k q P. rewrite TT, TE. eapply Rle_lt_trans; [|exact Big].
      replace (P * (S + ((q ^ 3 - 1) * S + N * eta))) with (P * (q ^ 3 * S + N * eta)) by ring.
      replace (D * q ^ 3 * S + N * (D * eta)) with (D * (q ^ 3 * S + N * eta)) by ring.
      apply Rmult_le_compat_r; [|exact PleD]. apply Rplus_le_le_0_compat; apply Rmult_le_pos; lra. }
    fold k q P in Ss. rewrite TT, TE in Ss. change (sum_over Rsc l (fun a => (dd a) ^ 2)) with S in Ss.
    set (s := sum_over sc l (fun a => Bmult mode_NE (d a) (d a))) in *.
    assert (s0 : 0 <= B2R s).
    { pose proof (sum_mono prec emax l (fun _ => B754_zero false) (fun a => Bmult mode_NE (d a) (d a))) as MM.
      destruct (sum_exact prec emax l (fun _ => B754_zero false : flt) (fun _ => 0%Z)) as (_ & EZ).
      { intros a _. split; reflexivity. }
      { assert (Z0 : forall l' : list A, sum_over Zsc l' (fun _ => Z.abs 0) = 0%Z).
        { intros l'. induction l' as [|b l' IH] using rev_ind; [reflexivity|]. rewrite sumZ_snoc, IH. reflexivity. }
        rewrite Z0. apply Z.pow_nonneg. lia. }
      assert (Z0 : forall l' : list A, sum_over Zsc l' (fun _ => 0%Z) = 0%Z).
      { intros l'. induction l' as [|b l' IH] using rev_ind; [reflexivity|]. rewrite sumZ_snoc, IH. reflexivity. }
      rewrite Z0 in EZ. rewrite <- EZ. apply MM.
      - intros a Ha. destruct (Sq a Ha) as ((F2 & _) & P2). split; [reflexivity|]. split; [exact F2|]. exact P2.
      - unfold sum_fits. rewrite sumR_const. cbn [B2R]. rewrite Rabs_R0, Rmult_0_r, Rmult_0_r. apply bpow_gt_0.
      - unfold sum_fits. fold k q P.
        apply Rle_lt_trans with (P * (S + ((q ^ 3 - 1) * S + N * eta))).
        + apply Rmult_le_compat_l; [lra|]. rewrite <- TE. unfold S at 1. rewrite <- sumR_plus. apply sumR_le.
          intros a Ha. destruct (Sq a Ha) as ((_ & Q) & P2). rewrite Rabs_pos_eq by auto. apply Rabs_le_inv in Q.
          change ((B2R (f a) - mu) ^ 2) with (dd a ^ 2). lra.
        + eapply Rle_lt_trans; [|exact Big].
          replace (P * (S + ((q ^ 3 - 1) * S + N * eta))) with (P * (q ^ 3 * S + N * eta)) by ring.
          replace (D * q ^ 3 * S + N * (D * eta)) with (D * (q ^ 3 * S + N * eta)) by ring.
          apply Rmult_le_compat_r; [|exact PleD]. apply Rplus_le_le_0_compat; apply Rmult_le_pos; lra. }
    destruct (fdiv_n prec emax s n Fs Hn) as (Fw & Ew). change (Bdiv mode_NE s (sofZ sc n)) with w in Fw, Ew. rewrite EN in Ew.
    split; [split; [exact Fw|]|].
    - set (t := B2R s / N) in *.
      assert (t0 : 0 <= t) by (apply Rmult_le_pos; [exact s0|apply Rlt_le, Rinv_0_lt_compat; lra]).
      assert (R1 : Rabs (B2R w - t) <= u * t + eta).
      { rewrite Ew. pose proof (rnd_err prec emax t) as R1. rewrite (Rabs_pos_eq t) in R1 by auto. exact R1. }
      set (c := S / N).
      assert (c0 : 0 <= c) by (apply Rmult_le_pos; [exact S0|apply Rlt_le, Rinv_0_lt_compat; lra]).
      assert (R2 : Rabs (t - c) <= (P * q ^ 3 - 1) * c + P * eta).
      { unfold t, c. replace (B2R s / N - S / N) with ((B2R s - S) * / N) by (field; lra).
        rewrite Rabs_mult, (Rabs_pos_eq (/ N)) by (apply Rlt_le, Rinv_0_lt_compat; lra).
        apply Rle_trans with (((P - 1) * S + P * ((q ^ 3 - 1) * S + N * eta)) * / N).
        - apply Rmult_le_compat_r; [apply Rlt_le, Rinv_0_lt_compat; lra|exact Ss].
        - right. field. lra. }
      assert (Ec : c = v + (mu - M) ^ 2) by (unfold c; rewrite ES; field; lra).
      set (h := (mu - M) ^ 2) in *. assert (h0 : 0 <= h) by apply pow2_ge_0.
      assert (tc : t <= P * q ^ 3 * c + P * eta) by (apply Rabs_le_inv in R2; lra).
      unfold var_bound. fold q D. rewrite D3.
      assert (B1 : Rabs (B2R w - c) <= (D * q ^ 3 - 1) * c + (D + 1) * eta).
      { replace (B2R w - c) with ((B2R w - t) + (t - c)) by ring. eapply Rle_trans; [apply Rabs_triang|].
        assert (u * t <= u * (P * q ^ 3 * c + P * eta)) by (apply Rmult_le_compat_l; lra).
        rewrite <- PD. unfold q in *.
        replace ((P * (1 + u) * (1 + u) ^ 3 - 1) * c + (P * (1 + u) + 1) * eta)
          with (u * (P * (1 + u) ^ 3 * c + P * eta) + eta + ((P * (1 + u) ^ 3 - 1) * c + P * eta)) by ring. lra. }
      replace (B2R w - v) with ((B2R w - c) + h) by (rewrite Ec; ring).
      eapply Rle_trans; [apply Rabs_triang|]. rewrite (Rabs_pos_eq h) by auto.
      assert (K1 : 1 <= D * q ^ 3) by nra.
      assert (K2 : D * q ^ 3 * h <= D * q ^ 3 * e ^ 2) by (apply Rmult_le_compat_l; lra).
      replace ((D * q ^ 3 - 1) * c) with ((D * q ^ 3 - 1) * v + D * q ^ 3 * h - h) in B1 by (rewrite Ec; ring).
      lra.
    - rewrite Ew. replace 0 with (rnd 0) by apply (round_0 radix2 fexp ZnearestE). apply (rnd_le prec emax).
      apply Rmult_le_pos; [exact s0|apply Rlt_le, Rinv_0_lt_compat; lra].
  Qed.

  Lemma sqrt_sub : forall a b, 0 <= a -> 0 <= b -> Rabs (sqrt a - sqrt b) <= sqrt (Rabs (a - b)).
  Proof.
    assert (H : forall a b, 0 <= a -> 0 <= b -> a <= b -> sqrt b - sqrt a <= sqrt (b - a)).
    { intros a b Ha Hb L. apply Rsqr_incr_0_var; [|apply sqrt_pos].
      rewrite Rsqr_sqrt by lra. unfold Rsqr.
      assert (sqrt a <= sqrt b) by (apply sqrt_le_1_alt; auto).
      pose proof (sqrt_sqrt a Ha). pose proof (sqrt_sqrt b Hb). pose proof (sqrt_pos a). nra. }
    intros a b Ha Hb. destruct (Rle_dec a b) as [L|L].
    - rewrite Rabs_minus_sym, (Rabs_minus_sym a b). rewrite !Rabs_pos_eq; [apply H; auto|lra|].
      assert (sqrt a <= sqrt b) by (apply sqrt_le_1_alt; auto). lra.
    - assert (L' : b <= a) by lra. rewrite !Rabs_pos_eq; [apply H; auto|lra|].
      assert (sqrt b <= sqrt a) by (apply sqrt_le_1_alt; auto). lra.
  Qed.

  Lemma std_within : forall (w : flt) v b, within prec emax b v w -> 0 <= B2R w -> 0 <= v ->
    within prec emax (u * sqrt (v + b) + sqrt b) (sqrt v) (Bsqrt mode_NE w).
  Proof.
    intros w v b (F & S) Pw Pv. destruct (sqrt_err prec emax w F Pw) as (Fq & Sq). split; [exact Fq|].
    pose proof (u_pos prec) as Pu.
    replace (_ - _) with ((B2R (Bsqrt mode_NE w) - sqrt (B2R w)) + (sqrt (B2R w) - sqrt v)) by ring.
    eapply Rle_trans; [apply Rabs_triang|]. apply Rplus_le_compat.
    - eapply Rle_trans; [exact Sq|]. apply Rmult_le_compat_l; [lra|]. apply sqrt_le_1_alt. apply Rabs_le_inv in S. lra.
    - eapply Rle_trans; [apply sqrt_sub; auto|]. apply sqrt_le_1_alt. exact S.
  Qed.
End FloatGradFacts.
