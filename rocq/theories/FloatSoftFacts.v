From Coq Require Import ZArith Reals List Bool Lia Lra Psatz.
From Flocq Require Import Core BinarySingleNaN Relative Plus_error.
From Verif Require Import Base Scalar RealScalar Float FloatSpec FloatFacts FloatSumSpec FloatSumFacts FloatSoftSpec.
Import ListNotations.
Open Scope R_scope.

Section FloatSoft.
  Context (prec emax : Z) {Hprec : Prec_gt_0 prec} {Hmax : Prec_lt_emax prec emax}.
  Notation flt := (binary_float prec emax).
  Notation sc := (Fsc prec emax).
  Notation u := (unit_roundoff prec).
  Notation eta := (half_tiny prec emax).
  Notation fexp := (FLT_exp (3 - emax - prec) prec).
  Notation rnd := (round radix2 fexp ZnearestE).

  Lemma sumR_ext : forall {A} (l : list A) f g, (forall a, In a l -> f a = g a) -> sum_over Rsc l f = sum_over Rsc l g.
  Proof using.
    intros A l f g. induction l as [|a l IH] using rev_ind; intros H; [reflexivity|]. rewrite !sumR_snoc.
    rewrite IH by (intros; apply H, in_or_app; auto). rewrite (H a); [reflexivity|]. apply in_or_app; right; left; auto.
  Qed.
  Lemma sumR_le : forall {A} (l : list A) f g, (forall a, In a l -> f a <= g a) -> sum_over Rsc l f <= sum_over Rsc l g.
  Proof using.
    intros A l f g. induction l as [|a l IH] using rev_ind; intros H; [apply Rle_refl|]. rewrite !sumR_snoc.
    assert (sum_over Rsc l f <= sum_over Rsc l g) by (apply IH; intros; apply H, in_or_app; auto).
    assert (f a <= g a) by (apply H, in_or_app; right; left; auto). lra.
  Qed.
  Lemma sumR_scale : forall {A} (l : list A) c f, sum_over Rsc l (fun a => c * f a) = c * sum_over Rsc l f.
  Proof using.
    intros A l c f. induction l as [|a l IH] using rev_ind; [cbn; ring|]. rewrite !sumR_snoc, IH. ring.
  Qed.
  Lemma sumR_const : forall {A} (l : list A) c, sum_over Rsc l (fun _ => c) = INR (length l) * c.
  Proof using.
    intros A l c. induction l as [|a l IH] using rev_ind; [cbn; ring|].
    rewrite sumR_snoc, IH, app_length, plus_INR. cbn. ring.
  Qed.
  Lemma sumR_pick : forall {A} (l : list A) f a, In a l -> (forall b, In b l -> 0 <= f b) -> f a <= sum_over Rsc l f.
  Proof using.
    intros A l f a. induction l as [|b l IH] using rev_ind; intros Ha Hf; [destruct Ha|]. rewrite sumR_snoc.
    assert (Hl : 0 <= sum_over Rsc l f).
    { rewrite <- (Rmult_0_r (INR (length l))), <- (sumR_const l 0). apply sumR_le. intros c Hc. apply Hf, in_or_app; auto. }
    assert (Hb : 0 <= f b) by (apply Hf, in_or_app; right; left; auto).
    apply in_app_or in Ha. destruct Ha as [Ha|[<-|[]]]; [|lra].
    assert (f a <= sum_over Rsc l f) by (apply IH; auto; intros; apply Hf, in_or_app; auto). lra.
  Qed.

  Context (exp_ : flt -> flt) (d B : R) (Hd : 0 <= d < 1) (HB : 0 <= B).
  Context (EA : exp_acc prec emax d ((1 + u) * B) exp_).

  (** One exponential. *)
  Lemma exp_term : forall x y : flt, is_finite x = true -> is_finite y = true -> Rabs (B2R x - B2R y) <= B ->
    in_range prec emax B ->
    let t := exp_ (Bminus mode_NE x y) in let e := exp (B2R x - B2R y) in
    is_finite t = true /\ (1 - d) * exp (- (u * B)) * e <= B2R t <= (1 + d) * exp (u * B) * e.
  Proof.
    intros x y Fx Fy HD HR t e. pose proof (u_pos prec) as Hu.
    assert (R1 : in_range prec emax (B2R x - B2R y)).
    { unfold in_range in *. rewrite (Rabs_pos_eq B) in HR by auto. eapply Rle_lt_trans; [|exact HR].
      apply Rplus_le_compat_r. apply Rmult_le_compat_l; lra. }
    destruct (sub_within prec emax x y Fx Fy R1) as (F & E).
    set (z := Bminus mode_NE x y) in *. set (r := B2R x - B2R y) in *.
    assert (E' : Rabs (B2R z - r) <= u * B) by (eapply Rle_trans; [exact E|]; apply Rmult_le_compat_l; lra).
    destruct (EA z F) as (Ft & Et).
    { replace (B2R z) with (r + (B2R z - r)) by ring. eapply Rle_trans; [apply Rabs_triang|]. lra. }
    split; [exact Ft|]. fold t in Et. apply Rabs_le_inv in Et. apply Rabs_le_inv in E'.
    assert (X1 : exp (B2R z) <= exp (u * B) * e).
    { unfold e. rewrite <- exp_plus. apply exp_le. lra. }
    assert (X2 : exp (- (u * B)) * e <= exp (B2R z)).
    { unfold e. rewrite <- exp_plus. apply exp_le. lra. }
    pose proof (exp_pos (B2R z)) as P. split; nra.
  Qed.

  (** The denominator. *)
  Lemma soft_sum : forall {A} (l : list A) (f : A -> flt) (y : flt),
    (forall a, In a l -> is_finite (f a) = true /\ Rabs (B2R (f a) - B2R y) <= B) -> is_finite y = true ->
    in_range prec emax B ->
    let E := sum_over Rsc l (fun a => exp (B2R (f a) - B2R y)) in
    soft_hi prec d B (length l) * E < bpow radix2 emax ->
    (1 + u) ^ Nat.pred (length l) < 2 ->
    let s := sum_over sc l (fun a => exp_ (Bminus mode_NE (f a) y)) in
    is_finite s = true /\ soft_lo prec d B (length l) * E <= B2R s <= soft_hi prec d B (length l) * E.
  Proof.
    intros A l f y Hl Fy HR E HO HQ s. pose proof (u_pos prec) as Hu.
    set (t := fun a => exp_ (Bminus mode_NE (f a) y)).
    assert (Ht : forall a, In a l -> is_finite (t a) = true /\
      (1 - d) * exp (- (u * B)) * exp (B2R (f a) - B2R y) <= B2R (t a) <= (1 + d) * exp (u * B) * exp (B2R (f a) - B2R y)).
    { intros a Ha. destruct (Hl a Ha) as (Fa & Da). apply exp_term; auto. }
    set (lo := (1 - d) * exp (- (u * B))) in *. set (hi := (1 + d) * exp (u * B)) in *.
    assert (Plo : 0 <= lo) by (unfold lo; pose proof (exp_pos (- (u * B))); nra).
    assert (S1 : lo * E <= sum_over Rsc l (fun a => B2R (t a))).
    { unfold E. rewrite <- sumR_scale. apply sumR_le. intros a Ha. apply Ht; auto. }
    assert (S2 : sum_over Rsc l (fun a => B2R (t a)) <= hi * E).
    { unfold E. rewrite <- sumR_scale. apply sumR_le. intros a Ha. apply Ht; auto. }
    assert (SA : sum_over Rsc l (fun a => Rabs (B2R (t a))) = sum_over Rsc l (fun a => B2R (t a))).
    { apply sumR_ext. intros a Ha. apply Rabs_pos_eq. destruct (Ht a Ha) as (_ & Q & _).
      pose proof (exp_pos (B2R (f a) - B2R y)). nra. }
    pose proof (pow_ge1 prec (Nat.pred (length l))) as Q1.
    assert (EH : soft_hi prec d B (length l) = hi * (1 + u) ^ Nat.pred (length l)) by reflexivity.
    assert (EL : soft_lo prec d B (length l) = lo * (2 - (1 + u) ^ Nat.pred (length l))) by reflexivity.
    rewrite EH, EL in *. set (q := (1 + u) ^ Nat.pred (length l)) in *.
    set (T := sum_over Rsc l (fun a => B2R (t a))) in *.
    destruct (sum_approx prec emax l t) as (Fs & Es).
    - intros a Ha. apply Ht; auto.
    - unfold sum_fits. fold q. rewrite SA. eapply Rle_lt_trans; [|exact HO].
      replace (hi * q * E) with (q * (hi * E)) by ring. apply Rmult_le_compat_l; lra.
    - split; [exact Fs|]. rewrite SA in Es. unfold sum_bound in Es. fold q T s in Es. apply Rabs_le_inv in Es.
      change (sum_over sc l t) with s in Es.
      assert (q * T <= q * (hi * E)) by (apply Rmult_le_compat_l; lra).
      assert ((2 - q) * (lo * E) <= (2 - q) * T) by (apply Rmult_le_compat_l; lra). split; nra.
  Qed.

  (** The quotient 1 / denominator approximates the probability [p]. *)
  Lemma soft_quot : forall (s : flt) lo hi E, is_finite s = true -> 0 < lo -> 1 <= E -> lo * E <= B2R s <= hi * E ->
    (1 + u) / lo + eta < bpow radix2 emax ->
    is_finite (Bdiv mode_NE Bone s) = true /\
    (1 - u) / hi * / E - eta <= B2R (Bdiv mode_NE Bone s) <= (1 + u) / lo * / E + eta.
  Proof.
    intros s lo hi E Fs Plo HE [H1 H2] HO. pose proof (u_pos prec) as Hu. pose proof (eta_pos prec emax) as He.
    assert (Hu1 : u <= / 2).
    { unfold unit_roundoff. pose proof Hprec as P. unfold Prec_gt_0 in P.
      assert (bpow radix2 (- prec + 1) <= 1) by (change 1 with (bpow radix2 0); apply bpow_le; lia). lra. }
    assert (PE : 0 < / E) by (apply Rinv_0_lt_compat; lra). assert (LE : / E <= 1) by (rewrite <- Rinv_1; apply Rinv_le_contravar; lra).
    assert (P1 : 0 < lo * E) by nra. assert (Ps : 0 < B2R s) by lra.
    assert (Phi : 0 < hi) by nra.
    assert (I1 : / B2R s <= / lo * / E) by (rewrite <- Rinv_mult; apply Rinv_le_contravar; auto).
    assert (I2 : / hi * / E <= / B2R s) by (rewrite <- Rinv_mult; apply Rinv_le_contravar; auto).
    assert (Pl : 0 < / lo) by (apply Rinv_0_lt_compat; auto). assert (Ph : 0 < / hi) by (apply Rinv_0_lt_compat; auto).
    pose proof (rnd_err prec emax (/ B2R s)) as Er.
    assert (Pis : 0 < / B2R s) by (apply Rinv_0_lt_compat; auto).
    rewrite (Rabs_pos_eq (/ B2R s)) in Er by lra. pose proof Er as Er'. apply Rabs_le_inv in Er.
    assert (Up : rnd (/ B2R s) <= (1 + u) / lo * / E + eta).
    { assert ((1 + u) * / B2R s <= (1 + u) * (/ lo * / E)) by (apply Rmult_le_compat_l; lra). unfold Rdiv. lra. }
    assert (Dn : (1 - u) / hi * / E - eta <= rnd (/ B2R s)).
    { assert ((1 - u) * (/ hi * / E) <= (1 - u) * / B2R s) by (apply Rmult_le_compat_l; lra). unfold Rdiv. lra. }
    assert (Nn : 0 <= rnd (/ B2R s)).
    { rewrite <- (round_0 radix2 fexp ZnearestE). apply rnd_le; auto. lra. }
    destruct (fdiv_ok prec emax Bone s) as (F & Ev).
    - apply is_finite_Bone.
    - lra.
    - rewrite Bone_correct. unfold Rdiv. rewrite Rmult_1_l. rewrite Rabs_pos_eq by auto. eapply Rle_lt_trans; [exact Up|].
      assert ((1 + u) / lo * / E <= (1 + u) / lo * 1) by (apply Rmult_le_compat_l; [apply Rmult_le_pos; lra|lra]). lra.
    - rewrite Bone_correct in Ev. unfold Rdiv in Ev. rewrite Rmult_1_l in Ev. rewrite Ev. auto.
  Qed.

  (** Taking the maximum with eps. *)
  Lemma smax_val : forall e q : flt, is_finite e = true -> is_finite q = true ->
    is_finite (if Bltb e q then q else e) = true /\ B2R (if Bltb e q then q else e) = Rmax (B2R e) (B2R q).
  Proof using.
    intros e q Fe Fq. rewrite Bltb_correct by auto. destruct (Rlt_bool_spec (B2R e) (B2R q)).
    - rewrite Rmax_right by lra. auto.
    - rewrite Rmax_left by lra. auto.
  Qed.
End FloatSoft.

(** Accurate functions exist: rounding the exact values. *)
Section Exists.
  Context (prec emax : Z) {Hprec : Prec_gt_0 prec} {Hmax : Prec_lt_emax prec emax}.
  Notation flt := (binary_float prec emax).
  Notation u := (unit_roundoff prec).
  Notation fexp := (FLT_exp (3 - emax - prec) prec).
  Notation rnd := (round radix2 fexp ZnearestE).

  Definition of_real (r : R) : flt :=
    binary_normalize prec emax _ _ mode_NE (Ztrunc (scaled_mantissa radix2 fexp (rnd r))) (cexp radix2 fexp (rnd r)) false.

  Lemma of_real_ok : forall r, Rabs (rnd r) < bpow radix2 emax -> is_finite (of_real r) = true /\ B2R (of_real r) = rnd r.
  Proof.
    intros r H. unfold of_real.
    assert (G : generic_format radix2 fexp (rnd r)) by (apply generic_format_round; [apply FLT_exp_valid; auto|apply valid_rnd_N]).
    assert (E : F2R (Float radix2 (Ztrunc (scaled_mantissa radix2 fexp (rnd r))) (cexp radix2 fexp (rnd r))) = rnd r)
      by (symmetry; exact G).
    pose proof (binary_normalize_correct prec emax _ _ mode_NE (Ztrunc (scaled_mantissa radix2 fexp (rnd r)))
      (cexp radix2 fexp (rnd r)) false) as C.
    change (SpecFloat.fexp prec emax) with fexp in C. cbn [round_mode] in C. cbv zeta in C. rewrite E in C.
    rewrite (round_generic radix2 fexp ZnearestE (rnd r)) in C; [|exact G].
    rewrite Rlt_bool_true in C by exact H. destruct C as (C1 & C2 & _). auto.
  Qed.

  Lemma exp_acc_exists : forall D, 0 <= D -> exp D * (1 + u) < bpow radix2 emax -> bpow radix2 (2 - emax) <= exp (- D) ->
    exp_acc prec emax u D (fun x => of_real (exp (B2R x))).
  Proof.
    intros D HD H1 H2 x Fx Hx. apply Rabs_le_inv in Hx. pose proof (u_pos prec) as Hu. pose proof (exp_pos (B2R x)) as P.
    assert (L : exp (B2R x) <= exp D) by (apply exp_le; lra).
    assert (G : exp (- D) <= exp (B2R x)) by (apply exp_le; lra).
    assert (E : Rabs (rnd (exp (B2R x)) - exp (B2R x)) <= u * exp (B2R x)).
    { pose proof (relative_error_N_FLT radix2 (3 - emax - prec) prec Hprec (fun n => negb (Z.even n)) (exp (B2R x))) as Q.
      change (Znearest (fun n => negb (Z.even n))) with ZnearestE in Q. rewrite (Rabs_pos_eq (exp _)) in Q by lra.
      apply Q. replace (3 - emax - prec + prec - 1)%Z with (2 - emax)%Z by lia. lra. }
    destruct (of_real_ok (exp (B2R x))) as (F & V).
    - replace (rnd (exp (B2R x))) with (exp (B2R x) + (rnd (exp (B2R x)) - exp (B2R x))) by ring.
      eapply Rle_lt_trans; [apply Rabs_triang|]. rewrite (Rabs_pos_eq (exp _)) by lra. nra.
    - split; [exact F|]. rewrite V. exact E.
  Qed.
End Exists.
