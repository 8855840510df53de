From Coq Require Import ZArith Reals List Bool Lia Lra Psatz.
From Flocq Require Import Core BinarySingleNaN Relative Plus_error.
From Verif Require Import Base Scalar RealScalar Float FloatSpec.
Import ListNotations.
Open Scope R_scope.

Section Float.
  Context (prec emax : Z) {Hprec : Prec_gt_0 prec} {Hmax : Prec_lt_emax prec emax}.
  Notation flt := (binary_float prec emax).
  Notation sc := (Fsc prec emax).
  Notation u := (unit_roundoff prec).
  Notation eta := (half_tiny prec emax).
  Notation fexp := (FLT_exp (3 - emax - prec) prec).
  Notation rnd := (round radix2 fexp ZnearestE).

  Lemma u_pos : 0 < u.
  Proof using. unfold unit_roundoff. apply Rmult_lt_0_compat; [lra|apply bpow_gt_0]. Qed.
  Lemma eta_pos : 0 < eta.
  Proof using. unfold half_tiny. apply Rmult_lt_0_compat; [lra|apply bpow_gt_0]. Qed.

  Lemma rnd_err : forall x, Rabs (rnd x - x) <= u * Rabs x + eta.
  Proof using Hprec.
    intros x. destruct (error_N_FLT radix2 (3 - emax - prec) prec Hprec (fun n => negb (Z.even n)) x)
      as (d & h & Hd & Hh & _ & E). change (Znearest (fun n => negb (Z.even n))) with ZnearestE in E. rewrite E.
    replace (x * (1 + d) + h - x) with (d * x + h) by ring.
    eapply Rle_trans; [apply Rabs_triang|]. rewrite Rabs_mult.
    apply Rplus_le_compat; [|exact Hh]. apply Rmult_le_compat_r; [apply Rabs_pos|exact Hd].
  Qed.

  Lemma rnd_plus_err : forall x y : flt, Rabs (rnd (B2R x + B2R y) - (B2R x + B2R y)) <= u * Rabs (B2R x + B2R y).
  Proof using Hprec.
    intros x y. destruct (FLT_plus_error_N_ex radix2 (3 - emax - prec) prec (fun n => negb (Z.even n)) (B2R x) (B2R y))
      as (d & Hd & E); try apply generic_format_B2R.
    change (Znearest (fun n => negb (Z.even n))) with ZnearestE in E. rewrite E.
    replace ((B2R x + B2R y) * (1 + d) - (B2R x + B2R y)) with (d * (B2R x + B2R y)) by ring.
    rewrite Rabs_mult. apply Rmult_le_compat_r; [apply Rabs_pos|]. eapply Rle_trans; [exact Hd|].
    unfold u_ro. fold u. pose proof u_pos. apply Rmult_le_reg_r with (1 + u); [lra|].
    unfold Rdiv. rewrite Rmult_assoc, Rinv_l by lra. nra.
  Qed.

  Lemma fmul_ok : forall x y : flt, is_finite x = true -> is_finite y = true ->
    Rabs (rnd (B2R x * B2R y)) < bpow radix2 emax ->
    is_finite (Bmult mode_NE x y) = true /\ B2R (Bmult mode_NE x y) = rnd (B2R x * B2R y).
  Proof using.
    intros x y Fx Fy H. pose proof (Bmult_correct prec emax _ _ mode_NE x y) as C.
    change (SpecFloat.fexp prec emax) with fexp in C. cbn [round_mode] in C.
    rewrite Rlt_bool_true in C by exact H. destruct C as (C1 & C2 & _). rewrite Fx, Fy in C2. auto.
  Qed.

  Lemma fadd_ok : forall x y : flt, is_finite x = true -> is_finite y = true ->
    Rabs (rnd (B2R x + B2R y)) < bpow radix2 emax ->
    is_finite (Bplus mode_NE x y) = true /\ B2R (Bplus mode_NE x y) = rnd (B2R x + B2R y).
  Proof using.
    intros x y Fx Fy H. pose proof (Bplus_correct prec emax _ _ mode_NE x y Fx Fy) as C.
    change (SpecFloat.fexp prec emax) with fexp in C. cbn [round_mode] in C.
    rewrite Rlt_bool_true in C by exact H. destruct C as (C1 & C2 & _). auto.
  Qed.

  Lemma sumR_snoc : forall {A} l (a : A) f, sum_over Rsc (l ++ [a]) f = sum_over Rsc l f + f a.
  Proof using. intros. unfold sum_over. rewrite fold_left_app. reflexivity. Qed.

  Lemma sumR_nonneg : forall {A} (l : list A) f, (forall a, 0 <= f a) -> 0 <= sum_over Rsc l f.
  Proof using.
    intros A l f H. induction l as [|a l IH] using rev_ind; [cbn; lra|]. rewrite sumR_snoc. specialize (H a). lra.
  Qed.

  Lemma sumR_abs : forall {A} (l : list A) f, Rabs (sum_over Rsc l f) <= sum_over Rsc l (fun a => Rabs (f a)).
  Proof using.
    intros A l f. induction l as [|a l IH] using rev_ind; [cbn; rewrite Rabs_R0; lra|]. rewrite !sumR_snoc.
    eapply Rle_trans; [apply Rabs_triang|]. lra.
  Qed.

  Lemma pow_ge1 : forall n, 1 <= (1 + u) ^ n.
  Proof using. intros n. apply pow_R1_Rle. pose proof u_pos. lra. Qed.

  (** One step of the recurrence. *)
  Lemma step_bound : forall n T t, 0 <= T -> 0 <= t -> (n = O -> T = 0) ->
    (n = O /\ u * t + eta <= dot_bound prec emax (S n) (T + t)) \/
    (1 + u) * (dot_bound prec emax n T + (u * t + eta)) + u * (T + t) <= dot_bound prec emax (S n) (T + t).
  Proof using.
    intros n T t HT Ht H0. unfold dot_bound. pose proof u_pos as Hu. pose proof eta_pos as He.
    destruct n as [|n].
    - left. split; [reflexivity|]. rewrite H0 by reflexivity. cbn [pow INR]. nra.
    - right. pose proof (pow_ge1 n) as Q. rewrite (S_INR (S n)). pose proof (pos_INR (S n)) as HN.
      set (N := INR (S n)) in *. cbn [pow]. set (q := (1 + u) ^ n) in *.
      assert (P1 : (2 * u + u * u) * t <= ((1 + u) * ((1 + u) * q) - 1) * t).
      { apply Rmult_le_compat_r; [lra|]. nra. }
      assert (P2 : (1 + u) * eta <= eta * ((1 + u) * ((1 + u) * q))).
      { rewrite (Rmult_comm (1 + u) eta). apply Rmult_le_compat_l; [lra|]. nra. }
      nra.
  Qed.

  Lemma bound_mono : forall n T t, 0 <= T -> 0 <= t ->
    T + dot_bound prec emax n T <= T + t + dot_bound prec emax (S n) (T + t).
  Proof using.
    intros n T t HT Ht. unfold dot_bound. pose proof u_pos as Hu. pose proof eta_pos as He.
    pose proof (pow_ge1 n) as Q. rewrite S_INR. pose proof (pos_INR n) as HN. set (N := INR n) in *.
    cbn [pow]. set (q := (1 + u) ^ n) in *.
    assert (P0 : q <= (1 + u) * q) by nra.
    assert (P1 : q * T <= (1 + u) * q * (T + t)) by (apply Rmult_le_compat; lra).
    assert (P2 : 0 <= N * eta) by nra.
    assert (P3 : N * eta * q <= (N + 1) * eta * ((1 + u) * q)).
    { apply Rmult_le_compat; lra. }
    lra.
  Qed.

  Lemma dot_approx : forall {A} (l : list A) (f g : A -> flt),
    (forall a, In a l -> is_finite (f a) = true /\ is_finite (g a) = true) ->
    no_overflow prec emax (length l) (sum_over Rsc l (fun a => Rabs (B2R (f a) * B2R (g a)))) ->
    approximates prec emax l (fun a => B2R (f a)) (fun a => B2R (g a)) (sum_over sc l (fun a => smul sc (f a) (g a))).
  Proof.
    intros A l f g. unfold approximates, no_overflow.
    induction l as [|a l IH] using rev_ind; intros HF HO.
    - cbn. split; [reflexivity|]. unfold dot_bound. cbn. rewrite Rminus_0_r, Rabs_R0. lra.
    - assert (HT : 0 <= sum_over Rsc l (fun a => Rabs (B2R (f a) * B2R (g a)))) by (apply sumR_nonneg; intros; apply Rabs_pos).
      rewrite app_length, Nat.add_comm in *. cbn [length plus] in *. rewrite !sumR_snoc in *.
      set (T := sum_over Rsc l (fun a => Rabs (B2R (f a) * B2R (g a)))) in *.
      pose proof (sumR_abs l (fun a => B2R (f a) * B2R (g a))) as HS. cbv beta in HS. fold T in HS.
      set (S := sum_over Rsc l (fun a => B2R (f a) * B2R (g a))) in *.
      set (p := B2R (f a) * B2R (g a)) in *. set (t := Rabs p) in *. assert (Ht : 0 <= t) by apply Rabs_pos.
      pose proof (bound_mono (length l) T t HT Ht) as HB.
      destruct IH as (F & E); [intros b Hb; apply HF, in_or_app; auto|lra|].
      destruct (HF a) as (Fa & Ga); [apply in_or_app; right; left; auto|].
      assert (HN : length l = O -> T = 0 /\ l = []) by (intros Q; apply length_zero_iff_nil in Q; subst l; auto).
      assert (HD : forall n x, 0 <= x -> 0 <= dot_bound prec emax n x).
      { intros n x Hx. unfold dot_bound. pose proof (pow_ge1 n). pose proof eta_pos. pose proof (pos_INR n).
        assert (0 <= INR n * eta) by nra. nra. }
      pose proof u_pos as Hu. pose proof eta_pos as He.
      pose proof (rnd_err p) as Ep. fold t in Ep.
      assert (Bp : u * t + eta <= dot_bound prec emax (Datatypes.S (length l)) (T + t)).
      { destruct (step_bound (length l) T t HT Ht ltac:(intros Q; apply HN; exact Q)) as [[_ Q]|Q]; [exact Q|].
        pose proof (HD (length l) T HT). nra. }
      assert (Op : Rabs (rnd p) < bpow radix2 emax).
      { replace (rnd p) with (p + (rnd p - p)) by ring. eapply Rle_lt_trans; [apply Rabs_triang|]. fold t. lra. }
      destruct (fmul_ok (f a) (g a) Fa Ga Op) as (Fm & Em). fold p in Em.
      assert (ES : sum_over sc (l ++ [a]) (fun a => smul sc (f a) (g a))
        = Bplus mode_NE (sum_over sc l (fun a => smul sc (f a) (g a))) (Bmult mode_NE (f a) (g a))).
      { unfold sum_over. rewrite fold_left_app. reflexivity. }
      rewrite ES; clear ES. set (r := sum_over sc l (fun a => smul sc (f a) (g a))) in *.
      set (m := Bmult mode_NE (f a) (g a)) in *.
      assert (Er : Rabs (rnd (B2R r + B2R m) - (S + p)) <= dot_bound prec emax (Datatypes.S (length l)) (T + t)).
      { destruct (step_bound (length l) T t HT Ht ltac:(intros Q; apply HN; exact Q)) as [[Q0 Q]|Q].
        - destruct (HN Q0) as [_ El]. assert (Er0 : B2R r = 0) by (unfold r; rewrite El; reflexivity).
          assert (ES0 : S = 0) by (unfold S; rewrite El; reflexivity).
          rewrite Er0, ES0, !Rplus_0_l. rewrite round_generic; [|apply valid_rnd_N|apply generic_format_B2R].
          rewrite Em. lra.
        - pose proof (rnd_plus_err r m) as Ea.
          replace (rnd (B2R r + B2R m) - (S + p))
            with ((rnd (B2R r + B2R m) - (B2R r + B2R m)) + ((B2R r - S) + (B2R m - p))) by ring.
          rewrite Em in *.
          assert (Ab : Rabs (B2R r + rnd p) <= (T + t) + (dot_bound prec emax (length l) T + (u * t + eta))).
          { replace (B2R r + rnd p) with ((S + p) + ((B2R r - S) + (rnd p - p))) by ring.
            eapply Rle_trans; [apply Rabs_triang|].
            eapply Rplus_le_compat; [eapply Rle_trans; [apply Rabs_triang|]; fold t; lra|].
            eapply Rle_trans; [apply Rabs_triang|]. lra. }
          eapply Rle_trans; [apply Rabs_triang|].
          eapply Rle_trans; [apply Rplus_le_compat; [exact Ea|apply Rabs_triang]|].
          assert (u * Rabs (B2R r + rnd p) <= u * ((T + t) + (dot_bound prec emax (length l) T + (u * t + eta))))
            by (apply Rmult_le_compat_l; lra).
          nra. }
      assert (Or : Rabs (rnd (B2R r + B2R m)) < bpow radix2 emax).
      { replace (rnd (B2R r + B2R m)) with ((S + p) + (rnd (B2R r + B2R m) - (S + p))) by ring.
        eapply Rle_lt_trans; [apply Rabs_triang|].
        assert (Rabs (S + p) <= T + t) by (eapply Rle_trans; [apply Rabs_triang|]; fold t; lra). lra. }
      destruct (fadd_ok r m F Fm Or) as (Fs & Es). split; [exact Fs|]. rewrite Es. exact Er.
  Qed.

  (** *** Integers below 2^prec are exact *)
  Lemma integral_rnd : forall z, (Z.abs z <= 2 ^ prec)%Z -> rnd (IZR z) = IZR z.
  Proof.
    intros z Hz. apply round_generic; [apply valid_rnd_N|].
    pose proof Hprec as P. pose proof Hmax as M. unfold Prec_gt_0 in P. unfold Prec_lt_emax in M.
    destruct (Z.eq_dec z 0) as [->|Nz]; [apply generic_format_0|].
    destruct (Z.eq_dec (Z.abs z) (2 ^ prec)) as [E|E].
    - assert (B : generic_format radix2 fexp (bpow radix2 prec)).
      { apply generic_format_bpow. unfold FLT_exp. lia. }
      rewrite <- (IZR_Zpower radix2) in B by lia. change (Zpower radix2 prec) with (2 ^ prec)%Z in B.
      destruct (Z.abs_eq_or_opp z) as [Q|Q]; rewrite Q in E.
      + rewrite E. exact B.
      + replace z with (- 2 ^ prec)%Z by lia. rewrite opp_IZR. apply generic_format_opp. exact B.
    - replace (IZR z) with (F2R (Float radix2 z 0)) by (unfold F2R; cbn; ring).
      apply generic_format_F2R. intros _. unfold cexp, FLT_exp.
      assert (G : (mag radix2 (F2R (Float radix2 z 0)) <= prec)%Z).
      { replace (F2R (Float radix2 z 0)) with (IZR z) by (unfold F2R; cbn; ring).
        apply mag_le_bpow; [apply not_0_IZR; auto|]. rewrite <- abs_IZR, <- (IZR_Zpower radix2) by lia.
        change (Zpower radix2 prec) with (2 ^ prec)%Z. apply IZR_lt. lia. }
      lia.
  Qed.

  Lemma integral_small : forall z, (Z.abs z <= 2 ^ prec)%Z -> Rabs (IZR z) < bpow radix2 emax.
  Proof.
    intros z Hz. pose proof Hprec as P. pose proof Hmax as M. unfold Prec_gt_0 in P. unfold Prec_lt_emax in M.
    rewrite <- abs_IZR. eapply Rle_lt_trans; [apply IZR_le; exact Hz|].
    change (2 ^ prec)%Z with (Zpower radix2 prec). rewrite IZR_Zpower by lia. apply bpow_lt. lia.
  Qed.

  Lemma integral_mul : forall (a b : flt) x y, integral prec emax a x -> integral prec emax b y ->
    (Z.abs (x * y) <= 2 ^ prec)%Z -> integral prec emax (Bmult mode_NE a b) (x * y).
  Proof.
    intros a b x y (Fa & Ea) (Fb & Eb) H.
    destruct (fmul_ok a b Fa Fb) as (F & E); rewrite ?Ea, ?Eb in *; rewrite <- mult_IZR in *;
      rewrite ?integral_rnd in * by auto; [apply integral_small; auto|]. split; auto.
  Qed.

  Lemma integral_add : forall (a b : flt) x y, integral prec emax a x -> integral prec emax b y ->
    (Z.abs (x + y) <= 2 ^ prec)%Z -> integral prec emax (Bplus mode_NE a b) (x + y).
  Proof.
    intros a b x y (Fa & Ea) (Fb & Eb) H.
    destruct (fadd_ok a b Fa Fb) as (F & E); rewrite ?Ea, ?Eb in *; rewrite <- plus_IZR in *;
      rewrite ?integral_rnd in * by auto; [apply integral_small; auto|]. split; auto.
  Qed.

  Lemma sumZ_snoc : forall {A} l (a : A) f, sum_over Zsc (l ++ [a]) f = (sum_over Zsc l f + f a)%Z.
  Proof using. intros. unfold sum_over. rewrite fold_left_app. reflexivity. Qed.

  Lemma sumZ_abs : forall {A} (l : list A) f, (Z.abs (sum_over Zsc l f) <= sum_over Zsc l (fun a => Z.abs (f a)))%Z.
  Proof using.
    intros A l f. induction l as [|a l IH] using rev_ind; [reflexivity|]. rewrite !sumZ_snoc. lia.
  Qed.

  Lemma dot_exact : forall {A} (l : list A) (f g : A -> flt) x y,
    (forall a, In a l -> integral prec emax (f a) (x a) /\ integral prec emax (g a) (y a)) ->
    (sum_over Zsc l (fun a => Z.abs (x a * y a)) <= 2 ^ prec)%Z ->
    integral prec emax (sum_over sc l (fun a => smul sc (f a) (g a))) (sum_over Zsc l (fun a => x a * y a)%Z).
  Proof.
    intros A l f g x y. induction l as [|a l IH] using rev_ind; intros H B.
    - split; reflexivity.
    - rewrite sumZ_snoc in *. pose proof (sumZ_abs l (fun a => x a * y a)%Z) as Q. cbv beta in Q.
      destruct (H a) as [Hf Hg]; [apply in_or_app; right; left; auto|].
      assert (ES : sum_over sc (l ++ [a]) (fun a => smul sc (f a) (g a))
        = Bplus mode_NE (sum_over sc l (fun a => smul sc (f a) (g a))) (Bmult mode_NE (f a) (g a))).
      { unfold sum_over. rewrite fold_left_app. reflexivity. }
      rewrite ES. apply integral_add; [apply IH; [intros; apply H, in_or_app; auto|lia]| |lia].
      apply integral_mul; auto. lia.
  Qed.

  (** *** Comparison *)
  Definition key (v : flt) : R :=
    match v with
    | B754_infinity s => if s then - bpow radix2 emax else bpow radix2 emax
    | _ => B2R v
    end.

  Lemma ltb_key : forall a b : flt, is_nan a = false -> is_nan b = false -> Bltb a b = Rlt_bool (key a) (key b).
  Proof using.
    intros a b Na Nb.
    assert (Fin : forall v : flt, is_finite v = true -> key v = B2R v /\ - bpow radix2 emax < key v < bpow radix2 emax).
    { intros v Fv. assert (E : key v = B2R v) by (destruct v; [reflexivity|discriminate|discriminate|reflexivity]).
      split; [exact E|]. rewrite E. pose proof (abs_B2R_lt_emax prec emax v) as Q. apply Rabs_def2 in Q. lra. }
    pose proof (bpow_gt_0 radix2 emax) as Pe.
    destruct (is_finite a) eqn:Fa, (is_finite b) eqn:Fb.
    - rewrite Bltb_correct by auto. rewrite (proj1 (Fin a Fa)), (proj1 (Fin b Fb)). reflexivity.
    - destruct b as [|s| |]; try discriminate. pose proof (proj2 (Fin a Fa)) as Q. cbn [key].
      destruct a as [?|?| |? ? ? ?]; try discriminate; destruct s;
        first [rewrite Rlt_bool_true by lra | rewrite Rlt_bool_false by lra]; reflexivity.
    - destruct a as [|s| |]; try discriminate. pose proof (proj2 (Fin b Fb)) as Q. cbn [key].
      destruct b as [?|?| |? ? ? ?]; try discriminate; destruct s;
        first [rewrite Rlt_bool_true by lra | rewrite Rlt_bool_false by lra]; reflexivity.
    - destruct a as [|s| |]; try discriminate. destruct b as [|s'| |]; try discriminate. cbn [key].
      destruct s, s'; first [rewrite Rlt_bool_true by lra | rewrite Rlt_bool_false by lra]; reflexivity.
  Qed.

  Lemma ltb_nan_l : forall b : flt, Bltb B754_nan b = false.
  Proof using. intros b. destruct b; reflexivity. Qed.
  Lemma ltb_nan_r : forall a : flt, Bltb a B754_nan = false.
  Proof using. intros a. destruct a as [|[]| |]; reflexivity. Qed.

  Lemma nan_eq : forall a : flt, is_nan a = true -> a = B754_nan.
  Proof using. intros a. destruct a; try discriminate. reflexivity. Qed.

  (** *** Sums *)
  Lemma plus_nan_l : forall b : flt, Bplus mode_NE B754_nan b = B754_nan.
  Proof using. intros b. destruct b; reflexivity. Qed.
  Lemma plus_nan_r : forall a : flt, Bplus mode_NE a B754_nan = B754_nan.
  Proof using. intros a. destruct a; reflexivity. Qed.

  Lemma fold_nan : forall {A} (l : list A) f, fold_left (fun acc a => Bplus mode_NE acc (f a)) l (B754_nan : flt) = B754_nan.
  Proof using. intros A l f. induction l as [|a l IH]; [reflexivity|]. cbn [fold_left]. rewrite plus_nan_l. exact IH. Qed.

  Lemma sum_nan : forall {A} (l : list A) f a, In a l -> is_nan (f a) = true -> sum_over sc l f = B754_nan.
  Proof using.
    intros A l f a Ha Hn. unfold sum_over. cbn [sadd Fsc]. generalize (s0 sc).
    induction l as [|b l IH]; [destruct Ha|]. intros v. cbn [fold_left]. destruct Ha as [->|Ha].
    - rewrite (nan_eq _ Hn), plus_nan_r. apply fold_nan.
    - apply IH; auto.
  Qed.
End Float.
