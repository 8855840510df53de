From Coq Require Import ZArith Reals List Bool Lia Lra Psatz.
From Flocq Require Import Core BinarySingleNaN Relative Plus_error.
From Verif Require Import Base Scalar RealScalar Float FloatSpec FloatFacts FloatSumSpec.
Import ListNotations.
Open Scope R_scope.

Section FloatSum.
  Context (prec emax : Z) {Hprec : Prec_gt_0 prec} {Hmax : Prec_lt_emax prec emax}.
  Notation flt := (binary_float prec emax).
  Notation sc := (Fsc prec emax).
  Notation u := (unit_roundoff prec).
  Notation eta := (half_tiny prec emax).
  Notation fexp := (FLT_exp (3 - emax - prec) prec).
  Notation rnd := (round radix2 fexp ZnearestE).

  Lemma fsub_ok : forall x y : flt, is_finite x = true -> is_finite y = true ->
    Rabs (rnd (B2R x - B2R y)) < bpow radix2 emax ->
    is_finite (Bminus mode_NE x y) = true /\ B2R (Bminus mode_NE x y) = rnd (B2R x - B2R y).
  Proof using.
    intros x y Fx Fy H. pose proof (Bminus_correct prec emax _ _ mode_NE x y Fx Fy) as C.
    change (SpecFloat.fexp prec emax) with fexp in C. cbn [round_mode] in C.
    rewrite Rlt_bool_true in C by exact H. destruct C as (C1 & C2 & _). auto.
  Qed.

  Lemma fdiv_ok : forall x y : flt, is_finite x = true -> B2R y <> 0 ->
    Rabs (rnd (B2R x / B2R y)) < bpow radix2 emax ->
    is_finite (Bdiv mode_NE x y) = true /\ B2R (Bdiv mode_NE x y) = rnd (B2R x / B2R y).
  Proof using.
    intros x y Fx Ny H. pose proof (Bdiv_correct prec emax _ _ mode_NE x y Ny) as C.
    change (SpecFloat.fexp prec emax) with fexp in C. cbn [round_mode] in C.
    rewrite Rlt_bool_true in C by exact H. destruct C as (C1 & C2 & _). rewrite Fx in C2. auto.
  Qed.

  Lemma fofZ_ok : forall z, (Z.abs z <= 2 ^ prec)%Z -> integral prec emax (sofZ sc z) z.
  Proof.
    intros z Hz. cbn [sofZ Fsc].
    pose proof (binary_normalize_correct prec emax _ _ mode_NE z 0 false) as C.
    change (SpecFloat.fexp prec emax) with fexp in C. cbn [round_mode] in C.
    replace (F2R (Float radix2 z 0)) with (IZR z) in C by (unfold F2R; cbn; ring).
    rewrite integral_rnd in C by auto.
    rewrite Rlt_bool_true in C by (apply (integral_small prec emax); auto). destruct C as (C1 & C2 & _). split; auto.
  Qed.

  Lemma rnd_B2R : forall x : flt, rnd (B2R x) = B2R x.
  Proof using. intros x. apply round_generic; [apply valid_rnd_N|apply generic_format_B2R]. Qed.

  Lemma rnd_le : forall a b, a <= b -> rnd a <= rnd b.
  Proof using Hprec. intros. apply round_le; auto; [apply FLT_exp_valid; auto|apply valid_rnd_N]. Qed.

  Lemma rnd_abs_le : forall a (x : flt), Rabs a <= Rabs (B2R x) -> Rabs (rnd a) <= Rabs (B2R x).
  Proof using Hprec.
    intros a x H. apply abs_round_le_generic; auto; [apply FLT_exp_valid; auto|apply valid_rnd_N|].
    apply generic_format_abs, generic_format_B2R.
  Qed.

  Lemma finite_lt : forall x : flt, Rabs (B2R x) < bpow radix2 emax.
  Proof using. intros. apply abs_B2R_lt_emax. Qed.

  (** ** Sums *)
  Lemma sum_snoc : forall {A} (l : list A) a f, sum_over sc (l ++ [a]) f = Bplus mode_NE (sum_over sc l f) (f a).
  Proof using. intros. unfold sum_over. rewrite fold_left_app. reflexivity. Qed.

  Lemma sum_approx : forall {A} (l : list A) (f : A -> flt),
    (forall a, In a l -> is_finite (f a) = true) ->
    sum_fits prec emax (length l) (sum_over Rsc l (fun a => Rabs (B2R (f a)))) ->
    sums prec emax l (fun a => B2R (f a)) (sum_over sc l f).
  Proof.
    intros A l f. unfold sums, within, sum_fits, sum_bound.
    induction l as [|a l IH] using rev_ind; intros HF HO.
    - cbn. split; [reflexivity|]. rewrite Rminus_0_r, Rabs_R0. lra.
    - assert (HT : 0 <= sum_over Rsc l (fun a => Rabs (B2R (f a)))) by (apply sumR_nonneg; intros; apply Rabs_pos).
      rewrite app_length, Nat.add_comm in *. cbn [length plus Nat.pred] in *. rewrite !sumR_snoc in *.
      assert (Fa : is_finite (f a) = true) by (apply HF, in_or_app; right; left; auto).
      pose proof (u_pos prec) as Hu. rewrite sum_snoc.
      destruct l as [|b l0] eqn:El.
      + clear IH HO. change (sum_over sc [] f) with (B754_zero false : flt).
        destruct (fadd_ok prec emax (B754_zero false) (f a) eq_refl Fa) as (F0 & E0).
        { cbn [B2R]. rewrite Rplus_0_l, rnd_B2R. apply finite_lt. }
        split; [exact F0|]. rewrite E0. cbn [B2R length Nat.pred pow]. rewrite Rplus_0_l, rnd_B2R.
        change (sum_over Rsc [] (fun a => B2R (f a))) with 0. rewrite Rplus_0_l, Rminus_diag_eq by reflexivity.
        rewrite Rabs_R0. lra.
      + rewrite <- El in *. assert (Ln : length l = S (length l0)) by (rewrite El; reflexivity).
        clear El. rewrite Ln in *. cbn [Nat.pred] in *.
        set (T := sum_over Rsc l (fun a => Rabs (B2R (f a)))) in *.
        pose proof (sumR_abs l (fun a => B2R (f a))) as HS. cbv beta in HS. fold T in HS.
        set (s := sum_over Rsc l (fun a => B2R (f a))) in *.
        set (t := Rabs (B2R (f a))) in *. assert (Ht : 0 <= t) by apply Rabs_pos.
        pose proof (pow_ge1 prec (length l0)) as Q. set (q := (1 + u) ^ length l0) in *.
        assert (Eq : (1 + u) ^ S (length l0) = (1 + u) * q) by reflexivity. rewrite Eq in *.
        assert (P0 : q * T <= (1 + u) * q * (T + t)) by (apply Rmult_le_compat; nra).
        destruct IH as (F & E); [intros c Hc; apply HF, in_or_app; auto|lra|].
        set (r := sum_over sc l f) in *.
        assert (Br : Rabs (B2R r) <= q * T).
        { replace (B2R r) with (s + (B2R r - s)) by ring. eapply Rle_trans; [apply Rabs_triang|]. nra. }
        pose proof (rnd_plus_err prec emax r (f a)) as Ea.
        assert (Ab : Rabs (B2R r + B2R (f a)) <= q * T + t) by (eapply Rle_trans; [apply Rabs_triang|]; fold t; lra).
        assert (Ea' : Rabs (rnd (B2R r + B2R (f a)) - (B2R r + B2R (f a))) <= u * (q * T + t)).
        { eapply Rle_trans; [exact Ea|]. apply Rmult_le_compat_l; lra. }
        assert (Er : Rabs (rnd (B2R r + B2R (f a)) - (s + B2R (f a))) <= ((1 + u) * q - 1) * (T + t)).
        { replace (rnd (B2R r + B2R (f a)) - (s + B2R (f a)))
            with ((rnd (B2R r + B2R (f a)) - (B2R r + B2R (f a))) + (B2R r - s)) by ring.
          eapply Rle_trans; [apply Rabs_triang|].
          assert (u * t <= ((1 + u) * q - 1) * t) by (apply Rmult_le_compat_r; nra). nra. }
        assert (Or : Rabs (rnd (B2R r + B2R (f a))) < bpow radix2 emax).
        { replace (rnd (B2R r + B2R (f a))) with ((s + B2R (f a)) + (rnd (B2R r + B2R (f a)) - (s + B2R (f a)))) by ring.
          eapply Rle_lt_trans; [apply Rabs_triang|].
          assert (Rabs (s + B2R (f a)) <= T + t) by (eapply Rle_trans; [apply Rabs_triang|]; fold t; lra). nra. }
        destruct (fadd_ok prec emax r (f a) F Fa Or) as (Fs & Es). split; [exact Fs|]. rewrite Es. exact Er.
  Qed.

  (** ** Means *)
  Lemma fdiv_n : forall (x : flt) n, is_finite x = true -> (1 <= n <= 2 ^ prec)%Z ->
    is_finite (Bdiv mode_NE x (sofZ sc n)) = true /\ B2R (Bdiv mode_NE x (sofZ sc n)) = rnd (B2R x / IZR n).
  Proof.
    intros x n Fx Hn. destruct (fofZ_ok n ltac:(lia)) as (_ & En). rewrite <- En.
    assert (P : 1 <= IZR n) by (apply IZR_le; lia).
    apply fdiv_ok; auto; [rewrite En; lra|].
    eapply Rle_lt_trans; [|apply (finite_lt x)]. apply rnd_abs_le. rewrite En. unfold Rdiv.
    rewrite Rabs_mult, Rabs_inv, (Rabs_pos_eq (IZR n)) by lra.
    rewrite <- (Rmult_1_r (Rabs (B2R x))) at 2. apply Rmult_le_compat_l; [apply Rabs_pos|].
    rewrite <- Rinv_1. apply Rinv_le_contravar; lra.
  Qed.

  Lemma mean_approx : forall {A} (l : list A) (f : A -> flt) n, n = Z.of_nat (length l) -> (1 <= n <= 2 ^ prec)%Z ->
    (forall a, In a l -> is_finite (f a) = true) ->
    sum_fits prec emax (length l) (sum_over Rsc l (fun a => Rabs (B2R (f a)))) ->
    means prec emax l (fun a => B2R (f a)) (Bdiv mode_NE (sum_over sc l f) (sofZ sc n)).
  Proof.
    intros A l f n En Hn HF HO. destruct (sum_approx l f HF HO) as (F & E).
    destruct (fdiv_n (sum_over sc l f) n F Hn) as (Fd & Ed). split; [exact Fd|]. rewrite Ed.
    assert (EN : INR (length l) = IZR n) by (rewrite En; apply INR_IZR_INZ). rewrite EN.
    destruct (length l) as [|k] eqn:Lk; [lia|]. unfold sum_bound in E. cbn [Nat.pred] in E.
    pose proof (pow_ge1 prec k) as Q. pose proof (u_pos prec) as Hu.
    change ((1 + u) ^ S k) with ((1 + u) * (1 + u) ^ k). set (q := (1 + u) ^ k) in *.
    assert (HT : 0 <= sum_over Rsc l (fun a => Rabs (B2R (f a)))) by (apply sumR_nonneg; intros; apply Rabs_pos).
    pose proof (sumR_abs l (fun a => B2R (f a))) as HS. cbv beta in HS.
    set (T := sum_over Rsc l (fun a => Rabs (B2R (f a)))) in *.
    set (s := sum_over Rsc l (fun a => B2R (f a))) in *. set (r := B2R (sum_over sc l f)) in *.
    assert (P : 1 <= IZR n) by (apply IZR_le; lia). set (N := IZR n) in *.
    assert (Br : Rabs r <= q * T).
    { replace r with (s + (r - s)) by ring. eapply Rle_trans; [apply Rabs_triang|]. nra. }
    assert (PN : 0 < / N) by (apply Rinv_0_lt_compat; lra).
    pose proof (rnd_err prec emax (r / N)) as Er.
    assert (A1 : Rabs (r / N) = Rabs r * / N).
    { unfold Rdiv. rewrite Rabs_mult, (Rabs_pos_eq (/ N)) by lra. reflexivity. }
    rewrite A1 in Er.
    assert (A2 : Rabs (r / N - s / N) <= (q - 1) * T * / N).
    { replace (r / N - s / N) with ((r - s) * / N) by (unfold Rdiv; ring). rewrite Rabs_mult, (Rabs_pos_eq (/ N)) by lra.
      apply Rmult_le_compat_r; lra. }
    assert (A3 : Rabs r * / N <= q * T * / N) by (apply Rmult_le_compat_r; lra).
    replace (rnd (r / N) - s / N) with ((rnd (r / N) - r / N) + (r / N - s / N)) by ring.
    eapply Rle_trans; [apply Rabs_triang|]. unfold Rdiv at 4.
    assert (A4 : u * (Rabs r * / N) <= u * (q * T * / N)) by (apply Rmult_le_compat_l; lra).
    replace (((1 + u) * q - 1) * (T * / N)) with ((q - 1) * T * / N + u * (q * T * / N)) by ring. lra.
  Qed.

  (** Integers are summed exactly and averaged with a single rounding. *)
  Lemma sum_exact : forall {A} (l : list A) (f : A -> flt) z,
    (forall a, In a l -> integral prec emax (f a) (z a)) ->
    (sum_over Zsc l (fun a => Z.abs (z a)) <= 2 ^ prec)%Z ->
    integral prec emax (sum_over sc l f) (sum_over Zsc l z).
  Proof.
    intros A l f z. induction l as [|a l IH] using rev_ind; intros H B; [split; reflexivity|].
    rewrite sumZ_snoc in *. pose proof (sumZ_abs l z) as Q. rewrite sum_snoc.
    apply integral_add; [apply IH; [intros; apply H, in_or_app; auto|lia]| |lia].
    apply H, in_or_app; right; left; auto.
  Qed.

  (** ** Single operations *)
  Lemma in_range_rnd : forall r, in_range prec emax r -> Rabs (rnd r) < bpow radix2 emax.
  Proof.
    intros r H. unfold in_range in H. pose proof (rnd_err prec emax r) as E.
    replace (rnd r) with (r + (rnd r - r)) by ring. eapply Rle_lt_trans; [apply Rabs_triang|]. lra.
  Qed.

  Lemma add_within : forall x y : flt, is_finite x = true -> is_finite y = true -> in_range prec emax (B2R x + B2R y) ->
    within prec emax (u * Rabs (B2R x + B2R y)) (B2R x + B2R y) (Bplus mode_NE x y).
  Proof.
    intros x y Fx Fy H. destruct (fadd_ok prec emax x y Fx Fy (in_range_rnd _ H)) as (F & E).
    split; [exact F|]. rewrite E. apply (rnd_plus_err prec emax).
  Qed.

  Lemma rnd_minus_err : forall x y : flt, Rabs (rnd (B2R x - B2R y) - (B2R x - B2R y)) <= u * Rabs (B2R x - B2R y).
  Proof.
    intros x y. pose proof (rnd_plus_err prec emax x (Bopp y)) as E. rewrite B2R_Bopp in E. exact E.
  Qed.

  Lemma sub_within : forall x y : flt, is_finite x = true -> is_finite y = true -> in_range prec emax (B2R x - B2R y) ->
    within prec emax (u * Rabs (B2R x - B2R y)) (B2R x - B2R y) (Bminus mode_NE x y).
  Proof.
    intros x y Fx Fy H. destruct (fsub_ok x y Fx Fy (in_range_rnd _ H)) as (F & E).
    split; [exact F|]. rewrite E. apply rnd_minus_err.
  Qed.

  Lemma mul_within : forall x y : flt, is_finite x = true -> is_finite y = true -> in_range prec emax (B2R x * B2R y) ->
    within prec emax (u * Rabs (B2R x * B2R y) + eta) (B2R x * B2R y) (Bmult mode_NE x y).
  Proof.
    intros x y Fx Fy H. destruct (fmul_ok prec emax x y Fx Fy (in_range_rnd _ H)) as (F & E).
    split; [exact F|]. rewrite E. apply (rnd_err prec emax).
  Qed.

  Lemma div_within : forall x y : flt, is_finite x = true -> B2R y <> 0 -> in_range prec emax (B2R x / B2R y) ->
    within prec emax (u * Rabs (B2R x / B2R y) + eta) (B2R x / B2R y) (Bdiv mode_NE x y).
  Proof.
    intros x y Fx Ny H. destruct (fdiv_ok x y Fx Ny (in_range_rnd _ H)) as (F & E).
    split; [exact F|]. rewrite E. apply (rnd_err prec emax).
  Qed.

  (** Adding a number to an approximate value. *)
  Lemma add_approx : forall (v y : flt) r b, within prec emax b r v -> is_finite y = true ->
    (1 + u) * (Rabs (r + B2R y) + b) < bpow radix2 emax ->
    within prec emax (u * Rabs (r + B2R y) + (1 + u) * b) (r + B2R y) (Bplus mode_NE v y).
  Proof.
    intros v y r b (Fv & Ev) Fy H. pose proof (u_pos prec) as Hu.
    pose proof (rnd_plus_err prec emax v y) as E.
    assert (A1 : Rabs (B2R v + B2R y) <= Rabs (r + B2R y) + b).
    { replace (B2R v + B2R y) with ((r + B2R y) + (B2R v - r)) by ring. eapply Rle_trans; [apply Rabs_triang|]. lra. }
    assert (A2 : u * Rabs (B2R v + B2R y) <= u * (Rabs (r + B2R y) + b)) by (apply Rmult_le_compat_l; lra).
    destruct (fadd_ok prec emax v y Fv Fy) as (F & E').
    { replace (rnd (B2R v + B2R y)) with ((B2R v + B2R y) + (rnd (B2R v + B2R y) - (B2R v + B2R y))) by ring.
      eapply Rle_lt_trans; [apply Rabs_triang|]. lra. }
    split; [exact F|]. rewrite E'.
    replace (rnd (B2R v + B2R y) - (r + B2R y)) with ((rnd (B2R v + B2R y) - (B2R v + B2R y)) + (B2R v - r)) by ring.
    eapply Rle_trans; [apply Rabs_triang|]. lra.
  Qed.

  (** ** Monotonicity *)
  Lemma fits_prefix : forall {A} (l : list A) a (f : A -> R), (forall b, 0 <= f b) ->
    sum_fits prec emax (length (l ++ [a])) (sum_over Rsc (l ++ [a]) f) -> sum_fits prec emax (length l) (sum_over Rsc l f).
  Proof.
    intros A l a f Hf H. unfold sum_fits in *. rewrite app_length, Nat.add_comm, sumR_snoc in H. cbn [length plus Nat.pred] in H.
    pose proof (sumR_nonneg l f Hf) as HT. specialize (Hf a). pose proof (u_pos prec) as Hu.
    eapply Rle_lt_trans; [|exact H]. pose proof (pow_ge1 prec (Nat.pred (length l))) as Q.
    apply Rmult_le_compat; [lra|exact HT| |lra]. apply Rle_pow; [lra|lia].
  Qed.

  Lemma sum_mono : forall {A} (l : list A) (f g : A -> flt),
    (forall a, In a l -> is_finite (f a) = true /\ is_finite (g a) = true /\ B2R (f a) <= B2R (g a)) ->
    sum_fits prec emax (length l) (sum_over Rsc l (fun a => Rabs (B2R (f a)))) ->
    sum_fits prec emax (length l) (sum_over Rsc l (fun a => Rabs (B2R (g a)))) ->
    B2R (sum_over sc l f) <= B2R (sum_over sc l g).
  Proof.
    intros A l f g. induction l as [|a l IH] using rev_ind; intros H Of Og; [apply Rle_refl|].
    assert (Pf := fits_prefix l a _ (fun b => Rabs_pos _) Of). assert (Pg := fits_prefix l a _ (fun b => Rabs_pos _) Og).
    assert (IH' : B2R (sum_over sc l f) <= B2R (sum_over sc l g)) by (apply IH; auto; intros; apply H, in_or_app; auto).
    destruct (H a) as (Fa & Ga & La); [apply in_or_app; right; left; auto|].
    destruct (sum_approx l f) as (F1 & _); [intros; apply H, in_or_app; auto|exact Pf|].
    destruct (sum_approx l g) as (F2 & _); [intros; apply H, in_or_app; auto|exact Pg|].
    destruct (sum_approx (l ++ [a]) f) as (F3 & _); [intros; apply H; auto|exact Of|].
    destruct (sum_approx (l ++ [a]) g) as (F4 & _); [intros; apply H; auto|exact Og|].
    rewrite sum_snoc in F3, F4. rewrite !sum_snoc.
    assert (P : forall x y : flt, is_finite x = true -> is_finite y = true -> is_finite (Bplus mode_NE x y) = true ->
      B2R (Bplus mode_NE x y) = rnd (B2R x + B2R y)).
    { intros x y Fx Fy F. pose proof (Bplus_correct prec emax _ _ mode_NE x y Fx Fy) as C.
      change (SpecFloat.fexp prec emax) with fexp in C. cbn [round_mode] in C.
      destruct (Rlt_bool _ _); [exact (proj1 C)|]. destruct C as (C & _).
      destruct (Bplus mode_NE x y); try discriminate; destruct (Bsign x); discriminate. }
    rewrite !P by auto. apply rnd_le. lra.
  Qed.
End FloatSum.
