From Coq Require Import ZArith Reals List Bool Lia Lra Psatz.
From Flocq Require Import Core BinarySingleNaN Relative Plus_error.
From Verif Require Import Base Scalar RealScalar Float FloatSpec FloatFacts FloatSumSpec FloatSumFacts.
Import ListNotations.
Open Scope R_scope.

Section FloatNorm.
  Context (prec emax : Z) {Hprec : Prec_gt_0 prec} {Hmax : Prec_lt_emax prec emax}.
  Notation flt := (binary_float prec emax).
  Notation sc := (Fsc prec emax).
  Notation u := (unit_roundoff prec).
  Notation eta := (half_tiny prec emax).
  Notation fexp := (FLT_exp (3 - emax - prec) prec).
  Notation rnd := (round radix2 fexp ZnearestE).

  Lemma u_half : u <= / 2.
  Proof using Hprec.
    unfold unit_roundoff. pose proof Hprec as P. unfold Prec_gt_0 in P.
    assert (bpow radix2 (- prec + 1) <= 1) by (change 1 with (bpow radix2 0); apply bpow_le; lia). lra.
  Qed.

  (** Square roots never underflow. *)
  Lemma sqrt_err : forall v : flt, is_finite v = true -> 0 <= B2R v ->
    is_finite (Bsqrt mode_NE v) = true /\ Rabs (B2R (Bsqrt mode_NE v) - sqrt (B2R v)) <= u * sqrt (B2R v).
  Proof.
    intros v Fv Pv. destruct (Bsqrt_correct prec emax _ _ mode_NE v) as (E & F & _).
    change (SpecFloat.fexp prec emax) with fexp in E. cbn [round_mode] in E.
    destruct (Rle_lt_or_eq_dec _ _ Pv) as [Lt|Eq].
    - assert (St : is_finite_strict v = true /\ Bsign v = false).
      { destruct v as [s|s| |s m e B]; try discriminate; [cbn in Lt; lra|]. split; [reflexivity|].
        destruct s; [|reflexivity]. cbn [B2R] in Lt. exfalso. revert Lt. apply Rle_not_lt.
        apply F2R_le_0. cbn. lia. }
      destruct St as (St & Sg).
      assert (F' : is_finite (Bsqrt mode_NE v) = true).
      { rewrite F. destruct v as [s|s| |s m e B]; try discriminate. cbn in Sg. subst s. reflexivity. }
      split; [exact F'|]. rewrite E.
      pose proof (abs_B2R_ge_emin prec emax v St) as Ge. rewrite Rabs_pos_eq in Ge by lra.
      change (SpecFloat.emin prec emax) with (3 - emax - prec)%Z in Ge.
      assert (Sq : bpow radix2 (3 - emax - prec + prec - 1) <= Rabs (sqrt (B2R v))).
      { rewrite Rabs_pos_eq by apply sqrt_pos. replace (3 - emax - prec + prec - 1)%Z with (2 - emax)%Z by lia.
        rewrite <- (sqrt_square (bpow radix2 (2 - emax))) by (apply Rlt_le, bpow_gt_0). apply sqrt_le_1_alt.
        rewrite <- bpow_plus. eapply Rle_trans; [|exact Ge]. apply bpow_le.
        pose proof Hmax as M. unfold Prec_lt_emax in M. lia. }
      pose proof (relative_error_N_FLT radix2 (3 - emax - prec) prec Hprec (fun n => negb (Z.even n)) _ Sq) as Q.
      change (Znearest (fun n => negb (Z.even n))) with ZnearestE in Q. rewrite (Rabs_pos_eq (sqrt _)) in Q by apply sqrt_pos.
      exact Q.
    - rewrite <- Eq in *. rewrite sqrt_0 in *. split.
      + destruct v as [s|s| |s m e B]; try discriminate; [exact F|]. exfalso. symmetry in Eq. cbn [B2R] in Eq.
        apply (eq_0_F2R radix2) in Eq. destruct s; discriminate.
      + rewrite E, round_0 by apply valid_rnd_N. rewrite Rminus_0_r, Rabs_R0. lra.
  Qed.

  (** Relative errors of a quotient. *)
  Lemma quot_err : forall N D N' D', 0 < D -> Rabs (N' - N) <= u * Rabs N -> (1 - u) ^ 2 * D <= D' <= (1 + u) ^ 2 * D -> u < 1 ->
    Rabs (N' / D' - N / D) <= ((1 + u) / (1 - u) ^ 2 - 1) * Rabs (N / D).
  Proof.
    intros N D N' D' HD HN [H1 H2] Hu1. pose proof (u_pos prec) as Hu.
    assert (P1 : 0 < (1 - u) ^ 2) by (apply pow_lt; lra). assert (P2 : 0 < (1 + u) ^ 2) by (apply pow_lt; lra).
    assert (HD' : 0 < D') by (eapply Rlt_le_trans; [|exact H1]; apply Rmult_lt_0_compat; auto).
    assert (I1 : / D' <= / ((1 - u) ^ 2 * D)) by (apply Rinv_le_contravar; auto; apply Rmult_lt_0_compat; auto).
    assert (I2 : / ((1 + u) ^ 2 * D) <= / D') by (apply Rinv_le_contravar; auto).
    set (a := / ((1 - u) ^ 2)) in *. set (b := / ((1 + u) ^ 2)) in *. set (d := / D) in *.
    assert (Pd : 0 < d) by (apply Rinv_0_lt_compat; auto).
    assert (Pa : 0 < a) by (apply Rinv_0_lt_compat; auto). assert (Pb : 0 < b) by (apply Rinv_0_lt_compat; auto).
    assert (E1 : / ((1 - u) ^ 2 * D) = a * d) by (unfold a, d; apply Rinv_mult).
    assert (E2 : / ((1 + u) ^ 2 * D) = b * d) by (unfold b, d; apply Rinv_mult).
    rewrite E1 in I1. rewrite E2 in I2.
    set (r := / D') in *. unfold Rdiv. fold a d r.
    rewrite Rabs_mult, (Rabs_pos_eq d) by lra.
    (* the deviation of r from d *)
    assert (AM : 2 <= (1 + u) * a + (1 - u) * b).
    { unfold a, b. apply Rmult_le_reg_r with ((1 - u) ^ 2 * (1 + u) ^ 2); [apply Rmult_lt_0_compat; auto|].
      replace (((1 + u) * / (1 - u) ^ 2 + (1 - u) * / (1 + u) ^ 2) * ((1 - u) ^ 2 * (1 + u) ^ 2))
        with ((1 + u) ^ 3 + (1 - u) ^ 3) by (field; split; lra).
      assert (U1 : 0 <= u * u) by nra. assert (U2 : u * u <= 1) by nra. assert (U3 : (u * u) * (u * u) <= u * u) by nra.
      cbn [pow]. generalize dependent (unit_roundoff prec). intros w. intros. nra. }
    apply Rabs_le. set (n := Rabs N) in *. assert (Hn : 0 <= n) by apply Rabs_pos.
    assert (B1 : Rabs N' <= (1 + u) * n).
    { replace N' with (N + (N' - N)) by ring. eapply Rle_trans; [apply Rabs_triang|]. fold n. lra. }
    apply Rabs_le_inv in HN. 
    assert (C : 0 <= N \/ N <= 0) by lra.
    assert (Pr : 0 < r) by (apply Rinv_0_lt_compat; auto).
    destruct C as [C|C].
    - assert (En : n = N) by (unfold n; apply Rabs_pos_eq; auto).
      assert (L : N' * r <= (1 + u) * n * (a * d)) by (apply Rmult_le_compat; nra).
      assert (G : (1 - u) * n * (b * d) <= N' * r) by (apply Rmult_le_compat; nra).
      assert (Z : 0 <= n * d) by nra.
      assert ((1 - u) * n * (b * d) >= (2 - (1 + u) * a) * (n * d)) by nra.
      rewrite <- En. split; nra.
    - assert (En : n = - N) by (unfold n; apply Rabs_left1; auto).
      assert (L : - N' * r <= (1 + u) * n * (a * d)) by (apply Rmult_le_compat; nra).
      assert (G : (1 - u) * n * (b * d) <= - N' * r) by (apply Rmult_le_compat; nra).
      assert (Z : 0 <= n * d) by nra.
      assert ((1 - u) * n * (b * d) >= (2 - (1 + u) * a) * (n * d)) by nra.
      replace N with (- n) by lra. split; nra.
  Qed.

  (** (x - m) / (sqrt v + e), the normaliser of batch_norm. *)
  Lemma norm_within : forall x m v e : flt,
    is_finite x = true -> is_finite m = true -> is_finite v = true -> is_finite e = true -> 0 <= B2R v -> 0 < B2R e -> u < / 2 ->
    let num := B2R x - B2R m in let den := sqrt (B2R v) + B2R e in
    let k := (1 + u) ^ 2 / (1 - u) ^ 2 in
    in_range prec emax num -> (1 + u) ^ 2 * den < bpow radix2 emax -> k * Rabs (num / den) + eta < bpow radix2 emax ->
    within prec emax ((k - 1) * Rabs (num / den) + eta) (num / den)
      (Bdiv mode_NE (Bminus mode_NE x m) (Bplus mode_NE (Bsqrt mode_NE v) e)).
  Proof.
    intros x m v e Fx Fm Fv Fe Pv Pe Hu2 num den k R1 R2 R3. pose proof (u_pos prec) as Hu. pose proof (eta_pos prec emax) as He.
    destruct (sub_within prec emax x m Fx Fm R1) as (Fn & En). fold num in En.
    destruct (sqrt_err v Fv Pv) as (Fs & Es). pose proof (sqrt_pos (B2R v)) as Ps.
    set (s := sqrt (B2R v)) in *. apply Rabs_le_inv in Es.
    pose proof (rnd_plus_err prec emax (Bsqrt mode_NE v) e) as Ep.
    set (s' := Bsqrt mode_NE v) in *. set (w := B2R s' + B2R e) in *.
    assert (W : (1 - u) * den <= w <= (1 + u) * den) by (unfold w, den; nra).
    assert (Pden : 0 < den) by (unfold den; lra). assert (Pw : 0 < w) by nra.
    rewrite (Rabs_pos_eq w) in Ep by lra. apply Rabs_le_inv in Ep.
    assert (D1 : (1 - u) ^ 2 * den <= rnd w) by nra. assert (D2 : rnd w <= (1 + u) ^ 2 * den) by nra.
    assert (P1 : 0 < (1 - u) ^ 2) by (apply pow_lt; lra).
    assert (Pr : 0 < rnd w) by (eapply Rlt_le_trans; [|exact D1]; apply Rmult_lt_0_compat; auto).
    destruct (fadd_ok prec emax s' e Fs Fe) as (Fd & Ed); [fold w; rewrite Rabs_pos_eq; lra|]. fold w in Ed.
    pose proof (quot_err num den (B2R (Bminus mode_NE x m)) (rnd w) Pden En (conj D1 D2) ltac:(lra)) as Q.
    set (nu := Bminus mode_NE x m) in *. set (de := Bplus mode_NE s' e) in *.
    pose proof (rnd_err prec emax (B2R nu / rnd w)) as Er.
    set (c := (1 + u) / (1 - u) ^ 2) in *. assert (Ek : k = (1 + u) * c) by (unfold k, c; field; lra).
    assert (A : Rabs (B2R nu / rnd w) <= c * Rabs (num / den)).
    { replace (B2R nu / rnd w) with (num / den + (B2R nu / rnd w - num / den)) by ring.
      eapply Rle_trans; [apply Rabs_triang|]. lra. }
    assert (A' : u * Rabs (B2R nu / rnd w) <= u * (c * Rabs (num / den))) by (apply Rmult_le_compat_l; lra).
    destruct (fdiv_ok prec emax nu de Fn) as (F & E); rewrite ?Ed.
    - lra.
    - replace (rnd (B2R nu / rnd w)) with (B2R nu / rnd w + (rnd (B2R nu / rnd w) - B2R nu / rnd w)) by ring.
      eapply Rle_lt_trans; [apply Rabs_triang|]. rewrite Ek in R3. lra.
    - split; [exact F|]. rewrite E, Ed, Ek.
      replace (rnd (B2R nu / rnd w) - num / den)
        with ((rnd (B2R nu / rnd w) - B2R nu / rnd w) + (B2R nu / rnd w - num / den)) by ring.
      eapply Rle_trans; [apply Rabs_triang|]. lra.
  Qed.
End FloatNorm.
