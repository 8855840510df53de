(** Facts about conversions between binary formats. *)
From Coq Require Import ZArith Reals List Lia Lra Bool.
From Flocq Require Import Core BinarySingleNaN Double_rounding.
From Verif Require Import Base BaseFacts Scalar RealScalar Utility Float FloatSpec FloatFacts FloatSumFacts Mixed.
Open Scope Z_scope.

Section Cast.
  Context (p1 e1 p2 e2 : Z) {P1 : Prec_gt_0 p1} {M1 : Prec_lt_emax p1 e1} {P2 : Prec_gt_0 p2} {M2 : Prec_lt_emax p2 e2}.
  Notation rnd1 := (round radix2 (SpecFloat.fexp p1 e1) ZnearestE).
  Notation rnd2 := (round radix2 (SpecFloat.fexp p2 e2) ZnearestE).

  Lemma cast_correct : forall x : binary_float p1 e1, is_finite x = true ->
    if Rlt_bool (Rabs (rnd2 (B2R x))) (bpow radix2 e2)
    then B2R (cast p2 e2 x) = rnd2 (B2R x) /\ is_finite (cast p2 e2 x) = true /\ Bsign (cast p2 e2 x) = Bsign x
    else B2SF (cast p2 e2 x) = binary_overflow p2 e2 mode_NE (Bsign x).
  Proof.
    intros x Fx. destruct x as [s|s| |s m e B]; try discriminate.
    - cbn [B2R cast]. rewrite round_0 by typeclasses eauto. rewrite Rabs_R0, Rlt_bool_true by apply bpow_gt_0.
      split; [reflexivity|split; reflexivity].
    - cbn [cast]. pose proof (binary_normalize_correct p2 e2 _ _ mode_NE (cond_Zopp s (Zpos m)) e s) as H.
      cbv zeta in H. cbn [round_mode] in H.
      change (F2R {| Fnum := cond_Zopp s (Z.pos m); Fexp := e |}) with (B2R (B754_finite s m e B)) in H.
      set (x := B754_finite s m e B) in *.
      assert (C : (if s then B2R x < 0 else 0 < B2R x)%R).
      { unfold x. cbn [B2R]. destruct s.
        - apply F2R_lt_0. cbn. lia.
        - apply F2R_gt_0. cbn. lia. }
      destruct (Rlt_bool (Rabs (rnd2 (B2R x))) (bpow radix2 e2)).
      + destruct H as (H1 & H2 & H3). split; [exact H1|]. split; [exact H2|]. rewrite H3. cbn [Bsign x].
        destruct s; [rewrite Rcompare_Lt by exact C|rewrite Rcompare_Gt by exact C]; reflexivity.
      + rewrite H. cbn [Bsign x].
        destruct s; [rewrite Rlt_bool_true by exact C|rewrite Rlt_bool_false by lra]; reflexivity.
  Qed.

  Lemma cast_inf : forall s, cast p2 e2 (B754_infinity s : binary_float p1 e1) = B754_infinity s.
  Proof. reflexivity. Qed.

  (** A finite x of the wider format converts to v, when v is the rounding of the
      value with the sign of x, or the overflow. *)
  Lemma cast_eq : forall (x : binary_float p1 e1) (v : binary_float p2 e2) r, is_finite x = true ->
    rnd2 (B2R x) = r ->
    (if Rlt_bool (Rabs r) (bpow radix2 e2) then B2R v = r /\ is_finite v = true /\ Bsign v = Bsign x
     else B2SF v = binary_overflow p2 e2 mode_NE (Bsign x)) ->
    cast p2 e2 x = v.
  Proof.
    intros x v r Fx <- H. pose proof (cast_correct x Fx) as C.
    destruct (Rlt_bool (Rabs (rnd2 (B2R x))) (bpow radix2 e2)).
    - destruct C as (A & B & C), H as (A' & B' & C'). apply B2R_Bsign_inj; congruence.
    - apply B2SF_inj. congruence.
  Qed.
End Cast.

(** Format 2 is wide enough to round twice: double over float is. *)
Definition wide p1 e1 p2 e2 : Prop := 2 * p1 + 2 <= p2 /\ 2 * e1 + p1 <= e2.

Section Wide.
  Context (p1 e1 p2 e2 : Z) {P1 : Prec_gt_0 p1} {M1 : Prec_lt_emax p1 e1} {P2 : Prec_gt_0 p2} {M2 : Prec_lt_emax p2 e2}.
  Context (W : wide p1 e1 p2 e2).
  Notation rnd1 := (round radix2 (SpecFloat.fexp p1 e1) ZnearestE).
  Notation rnd2 := (round radix2 (SpecFloat.fexp p2 e2) ZnearestE).
  Notation up := (cast p2 e2) (only parsing).
  Notation down := (cast p1 e1) (only parsing).
  Notation emin1 := (3 - e1 - p1).
  Notation emin2 := (3 - e2 - p2).

  Lemma wide_facts : 0 < p1 /\ p1 < e1 /\ emin2 <= 2 * emin1 /\ emin2 <= emin1 - p1 - 2 /\ emin2 <= emin1 /\ 0 < p2.
  Proof. unfold Prec_gt_0, Prec_lt_emax in *. unfold wide in W. lia. Qed.

  Lemma wide_format : forall x, generic_format radix2 (SpecFloat.fexp p1 e1) x -> generic_format radix2 (SpecFloat.fexp p2 e2) x.
  Proof.
    intros x. apply generic_inclusion_mag. intros _. unfold SpecFloat.fexp, SpecFloat.emin.
    pose proof wide_facts. unfold wide in W. lia.
  Qed.

  Lemma flt1 : forall x : binary_float p1 e1, FLT_format radix2 emin1 p1 (B2R x).
  Proof. intros x. apply FLT_format_generic; [exact P1|]. apply (generic_format_B2R p1 e1 x). Qed.

  Lemma fmt_pow : forall e, emin2 <= e -> e < e2 -> generic_format radix2 (SpecFloat.fexp p2 e2) (bpow radix2 e).
  Proof. intros e H1 H2. apply generic_format_bpow. unfold SpecFloat.fexp, SpecFloat.emin. unfold Prec_gt_0 in *. lia. Qed.

  Lemma small2 : forall x e, emin2 <= e -> e < e2 -> (Rabs x <= bpow radix2 e)%R ->
    Rlt_bool (Rabs (rnd2 x)) (bpow radix2 e2) = true.
  Proof.
    intros x e H1 H2 H. apply Rlt_bool_true.
    apply Rle_lt_trans with (bpow radix2 e); [|apply bpow_lt; lia].
    apply abs_round_le_generic; [typeclasses eauto|typeclasses eauto|apply fmt_pow; lia|exact H].
  Qed.

  (** Widening keeps the value. *)
  Lemma up_ok : forall x : binary_float p1 e1, is_finite x = true ->
    B2R (up x) = B2R x /\ is_finite (up x) = true /\ Bsign (up x) = Bsign x.
  Proof.
    intros x Fx. pose proof (cast_correct p1 e1 p2 e2 x Fx) as C.
    rewrite (small2 (B2R x) e1) in C; [|pose proof wide_facts; unfold wide in W; lia ..|apply Rlt_le, abs_B2R_lt_emax].
    rewrite round_generic in C; [exact C|typeclasses eauto|apply wide_format, generic_format_B2R].
  Qed.

  Lemma down_up : forall x : binary_float p1 e1, down (up x) = x.
  Proof.
    intros x. destruct (is_finite x) eqn:Fx.
    - destruct (up_ok x Fx) as (A & B & C). apply cast_eq with (r := B2R x); [exact B| |].
      + rewrite A. apply round_generic; [typeclasses eauto|apply generic_format_B2R].
      + rewrite Rlt_bool_true by apply abs_B2R_lt_emax. auto.
    - destruct x; try discriminate; reflexivity.
  Qed.

  Lemma round_round_plus : forall x y : binary_float p1 e1, rnd1 (rnd2 (B2R x + B2R y)) = rnd1 (B2R x + B2R y)%R.
  Proof.
    intros x y. pose proof wide_facts. unfold wide in W.
    apply (round_round_plus_FLT radix2 emin1 p1 emin2 p2); try assumption; try lia; apply flt1.
  Qed.
  Lemma round_round_minus : forall x y : binary_float p1 e1, rnd1 (rnd2 (B2R x - B2R y)) = rnd1 (B2R x - B2R y)%R.
  Proof.
    intros x y. pose proof wide_facts. unfold wide in W.
    apply (round_round_minus_FLT radix2 emin1 p1 emin2 p2); try assumption; try lia; apply flt1.
  Qed.
  Lemma round_round_mult : forall x y : binary_float p1 e1, rnd1 (rnd2 (B2R x * B2R y)) = rnd1 (B2R x * B2R y)%R.
  Proof.
    intros x y. pose proof wide_facts. unfold wide in W.
    apply (round_round_mult_FLT radix2 _ emin1 p1 emin2 p2); try assumption; try lia; apply flt1.
  Qed.
  Lemma round_round_div : forall x y : binary_float p1 e1, B2R y <> 0%R -> rnd1 (rnd2 (B2R x / B2R y)) = rnd1 (B2R x / B2R y)%R.
  Proof.
    intros x y Hy. pose proof wide_facts. unfold wide in W.
    apply (round_round_div_FLT radix2 emin1 p1 emin2 p2); try assumption; try lia; try apply flt1.
    exists 1. reflexivity.
  Qed.
  Lemma round_round_sqrt : forall x : binary_float p1 e1, rnd1 (rnd2 (sqrt (B2R x))) = rnd1 (sqrt (B2R x)).
  Proof.
    intros x. pose proof wide_facts. unfold wide in W.
    apply (round_round_sqrt_FLT radix2 emin1 p1 emin2 p2); try assumption; try lia; try apply flt1.
  Qed.

  Lemma ge_tiny : forall x : binary_float p1 e1, B2R x <> 0%R -> (bpow radix2 emin1 <= Rabs (B2R x))%R.
  Proof. intros x H. apply (abs_B2R_ge_emin p1 e1 x). destruct x; try reflexivity; exfalso; apply H; reflexivity. Qed.

  Lemma sum_small : forall x y : binary_float p1 e1, (Rabs (B2R x + B2R y) <= bpow radix2 (e1 + 1))%R.
  Proof.
    intros x y. pose proof (abs_B2R_lt_emax p1 e1 x). pose proof (abs_B2R_lt_emax p1 e1 y).
    eapply Rle_trans; [apply Rabs_triang|]. rewrite bpow_plus_1. change (IZR radix2) with 2%R. lra.
  Qed.

  Lemma sign_val : forall p e (x : binary_float p e), is_finite x = true -> (if Bsign x then B2R x <= 0 else 0 <= B2R x)%R.
  Proof.
    intros p e x Fx. destruct x as [s|s| |s m ex B]; try discriminate; cbn [Bsign B2R].
    - destruct s; lra.
    - destruct s; [apply F2R_le_0|apply F2R_ge_0]; cbn; lia.
  Qed.

  (** One operation on operands of the narrow format, carried out in the wide
      format and rounded back, is that operation of the narrow format. *)
  Lemma plus_cast : forall x y : binary_float p1 e1, is_finite x = true -> is_finite y = true ->
    down (Bplus mode_NE (up x) (up y)) = Bplus mode_NE x y.
  Proof.
    intros x y Fx Fy. destruct (up_ok x Fx) as (Ax & Bx & Cx), (up_ok y Fy) as (Ay & By & Cy).
    pose proof (Bplus_correct p2 e2 _ _ mode_NE _ _ Bx By) as H. cbn [round_mode] in H. rewrite Ax, Ay, Cx, Cy in H.
    rewrite (small2 _ (e1 + 1)) in H; [|pose proof wide_facts; unfold wide in W; lia ..|apply sum_small].
    destruct H as (H1 & H2 & H3).
    pose proof (Bplus_correct p1 e1 _ _ mode_NE _ _ Fx Fy) as K. cbn [round_mode] in K.
    apply cast_eq with (r := rnd1 (B2R x + B2R y)%R); [exact H2|rewrite H1; apply round_round_plus|].
    rewrite H3. destruct (Rlt_bool (Rabs (rnd1 (B2R x + B2R y)%R)) (bpow radix2 e1)); [exact K|].
    destruct K as (K1 & K2). rewrite K1. f_equal. rewrite <- K2.
    pose proof (sign_val _ _ x Fx) as Sx. pose proof (sign_val _ _ y Fy) as Sy. rewrite <- K2 in Sy.
    destruct (Bsign x); destruct (Rcompare_spec (B2R x + B2R y) 0); try reflexivity; exfalso; lra.
  Qed.

  Lemma minus_cast : forall x y : binary_float p1 e1, is_finite x = true -> is_finite y = true ->
    down (Bminus mode_NE (up x) (up y)) = Bminus mode_NE x y.
  Proof.
    intros x y Fx Fy. destruct (up_ok x Fx) as (Ax & Bx & Cx), (up_ok y Fy) as (Ay & By & Cy).
    pose proof (Bminus_correct p2 e2 _ _ mode_NE _ _ Bx By) as H. cbn [round_mode] in H. rewrite Ax, Ay, Cx, Cy in H.
    rewrite (small2 _ (e1 + 1)) in H; [|pose proof wide_facts; unfold wide in W; lia ..|].
    2:{ pose proof (sum_small x (Bopp y)) as Q. rewrite B2R_Bopp in Q. exact Q. }
    destruct H as (H1 & H2 & H3).
    pose proof (Bminus_correct p1 e1 _ _ mode_NE _ _ Fx Fy) as K. cbn [round_mode] in K.
    apply cast_eq with (r := rnd1 (B2R x - B2R y)%R); [exact H2|rewrite H1; apply round_round_minus|].
    rewrite H3. destruct (Rlt_bool (Rabs (rnd1 (B2R x - B2R y)%R)) (bpow radix2 e1)); [exact K|].
    destruct K as (K1 & K2). rewrite K1. f_equal. rewrite <- K2.
    pose proof (sign_val _ _ x Fx) as Sx. pose proof (sign_val _ _ y Fy) as Sy. rewrite K2 in Sx |- *.
    destruct (Bsign y); cbn [negb] in *; destruct (Rcompare_spec (B2R x - B2R y) 0); try reflexivity; exfalso; lra.
  Qed.

  Lemma mult_cast : forall x y : binary_float p1 e1, is_finite x = true -> is_finite y = true ->
    down (Bmult mode_NE (up x) (up y)) = Bmult mode_NE x y.
  Proof.
    intros x y Fx Fy. destruct (up_ok x Fx) as (Ax & Bx & Cx), (up_ok y Fy) as (Ay & By & Cy).
    pose proof (Bmult_correct p2 e2 _ _ mode_NE (up x) (up y)) as H. cbn [round_mode] in H.
    rewrite Ax, Ay, Bx, By, Cx, Cy in H.
    rewrite (small2 _ (e1 + e1)) in H; [|pose proof wide_facts; unfold wide in W; lia ..|].
    2:{ rewrite Rabs_mult, bpow_plus. apply Rmult_le_compat; try apply Rabs_pos; apply Rlt_le, abs_B2R_lt_emax. }
    destruct H as (H1 & H2 & H3). cbn [andb] in H2. specialize (H3 ltac:(destruct (Bmult mode_NE (up x) (up y)); auto)).
    pose proof (Bmult_correct p1 e1 _ _ mode_NE x y) as K. cbn [round_mode] in K. rewrite Fx, Fy in K. cbn [andb] in K.
    apply cast_eq with (r := rnd1 (B2R x * B2R y)%R); [exact H2|rewrite H1; apply round_round_mult|].
    rewrite H3. destruct (Rlt_bool (Rabs (rnd1 (B2R x * B2R y)%R)) (bpow radix2 e1)); [|exact K].
    destruct K as (K1 & K2 & K3). split; [exact K1|]. split; [exact K2|]. apply K3. destruct (Bmult mode_NE x y); auto.
  Qed.

  Lemma div_cast : forall x y : binary_float p1 e1, is_finite x = true -> is_finite y = true -> B2R y <> 0%R ->
    down (Bdiv mode_NE (up x) (up y)) = Bdiv mode_NE x y.
  Proof.
    intros x y Fx Fy Ny. destruct (up_ok x Fx) as (Ax & Bx & Cx), (up_ok y Fy) as (Ay & By & Cy).
    pose proof (Bdiv_correct p2 e2 _ _ mode_NE (up x) (up y)) as H. cbn [round_mode] in H.
    rewrite Ax, Ay, Bx, Cx, Cy in H. specialize (H Ny).
    rewrite (small2 _ (e1 + - emin1)) in H; [|pose proof wide_facts; unfold wide in W; lia ..|].
    2:{ unfold Rdiv. rewrite Rabs_mult, bpow_plus, Rabs_inv, bpow_opp.
        pose proof (ge_tiny y Ny). pose proof (bpow_gt_0 radix2 emin1).
        apply Rmult_le_compat; [apply Rabs_pos|apply Rlt_le, Rinv_0_lt_compat; lra|apply Rlt_le, abs_B2R_lt_emax|].
        apply Rinv_le; assumption. }
    destruct H as (H1 & H2 & H3). specialize (H3 ltac:(destruct (Bdiv mode_NE (up x) (up y)); auto)).
    pose proof (Bdiv_correct p1 e1 _ _ mode_NE x y Ny) as K. cbn [round_mode] in K. rewrite Fx in K.
    apply cast_eq with (r := rnd1 (B2R x / B2R y)%R); [exact H2|rewrite H1; apply round_round_div; exact Ny|].
    rewrite H3. destruct (Rlt_bool (Rabs (rnd1 (B2R x / B2R y)%R)) (bpow radix2 e1)); [|exact K].
    destruct K as (K1 & K2 & K3). split; [exact K1|]. split; [exact K2|]. apply K3. destruct (Bdiv mode_NE x y); auto.
  Qed.

  (** The narrow square root is finite with a finite root, so it never overflows. *)
  Lemma sqrt_cast : forall x : binary_float p1 e1, is_finite x = true -> (0 <= B2R x)%R ->
    down (Bsqrt mode_NE (up x)) = Bsqrt mode_NE x.
  Proof.
    intros x Fx Nx. destruct (up_ok x Fx) as (Ax & Bx & Cx).
    assert (D : forall p e (z : binary_float p e), is_finite z = true -> (0 <= B2R z)%R ->
      match z with B754_zero _ | B754_finite false _ _ _ => true | _ => false end = true).
    { intros p e z Fz Nz. destruct z as [s|s| |s m ex B]; try discriminate; try reflexivity. destruct s; [|reflexivity].
      exfalso. cbn [B2R] in Nz. assert (F2R (Float radix2 (cond_Zopp true (Zpos m)) ex) < 0)%R by (apply F2R_lt_0; cbn; lia). lra. }
    destruct (Bsqrt_correct p2 e2 _ _ mode_NE (up x)) as (H1 & H2 & H3).
    rewrite (D _ _ (up x) Bx ltac:(rewrite Ax; exact Nx)) in H2.
    specialize (H3 ltac:(destruct (Bsqrt mode_NE (up x)); auto)). rewrite Ax in H1. rewrite Cx in H3.
    destruct (Bsqrt_correct p1 e1 _ _ mode_NE x) as (K1 & K2 & K3). rewrite (D _ _ x Fx Nx) in K2.
    specialize (K3 ltac:(destruct (Bsqrt mode_NE x); auto)). cbn [round_mode] in H1, K1.
    apply cast_eq with (r := rnd1 (sqrt (B2R x))); [exact H2|rewrite H1; apply round_round_sqrt|].
    rewrite <- K1, Rlt_bool_true by apply abs_B2R_lt_emax. rewrite H3. auto.
  Qed.
  (** The same for all operands, infinities and NaN included. *)
  Lemma up_finite : forall s m e B, exists m' e' B', up (B754_finite s m e B : binary_float p1 e1) = B754_finite s m' e' B'.
  Proof.
    intros s m e B. destruct (up_ok (B754_finite s m e B) eq_refl) as (H1 & H2 & H3).
    assert (N : B2R (B754_finite s m e B : binary_float p1 e1) <> 0%R).
    { cbn [B2R]. destruct s; [apply Rlt_not_eq, F2R_lt_0|apply Rgt_not_eq, F2R_gt_0]; cbn; lia. }
    destruct (up (B754_finite s m e B)) as [s'|s'| |s' m' e' B'] eqn:E; try discriminate.
    - exfalso. apply N. rewrite <- H1. reflexivity.
    - cbn [Bsign] in H3. subst s'. eauto.
  Qed.

  Ltac shape := repeat match goal with
    | |- context [cast p2 e2 (B754_finite ?s ?m ?e ?B)] =>
        destruct (up_finite s m e B) as (? & ? & ? & ->)
    end.

  Lemma plus_all : forall x y : binary_float p1 e1, down (Bplus mode_NE (up x) (up y)) = Bplus mode_NE x y.
  Proof.
    intros x y. destruct (is_finite x && is_finite y) eqn:F; [apply andb_prop in F; apply plus_cast; apply F|].
    destruct x as [s|s| |s m e B], y as [s'|s'| |s' m' e' B']; try discriminate F; shape; try reflexivity.
    cbn [cast Bplus]. destruct (Bool.eqb s s'); reflexivity.
  Qed.
  Lemma minus_all : forall x y : binary_float p1 e1, down (Bminus mode_NE (up x) (up y)) = Bminus mode_NE x y.
  Proof.
    intros x y. destruct (is_finite x && is_finite y) eqn:F; [apply andb_prop in F; apply minus_cast; apply F|].
    destruct x as [s|s| |s m e B], y as [s'|s'| |s' m' e' B']; try discriminate F; shape; try reflexivity.
    cbn [cast Bminus Bplus Bopp]. destruct (Bool.eqb s (negb s')); reflexivity.
  Qed.
  Lemma mult_all : forall x y : binary_float p1 e1, down (Bmult mode_NE (up x) (up y)) = Bmult mode_NE x y.
  Proof.
    intros x y. destruct (is_finite x && is_finite y) eqn:F; [apply andb_prop in F; apply mult_cast; apply F|].
    destruct x as [s|s| |s m e B], y as [s'|s'| |s' m' e' B']; try discriminate F; shape; reflexivity.
  Qed.
  Lemma div_all : forall x y : binary_float p1 e1, down (Bdiv mode_NE (up x) (up y)) = Bdiv mode_NE x y.
  Proof.
    intros x y. destruct (is_finite x && is_finite_strict y) eqn:F.
    - apply andb_prop in F. destruct F as [F G]. destruct y as [s'|s'| |s' m' e' B']; try discriminate G.
      apply div_cast; [exact F|reflexivity|]. cbn [B2R].
      destruct s'; [apply Rlt_not_eq, F2R_lt_0|apply Rgt_not_eq, F2R_gt_0]; cbn; lia.
    - destruct x as [s|s| |s m e B], y as [s'|s'| |s' m' e' B']; try discriminate F; shape; reflexivity.
  Qed.
  Lemma sqrt_all : forall x : binary_float p1 e1, down (Bsqrt mode_NE (up x)) = Bsqrt mode_NE x.
  Proof.
    intros x. destruct x as [s|s| |s m e B]; try (destruct s; reflexivity); try reflexivity.
    destruct s; [shape; reflexivity|]. apply sqrt_cast; [reflexivity|]. cbn [B2R]. apply F2R_ge_0. cbn. lia.
  Qed.
  Lemma lt_all : forall x y : binary_float p1 e1, Bltb (up x) (up y) = Bltb x y.
  Proof.
    intros x y. destruct (is_finite x && is_finite y) eqn:F.
    - apply andb_prop in F. destruct F as [Fx Fy]. destruct (up_ok x Fx) as (Ax & Bx & _), (up_ok y Fy) as (Ay & By & _).
      rewrite !Bltb_correct by assumption. rewrite Ax, Ay. reflexivity.
    - destruct x as [s|s| |s m e B], y as [s'|s'| |s' m' e' B']; try discriminate F; shape; reflexivity.
  Qed.
End Wide.

Lemma wide_double : wide 24 128 53 1024.
Proof. unfold wide. lia. Qed.

(** The rounding of an integer is an integer. *)
Lemma round_int : forall fexp, Valid_exp fexp -> forall z, exists k, round radix2 fexp ZnearestE (IZR z) = IZR k.
Proof.
  intros fexp VE z. destruct (Z_le_gt_dec 0 (cexp radix2 fexp (IZR z))) as [H|H].
  - exists (ZnearestE (scaled_mantissa radix2 fexp (IZR z)) * 2 ^ cexp radix2 fexp (IZR z)).
    unfold round, F2R. cbn [Fnum Fexp]. rewrite mult_IZR. f_equal. rewrite <- IZR_Zpower by exact H. reflexivity.
  - exists z. apply round_generic; [typeclasses eauto|].
    replace (IZR z) with (F2R (Float radix2 z 0)) by (unfold F2R; cbn; ring).
    apply generic_format_F2R. intros _.
    replace (F2R (Float radix2 z 0)) with (IZR z) by (unfold F2R; cbn; ring). lia.
Qed.

(** Integers below 2^1023 as double. *)
Lemma double_of_int_ok : forall z, Z.abs z <= 2 ^ 1023 ->
  is_finite (double_of_int z) = true /\ B2R (double_of_int z) = round radix2 (FLT_exp (3 - 1024 - 53) 53) ZnearestE (IZR z) /\
  IZR (Btrunc (double_of_int z)) = round radix2 (FLT_exp (3 - 1024 - 53) 53) ZnearestE (IZR z).
Proof.
  intros z Hz. unfold double_of_int.
  pose proof (binary_normalize_correct 53 1024 _ _ mode_NE z 0 false) as C. cbv zeta in C.
  change (SpecFloat.fexp 53 1024) with (FLT_exp (3 - 1024 - 53) 53) in C. cbn [round_mode] in C.
  replace (F2R (Float radix2 z 0)) with (IZR z) in C by (unfold F2R; cbn; ring).
  assert (VE : Valid_exp (FLT_exp (3 - 1024 - 53) 53)) by (apply FLT_exp_valid; exact eq_refl).
  assert (B : (Rabs (round radix2 (FLT_exp (3 - 1024 - 53) 53) ZnearestE (IZR z)) <= bpow radix2 1023)%R).
  { apply abs_round_le_generic; [exact VE|typeclasses eauto| |].
    - apply generic_format_bpow. unfold FLT_exp. lia.
    - rewrite <- abs_IZR. rewrite <- IZR_Zpower by lia. apply IZR_le. exact Hz. }
  rewrite Rlt_bool_true in C by (eapply Rle_lt_trans; [exact B|apply bpow_lt; lia]).
  destruct C as (C1 & C2 & _). split; [exact C2|]. split; [exact C1|].
  rewrite (Btrunc_correct 53 1024 _), C1. apply round_generic; [typeclasses eauto|].
  destruct (round_int _ VE z) as (k & ->). apply generic_format_FIX. exists (Float radix2 k 0); [unfold F2R; cbn; ring|reflexivity].
Qed.

(** Small integers are the same number in float and in double. *)
Lemma sofZ_sign : forall p e (P : Prec_gt_0 p) (M : Prec_lt_emax p e) z, Z.abs z <= 2 ^ p ->
  Bsign (sofZ (Fsc p e) z) = (z <? 0).
Proof.
  intros p e P M z Hz. destruct (fofZ_ok p e z Hz) as (F & E). cbn [sofZ Fsc] in *.
  pose proof (binary_normalize_correct p e P M mode_NE z 0 false) as C. cbv zeta in C.
  replace (F2R (Float radix2 z 0)) with (IZR z) in C by (unfold F2R; cbn; ring).
  destruct (Rlt_bool _ _).
  - destruct C as (_ & _ & C). rewrite C. destruct (Rcompare_spec (IZR z) 0) as [H|H|H].
    + apply lt_IZR in H. symmetry. apply Z.ltb_lt. exact H.
    + apply eq_IZR in H. subst z. reflexivity.
    + apply lt_IZR in H. symmetry. apply Z.ltb_ge. lia.
  - exfalso. destruct (binary_normalize p e P M mode_NE z 0 false); cbn in C; try discriminate F; discriminate C.
Qed.

Lemma widen_int : forall z, Z.abs z <= 2 ^ 24 -> widen (sofZ F32 z) = double_of_int z.
Proof.
  intros z Hz. destruct (fofZ_ok 24 128 z Hz) as (F & E). assert (Hz' : Z.abs z <= 2 ^ 53) by lia.
  destruct (up_ok 24 128 53 1024 wide_double _ F) as (A & B & C).
  destruct (fofZ_ok 53 1024 z Hz') as (F' & E').
  apply B2R_Bsign_inj; [exact B|exact F'| |].
  - transitivity (IZR z); [rewrite <- E; exact A|symmetry; exact E'].
  - transitivity (z <? 0); [|symmetry; exact (sofZ_sign 53 1024 _ _ z Hz')].
    rewrite <- (sofZ_sign 24 128 _ _ z Hz). exact C.
Qed.

Lemma sumZ_ones : forall n, 0 <= n -> sum_over Zsc (zrange n) (fun _ => 1) = n.
Proof.
  intros n Hn. rewrite <- (Z2Nat.id n Hn) at 2. rewrite <- length_zrange.
  induction (zrange n) as [|a l IH] using rev_ind; [reflexivity|]. rewrite sumZ_snoc, IH, app_length. cbn [length]. lia.
Qed.
