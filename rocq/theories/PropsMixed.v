(** Property C104: expressions that go through double, and exact results of the
    floating-point unit tests. *)
From Coq Require Import ZArith Reals List Bool Lia Lra SpecFloat.
From Flocq Require Import Core BinarySingleNaN.
From Verif Require Import Base BaseFacts TensorFacts Scalar RealScalar LinAlg LinAlgFacts
  Elem ElemSpec ElemFacts Activation ActivationSpec ActivationFacts RowFacts SoftmaxFacts Utility
  Float FloatSpec FloatFacts FloatNan FloatSumSpec FloatSumFacts FloatSoftSpec FloatSoftFacts Mixed MixedFacts
  PropsElem PropsFloat Demo.
Import ListNotations.
Open Scope Z_scope.
Open Scope model_scope.

Notation rnd24 := (round radix2 (FLT_exp (3 - 128 - 24) 24) ZnearestE).
Notation rnd53 := (round radix2 (FLT_exp (3 - 1024 - 53) 53) ZnearestE).

(** *** float and double *)

(** A float goes through double unchanged; values, order and special values are kept. *)
Theorem C104_roundtrip : forall x y : float,
  narrow (widen x) = x /\ Bltb (widen x) (widen y) = Bltb x y /\
  (is_finite x = true -> is_finite (widen x) = true /\ B2R (widen x) = B2R x).
Proof.
  intros x y. split; [apply (down_up 24 128 53 1024 wide_double)|]. split; [apply (lt_all 24 128 53 1024 wide_double)|].
  intros Fx. destruct (up_ok 24 128 53 1024 wide_double x Fx) as (A & B & _). auto.
Qed.

(** A single operation on floats evaluated in double and stored as float is the
    operation of float, for all operands. *)
Theorem C104_single : forall x y : float,
  narrow (Bplus mode_NE (widen x) (widen y)) = Bplus mode_NE x y /\
  narrow (Bminus mode_NE (widen x) (widen y)) = Bminus mode_NE x y /\
  narrow (Bmult mode_NE (widen x) (widen y)) = Bmult mode_NE x y /\
  narrow (Bdiv mode_NE (widen x) (widen y)) = Bdiv mode_NE x y /\
  narrow (Bsqrt mode_NE (widen x)) = Bsqrt mode_NE x.
Proof.
  intros x y. unfold narrow, widen.
  split; [apply (plus_all 24 128 53 1024 wide_double)|]. split; [apply (minus_all 24 128 53 1024 wide_double)|].
  split; [apply (mult_all 24 128 53 1024 wide_double)|]. split; [apply (div_all 24 128 53 1024 wide_double)|].
  apply (sqrt_all 24 128 53 1024 wide_double).
Qed.

(** Two operations are not: 2^24 + 1 - 2^24. *)
Theorem C104_two_refuted : exists x y z : float,
  narrow (Bminus mode_NE (Bplus mode_NE (widen x) (widen y)) (widen z)) <> Bminus mode_NE (Bplus mode_NE x y) z.
Proof.
  exists (f32 1 24), (f32 1 0), (f32 1 24). intro H. apply (f_equal (@B2SF 24 128)) in H. vm_compute in H. discriminate H.
Qed.

Example C104_single_case :
  let x := f32 1 0 in let y := f32 3 0 in
  B2SF (Bdiv mode_NE x y) = S754_finite false 11184811 (-25) /\
  B2SF (narrow (Bdiv mode_NE (widen x) (widen y))) = S754_finite false 11184811 (-25) /\
  B2SF (Bdiv mode_NE (widen x) (widen y)) = S754_finite false 6004799503160661 (-54) /\
  B2SF (narrow (Bmult mode_NE (widen (f32 1 127)) (widen (f32 2 0)))) = S754_infinity false /\
  B2SF (narrow (Bmult mode_NE (widen (f32 3 (-149))) (widen (f32 1 (-1))))) = S754_finite false 2 (-149).
Proof. vm_compute. repeat split. Qed.

(** *** relu_scalar *)

(** On float and double it is the function of ops::relu. *)
Theorem C104_relu_scalar : forall (x : float) (y : double),
  relu_scalar_float x = relu1 F32 x /\ relu_scalar_double y = relu1 F64 y.
Proof.
  intros x y. split; [|reflexivity]. unfold relu_scalar_float, relu1. cbn [sltb s0 F32 Fsc].
  destruct (Bltb (B754_zero false) x); [|reflexivity]. apply (down_up 24 128 53 1024 wide_double).
Qed.

(** On an integer type of at most 64 bits the result is the double nearest to x, if
    that fits; up to 2^53 it is the maximum of 0 and x. *)
Theorem C104_relu_int : forall N x, 0 < it_bits N <= 64 -> it_min N <= x <= it_max N ->
  (x <= 2 ^ 53 -> relu_scalar_int N x = Ret (Z.max 0 x)) /\
  (0 < x -> exists r, IZR r = rnd53 (IZR x) /\
    relu_scalar_int N x = if r <=? it_max N then Ret r else Undef).
Proof.
  intros N x Hb Hx.
  assert (Mx : it_min N <= 0 <= it_max N /\ it_max N < 2 ^ 64).
  { unfold it_min, it_max. assert (0 < 2 ^ (it_bits N - 1)) by (apply Z.pow_pos_nonneg; lia).
    assert (2 ^ (it_bits N - 1) <= 2 ^ 63) by (apply Z.pow_le_mono_r; lia).
    assert (0 < 2 ^ it_bits N) by (apply Z.pow_pos_nonneg; lia).
    assert (2 ^ it_bits N <= 2 ^ 64) by (apply Z.pow_le_mono_r; lia). destruct (it_signed N); lia. }
  assert (G : 0 < x -> exists r, IZR r = rnd53 (IZR x) /\ relu_scalar_int N x = if r <=? it_max N then Ret r else Undef).
  { intros Px. assert (2 ^ 64 <= 2 ^ 1023) by (apply Z.pow_le_mono_r; lia).
    destruct (double_of_int_ok x ltac:(lia)) as (F & E & T). exists (Btrunc (double_of_int x)). split; [exact T|].
    unfold relu_scalar_int, int_of_double. rewrite (proj2 (Z.ltb_lt 0 x) Px), F. cbv zeta.
    assert (0 <= Btrunc (double_of_int x)).
    { apply le_IZR. rewrite T. apply round_ge_generic; [apply FLT_exp_valid; exact eq_refl|typeclasses eauto|apply generic_format_0|].
      apply IZR_le. lia. }
    rewrite (proj2 (Z.leb_le (it_min N) _)) by lia. reflexivity. }
  split; [|exact G]. intros B. destruct (Z.ltb_spec 0 x) as [P|P].
  - destruct (G P) as (r & Er & ->). destruct (fofZ_ok 53 1024 x ltac:(lia)) as (_ & E).
    assert (r = x) as ->.
    { apply eq_IZR. rewrite Er. destruct (double_of_int_ok x) as (_ & E' & _).
      - assert (2 ^ 53 <= 2 ^ 1023) by (apply Z.pow_le_mono_r; lia). lia.
      - rewrite <- E'. exact E. }
    rewrite (proj2 (Z.leb_le x _)) by lia. rewrite Z.max_r by lia. reflexivity.
  - unfold relu_scalar_int. rewrite (proj2 (Z.ltb_ge 0 x)) by lia. unfold int_of_double. cbn [is_finite].
    change (Btrunc (B754_zero false)) with 0. cbv zeta.
    rewrite (proj2 (Z.leb_le (it_min N) 0)), (proj2 (Z.leb_le 0 (it_max N))) by lia. rewrite Z.max_l by lia. reflexivity.
Qed.

(** So relu_scalar is not the relu of ops::relu on int64_t: 2^53 + 1 is rounded, and
    the largest value has undefined behaviour, as 2^63 is no int64_t. *)
Theorem C104_relu_int_refuted : let N := mkitype true 64 in
  relu_scalar_int N (2 ^ 53 + 1) = Ret (2 ^ 53) /\ relu1 Zsc (2 ^ 53 + 1) = 2 ^ 53 + 1 /\
  relu_scalar_int N (it_max N) = Undef /\
  relu_scalar_int N (2 ^ 63 - 513) = Ret (2 ^ 63 - 1024) /\ relu_scalar_int N (2 ^ 63 - 512) = Undef.
Proof. vm_compute. repeat split. Qed.

Example C104_relu_int_case :
  map (relu_scalar_int int8) [-128; -1; 0; 1; 127] = map Ret [0; 0; 0; 1; 127] /\
  map (relu_scalar_int uint8) [0; 255] = map Ret [0; 255] /\
  relu_scalar_int int32 (2 ^ 31 - 1) = Ret (2 ^ 31 - 1).
Proof. vm_compute. repeat split. Qed.

(** *** Pixels *)

(** [p / 255.0] stored as float or double is p / 255 rounded once. *)
Theorem C104_pixel : forall p, 0 <= p <= 255 ->
  is_finite (pixel p) = true /\ B2R (pixel p) = rnd53 (IZR p / 255) /\
  is_finite (pixel_float p) = true /\ B2R (pixel_float p) = rnd24 (IZR p / 255) /\
  (0 <= B2R (pixel_float p) <= 1)%R /\ (0 <= B2R (pixel p) <= 1)%R.
Proof.
  intros p Hp.
  destruct (fofZ_ok 53 1024 p ltac:(lia)) as (F & E). destruct (fofZ_ok 24 128 p ltac:(lia)) as (F' & E').
  destruct (fdiv_n 53 1024 (double_of_int p) 255 F ltac:(lia)) as (A & B).
  destruct (fdiv_n 24 128 (sofZ F32 p) 255 F' ltac:(lia)) as (A' & B').
  change (sofZ (Fsc 53 1024) 255) with (double_of_int 255) in *. change (sofZ (Fsc 53 1024) p) with (double_of_int p) in *.
  assert (Q : pixel_float p = Bdiv mode_NE (sofZ F32 p) (sofZ F32 255)).
  { unfold pixel_float, pixel. rewrite <- (widen_int p), <- (widen_int 255) by lia. apply C104_single; apply (sofZ F32 p). }
  rewrite E in B. change (sofZ F32 p) with (sofZ (Fsc 24 128) p) in B'. rewrite E' in B'.
  assert (B1 : B2R (pixel p) = rnd53 (IZR p / 255)) by exact B.
  assert (B2 : B2R (pixel_float p) = rnd24 (IZR p / 255)) by (rewrite Q; exact B').
  assert (A2 : is_finite (pixel_float p) = true) by (rewrite Q; exact A').
  split; [exact A|]. split; [exact B|]. split; [exact A2|]. split; [exact B2|].
  assert (R01 : (0 <= IZR p / 255 <= 1)%R).
  { split; [apply Rmult_le_pos; [apply IZR_le; lia|lra]|]. apply (Rmult_le_reg_r 255); [lra|].
    unfold Rdiv. rewrite Rmult_assoc, Rinv_l, Rmult_1_r, Rmult_1_l by lra. apply IZR_le. lia. }
  rewrite B1, B2.
  split; (split; [apply round_ge_generic|apply round_le_generic]; try typeclasses eauto; try apply generic_format_0; try lra;
    try (apply FLT_exp_valid; exact eq_refl); change 1%R with (bpow radix2 0); apply generic_format_bpow; unfold FLT_exp; lia).
Qed.

(** No two of the 256 pixel values coincide, darker ones stay darker, and the ends
    are exactly 0 and 1. *)
Theorem C104_pixel_order : 
  (forall p q, 0 <= p < q -> q <= 255 -> (B2R (pixel_float p) < B2R (pixel_float q))%R /\ (B2R (pixel p) < B2R (pixel q))%R) /\
  B2SF (pixel_float 0) = S754_zero false /\ pixel_float 255 = Bone /\ pixel 255 = Bone.
Proof.
  split; [|split; [vm_compute; reflexivity|split; apply B2SF_inj; vm_compute; reflexivity]].
  assert (K : forallb (fun p => Bltb (pixel_float p) (pixel_float (p + 1)) && Bltb (pixel p) (pixel (p + 1))) (zrange 255) = true)
    by (vm_compute; reflexivity).
  assert (S1 : forall p, 0 <= p < 255 -> (B2R (pixel_float p) < B2R (pixel_float (p + 1)))%R /\ (B2R (pixel p) < B2R (pixel (p + 1)))%R).
  { intros p Hp. rewrite forallb_forall in K. specialize (K p ltac:(apply in_zrange; lia)). apply andb_prop in K. destruct K as [K1 K2].
    destruct (C104_pixel p ltac:(lia)) as (A & _ & B & _). destruct (C104_pixel (p + 1) ltac:(lia)) as (A' & _ & B' & _).
    rewrite Bltb_correct in K1, K2 by assumption.
    split; [destruct (Rlt_bool_spec (B2R (pixel_float p)) (B2R (pixel_float (p + 1))))|
            destruct (Rlt_bool_spec (B2R (pixel p)) (B2R (pixel (p + 1))))]; try assumption; discriminate. }
  intros p q Hp Hq. remember (Z.to_nat (q - p - 1)) as k eqn:Ek. revert q Hp Hq Ek.
  induction k as [|k IH]; intros q Hp Hq Ek.
  - replace q with (p + 1) by lia. apply S1. lia.
  - destruct (IH (q - 1) ltac:(lia) ltac:(lia) ltac:(lia)) as [I1 I2].
    destruct (S1 (q - 1) ltac:(lia)) as [J1 J2]. replace (q - 1 + 1) with q in J1, J2 by lia. lra.
Qed.

Example C104_pixel_case :
  map (fun p => B2SF (pixel_float p)) [1; 51; 254] =
    [S754_finite false 8421505 (-31); S754_finite false 13421773 (-26); S754_finite false 16711423 (-24)].
Proof. vm_compute. reflexivity. Qed.

(** *** Softmax of a constant row *)

Section Constant.
  Context {V : Type} (prec emax : Z) {Hprec : Prec_gt_0 prec} {Hmax : Prec_lt_emax prec emax}.
  Context (dt : dtype V (binary_float prec emax)).
  Notation sc := (Fsc prec emax).
  Notation flt := (binary_float prec emax).
  Notation rnd := (round radix2 (FLT_exp (3 - emax - prec) prec) ZnearestE).

  (** Of a row of n equal finite numbers every entry becomes 1 / n, rounded once, or
      eps if that is larger; exp is used only at 0. *)
  Theorem C104_softmax : forall exp_ eps y x ds n X s, exp_ok prec emax exp_ -> is_finite eps = true -> n <= 2 ^ prec ->
    tdims x = ds ++ [n] -> tdims y = ds ++ [n] -> dims_ok x ->
    holds dt s x X -> mapped s y -> disjoint y x ->
    exists Y, writes dt (op_softmax dt sc exp_ (length ds + 1) eps y x) s y Y /\
      forall ix c, valid ds ix -> (forall j, 0 <= j < n -> is_finite (row X ix j) = true /\ B2R (row X ix j) = c) ->
        forall i, 0 <= i < n ->
          is_finite (row Y ix i) = true /\ B2R (row Y ix i) = Rmax (B2R eps) (rnd (1 / IZR n)).
  Proof.
    intros exp_ eps y x ds n X s EO Fe Hn Ex Ey Dx HX HY D.
    eexists. split; [apply (op_softmax_writes dt sc exp_ eps y x ds n X (Bdiv mode_NE Bone) s); auto|].
    intros ix c Hv HC i Hi.
    assert (RY : row (fun ix => smax sc eps (Bdiv mode_NE Bone (soft_tot sc exp_ n (row X (removelast ix)) (last ix 0)))) ix i
      = smax sc eps (Bdiv mode_NE Bone (soft_tot sc exp_ n (row X ix) i))).
    { unfold row at 1. rewrite removelast_last, last_last. reflexivity. }
    rewrite RY; clear RY.
    assert (T : integral prec emax (soft_tot sc exp_ n (row X ix) i) n).
    { replace n with (sum_over Zsc (zrange n) (fun _ => 1)) at 2.
      2:{ rewrite sumZ_ones; lia. }
      apply sum_exact.
      - intros j Hj. apply in_zrange in Hj. destruct (HC j Hj) as (Fj & Ej), (HC i Hi) as (Fi & Ei). cbn [ssub Fsc].
        assert (Q : exists b, Bminus mode_NE (row X ix j) (row X ix i) = B754_zero b).
        { pose proof (Bminus_correct prec emax _ _ mode_NE _ _ Fj Fi) as C. rewrite Ej, Ei, Rminus_diag_eq in C by reflexivity.
          rewrite round_0, Rabs_R0, Rlt_bool_true in C by (try typeclasses eauto; apply bpow_gt_0). destruct C as (C1 & C2 & _).
          destruct (Bminus mode_NE (row X ix j) (row X ix i)) as [b|b| |b m e B] eqn:EB; try discriminate C2; eauto.
          exfalso. cbn [B2R] in C1. destruct b; [assert (F2R (Float radix2 (cond_Zopp true (Zpos m)) e) < 0)%R by (apply F2R_lt_0; cbn; lia)|
            assert (0 < F2R (Float radix2 (cond_Zopp false (Zpos m)) e))%R by (apply F2R_gt_0; cbn; lia)]; lra. }
        destruct Q as (b & ->). destruct EO as (_ & _ & E0 & _). specialize (E0 b). split; [|exact E0].
        destruct (exp_ (B754_zero b)); try reflexivity; exfalso; cbn in E0; lra.
      - cbn [Z.abs]. rewrite sumZ_ones; lia. }
    destruct T as (FT & ET).
    assert (P : (1 <= IZR n)%R) by (apply IZR_le; lia).
    assert (Q : is_finite (Bdiv mode_NE Bone (soft_tot sc exp_ n (row X ix) i)) = true /\
      B2R (Bdiv mode_NE Bone (soft_tot sc exp_ n (row X ix) i)) = rnd (1 / IZR n)).
    { rewrite <- ET, <- (Bone_correct prec emax _ _). apply fdiv_ok; [apply is_finite_Bone|rewrite ET; lra|].
      rewrite ET, (Bone_correct prec emax _ _). eapply Rle_lt_trans.
      - apply abs_round_le_generic with (y := 1%R); [apply FLT_exp_valid; exact Hprec|typeclasses eauto| |].
        + change 1%R with (bpow radix2 0). apply generic_format_bpow. unfold FLT_exp. unfold Prec_gt_0, Prec_lt_emax in *. lia.
        + rewrite Rabs_pos_eq; [|apply Rlt_le, Rdiv_lt_0_compat; lra].
          apply (Rmult_le_reg_r (IZR n)); [lra|]. unfold Rdiv. rewrite Rmult_assoc, Rinv_l by lra. lra.
      - change 1%R with (bpow radix2 0). apply bpow_lt. unfold Prec_gt_0, Prec_lt_emax in *. lia. }
    destruct Q as (Fq & Eq). destruct (smax_val prec emax eps _ Fe Fq) as (Fm & Em).
    unfold smax; cbn [sltb Fsc]. split; [exact Fm|]. rewrite Em, Eq. reflexivity.
  Qed.
End Constant.

(** The default 1e-6 of softmax, in double and in float. *)
Definition eps64 : double := Bdiv mode_NE (double_of_int 1) (double_of_int 1000000).
Definition eps32 : float := narrow eps64.

(** test_softmax.cpp:20-49 compares with [1.0 / k], converted to R, up to four units
    in the last place: the entries are equal to it, for all k up to a million. *)
Theorem C104_softmax_test : forall {V} (df : dtype V float) (dd : dtype V double) y x ds n s,
  1 <= n <= 1000000 -> tdims x = ds ++ [n] -> tdims y = ds ++ [n] -> dims_ok x -> mapped s y -> disjoint y x ->
  (forall exp_, exp_ok 24 128 exp_ -> holds df s x (fun _ => Bone) ->
     writes df (op_softmax df F32 exp_ (length ds + 1) eps32 y x) s y
       (fun _ => narrow (Bdiv mode_NE (double_of_int 1) (double_of_int n)))) /\
  (forall exp_, exp_ok 53 1024 exp_ -> holds dd s x (fun _ => Bone) ->
     writes dd (op_softmax dd F64 exp_ (length ds + 1) eps64 y x) s y
       (fun _ => Bdiv mode_NE (double_of_int 1) (double_of_int n))).
Proof.
  intros V df dd y x ds n s Hn Ex Ey Dx HY D.
  assert (G : forall p e (P : Prec_gt_0 p) (M : Prec_lt_emax p e) (dt : dtype V (binary_float p e)) exp_ eps v,
    exp_ok p e exp_ -> holds dt s x (fun _ => Bone) -> 1000000 <= 2 ^ p ->
    eps = Bdiv mode_NE (sofZ (Fsc p e) 1) (sofZ (Fsc p e) 1000000) -> v = Bdiv mode_NE (sofZ (Fsc p e) 1) (sofZ (Fsc p e) n) ->
    (0 < B2R v)%R ->
    writes dt (op_softmax dt (Fsc p e) exp_ (length ds + 1) eps y x) s y (fun _ => v)).
  { intros p e P M dt exp_ eps v EO HX Hp -> -> Pv.
    assert (H1 : integral p e (sofZ (Fsc p e) 1) 1) by (apply fofZ_ok; lia). destruct H1 as (F1 & E1).
    destruct (fdiv_n p e _ 1000000 F1 ltac:(lia)) as (Fe & Ee). destruct (fdiv_n p e _ n F1 ltac:(lia)) as (Fn & En).
    rewrite E1 in Ee, En.
    destruct (C104_softmax p e dt exp_ _ y x ds n _ s EO Fe ltac:(lia) Ex Ey Dx HX HY D) as (Y & W & HV).
    eapply writes_ext; [reflexivity| |exact W].
    intros ix Hix. rewrite Ey in Hix.
    destruct (valid_snoc ds n ix Hix) as (ix0 & i & -> & Hv & Hi).
    destruct (HV ix0 1%R Hv ltac:(intros; split; [apply is_finite_Bone|apply Bone_correct]) i Hi) as (FY & EY).
    unfold row in FY, EY.
    assert (EQ : B2R (Y (ix0 ++ [i])) = B2R (Bdiv mode_NE (sofZ (Fsc p e) 1) (sofZ (Fsc p e) n))).
    { rewrite EY, En, Ee. apply Rmax_right. apply round_le; [apply FLT_exp_valid; exact P|typeclasses eauto|].
      unfold Rdiv. rewrite !Rmult_1_l. apply Rinv_le; [apply IZR_lt; lia|apply IZR_le; lia]. }
    symmetry. apply B2R_Bsign_inj; [exact Fn|exact FY|symmetry; exact EQ|].
    assert (SG : forall v : binary_float p e, is_finite v = true -> (0 < B2R v)%R -> Bsign v = false).
    { intros v Fv Hv'. pose proof (sign_val p e v Fv). destruct (Bsign v); [lra|reflexivity]. }
    rewrite (SG _ Fn Pv). symmetry. apply SG; [exact FY|rewrite EQ; exact Pv]. }
  assert (PV : forall p e (P : Prec_gt_0 p) (M : Prec_lt_emax p e), 1000000 <= 2 ^ p -> 3 - e - p <= -20 ->
    (0 < B2R (Bdiv mode_NE (sofZ (Fsc p e) 1) (sofZ (Fsc p e) n)))%R).
  { intros p e P M Hp He. assert (H1 : integral p e (sofZ (Fsc p e) 1) 1) by (apply fofZ_ok; lia). destruct H1 as (F1 & E1).
    destruct (fdiv_n p e _ n F1 ltac:(lia)) as (_ & En). rewrite En, E1.
    apply Rlt_le_trans with (bpow radix2 (-20)); [apply bpow_gt_0|].
    apply round_ge_generic; [apply FLT_exp_valid; exact P|typeclasses eauto| |].
    - apply generic_format_bpow. unfold FLT_exp. unfold Prec_gt_0 in *. lia.
    - change (bpow radix2 (-20)) with (/ IZR (2 ^ 20))%R. unfold Rdiv. rewrite Rmult_1_l.
      apply Rinv_le; [apply IZR_lt; lia|apply IZR_le; lia]. }
  split; intros exp_ EO HX.
  - assert (Q : forall k, 1 <= k <= 1000000 -> narrow (Bdiv mode_NE (double_of_int 1) (double_of_int k)) = Bdiv mode_NE (sofZ F32 1) (sofZ F32 k)).
    { intros k Hk. rewrite <- (widen_int 1), <- (widen_int k) by lia. apply C104_single; apply (sofZ F32 1). }
    apply (G 24 128 _ _ df exp_ eps32); try exact EO; try exact HX; [lia|exact (Q 1000000 ltac:(lia))|exact (Q n Hn)|].
    rewrite (Q n Hn). apply (PV 24 128 _ _); lia.
  - apply (G 53 1024 _ _ dd exp_ eps64); try exact EO; try exact HX; try reflexivity; [lia|]. apply (PV 53 1024 _ _); lia.
Qed.

(** Three equal scores give 1/3 in float, as the test expects. *)
Example C104_softmax_case :
  let s := demo [repeat (f32 5 0) 3; repeat (f32 0 0) 3] in let x := T_ 0 [1; 3] in let y := T_ 1 [1; 3] in
  shown (run (op_softmax ft F32 exp_toy 2 eps32 y x) s y) = Some (repeat (Some (S754_finite false 11184811 (-25))) 3) /\
  B2SF (narrow (Bdiv mode_NE (double_of_int 1) (double_of_int 3))) = S754_finite false 11184811 (-25) /\
  B2SF eps32 = S754_finite false 8796093 (-43) /\ B2SF eps64 = S754_finite false 4722366482869645 (-72).
Proof. vm_compute. repeat split. Qed.

Print Assumptions C104_roundtrip.
Print Assumptions C104_single.
Print Assumptions C104_two_refuted.
Print Assumptions C104_relu_scalar.
Print Assumptions C104_relu_int.
Print Assumptions C104_relu_int_refuted.
Print Assumptions C104_pixel.
Print Assumptions C104_pixel_order.
Print Assumptions C104_softmax.
Print Assumptions C104_softmax_test.
