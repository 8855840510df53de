(** Property C103: rounding errors of gradients, variances and standard
    deviations. *)
From Coq Require Import ZArith Reals List Bool Lia Lra SpecFloat.
From Flocq Require Import Core BinarySingleNaN.
From Verif Require Import Base BaseFacts TensorFacts Traits TraitsSpec TraitsFacts Scalar RealScalar LinAlg LinAlgFacts
  Elem ElemSpec ElemFacts Conv ConvSpec ConvFacts Activation ActivationFacts Pool Summary SummaryFacts
  Float FloatSpec FloatFacts FloatSumSpec FloatSumFacts FloatNormFacts FloatSoftSpec FloatSoftFacts
  FloatGradSpec FloatGradFacts PropsElem PropsFloat PropsFloatSum Demo ConvGradFacts.
Import ListNotations.
Open Scope Z_scope.
Open Scope model_scope.

Section Gradients.
  Context {V : Type} (prec emax : Z) {Hprec : Prec_gt_0 prec} {Hmax : Prec_lt_emax prec emax}.
  Context (dt : dtype V (binary_float prec emax)).
  Notation sc := (Fsc prec emax).
  Notation flt := (binary_float prec emax).
  Notation u := (unit_roundoff prec).
  Notation eta := (half_tiny prec emax).
  Notation fin v := (is_finite v = true).
  Notation magnitude l f := (sum_over Rsc l (fun a => Rabs (B2R (f a)))).

  (** Products: d/dx and d/dy of x * y, one rounding. *)
  Theorem C103_mul : forall gx gz y GZ Y s,
    dims_ok gx -> tdims gz = tdims gx -> tdims y = tdims gx ->
    holds dt s gz GZ -> holds dt s y Y -> mapped s gx -> safe gx gz -> safe gx y ->
    exists GX, writes dt (grad_mul0 dt sc gx gz y) s gx GX /\ writes dt (grad_mul1 dt sc gx gz y) s gx GX /\
      forall ix, valid (tdims gx) ix -> fin (GZ ix) -> fin (Y ix) ->
        let r := (B2R (GZ ix) * B2R (Y ix))%R in
        in_range prec emax r -> within prec emax (u * Rabs r + eta) r (GX ix).
  Proof.
    intros gx gz y GZ Y s Hd E Ey HG HY Hx Sz Sy. eexists.
    split; [apply (C27_mul dt sc gx gz y GZ Y); auto|]. split; [apply (C27_mul dt sc gx gz y GZ Y); auto|].
    intros ix _ F1 F2 r HR. apply (mul_within prec emax); auto.
  Qed.

  (** Matrix products. *)
  Theorem C103_matmul0 : forall gx gz y m l n GZ Y s,
    tdims gx = [m; l] -> tdims gz = [m; n] -> tdims y = [l; n] -> 0 <= m -> 0 <= l -> 0 <= n ->
    holds dt s gz GZ -> holds dt s y Y -> mapped s gx -> disjoint gx gz -> disjoint gx y ->
    exists GX, writes dt (grad_matmul0 dt sc Builtin gx gz y) s gx GX /\
      forall i k, 0 <= i < m -> 0 <= k < l ->
        (forall j, 0 <= j < n -> fin (GZ [i; j]) /\ fin (Y [k; j])) ->
        no_overflow prec emax (Z.to_nat n) (sum_over Rsc (zrange n) (fun j => Rabs (B2R (GZ [i; j]) * B2R (Y [k; j])))) ->
        approximates prec emax (zrange n) (fun j => B2R (GZ [i; j])) (fun j => B2R (Y [k; j])) (GX [i; k]).
  Proof.
    intros gx gz y m l n GZ Y s Egx Egz Ey Hm Hl Hn HG HY Hx D1 D2.
    eexists. split; [unfold grad_matmul0, k_mmt; apply (e_mmt_writes dt sc Builtin gz y gx m n l GZ Y); auto; exact I|].
    intros i k Hi Hk HF HO. unfold arg2; cbn [nth].
    apply (dot_approx prec emax (zrange n) (fun j => GZ [i; j]) (fun j => Y [k; j])).
    - intros j Hj. apply in_zrange in Hj. auto.
    - rewrite length_zrange. exact HO.
  Qed.

  Theorem C103_matmul1 : forall gy gz x m l n GZ X s,
    tdims gy = [l; n] -> tdims gz = [m; n] -> tdims x = [m; l] -> 0 <= m -> 0 <= l -> 0 <= n ->
    holds dt s gz GZ -> holds dt s x X -> mapped s gy -> disjoint gy gz -> disjoint gy x ->
    exists GY, writes dt (grad_matmul1 dt sc Builtin gy gz x) s gy GY /\
      forall k j, 0 <= k < l -> 0 <= j < n ->
        (forall i, 0 <= i < m -> fin (X [i; k]) /\ fin (GZ [i; j])) ->
        no_overflow prec emax (Z.to_nat m) (sum_over Rsc (zrange m) (fun i => Rabs (B2R (X [i; k]) * B2R (GZ [i; j])))) ->
        approximates prec emax (zrange m) (fun i => B2R (X [i; k])) (fun i => B2R (GZ [i; j])) (GY [k; j]).
  Proof.
    intros gy gz x m l n GZ X s Egy Egz Ex Hm Hl Hn HG HX Hy D1 D2.
    eexists. split; [unfold grad_matmul1, k_mtm; apply (e_mtm_writes dt sc Builtin x gz gy l m n X GZ); auto; exact I|].
    intros k j Hk Hj HF HO. unfold arg2; cbn [nth].
    apply (dot_approx prec emax (zrange m) (fun i => X [i; k]) (fun i => GZ [i; j])).
    - intros i Hi. apply in_zrange in Hi. auto.
    - rewrite length_zrange. exact HO.
  Qed.

  (** Bias of nhwc images: a sum over all pixels of all images. *)
  Theorem C103_bias1_nhwc : forall gy gz n h w c GZ s,
    tdims gz = [n; h; w; c] -> tdims gy = [c] -> dims_ok gz ->
    holds dt s gz GZ -> mapped s gy -> disjoint gy gz ->
    exists GY, writes dt (grad_bias1_nhwc dt sc gy gz) s gy GY /\
      forall k, 0 <= k < c -> let px := indices [n; h; w] in
        (forall ix, valid [n; h; w] ix -> fin (GZ (ix ++ [k]))) ->
        sum_fits prec emax (length px) (magnitude px (fun ix => GZ (ix ++ [k]))) ->
        sums prec emax px (fun ix => B2R (GZ (ix ++ [k]))) (GY [k]).
  Proof.
    intros gy gz n h w c GZ s Ez Ey Dz HG Hy D.
    assert (Nn : nonneg ([n; h; w] ++ [c])) by (unfold dims_ok in Dz; rewrite Ez in Dz; exact Dz).
    apply nonneg_app in Nn. destruct Nn as [N1 N2].
    eexists. split.
    { unfold grad_bias1_nhwc. apply (outter_contraction_writes dt sc gy (as_matrix 3 gz) (prod [n; h; w]) [c]
        (arg2 (fun a b => GZ (expand [n; h; w] a ++ expand [c] b)))); auto.
      - rewrite tdims_as_matrix, Ez. cbn [firstn skipn]. do 2 f_equal. cbn. lia.
      - apply prod_nonneg; auto.
      - unfold dims_ok. rewrite Ey. exact N2.
      - pose proof (holds_as_matrix dt s 3 gz GZ) as Q. rewrite Ez in Q. apply Q; auto.
      - intros p Hp Hz. apply (D p); auto. exact (proj1 (foot_as_matrix 3 gz p) Hz). }
    intros k Hk px HF HO.
    assert (Ek : expand [c] k = [k]).
    { assert (Q1 : valid [c] [k]) by (cbn; lia). rewrite <- (expand_offset _ _ Q1). f_equal. cbn. lia. }
    refine (eq_ind _ (fun v => sums prec emax px (fun ix => B2R (GZ (ix ++ [k]))) v)
      (sum_approx prec emax px (fun ix => GZ (ix ++ [k])) _ HO) _ _).
    - intros ix Hi. apply HF. apply in_indices; auto.
    - unfold px. rewrite indices_expand by auto. unfold sum_over. rewrite fold_left_map.
      unfold arg2; cbn [nth]. rewrite Ek. reflexivity.
  Qed.

  (** Convolution, with respect to the filter: a sum of products over all
      windows of all images. *)
  Theorem C103_conv_y : forall C gy gz x n h w c r s d h' w' GZ X st,
    let H := axis_of (h_trait C) r in let W := axis_of (w_trait C) s in
    axis_ok H h h' -> axis_ok W w w' -> 0 <= n -> 0 <= c -> 0 <= d ->
    tdims x = [n; h; w; c] -> tdims gy = [r; s; c; d] -> tdims gz = [n; h'; w'; d] ->
    fresh_ok st -> holds dt st gz GZ -> holds dt st x X -> mapped st gy -> disjoint gy gz -> disjoint gy x ->
    exists GY, writes dt (conv_grad_y dt sc Builtin C gy gz x) st gy GY /\
      forall p q k t, valid [r; s; c; d] [p; q; k; t] ->
        let a := arg3 (fun l i j => zpad (s0 sc) h w (fun y x => X [l; y; x; k]) (wpos H i p) (wpos W j q)) in
        let b := arg3 (fun l i j => GZ [l; i; j; t]) in
        let wins := indices [n; h'; w'] in
        (forall ix, valid [n; h'; w'] ix -> fin (a ix) /\ fin (b ix)) ->
        no_overflow prec emax (length wins) (sum_over Rsc wins (fun ix => Rabs (B2R (a ix) * B2R (b ix)))) ->
        approximates prec emax wins (fun ix => B2R (a ix)) (fun ix => B2R (b ix)) (GY [p; q; k; t]).
  Proof.
    intros C gy gz x n h w c r s d h' w' GZ X st H W AH AW Hn Hc Hd Ex Ey Ez Hf HZ HX HY D1 D2.
    eexists. split; [eapply (conv_grad_y_writes dt sc Builtin C gy gz x n h w c r s d h' w'); eauto; exact I|].
    intros p q k t Hv a b wins HF HO. fold H W.
    apply (dot_approx prec emax wins a b); auto. intros ix Hi. apply HF. apply in_indices; auto.
  Qed.

  (** With respect to the image: a sum, over the windows and taps that cover the
      pixel, of sums of products over the channels. *)
  Theorem C103_conv_x : forall C gx gz y n h w c r s d h' w' GZ Y st,
    let H := axis_of (h_trait C) r in let W := axis_of (w_trait C) s in
    axis_ok H h h' -> axis_ok W w w' -> 0 <= n -> 0 <= c -> 0 <= d ->
    tdims gx = [n; h; w; c] -> tdims y = [r; s; c; d] -> tdims gz = [n; h'; w'; d] ->
    fresh_ok st -> holds dt st gz GZ -> holds dt st y Y -> mapped st gx -> disjoint gx gz -> disjoint gx y ->
    exists GX, writes dt (conv_grad_x dt sc Builtin C gx gz y) st gx GX /\
      forall l p q k, valid [n; h; w; c] [l; p; q; k] ->
        let cover := List.filter (arg4 (fun i j a b => (wpos H i a =? p) && (wpos W j b =? q))) (indices [h'; w'; r; s]) in
        let f := fun ix t => arg4 (fun i j a b => GZ [l; i; j; t]) ix in
        let g := fun ix t => arg4 (fun i j a b => Y [a; b; k; t]) ix in
        let T := sum_over Rsc cover (fun ix => sum_over Rsc (zrange d) (fun t => Rabs (B2R (f ix t) * B2R (g ix t)))) in
        let bound := sumdot_bound prec emax (Z.to_nat d) (length cover) T in
        (forall ix t, In ix cover -> 0 <= t < d -> fin (f ix t) /\ fin (g ix t)) ->
        (T + bound < bpow radix2 emax)%R ->
        within prec emax bound
          (sum_over Rsc cover (fun ix => sum_over Rsc (zrange d) (fun t => B2R (f ix t) * B2R (g ix t))%R)) (GX [l; p; q; k]).
  Proof.
    intros C gx gz y n h w c r s d h' w' GZ Y st H W AH AW Hn Hc Hd Ex Ey Ez Hf HZ HY HX D1 D2.
    eexists. split; [eapply (conv_grad_x_writes dt sc Builtin C gx gz y n h w c r s d h' w'); eauto; exact I|].
    intros l p q k Hv cover f g T bound HF HO. fold H W.
    pose proof (sumdot_approx prec emax cover (zrange d) f g) as S. cbv zeta in S. rewrite length_zrange in S. fold T in S.
    apply S; [|exact HO]. intros ix t Hi Ht. apply in_zrange in Ht. auto.
  Qed.

  (** Softmax, for rows of probabilities. *)
  Theorem C103_softmax : forall gx gy y x m n GY Y s,
    tdims gx = [m; n] -> tdims gy = [m; n] -> tdims y = [m; n] -> tdims x = [m; n] ->
    0 <= m -> 0 <= n -> fresh_ok s ->
    holds dt s gy GY -> holds dt s y Y -> mapped s gx -> disjoint gx gy -> safe gx y ->
    exists GX, writes dt (softmax_grad2 dt sc gx gy y x) s gx GX /\
      forall a j, 0 <= a < m -> 0 <= j < n ->
        (forall i, 0 <= i < n -> fin (GY [a; i]) /\ fin (Y [a; i]) /\ (0 <= B2R (Y [a; i]) <= 1)%R) ->
        let r := fun i => (B2R (GY [a; i]) * soft_jac (fun k => B2R (Y [a; k])) i j)%R in
        let T := sum_over Rsc (zrange n) (fun i => Rabs (r i)) in
        let bound := soft_grad_bound prec emax (Z.to_nat n) T (magnitude (zrange n) (fun i => GY [a; i])) in
        (T + bound < bpow radix2 emax)%R ->
        within prec emax bound (sum_over Rsc (zrange n) r) (GX [a; j]).
  Proof.
    intros gx gy y x m n GY Y s Egx Egy Ey Ex Hm Hn Hf HG HY Hx D1 D2.
    eexists. split; [apply (softmax_grad2_writes_over dt sc gx gy y x m n GY Y s); auto|].
    intros a j Ha Hj HF r T bound HO.
    apply (soft_grad_within prec emax n (fun i => GY [a; i]) (fun i => Y [a; i]) j); auto.
  Qed.

  (** Cross entropy, with respect to the predictions. *)
  Theorem C103_xentropy : forall gx gz x y m n GZ X Y s,
    tdims gx = [m; n] -> tdims gz = [m] -> tdims x = [m; n] -> tdims y = [m; n] -> 0 <= m -> 0 <= n ->
    holds dt s gz GZ -> holds dt s x X -> holds dt s y Y -> mapped s gx ->
    disjoint gx gz -> safe gx x -> safe gx y ->
    exists GX, writes dt (xentropy_grad2 dt sc gx gz x y) s gx GX /\
      forall i j, 0 <= i < m -> 0 <= j < n ->
        fin (GZ [i]) -> fin (X [i; j]) -> fin (Y [i; j]) -> B2R (Y [i; j]) <> 0%R ->
        let g := B2R (GZ [i]) in let r := (- B2R (X [i; j]) / B2R (Y [i; j]))%R in
        in_range prec emax r -> (Rabs (g * r) + xent_grad_bound prec emax g r < bpow radix2 emax)%R ->
        within prec emax (xent_grad_bound prec emax g r) (g * r)%R (GX [i; j]).
  Proof.
    intros gx gz x y m n GZ X Y s Egx Egz Ex Ey Hm Hn HG HX HY Hx D1 S2 S3.
    eexists. split.
    { apply (xentropy_grad2_writes dt sc gx gz x y m n GZ X Y (fun i j => Bdiv mode_NE (Bopp (X [i; j])) (Y [i; j])) s); auto. }
    intros i j Hi Hj F1 F2 F3 N g r HR HO. apply (xent_grad_within prec emax); auto.
  Qed.

  (** Variance and standard deviation (with a correctly rounded square root). *)
  Theorem C103_variance : forall x X s, dims_ok x -> 1 <= size x <= 2 ^ prec -> holds dt s x X ->
    (forall ix, valid (tdims x) ix -> fin (X ix)) ->
    let l := indices (tdims x) in let f := fun ix => B2R (X ix) in
    sum_fits prec emax (length l) (magnitude l X) ->
    let v := var_of l f in let e := mean_err prec emax l f in let b := var_bound prec emax (length l) v e in
    var_fits prec emax (length l) v e ->
    exists w d, s_var dt sc (div_float sc) x s = Ok w s /\ s_std dt sc (div_float sc) (Bsqrt mode_NE) x s = Ok d s /\
      within prec emax b v w /\ (0 <= B2R w)%R /\
      within prec emax (u * sqrt (v + b) + sqrt b) (sqrt v) d.
  Proof.
    intros x X s D Hn HX HF l f HS v e b HV.
    destruct (var_within prec emax l X (size x)) as (W & P); auto.
    { symmetry. apply length_indices; auto. }
    { intros ix Hi. apply HF. apply in_indices; auto. }
    eexists _, _. split; [eapply s_var_ok; eauto; reflexivity|]. split.
    { unfold s_std. rewrite (bind_ok _ _ _ _ _ (s_var_ok dt sc (div_float sc) x X s _ _ D HX eq_refl eq_refl)). reflexivity. }
    split; [exact W|]. split; [exact P|]. apply std_within; auto.
    unfold v, var_of, mean_of at 1. apply Rmult_le_pos.
    - apply sumR_nonneg. intros a. apply pow2_ge_0.
    - apply Rlt_le, Rinv_0_lt_compat. apply lt_0_INR. pose proof (length_indices _ D) as L. unfold size in Hn. fold l in L. lia.
  Qed.

  (** The bounds in plain terms, as long as (number of operations) * u <= 1/2. *)
  Theorem C103_bound : forall n k T G v e, (0 <= T)%R -> (0 <= G)%R -> (0 <= v)%R ->
    (INR (n + k + 3) * u <= / 2)%R ->
    (sumdot_bound prec emax n k T <= 2 * INR (n + k) * u * T + 2 * INR k * INR n * eta)%R /\
    (soft_grad_bound prec emax n T G <= 2 * INR (n + 2) * u * T + 2 * (INR n + G) * eta)%R /\
    (var_bound prec emax n v e <= 2 * INR (n + 3) * u * v + 2 * e ^ 2 + 3 * eta)%R.
  Proof using.
    intros n k T G v e HT HG Hv Hn. pose proof (u_pos prec) as Pu. pose proof (eta_pos prec emax) as Pe.
    assert (P : forall j, (INR j * u <= / 2 -> (1 + u) ^ j <= 1 + 2 * INR j * u)%R).
    { induction j as [|j IH]; intros Hj; [cbn; lra|]. rewrite S_INR in *. cbn [pow].
      assert (Hj' : (INR j * u <= / 2)%R) by lra. specialize (IH Hj').
      apply Rle_trans with ((1 + u) * (1 + 2 * INR j * u))%R; [apply Rmult_le_compat_l; lra|].
      assert (Q : (2 * (INR j * u) * u <= 1 * u)%R) by (apply Rmult_le_compat_r; lra). lra. }
    assert (L : forall j, (j <= n + k + 3)%nat -> (INR j * u <= / 2)%R).
    { intros j Hj. eapply Rle_trans; [|exact Hn]. apply Rmult_le_compat_r; [lra|apply le_INR; auto]. }
    assert (B : forall j, (j <= n + k + 3)%nat -> ((1 + u) ^ j <= 2)%R).
    { intros j Hj. specialize (P j (L j Hj)). specialize (L j Hj). lra. }
    pose proof (pos_INR n) as Nn. pose proof (pos_INR k) as Nk.
    split; [|split].
    - unfold sumdot_bound. apply Rplus_le_compat.
      + apply Rmult_le_compat_r; [auto|]. specialize (P (n + Nat.pred k)%nat (L (n + Nat.pred k)%nat ltac:(lia))).
        assert (INR (n + Nat.pred k) * u <= INR (n + k) * u)%R by (apply Rmult_le_compat_r; [lra|apply le_INR; lia]). lra.
      + specialize (B (n + Nat.pred k)%nat ltac:(lia)).
        assert (0 <= INR k * INR n * eta)%R by (apply Rmult_le_pos; [apply Rmult_le_pos|]; lra).
        apply Rle_trans with (INR k * INR n * eta * 2)%R; [apply Rmult_le_compat_l; auto|lra].
    - unfold soft_grad_bound. apply Rplus_le_compat.
      + apply Rmult_le_compat_r; [auto|]. specialize (P (n + 2)%nat (L (n + 2)%nat ltac:(lia))). lra.
      + apply Rmult_le_compat_r; [lra|]. apply Rmult_le_compat_r; [lra|]. apply B. lia.
    - unfold var_bound. assert (0 <= e ^ 2)%R by apply pow2_ge_0.
      apply Rplus_le_compat; [apply Rplus_le_compat|].
      + apply Rmult_le_compat_r; [auto|]. specialize (P (n + 3)%nat (L (n + 3)%nat ltac:(lia))). lra.
      + apply Rmult_le_compat_r; [auto|]. apply B. lia.
      + apply Rmult_le_compat_r; [lra|]. specialize (B n ltac:(lia)). lra.
  Qed.
End Gradients.

(** Softmax gradient for outputs (1/4, 3/4) and incoming gradient (8, 4), and
    its hypothesis and bound: T = 9/4 and G = 12. *)
Example C103_softmax_case :
  let s := demo [[f32 1 (-2); f32 3 (-2)]; [f32 8 0; f32 4 0]; [f32 0 0; f32 0 0]] in
  shown (run (softmax_grad2 ft F32 (T_ 2 [1; 2]) (T_ 1 [1; 2]) (T_ 0 [1; 2]) (T_ 0 [1; 2])) s (T_ 2 [1; 2]))
    = floats [f32 3 (-2); f32 (-3) (-2)].
Proof. vm_compute. reflexivity. Qed.
Example C103_softmax_bound : (9 / 4 + soft_grad_bound 24 128 2 (9 / 4) 12 < bpow radix2 128)%R.
Proof.
  assert (U : (unit_roundoff 24 = / 16777216)%R) by (unfold unit_roundoff; simpl; lra).
  assert (E : (half_tiny 24 128 <= / 2)%R) by exact (eta_half 24 128).
  destruct (C103_bound 24 128 2 0 (9 / 4) 12 0 0) as (_ & Q & _); try lra; [rewrite U; simpl; lra|].
  eapply Rle_lt_trans; [apply Rplus_le_compat_l; exact Q|]. rewrite U.
  assert (L : (bpow radix2 10 <= bpow radix2 128)%R) by (apply bpow_le; lia).
  simpl (bpow radix2 10) in L. simpl INR. lra.
Qed.

(** Cross entropy gradient, and a convolution gradient with respect to the
    image (an image of 3 pixels, 2 taps, 2 output channels). *)
Example C103_xentropy_case :
  let s := demo [[f32 0 0; f32 1 0]; [f32 1 (-2); f32 3 (-2)]; [f32 1 0]; [f32 0 0; f32 0 0]] in
  shown (run (xentropy_grad2 ft F32 (T_ 3 [1; 2]) (T_ 2 [1]) (T_ 0 [1; 2]) (T_ 1 [1; 2])) s (T_ 3 [1; 2]))
    = floats [B754_zero true; f32 (-11184811) (-23)].
Proof. vm_compute. reflexivity. Qed.
Example C103_conv_case :
  let C := new_conv_ps (mkpadding 0 0) (mkpadding 0 0) 1 1 in
  let s := demo [map (fun z => f32 z 0) [1; 2; 3; 4]; map (fun z => f32 z 0) [1; 10; 100; 1000]; repeat (f32 9 0) 3] in
  shown (run (conv_grad_x ft F32 Builtin C (T_ 2 [1; 1; 3; 1]) (T_ 0 [1; 1; 2; 2]) (T_ 1 [1; 2; 1; 2])) s (T_ 2 [3]))
    = floats (map (fun z => f32 z 0) [21; 2143; 4300]).
Proof. vm_compute. reflexivity. Qed.

(** Variance of 1, 2, 3, 4. *)
Example C103_variance_case :
  let s := demo [map (fun z => f32 z 0) [1; 2; 3; 4]] in
  match s_var ft F32 (div_float F32) (T_ 0 [4]) s with Ok v _ => B2SF v = B2SF (f32 5 (-2)) | _ => False end.
Proof. vm_compute. reflexivity. Qed.

(** It is not true that the variance of a constant tensor is 0. *)
Theorem C103_variance_refuted :
  let s := demo [repeat (f32 8388610 (-23)) 9] in
  match s_var ft F32 (div_float F32) (T_ 0 [3; 3]) s with Ok v _ => Bltb (f32 0 0) v = true | _ => False end.
Proof. vm_compute. reflexivity. Qed.

Print Assumptions C103_mul.
Print Assumptions C103_matmul0.
Print Assumptions C103_matmul1.
Print Assumptions C103_bias1_nhwc.
Print Assumptions C103_conv_y.
Print Assumptions C103_conv_x.
Print Assumptions C103_softmax.
Print Assumptions C103_xentropy.
Print Assumptions C103_variance.
Print Assumptions C103_bound.
Print Assumptions C103_variance_refuted.
