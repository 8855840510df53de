(** Properties C84, C85: IEEE 754 floating point (float, double).

    std::exp is a parameter of which only [exp_ok] is assumed. *)
From Coq Require Import ZArith Reals List Bool Lia Lra SpecFloat.
From Flocq Require Import Core BinarySingleNaN.
From Verif Require Import Base BaseFacts TensorFacts Traits TraitsSpec TraitsFacts Scalar RealScalar LinAlg LinAlgFacts
  Elem ElemSpec ElemFacts Conv ConvSpec ConvFacts Pool PoolSpec PoolFacts Activation ActivationSpec ActivationFacts
  RowFacts Utility UtilityFacts Float FloatSpec FloatFacts FloatNan PropsElem PropsConv PropsPool PropsUtility Demo.
Import ListNotations.
Open Scope Z_scope.
Open Scope model_scope.

Section Rounding.
  Context {V : Type} (prec emax : Z) {Hprec : Prec_gt_0 prec} {Hmax : Prec_lt_emax prec emax}.
  Context (dt : dtype V (binary_float prec emax)) (di : dtype V Z).
  Notation sc := (Fsc prec emax).
  Notation flt := (binary_float prec emax).

  (** *** C84: rounding errors of matrix products and convolutions. *)

  (** Each entry of a product of finite data is finite and as close to the exact
      value as [dot_bound] says, unless it may overflow. *)
  Theorem C84_matmul : forall z x y m l n X Y s,
    tdims x = [m; l] -> tdims y = [l; n] -> tdims z = [m; n] -> 0 <= m -> 0 <= l -> 0 <= n ->
    holds dt s x X -> holds dt s y Y -> mapped s z -> disjoint z x -> disjoint z y ->
    exists Z, writes dt (op_matmul dt sc Builtin z x y) s z Z /\
      forall i j, 0 <= i < m -> 0 <= j < n ->
        (forall k, 0 <= k < l -> is_finite (X [i; k]) = true /\ is_finite (Y [k; j]) = true) ->
        no_overflow prec emax (Z.to_nat l) (sum_over Rsc (zrange l) (fun k => Rabs (B2R (X [i; k]) * B2R (Y [k; j])))) ->
        approximates prec emax (zrange l) (fun k => B2R (X [i; k])) (fun k => B2R (Y [k; j])) (Z [i; j]).
  Proof.
    intros z x y m l n X Y s Ex Ey Ez Hm Hl Hn HX HY HZ D1 D2.
    exists (matmul_fn sc l X Y). split; [apply (C26_matmul dt sc Builtin z x y m l n X Y s I); auto|].
    intros i j Hi Hj HF HO.
    apply (dot_approx prec emax (zrange l) (fun k => X [i; k]) (fun k => Y [k; j])).
    - intros k Hk. apply HF. apply in_zrange; auto.
    - rewrite length_zrange. exact HO.
  Qed.

  Theorem C84_conv_nhwc : forall C z x y n h w c r s d h' w' X Y st,
    let H := axis_of (h_trait C) r in let W := axis_of (w_trait C) s in
    axis_ok H h h' -> axis_ok W w w' -> 0 <= n -> 0 <= c -> 0 <= d -> h * w * c <= 2 ^ 31 ->
    tdims x = [n; h; w; c] -> tdims y = [r; s; c; d] -> tdims z = [n; h'; w'; d] ->
    fresh_ok st -> holds dt st x X -> holds dt st y Y -> mapped st z -> disjoint z x -> disjoint z y ->
    exists Z, writes dt (conv_nhwc dt di sc Builtin C z x y) st z Z /\
      forall l i j t, valid [n; h'; w'; d] [l; i; j; t] ->
        let a := arg3 (fun u v k => zpad (s0 sc) h w (fun p q => X [l; p; q; k]) (wpos H i u) (wpos W j v)) in
        let b := arg3 (fun u v k => Y [u; v; k; t]) in
        let taps := indices [r; s; c] in
        (forall ix, valid [r; s; c] ix -> is_finite (a ix) = true /\ is_finite (b ix) = true) ->
        no_overflow prec emax (length taps) (sum_over Rsc taps (fun ix => Rabs (B2R (a ix) * B2R (b ix)))) ->
        approximates prec emax taps (fun ix => B2R (a ix)) (fun ix => B2R (b ix)) (Z [l; i; j; t]).
  Proof.
    intros C z x y n h w c r s d h' w' X Y st H W AH AW Hn Hc Hd Hsz Ex Ey Ez Hf HX HY HZ D1 D2.
    eexists. split; [apply (C16_conv_nhwc dt di sc Builtin C z x y n h w c r s d h' w' X Y st); auto; exact I|].
    intros l i j t Hv a b taps HF HO.
    apply (dot_approx prec emax taps a b); auto. intros ix Hix. apply HF. apply in_indices; auto.
  Qed.

  Theorem C84_conv_nchw : forall C z x y n h w c r s d h' w' X Y st,
    let H := axis_of (h_trait C) r in let W := axis_of (w_trait C) s in
    axis_ok H h h' -> axis_ok W w w' -> 0 <= n -> 0 <= c -> 0 <= d ->
    tdims x = [n; c; h; w] -> tdims y = [d; c; r; s] -> tdims z = [n; d; h'; w'] ->
    fresh_ok st -> holds dt st x X -> holds dt st y Y -> mapped st z -> disjoint z x -> disjoint z y ->
    exists Z, writes dt (conv_nchw dt sc Builtin C z x y) st z Z /\
      forall l t i j, valid [n; d; h'; w'] [l; t; i; j] ->
        let a := arg3 (fun k u v => Y [t; k; u; v]) in
        let b := arg3 (fun k u v => zpad (s0 sc) h w (fun p q => X [l; k; p; q]) (wpos H i u) (wpos W j v)) in
        let taps := indices [c; r; s] in
        (forall ix, valid [c; r; s] ix -> is_finite (a ix) = true /\ is_finite (b ix) = true) ->
        no_overflow prec emax (length taps) (sum_over Rsc taps (fun ix => Rabs (B2R (a ix) * B2R (b ix)))) ->
        approximates prec emax taps (fun ix => B2R (a ix)) (fun ix => B2R (b ix)) (Z [l; t; i; j]).
  Proof.
    intros C z x y n h w c r s d h' w' X Y st H W AH AW Hn Hc Hd Ex Ey Ez Hf HX HY HZ D1 D2.
    eexists. split; [apply (C17_conv_nchw dt sc Builtin C z x y n h w c r s d h' w' X Y st); auto; exact I|].
    intros l t i j Hv a b taps HF HO.
    apply (dot_approx prec emax taps a b); auto. intros ix Hix. apply HF. apply in_indices; auto.
  Qed.

  (** The bound is at most 2nu relative to the sum of the absolute values, plus
      the effect of underflow, for sums of at most 1/(2u) terms. *)
  Theorem C84_bound : forall n T, (0 <= T)%R -> (INR n * unit_roundoff prec <= / 2)%R ->
    (dot_bound prec emax n T <= 2 * INR n * unit_roundoff prec * T + 2 * INR n * half_tiny prec emax)%R.
  Proof using.
    intros n T HT Hn. pose proof (u_pos prec) as Pu. pose proof (eta_pos prec emax) as Pe.
    assert (P : forall k, (INR k * unit_roundoff prec <= / 2 -> (1 + unit_roundoff prec) ^ k <= 1 + 2 * INR k * unit_roundoff prec)%R).
    { induction k as [|k IH]; intros Hk; [cbn; lra|]. rewrite S_INR in *. cbn [pow].
      assert (Hk' : (INR k * unit_roundoff prec <= / 2)%R) by lra. specialize (IH Hk').
      apply Rle_trans with ((1 + unit_roundoff prec) * (1 + 2 * INR k * unit_roundoff prec))%R; [apply Rmult_le_compat_l; lra|].
      assert (Q : (2 * (INR k * unit_roundoff prec) * unit_roundoff prec <= 1 * unit_roundoff prec)%R) by (apply Rmult_le_compat_r; lra).
      lra. }
    specialize (P n Hn). unfold dot_bound. pose proof (pos_INR n) as Nn.
    apply Rplus_le_compat.
    - apply Rmult_le_compat_r; lra.
    - assert (Q1 : (0 <= INR n * half_tiny prec emax)%R) by (apply Rmult_le_pos; lra).
      apply Rle_trans with (INR n * half_tiny prec emax * 2)%R; [|lra]. apply Rmult_le_compat_l; lra.
  Qed.

  (** Integer data are multiplied exactly as long as the absolute values of the
      products of a sum add up to at most 2^prec. *)
  Theorem C84_integers : forall z x y m l n X Y A B s,
    tdims x = [m; l] -> tdims y = [l; n] -> tdims z = [m; n] -> 0 <= m -> 0 <= l -> 0 <= n ->
    holds dt s x X -> holds dt s y Y -> mapped s z -> disjoint z x -> disjoint z y ->
    exists Z, writes dt (op_matmul dt sc Builtin z x y) s z Z /\
      forall i j, 0 <= i < m -> 0 <= j < n ->
        (forall k, 0 <= k < l -> integral prec emax (X [i; k]) (A i k) /\ integral prec emax (Y [k; j]) (B k j)) ->
        sum_over Zsc (zrange l) (fun k => Z.abs (A i k * B k j)) <= 2 ^ prec ->
        integral prec emax (Z [i; j]) (sum_over Zsc (zrange l) (fun k => A i k * B k j)).
  Proof.
    intros z x y m l n X Y A B s Ex Ey Ez Hm Hl Hn HX HY HZ D1 D2.
    exists (matmul_fn sc l X Y). split; [apply (C26_matmul dt sc Builtin z x y m l n X Y s I); auto|].
    intros i j Hi Hj HF HO.
    apply (dot_exact prec emax (zrange l) (fun k => X [i; k]) (fun k => Y [k; j]) (A i) (fun k => B k j)); auto.
    intros k Hk. apply HF. apply in_zrange; auto.
  Qed.

  Theorem C84_integers_nhwc : forall C z x y n h w c r s d h' w' X Y A B st,
    let H := axis_of (h_trait C) r in let W := axis_of (w_trait C) s in
    axis_ok H h h' -> axis_ok W w w' -> 0 <= n -> 0 <= c -> 0 <= d -> h * w * c <= 2 ^ 31 ->
    tdims x = [n; h; w; c] -> tdims y = [r; s; c; d] -> tdims z = [n; h'; w'; d] ->
    fresh_ok st -> holds dt st x X -> holds dt st y Y -> mapped st z -> disjoint z x -> disjoint z y ->
    (forall ix, valid [n; h; w; c] ix -> integral prec emax (X ix) (A ix)) ->
    (forall ix, valid [r; s; c; d] ix -> integral prec emax (Y ix) (B ix)) ->
    exists Z, writes dt (conv_nhwc dt di sc Builtin C z x y) st z Z /\
      forall l i j t, valid [n; h'; w'; d] [l; i; j; t] ->
        let p := arg3 (fun u v k => zpad 0 h w (fun p q => A [l; p; q; k]) (wpos H i u) (wpos W j v) * B [u; v; k; t]) in
        sum_over Zsc (indices [r; s; c]) (fun ix => Z.abs (p ix)) <= 2 ^ prec ->
        integral prec emax (Z [l; i; j; t]) (sum_over Zsc (indices [r; s; c]) p).
  Proof.
    intros C z x y n h w c r s d h' w' X Y A B st H W AH AW Hn Hc Hd Hsz Ex Ey Ez Hf HX HY HZ D1 D2 IX IY.
    eexists. split; [apply (C16_conv_nhwc dt di sc Builtin C z x y n h w c r s d h' w' X Y st); auto; exact I|].
    intros l i j t Hv p HO.
    apply (dot_exact prec emax (indices [r; s; c])
      (arg3 (fun u v k => zpad (s0 sc) h w (fun p q => X [l; p; q; k]) (wpos H i u) (wpos W j v)))
      (arg3 (fun u v k => Y [u; v; k; t]))
      (arg3 (fun u v k => zpad 0 h w (fun p q => A [l; p; q; k]) (wpos H i u) (wpos W j v)))
      (arg3 (fun u v k => B [u; v; k; t]))); [|exact HO].
    intros ix Hix. apply in_indices in Hix. destruct ix as [|u [|v [|k [|? ?]]]]; cbn [valid] in Hix; try tauto.
    cbn [valid] in Hv. unfold arg3; cbn [nth]. split.
    - unfold zpad. destruct (inb h (wpos H i u) && inb w (wpos W j v)) eqn:E; [|split; reflexivity].
      apply IX. apply andb_true_iff in E. unfold inb in E. cbn [valid]. lia.
    - apply IY. cbn [valid]. lia.
  Qed.
End Rounding.

(** Concrete floats and a view of results that can be compared. *)
Definition f32 (m e : Z) : float := binary_normalize 24 128 _ _ mode_NE m e false.
Definition ft : dtype float float := dt_id float.
Definition shown (o : option (list (cell float))) : option (list (option spec_float)) :=
  option_map (map (fun c => match c with Init v => Some (B2SF v) | _ => None end)) o.
Definition floats (l : list float) : option (list (option spec_float)) := Some (map (fun v => Some (B2SF v)) l).

(** [0.1 0.2 0.3] times its transpose, 0.14 up to rounding: 9395242 / 2^26; the
    hypotheses of C84_matmul hold. *)
Definition tenths : list float := [f32 13421773 (-27); f32 13421773 (-26); f32 10066330 (-25)].
Example C84_example :
  shown (run (op_matmul ft F32 Builtin (T_ 2 [1; 1]) (T_ 0 [1; 3]) (T_ 1 [3; 1])) (demo [tenths; tenths; [f32 9 0]]) (T_ 2 [1]))
    = floats [f32 9395242 (-26)].
Proof. vm_compute. reflexivity. Qed.

(** 2^25 + 3 - 2^25 over integers is not exact: the sum of the absolute values
    exceeds 2^24. *)
Example C84_example_integers :
  shown (run (op_matmul ft F32 Builtin (T_ 2 [1; 1]) (T_ 0 [1; 3]) (T_ 1 [3; 1]))
    (demo [[f32 3000 0; f32 (-4000) 0; f32 5 0]; [f32 2000 0; f32 1000 0; f32 7 0]; [f32 9 0]]) (T_ 2 [1]))
    = floats [f32 2000035 0] /\
  shown (run (op_matmul ft F32 Builtin (T_ 2 [1; 1]) (T_ 0 [1; 3]) (T_ 1 [3; 1]))
    (demo [[f32 1 25; f32 3 0; f32 (-1) 25]; [f32 1 0; f32 1 0; f32 1 0]; [f32 9 0]]) (T_ 2 [1]))
    = floats [f32 4 0].
Proof. split; vm_compute; reflexivity. Qed.

(** The two layouts add in different orders: in floating point C18 does not
    hold.  2^24 + 1 - 2^24, a convolution with a 1 x 2 filter of ones over two
    channels. *)
Definition shown1 (o : option (list (cell (float + Z)))) : option (list (option spec_float)) :=
  option_map (map (fun c => match c with Init (inl v) => Some (B2SF v) | _ => None end)) o.
Theorem C84_layouts_refuted :
  let s := demo (map (map inl)
    [[f32 1 24; f32 1 0; f32 (-1) 24; f32 0 0]; [f32 1 24; f32 (-1) 24; f32 1 0; f32 0 0];
     [f32 1 0; f32 1 0; f32 1 0; f32 1 0]; [f32 9 0]; [f32 9 0]]) in
  let C := new_conv_ps (mkpadding 0 0) (mkpadding 0 0) 1 1 in
  shown1 (run (conv_nhwc (dt_inl float Z) (dt_inr float Z) F32 Builtin C (T_ 3 [1; 1; 1; 1]) (T_ 0 [1; 1; 2; 2]) (T_ 2 [1; 2; 2; 1]))
    s (T_ 3 [1])) = floats [f32 0 0] /\
  shown1 (run (conv_nchw (dt_inl float Z) F32 Builtin C (T_ 4 [1; 1; 1; 1]) (T_ 1 [1; 2; 1; 2]) (T_ 2 [1; 2; 1; 2]))
    s (T_ 4 [1])) = floats [f32 1 0].
Proof. vm_compute. split; reflexivity. Qed.

Section NotANumber.
  Context {V : Type} (prec emax : Z) {Hprec : Prec_gt_0 prec} {Hmax : Prec_lt_emax prec emax}.
  Context (dt : dtype V (binary_float prec emax)).
  Notation sc := (Fsc prec emax).
  Notation flt := (binary_float prec emax).
  Notation pzero := (B754_zero false).
  (** The values of the pixels under a window. *)
  Notation seen2 P h w X i j :=
    (map (fun p => X [fst p; snd p]) (window (h_sample P) (w_sample P) h w i j)).
  Notation seen3 P h w X i j k :=
    (map (fun p => X [fst p; snd p; k]) (window (h_sample P) (w_sample P) h w i j)).

  (** *** C85: NaN and infinities. *)

  (** C37, C43, C47 and C48 apply to floats that are not NaN. *)
  Theorem C85_order : weak_order (fun v : flt => is_nan v = false) (sltb sc).
  Proof using. apply float_order. Qed.

  (** A NaN in the row or the column gives a NaN. *)
  Theorem C85_matmul : forall z x y m l n X Y s,
    tdims x = [m; l] -> tdims y = [l; n] -> tdims z = [m; n] -> 0 <= m -> 0 <= l -> 0 <= n ->
    holds dt s x X -> holds dt s y Y -> mapped s z -> disjoint z x -> disjoint z y ->
    exists Z, writes dt (op_matmul dt sc Builtin z x y) s z Z /\
      forall i j k, 0 <= i < m -> 0 <= j < n -> 0 <= k < l ->
        is_nan (X [i; k]) = true \/ is_nan (Y [k; j]) = true -> is_nan (Z [i; j]) = true.
  Proof.
    intros z x y m l n X Y s Ex Ey Ez Hm Hl Hn HX HY HZ D1 D2.
    exists (matmul_fn sc l X Y). split; [apply (C26_matmul dt sc Builtin z x y m l n X Y s I); auto|].
    intros i j k Hi Hj Hk HN. unfold matmul_fn, arg2; cbn [nth].
    rewrite (sum_nan prec emax _ _ k); [reflexivity|apply in_zrange; auto|]. cbn [smul Fsc].
    destruct HN as [HN|HN]; rewrite (nan_eq prec emax _ HN).
    - destruct (Y [k; j]); reflexivity.
    - destruct (X [i; k]); reflexivity.
  Qed.

  (** relu never returns a NaN: it replaces NaN by zero. *)
  Theorem C85_relu : forall y x X s,
    dims_ok x -> tdims y = tdims x -> holds dt s x X -> mapped s y -> disjoint y x ->
    exists Y, writes dt (op_relu dt sc y x) s y Y /\
      forall ix, valid (tdims x) ix ->
        is_nan (Y ix) = false /\ Bltb (Y ix) pzero = false /\
        (is_nan (X ix) = true -> Y ix = pzero) /\
        (is_finite (X ix) = true -> is_finite (Y ix) = true /\ B2R (Y ix) = Rmax 0 (B2R (X ix))) /\
        (X ix = B754_infinity false -> Y ix = B754_infinity false) /\
        (X ix = B754_infinity true -> Y ix = pzero).
  Proof using.
    intros y x X s Dx E HX HY D. exists (fun ix => relu1 sc (X ix)). split.
    - unfold op_relu, op_pointwise. rewrite transform1_flat. apply transform1_writes; auto.
      + unfold dims_ok in *; congruence.
      + left; auto.
    - intros ix _. unfold relu1; cbn [sltb s0 Fsc]. generalize (X ix). intros v.
      assert (Z0 : Bltb (pzero : flt) pzero = false) by reflexivity.
      destruct (is_finite v) eqn:F.
      + assert (F0 : is_finite (pzero : flt) = true) by reflexivity.
        rewrite (Bltb_correct prec emax pzero v F0 F). change (B2R (pzero : flt)) with 0%R.
        assert (NI : forall s, v <> B754_infinity s) by (intros s' ->; discriminate).
        assert (Nv : is_nan v = false) by (destruct v; try discriminate; reflexivity).
        destruct (Rlt_bool_spec 0 (B2R v)).
        * rewrite (Bltb_correct prec emax v pzero F F0). change (B2R (pzero : flt)) with 0%R. rewrite Rlt_bool_false by lra.
          rewrite Rmax_right by lra. repeat split; auto; try congruence; intros Q; exfalso; eapply NI; eauto.
        * rewrite Rmax_left by lra. repeat split; auto; intros Q; exfalso; eapply NI; eauto.
      + destruct v as [?|b| |? ? ? ?]; try discriminate.
        * destruct b; cbn; repeat split; auto; discriminate.
        * cbn. repeat split; auto; discriminate.
  Qed.

  (** Max pooling ignores NaN: each output is the greatest of lowest() and the
      cells of its window that are not NaN. *)
  Theorem C85_max_hw : forall kh kw ph pw sh sw P h w ds y x X s,
    pool_args kh kw ph pw h w -> new_pool_kps kh kw ph pw sh sw = Ret P ->
    pool_shape2 P [h; w] = Ret ds -> tdims x = [h; w] -> tdims y = ds ->
    holds dt s x X -> mapped s y -> disjoint y x ->
    exists Y, writes dt (op_pool_hw dt (max_acc sc (Flowest prec emax)) P y x) s y Y /\
      forall i j, valid ds [i; j] ->
        is_nan (Y [i; j]) = false /\
        (Y [i; j] = Flowest prec emax \/ In (Y [i; j]) (seen2 P h w X i j)) /\
        Bltb (Y [i; j]) (Flowest prec emax) = false /\
        (forall v, In v (seen2 P h w X i j) -> Bltb (Y [i; j]) v = false).
  Proof using.
    intros kh kw ph pw sh sw P h w ds y x X s G EP ES Ex Ey HX HY D.
    destruct (pool_axes _ _ _ _ _ _ _ _ _ _ G EP ES) as (E & h' & w' & -> & AH & AW).
    exists (arg2 (fun i j => fold_left (fun val x => if sltb sc val x then x else val) (seen2 P h w X i j) (Flowest prec emax))).
    split.
    - apply (pool_hw_writes dt _ (h_sample P) (w_sample P) y x h w h' w' X); auto using axis_ok_fits.
    - intros i j Hv. unfold arg2; cbn [nth].
      apply (fold_max_dom sc (fun v : flt => is_nan v = false)); [apply float_order| | |reflexivity].
      + intros v. destruct (is_nan v); auto.
      + intros a v Nv. apply not_false_is_true in Nv. cbn [sltb Fsc]. rewrite (nan_eq prec emax v Nv). apply ltb_nan_r.
  Qed.

  Theorem C85_max_hwc : forall kh kw ph pw sh sw P h w c h' w' y x X s,
    pool_args kh kw ph pw h w -> new_pool_kps kh kw ph pw sh sw = Ret P ->
    pool_shape2 P [h; w] = Ret [h'; w'] -> tdims x = [h; w; c] -> tdims y = [h'; w'; c] -> 0 <= c ->
    holds dt s x X -> mapped s y -> disjoint y x ->
    exists Y, writes dt (op_pool_hwc dt (max_acc sc (Flowest prec emax)) P y x) s y Y /\
      forall i j k, valid [h'; w'; c] [i; j; k] ->
        is_nan (Y [i; j; k]) = false /\
        (Y [i; j; k] = Flowest prec emax \/ In (Y [i; j; k]) (seen3 P h w X i j k)) /\
        Bltb (Y [i; j; k]) (Flowest prec emax) = false /\
        (forall v, In v (seen3 P h w X i j k) -> Bltb (Y [i; j; k]) v = false).
  Proof using.
    intros kh kw ph pw sh sw P h w c h' w' y x X s G EP ES Ex Ey Hc HX HY D.
    destruct (pool_axes _ _ _ _ _ _ _ _ _ _ G EP ES) as (E & h2 & w2 & E2 & AH & AW).
    inversion E2; subst h2 w2; clear E2.
    exists (arg3 (fun i j k => fold_left (fun val x => if sltb sc val x then x else val) (seen3 P h w X i j k) (Flowest prec emax))).
    split.
    - apply (pool_hwc_writes dt _ (h_sample P) (w_sample P) y x h w c h' w' X); auto using axis_ok_fits.
    - intros i j k Hv. unfold arg3; cbn [nth].
      apply (fold_max_dom sc (fun v : flt => is_nan v = false)); [apply float_order| | |reflexivity].
      + intros v. destruct (is_nan v); auto.
      + intros a v Nv. apply not_false_is_true in Nv. cbn [sltb Fsc]. rewrite (nan_eq prec emax v Nv). apply ltb_nan_r.
  Qed.

  (** Mean pooling keeps NaN. *)
  Theorem C85_mean_hw : forall kh kw ph pw sh sw P h w ds y x X s,
    pool_args kh kw ph pw h w -> new_pool_kps kh kw ph pw sh sw = Ret P ->
    pool_shape2 P [h; w] = Ret ds -> tdims x = [h; w] -> tdims y = ds ->
    holds dt s x X -> mapped s y -> disjoint y x ->
    exists Y, writes dt (op_pool_hw dt (mean_acc sc (div_float sc)) P y x) s y Y /\
      forall i j v, valid ds [i; j] -> In v (seen2 P h w X i j) -> is_nan v = true -> is_nan (Y [i; j]) = true.
  Proof using.
    intros kh kw ph pw sh sw P h w ds y x X s G EP ES Ex Ey HX HY D.
    destruct (pool_axes _ _ _ _ _ _ _ _ _ _ G EP ES) as (E & h' & w' & -> & AH & AW).
    exists (arg2 (fun i j => let a := fold_left (acc_step (mean_acc sc (div_float sc))) (seen2 P h w X i j) (s0 sc, 0) in
      Bdiv mode_NE (fst a) (sofZ sc (snd a)))).
    split.
    - apply (pool_hw_writes dt _ (h_sample P) (w_sample P) y x h w h' w' X); auto using axis_ok_fits.
    - intros i j v Hv Hin Nv. unfold arg2; cbn [nth]. cbv zeta.
      assert (N : forall l (a : flt * Z), is_nan (fst a) = true \/ In v l ->
        is_nan (fst (fold_left (acc_step (mean_acc sc (div_float sc))) l a)) = true).
      { induction l as [|b l IH]; intros a Ha; cbn [fold_left].
        - destruct Ha as [Ha|[]]. exact Ha.
        - apply IH. cbn [acc_step mean_acc fst sadd Fsc]. destruct Ha as [Ha|[->|Hl]]; [left|left|right; auto].
          + rewrite (nan_eq prec emax _ Ha), plus_nan_l. reflexivity.
          + rewrite (nan_eq prec emax _ Nv), plus_nan_r. reflexivity. }
      specialize (N (seen2 P h w X i j) (s0 sc, 0) (or_intror Hin)).
      rewrite (nan_eq prec emax _ N). destruct (sofZ sc _); reflexivity.
  Qed.

  (** argmax: a row that starts with NaN gives 0; otherwise NaN is ignored. *)
  Theorem C85_argmax : forall (dn : dtype V Z) N y x ds n X s,
    0 < it_bits N -> n - 1 <= it_max N -> 1 <= n ->
    tdims y = ds -> tdims x = ds ++ [n] -> dims_ok x ->
    holds dt s x X -> mapped s y -> disjoint y x ->
    exists J, writes dn (op_argmax dn N dt sc (length ds) y x) s y J /\
      forall ix, valid ds ix ->
        (is_nan (X (ix ++ [0])) = true -> J ix = 0) /\
        (is_nan (X (ix ++ [0])) = false ->
           0 <= J ix < n /\ is_nan (X (ix ++ [J ix])) = false /\
           (forall k, 0 <= k < n -> Bltb (X (ix ++ [J ix])) (X (ix ++ [k])) = false) /\
           (forall k, 0 <= k < J ix -> is_nan (X (ix ++ [k])) = false -> Bltb (X (ix ++ [k])) (X (ix ++ [J ix])) = true)).
  Proof using.
    intros dn N y x ds n X s Hb HN Hn Ey Ex Dx HX HY D.
    exists (fun ix => scan sc n (row X ix)). split; [apply op_argmax_writes; auto|].
    intros ix Hv. split.
    - intros N0. apply scan_stuck. intros v. unfold row. rewrite (nan_eq prec emax _ N0). apply ltb_nan_l.
    - intros N0. apply (scan_dom sc (fun v : flt => is_nan v = false) (row X ix)); auto.
      + apply float_order.
      + intros v. destruct (is_nan v); auto.
      + intros a v Nv. apply not_false_is_true in Nv. cbn [sltb Fsc]. rewrite (nan_eq prec emax v Nv). apply ltb_nan_r.
  Qed.

  Context (exp_ : flt -> flt) (EO : exp_ok prec emax exp_).

  (** softmax of any row, whatever it contains: every output is finite and lies
      between eps and 1 (or eps, if that is greater). *)
  Theorem C85_softmax : forall eps y x ds n X s, is_finite eps = true ->
    tdims x = ds ++ [n] -> tdims y = ds ++ [n] -> dims_ok x ->
    holds dt s x X -> mapped s y -> disjoint y x ->
    exists Y, writes dt (op_softmax dt sc exp_ (length ds + 1) eps y x) s y Y /\
      forall ix i, valid ds ix -> 0 <= i < n ->
        is_finite (Y (ix ++ [i])) = true /\ (B2R eps <= B2R (Y (ix ++ [i])) <= Rmax (B2R eps) 1)%R.
  Proof.
    intros eps y x ds n X s Fe Ex Ey Dx HX HY D.
    eexists. split; [apply (op_softmax_writes dt sc exp_ eps y x ds n X (Bdiv mode_NE Bone) s); auto|].
    intros ix i Hv Hi. cbv beta. rewrite removelast_last, last_last.
    pose proof (soft_cases prec emax exp_ n (row X ix) i EO Hi) as Q. cbv zeta in Q.
    set (q := Bdiv mode_NE Bone (soft_tot sc exp_ n (row X ix) i)) in *.
    destruct (smax_cases prec emax eps q Fe) as [C1 C2]. destruct Q as [Q|[Q1 Q2]].
    - rewrite (C1 Q). split; [exact Fe|]. split; [lra|apply Rmax_l].
    - destruct (C2 Q1) as [F ->]. split; [exact F|]. split; [apply Rmax_l|].
      apply Rmax_lub; [apply Rmax_l|]. eapply Rle_trans; [|apply Rmax_r]. lra.
  Qed.

  (** A NaN or +infinity anywhere in a row turns the whole row into eps. *)
  Theorem C85_softmax_bad : forall eps y x ds n X s, is_finite eps = true -> (0 <= B2R eps)%R ->
    tdims x = ds ++ [n] -> tdims y = ds ++ [n] -> dims_ok x ->
    holds dt s x X -> mapped s y -> disjoint y x ->
    exists Y, writes dt (op_softmax dt sc exp_ (length ds + 1) eps y x) s y Y /\
      forall ix i j, valid ds ix -> 0 <= i < n -> 0 <= j < n ->
        X (ix ++ [j]) = B754_nan \/ X (ix ++ [j]) = B754_infinity false -> Y (ix ++ [i]) = eps.
  Proof.
    intros eps y x ds n X s Fe Pe Ex Ey Dx HX HY D.
    eexists. split; [apply (op_softmax_writes dt sc exp_ eps y x ds n X (Bdiv mode_NE Bone) s); auto|].
    intros ix i j Hv Hi Hj Hb. cbv beta. rewrite removelast_last, last_last.
    pose proof (soft_bad prec emax exp_ n (row X ix) i j EO Hi Hj Hb) as Q. cbv zeta in Q.
    set (q := Bdiv mode_NE Bone (soft_tot sc exp_ n (row X ix) i)) in *.
    destruct Q as [Q|[Q1 Q2]]; [apply smax_cases; auto|].
    unfold smax; cbn [sltb Fsc]. rewrite Bltb_correct by auto. rewrite Q2, Rlt_bool_false by lra. reflexivity.
  Qed.

  (** Hence such a row is classified as class 0. *)
  Theorem C85_classify : forall (dn : dtype V Z) N eps c y x ds n X s, is_finite eps = true -> (0 <= B2R eps)%R ->
    0 < it_bits N -> n - 1 <= it_max N -> 1 <= n ->
    tdims x = ds ++ [n] -> tdims y = ds ++ [n] -> tdims c = ds -> dims_ok x ->
    holds dt s x X -> mapped s y -> mapped s c -> disjoint y x -> disjoint c y ->
    exists s' J, (op_softmax dt sc exp_ (length ds + 1) eps y x ;;; op_argmax dn N dt sc (length ds) c y) s = Ok tt s' /\
      holds dn s' c J /\
      forall ix j, valid ds ix -> 0 <= j < n ->
        X (ix ++ [j]) = B754_nan \/ X (ix ++ [j]) = B754_infinity false -> J ix = 0.
  Proof.
    intros dn N eps c y x ds n X s Fe Pe Hb HN Hn Ex Ey Ec Dx HX HY HC D1 D2.
    assert (Dy : dims_ok y) by (unfold dims_ok in *; congruence).
    destruct (C85_softmax_bad eps y x ds n X s Fe Pe Ex Ey Dx HX HY D1) as (Y & W & B).
    destruct (writes_then dt dn _ (op_argmax dn N dt sc (length ds) c y) s y c Y (fun ix => scan sc n (row Y ix)) W) as (s2 & E & _ & H & _).
    - intros s' Hs' (_ & O). apply op_argmax_writes; auto.
      intros p Hp. rewrite O; [apply HC; auto|]. intros Hq. exact (D2 _ Hp Hq).
    - exists s2, (fun ix => scan sc n (row Y ix)). split; [exact E|]. split; [exact H|].
      intros ix j Hv Hj Hbad.
      assert (K : forall i, 0 <= i < n -> row Y ix i = eps) by (intros i Hi; exact (B ix i j Hv Hi Hj Hbad)).
      assert (Ne : is_nan eps = false) by (destruct eps; try discriminate; reflexivity).
      destruct (scan_dom sc (fun v : flt => is_nan v = false) (row Y ix) (float_order prec emax)) with (n := n) as (R & _ & _ & L); auto.
      + intros v. destruct (is_nan v); auto.
      + intros a v Nv. apply not_false_is_true in Nv. cbn [sltb Fsc]. rewrite (nan_eq prec emax v Nv). apply ltb_nan_r.
      + rewrite K by lia. exact Ne.
      + destruct (Z.eq_dec (scan sc n (row Y ix)) 0) as [Z0|Z0]; [exact Z0|exfalso].
        specialize (L 0 ltac:(lia)). rewrite !K in L by lia. specialize (L Ne). cbn [sltb Fsc] in L.
        rewrite (proj1 (float_order prec emax) eps Ne) in L. discriminate.
  Qed.
End NotANumber.

(** A crude exponential with the required special cases. *)
Definition exp_toy (x : float) : float :=
  match x with
  | B754_nan => B754_nan
  | B754_infinity false => B754_infinity false
  | B754_infinity true => B754_zero false
  | B754_zero _ => f32 1 0
  | B754_finite s _ _ _ => if s then f32 1 (-1) else f32 1 1
  end.
Example C85_exp_ok : exp_ok 24 128 exp_toy.
Proof.
  assert (E1 : f32 1 0 = Bone) by (apply B2SF_inj; vm_compute; reflexivity).
  repeat split.
  - intros [?|?| |? ? ? ?]; try discriminate. reflexivity.
  - destruct x as [?|[]| |[] ? ? ?]; try discriminate; vm_compute; reflexivity.
  - destruct x as [?|[]| |[] ? ? ?]; try discriminate; vm_compute; reflexivity.
  - intros s. cbn [exp_toy]. rewrite E1. apply Bone_correct.
Qed.

Definition nan : float := B754_nan.
Definition inf : float := B754_infinity false.
Example C85_example :
  (* softmax of [0 1], [1 NaN], [inf 0] with eps = 1/8, then the classes *)
  shown (run (op_softmax ft F32 exp_toy 2 (f32 1 (-3)) (T_ 1 [3; 2]) (T_ 0 [3; 2]))
    (demo [[f32 0 0; f32 1 0; f32 1 0; nan; inf; f32 0 0]; repeat nan 6]) (T_ 1 [6]))
    = floats [f32 11184811 (-25); f32 11184811 (-24); f32 1 (-3); f32 1 (-3); f32 1 (-3); f32 1 (-3)] /\
  (* relu *)
  shown (run (op_relu ft F32 (T_ 1 [4]) (T_ 0 [4])) (demo [[nan; f32 (-1) 0; f32 2 0; inf]; repeat nan 4]) (T_ 1 [4]))
    = floats [f32 0 0; f32 0 0; f32 2 0; inf] /\
  (* 2 x 2 max pooling of a 2 x 4 image *)
  match new_pool_kps 2 2 (mkpadding 0 0) (mkpadding 0 0) 2 2 with
  | Ret P =>
      shown (run (op_pool_hw ft (max_acc F32 (Flowest 24 128)) P (T_ 1 [1; 2]) (T_ 0 [2; 4]))
        (demo [[nan; f32 (-3) 0; nan; nan; f32 (-5) 0; nan; nan; nan]; repeat nan 2]) (T_ 1 [2]))
        = floats [f32 (-3) 0; Flowest 24 128]
  | _ => False
  end /\
  (* argmax of [NaN 5 7], [1 NaN 7] *)
  match op_argmax (dt_inr float Z) (mkitype false 8) (dt_inl float Z) F32 1 (T_ 1 [2]) (T_ 0 [2; 3])
    (demo (map (map inl) [[nan; f32 5 0; f32 7 0; f32 1 0; nan; f32 7 0]; repeat nan 2])) with
  | Ok _ s => dump s (T_ 1 [2]) = [Init (inr 0); Init (inr 2)]
  | _ => False
  end.
Proof. vm_compute. repeat split; reflexivity. Qed.

Print Assumptions C84_matmul.
Print Assumptions C84_conv_nhwc.
Print Assumptions C84_conv_nchw.
Print Assumptions C84_bound.
Print Assumptions C84_integers.
Print Assumptions C84_integers_nhwc.
Print Assumptions C84_layouts_refuted.
Print Assumptions C85_order.
Print Assumptions C85_matmul.
Print Assumptions C85_relu.
Print Assumptions C85_max_hw.
Print Assumptions C85_max_hwc.
Print Assumptions C85_mean_hw.
Print Assumptions C85_argmax.
Print Assumptions C85_softmax.
Print Assumptions C85_softmax_bad.
Print Assumptions C85_classify.
