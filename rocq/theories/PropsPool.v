(** Properties C37 - C40: pooling. *)
From Coq Require Import ZArith List Bool Lia ZifyBool Reals.
From Verif Require Import Base BaseFacts TensorFacts Traits TraitsSpec TraitsFacts Scalar RealScalar
  Conv ConvSpec ConvFacts Pool PoolSpec PoolFacts ActivationSpec Demo.
Import ListNotations.
Open Scope Z_scope.
Open Scope model_scope.

(** *** C37: max and mean over exactly the in-image cells of each window. *)

(** What a window is: the pixels (p, q) with
    i sh <= p + top < i sh + kh and j sw <= q + left < j sw + kw. *)
Theorem C37_window : forall kh kw ph pw sh sw P h w i j p q,
  new_pool_kps kh kw ph pw sh sw = Ret P ->
  (In (p, q) (window (h_sample P) (w_sample P) h w i j) <->
   0 <= p < h /\ 0 <= q < w /\
   i * sh <= p + left_ ph < i * sh + kh /\ j * sw <= q + left_ pw < j * sw + kw).
Proof.
  intros kh kw [a b] [c d] sh sw P h w i j p q E.
  assert (K : 1 <= kh /\ 1 <= kw /\ 1 <= sh /\ 1 <= sw).
  { destruct (Z.ltb_spec kh 1); [|destruct (Z.ltb_spec kw 1); [|destruct (Z.ltb_spec sh 1); [|
      destruct (Z.ltb_spec sw 1); [|lia]]]];
    rewrite new_pool_kps_throws in E by lia; discriminate. }
  rewrite new_pool_kps_iff in E by apply K. inversion E; subst P; clear E. cbn [h_sample w_sample].
  unfold window. rewrite filter_In, in_map_iff. unfold inb; cbn [fst snd sfilter ksize]. split.
  - intros ((ix & E & I) & F). apply in_indices, valid_2 in I. destruct I as (u & v & -> & Hu & Hv).
    unfold arg2, wpos, tap in E; cbn [nth sfilter spadding stride rate left_] in *. inversion E; subst p q. lia.
  - intros (Hp & Hq & Hi & Hj). split; [|lia].
    exists [p + a - i * sh; q + c - j * sw]. split.
    + unfold arg2, wpos, tap; cbn [nth sfilter spadding stride rate left_]. f_equal; lia.
    + apply in_indices. cbn [valid left_] in *. lia.
Qed.

Section Pool.
  Context {V T : Type} (dt : dtype V T) (sc : scalar T).

  (** The pixel values seen by window (i, j). *)
  Notation seen2 P h w X i j :=
    (map (fun p => X [fst p; snd p]) (window (h_sample P) (w_sample P) h w i j)).
  Notation seen3 P h w X i j k :=
    (map (fun p => X [fst p; snd p; k]) (window (h_sample P) (w_sample P) h w i j)).

  (** Maximum.  Paddings below the kernel size: every window has a pixel
      (see C40). *)
  Theorem C37_max_hw : forall dom lowest kh kw ph pw sh sw P h w ds y x X s,
    pool_args kh kw ph pw h w -> new_pool_kps kh kw ph pw sh sw = Ret P ->
    pool_shape2 P [h; w] = Ret ds -> tdims x = [h; w] -> tdims y = ds ->
    holds dt s x X -> mapped s y -> disjoint y x ->
    1 <= h -> 1 <= w -> left_ ph < kh -> right_ ph < kh -> left_ pw < kw -> right_ pw < kw ->
    weak_order dom (sltb sc) -> dom lowest ->
    (forall ix, valid [h; w] ix -> dom (X ix) /\ (sltb sc lowest (X ix) = true \/ X ix = lowest)) ->
    exists Y, writes dt (op_pool_hw dt (max_acc sc lowest) P y x) s y Y /\
      forall i j, valid ds [i; j] -> greatest (sltb sc) (seen2 P h w X i j) (Y [i; j]).
  Proof using.
    intros dom lowest kh kw ph pw sh sw P h w ds y x X s G EP ES Ex Ey HX HY D Hh Hw P1 P2 P3 P4 SO DL HL.
    destruct (pool_axes _ _ _ _ _ _ _ _ _ _ G EP ES) as (E & h' & w' & -> & AH & AW).
    assert (M : forall i j, 0 <= i < h' -> 0 <= j < w' ->
      exists v, pooled (max_acc sc lowest) (seen2 P h w X i j) = Ret v /\ greatest (sltb sc) (seen2 P h w X i j) v).
    { intros i j Hi Hj. apply (max_pooled sc dom); auto.
      - intros Q. apply map_eq_nil in Q. revert Q. subst P. destruct ph, pw; cbn [h_sample w_sample] in *.
        apply window_nonempty; eapply axis_hit; eauto.
      - intros v Hv. apply in_map_iff in Hv. destruct Hv as (p & <- & Hp). apply HL.
        apply window_in in Hp. cbn. tauto. }
    exists (fun ix => match pooled (max_acc sc lowest) (seen2 P h w X (nth 0 ix 0) (nth 1 ix 0)) with
                      | Ret v => v | _ => lowest end).
    split.
    - apply (pool_hw_writes dt _ (h_sample P) (w_sample P) y x h w h' w' X); auto using axis_ok_fits.
    - intros i j Hv. cbn in Hv. cbn [nth]. destruct (M i j) as (v & E1 & Gv); try tauto. rewrite E1. exact Gv.
  Qed.

  Theorem C37_max_hwc : forall dom lowest kh kw ph pw sh sw P h w c h' w' y x X s,
    pool_args kh kw ph pw h w -> new_pool_kps kh kw ph pw sh sw = Ret P ->
    pool_shape2 P [h; w] = Ret [h'; w'] -> tdims x = [h; w; c] -> tdims y = [h'; w'; c] -> 0 <= c ->
    holds dt s x X -> mapped s y -> disjoint y x ->
    1 <= h -> 1 <= w -> left_ ph < kh -> right_ ph < kh -> left_ pw < kw -> right_ pw < kw ->
    weak_order dom (sltb sc) -> dom lowest ->
    (forall ix, valid [h; w; c] ix -> dom (X ix) /\ (sltb sc lowest (X ix) = true \/ X ix = lowest)) ->
    exists Y, writes dt (op_pool_hwc dt (max_acc sc lowest) P y x) s y Y /\
      forall i j k, valid [h'; w'; c] [i; j; k] -> greatest (sltb sc) (seen3 P h w X i j k) (Y [i; j; k]).
  Proof using.
    intros dom lowest kh kw ph pw sh sw P h w c h' w' y x X s G EP ES Ex Ey Hc HX HY D Hh Hw P1 P2 P3 P4 SO DL HL.
    destruct (pool_axes _ _ _ _ _ _ _ _ _ _ G EP ES) as (E & h2 & w2 & E2 & AH & AW).
    inversion E2; subst h2 w2; clear E2.
    assert (M : forall i j k, 0 <= i < h' -> 0 <= j < w' -> 0 <= k < c ->
      exists v, pooled (max_acc sc lowest) (seen3 P h w X i j k) = Ret v /\ greatest (sltb sc) (seen3 P h w X i j k) v).
    { intros i j k Hi Hj Hk. apply (max_pooled sc dom); auto.
      - intros Q. apply map_eq_nil in Q. revert Q. subst P. destruct ph, pw; cbn [h_sample w_sample] in *.
        apply window_nonempty; eapply axis_hit; eauto.
      - intros v Hv. apply in_map_iff in Hv. destruct Hv as (p & <- & Hp). apply HL.
        apply window_in in Hp. cbn. tauto. }
    exists (fun ix => match pooled (max_acc sc lowest) (seen3 P h w X (nth 0 ix 0) (nth 1 ix 0) (nth 2 ix 0)) with
                      | Ret v => v | _ => lowest end).
    split.
    - apply (pool_hwc_writes dt _ (h_sample P) (w_sample P) y x h w c h' w' X); auto using axis_ok_fits.
    - intros i j k Hv. cbn in Hv. cbn [nth]. destruct (M i j k) as (v & E1 & Gv); try tauto. rewrite E1. exact Gv.
  Qed.

  (** Mean: the sum in row-major order divided by the number of cells; the
      division is that of the element type. *)
  Theorem C37_mean_hw : forall div_n kh kw ph pw sh sw P h w ds y x X Y s,
    pool_args kh kw ph pw h w -> kh * kw < 2 ^ 32 -> new_pool_kps kh kw ph pw sh sw = Ret P ->
    pool_shape2 P [h; w] = Ret ds -> tdims x = [h; w] -> tdims y = ds ->
    holds dt s x X -> mapped s y -> disjoint y x ->
    (forall i j, valid ds [i; j] ->
       div_n (sum_over sc (window (h_sample P) (w_sample P) h w i j) (fun p => X [fst p; snd p]))
             (Z.of_nat (length (window (h_sample P) (w_sample P) h w i j))) = Ret (Y [i; j])) ->
    writes dt (op_pool_hw dt (mean_acc sc div_n) P y x) s y Y.
  Proof using.
    intros div_n kh kw ph pw sh sw P h w ds y x X Y s G Hk EP ES Ex Ey HX HY D HQ.
    destruct (pool_axes _ _ _ _ _ _ _ _ _ _ G EP ES) as (E & h' & w' & -> & AH & AW).
    apply (pool_hw_writes dt _ (h_sample P) (w_sample P) y x h w h' w' X); auto using axis_ok_fits. intros i j Hi Hj.
    pose proof (axis_k _ _ _ AH) as K1. pose proof (axis_k _ _ _ AW) as K2.
    pose proof (window_length (h_sample P) (w_sample P) h w i j ltac:(lia) ltac:(lia)) as L.
    assert (Ek : ksize (sfilter (h_sample P)) = kh /\ ksize (sfilter (w_sample P)) = kw) by (subst P; auto).
    destruct Ek as [-> ->] in L.
    rewrite mean_pooled by (rewrite map_length; lia).
    rewrite LinAlgFacts.sum_over_map, map_length. apply HQ. cbn. auto.
  Qed.

  Theorem C37_mean_hwc : forall div_n kh kw ph pw sh sw P h w c h' w' y x X Y s,
    pool_args kh kw ph pw h w -> kh * kw < 2 ^ 32 -> new_pool_kps kh kw ph pw sh sw = Ret P ->
    pool_shape2 P [h; w] = Ret [h'; w'] -> tdims x = [h; w; c] -> tdims y = [h'; w'; c] -> 0 <= c ->
    holds dt s x X -> mapped s y -> disjoint y x ->
    (forall i j k, valid [h'; w'; c] [i; j; k] ->
       div_n (sum_over sc (window (h_sample P) (w_sample P) h w i j) (fun p => X [fst p; snd p; k]))
             (Z.of_nat (length (window (h_sample P) (w_sample P) h w i j))) = Ret (Y [i; j; k])) ->
    writes dt (op_pool_hwc dt (mean_acc sc div_n) P y x) s y Y.
  Proof using.
    intros div_n kh kw ph pw sh sw P h w c h' w' y x X Y s G Hk EP ES Ex Ey Hc HX HY D HQ.
    destruct (pool_axes _ _ _ _ _ _ _ _ _ _ G EP ES) as (E & h2 & w2 & E2 & AH & AW).
    inversion E2; subst h2 w2; clear E2.
    apply (pool_hwc_writes dt _ (h_sample P) (w_sample P) y x h w c h' w' X); auto using axis_ok_fits. intros i j k Hi Hj Hkk.
    pose proof (axis_k _ _ _ AH) as K1. pose proof (axis_k _ _ _ AW) as K2.
    pose proof (window_length (h_sample P) (w_sample P) h w i j ltac:(lia) ltac:(lia)) as L.
    assert (Ek : ksize (sfilter (h_sample P)) = kh /\ ksize (sfilter (w_sample P)) = kw) by (subst P; auto).
    destruct Ek as [-> ->] in L.
    rewrite mean_pooled by (rewrite map_length; lia).
    rewrite LinAlgFacts.sum_over_map, map_length. apply HQ. cbn. auto.
  Qed.
End Pool.

(** The mean over the reals. *)
Theorem C37_mean_real : forall V (dt : dtype V R) kh kw ph pw sh sw P h w ds y x X s,
  pool_args kh kw ph pw h w -> kh * kw < 2 ^ 32 -> new_pool_kps kh kw ph pw sh sw = Ret P ->
  pool_shape2 P [h; w] = Ret ds -> tdims x = [h; w] -> tdims y = ds ->
  holds dt s x X -> mapped s y -> disjoint y x ->
  1 <= h -> 1 <= w -> left_ ph < kh -> right_ ph < kh -> left_ pw < kw -> right_ pw < kw ->
  writes dt (op_pool_hw dt (mean_acc Rsc (div_float Rsc)) P y x) s y
    (arg2 (fun i j => let l := window (h_sample P) (w_sample P) h w i j in
       (sum_over Rsc l (fun p => X [fst p; snd p]) / IZR (Z.of_nat (length l)))%R)).
Proof.
  intros V dt kh kw ph pw sh sw P h w ds y x X s G Hk EP ES Ex Ey HX HY D Hh Hw P1 P2 P3 P4.
  destruct (pool_axes _ _ _ _ _ _ _ _ _ _ G EP ES) as (E & h' & w' & -> & AH & AW).
  eapply C37_mean_hw; eauto. intros i j Hv. unfold arg2, div_float; cbn [nth sofZ Rsc].
  cbv zeta. apply Rdiv_ok. cbn in Hv. apply not_0_IZR. intros Q.
  destruct (window (h_sample P) (w_sample P) h w i j) eqn:EW; [|discriminate].
  revert EW. subst P. destruct ph, pw; cbn [h_sample w_sample] in *.
  apply window_nonempty; eapply axis_hit; eauto; tauto.
Qed.

(** A 3 x 3 image, 2 x 2 kernel, stride 2, padding 0/1 at the end. *)
Definition P_demo := mkpool (mksample (mkfilter 2 2 1) (mkpadding 0 1)) (mksample (mkfilter 2 2 1) (mkpadding 0 1)).
Example C37_example :
  new_pool_kps 2 2 (mkpadding 0 1) (mkpadding 0 1) 2 2 = Ret P_demo /\
  pool_shape2 P_demo [3; 3] = Ret [2; 2] /\
  run (op_pool_hw zt (max_acc Zsc (-100)) P_demo (T_ 1 [2; 2]) (T_ 0 [3; 3]))
      (demo [[1; 2; 3; 4; 5; 6; 7; 8; -9]; [0; 0; 0; 0]]) (T_ 1 [4]) = Some (inits [5; 6; 8; -9]) /\
  run (op_pool_hwc zt (mean_acc Zsc div_i32) P_demo (T_ 1 [2; 2; 1]) (T_ 0 [3; 3; 1]))
      (demo [[1; 2; 3; 4; 5; 6; 7; 8; 9]; [0; 0; 0; 0]]) (T_ 1 [4]) = Some (inits [3; 4; 7; 9]).
Proof. vm_compute. auto. Qed.

(** *** C38: batched pooling drops the padding. *)
Section Batched.
  Context {V T : Type} (dt : dtype V T) (A : accumulator T).

  (** Every image (and channel) is pooled as that image alone with padding 0,
      whatever padding the operator was built with. *)
  Theorem C38_nhwc : forall kh kw ph pw sh sw P P0 n h w c h' w' y x X Y s,
    pool_args kh kw ph pw h w -> new_pool_kps kh kw ph pw sh sw = Ret P ->
    new_pool_ks kh kw sh sw = Ret P0 ->
    pooled_shape nhwc P [n; h; w; c] = Ret [n; h'; w'; c] -> 0 <= n -> 0 <= c ->
    tdims x = [n; h; w; c] -> tdims y = [n; h'; w'; c] ->
    holds dt s x X -> mapped s y -> disjoint y x ->
    (forall l i j k, valid [n; h'; w'; c] [l; i; j; k] ->
       pooled A (map (fun p => X [l; fst p; snd p; k]) (window (h_sample P0) (w_sample P0) h w i j))
         = Ret (Y [l; i; j; k])) ->
    writes dt (op_pool_nhwc dt A P y x) s y Y /\
    forall l, 0 <= l < n ->
      writes dt (op_pool_hwc dt A P0 (sub y l) (sub x l)) s (sub y l) (fun ix => Y (l :: ix)).
  Proof using.
    intros kh kw ph pw sh sw P P0 n h w c h' w' y x X Y s G EP EP0 ES Hn Hc Ex Ey HX HY D HQ.
    assert (ES2 : pool_shape2 P [h; w] = Ret [h'; w']).
    { unfold pooled_shape, image_shape in ES; cbn [nth height_position width_position] in ES.
      destruct (pool_shape2 P [h; w]) as [l| |] eqn:E; cbn in ES; try discriminate.
      destruct (pool_axes _ _ _ _ _ _ _ _ _ _ G EP E) as (_ & a & b & -> & _). cbn in ES. congruence. }
    destruct (pool_axes _ _ _ _ _ _ _ _ _ _ G EP ES2) as (E & h2 & w2 & E2 & AH & AW).
    inversion E2; subst h2 w2; clear E2.
    apply axis_ok_fits in AH. apply axis_ok_fits in AW.
    assert (Ks : 1 <= kh /\ 1 <= kw /\ 1 <= sh /\ 1 <= sw) by (unfold axis_fits in *; subst P; cbn in *; lia).
    unfold new_pool_ks in EP0. rewrite new_pool_kps_iff in EP0 by apply Ks. inversion EP0; subst P0; clear EP0.
    set (P0 := mkpool _ _) in *.
    assert (A0h : axis_fits (h_sample P0) h h') by (unfold axis_fits in *; subst P P0; cbn in *; lia).
    assert (A0w : axis_fits (w_sample P0) w w') by (unfold axis_fits in *; subst P P0; cbn in *; lia).
    assert (Dx : dims_ok x) by (unfold dims_ok; rewrite Ex; unfold axis_fits in *; repeat constructor; tauto).
    assert (Dy : dims_ok y) by (unfold dims_ok; rewrite Ey; unfold axis_fits in *; repeat constructor; tauto).
    assert (R : forall l s', 0 <= l < n -> holds dt s' x X -> mapped s' (sub y l) ->
      writes dt (op_pool_hwc dt A P0 (sub y l) (sub x l)) s' (sub y l) (fun ix => Y (l :: ix))).
    { intros l s' Hl HX' HY'. unfold op_pool_hwc.
      apply (pool_hwc_writes dt A (h_sample P0) (w_sample P0) (sub y l) (sub x l) h w c h' w'
        (fun ix => X (l :: ix))); auto.
      - apply (tdims_sub _ _ _ _ Ex).
      - apply (tdims_sub _ _ _ _ Ey).
      - apply (holds_sub dt s' x X l n [h; w; c]); auto.
      - eapply disjoint_sub_l; eauto. eapply disjoint_sub_r; eauto.
      - intros i j k Hi Hj Hk. apply (HQ l i j k). cbn. auto. }
    split.
    - unfold op_pool_nhwc, inner_pool.
      replace (new_pool_ks _ _ _ _) with (Ret P0)
        by (subst P; cbn [h_sample w_sample sfilter ksize stride]; symmetry; apply new_pool_kps_iff; apply Ks).
      unfold lift. eapply writes_ext; [rewrite bind_ret_l; reflexivity|reflexivity|].
      unfold nth_dim. rewrite Ex. cbn [nth].
      apply (writes_rows dt y n [h'; w'; c]); auto. intros l s' Hl N F O. apply R; auto.
      + eapply holds_frame_disj; eauto.
      + intros p Hp. rewrite O by auto. apply HY. eapply foot_sub; eauto.
    - intros l Hl. apply R; auto. intros p Hp. apply HY. eapply foot_sub; eauto.
  Qed.

  Theorem C38_nchw : forall kh kw ph pw sh sw P P0 n h w c h' w' y x X Y s,
    pool_args kh kw ph pw h w -> new_pool_kps kh kw ph pw sh sw = Ret P ->
    new_pool_ks kh kw sh sw = Ret P0 ->
    pooled_shape nchw P [n; c; h; w] = Ret [n; c; h'; w'] -> 0 <= n -> 0 <= c ->
    tdims x = [n; c; h; w] -> tdims y = [n; c; h'; w'] ->
    holds dt s x X -> mapped s y -> disjoint y x ->
    (forall l k i j, valid [n; c; h'; w'] [l; k; i; j] ->
       pooled A (map (fun p => X [l; k; fst p; snd p]) (window (h_sample P0) (w_sample P0) h w i j))
         = Ret (Y [l; k; i; j])) ->
    writes dt (op_pool_nchw dt A P y x) s y Y /\
    forall l k, 0 <= l < n -> 0 <= k < c ->
      writes dt (op_pool_hw dt A P0 (sub (sub y l) k) (sub (sub x l) k)) s (sub (sub y l) k)
        (fun ix => Y (l :: k :: ix)).
  Proof using.
    intros kh kw ph pw sh sw P P0 n h w c h' w' y x X Y s G EP EP0 ES Hn Hc Ex Ey HX HY D HQ.
    assert (ES2 : pool_shape2 P [h; w] = Ret [h'; w']).
    { unfold pooled_shape, image_shape in ES; cbn [nth height_position width_position] in ES.
      destruct (pool_shape2 P [h; w]) as [l| |] eqn:E; cbn in ES; try discriminate.
      destruct (pool_axes _ _ _ _ _ _ _ _ _ _ G EP E) as (_ & a & b & -> & _). cbn in ES. congruence. }
    destruct (pool_axes _ _ _ _ _ _ _ _ _ _ G EP ES2) as (E & h2 & w2 & E2 & AH & AW).
    inversion E2; subst h2 w2; clear E2.
    apply axis_ok_fits in AH. apply axis_ok_fits in AW.
    assert (Ks : 1 <= kh /\ 1 <= kw /\ 1 <= sh /\ 1 <= sw) by (unfold axis_fits in *; subst P; cbn in *; lia).
    unfold new_pool_ks in EP0. rewrite new_pool_kps_iff in EP0 by apply Ks. inversion EP0; subst P0; clear EP0.
    set (P0 := mkpool _ _) in *.
    assert (A0h : axis_fits (h_sample P0) h h') by (unfold axis_fits in *; subst P P0; cbn in *; lia).
    assert (A0w : axis_fits (w_sample P0) w w') by (unfold axis_fits in *; subst P P0; cbn in *; lia).
    assert (Dx : dims_ok x) by (unfold dims_ok; rewrite Ex; unfold axis_fits in *; repeat constructor; tauto).
    assert (Dy : dims_ok y) by (unfold dims_ok; rewrite Ey; unfold axis_fits in *; repeat constructor; tauto).
    assert (Tx : forall l, tdims (sub x l) = [c; h; w]) by (intros; apply (tdims_sub _ _ _ _ Ex)).
    assert (Ty : forall l, tdims (sub y l) = [c; h'; w']) by (intros; apply (tdims_sub _ _ _ _ Ey)).
    assert (R : forall l k s', 0 <= l < n -> 0 <= k < c -> holds dt s' x X -> mapped s' (sub (sub y l) k) ->
      writes dt (op_pool_hw dt A P0 (sub (sub y l) k) (sub (sub x l) k)) s' (sub (sub y l) k)
        (fun ix => Y (l :: k :: ix))).
    { intros l k s' Hl Hk HX' HY'. unfold op_pool_hw.
      apply (pool_hw_writes dt A (h_sample P0) (w_sample P0) (sub (sub y l) k) (sub (sub x l) k) h w h' w'
        (fun ix => X (l :: k :: ix))); auto.
      - apply (tdims_sub _ _ _ _ (Tx l)).
      - apply (tdims_sub _ _ _ _ (Ty l)).
      - apply (holds_sub dt s' (sub x l) (fun ix => X (l :: ix)) k c [h; w]); auto.
        apply (holds_sub dt s' x X l n [c; h; w]); auto.
      - eapply disjoint_sub_l; [apply dims_ok_sub; auto|apply Ty|auto|].
        eapply disjoint_sub_l; eauto.
        eapply disjoint_sub_r; [apply dims_ok_sub; auto|apply Tx|auto|].
        eapply disjoint_sub_r; eauto.
      - intros i j Hi Hj. apply (HQ l k i j). cbn. auto. }
    assert (FY : forall l k p, 0 <= l < n -> 0 <= k < c -> foot (sub (sub y l) k) p -> foot (sub y l) p).
    { intros l k p Hl Hk Hp. eapply (foot_sub (sub y l)); eauto. apply dims_ok_sub; auto. }
    assert (FY1 : forall l p, 0 <= l < n -> foot (sub y l) p -> foot y p).
    { intros l p Hl Hp. eapply (foot_sub y); eauto. }
    split.
    - unfold op_pool_nchw, inner_pool.
      replace (new_pool_ks _ _ _ _) with (Ret P0)
        by (subst P; cbn [h_sample w_sample sfilter ksize stride]; symmetry; apply new_pool_kps_iff; apply Ks).
      unfold lift. eapply writes_ext; [rewrite bind_ret_l; reflexivity|reflexivity|].
      unfold nth_dim. rewrite Ex. cbn [nth].
      apply (writes_rows dt y n [c; h'; w']); auto. intros l s1 Hl N1 F1 O1.
      apply (writes_rows dt (sub y l) c [h'; w']); [apply dims_ok_sub; auto|apply Ty|].
      intros k s2 Hk N2 F2 O2. apply R; auto.
      + intros ix Hix. rewrite F2, F1.
        * apply HX; auto.
        * intros Q. apply (D (addr x ix)); auto. apply addr_foot; auto.
        * intros Q. apply (D (addr x ix)); eauto. apply addr_foot; auto.
      + intros p Hp. rewrite O2, O1 by eauto. apply HY. eauto.
    - intros l k Hl Hk. apply R; auto. intros p Hp. apply HY. eauto.
  Qed.
End Batched.

(** The shape function applies the geometry, padding included, to the image and
    keeps batch and channels. *)
Theorem C38_shape : forall P n h w c r,
  (pooled_shape nhwc P [n; h; w; c] = Ret r <->
   exists h' w', pool_shape2 P [h; w] = Ret [h'; w'] /\ r = [n; h'; w'; c]) /\
  (pooled_shape nchw P [n; c; h; w] = Ret r <->
   exists h' w', pool_shape2 P [h; w] = Ret [h'; w'] /\ r = [n; c; h'; w']).
Proof.
  intros P n h w c r. unfold pooled_shape, image_shape, pool_shape2. cbn [nth height_position width_position].
  destruct (sample_len U32 (h_sample P) h) as [a|e|]; cbn [obind];
    [destruct (sample_len U32 (w_sample P) w) as [b|e|]; cbn [obind]|..];
    (split; (split; [intros Q; try discriminate; injection Q as <-; eexists _, _; split; reflexivity|
                     intros (h' & w' & Q & ->); try discriminate; injection Q as -> ->; reflexivity])).
Qed.

(** Only the padding before the first row and column matters. *)
Theorem C38_right_padding : forall kh kw ph pw sh sw P P0 h w i j,
  new_pool_kps kh kw ph pw sh sw = Ret P -> new_pool_ks kh kw sh sw = Ret P0 ->
  left_ ph = 0 -> left_ pw = 0 ->
  forall p, In p (window (h_sample P) (w_sample P) h w i j) <-> In p (window (h_sample P0) (w_sample P0) h w i j).
Proof.
  intros kh kw ph pw sh sw P P0 h w i j E E0 L1 L2 [p q].
  rewrite (C37_window _ _ _ _ _ _ _ _ _ _ _ _ _ E), (C37_window _ _ _ _ _ _ _ _ _ _ _ _ _ E0).
  cbn [left_]. rewrite L1, L2. tauto.
Qed.

(** So with padding on the left the results differ from pooling the image
    alone: max pooling a 2 x 2 image with a 2 x 2 kernel, stride 1, padding 1. *)
Theorem C38_padding_refuted : exists P (s : st Z) x y,
  new_pool_kps 2 2 (mkpadding 1 1) (mkpadding 1 1) 1 1 = Ret P /\
  pooled_shape nhwc P [1; 2; 2; 1] = Ret [1; 3; 3; 1] /\
  tdims x = [1; 2; 2; 1] /\ tdims y = [1; 3; 3; 1] /\
  run (op_pool_nhwc zt (max_acc Zsc (-100)) P y x) s y <>
  run (op_pool_hwc zt (max_acc Zsc (-100)) P (sub y 0) (sub x 0)) s y.
Proof.
  exists (mkpool (mksample (mkfilter 2 1 1) (mkpadding 1 1)) (mksample (mkfilter 2 1 1) (mkpadding 1 1))).
  exists (demo [[1; 2; 3; 4]; [0; 0; 0; 0; 0; 0; 0; 0; 0]]), (T_ 0 [1; 2; 2; 1]), (T_ 1 [1; 3; 3; 1]).
  repeat split; try reflexivity. vm_compute. discriminate.
Qed.

Example C38_example :
  let P := mkpool (mksample (mkfilter 2 1 1) (mkpadding 1 1)) (mksample (mkfilter 2 1 1) (mkpadding 1 1)) in
  let s := demo [[1; 2; 3; 4]; [0; 0; 0; 0; 0; 0; 0; 0; 0]] in
  run (op_pool_hw zt (max_acc Zsc (-100)) P (T_ 1 [3; 3]) (T_ 0 [2; 2])) s (T_ 1 [9])
    = Some (inits [1; 2; 2; 3; 4; 4; 3; 4; 4]) /\
  run (op_pool_nhwc zt (max_acc Zsc (-100)) P (T_ 1 [1; 3; 3; 1]) (T_ 0 [1; 2; 2; 1])) s (T_ 1 [9])
    = Some (inits [4; 4; -100; 4; 4; -100; -100; -100; -100]) /\
  run (op_pool_nchw zt (max_acc Zsc (-100)) P (T_ 1 [1; 1; 3; 3]) (T_ 0 [1; 1; 2; 2])) s (T_ 1 [9])
    = Some (inits [4; 4; -100; 4; 4; -100; -100; -100; -100]).
Proof. vm_compute. auto. Qed.

(** *** C39: mean pooling over int32_t. *)

(** Value actually written: unsigned division of the sum. *)
Theorem C39_value : forall V (dt : dtype V Z) kh kw ph pw sh sw P h w ds y x X s,
  pool_args kh kw ph pw h w -> kh * kw < 2 ^ 32 -> new_pool_kps kh kw ph pw sh sw = Ret P ->
  pool_shape2 P [h; w] = Ret ds -> tdims x = [h; w] -> tdims y = ds ->
  holds dt s x X -> mapped s y -> disjoint y x ->
  1 <= h -> 1 <= w -> left_ ph < kh -> right_ ph < kh -> left_ pw < kw -> right_ pw < kw ->
  exists Y, writes dt (op_pool_hw dt (mean_acc Zsc div_i32) P y x) s y Y /\
    forall i j, valid ds [i; j] ->
      let l := window (h_sample P) (w_sample P) h w i j in
      let t := sum_over Zsc l (fun p => X [fst p; snd p]) in
      let n := Z.of_nat (length l) in
      1 <= n /\
      (- 2 ^ 31 <= t < 2 ^ 31 -> n <= 2 ^ 31 -> (Y [i; j] = Z.quot t n <-> 0 <= t \/ n = 1)).
Proof.
  intros V dt kh kw ph pw sh sw P h w ds y x X s G Hk EP ES Ex Ey HX HY D Hh Hw P1 P2 P3 P4.
  destruct (pool_axes _ _ _ _ _ _ _ _ _ _ G EP ES) as (E & h' & w' & -> & AH & AW).
  assert (NE : forall i j, 0 <= i < h' -> 0 <= j < w' ->
    1 <= Z.of_nat (length (window (h_sample P) (w_sample P) h w i j))).
  { intros i j Hi Hj. destruct (window (h_sample P) (w_sample P) h w i j) eqn:EW; [|cbn [length]; lia].
    exfalso. revert EW. subst P. destruct ph, pw; cbn [h_sample w_sample] in *.
    apply window_nonempty; eapply axis_hit; eauto. }
  exists (arg2 (fun i j => let l := window (h_sample P) (w_sample P) h w i j in
    to_i32 (to_u32 (sum_over Zsc l (fun p => X [fst p; snd p])) / Z.of_nat (length l)))). split.
  - eapply C37_mean_hw; eauto. intros i j Hv. cbn in Hv. unfold div_i32, arg2; cbn [nth].
    pose proof (NE i j ltac:(tauto) ltac:(tauto)).
    destruct (Z.of_nat (length (window (h_sample P) (w_sample P) h w i j)) =? 0) eqn:Q; [lia|reflexivity].
  - intros i j Hv l t n. cbn in Hv. pose proof (NE i j ltac:(tauto) ltac:(tauto)) as Hn. fold l n in Hn.
    split; [exact Hn|]. intros Ht Hn2. rewrite <- (div_i32_spec t n) by lia.
    unfold arg2; cbn [nth]. fold l t n. unfold div_i32. replace (n =? 0) with false by lia.
    split; [intros ->; reflexivity|congruence].
Qed.

(** Hence wrong for a negative sum: the mean of (-2 -4) comes out as 2^31 - 3. *)
Theorem C39_refuted : exists P (s : st Z) x y,
  new_pool_k 1 2 = Ret P /\
  run (op_pool_hw zt (mean_acc Zsc div_i32) P y x) s x = Some (inits [-2; -4]) /\
  run (op_pool_hw zt (mean_acc Zsc div_i32) P y x) s y = Some (inits [2 ^ 31 - 3]).
Proof.
  exists (mkpool (mksample (mkfilter 1 1 1) (mkpadding 0 0)) (mksample (mkfilter 2 2 1) (mkpadding 0 0))).
  exists (demo [[-2; -4]; [0]]), (T_ 0 [1; 2]), (T_ 1 [1; 1]). vm_compute. auto.
Qed.

Example C39_example :
  run (op_pool_hw zt (mean_acc Zsc div_i32)
        (mkpool (mksample (mkfilter 1 1 1) (mkpadding 0 0)) (mksample (mkfilter 3 3 1) (mkpadding 0 0)))
        (T_ 1 [1; 1]) (T_ 0 [1; 3])) (demo [[-2; 4; 5]; [0]]) (T_ 1 [1]) = Some (inits [2]).
Proof. vm_compute. auto. Qed.

(** *** C40: windows without a pixel. *)

(** Every window has a pixel exactly when the paddings are smaller than the
    kernel. *)
Theorem C40_nonempty_iff : forall kh kw ph pw sh sw P h w h' w',
  pool_args kh kw ph pw h w -> new_pool_kps kh kw ph pw sh sw = Ret P ->
  pool_shape2 P [h; w] = Ret [h'; w'] -> 1 <= h -> 1 <= w ->
  ((forall i j, 0 <= i < h' -> 0 <= j < w' -> window (h_sample P) (w_sample P) h w i j <> []) <->
   left_ ph < kh /\ right_ ph < kh /\ left_ pw < kw /\ right_ pw < kw).
Proof.
  intros kh kw ph pw sh sw P h w h' w' G EP ES Hh Hw.
  destruct (pool_axes _ _ _ _ _ _ _ _ _ _ G EP ES) as (E & h2 & w2 & E2 & AH & AW).
  inversion E2; subst h2 w2; clear E2. subst P. destruct ph as [a b], pw as [c d]; cbn [h_sample w_sample left_ right_] in *.
  pose proof (axis_m _ _ _ AH). pose proof (axis_m _ _ _ AW). split.
  - intros N. repeat split; apply Z.nle_gt; intros Q.
    + apply (N 0 0); try lia. apply window_empty. left. eapply axis_miss_left; eauto.
    + apply (N (h' - 1) 0); try lia. apply window_empty. left. eapply axis_miss_right; eauto.
    + apply (N 0 0); try lia. apply window_empty. right. eapply axis_miss_left; eauto.
    + apply (N 0 (w' - 1)); try lia. apply window_empty. right. eapply axis_miss_right; eauto.
  - intros (L1 & L2 & L3 & L4) i j Hi Hj. apply window_nonempty; eapply axis_hit; eauto.
Qed.

(** Max pooling then returns the lowest number, which no pixel need hold. *)
Theorem C40_max : forall V T (dt : dtype V T) sc lowest kh kw ph pw sh sw P h w ds y x X s,
  pool_args kh kw ph pw h w -> new_pool_kps kh kw ph pw sh sw = Ret P ->
  pool_shape2 P [h; w] = Ret ds -> tdims x = [h; w] -> tdims y = ds ->
  holds dt s x X -> mapped s y -> disjoint y x ->
  exists Y, writes dt (op_pool_hw dt (max_acc sc lowest) P y x) s y Y /\
    forall i j, valid ds [i; j] -> window (h_sample P) (w_sample P) h w i j = [] -> Y [i; j] = lowest.
Proof.
  intros V T dt sc lowest kh kw ph pw sh sw P h w ds y x X s G EP ES Ex Ey HX HY D.
  destruct (pool_axes _ _ _ _ _ _ _ _ _ _ G EP ES) as (E & h' & w' & -> & AH & AW).
  exists (arg2 (fun i j => fold_left (fun val x => if sltb sc val x then x else val)
    (map (fun p => X [fst p; snd p]) (window (h_sample P) (w_sample P) h w i j)) lowest)). split.
  - apply (pool_hw_writes dt _ (h_sample P) (w_sample P) y x h w h' w' X); auto using axis_ok_fits.
  - intros i j Hv Ew. unfold arg2; cbn [nth]. rewrite Ew. reflexivity.
Qed.

(** Integer mean pooling divides by zero. *)
Theorem C40_mean : forall V (dt : dtype V Z) kh kw ph pw sh sw P h w ds y x X s i j,
  pool_args kh kw ph pw h w -> kh * kw < 2 ^ 32 -> new_pool_kps kh kw ph pw sh sw = Ret P ->
  pool_shape2 P [h; w] = Ret ds -> tdims x = [h; w] -> tdims y = ds ->
  holds dt s x X -> mapped s y -> disjoint y x ->
  valid ds [i; j] -> window (h_sample P) (w_sample P) h w i j = [] ->
  op_pool_hw dt (mean_acc Zsc div_i32) P y x s = UB.
Proof.
  intros V dt kh kw ph pw sh sw P h w ds y x X s i j G Hk EP ES Ex Ey HX HY D Hv Ew.
  destruct (pool_axes _ _ _ _ _ _ _ _ _ _ G EP ES) as (E & h' & w' & -> & AH & AW). cbn in Hv.
  unfold op_pool_hw. eapply (pool_hw_undef dt _ (h_sample P) (w_sample P) y x h w h' w' X s i j);
    eauto using axis_ok_fits; try tauto.
  - intros l. unfold pooled; cbn [acc_get mean_acc]. unfold div_i32. destruct (_ =? 0); eauto.
  - rewrite Ew. reflexivity.
Qed.

(** Such geometries are accepted: 1 x 1 kernel, padding 1. *)
Theorem C40_refuted : exists P (s : st Z) x y,
  new_pool_kps 1 1 (mkpadding 1 0) (mkpadding 0 0) 1 1 = Ret P /\ pool_shape2 P [1; 1] = Ret [2; 1] /\
  run (op_pool_hw zt (max_acc Zsc (-100)) P y x) s y = Some (inits [-100; 7]) /\
  run (ret tt) s x = Some (inits [7]) /\
  op_pool_hw zt (mean_acc Zsc div_i32) P y x s = UB.
Proof.
  exists (mkpool (mksample (mkfilter 1 1 1) (mkpadding 1 0)) (mksample (mkfilter 1 1 1) (mkpadding 0 0))).
  exists (demo [[7]; [0; 0]]), (T_ 0 [1; 1]), (T_ 1 [2; 1]). vm_compute. auto.
Qed.

Print Assumptions C37_window.
Print Assumptions C37_max_hw.
Print Assumptions C37_max_hwc.
Print Assumptions C37_mean_hw.
Print Assumptions C37_mean_hwc.
Print Assumptions C37_mean_real.
Print Assumptions C38_nhwc.
Print Assumptions C38_nchw.
Print Assumptions C38_shape.
Print Assumptions C38_right_padding.
Print Assumptions C38_padding_refuted.
Print Assumptions C39_value.
Print Assumptions C39_refuted.
Print Assumptions C40_nonempty_iff.
Print Assumptions C40_max.
Print Assumptions C40_mean.
Print Assumptions C40_refuted.
