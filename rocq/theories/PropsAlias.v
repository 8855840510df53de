(** C93: calls whose output shares storage with an input. *)
From Coq Require Import Reals ZArith List Bool Lia.
From Verif Require Import Base BaseFacts TensorFacts Traits Scalar LinAlg LinAlgFacts Elem ElemSpec Conv ConvSpec ConvFacts TraitsSpec TraitsFacts
  ConvGradFacts GradSpec Pool PoolSpec PoolFacts PropsPool Activation ActivationSpec ActivationFacts Transpose RealScalar SoftmaxFacts Demo AliasFacts.
Import ListNotations.
Open Scope Z_scope.
Open Scope model_scope.

Section Shared.
  Context {V T : Type} (dt : dtype V T) (di : dtype V Z) (sc : scalar T).
  Notation zero := (s0 sc).

  (** The channels-last convolution may be stored anywhere over its image: only
      the filter must be kept apart. *)
  Theorem C93_conv_nhwc : forall e C z x y n h w c r s d h' w' X Y st,
    let H := axis_of (h_trait C) r in let W := axis_of (w_trait C) s in
    axis_ok H h h' -> axis_ok W w w' -> 0 <= n -> 0 <= c -> 0 <= d -> h * w * c <= 2 ^ 31 ->
    engine_ok sc e [n; c; d] ->
    tdims x = [n; h; w; c] -> tdims y = [r; s; c; d] -> tdims z = [n; h'; w'; d] ->
    fresh_ok st -> holds dt st x X -> holds dt st y Y -> mapped st z -> disjoint z y ->
    writes dt (conv_nhwc dt di sc e C z x y) st z
      (arg4 (fun l i j t =>
         sum_over sc (indices [r; s; c]) (arg3 (fun u v k =>
           smul sc (zpad zero h w (fun p q => X [l; p; q; k]) (wpos H i u) (wpos W j v))
                   (Y [u; v; k; t]))))).
  Proof. exact (conv_nhwc_writes_over dt di sc). Qed.

  (** The channels-first convolution works image by image: it may replace its
      image, if the result has the very same place and shape. *)
  Theorem C93_conv_nchw : forall e C z x y n h w c r s d h' w' X Y st,
    let H := axis_of (h_trait C) r in let W := axis_of (w_trait C) s in
    axis_ok H h h' -> axis_ok W w w' -> 0 <= n -> 0 <= c -> 0 <= d ->
    engine_ok sc e [c; d] ->
    tdims x = [n; c; h; w] -> tdims y = [d; c; r; s] -> tdims z = [n; d; h'; w'] ->
    fresh_ok st -> holds dt st x X -> holds dt st y Y -> mapped st z -> safe z x -> disjoint z y ->
    writes dt (conv_nchw dt sc e C z x y) st z
      (arg4 (fun l t i j =>
         sum_over sc (indices [c; r; s]) (arg3 (fun k u v =>
           smul sc (Y [t; k; u; v])
                   (zpad zero h w (fun p q => X [l; k; p; q]) (wpos H i u) (wpos W j v)))))).
  Proof. exact (conv_nchw_writes_over dt sc). Qed.

  (** The gradient of the image may be stored over either of its operands, the
      gradient of the filter over the image. *)
  Theorem C93_conv_grads : ring_laws sc -> forall e C n h w c r s d h' w',
    let H := axis_of (h_trait C) r in let W := axis_of (w_trait C) s in
    axis_ok H h h' -> axis_ok W w w' -> 0 <= n -> 0 <= c -> 0 <= d -> engine_ok sc e [n; c; d] ->
    (forall gx gz y GZ Y st,
      tdims gx = [n; h; w; c] -> tdims y = [r; s; c; d] -> tdims gz = [n; h'; w'; d] ->
      fresh_ok st -> holds dt st gz GZ -> holds dt st y Y -> mapped st gx ->
      exists GX, writes dt (conv_grad_x dt sc e C gx gz y) st gx GX /\
        is_vjp sc [n; h'; w'; d] [n; h; w; c] (fun X => conv_spec_nhwc sc H W h w r s c X Y) GZ GX) /\
    (forall gy gz x GZ X st,
      tdims x = [n; h; w; c] -> tdims gy = [r; s; c; d] -> tdims gz = [n; h'; w'; d] ->
      fresh_ok st -> holds dt st gz GZ -> holds dt st x X -> mapped st gy -> disjoint gy gz ->
      exists GY, writes dt (conv_grad_y dt sc e C gy gz x) st gy GY /\
        is_vjp sc [n; h'; w'; d] [r; s; c; d] (fun Y => conv_spec_nhwc sc H W h w r s c X Y) GZ GY).
  Proof.
    intros laws e C n h w c r s d h' w' H W AH AW Hn Hc Hd He. split.
    - intros gx gz y GZ Y st Ex Ey Ez Hf HZ HY HX. eexists.
      split; [eapply (conv_grad_x_writes_over dt sc e C gx gz y n h w c r s d h' w'); eauto|].
      apply (conv_gx_vjp sc laws).
    - intros gy gz x GZ X st Ex Ey Ez Hf HZ HX HY D. eexists.
      split; [eapply (conv_grad_y_writes_over dt sc e C gy gz x n h w c r s d h' w'); eauto|].
      apply (conv_gy_vjp sc laws).
  Qed.

  (** The builtin matrix product stored over one of its factors (or both): the
      factor is zeroed before it is read, so the result is the zero matrix. *)
  Theorem C93_product_in_place : ring_laws sc -> forall z x y n X s, 0 <= n ->
    tdims z = [n; n] -> mapped s z ->
    (same_cells z x /\ tdims y = [n; n] /\ disjoint z y /\ holds dt s y X) \/
    (same_cells z y /\ tdims x = [n; n] /\ disjoint z x /\ holds dt s x X) \/
    (same_cells z x /\ same_cells z y) ->
    writes dt (op_matmul dt sc Builtin z x y) s z (fun _ => zero).
  Proof.
    intros laws z x y n X s Hn Ez Mz Al.
    destruct Al as [(A & Ey & D & HX)|[(A & Ex & D & HX)|(A & B)]].
    - assert (Ex : tdims x = [n; n]) by (destruct A as (_ & _ & <-); exact Ez).
      apply (mm_in_place dt sc laws x y z n n n X); auto.
    - assert (Ey : tdims y = [n; n]) by (destruct A as (_ & _ & <-); exact Ez).
      apply (mm_in_place dt sc laws x y z n n n X); auto.
    - assert (Ex : tdims x = [n; n]) by (destruct A as (_ & _ & <-); exact Ez).
      assert (Ey : tdims y = [n; n]) by (destruct B as (_ & _ & <-); exact Ez).
      apply (mm_in_place dt sc laws x y z n n n X); auto.
  Qed.
End Shared.

Section SharedReal.
  Context {V : Type} (dt : dtype V R).

  (** The softmax gradient may replace the softmax output it is computed from;
      the softmax input is not read, and may be replaced as well. *)
  Theorem C93_softmax_grad : forall eps gx gy y x m n GY X s,
    tdims gx = [m; n] -> tdims gy = [m; n] -> tdims y = [m; n] -> tdims x = [m; n] ->
    0 <= m -> 0 <= n -> fresh_ok s ->
    holds dt s gy GY -> holds dt s y (arg2 (fun r i => softmax_fn eps n (fun j => X [r; j]) i)) ->
    mapped s gx -> disjoint gx gy -> safe gx y ->
    (forall r, 0 <= r < m -> unclamped eps n (fun j => X [r; j])) ->
    exists GX, writes dt (softmax_grad2 dt Rsc gx gy y x) s gx GX /\
      forall r, 0 <= r < m ->
        is_gradient n (fun X => rsum n (fun i => GY [r; i] * softmax_fn eps n X i)%R)
          (fun j => X [r; j]) (fun j => GX [r; j]).
  Proof using.
    intros eps gx gy y x m n GY X s Egx Egy Ey Ex Hm Hn Hf HG HY Hx D1 D2 Hu. eexists.
    split; [eapply (softmax_grad2_writes_over dt Rsc gx gy y x m n GY); eauto|].
    intros r Hr. exact (softmax_gradient eps n (fun j => X [r; j]) (fun i => GY [r; i]) (Hu r Hr)).
  Qed.
End SharedReal.

(** The pools of batches may be stored from the start of their own image:
    their windows are never padded (C38), and every pixel is read before its
    place is used. *)
Section SharedPool.
  Context {V T : Type} (dt : dtype V T) (A : accumulator T).

  Theorem C93_pool_nhwc : forall kh kw ph pw sh sw P P0 n h w c h' w' y x X Y s,
    pool_args kh kw ph pw h w -> new_pool_kps kh kw ph pw sh sw = Ret P ->
    new_pool_ks kh kw sh sw = Ret P0 ->
    pooled_shape nhwc P [n; h; w; c] = Ret [n; h'; w'; c] -> h' <= h -> w' <= w -> 0 <= n -> 0 <= c ->
    tdims x = [n; h; w; c] -> y = mktensor (tblk x) (tbase x) [n; h'; w'; c] -> holds dt s x X ->
    (forall l i j k, valid [n; h'; w'; c] [l; i; j; k] ->
       pooled A (map (fun p => X [l; fst p; snd p; k]) (window (h_sample P0) (w_sample P0) h w i j))
         = Ret (Y [l; i; j; k])) ->
    writes dt (op_pool_nhwc dt A P y x) s y Y.
  Proof using.
    intros kh kw ph pw sh sw P P0 n h w c h' w' y x X Y s G EP EP0 ES Lh Lw Hn Hc Ex Ey0 HX HQ.
    assert (ES2 : pool_shape2 P [h; w] = Ret [h'; w']).
    { unfold pooled_shape, image_shape in ES; cbn [nth height_position width_position] in ES.
      destruct (pool_shape2 P [h; w]) as [l| |] eqn:E; cbn in ES; try discriminate.
      destruct (pool_axes _ _ _ _ _ _ _ _ _ _ G EP E) as (_ & a & b & -> & _). cbn in ES. congruence. }
    destruct (pool_axes _ _ _ _ _ _ _ _ _ _ G EP ES2) as (E & h2 & w2 & E2 & AH & AW).
    inversion E2; subst h2 w2; clear E2.
    apply axis_ok_fits in AH. apply axis_ok_fits in AW.
    assert (Ks : 1 <= kh /\ 1 <= kw /\ 1 <= sh /\ 1 <= sw) by (unfold axis_fits in *; subst P; cbn in *; lia).
    unfold new_pool_ks in EP0. rewrite new_pool_kps_iff in EP0 by apply Ks. inversion EP0; subst P0; clear EP0.
    set (P0 := mkpool _ _) in *.
    assert (A0h : axis_fits (h_sample P0) h h') by (unfold axis_fits in *; subst P P0; cbn in *; lia).
    assert (A0w : axis_fits (w_sample P0) w w') by (unfold axis_fits in *; subst P P0; cbn in *; lia).
    assert (Ey : tdims y = [n; h'; w'; c]) by (subst y; reflexivity).
    assert (Bo : 0 <= h' /\ 0 <= w') by (unfold axis_fits in *; tauto).
    assert (Dx : dims_ok x) by (unfold dims_ok; rewrite Ex; unfold axis_fits in *; repeat constructor; tauto).
    assert (Dy : dims_ok y) by (unfold dims_ok; rewrite Ey; unfold axis_fits in *; repeat constructor; tauto).
    assert (Lt : h' * (w' * (c * 1)) <= h * (w * (c * 1))).
    { assert (w' * c <= w * c) by nia. assert (h' * (w' * c) <= h * (w * c)) by (apply Z.mul_le_mono_nonneg; nia). lia. }
    assert (My : mapped s y).
    { intros p (o & Ho & ->). assert (Q : mapped s x) by (eapply holds_mapped; eauto).
      apply Q. exists o. split; [|subst y; reflexivity]. unfold size in *. rewrite Ey in Ho. rewrite Ex. cbn [prod] in *. nia. }
    unfold op_pool_nhwc, inner_pool.
    replace (new_pool_ks _ _ _ _) with (Ret P0)
      by (subst P; cbn [h_sample w_sample sfilter ksize stride]; symmetry; apply new_pool_kps_iff; apply Ks).
    unfold lift. eapply writes_ext; [rewrite bind_ret_l; reflexivity|reflexivity|].
    unfold nth_dim. rewrite Ex. cbn [nth].
    apply (writes_rows_order dt y n [h'; w'; c]); auto. intros l s' Hl N F. unfold op_pool_hwc.
    apply (pool_hwc_behind dt A (h_sample P0) (w_sample P0) (sub y l) (sub x l) h w c h' w' (fun ix => X (l :: ix))); auto.
    - apply (tdims_sub _ _ _ _ Ex).
    - apply (tdims_sub _ _ _ _ Ey).
    - eapply holds_frame; [|eapply holds_sub; eauto]. intros p (o & Ho & ->). apply F.
      intros q Hq (o' & Ho' & E'). unfold size, daddr, sub in *; cbn in *. rewrite Ex, Ey in *; cbn [tl prod] in *.
      subst y; cbn in *. injection E' as E'. nia.
    - intros p Hp. assert (Fp : foot y p) by (eapply foot_sub; eauto).
      rewrite F; [apply My; auto|]. intros q Hq Q. pose proof (foot_sub_inj y q l n _ p Dy Ey ltac:(lia) Hl Q Hp). lia.
    - intros _. exists (l * (h * w - h' * w')). split.
      + assert (h' * w' <= h * w) by nia. nia.
      + unfold sub; cbn. rewrite Ex, Ey; cbn [tl prod]. subst y; cbn. lia.
    - intros i j k Hi Hj Hk. apply (HQ l i j k). cbn. auto.
  Qed.

  Theorem C93_pool_nchw : forall kh kw ph pw sh sw P P0 n h w c h' w' y x X Y s,
    pool_args kh kw ph pw h w -> new_pool_kps kh kw ph pw sh sw = Ret P ->
    new_pool_ks kh kw sh sw = Ret P0 ->
    pooled_shape nchw P [n; c; h; w] = Ret [n; c; h'; w'] -> h' <= h -> w' <= w -> 0 <= n -> 0 <= c ->
    tdims x = [n; c; h; w] -> y = mktensor (tblk x) (tbase x) [n; c; h'; w'] -> holds dt s x X ->
    (forall l k i j, valid [n; c; h'; w'] [l; k; i; j] ->
       pooled A (map (fun p => X [l; k; fst p; snd p]) (window (h_sample P0) (w_sample P0) h w i j))
         = Ret (Y [l; k; i; j])) ->
    writes dt (op_pool_nchw dt A P y x) s y Y.
  Proof using.
    intros kh kw ph pw sh sw P P0 n h w c h' w' y x X Y s G EP EP0 ES Lh Lw Hn Hc Ex Ey0 HX HQ.
    assert (ES2 : pool_shape2 P [h; w] = Ret [h'; w']).
    { unfold pooled_shape, image_shape in ES; cbn [nth height_position width_position] in ES.
      destruct (pool_shape2 P [h; w]) as [l| |] eqn:E; cbn in ES; try discriminate.
      destruct (pool_axes _ _ _ _ _ _ _ _ _ _ G EP E) as (_ & a & b & -> & _). cbn in ES. congruence. }
    destruct (pool_axes _ _ _ _ _ _ _ _ _ _ G EP ES2) as (E & h2 & w2 & E2 & AH & AW).
    inversion E2; subst h2 w2; clear E2.
    apply axis_ok_fits in AH. apply axis_ok_fits in AW.
    assert (Ks : 1 <= kh /\ 1 <= kw /\ 1 <= sh /\ 1 <= sw) by (unfold axis_fits in *; subst P; cbn in *; lia).
    unfold new_pool_ks in EP0. rewrite new_pool_kps_iff in EP0 by apply Ks. inversion EP0; subst P0; clear EP0.
    set (P0 := mkpool _ _) in *.
    assert (A0h : axis_fits (h_sample P0) h h') by (unfold axis_fits in *; subst P P0; cbn in *; lia).
    assert (A0w : axis_fits (w_sample P0) w w') by (unfold axis_fits in *; subst P P0; cbn in *; lia).
    assert (Ey : tdims y = [n; c; h'; w']) by (subst y; reflexivity).
    assert (Bo : 0 <= h' /\ 0 <= w') by (unfold axis_fits in *; tauto).
    assert (Dx : dims_ok x) by (unfold dims_ok; rewrite Ex; unfold axis_fits in *; repeat constructor; tauto).
    assert (Dy : dims_ok y) by (unfold dims_ok; rewrite Ey; unfold axis_fits in *; repeat constructor; tauto).
    assert (Lp : h' * w' <= h * w) by (apply Z.mul_le_mono_nonneg; lia).
    assert (Lt : c * (h' * w') <= c * (h * w)) by nia.
    assert (Pp : 0 <= h' * w') by nia.
    assert (My : mapped s y).
    { intros p (o & Ho & ->). assert (Q : mapped s x) by (eapply holds_mapped; eauto).
      apply Q. exists o. split; [|subst y; reflexivity]. unfold size in *. rewrite Ey in Ho. rewrite Ex. cbn [prod] in *.
      rewrite !Z.mul_1_r in *. nia. }
    unfold op_pool_nchw, inner_pool.
    replace (new_pool_ks _ _ _ _) with (Ret P0)
      by (subst P; cbn [h_sample w_sample sfilter ksize stride]; symmetry; apply new_pool_kps_iff; apply Ks).
    unfold lift. eapply writes_ext; [rewrite bind_ret_l; reflexivity|reflexivity|].
    unfold nth_dim. rewrite Ex. cbn [nth].
    assert (Tx : forall l, tdims (sub x l) = [c; h; w]) by (intros; apply (tdims_sub _ _ _ _ Ex)).
    assert (Ty : forall l, tdims (sub y l) = [c; h'; w']) by (intros; apply (tdims_sub _ _ _ _ Ey)).
    assert (Dyl : forall l, dims_ok (sub y l)) by (intros; apply dims_ok_sub; auto).
    apply (writes_rows_order dt y n [c; h'; w']); auto. intros l s1 Hl N1 F1.
    apply (writes_rows_order dt (sub y l) c [h'; w']); auto. intros k s2 Hk N2 F2. unfold op_pool_hw.
    (* every cell at or behind plane [k] of image [l] is as in [s] *)
    assert (Fr : forall o, (l * c + k) * (h' * w') <= o -> cells s2 (tblk x, tbase x + o) = cells s (tblk x, tbase x + o)).
    { intros o Ho. rewrite F2, F1; [reflexivity| |].
      - intros q Hq (o' & Ho' & E'). unfold size, daddr, sub in *; cbn in *. rewrite Ey in *; cbn [tl prod] in *.
        rewrite Z.mul_1_r in *. subst y; cbn in *. injection E' as E'.
        assert ((q + 1) * (c * (h' * w')) <= l * (c * (h' * w'))) by (apply Z.mul_le_mono_nonneg_r; nia). nia.
      - intros q Hq (o' & Ho' & E'). unfold size, daddr, sub in *; cbn in *. rewrite Ey in *; cbn [tl prod] in *.
        rewrite Z.mul_1_r in *. subst y; cbn in *. injection E' as E'.
        assert ((q + 1) * (h' * w') <= k * (h' * w')) by (apply Z.mul_le_mono_nonneg_r; nia). nia. }
    apply (pool_hw_behind dt A (h_sample P0) (w_sample P0) (sub (sub y l) k) (sub (sub x l) k) h w h' w'
      (fun ix => X (l :: k :: ix))); auto.
    - apply (tdims_sub _ _ _ _ (Tx l)).
    - apply (tdims_sub _ _ _ _ (Ty l)).
    - eapply holds_frame; [|eapply (holds_sub dt s (sub x l) (fun ix => X (l :: ix)) k c [h; w]); auto;
        apply (holds_sub dt s x X l n [c; h; w]); auto].
      intros p (o & Ho & ->). unfold size, daddr, sub in *; cbn in *. rewrite Ex in *; cbn [tl prod] in *.
      rewrite !Z.mul_1_r in *. rewrite <- !Z.add_assoc. apply Fr.
      assert ((l * c + k) * (h' * w') <= (l * c + k) * (h * w)) by (apply Z.mul_le_mono_nonneg_l; nia). nia.
    - intros p (o & Ho & ->). unfold size, daddr, sub in *; cbn in *. rewrite Ey in *; cbn [tl prod] in *.
      rewrite !Z.mul_1_r in *. subst y; cbn in *. rewrite <- !Z.add_assoc. rewrite Fr by nia.
      assert (Q : mapped s x) by (eapply holds_mapped; eauto). apply Q.
      exists (l * (c * (h' * w')) + (k * (h' * w') + o)). split; [|reflexivity].
      unfold size. rewrite Ex. cbn [prod]. rewrite Z.mul_1_r.
      assert ((l * c + k + 1) * (h' * w') <= (n * c) * (h' * w')) by (apply Z.mul_le_mono_nonneg_r; nia).
      assert (n * (c * (h' * w')) <= n * (c * (h * w))) by (apply Z.mul_le_mono_nonneg_l; nia). nia.
    - intros _. unfold sub; cbn. rewrite Ex, Ey; cbn [tl prod]. rewrite !Z.mul_1_r. subst y; cbn.
      assert (l * (c * (h' * w')) <= l * (c * (h * w))) by (apply Z.mul_le_mono_nonneg_l; nia).
      assert (k * (h' * w') <= k * (h * w)) by (apply Z.mul_le_mono_nonneg_l; nia). lia.
    - intros i j Hi Hj. apply (HQ l k i j). cbn. auto.
  Qed.
End SharedPool.

(** ** Operators that may not *)

(** The call [op] reads [ins].  It gives one result in [z], which is apart from
    all of them, and another in [z'], which has the same shape and does not
    leave the memory. *)
Definition disturbed {V} (ins : list tensor) (op : tensor -> M V unit) (s : st V) (z z' : tensor) : Prop :=
  Forall (disjoint z) ins /\ tdims z = tdims z' /\ mapped s z /\ mapped s z' /\
  exists l l', run (op z) s z = Some l /\ run (op z') s z' = Some l' /\ l <> l'.

Definition mappedb {V} (s : st V) (z : tensor) : bool :=
  forallb (fun o => match cells s (daddr z o) with Unmapped => false | _ => true end) (zrange (size z)).

Lemma mappedb_mapped : forall {V} (s : st V) z, mappedb s z = true -> mapped s z.
Proof.
  intros V s z H p (o & Ho & ->) U. unfold mappedb in H. rewrite forallb_forall in H.
  specialize (H o (proj2 (in_zrange _ _) Ho)). rewrite U in H. discriminate.
Qed.

Lemma other_block : forall z x, tblk z <> tblk x -> disjoint z x.
Proof. intros z x N p (o & _ & ->) (q & _ & E). injection E as E _. auto. Qed.

Ltac disturb :=
  split; [repeat constructor; apply other_block; cbn; discriminate|];
  split; [reflexivity|]; split; [apply mappedb_mapped; vm_compute; reflexivity|];
  split; [apply mappedb_mapped; vm_compute; reflexivity|];
  do 2 eexists; split; [vm_compute; reflexivity|]; split; [vm_compute; reflexivity|discriminate].
Ltac disturb_all := repeat match goal with |- disturbed _ _ _ _ _ /\ _ => split; [disturb|] end; disturb.

(** Matrix products, over either factor. *)
Theorem C93_products_refuted : exists s z x y,
  disturbed [x; y] (fun z => op_matmul zt Zsc Builtin z x y) s z x /\
  disturbed [x; y] (fun z => op_matmul zt Zsc Builtin z x y) s z y /\
  disturbed [x; y] (fun z => grad_matmul0 zt Zsc Builtin z x y) s z x /\
  disturbed [x; y] (fun z => grad_matmul0 zt Zsc Builtin z x y) s z y /\
  disturbed [x; y] (fun z => grad_matmul1 zt Zsc Builtin z x y) s z x /\
  disturbed [x; y] (fun z => grad_matmul1 zt Zsc Builtin z x y) s z y.
Proof.
  exists (demo [[0; 0; 0; 0]; [1; 2; 3; 4]; [5; 6; 7; 8]]), (T_ 0 [2; 2]), (T_ 1 [2; 2]), (T_ 2 [2; 2]).
  disturb_all.
Qed.

(** Convolutions over the filter; the channels-first one over an image that has
    another shape; the gradient of the filter over the gradient of the output. *)
Theorem C93_conv_refuted : exists s z x y,
  let C := new_conv_psr (mkpadding 0 0) (mkpadding 0 0) 1 1 1 1 in
  let C' := new_conv_psr (mkpadding 1 1) (mkpadding 0 0) 1 1 1 1 in
  disturbed [x; y] (fun z => conv_nhwc zt zt Zsc Builtin C z x y) s z y /\
  disturbed [x; y] (fun z => conv_nchw zt Zsc Builtin C z x y) s z y /\
  (let x := T_ 3 [2; 1; 1; 1] in
   disturbed [x; y] (fun z => conv_nchw zt Zsc Builtin C' z x y) s (T_ 0 [2; 1; 3; 1]) (T_ 3 [2; 1; 3; 1])) /\
  (let gz := T_ 3 [2; 1; 1; 1] in let x := T_ 4 [2; 1; 1; 2] in
   disturbed [gz; x] (fun gy => conv_grad_y zt Zsc Builtin C gy gz x) s (T_ 0 [1; 1; 2; 1]) (T_ 3 [1; 1; 2; 1])).
Proof.
  exists (demo [[0; 0; 0; 0; 0; 0]; [3]; [5]; [1; 2; 0; 0; 0; 0]; [1; 2; 3; 4]]).
  exists (T_ 0 [1; 1; 1; 1]), (T_ 1 [1; 1; 1; 1]), (T_ 2 [1; 1; 1; 1]).
  cbv zeta. disturb_all.
Qed.

(** Padded pools of single images, transpositions, contractions, the softmax gradient over the incoming
    gradient; a rectifier or a copy whose result starts one element later; a
    bias over the bias vector. *)
Theorem C93_others_refuted : exists s P, new_pool_kps 2 1 (mkpadding 1 1) (mkpadding 0 0) 1 1 = Ret P /\
  (let x := T_ 4 [3; 1] in
   disturbed [x] (fun z => op_pool_hw zt (max_acc Zsc (-100)) P z x) s (T_ 0 [4; 1]) (T_ 4 [4; 1])) /\
  (let x := T_ 1 [1; 2; 1; 3] in
   disturbed [x] (fun z => to_last zt zt (fun v => v) z x) s (T_ 0 [1; 1; 3; 2]) (T_ 1 [1; 1; 3; 2])) /\
  (let x := T_ 1 [1; 1; 3; 2] in
   disturbed [x] (fun z => to_first zt zt (fun v => v) z x) s (T_ 0 [1; 2; 1; 3]) (T_ 1 [1; 2; 1; 3])) /\
  (let x := T_ 1 [2; 3] in
   disturbed [x] (fun z => outter_contraction zt Zsc z x) s (T_ 0 [3]) (T_ 1 [3])) /\
  (let gy := T_ 1 [1; 2] in let y := T_ 2 [1; 2] in
   disturbed [gy; y] (fun gx => softmax_grad2 zt Zsc gx gy y y) s (T_ 0 [1; 2]) (T_ 1 [1; 2])) /\
  (let x := T_ 1 [2; 3] in
   disturbed [x] (fun z => op_identity zt z x) s (T_ 0 [2; 3]) (mktensor 1 1 [2; 3]) /\
   disturbed [x] (fun z => op_relu zt Zsc z x) s (T_ 0 [2; 3]) (mktensor 1 1 [2; 3])) /\
  (let x := T_ 1 [2; 2] in let b := T_ 3 [2] in
   disturbed [x; b] (fun z => op_bias zt hw (f_add Zsc) z x b) s (T_ 0 [2; 2]) (T_ 3 [2; 2])).
Proof.
  exists (demo [repeat 0 18; [1; 2; 3; 4; 5; 6; 7; 8; 9; 10; 11; 12; 13; 14; 15; 16; 17; 18]; [5; 7]; [1; 1; 0; 0]; [9; 1; 2; 0]]).
  eexists. split; [reflexivity|]. cbv zeta.
  repeat match goal with |- disturbed _ _ _ _ _ /\ _ => split; [disturb|] end.
  split; [disturb_all|disturb].
Qed.

(** A 3x1 blur written over its image, in both layouts; the gradients of a
    filter of one tap, over the operands. *)
Example C93_conv_example :
  let C := new_conv_psr (mkpadding 1 1) (mkpadding 0 0) 1 1 1 1 in
  let s := demo [[1; 2; 3; 4]; [1; 1; 1]] in
  run (conv_nhwc zt zt Zsc Builtin C (T_ 0 [1; 4; 1; 1]) (T_ 0 [1; 4; 1; 1]) (T_ 1 [3; 1; 1; 1])) s (T_ 0 [4])
    = Some (inits [3; 6; 9; 7]) /\
  run (conv_nhwc zt zt Zsc Builtin C (mktensor 0 1 [1; 3; 1; 1]) (T_ 0 [1; 3; 1; 1]) (T_ 1 [3; 1; 1; 1])) s (T_ 0 [4])
    = Some (inits [1; 3; 6; 5]) /\
  run (conv_nchw zt Zsc Builtin C (T_ 0 [2; 1; 2; 1]) (T_ 0 [2; 1; 2; 1]) (T_ 1 [1; 1; 3; 1])) s (T_ 0 [4])
    = Some (inits [3; 3; 7; 7]) /\
  run (conv_grad_x zt Zsc Builtin C (T_ 0 [1; 4; 1; 1]) (T_ 0 [1; 4; 1; 1]) (T_ 1 [3; 1; 1; 1])) s (T_ 0 [4])
    = Some (inits [3; 6; 9; 7]) /\
  run (conv_grad_y zt Zsc Builtin C (T_ 0 [3; 1; 1; 1]) (T_ 1 [1; 3; 1; 1]) (T_ 0 [1; 3; 1; 1])) s (T_ 0 [4])
    = Some (inits [3; 6; 5; 4]).
Proof. cbv zeta. repeat split; vm_compute; reflexivity. Qed.

(** A 2x2 max pool of two 2x4 images into the front half of their storage. *)
Example C93_pool_example : exists P, new_pool = Ret P /\
  let s := demo [[1; 9; 3; 4; 5; 6; 7; 8; 20; 30; 40; 50; 60; 70; 80; 10]] in
  run (op_pool_nhwc zt (max_acc Zsc (-100)) P (T_ 0 [2; 1; 2; 1]) (T_ 0 [2; 2; 4; 1])) s (T_ 0 [4]) = Some (inits [9; 8; 70; 80]) /\
  run (op_pool_nchw zt (max_acc Zsc (-100)) P (T_ 0 [2; 1; 1; 2]) (T_ 0 [2; 1; 2; 4])) s (T_ 0 [4]) = Some (inits [9; 8; 70; 80]).
Proof. eexists. split; [reflexivity|]. cbv zeta. split; vm_compute; reflexivity. Qed.

(** Squaring a matrix in place gives zeros. *)
Example C93_product_in_place_example :
  run (op_matmul zt Zsc Builtin (T_ 0 [2; 2]) (T_ 0 [2; 2]) (T_ 0 [2; 2])) (demo [[1; 2; 3; 4]]) (T_ 0 [2; 2])
    = Some (inits [0; 0; 0; 0]).
Proof. vm_compute. reflexivity. Qed.

(** The softmax gradient over the outputs 5 and 7 (rational stand-ins). *)
Example C93_softmax_grad_example :
  let s := demo [[5; 7]; [1; 2]; [0; 0]] in let t b := T_ b [1; 2] in
  run (softmax_grad2 zt Zsc (t 0) (t 1) (t 0) (t 0)) s (t 0) = run (softmax_grad2 zt Zsc (t 2) (t 1) (t 0) (t 0)) s (t 2) /\
  run (softmax_grad2 zt Zsc (t 0) (t 1) (t 0) (t 0)) s (t 0) = Some (inits [-90; -119]).
Proof. cbv zeta. split; vm_compute; reflexivity. Qed.

Print Assumptions C93_conv_nhwc.
Print Assumptions C93_conv_nchw.
Print Assumptions C93_conv_grads.
Print Assumptions C93_product_in_place.
Print Assumptions C93_softmax_grad.
Print Assumptions C93_pool_nhwc.
Print Assumptions C93_pool_nchw.
Print Assumptions C93_products_refuted.
Print Assumptions C93_conv_refuted.
Print Assumptions C93_others_refuted.
