(** Programs whose tensors were never written. *)
From Coq Require Import ZArith List Bool Lia String ZifyBool.
From Verif Require Import Base BaseFacts TensorFacts Traits TraitsSpec TraitsFacts Shapes Scalar LinAlg Conv ConvSpec ConvFacts PropsConv PropsSummary
  Elem PoolFacts Pool PoolSpec PropsPool PropsDefaults Reshape Layers LayersSpec LayersFacts LayerCalls PropsLayers PropsLayers2
  Programs ProgramsSpec ProgramsFacts ProgramSteps ConvGradFacts PropsTraits.
Import ListNotations.
Open Scope Z_scope.
Open Scope model_scope.

Section Raw.
  Context {V T : Type} (dt : dtype V T) (di : dtype V Z) (sc : scalar T).

  (** Allocated, never written. *)
  Definition blank (s : st V) (x : tensor) : Prop := forall p, foot x p -> cells s p = Uninit.

  Lemma blank_mapped : forall s x, blank s x -> mapped s x.
  Proof using. intros s x H p Hp. rewrite H by auto. discriminate. Qed.

  Lemma blank_extends : forall s s1 x, blank s x -> extends s s1 -> blank s1 x.
  Proof using. intros s s1 x H E p Hp. rewrite E; [auto|]. rewrite H by auto. discriminate. Qed.

  Lemma for_ub : forall {A} (l : list A) (f : A -> M V unit) (J : st V -> Prop) s,
    J s -> (forall a s1, In a l -> J s1 -> f a s1 = UB \/ exists s2, f a s1 = Ok tt s2 /\ J s2) ->
    (exists a, In a l /\ forall s1, J s1 -> f a s1 = UB) ->
    for_ l f s = UB.
  Proof using.
    intros A l f J. induction l as [|b l IH]; intros s Js St (a & Ia & Ua); [destruct Ia|].
    cbn [for_]. unfold bind. destruct (St b s (or_introl eq_refl) Js) as [E|(s2 & E & J2)]; rewrite E; [reflexivity|].
    destruct Ia as [->|Ia]; [rewrite (Ua s Js) in E; discriminate|].
    apply IH; [exact J2| |exists a; auto]. intros a0 s1 I0. apply St. right. exact I0.
  Qed.

  Lemma with_tensor_ub : forall {A} ds (k : tensor -> M V A) s, fresh_ok s ->
    (forall t s1, tdims t = ds -> blank s1 t -> fresh_ok s1 -> (forall u, mapped s u -> disjoint t u) -> extends s s1 -> k t s1 = UB) ->
    with_tensor ds k s = UB.
  Proof using.
    intros A ds k s F K. destruct (new_tensor_born s ds F) as (y & s1 & E & B).
    destruct B as (B1 & B2 & B3 & B4 & B5 & B6 & B7 & B8).
    assert (E1 : alloc (prod ds) s = Ok (nextb s) s1 /\ y = mktensor (nextb s) 0 ds).
    { unfold new_tensor, bind, alloc, ret in *. injection E as <- <-. split; reflexivity. }
    destruct E1 as [E1 Ey]. unfold with_tensor, with_temp. rewrite E1, <- Ey, (K y s1); auto.
    - intros u Hu p [o [_ ->]] Hp. apply (foot_fresh u s) in Hp; auto. cbn [daddr fst] in Hp. lia.
    - intros p Hp. apply B7. intros Q. apply Hp. apply F. lia.
  Qed.

  Lemma local_ub : forall {A} name ds (k : tensor -> M V A) s, fresh_ok s ->
    (forall t s1, tdims t = ds -> blank s1 t -> fresh_ok s1 -> extends s s1 -> k t s1 = UB) ->
    local (fun _ => noop1) name ds k s = UB.
  Proof using.
    intros A name ds k s F K. unfold local. apply with_tensor_ub; auto.
    intros t s1 Et Bt F1 _ E1. cbn [noop1]. unfold noop1. rewrite bind_ret_l. auto.
  Qed.

  Lemma result_ub : forall {A} ds (op : tensor -> M V unit) (k : tensor -> M V A) s, fresh_ok s ->
    (forall t s1, tdims t = ds -> blank s1 t -> fresh_ok s1 -> (forall u, mapped s u -> disjoint t u) -> extends s s1 -> op t s1 = UB) ->
    result (Ret ds) op k s = UB.
  Proof using.
    intros A ds op k s F K. unfold result, lift. rewrite bind_ret_l. apply with_tensor_ub; auto.
    intros t s1 E1 B1 F1 D1 X1. apply bind_ub. auto.
  Qed.

  (** Gathering the windows of an image that was never written. *)
  Lemma gather_ub : forall H W z q x h w c h' w' u v s,
    axis_ok H h h' -> axis_ok W w w' -> 1 <= c -> h * w * c <= 2 ^ 31 ->
    tdims z = [h'; w'; ksize (sfilter H); ksize (sfilter W); c] -> tdims q = tdims z ->
    tdims x = [h; w; c] ->
    0 <= u < ksize (sfilter H) -> 0 <= v < ksize (sfilter W) -> inb h (wpos H 0 u) = true -> inb w (wpos W 0 v) = true ->
    holds di s q (idx_spec H W h w c) -> blank s x -> mapped s z -> disjoint z q -> disjoint z x ->
    idx_map_gather dt di sc z q x s = UB.
  Proof using.
    intros H W z q x h w c h' w' u v s AH AW Hc Hsz Ez Eq Ex Hu Hv Iu Iv HQ HX HZ Dq Dx.
    assert (Dz : dims_ok z).
    { unfold dims_ok. rewrite Ez. pose proof (axis_m _ _ _ AH). pose proof (axis_m _ _ _ AW).
      pose proof (axis_k _ _ _ AH). pose proof (axis_k _ _ _ AW). repeat constructor; lia. }
    assert (Dqq : dims_ok q) by (unfold dims_ok in *; rewrite Eq; auto).
    assert (Sq : size q = size z) by (unfold size; rewrite Eq; auto).
    set (J := fun s1 : st V => (forall p, ~ foot z p -> cells s1 p = cells s p) /\ mapped s1 z).
    assert (St : forall o s1, 0 <= o < size z -> J s1 -> forall i j a b k, expand (tdims z) o = [i; j; a; b; k] ->
      0 <= k < c ->
      (fun o => j <- load di (daddr q o) ;;
        if 0 <=? j then v <- load dt (daddr x j) ;; store dt (daddr z o) v else store dt (daddr z o) (s0 sc)) o s1 =
      if inb h (wpos H i a) && inb w (wpos W j b) then UB else store dt (daddr z o) (s0 sc) s1).
    { intros o s1 Ho [C M] i j a b k Ei Hk. cbn beta.
      assert (Lq : load di (daddr q o) s1 = Ok (idx_spec H W h w c (expand (tdims z) o)) s1).
      { apply load_ok. rewrite C.
        - rewrite <- Eq. apply holds_daddr; auto. lia.
        - intros Hz. apply (Dq _ Hz). apply daddr_foot. lia. }
      rewrite (bind_ok _ _ _ _ _ Lq), Ei. unfold idx_spec, arg5. cbn [nth].
      destruct (inb h (wpos H i a) && inb w (wpos W j b)) eqn:E; [|reflexivity].
      apply andb_true_iff in E. rewrite !inb_iff in E.
      assert (Vx : valid [h; w; c] [wpos H i a; wpos W j b; k]) by (simpl; tauto).
      pose proof (offset_bound _ _ Vx) as B.
      rewrite to_i32_small by (cbn [prod] in B; lia).
      replace (0 <=? offset [h; w; c] [wpos H i a; wpos W j b; k]) with true by lia.
      apply bind_ub. apply load_uninit. rewrite C.
      - apply HX. apply daddr_foot. unfold size. rewrite Ex. exact B.
      - intros Q. apply (Dx _ Q). apply daddr_foot. unfold size. rewrite Ex. exact B. }
    unfold idx_map_gather. apply (for_ub _ _ J).
    - split; auto.
    - intros o s1 Io J1. apply in_zrange in Io.
      pose proof (valid_expand (tdims z) o Dz Io) as Hix. remember (expand (tdims z) o) as ix eqn:Eix. rewrite Ez in Hix.
      apply valid_5 in Hix. destruct Hix as (i & j & a & b & k & -> & _ & _ & _ & _ & Hk).
      pose proof (St o s1 Io J1 i j a b k (eq_sym Eix) Hk) as Q. cbn beta in Q. rewrite Q.
      destruct (inb h (wpos H i a) && inb w (wpos W j b)); [left; reflexivity|right].
      destruct J1 as [C M]. rewrite store_ok by (apply M, daddr_foot; auto).
      eexists. split; [reflexivity|]. split.
      + intros p Hp. rewrite cells_upd_other; [auto|]. intros ->. apply Hp. apply daddr_foot. auto.
      + intros p Hp. destruct (loc_eqb_spec p (daddr z o)) as [->|Q2]; [rewrite cells_upd_same; discriminate|].
        rewrite cells_upd_other by auto. apply M, Hp.
    - assert (Vz : valid (tdims z) [0; 0; u; v; 0]).
      { rewrite Ez. pose proof (axis_m _ _ _ AH). pose proof (axis_m _ _ _ AW). cbn. repeat split; lia. }
      exists (offset (tdims z) [0; 0; u; v; 0]). pose proof (offset_bound _ _ Vz) as B.
      split; [apply in_zrange; exact B|]. intros s1 J1.
      pose proof (St _ s1 B J1 0 0 u v 0 (expand_offset _ _ Vz) ltac:(lia)) as Q. cbn beta in Q. rewrite Q, Iu, Iv. reflexivity.
  Qed.

  Lemma conv_ub : forall e C z x y n h w c r u d h' w' a b s,
    let H := axis_of (h_trait C) r in let W := axis_of (w_trait C) u in
    axis_ok H h h' -> axis_ok W w w' -> 1 <= n -> 1 <= c -> h * w * c <= 2 ^ 31 ->
    tdims x = [n; h; w; c] -> tdims y = [r; u; c; d] -> tdims z = [n; h'; w'; d] ->
    0 <= a < r -> 0 <= b < u -> inb h (wpos H 0 a) = true -> inb w (wpos W 0 b) = true ->
    fresh_ok s -> blank s x -> conv_nhwc dt di sc e C z x y s = UB.
  Proof using.
    intros e C z x y n h w c r u d h' w' a b s H W AH AW Hn Hc Hsz Ex Ey Ez Ha Hb Ia Ib F Bx.
    assert (Hh' := axis_m _ _ _ AH). assert (Hw' := axis_m _ _ _ AW).
    assert (Hh := axis_n _ _ _ AH). assert (Hw := axis_n _ _ _ AW).
    assert (Kr : ksize (sfilter H) = r) by reflexivity. assert (Ks : ksize (sfilter W) = u) by reflexivity.
    assert (Dx : dims_ok x) by (unfold dims_ok; rewrite Ex; repeat constructor; lia).
    unfold conv_nhwc. rewrite Ey. cbn [filter_shape filter_height_position filter_width_position nth].
    rewrite (axis_sample _ _ _ _ AH), (axis_sample _ _ _ _ AW). unfold lift at 1 2. rewrite !bind_ret_l.
    fold H. fold W. rewrite Ex, (im2col_shape_ok H W h w c h' w' n AH AW). unfold lift. rewrite bind_ret_l.
    apply with_tensor_ub; auto. intros xu s1 Eu Bu F1 Du E1. apply bind_ub.
    assert (Dxu : dims_ok xu) by (unfold dims_ok; rewrite Eu; repeat constructor; lia).
    unfold im2col_nhwc. apply with_tensor_ub; auto. intros q s2 Eq Bq F2 Dq E2. rewrite Ex. cbn [tl].
    rewrite Eu in Eq. cbn [tl] in Eq.
    pose proof (blank_extends _ _ _ Bx E1) as Bx1. pose proof (blank_extends _ _ _ Bx1 E2) as Bx2.
    pose proof (blank_extends _ _ _ Bu E2) as Bu2.
    destruct (idx_map_build_writes di H W q h w c h' w' s2 AH AW ltac:(lia) Eq (blank_mapped _ _ Bq)) as (s3 & E3 & N3 & H3 & C3).
    rewrite (bind_ok _ _ _ _ _ E3). unfold nth_dim. rewrite Ex. cbn [nth].
    destruct (zrange_pos n Hn) as (l & ->). cbn [for_]. apply bind_ub.
    assert (Dqx : disjoint q x) by (apply Dq, blank_mapped; auto).
    assert (Dqu : disjoint q xu) by (apply Dq, blank_mapped; auto).
    assert (Dux : disjoint xu x) by (apply Du, blank_mapped; auto).
    eapply (gather_ub H W (sub xu 0) q (sub x 0) h w c h' w' a b); eauto.
    - apply (tdims_sub _ _ _ _ Eu).
    - rewrite (tdims_sub _ _ _ _ Eu). exact Eq.
    - apply (tdims_sub _ _ _ _ Ex).
    - intros p Hp. assert (Fp : foot x p) by (eapply foot_sub; eauto; lia).
      rewrite C3; [auto|]. intros Q. exact (Dqx _ Q Fp).
    - intros p Hp. assert (Fp : foot xu p) by (eapply foot_sub; eauto; lia).
      rewrite C3; [rewrite Bu2 by auto; discriminate|]. intros Q. exact (Dqu _ Q Fp).
    - eapply disjoint_sub_l; eauto; [lia|]. apply disjoint_sym; auto.
    - eapply disjoint_sub_l; eauto; [lia|]. eapply disjoint_sub_r; eauto. lia.
  Qed.

  Lemma result_conv_ub : forall {A} e C x y n h w c r u d h' w' a b (k : tensor -> M V A) s,
    let H := axis_of (h_trait C) r in let W := axis_of (w_trait C) u in
    axis_ok H h h' -> axis_ok W w w' -> span r (lrate (h_trait C)) < 2 ^ 32 -> span u (lrate (w_trait C)) < 2 ^ 32 ->
    1 <= n -> 1 <= c -> 0 <= d -> h * w * c <= 2 ^ 31 ->
    tdims x = [n; h; w; c] -> tdims y = [r; u; c; d] ->
    0 <= a < r -> 0 <= b < u -> inb h (wpos H 0 a) = true -> inb w (wpos W 0 b) = true ->
    fresh_ok s -> blank s x ->
    result (conv_infer C nhwc rscd (tdims x) (tdims y)) (fun z => conv_nhwc dt di sc e C z x y) k s = UB.
  Proof using.
    intros A e C x y n h w c r u d h' w' a b k s H W AH AW Sh Sw Hn Hc Hd Hsz Ex Ey Ha Hb Ia Ib F Bx.
    assert (EI : conv_infer C nhwc rscd (tdims x) (tdims y) = Ret [n; h'; w'; d]).
    { rewrite Ex, Ey.
      apply (proj1 (C19_infer C nhwc n h w c c r u d (or_introl eq_refl)
        ltac:(unfold H, axis_ok in AH; cbn in AH; unfold axis_fits; tauto) ltac:(unfold W, axis_ok in AW; cbn in AW; unfold axis_fits; tauto))).
      split; [reflexivity|]. exists h', w'. auto. }
    rewrite EI. apply result_ub; auto. intros z s1 Ez Bz F1 Dz E1.
    eapply (conv_ub e C z x y n h w c r u d h' w' a b); eauto. eapply blank_extends; eauto.
  Qed.

  Lemma pool_ub : forall lowest P y x n h w c s, new_pool = Ret P -> 1 <= n -> 1 <= c -> 2 <= h < 2 ^ 32 -> 2 <= w < 2 ^ 32 ->
    h mod 2 = 0 -> w mod 2 = 0 ->
    tdims x = [n; h; w; c] -> tdims y = [n; h / 2; w / 2; c] -> blank s x ->
    op_pool_nhwc dt (max_acc sc lowest) P y x s = UB.
  Proof using.
    intros lowest P y x n h w c s EP Hn Hc Hh Hw Eh Ew Ex Ey Bx.
    assert (Dx : dims_ok x) by (unfold dims_ok; rewrite Ex; repeat constructor; lia).
    pose proof (Z.div_mod h 2 ltac:(lia)). pose proof (Z.div_mod w 2 ltac:(lia)).
    unfold new_pool, new_pool_k, new_pool_ks in EP. rewrite new_pool_kps_iff in EP by lia. injection EP as <-.
    set (S2 := mksample (mkfilter 2 2 1) (mkpadding 0 0)).
    unfold op_pool_nhwc. change (inner_pool _) with (@Ret pool_trait (mkpool S2 S2)).
    unfold lift at 1. rewrite bind_ret_l. unfold nth_dim. rewrite Ex. cbn [nth]. destruct (zrange_pos n Hn) as (l & ->).
    cbn [for_]. apply bind_ub. unfold op_pool_hwc, pool_hwc. cbn [h_sample w_sample]. cbv zeta.
    unfold nth_dim. rewrite (tdims_sub _ _ _ _ Ex), (tdims_sub _ _ _ _ Ey). cbn [nth]. rewrite Z.eqb_refl. cbn [contract]. rewrite bind_ret_l.
    destruct (zrange_pos c Hc) as (lc & ->). destruct (zrange_pos (h / 2) ltac:(lia)) as (lh & ->). destruct (zrange_pos (w / 2) ltac:(lia)) as (lw & ->).
    cbn [for_]. do 4 apply bind_ub. change (zrange (ksize (sfilter S2))) with [0; 1]. cbn [foldM]. do 2 apply bind_ub.
    assert (A2 : forall z, 2 <= z < 2 ^ 32 -> z mod 2 = 0 -> axis_ok S2 z (z / 2)).
    { clear. intros z Hz Ez. pose proof (Z.div_mod z 2 ltac:(lia)). unfold axis_ok, valid_config, span, S2.
      cbn [sfilter ksize stride rate spadding left_ right_]. lia. }
    rewrite (source_ok S2 S2 h w (h / 2) (w / 2) 0 0 0 0) by (auto; cbn; lia).
    replace (inb h (wpos S2 0 0) && inb w (wpos S2 0 0)) with true by (unfold inb, wpos, tap; cbn; lia).
    unfold lift. rewrite bind_ret_l. change (wpos S2 0 0) with 0. apply bind_ub. apply load_uninit. apply Bx.
    apply (foot_sub x 0 n [h; w; c]); auto; [lia|]. apply addr_foot. rewrite (tdims_sub _ _ _ _ Ex). cbn. lia.
  Qed.

  Lemma add_ub : forall z x y s, 1 <= size z -> size x = size z -> size y = size z -> blank s x -> op_add dt sc z x y s = UB.
  Proof using.
    intros z x y s Hz Sx Sy Bx. unfold op_add, binary_pointwise, transform2.
    assert (Sf : size (flat x) = size x) by (unfold size, flat, reshape; cbn; lia). rewrite Sf.
    destruct (zrange_pos (size x) ltac:(lia)) as (l & ->). cbn [for_]. do 2 apply bind_ub. apply load_uninit. apply Bx.
    exists 0. split; [lia|reflexivity].
  Qed.
End Raw.
