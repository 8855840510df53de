(** col2im, adjointness and the convolution gradients. *)
From Coq Require Import ZArith List Bool Lia ZifyBool Ring_theory Ring.
From Verif Require Import Base BaseFacts TensorFacts Traits TraitsSpec TraitsFacts Scalar LinAlg
  LinAlgFacts SumFacts GradSpec Conv ConvSpec ConvFacts.
Import ListNotations.
Open Scope Z_scope.
Open Scope model_scope.

Lemma flat_map_if_singleton : forall {A B} (c : A -> bool) (g : A -> B) l,
  flat_map (fun a => if c a then [g a] else []) l = map g (List.filter c l).
Proof.
  intros A B c g l. induction l as [|a l IH]; cbn [flat_map List.filter]; auto.
  rewrite IH. destruct (c a); reflexivity.
Qed.

Section Col2im.
  Context {V T : Type} (dt : dtype V T) (sc : scalar T).
  Notation zero := (s0 sc).

  Lemma col2im_writes : forall H W y x h w c h' w' X s,
    axis_ok H h h' -> axis_ok W w w' -> 0 <= c ->
    tdims x = [h'; w'; ksize (sfilter H); ksize (sfilter W); c] -> tdims y = [h; w; c] ->
    holds dt s x X -> mapped s y -> disjoint y x ->
    writes dt (col2im dt sc H W y x) s y
      (col2im_spec sc H W h' w' (ksize (sfilter H)) (ksize (sfilter W)) X).
  Proof.
    intros H W y x h w c h' w' X s AH AW Hc Ex Ey HX HY D.
    pose proof (axis_m _ _ _ AH). pose proof (axis_m _ _ _ AW).
    pose proof (axis_k _ _ _ AH). pose proof (axis_k _ _ _ AW).
    pose proof (axis_n _ _ _ AH). pose proof (axis_n _ _ _ AW).
    assert (Dy : dims_ok y) by (unfold dims_ok; rewrite Ey; repeat constructor; lia).
    set (r := ksize (sfilter H)) in *. set (q := ksize (sfilter W)) in *.
    eapply writes_ext; [symmetry|reflexivity|].
    { unfold col2im, nth_dim. rewrite Ex, Ey. cbn [nth]. rewrite Z.eqb_refl.
      unfold contract. rewrite bind_ret_l. reflexivity. }
    apply writes_seq_fill; auto. intros st0 N0 HZ0 F0.
    eapply writes_ext; [symmetry; apply for_nest5| |].
    2: apply (accum_writes dt y (indices [h'; w'; r; q; c]) _
         (arg5 (fun i j u v k => if inb h (wpos H i u) && inb w (wpos W j v)
                                 then Some [wpos H i u; wpos W j v; k] else None))
         (fun b v => sadd sc v (X b)) (fun _ => zero) st0 Dy HZ0).
    - intros ix Hix. rewrite Ey in Hix. apply valid_3 in Hix.
      destruct Hix as (p & p' & k & -> & Hp & Hp' & Hk).
      change [h'; w'; r; q; c] with ([h'; w'; r; q] ++ [c]). rewrite indices_app, filter_flat_map.
      rewrite (flat_map_ext_in _ (fun a =>
         if arg4 (fun i j u v => (wpos H i u =? p) && (wpos W j v =? p')) a then [a ++ [k]] else [])).
      2:{ intros a Ha. apply in_indices, valid_4 in Ha.
          destruct Ha as (i & j & u & v & -> & Hi & Hj & Hu & Hv).
          rewrite filter_map, indices_1, filter_map, map_map. unfold arg4, arg5; cbn [nth app].
          destruct ((wpos H i u =? p) && (wpos W j v =? p')) eqn:E.
          - assert (wpos H i u = p) as -> by lia. assert (wpos W j v = p') as -> by lia.
            replace (inb h p) with true by (symmetry; apply inb_iff; auto).
            replace (inb w p') with true by (symmetry; apply inb_iff; auto). cbn [andb hits].
            rewrite (filter_ext _ (fun b => b =? k)).
            + rewrite filter_eqb_zrange by auto. reflexivity.
            + intros b. destruct (Z.eqb_spec b k) as [->|Ne].
              * apply ix_eqb_true. reflexivity.
              * apply not_true_is_false. rewrite ix_eqb_true. congruence.
          - rewrite filter_false; [reflexivity|]. intros b _.
            destruct (inb h (wpos H i u) && inb w (wpos W j v)); [|reflexivity].
            cbn [hits]. apply not_true_is_false. rewrite ix_eqb_true. intros Q. injection Q as Q1 Q2 Q3. lia. }
      rewrite flat_map_if_singleton, fold_left_map. unfold col2im_spec, arg3, sum_over; cbn [nth].
      apply fold_left_ext_in. intros a b Hb. apply filter_In in Hb. destruct Hb as [Hb _].
      apply in_indices, valid_4 in Hb. destruct Hb as (i & j & u & v & -> & _). reflexivity.
    - intros a ix Ha Ea. apply in_indices, valid_5 in Ha.
      destruct Ha as (i & j & u & v & k & -> & Hi & Hj & Hu & Hv & Hk). unfold arg5 in Ea; cbn [nth] in Ea.
      destruct (inb h (wpos H i u) && inb w (wpos W j v)) eqn:E; [|discriminate]. injection Ea as <-.
      rewrite andb_true_iff, !inb_iff in E. rewrite Ey; simpl; tauto.
    - intros a s' Ha Ns F. apply in_indices, valid_5 in Ha.
      destruct Ha as (i & j & u & v & k & -> & Hi & Hj & Hu & Hv & Hk). unfold arg5; cbn [nth].
      rewrite (source_ok H W h w h' w' i j u v) by auto.
      destruct (inb h (wpos H i u) && inb w (wpos W j v)) eqn:E; unfold lift.
      + intros v0 Hv0. rewrite bind_ret_l.
        erewrite bind_ok; [|apply (at_frame dt s s' x y X); auto;
          [intros p0 Hp0; rewrite F, F0; auto|rewrite Ex; simpl; intuition]].
        erewrite bind_ok; [|unfold at_; apply load_ok; exact Hv0].
        apply set_ok. rewrite Hv0. congruence.
      + rewrite bind_ret_l. reflexivity.
  Qed.
End Col2im.

Section Adjoint.
  Context {T : Type} (sc : scalar T) (laws : ring_laws sc).
  Notation zero := (s0 sc).
  Let rt : ring_theory (s0 sc) (s1 sc) (sadd sc) (smul sc) (ssub sc) (sneg sc) (@eq T) := laws.
  Add Ring sc_ring : rt.

  Lemma sum_pick2 : forall h w p q (F : Z -> Z -> T),
    sum_over sc (indices [h; w]) (arg2 (fun a b => if (p =? a) && (q =? b) then F a b else zero))
    = if inb h p && inb w q then F p q else zero.
  Proof.
    intros h w p q F. rewrite (sum_indices_cons sc laws).
    rewrite (sum_over_ext sc _ _ (fun a => if p =? a then (if inb w q then F a q else zero) else zero)).
    - rewrite (sum_pick sc laws h p (fun a => if inb w q then F a q else zero)). fold (inb h p).
      destruct (inb h p); cbn [andb]; reflexivity.
    - intros a _. rewrite indices_1, sum_over_map. unfold arg2; cbn [nth].
      destruct (p =? a); cbn [andb].
      + rewrite (sum_pick sc laws w q (F a)). reflexivity.
      + apply (sum_zero sc laws).
  Qed.

  Definition im2col_spec (H W : sample) (h w : Z) (X : list Z -> T) : list Z -> T :=
    arg5 (fun i j u v k => zpad zero h w (fun p q => X [p; q; k]) (wpos H i u) (wpos W j v)).

  Lemma im2col_adjoint : forall H W h w c h' w' r s X C,
    inner sc [h'; w'; r; s; c] (im2col_spec H W h w X) C
    = inner sc [h; w; c] X (col2im_spec sc H W h' w' r s C).
  Proof.
    intros H W h w c h' w' r s X C. unfold inner.
    change [h'; w'; r; s; c] with ([h'; w'; r; s] ++ [c]). change [h; w; c] with ([h; w] ++ [c]).
    rewrite !(sum_indices_app sc laws).
    rewrite (sum_over_ext sc (indices [h; w]) _ (fun pq => sum_over sc (indices [h'; w'; r; s]) (fun a =>
      sum_over sc (indices [c]) (fun b =>
        if arg4 (fun i j u v => (wpos H i u =? nth 0 pq 0) && (wpos W j v =? nth 1 pq 0)) a
        then smul sc (X (pq ++ b)) (C (a ++ b)) else zero)))).
    2:{ intros pq Hpq. apply in_indices, valid_2 in Hpq. destruct Hpq as (p & q & -> & _ & _).
        rewrite <- (sum_swap sc laws). apply sum_over_ext. intros b Hb.
        apply in_indices, valid_1 in Hb. destruct Hb as (k & -> & _).
        unfold col2im_spec, arg3; cbn [nth app]. rewrite (sum_filter sc laws), <- (sum_scale_l sc laws).
        apply sum_over_ext. intros a Ha. apply in_indices, valid_4 in Ha.
        destruct Ha as (i & j & u & v & -> & _). unfold arg4; cbn [nth app].
        destruct ((wpos H i u =? p) && (wpos W j v =? q)); ring. }
    rewrite (sum_swap sc laws (indices [h; w])). apply sum_over_ext. intros a Ha. apply in_indices, valid_4 in Ha.
    destruct Ha as (i & j & u & v & -> & _). unfold arg4; cbn [nth app].
    rewrite (sum_swap sc laws (indices [h; w])). apply sum_over_ext. intros b Hb.
    apply in_indices, valid_1 in Hb. destruct Hb as (k & -> & _).
    rewrite (sum_over_ext sc (indices [h; w]) _ (arg2 (fun p q =>
      if (wpos H i u =? p) && (wpos W j v =? q) then smul sc (X [p; q; k]) (C [i; j; u; v; k]) else zero))).
    - rewrite (sum_pick2 h w _ _ (fun p q => smul sc (X [p; q; k]) (C [i; j; u; v; k]))).
      unfold im2col_spec, arg5, zpad; cbn [nth app].
      destruct (inb h (wpos H i u) && inb w (wpos W j v)); ring.
    - intros pq Hpq. apply in_indices, valid_2 in Hpq. destruct Hpq as (p & q & -> & _ & _). reflexivity.
  Qed.
End Adjoint.

Section Kernels.
  Context {V T : Type} (dt : dtype V T) (sc : scalar T).
  Notation zero := (s0 sc).

  Lemma e_mmt_writes : forall e a b c m l n A B s, engine_ok sc e [m; l; n] ->
    tdims a = [m; l] -> tdims b = [n; l] -> tdims c = [m; n] -> 0 <= m -> 0 <= l -> 0 <= n ->
    holds dt s a A -> holds dt s b B -> mapped s c -> disjoint c a -> disjoint c b ->
    writes dt (e_mmt dt sc e a b c) s c
      (arg2 (fun i j => sum_over sc (zrange l) (fun k => smul sc (A [i; k]) (B [j; k])))).
  Proof.
    intros [] a b c m l n A B s He Ea Eb Ec Hm Hl Hn; cbn [e_mmt].
    - intros. eapply mmt_writes; eauto.
    - destruct He as [L F]. rewrite !Forall_cons_iff in F. destruct F as (F1 & F2 & F3 & _).
      intros. eapply cblas_mmt_writes; eauto.
  Qed.

  Lemma e_mtm_writes : forall e a b c m l n A B s, engine_ok sc e [m; l; n] ->
    tdims a = [l; m] -> tdims b = [l; n] -> tdims c = [m; n] -> 0 <= m -> 0 <= l -> 0 <= n ->
    holds dt s a A -> holds dt s b B -> mapped s c -> disjoint c a -> disjoint c b ->
    writes dt (e_mtm dt sc e a b c) s c
      (arg2 (fun i j => sum_over sc (zrange l) (fun k => smul sc (A [k; i]) (B [k; j])))).
  Proof.
    intros [] a b c m l n A B s He Ea Eb Ec Hm Hl Hn; cbn [e_mtm].
    - intros. eapply mtm_writes; eauto.
    - destruct He as [L F]. rewrite !Forall_cons_iff in F. destruct F as (F1 & F2 & F3 & _).
      intros. eapply cblas_mtm_writes; eauto.
  Qed.

  (** Batched operators. *)
  Lemma batched_writes : forall (f : tensor -> tensor -> M V unit) y x n dy dx (X : list Z -> T)
      (G : (list Z -> T) -> list Z -> T) s,
    0 <= n -> nonneg dy -> nonneg dx -> tdims y = n :: dy -> tdims x = n :: dx ->
    holds dt s x X -> mapped s y -> disjoint y x ->
    (forall y' x' X' s', tdims y' = dy -> tdims x' = dx -> holds dt s' x' X' -> mapped s' y' ->
       disjoint y' x' -> writes dt (f y' x') s' y' (G X')) ->
    writes dt (batched f y x) s y
      (fun ix => G (fun jx => X (nth 0 ix 0 :: jx)) (tl ix)).
  Proof.
    intros f y x n dy dx X G s Hn Ny Nx Ey Ex HX HY D Hf.
    assert (Dy : dims_ok y) by (unfold dims_ok; rewrite Ey; constructor; auto).
    assert (Dx : dims_ok x) by (unfold dims_ok; rewrite Ex; constructor; auto).
    unfold batched, nth_dim. rewrite Ex. cbn [nth].
    eapply writes_rows; eauto. intros k s' Hk N F O. cbn [nth tl].
    eapply writes_ext; [reflexivity| |apply Hf with (X' := fun jx => X (k :: jx))]; auto.
    - apply (tdims_sub _ _ _ _ Ey).
    - apply (tdims_sub _ _ _ _ Ex).
    - eapply holds_sub; eauto. eapply holds_frame_disj; eauto.
    - eapply mapped_frame; [exact O|]. eapply mapped_sub; eauto.
    - eapply disjoint_sub_l; eauto. eapply disjoint_sub_r; eauto.
  Qed.

  (** Both operands are consumed by the product into the temporary before
      [gx] is touched: [gx] may overlap either. *)
  Lemma conv_grad_x_writes_over : forall e C gx gz y n h w c r s d h' w' GZ Y st,
    let H := axis_of (h_trait C) r in let W := axis_of (w_trait C) s in
    axis_ok H h h' -> axis_ok W w w' -> 0 <= n -> 0 <= c -> 0 <= d ->
    engine_ok sc e [n; c; d] ->
    tdims gx = [n; h; w; c] -> tdims y = [r; s; c; d] -> tdims gz = [n; h'; w'; d] ->
    fresh_ok st -> holds dt st gz GZ -> holds dt st y Y -> mapped st gx ->
    writes dt (conv_grad_x dt sc e C gx gz y) st gx (conv_gx_spec sc H W h' w' r s d GZ Y).
  Proof.
    intros e C gx gz y n h w c r s d h' w' GZ Y st H W AH AW Hn Hc Hd He Ex Ey Ez Hf HZ HY HX.
    assert (Hh' := axis_m _ _ _ AH). assert (Hw' := axis_m _ _ _ AW).
    assert (Hr := axis_k _ _ _ AH). assert (Hs := axis_k _ _ _ AW).
    assert (Hh := axis_n _ _ _ AH). assert (Hw := axis_n _ _ _ AW).
    assert (Kr : ksize (sfilter H) = r) by reflexivity. assert (Ks : ksize (sfilter W) = s) by reflexivity.
    rewrite Kr in Hr. rewrite Ks in Hs.
    assert (Dz : dims_ok gz) by (unfold dims_ok; rewrite Ez; repeat constructor; lia).
    assert (Dx : dims_ok gx) by (unfold dims_ok; rewrite Ex; repeat constructor; lia).
    assert (Dy : dims_ok y) by (unfold dims_ok; rewrite Ey; repeat constructor; lia).
    assert (Mz : mapped st gz) by (eapply holds_mapped; eauto).
    assert (My : mapped st y) by (eapply holds_mapped; eauto).
    eapply writes_ext; [symmetry|reflexivity|].
    { unfold conv_grad_x. rewrite Ey. cbn [filter_shape filter_height_position filter_width_position nth].
      rewrite (axis_sample _ _ _ _ AH), (axis_sample _ _ _ _ AW). unfold lift at 1 2. rewrite !bind_ret_l.
      fold H. fold W. rewrite Ex, (im2col_shape_ok H W h w c h' w' n AH AW). unfold lift. rewrite bind_ret_l.
      rewrite Kr, Ks. reflexivity. }
    apply with_tensor_writes; auto; [repeat constructor; lia|].
    intros xu s1 Eu Du Mu F1 N1 Dis Ext.
    assert (Dux : disjoint xu gx) by auto. assert (Duy : disjoint xu y) by auto.
    assert (Duz : disjoint xu gz) by auto.
    assert (HZ1 : holds dt s1 gz GZ) by (eapply extends_holds; eauto).
    assert (HY1 : holds dt s1 y Y) by (eapply extends_holds; eauto).
    pose proof (holds_as_matrix dt s1 3 gz _ Dz HZ1) as HA. rewrite Ez in HA.
    pose proof (holds_as_matrix dt s1 3 y _ Dy HY1) as HB. rewrite Ey in HB.
    eapply writes_then.
    - unfold k_mmt. apply (writes_as_matrix dt _ s1 3 xu); auto.
      eapply (e_mmt_writes e (as_matrix 3 gz) (as_matrix 3 y) (as_matrix 3 xu)
           (prod [n; h'; w']) (prod [d]) (prod [r; s; c]) _ _ s1) with (8 := HA) (9 := HB).
      + eapply engine_ok_weaken; eauto. intros Q.
        rewrite !Forall_cons_iff in Q. destruct Q as (Q1 & Q2 & Q3 & _).
        repeat constructor; apply prod_pos; repeat constructor; lia.
      + rewrite tdims_as_matrix, Ez. reflexivity.
      + rewrite tdims_as_matrix, Ey. reflexivity.
      + rewrite tdims_as_matrix, Eu. reflexivity.
      + apply prod_nonneg. repeat constructor; lia.
      + apply prod_nonneg. repeat constructor; lia.
      + apply prod_nonneg. repeat constructor; lia.
      + apply mapped_as_matrix. auto.
      + apply disjoint_as_matrix. auto.
      + apply disjoint_as_matrix. auto.
    - intros s2 HU Oc.
      eapply (holds_ext _ _ _ _ (arg6 (fun l i j u v k' =>
          sum_over sc (zrange d) (fun t => smul sc (GZ [l; i; j; t]) (Y [u; v; k'; t]))))) in HU.
      2:{ intros ix Hix. rewrite Eu in *. apply valid_6 in Hix.
          destruct Hix as (l & i & j & u & v & k & -> & Hl & Hi & Hj & Hu & Hv & Hk).
          cbn [firstn skipn]. unfold arg6; cbn [nth]. cbn [prod]. rewrite Z.mul_1_r.
          apply sum_over_ext. intros t Ht. apply in_zrange in Ht. unfold arg2; cbn [nth].
          rewrite (expand_offset [n; h'; w'] [l; i; j]) by (simpl; auto).
          rewrite (expand_offset [r; s; c] [u; v; k]) by (simpl; auto).
          assert (E1 : expand [d] t = [t]) by (cbn [expand prod]; rewrite Z.div_1_r; reflexivity).
          rewrite E1. reflexivity. }
      eapply writes_ext; [reflexivity| |eapply (batched_writes (col2im dt sc H W) gx xu n [h; w; c] [h'; w'; r; s; c]
         _ (col2im_spec sc H W h' w' r s) s2) with (6 := HU)]; auto.
      + intros ix Hix. rewrite Ex in Hix. apply valid_4 in Hix.
        destruct Hix as (l & p & q & k & -> & _). reflexivity.
      + repeat constructor; lia.
      + repeat constructor; lia.
      + eapply only_changes_mapped; eauto. eapply extends_mapped; eauto.
      + apply disjoint_sym; auto.
      + intros y' x' X' s' Ey' Ex' HX' My' D'.
        apply (col2im_writes dt sc H W y' x' h w c h' w' X' s'); auto.
  Qed.

  Lemma conv_grad_x_writes : forall e C gx gz y n h w c r s d h' w' GZ Y st,
    let H := axis_of (h_trait C) r in let W := axis_of (w_trait C) s in
    axis_ok H h h' -> axis_ok W w w' -> 0 <= n -> 0 <= c -> 0 <= d ->
    engine_ok sc e [n; c; d] ->
    tdims gx = [n; h; w; c] -> tdims y = [r; s; c; d] -> tdims gz = [n; h'; w'; d] ->
    fresh_ok st -> holds dt st gz GZ -> holds dt st y Y -> mapped st gx -> disjoint gx gz -> disjoint gx y ->
    writes dt (conv_grad_x dt sc e C gx gz y) st gx (conv_gx_spec sc H W h' w' r s d GZ Y).
  Proof. intros e C gx gz y n h w c r s d h' w' GZ Y st H W; intros. apply (conv_grad_x_writes_over e C gx gz y n h w c r s d h' w' GZ Y st); auto. Qed.

  (** [gy] may overlap the image, which is copied into the columns first. *)
  Lemma conv_grad_y_writes_over : forall e C gy gz x n h w c r s d h' w' GZ X st,
    let H := axis_of (h_trait C) r in let W := axis_of (w_trait C) s in
    axis_ok H h h' -> axis_ok W w w' -> 0 <= n -> 0 <= c -> 0 <= d ->
    engine_ok sc e [n; c; d] ->
    tdims x = [n; h; w; c] -> tdims gy = [r; s; c; d] -> tdims gz = [n; h'; w'; d] ->
    fresh_ok st -> holds dt st gz GZ -> holds dt st x X -> mapped st gy -> disjoint gy gz ->
    writes dt (conv_grad_y dt sc e C gy gz x) st gy (conv_gy_spec sc H W n h w h' w' GZ X).
  Proof.
    intros e C gy gz x n h w c r s d h' w' GZ X st H W AH AW Hn Hc Hd He Ex Ey Ez Hf HZ HX HY Dyz.
    assert (Hh' := axis_m _ _ _ AH). assert (Hw' := axis_m _ _ _ AW).
    assert (Hr := axis_k _ _ _ AH). assert (Hs := axis_k _ _ _ AW).
    assert (Hh := axis_n _ _ _ AH). assert (Hw := axis_n _ _ _ AW).
    assert (Kr : ksize (sfilter H) = r) by reflexivity. assert (Ks : ksize (sfilter W) = s) by reflexivity.
    rewrite Kr in Hr. rewrite Ks in Hs.
    assert (Dz : dims_ok gz) by (unfold dims_ok; rewrite Ez; repeat constructor; lia).
    assert (Dx : dims_ok x) by (unfold dims_ok; rewrite Ex; repeat constructor; lia).
    assert (Dy : dims_ok gy) by (unfold dims_ok; rewrite Ey; repeat constructor; lia).
    assert (Mz : mapped st gz) by (eapply holds_mapped; eauto).
    assert (Mx : mapped st x) by (eapply holds_mapped; eauto).
    eapply writes_ext; [symmetry|reflexivity|].
    { unfold conv_grad_y. rewrite Ey. cbn [filter_shape filter_height_position filter_width_position nth].
      rewrite (axis_sample _ _ _ _ AH), (axis_sample _ _ _ _ AW). unfold lift at 1 2. rewrite !bind_ret_l.
      fold H. fold W. rewrite Ex, (im2col_shape_ok H W h w c h' w' n AH AW). unfold lift. rewrite bind_ret_l.
      rewrite Kr, Ks. reflexivity. }
    apply with_tensor_writes; auto; [repeat constructor; lia|].
    intros xu s1 Eu Du Mu F1 N1 Dis Ext.
    assert (Dux : disjoint xu x) by auto. assert (Duy : disjoint xu gy) by auto.
    assert (Duz : disjoint xu gz) by auto.
    assert (HZ1 : holds dt s1 gz GZ) by (eapply extends_holds; eauto).
    assert (HX1 : holds dt s1 x X) by (eapply extends_holds; eauto).
    eapply writes_then.
    - eapply (batched_writes (im2col_hwrsc dt sc H W) xu x n [h'; w'; r; s; c] [h; w; c]
         X (im2col_spec sc H W h w) s1); auto; try (repeat constructor; lia).
      intros y' x' X' s' Ey' Ex' HX' My' D'.
      apply (im2col_hwrsc_writes dt sc H W y' x' h w c h' w' X' s'); auto.
    - intros s2 HU Oc.
      assert (HZ2 : holds dt s2 gz GZ) by (eapply only_changes_holds; eauto).
      pose proof (holds_as_matrix dt s2 3 xu _ Du HU) as HA. rewrite Eu in HA.
      pose proof (holds_as_matrix dt s2 3 gz _ Dz HZ2) as HB. rewrite Ez in HB.
      unfold k_mtm.
      eapply writes_ext; [reflexivity| |apply (writes_as_matrix dt _ s2 3 gy); auto;
        eapply (e_mtm_writes e (as_matrix 3 xu) (as_matrix 3 gz) (as_matrix 3 gy)
           (prod [r; s; c]) (prod [n; h'; w']) (prod [d]) _ _ s2) with (8 := HA) (9 := HB)].
      + intros ix Hix. rewrite Ey in *. apply valid_4 in Hix.
        destruct Hix as (u & v & k & t & -> & Hu & Hv & Hk & Ht).
        cbn [firstn skipn]. unfold conv_gy_spec, arg4; cbn [nth].
        rewrite <- sum_over_indices by (repeat constructor; lia).
        apply sum_over_ext. intros o Ho. apply in_zrange in Ho.
        pose proof (valid_expand [n; h'; w'] o ltac:(repeat constructor; lia) Ho) as Vo.
        unfold arg2; cbn [nth].
        rewrite (expand_offset [r; s; c] [u; v; k]) by (simpl; auto).
        rewrite (expand_offset [d] [t]) by (simpl; auto).
        remember (expand [n; h'; w'] o) as oo. apply valid_3 in Vo.
        destruct Vo as (l & i & j & -> & _). reflexivity.
      + eapply engine_ok_weaken; eauto. intros Q.
        rewrite !Forall_cons_iff in Q. destruct Q as (Q1 & Q2 & Q3 & _).
        repeat constructor; apply prod_pos; repeat constructor; lia.
      + rewrite tdims_as_matrix, Eu. reflexivity.
      + rewrite tdims_as_matrix, Ez. reflexivity.
      + rewrite tdims_as_matrix, Ey. reflexivity.
      + apply prod_nonneg. repeat constructor; lia.
      + apply prod_nonneg. repeat constructor; lia.
      + apply prod_nonneg. repeat constructor; lia.
      + apply mapped_as_matrix. eapply only_changes_mapped; eauto. eapply extends_mapped; eauto.
      + apply disjoint_as_matrix. apply disjoint_sym; auto.
      + apply disjoint_as_matrix. auto.
  Qed.

  Lemma conv_grad_y_writes : forall e C gy gz x n h w c r s d h' w' GZ X st,
    let H := axis_of (h_trait C) r in let W := axis_of (w_trait C) s in
    axis_ok H h h' -> axis_ok W w w' -> 0 <= n -> 0 <= c -> 0 <= d ->
    engine_ok sc e [n; c; d] ->
    tdims x = [n; h; w; c] -> tdims gy = [r; s; c; d] -> tdims gz = [n; h'; w'; d] ->
    fresh_ok st -> holds dt st gz GZ -> holds dt st x X -> mapped st gy -> disjoint gy gz -> disjoint gy x ->
    writes dt (conv_grad_y dt sc e C gy gz x) st gy (conv_gy_spec sc H W n h w h' w' GZ X).
  Proof. intros e C gy gz x n h w c r s d h' w' GZ X st H W; intros. apply (conv_grad_y_writes_over e C gy gz x n h w c r s d h' w' GZ X st); auto. Qed.
End Kernels.

Section Vjp.
  Context {T : Type} (sc : scalar T) (laws : ring_laws sc).
  Notation zero := (s0 sc).
  Let rt : ring_theory (s0 sc) (s1 sc) (sadd sc) (smul sc) (ssub sc) (sneg sc) (@eq T) := laws.
  Add Ring sc_ring : rt.

  (** A linear map with an adjoint. *)
  Lemma linear_vjp : forall dz dx (F : (list Z -> T) -> list Z -> T) GZ GX,
    (forall X dX ix, valid dz ix -> F (tadd sc X dX) ix = sadd sc (F X ix) (F dX ix)) ->
    (forall dX, inner sc dz GZ (F dX) = inner sc dx GX dX) ->
    is_vjp sc dz dx F GZ GX.
  Proof.
    intros dz dx F GZ GX HL HA X dX. rewrite <- HA. apply (inner_ext sc); auto.
    intros ix Hix. unfold tsub. rewrite HL by auto. ring.
  Qed.

  Lemma conv_gx_vjp : forall H W n h w c r s d h' w' GZ Y,
    is_vjp sc [n; h'; w'; d] [n; h; w; c] (fun X => conv_spec_nhwc sc H W h w r s c X Y)
      GZ (conv_gx_spec sc H W h' w' r s d GZ Y).
  Proof.
    intros H W n h w c r s d h' w' GZ Y. apply linear_vjp.
    - intros X dX ix Hix. apply valid_4 in Hix. destruct Hix as (l & i & j & t & -> & _).
      unfold conv_spec_nhwc, arg4; cbn [nth]. rewrite <- (sum_add sc laws).
      apply sum_over_ext. intros a Ha. apply in_indices, valid_3 in Ha. destruct Ha as (u & v & k & -> & _).
      unfold arg3, zpad, tadd; cbn [nth]. destruct (inb h (wpos H i u) && inb w (wpos W j v)); ring.
    - intros dX. unfold inner. rewrite !(sum_indices_cons sc laws n). apply sum_over_ext. intros l _.
      set (C := arg5 (fun i j u v k' => sum_over sc (zrange d) (fun t => smul sc (GZ [l; i; j; t]) (Y [u; v; k'; t])))).
      transitivity (inner sc [h; w; c] (fun jx => dX (l :: jx)) (col2im_spec sc H W h' w' r s C)).
      + rewrite <- (im2col_adjoint sc laws). unfold inner.
        change [h'; w'; d] with ([h'; w'] ++ [d]). change [h'; w'; r; s; c] with ([h'; w'] ++ [r; s; c]).
        rewrite !(sum_indices_app sc laws). apply sum_over_ext. intros ij Hij.
        apply in_indices, valid_2 in Hij. destruct Hij as (i & j & -> & _ & _).
        rewrite (sum_over_ext sc (indices [d]) _ (fun tt => sum_over sc (indices [r; s; c]) (fun b =>
           smul sc (im2col_spec sc H W h w (fun jx => dX (l :: jx)) ([i; j] ++ b))
             (smul sc (GZ (l :: i :: j :: tt)) (Y (b ++ tt)))))).
        2:{ intros tt Ht. apply in_indices, valid_1 in Ht. destruct Ht as (t & -> & _).
            unfold conv_spec_nhwc, arg4; cbn [app nth]. rewrite <- (sum_scale_l sc laws).
            apply sum_over_ext. intros b Hb. apply in_indices, valid_3 in Hb.
            destruct Hb as (u & v & k & -> & _). unfold arg3, im2col_spec, arg5; cbn [nth app]. ring. }
        rewrite (sum_swap sc laws (indices [d])). apply sum_over_ext. intros b Hb.
        apply in_indices, valid_3 in Hb. destruct Hb as (u & v & k & -> & _).
        rewrite (sum_scale_l sc laws). f_equal. unfold C, arg5; cbn [nth app].
        rewrite indices_1, sum_over_map. reflexivity.
      + rewrite inner_comm by auto. unfold inner. apply sum_over_ext. intros pqk Hp.
        apply in_indices, valid_3 in Hp. destruct Hp as (p & q & k & -> & _). reflexivity.
  Qed.

  Lemma conv_gy_vjp : forall H W n h w c r s d h' w' GZ X,
    is_vjp sc [n; h'; w'; d] [r; s; c; d] (fun Y => conv_spec_nhwc sc H W h w r s c X Y)
      GZ (conv_gy_spec sc H W n h w h' w' GZ X).
  Proof.
    intros H W n h w c r s d h' w' GZ X. apply linear_vjp.
    - intros Y dY ix Hix. apply valid_4 in Hix. destruct Hix as (l & i & j & t & -> & _).
      unfold conv_spec_nhwc, arg4; cbn [nth]. rewrite <- (sum_add sc laws).
      apply sum_over_ext. intros a Ha. apply in_indices, valid_3 in Ha. destruct Ha as (u & v & k & -> & _).
      unfold arg3, tadd; cbn [nth]. ring.
    - intros dY. unfold inner.
      change [n; h'; w'; d] with ([n; h'; w'] ++ [d]). change [r; s; c; d] with ([r; s; c] ++ [d]).
      rewrite !(sum_indices_app sc laws).
      set (P := fun lij b => arg3 (fun l i j => arg3 (fun u v k =>
         zpad zero h w (fun p q => X [l; p; q; k]) (wpos H i u) (wpos W j v)) b) lij).
      transitivity (sum_over sc (indices [n; h'; w']) (fun lij => sum_over sc (indices [r; s; c]) (fun b =>
        sum_over sc (indices [d]) (fun t => smul sc (smul sc (P lij b) (GZ (lij ++ t))) (dY (b ++ t)))))).
      + apply sum_over_ext. intros lij Hlij. apply in_indices, valid_3 in Hlij.
        destruct Hlij as (l & i & j & -> & _). rewrite (sum_swap sc laws (indices [r; s; c])).
        apply sum_over_ext. intros t Ht. apply in_indices, valid_1 in Ht. destruct Ht as (t0 & -> & _).
        unfold conv_spec_nhwc, arg4; cbn [nth app]. rewrite <- (sum_scale_l sc laws).
        apply sum_over_ext. intros b Hb. apply in_indices, valid_3 in Hb.
        destruct Hb as (u & v & k & -> & _). unfold P, arg3; cbn [nth app]. ring.
      + rewrite (sum_swap sc laws (indices [n; h'; w'])). apply sum_over_ext. intros b Hb.
        apply in_indices, valid_3 in Hb. destruct Hb as (u & v & k & -> & _).
        rewrite (sum_swap sc laws (indices [n; h'; w'])). apply sum_over_ext. intros t Ht.
        apply in_indices, valid_1 in Ht. destruct Ht as (t0 & -> & _).
        rewrite (sum_scale_r sc laws). f_equal. unfold conv_gy_spec, arg4; cbn [nth app].
        apply sum_over_ext. intros lij Hlij. apply in_indices, valid_3 in Hlij.
        destruct Hlij as (l & i & j & -> & _). reflexivity.
  Qed.

  (** The two layouts. *)
  Lemma conv_layouts : forall H W h w r s c X Y l i j t,
    conv_spec_nchw sc H W h w r s c
      (arg4 (fun l k p q => X [l; p; q; k])) (arg4 (fun t k u v => Y [u; v; k; t])) [l; t; i; j]
    = conv_spec_nhwc sc H W h w r s c X Y [l; i; j; t].
  Proof.
    intros. unfold conv_spec_nchw, conv_spec_nhwc, arg4; cbn [nth].
    change [c; r; s] with ([c] ++ [r; s]). change [r; s; c] with ([r; s] ++ [c]).
    rewrite !(sum_indices_app sc laws), (sum_swap sc laws).
    apply sum_over_ext. intros uv Huv. apply in_indices, valid_2 in Huv. destruct Huv as (u & v & -> & _ & _).
    apply sum_over_ext. intros kk Hk. apply in_indices, valid_1 in Hk. destruct Hk as (k & -> & _).
    unfold arg3; cbn [nth app]. ring.
  Qed.
End Vjp.

Lemma origin_size_ok : forall sp n m, axis_ok sp n m -> origin_size m sp = Ret n.
Proof.
  intros [[k s r] [pl pr]] n m H. unfold axis_ok, valid_config, span in H;
    cbn [sfilter spadding ksize stride rate left_ right_] in H.
  destruct H as (Hk & Hst & Hr & Hl & Hrr & Hn & Hf & Hm & Hv).
  unfold origin_size, patch_size, pad_len, isub, imul, iadd, norm, obind;
    cbn [sfilter spadding ksize stride rate left_ right_].
  f_equal.
  transitivity (n mod 2 ^ 32); [|apply Z.mod_small; lia].
  repeat first [rewrite Zminus_mod_idemp_l | rewrite Zminus_mod_idemp_r | rewrite Zmult_mod_idemp_l
    | rewrite Zplus_mod_idemp_l | rewrite Zplus_mod_idemp_r].
  assert (0 <= (m - 1) * s) by nia. assert (0 <= (k - 1) * r) by nia.
  rewrite (Z.mod_small ((m - 1) * s)), (Z.mod_small ((k - 1) * r + 1)), (Z.mod_small (pl + 0)) by lia.
  f_equal. lia.
Qed.

Lemma i32_u32 : forall x, 0 <= x < 2 ^ 32 -> to_u32 (to_i32 x) = x.
Proof.
  intros x Hx. unfold to_u32, to_i32. rewrite Zminus_mod_idemp_l.
  replace (x + 2 ^ 31 - 2 ^ 31) with x by lia. apply Z.mod_small; auto.
Qed.

Lemma col2im_shape_ok : forall H W h w c h' w', axis_ok H h h' -> axis_ok W w w' ->
  col2im_shape H W [h'; w'; ksize (sfilter H); ksize (sfilter W); c] = Ret [h; w; c].
Proof.
  intros H W h w c h' w' AH AW. unfold col2im_shape; cbn [nth]. rewrite !Z.eqb_refl.
  cbn [andb ocontract obind]. rewrite (origin_size_ok _ _ _ AH), (origin_size_ok _ _ _ AW). cbn [obind].
  assert (forall sp n m, axis_ok sp n m -> 0 <= n < 2 ^ 32) as B.
  { intros sp n m A. unfold axis_ok in A. lia. }
  rewrite !i32_u32 by eauto. reflexivity.
Qed.

(** Sizes for which the geometry is exact. *)
Definition axis_fits (c : lconv) (n k : Z) : Prop :=
  0 <= left_ (lpad c) /\ 0 <= right_ (lpad c) /\ 0 <= n /\
  left_ (lpad c) + n + right_ (lpad c) < 2 ^ 32 /\ span k (lrate c) < 2 ^ 32.

Lemma lconv_len_iff : forall c n k, axis_fits c n k ->
  (forall m, lconv_len c n k = Ret m <-> axis_ok (axis_of c k) n m) /\
  ((forall m, ~ axis_ok (axis_of c k) n m) -> lconv_len c n k = Exn InvalidArgument).
Proof.
  intros [[pl pr] s r] n k (Hl & Hr & Hn & Hf & Hs); cbn [lpad lstride lrate left_ right_] in *.
  unfold lconv_len, lconv_sample, axis_of; cbn [lpad lstride lrate left_ right_].
  unfold new_sample, new_filter.
  destruct (Z.ltb_spec k 1) as [?|Lk]; [cbn [obind]; split; [|reflexivity]; intros m; split;
     [congruence|]; unfold axis_ok; cbn; lia|].
  destruct (Z.ltb_spec s 1) as [?|Ls]; [cbn [obind]; split; [|reflexivity]; intros m; split;
     [congruence|]; unfold axis_ok; cbn; lia|].
  destruct (Z.ltb_spec r 1) as [?|Lr]; [cbn [obind]; split; [|reflexivity]; intros m; split;
     [congruence|]; unfold axis_ok; cbn; lia|].
  cbn [obind]. pose proof (span_pos k r ltac:(lia) ltac:(lia)).
  destruct (sample_len_iff U32 k s r pl pr n) as [A B]; auto; try (unfold fits; lia).
  assert (Q : forall m, valid_config k s r pl pr n m <->
     axis_ok (mksample (mkfilter k s r) (mkpadding pl pr)) n m).
  { intros m. unfold axis_ok; cbn. intuition. }
  split.
  - intros m. rewrite A. apply Q.
  - intros N. apply B. intros m C. apply (N m). apply Q. auto.
Qed.

Lemma lconv_len_total : forall c n k, axis_fits c n k ->
  (exists m, lconv_len c n k = Ret m) \/ lconv_len c n k = Exn InvalidArgument.
Proof.
  intros c n k F. destruct (lconv_len_iff c n k F) as [A B].
  destruct (lconv_len c n k) as [m|e|] eqn:E; [left; eauto| |].
  - right. apply B. intros m Q. apply A in Q. discriminate.
  - right. apply B. intros m Q. apply A in Q. discriminate.
Qed.
