From Coq Require Import ZArith List Bool Lia ZifyBool Ring_theory Ring.
From Verif Require Import Base BaseFacts TensorFacts Traits TraitsSpec TraitsFacts Scalar LinAlg LinAlgFacts Conv ConvSpec.
Import ListNotations.
Open Scope Z_scope.
Open Scope model_scope.

Lemma axis_m : forall sp n m, axis_ok sp n m -> 1 <= m.
Proof. intros sp n m H. unfold axis_ok, valid_config in H. tauto. Qed.

Lemma axis_k : forall sp n m, axis_ok sp n m -> 1 <= ksize (sfilter sp).
Proof. intros sp n m H. unfold axis_ok in H. tauto. Qed.

Lemma axis_n : forall sp n m, axis_ok sp n m -> 0 <= n.
Proof. intros sp n m H. unfold axis_ok in H. tauto. Qed.

Lemma axis_span : forall sp n m, axis_ok sp n m ->
  span (ksize (sfilter sp)) (rate (sfilter sp)) <= left_ (spadding sp) + n + right_ (spadding sp).
Proof. intros sp n m H. unfold axis_ok, valid_config in H. nia. Qed.

Lemma axis_len : forall sp n m, axis_ok sp n m -> sample_len U32 sp n = Ret m.
Proof.
  intros [[k s r] [pl pr]] n m H. pose proof (axis_span _ _ _ H) as Hs.
  unfold axis_ok in H; cbn [sfilter spadding ksize stride rate left_ right_] in *.
  destruct H as (Hk & Hst & Hr & Hl & Hrr & Hn & Hf & Hv).
  apply sample_len_iff; auto; unfold fits; try lia.
  split; [|lia]. pose proof (span_pos k r Hk Hr). lia.
Qed.

(** The axis check is exactly what the code's length function decides. *)
Lemma len_axis : forall k s r pl pr n m, 1 <= k -> 1 <= s -> 1 <= r -> 0 <= pl -> 0 <= pr -> 0 <= n ->
  pl + n + pr < 2 ^ 32 -> span k r < 2 ^ 32 ->
  sample_len U32 (mksample (mkfilter k s r) (mkpadding pl pr)) n = Ret m ->
  axis_ok (mksample (mkfilter k s r) (mkpadding pl pr)) n m.
Proof.
  intros k s r pl pr n m Hk Hs Hr Hl Hrr Hn Hf Hf2 E. pose proof (span_pos k r Hk Hr).
  apply sample_len_iff in E; auto; unfold fits; try lia.
  unfold axis_ok; cbn. repeat split; auto; apply E.
Qed.

Lemma axis_pos : forall sp n m j u, axis_ok sp n m -> 0 <= j < m -> 0 <= u < ksize (sfilter sp) ->
  exists i, sample_pos U32 sp j u = Ret i /\
    sample_inside U32 sp i n = Ret (inb n (wpos sp j u)) /\
    (inb n (wpos sp j u) = true -> sample_unpad U32 sp i = Ret (wpos sp j u)).
Proof.
  intros [[k s r] [pl pr]] n m j u H Hj Hu.
  unfold axis_ok in H; cbn [sfilter spadding ksize stride rate left_ right_] in *.
  destruct H as (Hk & Hst & Hr & Hl & Hrr & Hn & Hf & Hv).
  pose proof (tap_bounds k s r pl pr n m j u Hk Hst Hr Hv Hj Hu) as B.
  exists (tap s r j u). unfold sample_pos, sample_inside, sample_unpad; cbn [sfilter spadding].
  split; [|split].
  - apply (filter_pos_ok U32 k s r j u (n + pl + pr)); auto; unfold fits; lia.
  - rewrite pad_inside_val by (auto; unfold fits; lia). f_equal.
    unfold inb, wpos; cbn [sfilter spadding stride rate left_]. lia.
  - unfold inb, wpos; cbn [sfilter spadding stride rate left_]. intros E.
    apply (pad_unpad_val U32 pl pr (tap s r j u) n); unfold fits; lia.
Qed.

Lemma source_ok : forall H W h w h' w' i_ j_ u v,
  axis_ok H h h' -> axis_ok W w w' ->
  0 <= i_ < h' -> 0 <= j_ < w' -> 0 <= u < ksize (sfilter H) -> 0 <= v < ksize (sfilter W) ->
  source H W h w i_ j_ u v =
    Ret (if inb h (wpos H i_ u) && inb w (wpos W j_ v)
         then Some (wpos H i_ u, wpos W j_ v) else None).
Proof.
  intros H W h w h' w' i_ j_ u v AH AW Hi Hj Hu Hv.
  destruct (axis_pos H h h' i_ u AH Hi Hu) as [i [E1 [E2 E3]]].
  destruct (axis_pos W w w' j_ v AW Hj Hv) as [j [F1 [F2 F3]]].
  unfold source. rewrite E1. cbn [obind]. rewrite F1. cbn [obind]. rewrite E2. cbn [obind].
  destruct (inb h (wpos H i_ u)); [|reflexivity]. rewrite F2. cbn [obind].
  destruct (inb w (wpos W j_ v)); [|reflexivity]. rewrite E3, F3 by auto. reflexivity.
Qed.

Lemma inb_iff : forall n q, inb n q = true <-> 0 <= q < n.
Proof. unfold inb. intros. lia. Qed.

Lemma sum_over_indices : forall {T} (sc : scalar T) ds (f : list Z -> T), nonneg ds ->
  sum_over sc (zrange (prod ds)) (fun k => f (expand ds k)) = sum_over sc (indices ds) f.
Proof. intros. rewrite indices_expand by auto. rewrite sum_over_map. reflexivity. Qed.

Section ConvFacts.
  Context {V T : Type} (dt : dtype V T) (di : dtype V Z) (sc : scalar T).
  Notation zero := (s0 sc).

  (** ** im2col *)

  Lemma im2col_hwrs_writes : forall H W y x h w h' w' X s,
    axis_ok H h h' -> axis_ok W w w' ->
    tdims x = [h; w] -> tdims y = [h'; w'; ksize (sfilter H); ksize (sfilter W)] ->
    holds dt s x X -> mapped s y -> disjoint y x ->
    writes dt (im2col_hwrs dt sc H W y x) s y
      (arg4 (fun i j u v => zpad zero h w (fun p q => X [p; q]) (wpos H i u) (wpos W j v))).
  Proof.
    intros H W y x h w h' w' X s AH AW Ex Ey HX HY D.
    assert (Dy : dims_ok y).
    { unfold dims_ok. rewrite Ey. pose proof (axis_m _ _ _ AH). pose proof (axis_m _ _ _ AW).
      pose proof (axis_k _ _ _ AH). pose proof (axis_k _ _ _ AW). repeat constructor; lia. }
    eapply writes_ext; [symmetry|reflexivity|].
    { unfold im2col_hwrs, nth_dim. rewrite Ex, Ey. cbn [nth]. rewrite for_nest4, <- Ey. reflexivity. }
    apply writes_loop; auto. intros ix s' Hix N F O. rewrite Ey in Hix. apply valid_4 in Hix.
    destruct Hix as (i & j & u & v & -> & Hi & Hj & Hu & Hv). unfold arg4; cbn [nth].
    rewrite (source_ok H W h w h' w' i j u v) by auto. unfold lift. rewrite bind_ret_l.
    unfold zpad. destruct (inb h (wpos H i u) && inb w (wpos W j v)) eqn:E.
    - apply andb_true_iff in E. rewrite !inb_iff in E.
      erewrite bind_ok; [|apply (at_frame dt s s' x y X); auto; rewrite Ex; simpl; tauto].
      apply set_ok. rewrite O. apply mapped_addr; auto. rewrite Ey; simpl; auto.
    - rewrite bind_ret_l. apply set_ok. rewrite O. apply mapped_addr; auto. rewrite Ey; simpl; auto.
  Qed.

  Lemma im2col_rshw_writes : forall H W y x h w h' w' X s,
    axis_ok H h h' -> axis_ok W w w' ->
    tdims x = [h; w] -> tdims y = [ksize (sfilter H); ksize (sfilter W); h'; w'] ->
    holds dt s x X -> mapped s y -> disjoint y x ->
    writes dt (im2col_rshw dt sc H W y x) s y
      (arg4 (fun u v i j => zpad zero h w (fun p q => X [p; q]) (wpos H i u) (wpos W j v))).
  Proof.
    intros H W y x h w h' w' X s AH AW Ex Ey HX HY D.
    assert (Dy : dims_ok y).
    { unfold dims_ok. rewrite Ey. pose proof (axis_m _ _ _ AH). pose proof (axis_m _ _ _ AW).
      pose proof (axis_k _ _ _ AH). pose proof (axis_k _ _ _ AW). repeat constructor; lia. }
    eapply writes_ext; [symmetry|reflexivity|].
    { unfold im2col_rshw, nth_dim. rewrite Ex, Ey. cbn [nth]. rewrite for_nest4, <- Ey. reflexivity. }
    apply writes_loop; auto. intros ix s' Hix N F O. rewrite Ey in Hix. apply valid_4 in Hix.
    destruct Hix as (u & v & i & j & -> & Hu & Hv & Hi & Hj). unfold arg4; cbn [nth].
    rewrite (source_ok H W h w h' w' i j u v) by auto. unfold lift. rewrite bind_ret_l.
    unfold zpad. destruct (inb h (wpos H i u) && inb w (wpos W j v)) eqn:E.
    - apply andb_true_iff in E. rewrite !inb_iff in E.
      erewrite bind_ok; [|apply (at_frame dt s s' x y X); auto; rewrite Ex; simpl; tauto].
      apply set_ok. rewrite O. apply mapped_addr; auto. rewrite Ey; simpl; auto.
    - rewrite bind_ret_l. apply set_ok. rewrite O. apply mapped_addr; auto. rewrite Ey; simpl; auto.
  Qed.

  Lemma im2col_hwrsc_writes : forall H W y x h w c h' w' X s,
    axis_ok H h h' -> axis_ok W w w' -> 0 <= c ->
    tdims x = [h; w; c] -> tdims y = [h'; w'; ksize (sfilter H); ksize (sfilter W); c] ->
    holds dt s x X -> mapped s y -> disjoint y x ->
    writes dt (im2col_hwrsc dt sc H W y x) s y
      (arg5 (fun i j u v k => zpad zero h w (fun p q => X [p; q; k]) (wpos H i u) (wpos W j v))).
  Proof.
    intros H W y x h w c h' w' X s AH AW Hc Ex Ey HX HY D.
    assert (Dy : dims_ok y).
    { unfold dims_ok. rewrite Ey. pose proof (axis_m _ _ _ AH). pose proof (axis_m _ _ _ AW).
      pose proof (axis_k _ _ _ AH). pose proof (axis_k _ _ _ AW). repeat constructor; lia. }
    eapply writes_ext; [symmetry|reflexivity|].
    { unfold im2col_hwrsc, nth_dim. rewrite Ex, Ey. cbn [nth]. rewrite Z.eqb_refl.
      unfold contract. rewrite bind_ret_l, for_nest5, <- Ey. reflexivity. }
    apply writes_loop; auto. intros ix s' Hix N F O. rewrite Ey in Hix. apply valid_5 in Hix.
    destruct Hix as (i & j & u & v & k & -> & Hi & Hj & Hu & Hv & Hk). unfold arg5; cbn [nth].
    rewrite (source_ok H W h w h' w' i j u v) by auto. unfold lift. rewrite bind_ret_l.
    unfold zpad. destruct (inb h (wpos H i u) && inb w (wpos W j v)) eqn:E.
    - apply andb_true_iff in E. rewrite !inb_iff in E.
      erewrite bind_ok; [|apply (at_frame dt s s' x y X); auto; rewrite Ex; simpl; tauto].
      apply set_ok. rewrite O. apply mapped_addr; auto. rewrite Ey; simpl; intuition.
    - rewrite bind_ret_l. apply set_ok. rewrite O. apply mapped_addr; auto. rewrite Ey; simpl; intuition.
  Qed.

  (** ** The index map *)

  Definition idx_spec (H W : sample) (h w c : Z) : list Z -> Z :=
    arg5 (fun i j u v k =>
      if inb h (wpos H i u) && inb w (wpos W j v)
      then to_i32 (to_u32 (offset [h; w; c] [wpos H i u; wpos W j v; k])) else -1).

  Lemma idx_map_build_writes : forall H W q h w c h' w' s,
    axis_ok H h h' -> axis_ok W w w' -> 0 <= c ->
    tdims q = [h'; w'; ksize (sfilter H); ksize (sfilter W); c] -> mapped s q ->
    writes di (idx_map_build di H W q [h; w; c]) s q (idx_spec H W h w c).
  Proof.
    intros H W q h w c h' w' s AH AW Hc Eq HQ.
    assert (Dq : dims_ok q).
    { unfold dims_ok. rewrite Eq. pose proof (axis_m _ _ _ AH). pose proof (axis_m _ _ _ AW).
      pose proof (axis_k _ _ _ AH). pose proof (axis_k _ _ _ AW). repeat constructor; lia. }
    unfold idx_map_build. apply writes_loop_flat; auto.
    intros o s' Ho N F O. pose proof (valid_expand (tdims q) o Dq Ho) as Hix.
    remember (expand (tdims q) o) as ix eqn:Eix. rewrite Eq in Hix.
    apply valid_5 in Hix. destruct Hix as (i & j & u & v & k & -> & Hi & Hj & Hu & Hv & Hk).
    cbn [nth]. rewrite (source_ok H W h w h' w' i j u v) by auto. unfold lift. rewrite bind_ret_l.
    rewrite store_ok by (rewrite O; apply HQ, daddr_foot; auto).
    f_equal. f_equal. f_equal. unfold idx_spec, arg5; cbn [nth].
    destruct (inb h (wpos H i u) && inb w (wpos W j v)); reflexivity.
  Qed.

  (** The value gathered through the table: cells whose offset is 2^31 or more
      read as 0. *)
  Definition gather_spec (H W : sample) (h w c : Z) (X : list Z -> T) : list Z -> T :=
    arg5 (fun i j u v k =>
      zpad zero h w (fun p q => if offset [h; w; c] [p; q; k] <? 2 ^ 31 then X [p; q; k] else zero)
           (wpos H i u) (wpos W j v)).

  Lemma to_i32_small : forall x, 0 <= x < 2 ^ 31 -> to_i32 (to_u32 x) = x.
  Proof.
    intros x Hx. unfold to_u32, to_i32. rewrite (Z.mod_small x) by lia. rewrite Z.mod_small by lia. lia.
  Qed.
  Lemma to_i32_big : forall x, 2 ^ 31 <= x < 2 ^ 32 -> to_i32 (to_u32 x) < 0.
  Proof.
    intros x Hx. unfold to_u32, to_i32. rewrite (Z.mod_small x) by lia.
    rewrite <- (Z.mod_add _ (-1)) by lia. rewrite Z.mod_small by lia. lia.
  Qed.

  Lemma idx_map_gather_writes : forall H W z q x h w c h' w' X s,
    axis_ok H h h' -> axis_ok W w w' -> 0 <= c -> h * w * c <= 2 ^ 32 ->
    tdims z = [h'; w'; ksize (sfilter H); ksize (sfilter W); c] -> tdims q = tdims z ->
    tdims x = [h; w; c] ->
    holds di s q (idx_spec H W h w c) -> holds dt s x X -> mapped s z ->
    disjoint z q -> disjoint z x ->
    writes dt (idx_map_gather dt di sc z q x) s z (gather_spec H W h w c X).
  Proof.
    intros H W z q x h w c h' w' X s AH AW Hc Hsz Ez Eq Ex HQ HX HZ Dq Dx.
    assert (Dz : dims_ok z).
    { unfold dims_ok. rewrite Ez. pose proof (axis_m _ _ _ AH). pose proof (axis_m _ _ _ AW).
      pose proof (axis_k _ _ _ AH). pose proof (axis_k _ _ _ AW). repeat constructor; lia. }
    assert (Dqq : dims_ok q) by (unfold dims_ok in *; rewrite Eq; auto).
    assert (Dxx : dims_ok x).
    { unfold dims_ok. rewrite Ex. pose proof (axis_n _ _ _ AH). pose proof (axis_n _ _ _ AW).
      repeat constructor; lia. }
    unfold idx_map_gather. apply writes_loop_flat; auto.
    intros o s' Ho N F O.
    assert (Sq : size q = size z) by (unfold size; rewrite Eq; auto).
    assert (Lq : load di (daddr q o) s' = Ok (idx_spec H W h w c (expand (tdims z) o)) s').
    { apply load_ok. rewrite F.
      - rewrite <- Eq. apply holds_daddr; auto. lia.
      - intros Hz. apply (Dq _ Hz). apply daddr_foot. lia. }
    rewrite (bind_ok _ _ _ _ _ Lq).
    pose proof (valid_expand (tdims z) o Dz Ho) as Hix.
    remember (expand (tdims z) o) as ix eqn:Eix. rewrite Ez in Hix.
    apply valid_5 in Hix. destruct Hix as (i & j & u & v & k & -> & Hi & Hj & Hu & Hv & Hk).
    assert (Sto : forall a, store dt (daddr z o) a s' = Ok tt (upd s' (daddr z o) (emb dt a))).
    { intros a. apply store_ok. rewrite O. apply HZ, daddr_foot. auto. }
    unfold gather_spec, idx_spec, arg5, zpad; cbn [nth].
    destruct (inb h (wpos H i u) && inb w (wpos W j v)) eqn:E.
    - apply andb_true_iff in E. rewrite !inb_iff in E.
      assert (Vx : valid [h; w; c] [wpos H i u; wpos W j v; k]) by (simpl; tauto).
      pose proof (offset_bound _ _ Vx) as B.
      set (off := offset [h; w; c] [wpos H i u; wpos W j v; k]) in *.
      assert (B2 : off < 2 ^ 32) by (cbn [prod] in B; lia).
      destruct (Z.ltb_spec off (2 ^ 31)) as [L|L].
      + rewrite to_i32_small by lia. replace (0 <=? off) with true by lia.
        assert (Lx : load dt (daddr x off) s' = Ok (X [wpos H i u; wpos W j v; k]) s').
        { assert (E2: daddr x off = addr x [wpos H i u; wpos W j v; k]).
          { unfold addr. rewrite Ex. reflexivity. }
          rewrite E2. apply (at_frame dt s s' x z X); auto. rewrite Ex. auto. }
        rewrite (bind_ok _ _ _ _ _ Lx). apply Sto.
      + pose proof (to_i32_big off) as Hb. replace (0 <=? to_i32 (to_u32 off)) with false by lia. apply Sto.
    - replace (0 <=? -1) with false by lia. apply Sto.
  Qed.

  Definition gather_spec_n (H W : sample) (h w c : Z) (X : list Z -> T) : list Z -> T :=
    arg6 (fun l i j u v k =>
      zpad zero h w (fun p q => if offset [h; w; c] [p; q; k] <? 2 ^ 31 then X [l; p; q; k] else zero)
           (wpos H i u) (wpos W j v)).

  Lemma im2col_nhwc_writes : forall H W y x n h w c h' w' X s,
    axis_ok H h h' -> axis_ok W w w' -> 0 <= n -> 0 <= c -> h * w * c <= 2 ^ 32 ->
    tdims x = [n; h; w; c] -> tdims y = [n; h'; w'; ksize (sfilter H); ksize (sfilter W); c] ->
    fresh_ok s -> holds dt s x X -> mapped s y -> disjoint y x ->
    writes dt (im2col_nhwc dt di sc H W y x) s y (gather_spec_n H W h w c X).
  Proof.
    intros H W y x n h w c h' w' X s AH AW Hn Hc Hsz Ex Ey Hf HX HY D.
    assert (Dsub : nonneg [h'; w'; ksize (sfilter H); ksize (sfilter W); c]).
    { pose proof (axis_m _ _ _ AH). pose proof (axis_m _ _ _ AW).
      pose proof (axis_k _ _ _ AH). pose proof (axis_k _ _ _ AW). repeat constructor; lia. }
    assert (Dy : dims_ok y) by (unfold dims_ok; rewrite Ey; constructor; auto).
    assert (Dx : dims_ok x).
    { unfold dims_ok. rewrite Ex. pose proof (axis_n _ _ _ AH). pose proof (axis_n _ _ _ AW).
      repeat constructor; lia. }
    unfold im2col_nhwc. rewrite Ex, Ey. cbn [tl]. unfold nth_dim. rewrite Ex. cbn [nth].
    apply with_tensor_writes; auto.
    intros q s1 Eq Dq Mq F1 N1 Dis Ext.
    assert (Dqx : disjoint q x) by (apply Dis; apply (holds_mapped dt s x X); auto).
    assert (Dqy : disjoint q y) by (apply Dis; auto).
    eapply writes_then.
    - apply (idx_map_build_writes H W q h w c h' w'); auto.
    - intros s2 HQ Oc. eapply writes_rows; eauto.
      intros i s3 Hi N3 F3 O3.
      eapply writes_ext; [reflexivity| |eapply (idx_map_gather_writes H W (sub y i) q (sub x i) h w c h' w')]; auto.
      + instantiate (1 := fun ix => X (i :: ix)). intros ix Hix.
        rewrite (tdims_sub _ _ _ _ Ey) in Hix. apply valid_5 in Hix.
        destruct Hix as (a & b & u & v & k & -> & _). reflexivity.
      + apply (tdims_sub _ _ _ _ Ey).
      + rewrite (tdims_sub _ _ _ _ Ey). auto.
      + apply (tdims_sub _ _ _ _ Ex).
      + eapply holds_frame_disj; [exact HQ|exact F3|]. apply disjoint_sym; auto.
      + eapply holds_sub; eauto. eapply holds_frame_disj; [|exact F3|exact D].
        eapply only_changes_holds; eauto. eapply extends_holds; eauto.
      + eapply mapped_frame; [exact O3|]. eapply mapped_sub; eauto.
        eapply only_changes_mapped; eauto. eapply extends_mapped; eauto.
      + eapply disjoint_sub_l; eauto. apply disjoint_sym; auto.
      + eapply disjoint_sub_l; eauto. eapply disjoint_sub_r; eauto.
  Qed.

  (** With at most 2^31 elements per image the table is exact. *)
  Lemma gather_spec_n_small : forall H W h w c X ix h' w' n,
    axis_ok H h h' -> axis_ok W w w' -> h * w * c <= 2 ^ 31 ->
    valid [n; h'; w'; ksize (sfilter H); ksize (sfilter W); c] ix ->
    gather_spec_n H W h w c X ix =
    arg6 (fun l i j u v k => zpad zero h w (fun p q => X [l; p; q; k]) (wpos H i u) (wpos W j v)) ix.
  Proof.
    intros H W h w c X ix h' w' n AH AW Hsz Hix. apply valid_6 in Hix.
    destruct Hix as (l & i & j & u & v & k & -> & Hl & Hi & Hj & Hu & Hv & Hk).
    unfold gather_spec_n, arg6, zpad; cbn [nth].
    destruct (inb h (wpos H i u) && inb w (wpos W j v)) eqn:E; auto.
    apply andb_true_iff in E. rewrite !inb_iff in E.
    assert (Vx : valid [h; w; c] [wpos H i u; wpos W j v; k]) by (simpl; tauto).
    pose proof (offset_bound _ _ Vx) as B.
    match goal with |- context [?a <? 2 ^ 31] => replace (a <? 2 ^ 31) with true end; auto.
    symmetry. apply Z.ltb_lt. cbn [prod] in B. lia.
  Qed.

  (** ** Convolution *)

  (** The engine can be used on these sizes: the builtin engine always, the
      cblas engine in exact arithmetic on non-empty matrices. *)
  Definition engine_ok (e : engine) (sizes : list Z) : Prop :=
    match e with
    | Builtin => True
    | Cblas => ring_laws sc /\ Forall (fun d => 1 <= d) sizes
    end.

  Lemma e_mm_writes : forall e a b c m l n A B s, engine_ok e [m; l; n] ->
    tdims a = [m; l] -> tdims b = [l; n] -> tdims c = [m; n] -> 0 <= m -> 0 <= l -> 0 <= n ->
    holds dt s a A -> holds dt s b B -> mapped s c -> disjoint c a -> disjoint c b ->
    writes dt (e_mm dt sc e a b c) s c
      (arg2 (fun i j => sum_over sc (zrange l) (fun k => smul sc (A [i; k]) (B [k; j])))).
  Proof.
    intros [] a b c m l n A B s He Ea Eb Ec Hm Hl Hn; cbn [e_mm].
    - intros. eapply mm_writes; eauto.
    - destruct He as [L F]. inversion F as [|? ? F1 F']; subst. inversion F' as [|? ? F2 F'']; subst.
      inversion F''; subst. intros. eapply cblas_mm_writes; eauto.
  Qed.

  Lemma engine_ok_weaken : forall e ds ds', engine_ok e ds ->
    (Forall (fun d => 1 <= d) ds -> Forall (fun d => 1 <= d) ds') -> engine_ok e ds'.
  Proof. intros [] ds ds'; simpl; tauto. Qed.

  Lemma prod_pos : forall ds, Forall (fun d => 1 <= d) ds -> 1 <= prod ds.
  Proof. induction 1; simpl; nia. Qed.

  Lemma axis_sample : forall c k n m, axis_ok (axis_of c k) n m -> lconv_sample c k = Ret (axis_of c k).
  Proof.
    intros [[pl pr] s r] k n m H. unfold axis_ok, axis_of in H; cbn in H.
    unfold lconv_sample, axis_of; cbn. apply new_sample_iff. tauto.
  Qed.

  Lemma im2col_shape_ok : forall H W h w c h' w' n, axis_ok H h h' -> axis_ok W w w' ->
    batched_shape (im2col_hwrsc_shape H W) [n; h; w; c]
    = Ret [n; h'; w'; ksize (sfilter H); ksize (sfilter W); c].
  Proof.
    intros H W h w c h' w' n AH AW. unfold batched_shape, im2col_hwrsc_shape; cbn [tl nth multi_shape].
    rewrite (axis_len _ _ _ AH), (axis_len _ _ _ AW). reflexivity.
  Qed.

  Lemma im2col_rshw_shape_ok : forall H W h w h' w' n, axis_ok H h h' -> axis_ok W w w' ->
    batched_shape (im2col_rshw_shape H W) [n; h; w]
    = Ret [n; ksize (sfilter H); ksize (sfilter W); h'; w'].
  Proof.
    intros H W h w h' w' n AH AW. unfold batched_shape, im2col_rshw_shape; cbn [tl nth multi_shape].
    rewrite (axis_len _ _ _ AH), (axis_len _ _ _ AW). reflexivity.
  Qed.

  (** The columns are built before the product is written, so the output may
      overlap the image in any way. *)
  Lemma conv_nhwc_writes_over : forall e C z x y n h w c r s d h' w' X Y st,
    let H := axis_of (h_trait C) r in let W := axis_of (w_trait C) s in
    axis_ok H h h' -> axis_ok W w w' -> 0 <= n -> 0 <= c -> 0 <= d -> h * w * c <= 2 ^ 31 ->
    engine_ok e [n; c; d] ->
    tdims x = [n; h; w; c] -> tdims y = [r; s; c; d] -> tdims z = [n; h'; w'; d] ->
    fresh_ok st -> holds dt st x X -> holds dt st y Y -> mapped st z -> disjoint z y ->
    writes dt (conv_nhwc dt di sc e C z x y) st z (conv_spec_nhwc sc H W h w r s c X Y).
  Proof.
    intros e C z x y n h w c r s d h' w' X Y st H W AH AW Hn Hc Hd Hsz He Ex Ey Ez Hf HX HY HZ Dzy.
    assert (Hh' := axis_m _ _ _ AH). assert (Hw' := axis_m _ _ _ AW).
    assert (Hr := axis_k _ _ _ AH). assert (Hs := axis_k _ _ _ AW).
    assert (Hh := axis_n _ _ _ AH). assert (Hw := axis_n _ _ _ AW).
    assert (Kr : ksize (sfilter H) = r) by reflexivity. assert (Ks : ksize (sfilter W) = s) by reflexivity.
    rewrite Kr in Hr. rewrite Ks in Hs.
    assert (Dz : dims_ok z) by (unfold dims_ok; rewrite Ez; repeat constructor; lia).
    assert (Dx : dims_ok x) by (unfold dims_ok; rewrite Ex; repeat constructor; lia).
    assert (Dy : dims_ok y) by (unfold dims_ok; rewrite Ey; repeat constructor; lia).
    assert (Mx : mapped st x) by (eapply holds_mapped; eauto).
    assert (My : mapped st y) by (eapply holds_mapped; eauto).
    eapply writes_ext; [symmetry|reflexivity|].
    { unfold conv_nhwc. rewrite Ey. cbn [filter_shape filter_height_position filter_width_position nth].
      rewrite (axis_sample _ _ _ _ AH), (axis_sample _ _ _ _ AW). unfold lift at 1 2. rewrite !bind_ret_l.
      fold H. fold W. rewrite Ex, (im2col_shape_ok H W h w c h' w' n AH AW). unfold lift. rewrite bind_ret_l.
      rewrite Kr, Ks. reflexivity. }
    apply with_tensor_writes; auto; [repeat constructor; lia|].
    intros xu s1 Eu Du Mu F1 N1 Dis Ext.
    assert (Dux : disjoint xu x) by auto. assert (Duy : disjoint xu y) by auto.
    assert (Duz : disjoint xu z) by auto.
    eapply writes_then.
    - eapply (im2col_nhwc_writes H W xu x n h w c h' w'); eauto; try lia.
      eapply extends_holds; eauto.
    - intros s2 HU Oc.
      assert (HU' : holds dt s2 xu (arg6 (fun l i j u v k =>
         zpad zero h w (fun p q => X [l; p; q; k]) (wpos H i u) (wpos W j v)))).
      { eapply holds_ext; [|exact HU]. intros ix Hix. rewrite Eu in Hix.
        eapply gather_spec_n_small; eauto. }
      assert (HY2 : holds dt s2 y Y).
      { eapply only_changes_holds; eauto. eapply extends_holds; eauto. }
      pose proof (holds_as_matrix dt s2 3 xu _ Du HU') as HA. rewrite Eu in HA.
      pose proof (holds_as_matrix dt s2 3 y _ Dy HY2) as HB. rewrite Ey in HB.
      unfold k_mm.
      eapply writes_ext; [reflexivity| |apply (writes_as_matrix dt _ s2 3 z); auto;
        eapply (e_mm_writes e (as_matrix 3 xu) (as_matrix 3 y) (as_matrix 3 z)
           (prod [n; h'; w']) (prod [r; s; c]) (prod [d]) _ _ s2) with (8 := HA) (9 := HB)].
      + intros ix Hix. rewrite Ez in *. apply valid_4 in Hix.
        destruct Hix as (l & i & j & dd & -> & Hl & Hi & Hj & Hdd).
        cbn [firstn skipn]. unfold conv_spec_nhwc, arg4; cbn [nth].
        rewrite <- sum_over_indices by (repeat constructor; lia).
        apply sum_over_ext. intros k Hk. apply in_zrange in Hk.
        pose proof (valid_expand [r; s; c] k ltac:(repeat constructor; lia) Hk) as Vk.
        unfold arg2; cbn [nth].
        rewrite (expand_offset [n; h'; w'] [l; i; j]) by (simpl; auto).
        rewrite (expand_offset [d] [dd]) by (simpl; auto).
        remember (expand [r; s; c] k) as kk. apply valid_3 in Vk.
        destruct Vk as (u & v & k2 & -> & _). reflexivity.
      + eapply engine_ok_weaken; eauto. intros Q.
        rewrite !Forall_cons_iff in Q. destruct Q as (Q1 & Q2 & Q3 & _).
        repeat constructor; apply prod_pos; repeat constructor; lia.
      + rewrite tdims_as_matrix, Eu. reflexivity.
      + rewrite tdims_as_matrix, Ey. reflexivity.
      + rewrite tdims_as_matrix, Ez. reflexivity.
      + apply prod_nonneg. repeat constructor; lia.
      + apply prod_nonneg. repeat constructor; lia.
      + apply prod_nonneg. repeat constructor; lia.
      + apply mapped_as_matrix. eapply only_changes_mapped; eauto. eapply extends_mapped; eauto.
      + apply disjoint_as_matrix. apply disjoint_sym; auto.
      + apply disjoint_as_matrix. auto.
  Qed.

  Lemma conv_nhwc_writes : forall e C z x y n h w c r s d h' w' X Y st,
    let H := axis_of (h_trait C) r in let W := axis_of (w_trait C) s in
    axis_ok H h h' -> axis_ok W w w' -> 0 <= n -> 0 <= c -> 0 <= d -> h * w * c <= 2 ^ 31 ->
    engine_ok e [n; c; d] ->
    tdims x = [n; h; w; c] -> tdims y = [r; s; c; d] -> tdims z = [n; h'; w'; d] ->
    fresh_ok st -> holds dt st x X -> holds dt st y Y -> mapped st z -> disjoint z x -> disjoint z y ->
    writes dt (conv_nhwc dt di sc e C z x y) st z (conv_spec_nhwc sc H W h w r s c X Y).
  Proof. intros e C z x y n h w c r s d h' w' X Y st H W; intros. apply (conv_nhwc_writes_over e C z x y n h w c r s d h' w' X Y st); auto. Qed.

  Lemma batched_rshw_writes : forall H W y x c h w h' w' X st,
    axis_ok H h h' -> axis_ok W w w' -> 0 <= c ->
    tdims x = [c; h; w] -> tdims y = [c; ksize (sfilter H); ksize (sfilter W); h'; w'] ->
    holds dt st x X -> mapped st y -> disjoint y x ->
    writes dt (batched (im2col_rshw dt sc H W) y x) st y
      (arg5 (fun k u v i j => zpad zero h w (fun p q => X [k; p; q]) (wpos H i u) (wpos W j v))).
  Proof.
    intros H W y x c h w h' w' X st AH AW Hc Ex Ey HX HY D.
    assert (Dy : dims_ok y).
    { unfold dims_ok. rewrite Ey. pose proof (axis_m _ _ _ AH). pose proof (axis_m _ _ _ AW).
      pose proof (axis_k _ _ _ AH). pose proof (axis_k _ _ _ AW). repeat constructor; lia. }
    assert (Dx : dims_ok x).
    { unfold dims_ok. rewrite Ex. pose proof (axis_n _ _ _ AH). pose proof (axis_n _ _ _ AW).
      repeat constructor; lia. }
    unfold batched, nth_dim. rewrite Ex. cbn [nth].
    eapply writes_rows; eauto. intros k s' Hk N F O.
    eapply writes_ext; [reflexivity| |eapply (im2col_rshw_writes H W (sub y k) (sub x k) h w h' w')]; auto.
    - instantiate (1 := fun ix => X (k :: ix)). intros ix Hix.
      rewrite (tdims_sub _ _ _ _ Ey) in Hix. apply valid_4 in Hix.
      destruct Hix as (a & b & u & v & -> & _). reflexivity.
    - apply (tdims_sub _ _ _ _ Ex).
    - apply (tdims_sub _ _ _ _ Ey).
    - eapply holds_sub; eauto. eapply holds_frame_disj; eauto.
    - eapply mapped_frame; [exact O|]. eapply mapped_sub; eauto.
    - eapply disjoint_sub_l; eauto. eapply disjoint_sub_r; eauto.
  Qed.

  (** Image [l] is read before image [l] of the output is written. *)
  Lemma conv_nchw_writes_over : forall e C z x y n h w c r s d h' w' X Y st,
    let H := axis_of (h_trait C) r in let W := axis_of (w_trait C) s in
    axis_ok H h h' -> axis_ok W w w' -> 0 <= n -> 0 <= c -> 0 <= d ->
    engine_ok e [c; d] ->
    tdims x = [n; c; h; w] -> tdims y = [d; c; r; s] -> tdims z = [n; d; h'; w'] ->
    fresh_ok st -> holds dt st x X -> holds dt st y Y -> mapped st z ->
    disjoint z x \/ same_cells z x -> disjoint z y ->
    writes dt (conv_nchw dt sc e C z x y) st z (conv_spec_nchw sc H W h w r s c X Y).
  Proof.
    intros e C z x y n h w c r s d h' w' X Y st H W AH AW Hn Hc Hd He Ex Ey Ez Hf HX HY HZ Dzx Dzy.
    assert (Hh' := axis_m _ _ _ AH). assert (Hw' := axis_m _ _ _ AW).
    assert (Hr := axis_k _ _ _ AH). assert (Hs := axis_k _ _ _ AW).
    assert (Hh := axis_n _ _ _ AH). assert (Hw := axis_n _ _ _ AW).
    assert (Kr : ksize (sfilter H) = r) by reflexivity. assert (Ks : ksize (sfilter W) = s) by reflexivity.
    rewrite Kr in Hr. rewrite Ks in Hs.
    assert (Dz : dims_ok z) by (unfold dims_ok; rewrite Ez; repeat constructor; lia).
    assert (Dx : dims_ok x) by (unfold dims_ok; rewrite Ex; repeat constructor; lia).
    assert (Dy : dims_ok y) by (unfold dims_ok; rewrite Ey; repeat constructor; lia).
    assert (Mx : mapped st x) by (eapply holds_mapped; eauto).
    assert (My : mapped st y) by (eapply holds_mapped; eauto).
    eapply writes_ext; [symmetry|reflexivity|].
    { unfold conv_nchw. rewrite Ey. cbn [filter_shape filter_height_position filter_width_position nth].
      rewrite (axis_sample _ _ _ _ AH), (axis_sample _ _ _ _ AW). unfold lift at 1 2. rewrite !bind_ret_l.
      fold H. fold W. rewrite Ex. cbn [tl]. rewrite (im2col_rshw_shape_ok H W h w h' w' c AH AW).
      unfold lift. rewrite bind_ret_l.
      rewrite Kr, Ks, Ez. cbn [batch_size batch_position nth]. reflexivity. }
    apply with_tensor_writes; auto; [repeat constructor; lia|].
    intros xu s1 Eu Du Mu F1 N1 Dis Ext.
    assert (Dux : disjoint xu x) by auto. assert (Duy : disjoint xu y) by auto.
    assert (Duz : disjoint xu z) by auto.
    assert (HX1 : holds dt s1 x X) by (eapply extends_holds; eauto).
    assert (HY1 : holds dt s1 y Y) by (eapply extends_holds; eauto).
    assert (HZ1 : mapped s1 z) by (eapply extends_mapped; eauto).
    cut (exists s', for_ (zrange n) (fun l => batched (im2col_rshw dt sc H W) xu (sub x l) ;;;
        k_mm dt sc e (as_matrix 1 (sub z l)) (as_matrix 1 y) (as_matrix 3 xu)) s1 = Ok tt s' /\
        nextb s1 <= nextb s' /\ holds dt s' z (conv_spec_nchw sc H W h w r s c X Y) /\ mapped s' xu /\
        (forall p, ~ foot xu p -> ~ foot z p -> cells s' p = cells s1 p)).
    { intros (s' & A & B & C' & _ & D'). exists s'. auto. }
    apply (rows_scratch dt z n [d; h'; w']); auto.
    intros l s2 Hl N2 M2 F2 O2.
    assert (Dzl : dims_ok (sub z l)) by (apply dims_ok_sub; auto).
    assert (Ezl : tdims (sub z l) = [d; h'; w']) by apply (tdims_sub _ _ _ _ Ez).
    assert (Exl : tdims (sub x l) = [c; h; w]) by apply (tdims_sub _ _ _ _ Ex).
    assert (HX2 : holds dt s2 (sub x l) (fun ix => X (l :: ix))).
    { eapply holds_frame; [|eapply holds_sub; eauto]. intros p Hp. destruct Dzx as [Dzx|(A & B & E)].
      - assert (Hp' : foot x p) by (eapply foot_sub; eauto).
        apply F2; intros Hq; [apply (Dux p)|apply (Dzx p)]; auto.
      - apply O2. unfold sub, foot, size, daddr in *; cbn in *. rewrite A, B, E. exact Hp. }
    assert (HY2 : holds dt s2 y Y).
    { eapply holds_frame; [|exact HY1]. intros p Hp. apply F2; intros Hq; [apply (Duy p)|apply (Dzy p)]; auto. }
    assert (MZ2 : mapped s2 (sub z l)).
    { eapply mapped_frame; [exact O2|]. eapply mapped_sub; eauto. }
    set (U := arg5 (fun k u v i j => zpad zero h w (fun p q => X [l; k; p; q]) (wpos H i u) (wpos W j v))).
    assert (W1 : writes dt (batched (im2col_rshw dt sc H W) xu (sub x l)) s2 xu U).
    { eapply (batched_rshw_writes H W xu (sub x l) c h w h' w' (fun ix => X (l :: ix))); eauto.
      eapply disjoint_sub_r; eauto. }
    assert (Dzu : disjoint (sub z l) xu) by (eapply disjoint_sub_l; eauto; apply disjoint_sym; auto).
    destruct (writes_then_keep dt dt _
       (k_mm dt sc e (as_matrix 1 (sub z l)) (as_matrix 1 y) (as_matrix 3 xu)) s2 xu (sub z l) _
       (fun ix => conv_spec_nchw sc H W h w r s c X Y (l :: ix)) Dzu W1) as (s4 & E4 & N4 & HZ4 & HU4 & F4).
    - intros s3 HU Oc.
      assert (HY3 : holds dt s3 y Y) by (eapply only_changes_holds; eauto).
      pose proof (holds_as_matrix dt s3 3 xu _ Du HU) as HB. rewrite Eu in HB.
      pose proof (holds_as_matrix dt s3 1 y _ Dy HY3) as HA. rewrite Ey in HA.
      unfold k_mm.
      eapply writes_ext; [reflexivity| |apply (writes_as_matrix dt _ s3 1 (sub z l)); auto;
        eapply (e_mm_writes e (as_matrix 1 y) (as_matrix 3 xu) (as_matrix 1 (sub z l))
           (prod [d]) (prod [c; r; s]) (prod [h'; w']) _ _ s3) with (8 := HA) (9 := HB)].
      + intros ix Hix. rewrite Ezl in *. apply valid_3 in Hix.
        destruct Hix as (dd & i & j & -> & Hdd & Hi & Hj).
        cbn [firstn skipn]. unfold conv_spec_nchw, arg4; cbn [nth].
        rewrite <- sum_over_indices by (repeat constructor; lia).
        apply sum_over_ext. intros k Hk. apply in_zrange in Hk.
        pose proof (valid_expand [c; r; s] k ltac:(repeat constructor; lia) Hk) as Vk.
        unfold arg2; cbn [nth].
        rewrite (expand_offset [d] [dd]) by (simpl; auto).
        rewrite (expand_offset [h'; w'] [i; j]) by (simpl; auto).
        remember (expand [c; r; s] k) as kk. apply valid_3 in Vk.
        destruct Vk as (k2 & u & v & -> & _). reflexivity.
      + eapply engine_ok_weaken; eauto. intros Q.
        rewrite !Forall_cons_iff in Q. destruct Q as (Q1 & Q2 & _).
        repeat constructor; apply prod_pos; repeat constructor; lia.
      + rewrite tdims_as_matrix, Ey. reflexivity.
      + rewrite tdims_as_matrix, Eu. reflexivity.
      + rewrite tdims_as_matrix, Ezl. reflexivity.
      + apply prod_nonneg. repeat constructor; lia.
      + apply prod_nonneg. repeat constructor; lia.
      + apply prod_nonneg. repeat constructor; lia.
      + apply mapped_as_matrix. eapply only_changes_mapped; eauto. apply disjoint_sym; auto.
      + apply disjoint_as_matrix. eapply disjoint_sub_l; eauto.
      + apply disjoint_as_matrix. auto.
    - exists s4. split; [exact E4|]. split; [lia|]. split; [exact HZ4|]. split; [|exact F4].
      eapply holds_mapped; eauto.
  Qed.

  Lemma conv_nchw_writes : forall e C z x y n h w c r s d h' w' X Y st,
    let H := axis_of (h_trait C) r in let W := axis_of (w_trait C) s in
    axis_ok H h h' -> axis_ok W w w' -> 0 <= n -> 0 <= c -> 0 <= d ->
    engine_ok e [c; d] ->
    tdims x = [n; c; h; w] -> tdims y = [d; c; r; s] -> tdims z = [n; d; h'; w'] ->
    fresh_ok st -> holds dt st x X -> holds dt st y Y -> mapped st z -> disjoint z x -> disjoint z y ->
    writes dt (conv_nchw dt sc e C z x y) st z (conv_spec_nchw sc H W h w r s c X Y).
  Proof. intros e C z x y n h w c r s d h' w' X Y st H W; intros. apply (conv_nchw_writes_over e C z x y n h w c r s d h' w' X Y st); auto. Qed.
End ConvFacts.
