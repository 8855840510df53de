(** Correctness of the elementwise kernels, biases, normalisation,
    concatenation and contractions. *)
From Coq Require Import ZArith List Bool Lia ZifyBool Ring_theory Ring.
From Verif Require Import Base BaseFacts Traits Scalar LinAlg LinAlgFacts TensorFacts SumFacts
  ConvFacts GradSpec ConvGradFacts Elem ElemSpec.
Import ListNotations.
Open Scope Z_scope.
Open Scope model_scope.

Lemma same_daddr : forall z x o, same_cells z x -> daddr x o = daddr z o.
Proof. intros z x o (A & B & _). unfold daddr. congruence. Qed.

Lemma safe_load : forall {V T} (dt : dtype V T) s s' z x X o,
  dims_ok z -> tdims x = tdims z -> holds dt s x X -> safe z x -> 0 <= o < size z ->
  (forall p, ~ foot z p -> cells s' p = cells s p) ->
  cells s' (daddr z o) = cells s (daddr z o) ->
  load dt (daddr x o) s' = Ok (X (expand (tdims z) o)) s'.
Proof.
  intros V T dt s s' z x X o Hd E H S Ho F O. apply load_ok.
  assert (Q : cells s (daddr x o) = Init (emb dt (X (expand (tdims z) o)))).
  { rewrite <- E. apply (holds_daddr dt s x X o); auto.
    - unfold dims_ok. rewrite E. exact Hd.
    - unfold size. rewrite E. exact Ho. }
  destruct S as [D|S].
  - rewrite F; auto. intros Hz. apply (D _ Hz). apply daddr_foot. unfold size. rewrite E. exact Ho.
  - rewrite (same_daddr z x o S) in *. congruence.
Qed.

Lemma mapped_daddr : forall {V} (s s' : st V) z o, mapped s z -> 0 <= o < size z ->
  cells s' (daddr z o) = cells s (daddr z o) -> cells s' (daddr z o) <> Unmapped.
Proof. intros V s s' z o H Ho E. rewrite E. apply H. apply daddr_foot; auto. Qed.

Lemma transform1_writes : forall {V R S_} (dr : dtype V R) (ds : dtype V S_) f y x X s,
  dims_ok y -> tdims x = tdims y -> holds ds s x X -> mapped s y -> safe y x ->
  writes dr (transform1 dr ds f y x) s y (fun ix => f (X ix)).
Proof.
  intros V R S_ dr ds f y x X s Hd E HX HY S. unfold transform1.
  replace (size x) with (size y) by (unfold size; congruence).
  apply writes_loop_flat; auto. intros o s' Ho N F O.
  rewrite (bind_ok _ _ _ _ _ (safe_load ds s s' y x X o Hd E HX S Ho F O)).
  apply store_ok. eapply mapped_daddr; eauto.
Qed.

Lemma transform2_writes : forall {V T} (dt : dtype V T) f z x y X Y g s,
  dims_ok z -> tdims x = tdims z -> tdims y = tdims z ->
  holds dt s x X -> holds dt s y Y -> mapped s z -> safe z x -> safe z y ->
  (forall ix, valid (tdims z) ix -> f (X ix) (Y ix) = Ret (g ix)) ->
  writes dt (transform2 dt f z x y) s z g.
Proof.
  intros V T dt f z x y X Y g s Hd Ex Ey HX HY HZ Sx Sy Hf. unfold transform2.
  replace (size x) with (size z) by (unfold size; congruence).
  apply writes_loop_flat; auto. intros o s' Ho N F O.
  rewrite (bind_ok _ _ _ _ _ (safe_load dt s s' z x X o Hd Ex HX Sx Ho F O)).
  rewrite (bind_ok _ _ _ _ _ (safe_load dt s s' z y Y o Hd Ey HY Sy Ho F O)).
  rewrite Hf by (apply valid_expand; auto). cbn [lift]. rewrite bind_ret_l.
  apply store_ok. eapply mapped_daddr; eauto.
Qed.

Lemma size_flat : forall t, size (flat t) = size t.
Proof. intros t. unfold flat, reshape, size. simpl. lia. Qed.

Lemma transform1_flat : forall {V R S_} (dr : dtype V R) (ds : dtype V S_) f y x,
  transform1 dr ds f (flat y) (flat x) = transform1 dr ds f y x.
Proof. intros. unfold transform1. rewrite size_flat. reflexivity. Qed.

Lemma transform2_flat : forall {V T} (dt : dtype V T) f z x y,
  transform2 dt f (flat z) (flat x) (flat y) = transform2 dt f z x y.
Proof. intros. unfold transform2. rewrite size_flat. reflexivity. Qed.

Lemma same_cells_refl : forall z, same_cells z z.
Proof. repeat split. Qed.

Lemma safe_refl : forall z, safe z z.
Proof. right. apply same_cells_refl. Qed.

Lemma safe_sub : forall z x i d ds, dims_ok z -> tdims z = d :: ds -> tdims x = d :: ds -> 0 <= i < d ->
  safe z x -> safe (sub z i) (sub x i).
Proof.
  intros z x i d ds Hd Ez Ex Hi [D|(A & B & C)].
  - left. eapply disjoint_sub_l; eauto. eapply disjoint_sub_r; eauto. unfold dims_ok in *. congruence.
  - right. unfold sub, same_cells. cbn. rewrite A, B, C. auto.
Qed.

Lemma safe_as_matrix : forall p z x, tdims x = tdims z -> safe z x -> safe (as_matrix p z) (as_matrix p x).
Proof.
  intros p z x E [D|(A & B & C)].
  - left. apply disjoint_as_matrix; auto.
  - right. unfold as_matrix, reshape, same_cells; cbn. rewrite A, B, E. auto.
Qed.

(** Under [safe], the row of the input is still there when the row of the
    output has not been written yet. *)
Lemma safe_holds_row : forall {V T} (dt : dtype V T) s s' z x X i d ds,
  dims_ok z -> tdims z = d :: ds -> tdims x = d :: ds -> 0 <= i < d -> holds dt s x X -> safe z x ->
  (forall p, ~ foot z p -> cells s' p = cells s p) ->
  (forall p, foot (sub z i) p -> cells s' p = cells s p) ->
  holds dt s' (sub x i) (fun ix => X (i :: ix)).
Proof.
  intros V T dt s s' z x X i d ds Hd Ez Ex Hi HX S F O.
  eapply holds_frame; [|eapply holds_sub; eauto]. intros p Hp.
  assert (Dx : dims_ok x) by (unfold dims_ok in *; congruence).
  destruct S as [D|(A & B & C)].
  - apply F. intros Hz. apply (D _ Hz). eapply foot_sub; eauto.
  - apply O. unfold sub, foot, size, daddr in *; cbn in *. rewrite A, B, C. exact Hp.
Qed.

Lemma load_vec : forall {V T} (dt : dtype V T) s s' z y n Y j,
  tdims y = [n] -> holds dt s y Y -> disjoint z y -> 0 <= j < n ->
  (forall p, ~ foot z p -> cells s' p = cells s p) ->
  load dt (daddr y j) s' = Ok (Y [j]) s'.
Proof.
  intros V T dt s s' z y n Y j E H D Hj F. apply load_ok.
  assert (Q : daddr y j = addr y [j]).
  { unfold addr. rewrite E. simpl. f_equal. lia. }
  rewrite F.
  - rewrite Q. apply H. rewrite E. simpl. lia.
  - intros Hz. apply (D _ Hz). rewrite Q. apply addr_foot. rewrite E. simpl. lia.
Qed.

Lemma nth_valid : forall ds ix p, valid ds ix -> (p < length ds)%nat -> 0 <= nth p ix 0 < nth p ds 0.
Proof.
  induction ds as [|d ds IH]; intros ix p H Hp; [cbn in Hp; lia|].
  destruct ix as [|i ix]; [destruct H|]. destruct H as [Hi H].
  destruct p; cbn; auto. apply IH; auto. cbn in Hp. lia.
Qed.

Section Kernels.
  Context {V T : Type} (dt : dtype V T) (sc : scalar T).

  Lemma bias_generic_writes : forall p f z x y n X B g s,
    dims_ok z -> tdims x = tdims z -> tdims y = [n] -> (p < length (tdims z))%nat ->
    nth p (tdims z) 0 = n -> holds dt s x X -> holds dt s y B -> mapped s z -> safe z x -> disjoint z y ->
    (forall ix, valid (tdims z) ix -> f (X ix) (B [nth p ix 0]) = Ret (g ix)) ->
    writes dt (bias_generic dt p f z x y) s z g.
  Proof.
    intros p f z x y n X B g s Hd Ex Ey Hp En HX HB HZ Sx Dy Hf. unfold bias_generic.
    replace (size x) with (size z) by (unfold size; congruence).
    apply writes_loop_flat; auto. intros o s' Ho N F O. cbv zeta. rewrite Ex.
    assert (Q : valid (tdims z) (expand (tdims z) o)) by (apply valid_expand; auto).
    rewrite (bind_ok _ _ _ _ _ (safe_load dt s s' z x X o Hd Ex HX Sx Ho F O)).
    erewrite bind_ok.
    2:{ apply (load_vec dt s s' z y n B); auto. rewrite <- En. apply nth_valid; auto. }
    rewrite Hf by auto. cbn [lift]. rewrite bind_ret_l.
    apply store_ok. eapply mapped_daddr; eauto.
  Qed.

  Lemma bias_rows_writes : forall f z x y m n X B g s,
    0 <= m -> 0 <= n -> tdims z = [m; n] -> tdims x = [m; n] -> tdims y = [n] ->
    holds dt s x X -> holds dt s y B -> mapped s z -> safe z x -> disjoint z y ->
    (forall i j, 0 <= i < m -> 0 <= j < n -> f (X [i; j]) (B [j]) = Ret (g i j)) ->
    writes dt (bias_rows dt f z x y) s z (arg2 g).
  Proof.
    intros f z x y m n X B g s Hm Hn Ez Ex Ey HX HB HZ Sx Dy Hf. unfold bias_rows, nth_dim.
    assert (Dz : dims_ok z) by (eapply dims2; eauto).
    rewrite Ez at 1. cbn [nth]. eapply writes_rows; eauto. intros i s' Hi N F O.
    pose proof (tdims_sub z i _ _ Ez) as Ezi. pose proof (tdims_sub x i _ _ Ex) as Exi.
    apply (transform2_writes dt f (sub z i) (sub x i) y (fun ix => X (i :: ix)) B).
    - apply dims_ok_sub; auto.
    - congruence.
    - congruence.
    - eapply safe_holds_row; eauto.
    - eapply holds_frame_disj; eauto.
    - eapply mapped_frame; [exact O|]. eapply mapped_sub; eauto.
    - eapply safe_sub; eauto.
    - left. eapply disjoint_sub_l; eauto.
    - intros ix Hix. rewrite Ezi in Hix. apply valid_1 in Hix. destruct Hix as (j & -> & Hj).
      unfold arg2; cbn [nth]. auto.
  Qed.

  (** ops::apply_bias in any layout. *)
  Lemma op_bias_writes : forall o f z x y n X B g s,
    dims_ok z -> tdims x = tdims z -> tdims y = [n] ->
    match o with hw => length (tdims z) = 2%nat | hwc => length (tdims z) = 3%nat
               | nhwc | nchw => length (tdims z) = 4%nat | chw => length (tdims z) = 3%nat end ->
    nth (bias_position o) (tdims z) 0 = n ->
    holds dt s x X -> holds dt s y B -> mapped s z -> safe z x -> disjoint z y ->
    (forall ix, valid (tdims z) ix -> f (X ix) (B [nth (bias_position o) ix 0]) = Ret (g ix)) ->
    writes dt (op_bias dt o f z x y) s z g.
  Proof.
    intros o f z x y n X B g s Hd Ex Ey Hl En HX HB HZ Sx Dy Hf.
    destruct o; try (eapply bias_generic_writes; eauto; cbn; lia).
    cbn [op_bias]. cbn [bias_position] in En, Hf.
    destruct (tdims z) as [|a [|b [|c [|d [|? ?]]]]] eqn:Ez; try (cbn in Hl; discriminate).
    cbn in En. subst n. rename d into n.
    assert (Nn : nonneg [a; b; c; n]) by (unfold dims_ok in Hd; rewrite Ez in Hd; exact Hd).
    assert (Ng : nonneg [a; b; c] /\ nonneg [n]) by (apply (nonneg_app [a; b; c] [n]); exact Nn).
    destruct Ng as [Na Nb].
    assert (Pa : 0 <= prod [a; b; c]) by (apply prod_nonneg; auto).
    assert (Pn : 0 <= n) by (inversion Nb; auto).
    set (m := prod [a; b; c]) in *.
    assert (W : writes dt (bias_rows dt f (as_matrix 3 z) (as_matrix 3 x) y) s (as_matrix 3 z)
       (arg2 (fun i j => g (expand [a; b; c] i ++ [j])))).
    { eapply (bias_rows_writes f (as_matrix 3 z) (as_matrix 3 x) y m n
        (fun ix => X (expand [a; b; c] (nth 0 ix 0) ++ expand [n] (nth 1 ix 0))) B); auto.
      - rewrite tdims_as_matrix, Ez. cbn [firstn skipn]. f_equal. f_equal. cbn. lia.
      - rewrite tdims_as_matrix, Ex. cbn [firstn skipn]. f_equal. f_equal. cbn. lia.
      - pose proof (holds_as_matrix dt s 3 x X) as Q. rewrite Ex in Q. cbn [firstn skipn] in Q.
        apply Q; auto. unfold dims_ok. rewrite Ex. exact Nn.
      - apply mapped_as_matrix; auto.
      - apply safe_as_matrix; auto. rewrite Ex, Ez. reflexivity.
      - intros p Hp Hy. apply (Dy p); auto. exact (proj1 (foot_as_matrix 3 z p) Hp).
      - intros i j Hi Hj. cbn [nth].
        assert (V0 : valid [a; b; c] (expand [a; b; c] i)) by (apply valid_expand; auto).
        destruct (valid_3 _ _ _ _ V0) as (u & v & k & E3 & Hu & Hv & Hk).
        assert (E1 : expand [n] j = [j]).
        { assert (Q : valid [n] [j]) by (cbn; lia). pose proof (expand_offset _ _ Q) as Q2.
          replace (offset [n] [j]) with j in Q2 by (cbn; lia). exact Q2. }
        rewrite E1, E3. cbn [app]. rewrite <- (Hf [u; v; k; j]) by (cbn; lia). reflexivity. }
    pose proof (writes_as_matrix dt (bias_rows dt f (as_matrix 3 z) (as_matrix 3 x) y) s 3 z) as Q.
    eapply writes_ext; [reflexivity| |eapply Q].
    2:{ exact Hd. } 2:{ exact W. }
    intros ix Hix. rewrite Ez in *. apply valid_4 in Hix. destruct Hix as (u & v & k & j & -> & Hu & Hv & Hk & Hj).
    cbn [firstn skipn]. 
    replace (offset [n] [j]) with j by (cbn; lia).
    rewrite expand_offset by (cbn; lia). reflexivity.
  Qed.

  (** ** Batch normalisation *)

  Lemma safe_at : forall s s' z x X ix,
    tdims x = tdims z -> holds dt s x X -> safe z x -> valid (tdims z) ix ->
    (forall p, ~ foot z p -> cells s' p = cells s p) ->
    cells s' (addr z ix) = cells s (addr z ix) ->
    at_ dt x ix s' = Ok (X ix) s'.
  Proof.
    intros s s' z x X ix E H [D|(A & B & C)] Hix F O.
    - eapply at_frame; eauto. rewrite E. exact Hix.
    - apply load_ok. rewrite <- (H ix) by (rewrite E; auto).
      replace (addr x ix) with (addr z ix); auto. unfold addr, daddr. congruence.
  Qed.

  Lemma bn_nhwc_writes : forall norm y x m v n h w c X Mu Va g s,
    tdims x = [n; h; w; c] -> tdims y = [n; h; w; c] -> tdims m = [c] -> tdims v = [c] -> dims_ok x ->
    holds dt s x X -> holds dt s m Mu -> holds dt s v Va -> mapped s y ->
    safe y x -> disjoint y m -> disjoint y v ->
    (forall l i j k, valid [n; h; w; c] [l; i; j; k] ->
       norm (X [l; i; j; k]) (Mu [k]) (Va [k]) = Ret (g [l; i; j; k])) ->
    writes dt (bn_nhwc dt norm y x m v) s y g.
  Proof.
    intros norm y x m v n h w c X Mu Va g s Ex Ey Em Ev Dx HX HM HV HY S Dm Dv Hn.
    assert (Dy : dims_ok y) by (unfold dims_ok in *; congruence).
    eapply writes_ext; [symmetry|reflexivity|].
    { unfold bn_nhwc, nth_dim. rewrite Ex. cbn [nth]. rewrite for_nest4, <- Ey. reflexivity. }
    apply writes_loop; auto. intros ix s' Hix N F O.
    assert (Hix0 := Hix). rewrite Ey in Hix0. apply valid_4 in Hix0.
    destruct Hix0 as (l & i & j & k & -> & Hl & Hi & Hj & Hk). unfold arg4; cbn [nth].
    erewrite bind_ok; [|apply (safe_at s s' y x X); auto; congruence].
    erewrite bind_ok; [|apply (at_frame dt s s' m y Mu); auto; rewrite Em; simpl; tauto].
    erewrite bind_ok; [|apply (at_frame dt s s' v y Va); auto; rewrite Ev; simpl; tauto].
    rewrite Hn by (simpl; tauto). cbn [lift]. rewrite bind_ret_l.
    apply set_ok. rewrite O. apply mapped_addr; auto.
  Qed.

  Lemma bn_nchw_writes : forall norm y x m v n h w c X Mu Va g s,
    tdims x = [n; c; h; w] -> tdims y = [n; c; h; w] -> tdims m = [c] -> tdims v = [c] -> dims_ok x ->
    holds dt s x X -> holds dt s m Mu -> holds dt s v Va -> mapped s y ->
    safe y x -> disjoint y m -> disjoint y v ->
    (forall l k i j, valid [n; c; h; w] [l; k; i; j] ->
       norm (X [l; k; i; j]) (Mu [k]) (Va [k]) = Ret (g [l; k; i; j])) ->
    writes dt (bn_nchw dt norm y x m v) s y g.
  Proof.
    intros norm y x m v n h w c X Mu Va g s Ex Ey Em Ev Dx HX HM HV HY S Dm Dv Hn.
    assert (Dy : dims_ok y) by (unfold dims_ok in *; congruence).
    eapply writes_ext; [symmetry|reflexivity|].
    { unfold bn_nchw, nth_dim. rewrite Ex. cbn [nth]. rewrite for_nest4, <- Ey. reflexivity. }
    apply writes_loop; auto. intros ix s' Hix N F O.
    assert (Hix0 := Hix). rewrite Ey in Hix0. apply valid_4 in Hix0.
    destruct Hix0 as (l & k & i & j & -> & Hl & Hk & Hi & Hj). unfold arg4; cbn [nth].
    erewrite bind_ok; [|apply (safe_at s s' y x X); auto; congruence].
    erewrite bind_ok; [|apply (at_frame dt s s' m y Mu); auto; rewrite Em; simpl; tauto].
    erewrite bind_ok; [|apply (at_frame dt s s' v y Va); auto; rewrite Ev; simpl; tauto].
    rewrite Hn by (simpl; tauto). cbn [lift]. rewrite bind_ret_l.
    apply set_ok. rewrite O. apply mapped_addr; auto.
  Qed.

  Lemma writes_bind : forall (m1 m2 : M V unit) s z (X Y : list Z -> T),
    writes dt m1 s z X ->
    (forall s', holds dt s' z X -> only_changes z s s' -> writes dt m2 s' z Y) ->
    writes dt (m1 ;;; m2) s z Y.
  Proof.
    intros m1 m2 s z X Y (s1 & E1 & H1 & O1) H. destruct (H s1 H1 O1) as (s2 & E2 & H2 & O2).
    exists s2. rewrite (bind_ok _ _ _ _ _ E1). split; [exact E2|]. split; [exact H2|].
    eapply only_changes_trans; eauto.
  Qed.

  Lemma op_bn_bias_writes : forall o norm y x m v beta gamma c X Mu Va Be Ga Y s,
    (o = nhwc \/ o = nchw) -> length (tdims x) = 4%nat -> dims_ok x ->
    tdims y = tdims x -> channel_size o (tdims x) = c ->
    tdims m = [c] -> tdims v = [c] -> tdims beta = [c] -> tdims gamma = [c] ->
    holds dt s x X -> holds dt s m Mu -> holds dt s v Va -> holds dt s beta Be -> holds dt s gamma Ga ->
    mapped s y -> safe y x -> disjoint y m -> disjoint y v -> disjoint y beta -> disjoint y gamma ->
    (forall ix, valid (tdims x) ix ->
       norm (X ix) (Mu [nth (channel_position o) ix 0]) (Va [nth (channel_position o) ix 0]) = Ret (Y ix)) ->
    writes dt (op_bn_bias dt sc o norm y x m v beta gamma) s y
      (fun ix => sadd sc (smul sc (Y ix) (Ga [nth (channel_position o) ix 0]))
                         (Be [nth (channel_position o) ix 0])).
  Proof.
    intros o norm y x m v beta gamma c X Mu Va Be Ga Y s Ho Hl Dx Ey Ec Em Ev Eb Eg
      HX HM HV HB HG HY S Dm Dv Db Dg Hn.
    assert (Dy : dims_ok y) by (unfold dims_ok in *; congruence).
    unfold op_bn_bias.
    assert (W1 : writes dt (op_bn dt o norm y x m v) s y Y).
    { destruct (tdims x) as [|a [|b [|d [|e [|? ?]]]]] eqn:Ex; try (cbn in Hl; discriminate).
      destruct Ho as [-> | ->]; cbn [op_bn]; cbn in Ec; subst c.
      - eapply (bn_nhwc_writes norm y x m v a b d e X Mu Va); eauto.
        intros l i j k Hv. exact (Hn _ Hv).
      - eapply (bn_nchw_writes norm y x m v a d e b X Mu Va); eauto.
        intros l k i j Hv. exact (Hn _ Hv). }
    apply (writes_bind _ _ s y Y); [exact W1|]. intros s1 H1 (N1 & F1).
    assert (M1 : mapped s1 y) by (eapply holds_mapped; eauto).
    assert (Pos : bias_position o = channel_position o) by (destruct Ho as [-> | ->]; reflexivity).
    apply (writes_bind _ _ s1 y (fun ix => smul sc (Y ix) (Ga [nth (channel_position o) ix 0]))).
    - eapply (op_bias_writes o (f_mul sc) y y gamma c Y Ga); eauto.
      + destruct Ho as [-> | ->]; congruence.
      + rewrite Pos, Ey. exact Ec.
      + eapply holds_frame_disj; eauto.
      + apply safe_refl.
      + intros ix Hix. rewrite Pos. reflexivity.
    - intros s2 H2 (N2 & F2).
      eapply (op_bias_writes o (f_add sc) y y beta c
        (fun ix => smul sc (Y ix) (Ga [nth (channel_position o) ix 0])) Be); eauto.
      + destruct Ho as [-> | ->]; congruence.
      + rewrite Pos, Ey. exact Ec.
      + eapply holds_frame_disj; [|intros p Hp; rewrite F2, F1; [reflexivity|exact Hp|exact Hp]|exact Db]. exact HB.
      + eapply holds_mapped; eauto.
      + apply safe_refl.
      + intros ix Hix. rewrite Pos. reflexivity.
  Qed.

  (** ** Concatenation *)

  Lemma concat_nchw2_writes : forall t x y n c1 c2 h w X Y s,
    tdims x = [n; c1; h; w] -> tdims y = [n; c2; h; w] -> tdims t = [n; c1 + c2; h; w] ->
    dims_ok x -> dims_ok y ->
    holds dt s x X -> holds dt s y Y -> mapped s t -> disjoint t x -> disjoint t y ->
    writes dt (concat_nchw2 dt t x y) s t
      (arg4 (fun l k i j => if k <? c1 then X [l; k; i; j] else Y [l; k - c1; i; j])).
  Proof.
    intros t x y n c1 c2 h w X Y s Ex Ey Et Dx Dy HX HY HT D1 D2.
    assert (Dt : dims_ok t).
    { unfold dims_ok in *. rewrite Ex in Dx. rewrite Ey in Dy. rewrite Et. rewrite !Forall_cons_iff in *.
      intuition lia. }
    eapply writes_ext; [symmetry|reflexivity|].
    { unfold concat_nchw2, nth_dim. rewrite Ex, Et. cbn [nth]. rewrite for_nest4, <- Et. reflexivity. }
    apply writes_loop; auto. intros ix s' Hix N F O.
    assert (Hix0 := Hix). rewrite Et in Hix0. apply valid_4 in Hix0.
    destruct Hix0 as (l & k & i & j & -> & Hl & Hk & Hi & Hj). unfold arg4; cbn [nth].
    destruct (Z.ltb_spec k c1) as [Lt|Ge].
    - erewrite bind_ok; [|apply (at_frame dt s s' x t X); auto; rewrite Ex; simpl; lia].
      apply set_ok. rewrite O. apply mapped_addr; auto.
    - erewrite bind_ok; [|apply (at_frame dt s s' y t Y); auto; rewrite Ey; simpl; lia].
      apply set_ok. rewrite O. apply mapped_addr; auto.
  Qed.

  Lemma concat_nhwc3_writes : forall t x y z n h w c1 c2 c3 X Y Z_ s,
    tdims x = [n; h; w; c1] -> tdims y = [n; h; w; c2] -> tdims z = [n; h; w; c3] ->
    tdims t = [n; h; w; c1 + (c2 + c3)] -> dims_ok x -> dims_ok y -> dims_ok z ->
    holds dt s x X -> holds dt s y Y -> holds dt s z Z_ -> mapped s t ->
    disjoint t x -> disjoint t y -> disjoint t z ->
    writes dt (concat_nhwc3 dt t x y z) s t
      (arg4 (fun l i j k => if k <? c1 then X [l; i; j; k]
                            else if k <? c1 + c2 then Y [l; i; j; k - c1]
                            else Z_ [l; i; j; k - c1 - c2])).
  Proof.
    intros t x y z n h w c1 c2 c3 X Y Z_ s Ex Ey Ez Et Dx Dy Dz HX HY HZ HT D1 D2 D3.
    assert (Dt : dims_ok t).
    { unfold dims_ok in *. rewrite Ex in Dx. rewrite Ey in Dy. rewrite Ez in Dz. rewrite Et.
      rewrite !Forall_cons_iff in *. intuition lia. }
    eapply writes_ext; [symmetry|reflexivity|].
    { unfold concat_nhwc3, nth_dim. rewrite Ex, Ey, Et. cbn [nth]. rewrite for_nest4, <- Et. reflexivity. }
    apply writes_loop; auto. intros ix s' Hix N F O.
    assert (Hix0 := Hix). rewrite Et in Hix0. apply valid_4 in Hix0.
    destruct Hix0 as (l & i & j & k & -> & Hl & Hi & Hj & Hk). unfold arg4; cbn [nth].
    destruct (Z.ltb_spec k c1) as [Lt|Ge]; [|destruct (Z.ltb_spec k (c1 + c2)) as [Lt2|Ge2]].
    - erewrite bind_ok; [|apply (at_frame dt s s' x t X); auto; rewrite Ex; simpl; lia].
      apply set_ok. rewrite O. apply mapped_addr; auto.
    - erewrite bind_ok; [|apply (at_frame dt s s' y t Y); auto; rewrite Ey; simpl; lia].
      apply set_ok. rewrite O. apply mapped_addr; auto.
    - erewrite bind_ok; [|apply (at_frame dt s s' z t Z_); auto; rewrite Ez; simpl; lia].
      apply set_ok. rewrite O. apply mapped_addr; auto.
  Qed.

  (** ** Contractions *)

  (** Sum of a one-dimensional view that holds [X]. *)
  Lemma vsum_ok : forall v n X s, tdims v = [n] -> holds dt s v X ->
    vsum dt sc v s = Ok (sum_over sc (zrange n) (fun j => X [j])) s.
  Proof.
    intros v n X s E H. unfold vsum, sum_over.
    replace (size v) with n by (unfold size; rewrite E; simpl; lia).
    apply foldM_pure. intros b a Ha. apply in_zrange in Ha.
    erewrite bind_ok; [reflexivity|]. apply load_ok.
    replace (daddr v a) with (addr v [a]) by (unfold addr; rewrite E; simpl; f_equal; lia).
    apply H. rewrite E. simpl. lia.
  Qed.

  Lemma inner_contraction_writes : forall y x m n X s,
    tdims x = [m; n] -> tdims y = [m] -> 0 <= m -> 0 <= n ->
    holds dt s x X -> mapped s y -> disjoint y x ->
    writes dt (inner_contraction dt sc y x) s y
      (arg1 (fun i => sum_over sc (zrange n) (fun j => X [i; j]))).
  Proof.
    intros y x m n X s Ex Ey Hm Hn HX HY D. unfold inner_contraction, nth_dim. rewrite Ex. cbn [nth].
    assert (Dy : dims_ok y) by (unfold dims_ok; rewrite Ey; repeat constructor; auto).
    assert (Dx : dims_ok x) by (eapply dims2; eauto).
    assert (Sy : size y = m) by (unfold size; rewrite Ey; simpl; lia).
    rewrite <- Sy. apply writes_loop_flat; auto. intros o s' Ho N F O. rewrite Sy in Ho.
    erewrite bind_ok.
    2:{ apply (vsum_ok (sub x o) n (fun ix => X (o :: ix))).
        - apply (tdims_sub _ _ _ _ Ex).
        - eapply holds_sub; eauto. eapply holds_frame_disj; eauto. }
    rewrite store_ok by (rewrite O; apply HY, daddr_foot; lia).
    do 3 f_equal. rewrite Ey. assert (Q : valid [m] [o]) by (cbn; lia).
    pose proof (expand_offset _ _ Q) as Q2. replace (offset [m] [o]) with o in Q2 by (cbn; lia).
    rewrite Q2. reflexivity.
  Qed.

  Lemma outter_contraction_writes : forall y x m ds X s,
    tdims x = m :: ds -> tdims y = ds -> 0 <= m -> dims_ok y ->
    holds dt s x X -> mapped s y -> disjoint y x ->
    writes dt (outter_contraction dt sc y x) s y
      (fun ix => sum_over sc (zrange m) (fun i => X (i :: ix))).
  Proof.
    intros y x m ds X s Ex Ey Hm Dy HX HY D. unfold outter_contraction, nth_dim. rewrite Ex. cbn [nth].
    assert (Dx : dims_ok x).
    { unfold dims_ok in *. rewrite Ex. constructor; auto. congruence. }
    apply writes_seq_fill; auto. intros s1 N1 H1 F1.
    destruct (for_range_inv m (fun i => binary_pointwise dt (f_add sc) y y (sub x i))
      (fun k s' => nextb s1 <= nextb s' /\
         holds dt s' y (fun ix => sum_over sc (zrange k) (fun i => X (i :: ix))) /\
         (forall p, ~ foot y p -> cells s' p = cells s1 p)) s1) as (s2 & E2 & N2 & H2 & F2); auto.
    - split; [lia|]. split; auto.
    - intros k s' Hk (N & H & F).
      assert (W : writes dt (binary_pointwise dt (f_add sc) y y (sub x k)) s' y
         (fun ix => sum_over sc (zrange (k + 1)) (fun i => X (i :: ix)))).
      { apply (transform2_writes dt (f_add sc) y y (sub x k)
          (fun ix => sum_over sc (zrange k) (fun i => X (i :: ix))) (fun ix => X (k :: ix))); auto.
        - rewrite (tdims_sub _ _ _ _ Ex). auto.
        - eapply holds_sub; eauto; try lia.
          eapply holds_frame_disj; [exact HX| |exact D]. intros p Hp. rewrite F, F1; auto.
        - eapply holds_mapped; eauto.
        - apply safe_refl.
        - left. eapply disjoint_sub_r; eauto.
        - intros ix Hix. unfold f_add. rewrite zrange_succ by lia. rewrite sum_over_snoc. reflexivity. }
      destruct W as (s'' & E & H' & N' & F'). exists s''. split; [exact E|].
      split; [lia|]. split; [exact H'|]. intros p Hp. rewrite F'; auto.
    - exists s2. split; [exact E2|]. split; [exact H2|]. split; auto.
  Qed.
End Kernels.
