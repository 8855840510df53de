(** Property C97: the unit tests of the repository pass at every size. *)
From Coq Require Import ZArith List Bool Lia ZifyBool.
From Verif Require Import Base BaseFacts TensorFacts Traits TraitsSpec TraitsFacts Scalar LinAlg Elem ElemSpec ElemFacts Transpose Conv1d Conv1dSpec ConvSpec Conv1dFacts
  LinAlgFacts SumFacts Reshape Summary SummaryFacts Shapes LayersSpec ProgramsSpec PropsLinAlg PropsElem PropsTranspose PropsConv1d PropsReshape
  Tests TestsFacts TestSteps Demo ConvFacts.
Import ListNotations.
Open Scope Z_scope.
Open Scope model_scope.

(** A local tensor: non-negative extents, then the rest for every tensor. *)
Ltac new_local t Et := apply (runs_tensor _); [repeat constructor; lia|intros t Et].
(** Look up what is known of a local. *)
Ltac look E i := first
  [ eapply (env_holds _ _ E i); [eassumption|reflexivity]
  | eapply (env_mapped _ _ E i); [eassumption|reflexivity]
  | eapply (env_dims _ _ E i); [eassumption|reflexivity] ].
Ltac apart i j := match goal with H : env _ _ ?E |- disjoint ?t ?u =>
  eapply (env_disjoint _ _ E i j t _ u _ H); [reflexivity|reflexivity|discriminate] end.
Ltac have i := match goal with H : env _ _ ?E |- _ => look E i end.

Section Tests.
  Context {V : Type} (dt : dtype V Z).

  Lemma sum_const : forall l c, sum_over Zsc (zrange l) (fun _ => c) = Z.max 0 l * c.
  Proof using.
    intros l c. destruct (Z_lt_le_dec l 0) as [H|H]; [rewrite zrange_nonpos by lia; cbn; lia|].
    rewrite Z.max_r by lia. revert l H. refine (Z_nonneg_ind _ _ _); [reflexivity|].
    intros n Hn IH. unfold sum_over in *. rewrite zrange_succ, fold_left_app by lia. cbn [fold_left]. rewrite IH. cbn. lia.
  Qed.

  Lemma product_passes : forall f xs ys zs Z_ m s, fresh_ok s ->
    Forall (fun d => 0 <= d) xs -> Forall (fun d => 0 <= d) ys -> Forall (fun d => 0 <= d) zs ->
    (forall x y z s, tdims x = xs -> tdims y = ys -> tdims z = zs ->
       holds dt s x (fun _ => 2) -> holds dt s y (fun _ => 3) -> mapped s z -> disjoint z x -> disjoint z y ->
       writes dt (f x y z) s z Z_) ->
    (forall ix, valid zs ix -> Z_ ix = m * 6) ->
    ends (test_product dt f xs ys zs m) s (Ret true).
  Proof using.
    intros f xs ys zs Z_ m s F Nx Ny Nz W Q. apply (runs_ends dt); [exact F|]. unfold test_product.
    apply (runs_tensor _); [exact Nx|intros x Ex]. apply (runs_tensor _); [exact Ny|intros y Ey].
    eapply (runs_write _ _ 1); [reflexivity|intros s1 H; apply fill_w; have 1%nat|]. cbn [update].
    eapply (runs_write _ _ 0); [reflexivity|intros s1 H; apply fill_w; have 0%nat|]. cbn [update].
    apply (runs_tensor _); [exact Nz|intros z Ez].
    eapply (runs_write _ _ 0 _ _ Z_); [reflexivity|intros s1 H|].
    { apply W; auto; [have 2%nat|have 1%nat|have 0%nat|apart 0%nat 2%nat|apart 0%nat 1%nat]. }
    cbn [update]. apply (runs_last dt). intros s1 H. apply (assert_data_true dt z _ Z_); [have 0%nat|have 0%nat|].
    intros o Ho. rewrite Ez. apply Q. apply valid_expand; [exact Nz|]. unfold size in Ho. rewrite Ez in Ho. exact Ho.
  Qed.

  Theorem C97_mm : forall k m n s, 0 <= k -> 0 <= m -> 0 <= n -> fresh_ok s -> ends (test_mm dt k m n) s (Ret true).
  Proof using.
    intros k m n s Hk Hm Hn F. unfold test_mm.
    eapply product_passes; [exact F|repeat constructor; lia|repeat constructor; lia|repeat constructor; lia| |].
    - intros x y z s1 Ex Ey Ez HX HY MZ D1 D2. eapply C23_mm; eauto.
    - intros ix Hix. cbv beta. unfold arg2. cbn [smul Zsc]. rewrite sum_const. lia.
  Qed.

  Theorem C97_mmt : forall k m n s, 0 <= k -> 0 <= m -> 0 <= n -> fresh_ok s -> ends (test_mmt dt k m n) s (Ret true).
  Proof using.
    intros k m n s Hk Hm Hn F. unfold test_mmt.
    eapply product_passes; [exact F|repeat constructor; lia|repeat constructor; lia|repeat constructor; lia| |].
    - intros x y z s1 Ex Ey Ez HX HY MZ D1 D2. eapply C23_mmt; eauto.
    - intros ix Hix. cbv beta. unfold arg2. cbn [smul Zsc]. rewrite sum_const. lia.
  Qed.

  Theorem C97_mtm : forall k m n s, 0 <= k -> 0 <= m -> 0 <= n -> fresh_ok s -> ends (test_mtm dt k m n) s (Ret true).
  Proof using.
    intros k m n s Hk Hm Hn F. unfold test_mtm.
    eapply product_passes; [exact F|repeat constructor; lia|repeat constructor; lia|repeat constructor; lia| |].
    - intros x y z s1 Ex Ey Ez HX HY MZ D1 D2. eapply C23_mtm; eauto.
    - intros ix Hix. cbv beta. unfold arg2. cbn [smul Zsc]. rewrite sum_const. lia.
  Qed.

  Theorem C97_mv : forall n m s, 0 <= m -> 0 <= n -> fresh_ok s -> ends (test_mv dt n m) s (Ret true).
  Proof using.
    intros n m s Hm Hn F. unfold test_mv.
    eapply product_passes; [exact F|repeat constructor; lia|repeat constructor; lia|repeat constructor; lia| |].
    - intros x y z s1 Ex Ey Ez HX HY MZ D1 D2. eapply C23_mv; eauto.
    - intros ix Hix. cbv beta. unfold arg1. cbn [smul Zsc]. rewrite sum_const. lia.
  Qed.

  Theorem C97_vm : forall n m s, 0 <= m -> 0 <= n -> fresh_ok s -> ends (test_vm dt n m) s (Ret true).
  Proof using.
    intros n m s Hm Hn F. unfold test_vm.
    eapply product_passes; [exact F|repeat constructor; lia|repeat constructor; lia|repeat constructor; lia| |].
    - intros x y z s1 Ex Ey Ez HX HY MZ D1 D2. eapply C23_vm; eauto.
    - intros ix Hix. cbv beta. unfold arg1. cbn [smul Zsc]. rewrite sum_const. lia.
  Qed.

  Lemma shape_eqb_refl : forall ds, shape_eqb ds ds = true.
  Proof using. intros ds. unfold shape_eqb. destruct (list_eq_dec _ _ _); congruence. Qed.

  Theorem C97_matmul : forall e k m n s, engine_ok Zsc e [k; m; n] -> 0 <= k -> 0 <= m -> 0 <= n -> fresh_ok s ->
    ends (test_matmul dt e k m n) s (Ret true).
  Proof using.
    intros e k m n s He Hk Hm Hn F. apply (runs_ends dt); [exact F|]. unfold test_matmul.
    new_local x Ex. new_local y Ey.
    eapply (runs_write _ _ 1); [reflexivity|intros s1 H; apply fill_w; have 1%nat|]. cbn [update].
    eapply (runs_write _ _ 0); [reflexivity|intros s1 H; apply fill_w; have 0%nat|]. cbn [update].
    eapply (runs_lift_eq dt _ _ [k; n]). { rewrite Ex, Ey. unfold matmul_shape. cbn [nth]. rewrite Z.eqb_refl. reflexivity. }
    new_local z Ez. cbv zeta. rewrite Ez, shape_eqb_refl.
    eapply (runs_write _ _ 0); [reflexivity|intros s1 H; eapply C26_matmul; eauto;
      [have 2%nat|have 1%nat|have 0%nat|apart 0%nat 2%nat|apart 0%nat 1%nat]|]. cbn [update].
    eapply (runs_look dt _ _ _ true); [|apply runs_ret]. intros s1 H. eapply (assert_data_true dt z); [have 0%nat|have 0%nat|].
    intros o Ho. unfold matmul_fn, arg2. cbn [smul Zsc]. rewrite sum_const. lia.
  Qed.

  Theorem C97_add : forall n h w c s, 0 <= n -> 0 <= h -> 0 <= w -> 0 <= c -> fresh_ok s ->
    ends (test_add dt n h w c) s (Ret true).
  Proof using.
    intros n h w c s Hn Hh Hw Hc F. apply (runs_ends dt); [exact F|]. unfold test_add.
    new_local x Ex. new_local y Ey.
    eapply (runs_write _ _ 1); [reflexivity|intros s1 H; apply fill_w; have 1%nat|]. cbn [update].
    eapply (runs_write _ _ 0); [reflexivity|intros s1 H; apply fill_w; have 0%nat|]. cbn [update].
    eapply (runs_lift_eq dt _ _ [n; h; w; c]). { rewrite Ex, Ey. unfold binary_endofunction. rewrite shape_eqb_refl. reflexivity. }
    new_local z Ez. cbv zeta. rewrite Ez, shape_eqb_refl.
    eapply (runs_write _ _ 0); [reflexivity|intros s1 H; eapply C27_add; try congruence;
      [have 0%nat|have 2%nat|have 1%nat|have 0%nat|left; apart 0%nat 2%nat|left; apart 0%nat 1%nat]|]. cbn [update].
    eapply (runs_look dt); [intros s1 H; eapply s_sum_ok; have 0%nat|].
    apply runs_ret_eq. cbn [andb]. apply Z.eqb_eq. cbn [sadd Zsc].
    assert (Q : forall l, sum_over Zsc l (fun _ : list Z => 1 + 2) = 3 * Z.of_nat (length l)).
    { intros l. unfold sum_over. cbn [sadd s0 Zsc].
      assert (G : forall a, fold_left (fun b (_ : list Z) => b + (1 + 2)) l a = a + 3 * Z.of_nat (length l)).
      { induction l as [|q l IH]; intros a; [cbn; lia|]. cbn [fold_left length]. rewrite IH. lia. }
      rewrite G. lia. }
    rewrite Q. rewrite Ez.
    assert (L : Z.of_nat (length (indices [n; h; w; c])) = n * h * w * c).
    { rewrite <- (map_length (offset [n; h; w; c])), map_offset_indices by (repeat constructor; lia).
      rewrite length_zrange. cbn [prod]. nia. }
    lia.
  Qed.

  (** The bias test passes in every layout the operator knows, for plus and for
      multiplies, and for every pair of constants. *)
  Theorem C97_bias : forall o rank p xs c a b s, bias_layout o rank p -> length xs = rank -> nth p xs 0 = c ->
    Forall (fun d => 0 <= d) xs -> 0 <= c -> fresh_ok s ->
    ends (test_apply_bias dt o (f_add Zsc) xs c a b (a + b)) s (Ret true) /\
    ends (test_apply_bias dt o (f_mul Zsc) xs c a b (a * b)) s (Ret true).
  Proof using.
    intros o rank p xs c a b s L Lx Ec Nx Hc F.
    assert (G : forall f g, (forall z x y X B s, tdims z = xs -> tdims x = xs -> tdims y = [c] -> dims_ok z ->
        holds dt s x X -> holds dt s y B -> mapped s z -> disjoint z x -> disjoint z y ->
        writes dt (op_bias dt o f z x y) s z (fun ix => g (X ix) (B [nth p ix 0]))) ->
        ends (test_apply_bias dt o f xs c a b (g a b)) s (Ret true)).
    { intros f g W. apply (runs_ends dt); [exact F|]. unfold test_apply_bias.
      apply (runs_tensor _); [exact Nx|intros x Ex]. new_local y Ey.
      eapply (runs_write _ _ 1); [reflexivity|intros s1 H; apply fill_w; have 1%nat|]. cbn [update].
      eapply (runs_write _ _ 0); [reflexivity|intros s1 H; apply fill_w; have 0%nat|]. cbn [update].
      eapply (runs_lift_eq dt _ _ xs).
      { rewrite Ex, Ey. unfold bias_shape. cbn [nth].
        assert (Ep : bias_position o = p) by (destruct L as [(-> & _ & ->)|[(-> & _ & ->)|(-> & _ & ->)]]; reflexivity).
        rewrite Ep, Ec, Z.eqb_refl. reflexivity. }
      apply (runs_tensor _); [exact Nx|intros z Ez]. cbv zeta. rewrite Ez, Ex, shape_eqb_refl.
      eapply (runs_write _ _ 0); [reflexivity|intros s1 H; apply W; auto;
        [have 0%nat|have 2%nat|have 1%nat|have 0%nat|apart 0%nat 2%nat|apart 0%nat 1%nat]|]. cbn [update].
      eapply (runs_look dt _ _ _ true); [|apply runs_ret]. intros s1 H. eapply (assert_data_true dt z); [have 0%nat|have 0%nat|].
      intros q Hq. reflexivity. }
    split; apply G.
    - intros z x y X B s1 Ez Ex Ey Dz HX HB MZ D1 D2. eapply (C30_add_bias dt Zsc o rank p); eauto; try congruence. left; auto.
    - intros z x y X B s1 Ez Ex Ey Dz HX HB MZ D1 D2. eapply (C30_mul_bias dt Zsc o rank p); eauto; try congruence. left; auto.
  Qed.

  Theorem C97_axpy : forall n a x y s, 0 <= n -> fresh_ok s -> ends (test_axpy dt n a x y) s (Ret true).
  Proof using.
    intros n a x y s Hn F. apply (runs_ends dt); [exact F|]. unfold test_axpy.
    new_local ta Ea. new_local tx Ex. new_local ty Ey.
    eapply (runs_write _ _ 2); [reflexivity|intros s1 H; apply fill_w; have 2%nat|]. cbn [update].
    eapply (runs_write _ _ 1); [reflexivity|intros s1 H; apply fill_w; have 1%nat|]. cbn [update].
    eapply (runs_write _ _ 0); [reflexivity|intros s1 H; apply fill_w; have 0%nat|]. cbn [update].
    eapply (runs_lift_eq dt _ _ [n]). { rewrite Ex, Ey. unfold axpy_shape. rewrite shape_eqb_refl. reflexivity. }
    new_local tz Ez.
    eapply (runs_write _ _ 0); [reflexivity|intros s1 H; eapply C27_axpy; try congruence;
      [have 0%nat|have 2%nat|have 1%nat|have 0%nat|left; apart 0%nat 2%nat|left; apart 0%nat 1%nat|have 3%nat]|]. cbn [update].
    apply (runs_last dt). intros s1 H. apply assert_all_true. intros i Hi.
    erewrite bind_ok; [|eapply (load_at dt s1 tz); [have 0%nat|have 0%nat|]].
    - cbn [sadd smul Zsc]. unfold ret. rewrite Z.eqb_refl. reflexivity.
    - unfold size. rewrite Ez. cbn [prod]. lia.
  Qed.

  (** Both round trips, plain and with +1 / -1. *)
  Theorem C97_transpose : forall n h w c s, 0 <= n -> 0 <= h -> 0 <= w -> 0 <= c -> fresh_ok s ->
    ends (test_transpose dt n h w c) s (Ret true).
  Proof using.
    intros n h w c s Hn Hh Hw Hc F. apply (runs_ends dt); [exact F|]. unfold test_transpose. cbv zeta.
    new_local x Ex. rewrite Ex. new_local x1 Ex1. new_local y Ey. rewrite Ey. new_local y1 Ey1.
    assert (Nx : nonneg [n; h; w; c]) by (repeat constructor; lia).
    assert (Ny : nonneg [n; c; h; w]) by (repeat constructor; lia).
    assert (Sx : size x = prod [n; h; w; c]) by (unfold size; rewrite Ex; reflexivity).
    assert (Sx1 : size x1 = prod [n; h; w; c]) by (unfold size; rewrite Ex1; reflexivity).
    assert (Sy : size y = prod [n; h; w; c]) by (unfold size; rewrite Ey; cbn [prod]; lia).
    assert (Sy1 : size y1 = prod [n; h; w; c]) by (unfold size; rewrite Ey1; cbn [prod]; lia).
    assert (Eqx : forall (A B : list Z -> Z) f, (forall l i j k, f (A [l; i; j; k]) = B [l; i; j; k]) ->
       forall s1, holds dt s1 x A -> holds dt s1 x1 B -> dims_ok x -> dims_ok x1 -> assert_map dt (size x) f x x1 s1 = Ok true s1).
    { intros A B f E s1 HA HB D1 D2. apply (assert_map_true dt _ _ _ _ A B); auto; try lia.
      intros o Ho. rewrite Ex, Ex1. rewrite Sx in Ho. pose proof (valid_expand _ o Nx Ho) as Q. apply valid_4 in Q.
      destruct Q as (l & i & j & k & -> & _). apply E. }
    assert (Eqy : forall (A B : list Z -> Z) f, (forall l i j k, f (A [l; i; j; k]) = B [l; i; j; k]) ->
       forall s1, holds dt s1 y A -> holds dt s1 y1 B -> dims_ok y -> dims_ok y1 -> assert_map dt (size x) f y y1 s1 = Ok true s1).
    { intros A B f E s1 HA HB D1 D2. apply (assert_map_true dt _ _ _ _ A B); auto; try lia.
      intros o Ho. rewrite Ey, Ey1. assert (Ho' : 0 <= o < prod [n; c; h; w]) by (rewrite Sx in Ho; cbn [prod] in *; lia).
      pose proof (valid_expand _ o Ny Ho') as Q. apply valid_4 in Q.
      destruct Q as (l & i & j & k & -> & _). apply E. }
    eapply (runs_write _ _ 3); [reflexivity|intros s1 H; apply iota_w; have 3%nat|]. cbn [update].
    eapply (runs_write _ _ 1); [reflexivity|intros s1 H; eapply (C10_to_first dt dt _ y x n h w c); [auto|rewrite Ex; auto|have 3%nat|have 3%nat|have 1%nat|apart 1%nat 3%nat]|]. cbn [update].
    eapply (runs_write _ _ 2); [reflexivity|intros s1 H; eapply (C10_to_last dt dt _ x1 y n c h w); [auto|rewrite Ey; auto|have 1%nat|have 1%nat|have 2%nat|apart 2%nat 1%nat]|]. cbn [update].
    eapply (runs_look dt _ _ _ true); [intros s1 H; eapply Eqx; [|have 3%nat|have 2%nat|have 3%nat|have 2%nat]; intros; reflexivity|].
    eapply (runs_write _ _ 0); [reflexivity|intros s1 H; eapply (C10_to_first dt dt _ y1 x1 n h w c); [auto|rewrite Ex1; auto|have 2%nat|have 2%nat|have 0%nat|apart 0%nat 2%nat]|]. cbn [update].
    eapply (runs_look dt _ _ _ true); [intros s1 H; eapply Eqy; [|have 1%nat|have 0%nat|have 1%nat|have 0%nat]; intros; reflexivity|].
    eapply (runs_write _ _ 1); [reflexivity|intros s1 H; eapply (C10_to_first dt dt _ y x n h w c); [auto|rewrite Ex; auto|have 3%nat|have 3%nat|have 1%nat|apart 1%nat 3%nat]|]. cbn [update].
    eapply (runs_write _ _ 2); [reflexivity|intros s1 H; eapply (C10_to_last dt dt _ x1 y n c h w); [auto|rewrite Ey; auto|have 1%nat|have 1%nat|have 2%nat|apart 2%nat 1%nat]|]. cbn [update].
    eapply (runs_look dt _ _ _ true); [intros s1 H; eapply Eqx; [|have 3%nat|have 2%nat|have 3%nat|have 2%nat]; intros; unfold arg4; cbn [nth]; lia|].
    eapply (runs_write _ _ 0); [reflexivity|intros s1 H; eapply (C10_to_first dt dt _ y1 x1 n h w c); [auto|rewrite Ex1; auto|have 2%nat|have 2%nat|have 0%nat|apart 0%nat 2%nat]|]. cbn [update].
    eapply (runs_look dt _ _ _ true); [intros s1 H; eapply Eqy; [|have 1%nat|have 0%nat|have 1%nat|have 0%nat]; intros; unfold arg4; cbn [nth]; lia|].
    apply runs_ret.
  Qed.

  Lemma perm_flat : forall t s, fast_is_permutation dt (flat t) s = fast_is_permutation dt t s.
  Proof using.
    intros t s. unfold fast_is_permutation.
    rewrite size_flat. reflexivity.
  Qed.

  (** Contents, seen by index tuples. *)
  Lemma perm_ix : forall x X s, holds dt s x X -> dims_ok x ->
    (forall ix, valid (tdims x) ix -> 0 <= X ix < size x) ->
    (forall ix iy, valid (tdims x) ix -> valid (tdims x) iy -> X ix = X iy -> ix = iy) ->
    fast_is_permutation dt x s = Ok true s.
  Proof using.
    intros x X s H D B Inj. apply (perm_true dt x X); auto.
    - intros o Ho. apply B. apply valid_expand; auto.
    - intros o q Ho Hq E. apply Inj in E; [|apply valid_expand; auto|apply valid_expand; auto].
      rewrite <- (offset_expand (tdims x) o), <- (offset_expand (tdims x) q), E; auto.
  Qed.

  Lemma add_u32 : forall a b, 0 <= a -> 0 <= b -> a + b < 2 ^ 32 -> iadd U32 a b = Ret (a + b).
  Proof using. intros a b Ha Hb H. unfold iadd, norm. rewrite Z.mod_small by lia. reflexivity. Qed.

  (** The concatenation of numbered inputs contains every number once. *)
  Theorem C97_concat_nchw : forall n h w c1 c2 s, 0 <= n -> 0 <= h -> 0 <= w -> 0 <= c1 -> 0 <= c2 -> c1 + c2 < 2 ^ 32 -> fresh_ok s ->
    ends (test_concat_nchw dt n h w c1 c2) s (Ret true).
  Proof using.
    intros n h w c1 c2 s Hn Hh Hw H1 H2 U F. apply (runs_ends dt); [exact F|]. unfold test_concat_nchw.
    new_local x Ex. new_local y Ey. new_local t Et.
    eapply (runs_lift_eq dt _ _ [n; c1 + c2; h; w]).
    { rewrite Ex, Ey. cbn [concat_shape obind]. unfold concat2shapes. cbn [concat2_from Nat.eqb obind].
      rewrite !Z.eqb_refl. cbn [ocontract obind]. rewrite add_u32 by lia. reflexivity. }
    cbv zeta. rewrite Et, shape_eqb_refl.
    eapply (runs_write _ _ 2); [reflexivity|intros s1 H; apply iota_w; have 2%nat|]. cbn [update].
    eapply (runs_write _ _ 1); [reflexivity|intros s1 H; apply iota_w; have 1%nat|]. cbn [update].
    eapply (runs_write _ _ 0); [reflexivity|intros s1 H; eapply (concat_nchw2_writes dt t x y n c1 c2 h w); auto;
       [have 2%nat|have 1%nat|have 2%nat|have 1%nat|have 0%nat|apart 0%nat 2%nat|apart 0%nat 1%nat]|]. cbn [update].
    eapply (runs_look dt _ _ _ true); [|apply runs_ret]. intros s1 H. rewrite perm_flat.
    assert (Sx : size x = n * c1 * h * w) by (unfold size; rewrite Ex; cbn [prod]; lia).
    assert (Sy : size y = n * c2 * h * w) by (unfold size; rewrite Ey; cbn [prod]; lia).
    assert (St : size t = size x + size y) by (rewrite Sx, Sy; unfold size; rewrite Et; cbn [prod]; lia).
    assert (Vx : forall l k i j, valid [n; c1 + c2; h; w] [l; k; i; j] -> k < c1 -> valid [n; c1; h; w] [l; k; i; j]).
    { intros l k i j Q Hk. cbn [valid] in *. lia. }
    assert (Vy : forall l k i j, valid [n; c1 + c2; h; w] [l; k; i; j] -> c1 <= k -> valid [n; c2; h; w] [l; k - c1; i; j]).
    { intros l k i j Q Hk. cbn [valid] in *. lia. }
    assert (Bx : forall ix, valid [n; c1; h; w] ix -> 0 <= offset [n; c1; h; w] ix < size x).
    { intros ix Q. unfold size. rewrite Ex. apply offset_bound. exact Q. }
    assert (By : forall ix, valid [n; c2; h; w] ix -> 0 <= offset [n; c2; h; w] ix < size y).
    { intros ix Q. unfold size. rewrite Ey. apply offset_bound. exact Q. }
    eapply perm_ix; [have 0%nat|have 0%nat| |]; rewrite Et, Ex, Ey, ?St.
    - intros ix Q. pose proof Q as Q0. apply valid_4 in Q0. destruct Q0 as (l & k & i & j & -> & _). unfold arg4; cbn [nth].
      destruct (Z.ltb_spec k c1) as [Lk|Lk].
      + pose proof (Bx _ (Vx l k i j Q Lk)). pose proof (By [0; 0; 0; 0]) as Z0.
        assert (0 <= size y) by (rewrite Sy; repeat apply Z.mul_nonneg_nonneg; lia). lia.
      + pose proof (By _ (Vy l k i j Q Lk)).
        assert (0 <= size x) by (rewrite Sx; repeat apply Z.mul_nonneg_nonneg; lia). lia.
    - intros ix iy Q Q'. pose proof Q as Q0. pose proof Q' as Q1. apply valid_4 in Q0. apply valid_4 in Q1.
      destruct Q0 as (l & k & i & j & -> & _). destruct Q1 as (l' & k' & i' & j' & -> & _). unfold arg4; cbn [nth].
      destruct (Z.ltb_spec k c1) as [Lk|Lk], (Z.ltb_spec k' c1) as [Lk'|Lk']; intros E.
      + apply (offset_inj [n; c1; h; w]); [apply Vx; auto|apply Vx; auto|lia].
      + pose proof (Bx _ (Vx l k i j Q Lk)). pose proof (By _ (Vy l' k' i' j' Q' Lk')). lia.
      + pose proof (By _ (Vy l k i j Q Lk)). pose proof (Bx _ (Vx l' k' i' j' Q' Lk')). lia.
      + assert (R : [l; k - c1; i; j] = [l'; k' - c1; i'; j']).
        { apply (offset_inj [n; c2; h; w]); [apply Vy; auto|apply Vy; auto|lia]. }
        injection R as -> R -> ->. replace k' with k by lia. reflexivity.
  Qed.

  Theorem C97_concat_nhwc : forall n h w c1 c2 c3 s, 0 <= n -> 0 <= h -> 0 <= w -> 0 <= c1 -> 0 <= c2 -> 0 <= c3 -> c1 + c2 + c3 < 2 ^ 32 -> fresh_ok s ->
    ends (test_concat_nhwc dt n h w c1 c2 c3) s (Ret true).
  Proof using.
    intros n h w c1 c2 c3 s Hn Hh Hw H1 H2 H3 U F. apply (runs_ends dt); [exact F|]. unfold test_concat_nhwc.
    new_local x Ex. new_local y Ey. new_local z Ez. new_local t Et.
    eapply (runs_lift_eq dt _ _ [n; h; w; c1 + (c2 + c3)]).
    { rewrite Ex, Ey, Ez. cbn [concat_shape obind]. unfold concat2shapes. cbn [concat2_from Nat.eqb obind].
      rewrite !Z.eqb_refl. cbn [ocontract obind]. rewrite add_u32 by lia.
      cbn [obind]. rewrite !Z.eqb_refl. cbn [ocontract obind]. rewrite add_u32 by lia. reflexivity. }
    cbv zeta. rewrite Et, shape_eqb_refl.
    eapply (runs_write _ _ 3); [reflexivity|intros s1 H; apply iota_w; have 3%nat|]. cbn [update].
    eapply (runs_write _ _ 2); [reflexivity|intros s1 H; apply iota_w; have 2%nat|]. cbn [update].
    eapply (runs_write _ _ 1); [reflexivity|intros s1 H; apply iota_w; have 1%nat|]. cbn [update].
    eapply (runs_write _ _ 0); [reflexivity|intros s1 H; eapply (concat_nhwc3_writes dt t z x y n h w c3 c1 c2); auto;
       [rewrite Et; do 4 f_equal; lia|have 1%nat|have 3%nat|have 2%nat|have 1%nat|have 3%nat|have 2%nat|have 0%nat
       |apart 0%nat 1%nat|apart 0%nat 3%nat|apart 0%nat 2%nat]|]. cbn [update].
    eapply (runs_look dt _ _ _ true); [|apply runs_ret]. intros s1 H. rewrite perm_flat.
    assert (Sx : size x = n * h * w * c1) by (unfold size; rewrite Ex; cbn [prod]; lia).
    assert (Sy : size y = n * h * w * c2) by (unfold size; rewrite Ey; cbn [prod]; lia).
    assert (Sz : size z = n * h * w * c3) by (unfold size; rewrite Ez; cbn [prod]; lia).
    assert (St : size t = size x + size y + size z) by (rewrite Sx, Sy, Sz; unfold size; rewrite Et; cbn [prod]; lia).
    assert (Px : 0 <= size x) by (rewrite Sx; repeat apply Z.mul_nonneg_nonneg; lia).
    assert (Py : 0 <= size y) by (rewrite Sy; repeat apply Z.mul_nonneg_nonneg; lia).
    assert (Pz : 0 <= size z) by (rewrite Sz; repeat apply Z.mul_nonneg_nonneg; lia).
    set (D := [n; h; w; c1 + (c2 + c3)]) in *.
    assert (Vz : forall l i j k, valid D [l; i; j; k] -> k < c3 -> valid [n; h; w; c3] [l; i; j; k]).
    { intros l i j k Q Hk. cbn [valid D] in *. lia. }
    assert (Vx : forall l i j k, valid D [l; i; j; k] -> c3 <= k -> k < c3 + c1 -> valid [n; h; w; c1] [l; i; j; k - c3]).
    { intros l i j k Q Hk Hk'. cbn [valid D] in *. lia. }
    assert (Vy : forall l i j k, valid D [l; i; j; k] -> c3 <= k -> c3 + c1 <= k -> valid [n; h; w; c2] [l; i; j; k - c3 - c1]).
    { intros l i j k Q Hk Hk'. cbn [valid D] in *. lia. }
    assert (Bx : forall ix, valid [n; h; w; c1] ix -> 0 <= offset [n; h; w; c1] ix < size x).
    { intros ix Q. unfold size. rewrite Ex. apply offset_bound. exact Q. }
    assert (By : forall ix, valid [n; h; w; c2] ix -> 0 <= offset [n; h; w; c2] ix < size y).
    { intros ix Q. unfold size. rewrite Ey. apply offset_bound. exact Q. }
    assert (Bz : forall ix, valid [n; h; w; c3] ix -> 0 <= offset [n; h; w; c3] ix < size z).
    { intros ix Q. unfold size. rewrite Ez. apply offset_bound. exact Q. }
    eapply perm_ix; [have 0%nat|have 0%nat| |]; rewrite Et, Ex, Ey, Ez, ?St; fold D.
    - intros ix Q. pose proof Q as Q0. unfold D in Q0. apply valid_4 in Q0. destruct Q0 as (l & i & j & k & -> & _). unfold arg4; cbn [nth].
      destruct (Z.ltb_spec k c3) as [Lk|Lk]; [|destruct (Z.ltb_spec k (c3 + c1)) as [Lk2|Lk2]].
      + pose proof (Bz _ (Vz l i j k Q Lk)). lia.
      + pose proof (Bx _ (Vx l i j k Q Lk Lk2)). lia.
      + pose proof (By _ (Vy l i j k Q Lk Lk2)). lia.
    - intros ix iy Q Q'. pose proof Q as Q0. pose proof Q' as Q1. unfold D in Q0, Q1. apply valid_4 in Q0. apply valid_4 in Q1.
      destruct Q0 as (l & i & j & k & -> & _). destruct Q1 as (l' & i' & j' & k' & -> & _). unfold arg4; cbn [nth].
      destruct (Z.ltb_spec k c3) as [Lk|Lk]; [|destruct (Z.ltb_spec k (c3 + c1)) as [Lk2|Lk2]];
      (destruct (Z.ltb_spec k' c3) as [Lk'|Lk']; [|destruct (Z.ltb_spec k' (c3 + c1)) as [Lk2'|Lk2']]); intros E.
      all: try pose proof (Bz _ (Vz l i j k Q Lk)); try pose proof (Bx _ (Vx l i j k Q Lk Lk2)); try pose proof (By _ (Vy l i j k Q Lk Lk2)).
      all: try pose proof (Bz _ (Vz l' i' j' k' Q' Lk')); try pose proof (Bx _ (Vx l' i' j' k' Q' Lk' Lk2')); try pose proof (By _ (Vy l' i' j' k' Q' Lk' Lk2')).
      all: try (exfalso; lia).
      + apply (offset_inj [n; h; w; c3]); [apply Vz; auto|apply Vz; auto|lia].
      + assert (R : [l; i; j; k - c3] = [l'; i'; j'; k' - c3]).
        { apply (offset_inj [n; h; w; c1]); [apply Vx; auto|apply Vx; auto|lia]. }
        injection R as -> -> -> R. replace k' with k by lia. reflexivity.
      + assert (R : [l; i; j; k - c3 - c1] = [l'; i'; j'; k' - c3 - c1]).
        { apply (offset_inj [n; h; w; c2]); [apply Vy; auto|apply Vy; auto|lia]. }
        injection R as -> -> -> R. replace k' with k by lia. reflexivity.
  Qed.

  (** *** Flattening and its gradient keep the elements in order. *)
  Lemma flatten_nonneg : forall rs xs, Forall (fun d => 0 <= d) xs -> Forall (fun d => 0 <= d) (flatten_shape rs xs).
  Proof using.
    induction rs as [|r rs IH]; intros xs N; cbn [flatten_shape]; constructor.
    - apply prod_nonneg. unfold nonneg. rewrite <- (firstn_skipn r xs) in N. apply Forall_app in N. apply N.
    - apply IH. rewrite <- (firstn_skipn r xs) in N. apply Forall_app in N. apply N.
  Qed.

  Lemma flat_eq_true : forall x y X Y s, holds dt s x X -> holds dt s y Y -> dims_ok x -> dims_ok y -> size x = size y ->
    (forall o, 0 <= o < size x -> X (expand (tdims x) o) = Y (expand (tdims y) o)) ->
    assert_tensor_eq dt (flat x) (flat y) s = Ok true s.
  Proof using.
    intros x y X Y s HX HY Dx Dy E W. unfold assert_tensor_eq.
    replace (tdims (flat y)) with (tdims (flat x)) by (unfold flat, reshape; cbn [tdims]; f_equal; exact E).
    rewrite shape_eqb_refl, size_flat. apply (assert_map_true dt _ _ x y X Y); auto; lia.
  Qed.

  Theorem C97_flatten : forall rs xs s, covers rs xs -> Forall (fun d => 0 <= d) xs -> fresh_ok s ->
    ends (test_flatten dt rs xs) s (Ret true).
  Proof using.
    intros rs xs s C N F. apply (runs_ends dt); [exact F|]. unfold test_flatten.
    pose proof (flatten_nonneg rs xs N) as Ny. destruct (C67_size rs xs C) as [P _].
    apply (runs_tensor _); [exact N|intros x Ex].
    eapply (runs_lift_eq dt _ _ (flatten_shape rs xs)); [reflexivity|].
    apply (runs_tensor _); [exact Ny|intros y Ey]. rewrite Ey. apply (runs_tensor _); [exact Ny|intros gy Egy].
    eapply (runs_lift_eq dt _ _ xs).
    { unfold gradient_shape. cbn [nth]. unfold copy_flatten_shape at 1. cbn [obind]. rewrite Egy, Ex, !shape_eqb_refl. reflexivity. }
    apply (runs_tensor _); [exact N|intros gx Egx].
    assert (Sy : size y = size x) by (unfold size; rewrite Ey, Ex; exact P).
    assert (Sg : size gx = size gy) by (unfold size; rewrite Egy, Egx; symmetry; exact P).
    eapply (runs_write _ _ 3); [reflexivity|intros s1 H; apply iota_w; have 3%nat|]. cbn [update].
    eapply (runs_write _ _ 1); [reflexivity|intros s1 H; apply iota_w; have 1%nat|]. cbn [update].
    eapply (runs_write _ _ 2); [reflexivity|intros s1 H; eapply copy_writes;
      [have 2%nat|have 3%nat|exact Sy|have 3%nat|have 2%nat|apart 2%nat 3%nat]|]. cbn [update].
    eapply (runs_write _ _ 0); [reflexivity|intros s1 H; eapply copy_writes;
      [have 0%nat|have 1%nat|exact Sg|have 1%nat|have 0%nat|apart 0%nat 1%nat]|]. cbn [update].
    eapply (runs_look dt _ _ _ true).
    { intros s1 H. eapply flat_eq_true; [have 2%nat|have 3%nat|have 2%nat|have 3%nat|exact Sy|].
      intros o Ho. cbv beta. rewrite (offset_expand (tdims y)); [reflexivity|rewrite Ey; exact Ny|exact Ho]. }
    eapply (runs_look dt _ _ _ true); [|apply runs_ret].
    { intros s1 H. eapply flat_eq_true; [have 0%nat|have 1%nat|have 0%nat|have 1%nat|exact Sg|].
      intros o Ho. cbv beta. rewrite (offset_expand (tdims gx)); [reflexivity|rewrite Egx; exact N|exact Ho]. }
  Qed.

  (** *** 1-D folding and unfolding. *)
  Lemma counts_fold : forall {A} (f : A -> Z) l c q,
    fold_left (fun c a => fun q => if q =? f a then c q + 1 else c q) l c q = c q + Z.of_nat (length (List.filter (fun a => q =? f a) l)).
  Proof using.
    intros A f. induction l as [|a l IH]; intros c q; cbn [fold_left List.filter]; [cbn; lia|].
    rewrite IH. destruct (q =? f a); cbn [length]; lia.
  Qed.

  Lemma filter_map_length : forall {A B} (g : A -> B) (p : B -> bool) l, length (List.filter p (map g l)) = length (List.filter (fun a => p (g a)) l).
  Proof using. intros A B g p. induction l as [|a l IH]; cbn; [reflexivity|]. destruct (p (g a)); cbn; lia. Qed.

  Definition counts_of (ds : list Z) (U : list Z -> Z) : Z -> Z :=
    fold_left (fun c i => fun q => if q =? U (expand ds i) then c q + 1 else c q) (zrange (prod ds)) (fun _ => 0).

  Lemma count_values_ok : forall u U s, holds dt s u U -> dims_ok u -> count_values dt u s = Ok (counts_of (tdims u) U) s.
  Proof using.
    intros u U s H D. unfold count_values.
    rewrite (foldM_pure _ _ (fun c i => fun q => if q =? U (expand (tdims u) i) then c q + 1 else c q) s); [reflexivity|].
    intros b a Ia. apply in_zrange in Ia. rewrite (bind_ok _ _ _ _ _ (load_at dt s u U a H D Ia)). reflexivity.
  Qed.

  Lemma counts_of_spec : forall ds U q, nonneg ds ->
    counts_of ds U q = Z.of_nat (length (List.filter (fun ix => q =? U ix) (indices ds))).
  Proof using.
    intros ds U q D. unfold counts_of. rewrite (counts_fold (fun i => U (expand ds i))).
    cbn [Z.add]. f_equal. rewrite <- map_offset_indices by exact D. rewrite filter_map_length. f_equal.
    apply filter_ext_in. intros ix I. rewrite expand_offset; [reflexivity|]. apply in_indices in I. exact I.
  Qed.

  Lemma sum_filter_const : forall (l : list (list Z)) p U c, (forall ix, In ix l -> p ix = true -> U ix = c) ->
    sum_over Zsc (List.filter p l) U = Z.of_nat (length (List.filter p l)) * c.
  Proof using.
    intros l p U c H. unfold sum_over. cbn [sadd s0 Zsc].
    assert (G : forall l' a, (forall ix, In ix l' -> U ix = c) -> fold_left (fun b x => b + U x) l' a = a + Z.of_nat (length l') * c).
    { induction l' as [|q l' IH]; intros a Q; [cbn; lia|]. cbn [fold_left length]. rewrite IH by (intros; apply Q; right; auto).
      rewrite Q by (left; reflexivity). lia. }
    rewrite G; [lia|]. intros ix I. apply filter_In in I. apply H; tauto.
  Qed.

  (** Unfolding and folding back multiplies each element by the number of
      windows positions that see it, for every padding and geometry that fits. *)
  Theorem C97_col2im1d : forall p n k u r m s, 1 <= k -> 1 <= u -> 1 <= r -> 0 <= p -> 0 <= n -> p + n + p < 2 ^ 31 ->
    valid_config k u r p p n m -> fresh_ok s ->
    ends (test_col2im1d dt p n k u r) s (Ret true).
  Proof using.
    intros p n k u r m s Hk Hu Hr Hp Hn Bn Vc F. apply (runs_ends dt); [exact F|]. unfold test_col2im1d.
    set (sp := mksample (mkfilter k u r) (mkpadding p p)).
    eapply (runs_lift_eq dt _ _ sp).
    { unfold new_sample, new_filter. destruct (Z.ltb_spec k 1), (Z.ltb_spec u 1), (Z.ltb_spec r 1); try lia. reflexivity. }
    assert (A : axis32_ok sp n m).
    { unfold axis32_ok, sp. cbn [sfilter ksize stride rate spadding left_ right_]. lia || (repeat split; try lia; apply Vc). }
    assert (Sp : span k r < 2 ^ 31) by (destruct Vc as [V1 V2]; nia).
    assert (Sp1 : 1 <= span k r) by (apply span_pos; lia).
    assert (Km : k <= span k r) by (unfold span; nia).
    assert (Hm : 1 <= m < 2 ^ 31) by (destruct Vc as [V1 V2]; nia).
    new_local x Ex. new_local x1 Ex1. new_local c Ec.
    eapply (runs_lift_eq dt _ _ [m; k]).
    { rewrite Ex. unfold im2col1d_shape. cbn [nth]. rewrite Conv1dFacts.to_i32_small by lia.
      destruct (sample_len_i32 k u r p p n) as [Q _]; try lia.
      assert (El : sample_len I32 sp n = Ret m) by (apply Q; exact Vc). rewrite El. cbn [obind].
      unfold sp. cbn [sfilter ksize]. rewrite !to_u32_small by lia. reflexivity. }
    cbn [nth]. new_local v Ev.
    eapply (runs_lift_eq dt _ _ [n]).
    { rewrite Ev. eapply (C22_shape k u r p p n); try lia. unfold im2col1d_shape. cbn [nth]. rewrite Conv1dFacts.to_i32_small by lia.
      destruct (sample_len_i32 k u r p p n) as [Q _]; try lia.
      assert (El : sample_len I32 sp n = Ret m) by (apply Q; exact Vc). unfold sp in El. rewrite El. cbn [obind].
      cbn [sfilter ksize]. rewrite !to_u32_small by lia. reflexivity. }
    cbv zeta. rewrite Ex, shape_eqb_refl.
    eapply (runs_write _ _ 3); [reflexivity|intros s1 H; apply iota_w; have 3%nat|]. cbn [update].
    eapply (runs_write _ _ 0); [reflexivity|intros s1 H; eapply (im2col1d_writes dt Zsc sp v x n m); auto;
       [have 3%nat|have 0%nat|apart 0%nat 3%nat]|]. cbn [update].
    eapply (runs_write _ _ 2); [reflexivity|intros s1 H; eapply (col2im1d_writes dt Zsc sp x1 v n m); auto;
       [have 0%nat|have 2%nat|apart 2%nat 0%nat]|]. cbn [update].
    eapply (runs_look dt); [intros s1 H; eapply count_values_ok; have 0%nat|].
    eapply (runs_look dt _ _ _ true); [|apply runs_ret]. intros s1 H. apply assert_all_true. intros i Hi.
    assert (Hi' : 0 <= i < n) by (unfold size in Hi; rewrite Ex in Hi; cbn [prod] in Hi; lia).
    erewrite bind_ok; [|eapply (load_at dt s1 x); [have 3%nat|have 3%nat|exact Hi]].
    erewrite bind_ok; [|eapply (load_at dt s1 x1); [have 2%nat|have 2%nat|unfold size; rewrite Ex1; cbn [prod]; lia]].
    unfold ret. f_equal. apply Z.eqb_eq. rewrite Ex, Ex1, Ev.
    replace (expand [n] i) with [i] by (symmetry; apply (offset_inj [n]);
      [apply valid_expand; [repeat constructor; lia|cbn [prod]; lia]|cbn [valid]; lia|rewrite offset_expand; [cbn; lia|repeat constructor; lia|cbn [prod]; lia]]).
    replace (offset [n] [i]) with i by (cbn; lia).
    rewrite counts_of_spec by (repeat constructor; lia). unfold arg1. cbn [nth].
    change (ksize (sfilter sp)) with k. cbn [s0 Zsc].
    set (W := arg2 (fun j t => wpos sp j t =? i)).
    assert (Ef : List.filter (fun ix => 1 + i =? arg2 (fun j t => zpad1 0 n (fun i0 => 1 + offset [n] [i0]) (wpos sp j t)) ix) (indices [m; k])
       = List.filter W (indices [m; k])).
    { apply filter_ext_in. intros ix I. unfold W, arg2. set (q := wpos sp (nth 0 ix 0) (nth 1 ix 0)).
      unfold zpad1, inb. replace (offset [n] [q]) with q by (cbn; lia). destruct ((0 <=? q) && (q <? n)) eqn:B; lia. }
    rewrite Ef. rewrite (sum_filter_const _ W _ (1 + i)); [lia|].
    intros ix I Wx. unfold W, arg2 in Wx |- *. apply Z.eqb_eq in Wx. rewrite Wx. unfold zpad1, inb.
    replace (offset [n] [i]) with i by (cbn; lia). destruct ((0 <=? i) && (i <? n)) eqn:B; lia.
  Qed.

  Lemma tensor_eq_true : forall x y X Y s, holds dt s x X -> holds dt s y Y -> dims_ok x -> tdims y = tdims x ->
    (forall ix, valid (tdims x) ix -> X ix = Y ix) ->
    assert_tensor_eq dt x y s = Ok true s.
  Proof using.
    intros x y X Y s HX HY Dx E W. unfold assert_tensor_eq. rewrite E, shape_eqb_refl.
    apply (assert_map_true dt _ _ x y X Y); auto; try (unfold size, dims_ok in *; rewrite ?E; auto; lia).
    intros o Ho. rewrite E. apply W. apply valid_expand; auto.
  Qed.

  Lemma Zsc_laws : ring_laws Zsc.
  Proof using. unfold ring_laws. cbn [s0 s1 sadd smul ssub sneg Zsc]. constructor; intros; cbn [s0 s1 sadd smul ssub sneg Zsc]; try ring. Qed.

  (** The convolution equals unfolding followed by the matrix-vector product. *)
  Theorem C97_conv1d : forall p n k u r m s, 1 <= k -> 1 <= u < 2 ^ 31 -> 1 <= r -> 0 <= p -> 0 <= n -> p + n + p < 2 ^ 31 ->
    valid_config k u r p p n m -> fresh_ok s ->
    ends (test_conv1d dt p n k u r) s (Ret true).
  Proof using.
    intros p n k u r m s Hk Hu Hr Hp Hn Bn Vc F. apply (runs_ends dt); [exact F|]. unfold test_conv1d.
    set (sp := mksample (mkfilter k u r) (mkpadding p p)).
    eapply (runs_lift_eq dt _ _ sp).
    { unfold new_sample, new_filter. destruct (Z.ltb_spec k 1), (Z.ltb_spec u 1), (Z.ltb_spec r 1); try lia. reflexivity. }
    assert (A : axis32_ok sp n m).
    { unfold axis32_ok, sp. cbn [sfilter ksize stride rate spadding left_ right_]. lia || (repeat split; try lia; apply Vc). }
    assert (Sp : span k r < 2 ^ 31) by (destruct Vc as [V1 V2]; nia).
    assert (Sp1 : 1 <= span k r) by (apply span_pos; lia).
    assert (Km : k <= span k r) by (unfold span; nia).
    assert (Hm : 1 <= m < 2 ^ 31) by (destruct Vc as [V1 V2]; nia).
    new_local x Ex. new_local y Ey.
    eapply (runs_lift_eq dt _ _ [m; k]).
    { rewrite Ex. unfold im2col1d_shape. cbn [nth]. rewrite Conv1dFacts.to_i32_small by lia.
      destruct (sample_len_i32 k u r p p n) as [Q _]; try lia.
      assert (El : sample_len I32 sp n = Ret m) by (apply Q; exact Vc). rewrite El. cbn [obind].
      unfold sp. cbn [sfilter ksize]. rewrite !to_u32_small by lia. reflexivity. }
    new_local v Ev.
    eapply (runs_lift_eq dt _ _ [m]).
    { rewrite Ex, Ey. destruct (C21_shape (mkconv1d u r (mkpadding p p)) n k) as [Q _];
        cbn [cstride crate cpad left_ right_]; try lia. apply Q. exact Vc. }
    new_local z Ez. rewrite Ez. new_local z1 Ez1.
    eapply (runs_write _ _ 4); [reflexivity|intros s1 H; apply iota_w; have 4%nat|]. cbn [update].
    eapply (runs_write _ _ 3); [reflexivity|intros s1 H; apply iota_w; have 3%nat|]. cbn [update].
    eapply (runs_write _ _ 1); [reflexivity|intros s1 H; apply iota_w; have 1%nat|]. cbn [update].
    eapply (runs_write _ _ 1); [reflexivity|intros s1 H; eapply (C21_conv1d dt Zsc _ z x y n k m); auto; try exact A;
      [have 4%nat|have 3%nat|have 1%nat|apart 1%nat 4%nat|apart 1%nat 3%nat]|]. cbn [update].
    eapply (runs_write _ _ 2); [reflexivity|intros s1 H; eapply (im2col1d_writes dt Zsc sp v x n m); auto;
       [have 4%nat|have 2%nat|apart 2%nat 4%nat]|]. cbn [update].
    eapply (runs_write _ _ 0); [reflexivity|intros s1 H; eapply (C23_mv dt Zsc v y z1 m k); auto; try lia;
       [have 2%nat|have 3%nat|have 0%nat|apart 0%nat 2%nat|apart 0%nat 3%nat]|]. cbn [update].
    apply (runs_last dt). intros s1 H. eapply tensor_eq_true; [have 1%nat|have 0%nat|have 1%nat|congruence|].
    intros ix _. unfold arg1, arg2. cbn [nth]. rewrite (sum_filter Zsc Zsc_laws). apply sum_over_ext. intros t _.
    cbn [cstride crate cpad]. fold sp. unfold zpad1. cbn [s0 smul Zsc]. destruct (inb n (wpos sp (nth 0 ix 0) t)); lia.
  Qed.

  (** *** Gradient of the sum. *)
  Lemma affine_round_passes : forall {B} n x y z x1 y1 z1 dx dy dz seed (k : bool * Z -> M V B) o, 0 <= n ->
    Forall (fun t => tdims t = [n]) [x; y; z; x1; y1; z1; dx; dy; dz] ->
    let E := map (fun t => (t, None)) [dz; dy; dx; z1; y1; x1; z; y; x] in
    (forall seed', runs dt E (k (true, seed')) o) ->
    runs dt E (bind (affine_round dt n x y z x1 y1 z1 dx dy dz seed) k) o.
  Proof using.
    intros B n x y z x1 y1 z1 dx dy dz seed k o Hn Q E K. unfold E in *. clear E. cbn [map] in *. unfold affine_round.
    repeat match goal with H : Forall _ (_ :: _) |- _ => inversion H; clear H; subst end.
    apply runs_assoc.
    eapply (runs_write_val _ _ 8); [reflexivity|intros s1 H; apply gen_w; have 8%nat|]. cbn [update]. apply runs_assoc.
    eapply (runs_write_val _ _ 7); [reflexivity|intros s1 H; apply gen_w; have 7%nat|]. cbn [update]. apply runs_assoc.
    eapply (runs_write_val _ _ 0); [reflexivity|intros s1 H; apply gen_w; have 0%nat|]. cbn [update]. apply runs_assoc.
    eapply (runs_write _ _ 6); [reflexivity|intros s1 H; eapply C27_add; try congruence;
      [have 6%nat|have 8%nat|have 7%nat|have 6%nat|left; apart 6%nat 8%nat|left; apart 6%nat 7%nat]|]. cbn [update]. apply runs_assoc.
    unfold grad_add.
    eapply (runs_write _ _ 2); [reflexivity|intros s1 H; eapply C27_identity; try congruence;
      [have 2%nat|have 0%nat|have 2%nat|left; apart 2%nat 0%nat]|]. cbn [update]. apply runs_assoc.
    eapply (runs_write _ _ 1); [reflexivity|intros s1 H; eapply C27_identity; try congruence;
      [have 1%nat|have 0%nat|have 1%nat|left; apart 1%nat 0%nat]|]. cbn [update]. apply runs_assoc.
    eapply (runs_write _ _ 5); [reflexivity|intros s1 H; eapply C27_add; try congruence;
      [have 5%nat|have 8%nat|have 2%nat|have 5%nat|left; apart 5%nat 8%nat|left; apart 5%nat 2%nat]|]. cbn [update]. apply runs_assoc.
    eapply (runs_write _ _ 4); [reflexivity|intros s1 H; eapply C27_add; try congruence;
      [have 4%nat|have 7%nat|have 1%nat|have 4%nat|left; apart 4%nat 7%nat|left; apart 4%nat 1%nat]|]. cbn [update]. apply runs_assoc.
    eapply (runs_write _ _ 3); [reflexivity|intros s1 H; eapply C27_add; try congruence;
      [have 3%nat|have 6%nat|have 0%nat|have 3%nat|left; apart 3%nat 6%nat|left; apart 3%nat 0%nat]|]. cbn [update].
    apply runs_assoc. eapply (runs_block dt _ _ _ true).
    { intros s1 HE1. eapply (scope_ends dt); [repeat constructor; lia|exact HE1|]. intros z2 s2 Ez2 HE2.
      eassert (W : writes dt (op_add dt Zsc z2 x y1) s2 z2 _).
      { pose proof HE2 as H. eapply C27_add; try congruence; [have 0%nat|have 9%nat|have 5%nat|have 0%nat|left; apart 0%nat 9%nat|left; apart 0%nat 5%nat]. }
      pose proof W as (s3 & E3 & _). destruct (env_write dt s2 s3 _ 0 _ _ _ _ HE2 eq_refl W E3) as (H & N3 & _). cbn [update] in H.
      destruct W as (s3' & E3' & _ & _ & C3). rewrite E3 in E3'. injection E3' as <-.
      exists s3. split; [|split; [apply H|split; [exact N3|intros p Hp; apply C3; intros [q [_ ->]]; apply Hp; reflexivity]]].
      unfold bind. rewrite E3. eapply tensor_eq_true; [have 4%nat|have 0%nat|have 4%nat|congruence|].
      intros ix _. cbv beta. cbn [sadd Zsc]. lia. }
    apply runs_assoc. eapply (runs_block dt _ _ _ true).
    { intros s1 HE1. eapply (scope_ends dt); [repeat constructor; lia|exact HE1|]. intros z2 s2 Ez2 HE2.
      eassert (W : writes dt (op_add dt Zsc z2 x1 y) s2 z2 _).
      { pose proof HE2 as H. eapply C27_add; try congruence; [have 0%nat|have 6%nat|have 8%nat|have 0%nat|left; apart 0%nat 6%nat|left; apart 0%nat 8%nat]. }
      pose proof W as (s3 & E3 & _). destruct (env_write dt s2 s3 _ 0 _ _ _ _ HE2 eq_refl W E3) as (H & N3 & _). cbn [update] in H.
      destruct W as (s3' & E3' & _ & _ & C3). rewrite E3 in E3'. injection E3' as <-.
      exists s3. split; [|split; [apply H|split; [exact N3|intros p Hp; apply C3; intros [q [_ ->]]; apply Hp; reflexivity]]].
      unfold bind. rewrite E3. eapply tensor_eq_true; [have 4%nat|have 0%nat|have 4%nat|congruence|].
      intros ix _. cbv beta. cbn [sadd Zsc]. lia. }
    apply runs_ret_bind. cbn [andb]. apply runs_forget. unfold forget. cbn [map fst]. apply K.
  Qed.

  (** The gradient of the sum predicts the sum of the moved operands, for every
      length, seed and number of rounds. *)
  Theorem C97_affine_grad : forall n seed rounds s, 0 <= n -> fresh_ok s ->
    ends (test_affine_grad dt n seed rounds) s (Ret true).
  Proof using.
    intros n seed rounds s Hn F. apply (runs_ends dt); [exact F|]. unfold test_affine_grad.
    new_local x Ex. new_local y Ey. new_local z Ez. new_local x1 Ex1. new_local y1 Ey1. new_local z1 Ez1.
    new_local dx Edx. new_local dy Edy. new_local dz Edz.
    generalize (zrange rounds). intros l. revert seed. induction l as [|a l IH]; intros seed; cbn [foldM].
    - apply runs_ret_bind. apply runs_ret.
    - apply runs_assoc. apply runs_assoc. cbn [snd]. apply affine_round_passes; [exact Hn|repeat constructor; auto|].
      intros seed'. apply runs_ret_bind. cbn [fst snd andb map]. apply IH.
  Qed.

  (** *** Window positions. *)
  Lemma count_total : forall {A} (f : A -> Z) (l : list A) n, (forall a, In a l -> 0 <= f a < n) ->
    sum_over Zsc (zrange n) (fun i => Z.of_nat (length (List.filter (fun a => f a =? i) l))) = Z.of_nat (length l).
  Proof using.
    intros A f l n. induction l as [|a l IH]; intros H.
    - cbn [List.filter length]. rewrite sum_const. lia.
    - assert (G : sum_over Zsc (zrange n) (fun i => Z.of_nat (length (List.filter (fun b => f b =? i) (a :: l))))
        = sum_over Zsc (zrange n) (fun i => if f a =? i then 1 else 0)
          + sum_over Zsc (zrange n) (fun i => Z.of_nat (length (List.filter (fun b => f b =? i) l)))).
      { change Z.add with (sadd Zsc). rewrite <- (sum_add Zsc Zsc_laws). apply sum_over_ext. intros i _. cbn [List.filter sadd Zsc].
        destruct (f a =? i); cbn [length]; lia. }
      rewrite G, IH by (intros; apply H; right; auto). cbn [length].
      pose proof (sum_pick Zsc Zsc_laws n (f a) (fun _ => 1)) as P. cbn [s0 Zsc] in P.
      assert (Hf : 0 <= f a < n) by (apply H; left; reflexivity). rewrite P.
      destruct ((0 <=? f a) && (f a <? n)) eqn:B; lia.
  Qed.

  Lemma filter_one : forall (p : list Z -> bool) ds ix, nonneg ds -> valid ds ix -> p ix = true ->
    (forall q, valid ds q -> p q = true -> q = ix) -> length (List.filter p (indices ds)) = 1%nat.
  Proof using.
    intros p ds ix N Vx P U.
    assert (I : In ix (List.filter p (indices ds))) by (apply filter_In; split; [apply in_indices; exact Vx|exact P]).
    assert (D : NoDup (List.filter p (indices ds))) by (apply NoDup_filter, NoDup_indices, N).
    destruct (List.filter p (indices ds)) as [|a [|b l]] eqn:E; [destruct I|reflexivity|exfalso].
    assert (Q : forall q, In q (a :: b :: l) -> q = ix).
    { intros q Iq. rewrite <- E in Iq. apply filter_In in Iq. destruct Iq as [I1 I2]. apply U; [apply in_indices; exact I1|exact I2]. }
    inversion D as [|? ? Na _]; subst. apply Na. left. transitivity ix; [apply Q; right; left; reflexivity|symmetry; apply Q; left; reflexivity].
  Qed.

  (** With [n] the length that [m] windows cover exactly, the test passes: the
      windows are in range, the first tap is the first element, the last tap is
      the last, and both are covered once. *)
  Theorem C97_linear_sample : forall k u r m s, 1 <= k -> 1 <= u -> 1 <= r -> 1 <= m ->
    let n := (m - 1) * u + (k - 1) * r + 1 in
    n < 2 ^ 31 -> fresh_ok s ->
    ends (test_linear_sample dt k u r n m) s (Ret true).
  Proof using.
    intros k u r m s Hk Hu Hr Hm n Bn F. apply (runs_ends dt); [exact F|]. unfold test_linear_sample.
    set (sp := mksample (mkfilter k u r) (mkpadding 0 0)).
    eapply (runs_lift_eq dt _ _ sp).
    { unfold new_sample, new_filter. destruct (Z.ltb_spec k 1), (Z.ltb_spec u 1), (Z.ltb_spec r 1); try lia. reflexivity. }
    assert (Vc : valid_config k u r 0 0 n m) by (unfold valid_config, span, n; split; [lia|ring]).
    assert (Hn : 1 <= n) by (unfold n; nia).
    assert (Sp : 1 <= span k r <= n) by (unfold span, n; nia).
    assert (El : sample_len I32 sp n = Ret m).
    { destruct (sample_len_i32 k u r 0 0 n) as [Q _]; try lia. apply Q; exact Vc. }
    eapply (runs_lift_eq dt _ _ m); [exact El|].
    assert (Ps : forall j t, 0 <= j < m -> 0 <= t < k -> sample_pos I32 sp j t = Ret (tap u r j t) /\ 0 <= tap u r j t < n).
    { intros j t Hj Ht. pose proof (sample_taps I32 k u r 0 0 n m) as Q. cbn [Z.add] in Q.
      destruct (Q ltac:(lia) ltac:(lia) ltac:(lia) ltac:(lia) ltac:(lia) ltac:(lia) ltac:(unfold fits; lia) ltac:(unfold fits; lia) El j t Hj Ht) as [Q1 Q2].
      split; [exact Q1|lia]. }
    eapply (runs_lift_eq dt _ _ 0). { rewrite (proj1 (Ps 0 0 ltac:(lia) ltac:(lia))). reflexivity. }
    eapply (runs_lift_eq dt _ _ (n - 1)).
    { rewrite (proj1 (Ps (m - 1) (k - 1) ltac:(lia) ltac:(lia))). f_equal. unfold tap, n. ring. }
    cbv zeta. rewrite !Z.eqb_refl. cbn [andb].
    new_local x Ex.
    eapply (runs_write _ _ 0); [reflexivity|intros s1 H; apply fill_w; have 0%nat|]. cbn [update].
    pose (C := fun ix : list Z => Z.of_nat (length (List.filter (arg2 (fun j t => tap u r j t =? nth 0 ix 0)) (indices [m; k])))).
    eapply (runs_write _ _ 0 _ _ C); [reflexivity|intros s1 H|].
    { eapply writes_ext; [symmetry; apply for_nest2| |].
      2: apply (accum_writes dt x (indices [m; k]) _ (arg2 (fun j t => Some [tap u r j t])) (fun _ v => v + 1) (fun _ => 0) s1);
           [have 0%nat|have 0%nat| |].
      - intros ix Hix. rewrite Ex in Hix. apply valid_1 in Hix. destruct Hix as (i & -> & Hi). unfold C.
        assert (G : forall (l : list (list Z)) a, fold_left (fun v _ => v + 1) l a = a + Z.of_nat (length l)).
        { induction l as [|q l IH]; intros a; [cbn; lia|]. cbn [fold_left length]. rewrite IH. lia. }
        rewrite G. cbn [Z.add]. do 2 f_equal. apply filter_ext_in. intros ix _. unfold arg2. cbn [hits nth].
        destruct (Z.eqb_spec (tap u r (nth 0 ix 0) (nth 1 ix 0)) i) as [->|Ne]; [apply ix_eqb_true; reflexivity|].
        apply not_true_is_false. rewrite ix_eqb_true. congruence.
      - intros a ix Ia Ea. apply in_indices, valid_2 in Ia. destruct Ia as (j & t & -> & Hj & Ht). unfold arg2 in Ea. cbn [nth] in Ea.
        injection Ea as <-. rewrite Ex. cbn [valid]. destruct (Ps j t Hj Ht). auto.
      - intros a s' Ia Ns Fr. apply in_indices, valid_2 in Ia. destruct Ia as (j & t & -> & Hj & Ht). unfold arg2. cbn [nth].
        intros v Hv. destruct (Ps j t Hj Ht) as [Q1 Q2]. rewrite Q1. unfold lift. rewrite bind_ret_l.
        replace (daddr x (tap u r j t)) with (addr x [tap u r j t]) by (unfold addr; rewrite Ex; cbn [offset]; f_equal; cbn; lia).
        erewrite bind_ok; [|apply load_ok; exact Hv]. apply store_ok. rewrite Hv. discriminate. }
    cbn [update].
    eapply (runs_look dt); [intros s1 H; eapply s_sum_ok; have 0%nat|].
    eapply (runs_look dt); [intros s1 H; eapply (load_at dt s1 x); [have 0%nat|have 0%nat|unfold size; rewrite Ex; cbn [prod]; lia]|].
    eapply (runs_look dt); [intros s1 H; eapply (load_at dt s1 x); [have 0%nat|have 0%nat|unfold size; rewrite Ex; cbn [prod]; lia]|].
    apply runs_ret_eq. rewrite Ex.
    assert (X1 : forall i, 0 <= i < n -> expand [n] i = [i]).
    { intros i Hi. apply (offset_inj [n]); [apply valid_expand; [repeat constructor; lia|cbn [prod]; lia]|cbn [valid]; lia|].
      rewrite offset_expand; [cbn; lia|repeat constructor; lia|cbn [prod]; lia]. }
    rewrite !X1 by lia.
    assert (Tot : sum_over Zsc (indices [n]) C = m * k).
    { rewrite (sum_indices_cons Zsc Zsc_laws). unfold C. cbn [nth].
      rewrite (sum_over_ext Zsc (zrange n) _ (fun i => Z.of_nat (length (List.filter (fun a => arg2 (tap u r) a =? i) (indices [m; k]))))).
      2: { intros i _. rewrite (sum_indices_nil Zsc Zsc_laws). reflexivity. }
      rewrite (count_total (arg2 (tap u r))).
      - rewrite <- (map_length (offset [m; k])), map_offset_indices by (repeat constructor; lia). rewrite length_zrange. cbn [prod]. nia.
      - intros a Ia. apply in_indices, valid_2 in Ia. destruct Ia as (j & t & -> & Hj & Ht). unfold arg2. cbn [nth]. destruct (Ps j t Hj Ht). auto. }
    rewrite Tot, Z.eqb_refl. cbn [andb].
    assert (C0 : C [0] = 1).
    { unfold C. rewrite (filter_one _ [m; k] [0; 0]); [reflexivity|repeat constructor; lia|cbn [valid]; lia|unfold arg2, tap; cbn [nth]; lia|].
      intros q Vq E. apply valid_2 in Vq. destruct Vq as (j & t & -> & Hj & Ht). unfold arg2, tap in E. cbn [nth] in E.
      apply Z.eqb_eq in E. assert (j = 0) by nia. assert (t = 0) by nia. subst. reflexivity. }
    assert (C1 : C [n - 1] = 1).
    { unfold C. rewrite (filter_one _ [m; k] [m - 1; k - 1]); [reflexivity|repeat constructor; lia|cbn [valid]; lia|unfold arg2, tap, n; cbn [nth]; lia|].
      intros q Vq E. apply valid_2 in Vq. destruct Vq as (j & t & -> & Hj & Ht). unfold arg2, tap, n in E. cbn [nth] in E.
      apply Z.eqb_eq in E. assert (j = m - 1) by nia. assert (t = k - 1) by nia. subst. reflexivity. }
    rewrite C0, C1. reflexivity.
  Qed.

  (** *** Row and column sums. *)
  Lemma sum_affine : forall n a b, 0 <= n -> 2 * sum_over Zsc (zrange n) (fun j => a + b * j) = n * (2 * a + b * (n - 1)).
  Proof using.
    intros n a b. revert n. refine (Z_nonneg_ind _ _ _); [reflexivity|]. intros n Hn IH.
    unfold sum_over in *. rewrite zrange_succ, fold_left_app by lia. cbn [fold_left sadd Zsc] in *. nia.
  Qed.

  (** The contractions of the matrix 0, 1, 2, ... have the sums of arithmetic
      progressions as their elements. *)
  Theorem C97_reduce : forall m n rows cols s, 0 <= m -> 0 <= n ->
    (forall i, 0 <= i < m -> 2 * rows i = n * (2 * (n * i) + (n - 1))) ->
    (forall j, 0 <= j < n -> 2 * cols j = m * (2 * j + n * (m - 1))) -> fresh_ok s ->
    ends (test_reduce dt m n rows cols) s (Ret true).
  Proof using.
    intros m n rows cols s Hm Hn Hr Hc F. apply (runs_ends dt); [exact F|]. unfold test_reduce.
    new_local x Ex.
    eapply (runs_write _ _ 0); [reflexivity|intros s1 H; apply iota_w; have 0%nat|]. cbn [update].
    new_local y Ey. new_local z Ez.
    eapply (runs_write _ _ 1); [reflexivity|intros s1 H; eapply (inner_contraction_writes dt Zsc y x m n); auto;
      [have 2%nat|have 1%nat|apart 1%nat 2%nat]|]. cbn [update].
    assert (X1 : forall d i, 0 <= i < d -> expand [d] i = [i]).
    { intros d i Hi. apply (offset_inj [d]); [apply valid_expand; [repeat constructor; lia|cbn [prod]; lia]|cbn [valid]; lia|].
      rewrite offset_expand; [cbn; lia|repeat constructor; lia|cbn [prod]; lia]. }
    eapply (runs_look dt _ _ _ true).
    { intros s1 H. eapply assert_data_true; [have 1%nat|have 1%nat|]. intros o Ho. unfold size in Ho. rewrite Ey in *. cbn [prod] in Ho.
      rewrite X1 by lia. unfold arg1. cbn [nth]. rewrite Ex.
      rewrite (sum_over_ext Zsc _ _ (fun j => n * o + 1 * j)) by (intros j _; cbn [offset prod]; ring).
      pose proof (sum_affine n (n * o) 1 Hn). specialize (Hr o ltac:(lia)). nia. }
    eapply (runs_write _ _ 0); [reflexivity|intros s1 H; eapply (outter_contraction_writes dt Zsc z x m [n]); auto;
      [have 0%nat|have 2%nat|have 0%nat|apart 0%nat 2%nat]|]. cbn [update].
    eapply (runs_look dt _ _ _ true); [|apply runs_ret].
    intros s1 H. eapply assert_data_true; [have 0%nat|have 0%nat|]. intros o Ho. unfold size in Ho. rewrite Ez in *. cbn [prod] in Ho.
    rewrite X1 by lia. rewrite Ex.
    rewrite (sum_over_ext Zsc _ _ (fun i => o + n * i)) by (intros i _; cbn [offset prod]; ring).
    pose proof (sum_affine m o n Hm). specialize (Hc o ltac:(lia)). nia.
  Qed.
End Tests.

(** *** The suite at the repository's own sizes, from any memory. *)
Section Suite.
  Context {V : Type} (dt : dtype V Z) (s : st V) (F : fresh_ok s).

  Example C97_suite :
    ends (test_mm dt 10 100 1000) s (Ret true) /\ ends (test_mmt dt 1000 10 100) s (Ret true) /\
    ends (test_mtm dt 7 5 3) s (Ret true) /\ ends (test_mv dt 2 3) s (Ret true) /\ ends (test_vm dt 3 2) s (Ret true) /\
    ends (test_matmul dt Builtin 100 10 1000) s (Ret true) /\
    ends (test_add dt 10 100 100 3) s (Ret true) /\
    ends (test_apply_bias dt nhwc (f_add Zsc) [10; 99; 101; 3] 3 2 3 5) s (Ret true) /\
    ends (test_apply_bias dt nchw (f_mul Zsc) [10; 3; 99; 101] 3 2 3 6) s (Ret true) /\
    ends (test_axpy dt 10 2 3 4) s (Ret true) /\
    ends (test_transpose dt 2 3 4 5) s (Ret true) /\
    ends (test_concat_nhwc dt 10 8 8 3 4 5) s (Ret true) /\ ends (test_concat_nchw dt 10 8 8 3 4) s (Ret true) /\
    ends (test_flatten dt [2; 2]%nat [10; 28; 28; 3]) s (Ret true) /\
    ends (test_col2im1d dt 1 9 3 1 1) s (Ret true) /\ ends (test_conv1d dt 1 9 3 1 3) s (Ret true) /\
    ends (test_affine_grad dt 10 1 3) s (Ret true) /\
    ends (test_linear_sample dt 3 7 4 30 4) s (Ret true) /\
    ends (test_reduce dt 4 3 (fun i => nth (Z.to_nat i) [3; 12; 21; 30] 0) (fun j => nth (Z.to_nat j) [18; 22; 26] 0)) s (Ret true).
  Proof using F.
    split; [apply C97_mm; auto; lia|]. split; [apply C97_mmt; auto; lia|]. split; [apply C97_mtm; auto; lia|].
    split; [apply C97_mv; auto; lia|]. split; [apply C97_vm; auto; lia|].
    split; [apply C97_matmul; [exact I|lia|lia|lia|exact F]|].
    split; [apply C97_add; auto; lia|].
    assert (B1 : bias_layout nhwc 4 3) by (unfold bias_layout; tauto).
    assert (B2 : bias_layout nchw 4 1) by (unfold bias_layout; tauto).
    split; [exact (proj1 (C97_bias dt nhwc 4 3 [10; 99; 101; 3] 3 2 3 s B1 eq_refl eq_refl ltac:(repeat constructor; lia) ltac:(lia) F))|].
    split; [exact (proj2 (C97_bias dt nchw 4 1 [10; 3; 99; 101] 3 2 3 s B2 eq_refl eq_refl ltac:(repeat constructor; lia) ltac:(lia) F))|].
    split; [apply (C97_axpy dt 10 2 3 4); auto; lia|].
    split; [apply C97_transpose; auto; lia|].
    split; [apply C97_concat_nhwc; auto; lia|]. split; [apply C97_concat_nchw; auto; lia|].
    split; [apply C97_flatten; [reflexivity|repeat constructor; lia|exact F]|].
    split; [apply (C97_col2im1d dt 1 9 3 1 1 9); auto; try lia; split; [lia|reflexivity]|].
    split; [apply (C97_conv1d dt 1 9 3 1 3 5); auto; try lia; split; [lia|reflexivity]|].
    split; [apply C97_affine_grad; auto; lia|].
    split; [apply (C97_linear_sample dt 3 7 4 4); auto; lia|].
    apply C97_reduce; auto; try lia.
    - intros i Hi. assert (C : i = 0 \/ i = 1 \/ i = 2 \/ i = 3) by lia. destruct C as [-> | [-> | [-> | -> ] ] ]; reflexivity.
    - intros i Hi. assert (C : i = 0 \/ i = 1 \/ i = 2) by lia. destruct C as [-> | [-> | -> ] ]; reflexivity.
  Qed.
End Suite.

(** The tests compute, and they can fail: a wrong expected value, a product of
    the wrong kind, a window that does not fit. *)
Definition verdict {V A} (m : M V A) (s : st V) : outcome A :=
  match m s with Ok a _ => Ret a | Throw e _ => Exn e | UB => Undef end.

Example C97_can_fail :
  let s := demo [[7; 7]] in
  verdict (test_mm zt 2 3 4) s = Ret true /\ verdict (test_product zt (mm zt Zsc) [2; 3] [3; 4] [2; 4] 2) s = Ret false /\
  verdict (test_transpose zt 2 3 1 2) s = Ret true /\ verdict (test_apply_bias zt nhwc (f_add Zsc) [1; 2; 2; 3] 3 2 3 6) s = Ret false /\
  verdict (test_affine_grad zt 3 1 2) s = Ret true /\ verdict (test_linear_sample zt 3 7 4 30 4) s = Ret true /\
  verdict (test_linear_sample zt 3 7 4 31 4) s = Exn InvalidArgument /\
  verdict (test_col2im1d zt 1 9 3 1 1) s = Ret true /\ verdict (test_conv1d zt 1 9 3 1 2) s = Ret true /\
  verdict (test_conv1d zt 1 9 3 2 3) s = Ret true /\ verdict (test_conv1d zt 0 9 3 3 1) s = Ret true /\ verdict (test_conv1d zt 0 9 3 4 1) s = Exn InvalidArgument /\
  verdict (test_reduce zt 4 3 (fun i => 9 * i + 3) (fun j => 4 * j + 18)) s = Ret true /\
  verdict (test_reduce zt 4 3 (fun i => 9 * i + 3) (fun j => 4 * j + 17)) s = Ret false.
Proof. vm_compute. repeat split; reflexivity. Qed.

Print Assumptions C97_mm.
Print Assumptions C97_mmt.
Print Assumptions C97_mtm.
Print Assumptions C97_mv.
Print Assumptions C97_vm.
Print Assumptions C97_matmul.
Print Assumptions C97_add.
Print Assumptions C97_bias.
Print Assumptions C97_axpy.
Print Assumptions C97_transpose.
Print Assumptions C97_concat_nchw.
Print Assumptions C97_concat_nhwc.
Print Assumptions C97_flatten.
Print Assumptions C97_col2im1d.
Print Assumptions C97_conv1d.
Print Assumptions C97_affine_grad.
Print Assumptions C97_linear_sample.
Print Assumptions C97_reduce.
