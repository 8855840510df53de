(** Properties C62, C63, C72, C73, C74, continued: padding policies in layers,
    leaks, other layers, default initialisers, fused softmax. *)
From Coq Require Import ZArith List Bool Lia Permutation QArith Reals Lra.
From Verif Require Import Base BaseFacts TensorFacts ActivationFacts Traits TraitsSpec TraitsFacts PropsTraits Scalar Demo LinAlg Conv ConvSpec
  ConvFacts ConvGradFacts PropsConv Elem ElemSpec ElemFacts PropsElem RealScalar PropsNorm Activation ActivationSpec SoftmaxFacts PropsSoftmax
  Pool PoolSpec PoolFacts PropsPool Io PropsIo Layers LayersSpec LayersFacts LayerCalls PropsLayers.
Import ListNotations.
Open Scope Z_scope.
Open Scope model_scope.

(** *** C62: the padding policies satisfy the hypotheses of the convolution
    layer theorems. *)
Lemma len_axis : forall k s r pl pr n m, 1 <= k -> 1 <= s -> 1 <= r -> 0 <= pl -> 0 <= pr -> 0 <= n ->
  pl + n + pr < 2 ^ 32 -> span k r < 2 ^ 32 ->
  (forall sp, new_sample k s r pl pr = Ret sp -> sample_len U32 sp n = Ret m) ->
  axis_ok (mksample (mkfilter k s r) (mkpadding pl pr)) n m.
Proof.
  intros k s r pl pr n m Hk Hs Hr Hl Hp Hn F Fs HS.
  assert (E : new_sample k s r pl pr = Ret (mksample (mkfilter k s r) (mkpadding pl pr))) by (apply new_sample_iff; auto).
  destruct (lconv_len_iff (mklconv (mkpadding pl pr) s r) n k) as [H _].
  { unfold ConvGradFacts.axis_fits. cbn. auto. }
  apply (H m). unfold lconv_len, lconv_sample. cbn [lpad lstride lrate left_ right_]. rewrite E. cbn [obind]. apply HS, E.
Qed.

(** Stride 1 with padding same keeps the image size. *)
Theorem C62_same_padding : forall k r n, 1 <= k -> 1 <= r -> 1 <= n -> n + span k r < 2 ^ 32 ->
  exists p, padding_same U32 k 1 r n = Ret p /\ axis_ok (mksample (mkfilter k 1 r) p) n n.
Proof.
  intros k r n Hk Hr Hn F. pose proof (span_pos k r Hk Hr) as Hp. pose proof (Z.mod_1_r n) as M.
  destruct (C05_same_padding U32 k 1 r n) as [_ H]; cbn [fits]; try lia.
  destruct H as (pl & pr & E & B1 & B2 & HS); [lia|]. exists (mkpadding pl pr). split; [exact E|].
  assert (P : pl + pr = span k r - 1).
  { unfold padding_same in E. rewrite same_padding_val in E by (cbn [fits]; lia). cbv zeta in E. rewrite M in E.
    destruct (span k r <? 1 + 0); [discriminate|].
    assert (pl = (span k r - 1 - 0) / 2 /\ pr = (span k r - 1 - 0) - (span k r - 1 - 0) / 2) by (split; congruence). lia. }
  apply len_axis; try lia. intros sp Es. destruct (HS sp Es) as (_ & Q & _). apply Q; lia.
Qed.

(** Padding valid accepts every image at least as large as the window; the
    output has ceil((n - span) / s) + 1 positions. *)
Theorem C62_valid_padding : forall k s r n, 1 <= k -> 1 <= s -> 1 <= r -> span k r <= n -> n + s < 2 ^ 32 ->
  exists p, padding_valid U32 k s r n = Ret p /\
    axis_ok (mksample (mkfilter k s r) p) n ((n - span k r + (s - 1)) / s + 1).
Proof.
  intros k s r n Hk Hs Hr Hn F. pose proof (span_pos k r Hk Hr) as Hp.
  destruct (C04_valid_padding U32 k s r n) as (p & pl & pr & E & Ep & B1 & B2 & B3 & _ & _ & HS); cbn [fits]; try lia.
  exists (mkpadding pl pr). split; [exact E|]. apply len_axis; try lia. intros sp Es. apply HS; auto.
Qed.

(** A dense layer with relu on a 2 x 2 input; a convolution with padding same. *)
Definition init_with (f : Z -> Z) (t : tensor) : M Z unit :=
  for_ (zrange (size t)) (fun i => store zt (daddr t i) (f i)).

Definition show {V A} (r : res V A) (f : A -> list tensor) : option (list (list Z * list (cell V))) :=
  match r with
  | Ok a s => Some (map (fun t => (tdims t, map (fun i => cells s (daddr t i)) (zrange (size t)))) (f a))
  | _ => None
  end.

Example C62_example :
  show (dense zt Zsc Builtin (op_relu zt Zsc) 2 (init_with (fun i => i - 1)) (init_with (fun i => 10 * i))
          (T_ 0 [2; 2]) (demo [[1; 2; 3; 4]])) owned
  = Some [([2; 2], inits [1; 14; 1; 18]); ([2; 2], inits [-1; 0; 1; 2]); ([2], inits [0; 10])] /\
  show (conv_bias_layer zt zt Zsc Builtin nhwc noop2 (new_conf 1 3 3 (padding_same U32) 1 1 1 1)
          (init_with (fun _ => 1)) (init_with (fun _ => 100)) (T_ 0 [1; 2; 2; 1]) (demo [[1; 2; 3; 4]])) owned
  = Some [([1; 2; 2; 1], inits [110; 110; 110; 110]); ([3; 3; 1; 1], inits [1; 1; 1; 1; 1; 1; 1; 1; 1]); ([1], inits [100])].
Proof. vm_compute. auto. Qed.

Example C61_example :
  show (sequential (identity_layer zt)
          [dense zt Zsc Builtin noop2 2 (init_with (fun i => i)) (init_with (fun _ => 1));
           activation (op_relu zt Zsc);
           dense zt Zsc Builtin noop2 1 (init_with (fun i => i + 1)) (init_with (fun _ => -5))]
          (T_ 0 [1; 2]) (demo [[1; 2]])) owned
  = Some [([1; 1], inits [16]); ([2; 1], inits [1; 2]); ([1], inits [-5])].
Proof. vm_compute. reflexivity. Qed.

(** *** C63: leaks. *)

(** A layer that was created and destroyed leaves memory as it was. *)
Theorem C63_released : forall V T (dt : dtype V T) m s Y Ws l s', fresh_ok s ->
  creates dt m s Y Ws -> m s = Ok l s' -> forall p, cells (destroy l s') p = cells s p.
Proof.
  intros V T dt m s Y Ws l s' F (l' & s1 & E & G & _) E' p. assert (l' = l /\ s1 = s') as [-> ->] by (split; congruence).
  apply grown_release_all; auto.
Qed.

Section Leaks.
  Context {V T : Type} (dt : dtype V T) (di : dtype V Z) (sc : scalar T).

  Lemma bind_throw : forall A B (m : M V A) (k : A -> M V B) s e s', m s = Throw e s' -> (x <- m ;; k x) s = Throw e s'.
  Proof using. intros A B m k s e s' E. unfold bind. rewrite E. reflexivity. Qed.

  (** dense: a failing weight initialiser loses the weight matrix, a failing
      bias initialiser all three tensors. *)
  Theorem C63_dense_weight : forall e act logits w_init b_init m l s x X ex,
    0 <= logits < 2 ^ 32 -> input dt s x ([m; l], X) -> init_fails w_init [l; logits] ex ->
    leaks (dense dt sc e act logits w_init b_init x) s ex [[l; logits]].
  Proof using.
    intros e act logits w_init b_init m l s x X ex Hl (F & _ & Ex & _) HW. cbn [fst] in Ex.
    destruct (new_then_throws s s [] [l; logits] ex w_init) as (w & s1 & E1 & G1 & D1); [apply grown_nil; auto|auto|].
    exists [w], s1. split; [|split; [exact G1|cbn; congruence]].
    unfold dense, nth_dim. rewrite Ex, to_u32_id by auto. cbn [nth]. apply bind_throw. exact E1.
  Qed.

  Theorem C63_dense_bias : forall e act logits w_init b_init m l W s x X ex,
    0 <= logits < 2 ^ 32 -> engine_ok sc e [m; l; logits] -> input dt s x ([m; l], X) ->
    fills dt w_init [l; logits] W -> init_fails b_init [logits] ex ->
    leaks (dense dt sc e act logits w_init b_init x) s ex [[logits]; [m; logits]; [l; logits]].
  Proof using.
    intros e act logits w_init b_init m l W s x X ex Hl He I HW HB.
    pose proof (input_mapped dt s x _ I) as Mx. destruct I as (Fr & N & Ex & HX). cbn [fst snd] in *.
    inversion N as [|? ? Hm N']; subst. inversion N' as [|? ? Hl' _]; subst.
    destruct (param dt s s [] [l; logits] W w_init) as (w & s1 & E1 & G1 & Dw & Hw & Bw & C1);
      [apply grown_nil; auto|apply nonneg2; lia|auto|].
    destruct (new_then dt s s1 [w] [m; logits] (matmul_fn sc l X W) (fun y => op_matmul dt sc e y x w))
      as (y & s2 & E2 & G2 & Dy & Hy & By & C2); [auto|apply nonneg2; lia| |].
    { intros s2 y Bn. pose proof (grown_born s s1 s2 [w] y _ G1 Bn) as G.
      destruct Bn as (B1 & B2 & B3 & B4 & B5 & B6 & B7 & _).
      apply (C26_matmul dt sc e y x w m l logits X W s2); auto; try lia.
      - apply (grown_holds dt s s2 [y; w] x X); auto.
      - apply (keep dt s s1 s2 [w] w W); auto. left; auto.
      - apply (grown_disjoint s s2 [y; w] x y); auto. left; auto.
      - apply blk_disjoint. apply (later s s1 [w] w y); auto. left; auto. }
    assert (E2' : new_result (matmul_shape [m; l] [l; logits]) (fun y => op_matmul dt sc e y x w) s1 = Ok y s2).
    { unfold new_result, matmul_shape. cbn [nth]. rewrite Z.eqb_refl. exact E2. }
    destruct (new_then_throws s s2 [y; w] [logits] ex b_init) as (b & s3 & E3 & G3 & D3); [auto|auto|].
    exists [b; y; w], s3. split; [|split; [exact G3|cbn; congruence]].
    unfold dense, nth_dim. rewrite to_u32_id by auto. rewrite Ex. cbn [nth].
    rewrite (bind_ok _ _ _ _ _ E1), (bind_ok _ _ _ _ _ E2'). apply bind_throw. exact E3.
  Qed.

  (** Convolution layers: the weight initialiser; a geometry the policy or the
      shape inference rejects (the weights exist already); the bias initialiser. *)
  Theorem C63_conv_weight : forall e io act c w_init b_init xd s x X ex,
    input dt s x (xd, X) -> let wd := wd_of io c xd in init_fails w_init wd ex ->
    leaks (conv_layer dt di sc e io act c w_init x) s ex [wd] /\
    leaks (conv_bias_layer dt di sc e io act c w_init b_init x) s ex [wd].
  Proof using.
    intros e io act c w_init b_init xd s x X ex (F & _ & Ex & _) wd HW. cbn [fst] in Ex.
    destruct (new_then_throws s s [] wd ex w_init) as (w & s1 & E1 & G1 & D1); [apply grown_nil; auto|auto|].
    assert (E : conv_start dt di sc e io c w_init x s = Throw ex s1).
    { unfold conv_start. rewrite Ex. cbv zeta. apply bind_throw. exact E1. }
    split; exists [w], s1; (split; [apply bind_throw; exact E|split; [exact G1|cbn; congruence]]).
  Qed.

  Theorem C63_conv_shape : forall e io act c w_init b_init xd W s x X ex,
    input dt s x (xd, X) -> let wd := wd_of io c xd in
    Forall (fun d => 0 <= d) wd -> fills dt w_init wd W ->
    (conf_trait c (image_shape io xd) = Exn ex \/
     exists C, conf_trait c (image_shape io xd) = Ret C /\ conv_infer C io (filter_of io) xd wd = Exn ex) ->
    leaks (conv_layer dt di sc e io act c w_init x) s ex [wd] /\
    leaks (conv_bias_layer dt di sc e io act c w_init b_init x) s ex [wd].
  Proof using.
    intros e io act c w_init b_init xd W s x X ex (F & _ & Ex & _) wd N HW HC. cbn [fst] in Ex.
    destruct (param dt s s [] wd W w_init) as (w & s1 & E1 & G1 & Dw & Hw & Bw & C1); [apply grown_nil; auto|auto|auto|].
    assert (E : conv_start dt di sc e io c w_init x s = Throw ex s1).
    { unfold conv_start. rewrite Ex. cbv zeta. fold (wd_of io c xd). fold wd. rewrite (bind_ok _ _ _ _ _ E1).
      destruct HC as [HC|(C & HC & HI)]; rewrite HC; cbn [lift]; [reflexivity|]. rewrite bind_ret_l, HI. reflexivity. }
    split; exists [w], s1; (split; [apply bind_throw; exact E|split; [exact G1|cbn; congruence]]).
  Qed.

  Theorem C63_conv_bias : forall e io act c C w_init b_init xd ds W Y s x X ex,
    input dt s x (xd, X) -> let wd := wd_of io c xd in
    Forall (fun d => 0 <= d) wd -> Forall (fun d => 0 <= d) ds ->
    conf_trait c (image_shape io xd) = Ret C -> conv_infer C io (filter_of io) xd wd = Ret ds ->
    fills dt w_init wd W -> init_fails b_init [c_filters c] ex ->
    (forall s2 w y, fresh_ok s2 -> holds dt s2 x X -> holds dt s2 w W -> tdims w = wd -> tdims y = ds -> mapped s2 y ->
       disjoint y x -> disjoint y w -> writes dt (op_conv dt di sc io e C y x w) s2 y Y) ->
    leaks (conv_bias_layer dt di sc e io act c w_init b_init x) s ex [[c_filters c]; ds; wd].
  Proof using.
    intros e io act c C w_init b_init xd ds W Y s x X ex I wd Nw Nd EC EI HW HB Hop.
    destruct (conv_start_ok dt di sc e io c C w_init ds W Y s x X xd I Nw Nd EC EI HW Hop)
      as (w & y & s2 & E2 & G2 & Dw & Dy & Hw & Hy).
    destruct (new_then_throws s s2 [y; w] [c_filters c] ex b_init) as (b & s3 & E3 & G3 & D3); [auto|auto|].
    exists [b; y; w], s3. split; [|split; [exact G3|cbn; unfold wd; congruence]].
    unfold conv_bias_layer. rewrite (bind_ok _ _ _ _ _ E2). apply bind_throw. exact E3.
  Qed.

  (** Pooling layers whose geometry is rejected lose nothing. *)
  Theorem C63_pool_shape : forall A io c xd s x X ex,
    input dt s x (xd, X) ->
    (pconf_trait c (image_shape io xd) = Exn ex \/
     exists P, pconf_trait c (image_shape io xd) = Ret P /\ pooled_shape io P xd = Exn ex) ->
    leaks (pool_layer dt A io c x) s ex [].
  Proof using.
    intros A io c xd s x X ex (F & _ & Ex & _) HC. cbn [fst] in Ex. exists [], s.
    split; [|split; [apply grown_nil; auto|reflexivity]]. unfold pool_layer. rewrite Ex.
    destruct HC as [HC|(P & HC & HI)]; rewrite HC; cbn [lift]; [reflexivity|]. rewrite bind_ret_l, HI. reflexivity.
  Qed.
End Leaks.

Lemma demo_fresh : forall V (l : list (list V)), fresh_ok (demo l).
Proof.
  intros V l p Hp. cbn in *. unfold znth. destruct (fst p <? 0); [reflexivity|].
  assert (E : nth_error l (Z.to_nat (fst p)) = None) by (apply nth_error_None; lia). rewrite E. reflexivity.
Qed.

(** So "a failing call releases what it allocated" is false: loading the
    weights of a layer from a missing file. *)
Theorem C63_refuted : exists (s : st Z) x e s',
  fresh_ok s /\
  dense zt Zsc Builtin noop2 3 (op_readfile zt u16 11 (fun _ => None) [102]) noop1 x s = Throw e s' /\
  exists p, cells s p = Unmapped /\ cells s' p <> Unmapped.
Proof.
  exists (demo [[1; 2]]), (T_ 0 [1; 2]), RuntimeError. eexists. split; [apply demo_fresh|]. split; [reflexivity|].
  exists (1, 0). vm_compute. split; [reflexivity|discriminate].
Qed.

Example C63_example :
  match sequential (identity_layer zt)
          [dense zt Zsc Builtin noop2 2 (init_with (fun i => i)) (init_with (fun _ => 1));
           dense zt Zsc Builtin noop2 3 (init_with (fun i => i)) (fun _ => throw RuntimeError)]
          (T_ 0 [1; 2]) (demo [[1; 2]]) with
  | Throw e s' => map (fun b => match cells s' (b, 0) with Unmapped => false | _ => true end) (zrange 10)
  | _ => []
  end = [true; false; false; false; false; true; true; true; false; false].
Proof. vm_compute. reflexivity. Qed.

(** *** C72: batch normalisation, pooling, activation and identity layers. *)
Section Others.
  Context {V T : Type} (dt : dtype V T) (sc : scalar T).

  Theorem C72_batch_norm : forall io p norm act mi vi bi gi xd c Mu Va Be Ga Y F s x X,
    bn_axis io p -> length xd = 4%nat -> nth p xd 0 = c ->
    fills dt mi [c] Mu -> fills dt vi [c] Va -> fills dt bi [c] Be -> fills dt gi [c] Ga -> acts dt act xd F ->
    input dt s x (xd, X) ->
    (forall ix, valid xd ix -> norm (X ix) (Mu [nth p ix 0]) (Va [nth p ix 0]) = Ret (Y ix)) ->
    creates dt (bn_layer dt sc io norm act mi vi bi gi x) s
      (xd, F (fun ix => sadd sc (smul sc (Y ix) (Ga [nth p ix 0])) (Be [nth p ix 0])))
      [([c], Mu); ([c], Va); ([c], Be); ([c], Ga)].
  Proof using.
    intros io p norm act mi vi bi gi xd c Mu Va Be Ga Y F s x X A Len Ec H1 H2 H3 H4 HF I HY.
    pose proof (input_mapped dt s x _ I) as Mx. destruct I as (Fr & N & Ex & HX). cbn [fst snd] in *.
    assert (Hc : 0 <= c).
    { rewrite <- Ec. destruct (nth_in_or_default p xd 0) as [Q|Q]; [|lia]. rewrite Forall_forall in N. apply N, Q. }
    assert (Nc : Forall (fun d => 0 <= d) [c]) by (repeat constructor; lia).
    assert (P : channel_size io xd = c) by (destruct A as [[-> ->] | [-> ->]]; exact Ec).
    destruct (param dt s s [] [c] Mu mi) as (t1 & s1 & E1 & G1 & D1 & V1 & B1 & C1); [apply grown_nil; auto|auto|auto|].
    destruct (param dt s s1 [t1] [c] Va vi) as (t2 & s2 & E2 & G2 & D2 & V2 & B2 & C2); [auto|auto|auto|].
    assert (V12 : holds dt s2 t1 Mu) by (apply (keep dt s s1 s2 [t1] t1); cbn; auto).
    destruct (param dt s s2 [t2; t1] [c] Be bi) as (t3 & s3 & E3 & G3 & D3 & V3 & B3 & C3); [auto|auto|auto|].
    assert (V13 : holds dt s3 t1 Mu) by (apply (keep dt s s2 s3 [t2; t1] t1); cbn; auto).
    assert (V23 : holds dt s3 t2 Va) by (apply (keep dt s s2 s3 [t2; t1] t2); cbn; auto).
    destruct (param dt s s3 [t3; t2; t1] [c] Ga gi) as (t4 & s4 & E4 & G4 & D4 & V4 & B4 & C4); [auto|auto|auto|].
    assert (V14 : holds dt s4 t1 Mu) by (apply (keep dt s s3 s4 [t3; t2; t1] t1); cbn; auto).
    assert (V24 : holds dt s4 t2 Va) by (apply (keep dt s s3 s4 [t3; t2; t1] t2); cbn; auto).
    assert (V34 : holds dt s4 t3 Be) by (apply (keep dt s s3 s4 [t3; t2; t1] t3); cbn; auto).
    set (Yb := fun ix => sadd sc (smul sc (Y ix) (Ga [nth p ix 0])) (Be [nth p ix 0])).
    destruct (new_then dt s s4 [t4; t3; t2; t1] xd Yb (fun y => op_bn_bias dt sc io norm y x t1 t2 t3 t4))
      as (y & s5 & E5 & G5 & Dy & Hy & By & C5); [auto|auto| |].
    { intros s' y Bn. pose proof (grown_born s s4 s' _ y _ G4 Bn) as G.
      destruct Bn as (Q1 & Q2 & Q3 & Q4 & Q5 & Q6 & Q7 & _).
      apply (C32_bn_bias dt sc io p norm y x t1 t2 t3 t4 c X Mu Va Be Ga Y s'); auto; try solve [rewrite Ex; auto].
      - unfold dims_ok. rewrite Ex. exact N.
      - apply (grown_holds dt s s' (y :: [t4; t3; t2; t1]) x X); auto.
      - apply (keep dt s s4 s' [t4; t3; t2; t1] t1); cbn; auto.
      - apply (keep dt s s4 s' [t4; t3; t2; t1] t2); cbn; auto.
      - apply (keep dt s s4 s' [t4; t3; t2; t1] t3); cbn; auto.
      - apply (keep dt s s4 s' [t4; t3; t2; t1] t4); cbn; auto.
      - left. apply (grown_disjoint s s' (y :: [t4; t3; t2; t1]) x y); cbn; auto.
      - apply blk_disjoint. apply (later s s4 [t4; t3; t2; t1] t1 y); cbn; auto 6.
      - apply blk_disjoint. apply (later s s4 [t4; t3; t2; t1] t2 y); cbn; auto 6.
      - apply blk_disjoint. apply (later s s4 [t4; t3; t2; t1] t3 y); cbn; auto 6.
      - apply blk_disjoint. apply (later s s4 [t4; t3; t2; t1] t4 y); cbn; auto 6. }
    destruct (grown_writes dt s s5 [y; t4; t3; t2; t1] y (F Yb) (act y y)) as (s6 & E6 & G6 & H6 & C6); auto;
      [left; auto|rewrite Dy; auto|apply HF; auto; apply G5|].
    exists (mklayer y [t1; t2; t3; t4]), s6. split; [|split; [|split]].
    - unfold bn_layer. rewrite Ex, P. cbv zeta.
      rewrite (bind_ok _ _ _ _ _ E1), (bind_ok _ _ _ _ _ E2), (bind_ok _ _ _ _ _ E3), (bind_ok _ _ _ _ _ E4).
      assert (E5' : new_result (bn_bias_shape io xd [c] [c] [c] [c]) (fun y => op_bn_bias dt sc io norm y x t1 t2 t3 t4) s4 = Ok y s5).
      { unfold new_result, bn_bias_shape. rewrite P. cbn [nth]. rewrite !Z.eqb_refl. exact E5. }
      rewrite (bind_ok _ _ _ _ _ E5'), (bind_ok _ _ _ _ _ E6). reflexivity.
    - eapply grown_perm; [|exact G6]. unfold owned. cbn [output weights]. apply perm_skip. apply (Permutation_rev [t4; t3; t2; t1]).
    - split; auto.
    - assert (K : forall t Q, In t [t4; t3; t2; t1] -> holds dt s4 t Q -> holds dt s6 t Q).
      { intros t Q It Ht. eapply holds_off; [|exact C6|].
        - intros Q'. apply (later s s4 [t4; t3; t2; t1] t y); auto.
        - apply (keep dt s s4 s5 [t4; t3; t2; t1] t); auto. }
      repeat (constructor; [split; [assumption|apply K; cbn; auto 6]|]). constructor.
  Qed.

  Theorem C72_activation : forall act xd Y s x X,
    input dt s x (xd, X) ->
    (forall s2 y, fresh_ok s2 -> holds dt s2 x X -> tdims y = xd -> mapped s2 y -> disjoint y x -> writes dt (act y x) s2 y Y) ->
    creates dt (activation act x) s (xd, Y) [].
  Proof using.
    intros act xd Y s x X I Hop. unfold activation. eapply (result_creates dt _ xd (fun y => act y x) Y s x X xd); eauto.
    - destruct I as (_ & _ & E & _). cbn in E. rewrite E. reflexivity.
    - apply I.
  Qed.

  Theorem C72_identity : forall xd s x X, input dt s x (xd, X) -> creates dt (identity_layer dt x) s (xd, X) [].
  Proof using.
    intros xd s x X I. apply (C72_activation (op_identity dt) xd X s x X I). intros s2 y F H E M D.
    destruct I as (_ & N & Ex & _). cbn in N, Ex.
    apply C27_identity; auto; [unfold dims_ok; rewrite E; auto|congruence|left; auto].
  Qed.

  Theorem C72_relu : forall xd s x X, input dt s x (xd, X) ->
    creates dt (activation (op_relu dt sc) x) s (xd, fun ix => if sltb sc (s0 sc) (X ix) then X ix else s0 sc) [].
  Proof using.
    intros xd s x X I. apply (C72_activation (op_relu dt sc) xd _ s x X I). intros s2 y F H E M D.
    destruct I as (_ & N & Ex & _). cbn in N, Ex.
    apply C28_relu; auto; [unfold dims_ok; rewrite E; auto|congruence|left; auto].
  Qed.

  (** Pooling: the output shape takes the policy's padding into account, the
      values do not (C38): each window is pooled as if the padding were 0. *)
  Theorem C72_pool_nhwc : forall A c ph pw P P0 n h w ch h' w' Y s x X,
    p_pad c (p_kh c) (p_sh c) 1 h = Ret ph -> p_pad c (p_kw c) (p_sw c) 1 w = Ret pw ->
    pool_args (p_kh c) (p_kw c) ph pw h w ->
    new_pool_kps (p_kh c) (p_kw c) ph pw (p_sh c) (p_sw c) = Ret P ->
    new_pool_ks (p_kh c) (p_kw c) (p_sh c) (p_sw c) = Ret P0 ->
    pooled_shape nhwc P [n; h; w; ch] = Ret [n; h'; w'; ch] -> 0 <= h' -> 0 <= w' ->
    input dt s x ([n; h; w; ch], X) ->
    (forall l i j k, valid [n; h'; w'; ch] [l; i; j; k] ->
       pooled A (map (fun p => X [l; fst p; snd p; k]) (window (h_sample P0) (w_sample P0) h w i j)) = Ret (Y [l; i; j; k])) ->
    creates dt (pool_layer dt A nhwc c x) s ([n; h'; w'; ch], Y) [].
  Proof using.
    intros A c ph pw P P0 n h w ch h' w' Y s x X Eh Ew G EP EP0 ES Hh' Hw' I HY.
    pose proof I as (_ & N & Ex & _). cbn [fst] in N, Ex.
    assert (Nn : 0 <= n /\ 0 <= ch).
    { inversion N as [|? ? Q1 N1]; subst. inversion N1 as [|? ? Q2 N2]; subst. inversion N2 as [|? ? Q3 N3]; subst.
      inversion N3; subst. auto. }
    assert (EL : pconf_trait c (image_shape nhwc (tdims x)) = Ret P).
    { rewrite Ex. unfold pconf_trait. cbn [image_shape height_position width_position nth]. rewrite Eh. cbn [obind]. rewrite Ew. cbn [obind]. exact EP. }
    assert (Cr : creates dt (y <- new_result (pooled_shape nhwc P (tdims x)) (fun y => op_pool_nhwc dt A P y x) ;; ret (mklayer y [])) s
                   ([n; h'; w'; ch], Y) []).
    { eapply (result_creates dt _ _ _ Y s x X _ I); [rewrite Ex; exact ES|repeat (constructor; [lia|]); constructor|].
      intros s2 y F H E M D.
      destruct (C38_nhwc dt A (p_kh c) (p_kw c) ph pw (p_sh c) (p_sw c) P P0 n h w ch h' w' y x X Y s2) as [R _]; auto; tauto. }
    destruct Cr as (l & s' & E & R). exists l, s'. split; [|exact R]. unfold pool_layer. rewrite EL. cbn [lift]. rewrite bind_ret_l. exact E.
  Qed.

  Theorem C72_pool_nchw : forall A c ph pw P P0 n h w ch h' w' Y s x X,
    p_pad c (p_kh c) (p_sh c) 1 h = Ret ph -> p_pad c (p_kw c) (p_sw c) 1 w = Ret pw ->
    pool_args (p_kh c) (p_kw c) ph pw h w ->
    new_pool_kps (p_kh c) (p_kw c) ph pw (p_sh c) (p_sw c) = Ret P ->
    new_pool_ks (p_kh c) (p_kw c) (p_sh c) (p_sw c) = Ret P0 ->
    pooled_shape nchw P [n; ch; h; w] = Ret [n; ch; h'; w'] -> 0 <= h' -> 0 <= w' ->
    input dt s x ([n; ch; h; w], X) ->
    (forall l k i j, valid [n; ch; h'; w'] [l; k; i; j] ->
       pooled A (map (fun p => X [l; k; fst p; snd p]) (window (h_sample P0) (w_sample P0) h w i j)) = Ret (Y [l; k; i; j])) ->
    creates dt (pool_layer dt A nchw c x) s ([n; ch; h'; w'], Y) [].
  Proof using.
    intros A c ph pw P P0 n h w ch h' w' Y s x X Eh Ew G EP EP0 ES Hh' Hw' I HY.
    pose proof I as (_ & N & Ex & _). cbn [fst] in N, Ex.
    assert (Nn : 0 <= n /\ 0 <= ch).
    { inversion N as [|? ? Q1 N1]; subst. inversion N1 as [|? ? Q2 N2]; subst. inversion N2 as [|? ? Q3 N3]; subst.
      inversion N3; subst. auto. }
    assert (EL : pconf_trait c (image_shape nchw (tdims x)) = Ret P).
    { rewrite Ex. unfold pconf_trait. cbn [image_shape height_position width_position nth]. rewrite Eh. cbn [obind]. rewrite Ew. cbn [obind]. exact EP. }
    assert (Cr : creates dt (y <- new_result (pooled_shape nchw P (tdims x)) (fun y => op_pool_nchw dt A P y x) ;; ret (mklayer y [])) s
                   ([n; ch; h'; w'], Y) []).
    { eapply (result_creates dt _ _ _ Y s x X _ I); [rewrite Ex; exact ES|repeat (constructor; [lia|]); constructor|].
      intros s2 y F H E M D.
      destruct (C38_nchw dt A (p_kh c) (p_kw c) ph pw (p_sh c) (p_sw c) P P0 n h w ch h' w' y x X Y s2) as [R _]; auto; tauto. }
    destruct Cr as (l & s' & E & R). exists l, s'. split; [|exact R]. unfold pool_layer. rewrite EL. cbn [lift]. rewrite bind_ret_l. exact E.
  Qed.
End Others.

Example C72_example :
  show (bn_layer zt Zsc nchw (fun x m v => Ret ((x - m) * v)) (op_relu zt Zsc)
          (init_with (fun i => i)) (init_with (fun i => i + 1)) (init_with (fun _ => 1)) (init_with (fun i => 10 * i + 1))
          (T_ 0 [1; 2; 1; 2]) (demo [[3; -4; 5; 6]])) (fun l => [output l])
  = Some [([1; 2; 1; 2], inits [4; 0; 89; 111])] /\
  show (pool_layer zt (max_acc Zsc (-100)) nhwc default_pconf (T_ 0 [1; 2; 4; 1]) (demo [[1; 2; 3; 4; 5; 6; 7; 8]])) owned
  = Some [([1; 1; 2; 1], inits [6; 8])].
Proof. vm_compute. auto. Qed.

(** *** C73: default initialisers. *)
Section Defaults.
  Context {V T : Type} (dt : dtype V T) (sc : scalar T).

  Lemma zrange_pos : forall n, 1 <= n -> exists l, zrange n = 0 :: l.
  Proof using. intros n H. unfold zrange. replace (Z.to_nat n) with (S (Z.to_nat (n - 1))) by lia. eexists. reflexivity. Qed.

  Lemma bind_ub : forall A B (m : M V A) (k : A -> M V B) s, m s = UB -> (x <- m ;; k x) s = UB.
  Proof using. intros A B m k s E. unfold bind. rewrite E. reflexivity. Qed.

  Lemma load_uninit : forall p s, cells s p = Uninit -> load dt p s = UB.
  Proof using. intros p s E. unfold load. rewrite E. reflexivity. Qed.

  (** The weights of a dense layer called with the default initialiser are
      never written before the product reads them. *)
  Theorem C73_dense_weight : forall act logits b_init m l s x X,
    1 <= logits < 2 ^ 32 -> 1 <= m -> 1 <= l -> input dt s x ([m; l], X) ->
    dense dt sc Builtin act logits noop1 b_init x s = UB.
  Proof using.
    intros act logits b_init m l s x X Hl Hm Hl1 I.
    pose proof (input_mapped dt s x _ I) as Mx. destruct I as (Fr & N & Ex & HX). cbn [fst snd] in *.
    destruct (new_tensor_born s [l; logits] Fr) as (w & s1 & E1 & Bw).
    pose proof (grown_born s s s1 [] w _ (grown_nil s Fr) Bw) as G1.
    destruct (new_tensor_born s1 [m; logits] (proj1 G1)) as (y & s2 & E2 & By).
    pose proof (grown_born s s1 s2 [w] y _ G1 By) as G2.
    unfold dense, nth_dim. rewrite to_u32_id by lia. rewrite Ex. cbn [nth].
    assert (E1' : new_parameter [l; logits] noop1 s = Ok w s1).
    { unfold new_parameter. rewrite (bind_ok _ _ _ _ _ E1). reflexivity. }
    rewrite (bind_ok _ _ _ _ _ E1'). apply bind_ub. unfold new_result, matmul_shape. cbn [nth]. rewrite Z.eqb_refl.
    cbn [ocontract obind lift]. rewrite bind_ret_l, (bind_ok _ _ _ _ _ E2). apply bind_ub.
    destruct Bw as (W1 & W2 & W3 & W4 & W5 & W6 & W7 & W8). destruct By as (Y1 & Y2 & Y3 & Y4 & Y5 & Y6 & Y7 & Y8).
    unfold op_matmul, k_mm, e_mm. cbn iota. unfold mm, nth_dim. rewrite Ex, W1, Y1. cbn [nth]. rewrite !Z.eqb_refl. cbn [contract]. rewrite !bind_ret_l.
    assert (Dy : dims_ok y) by (unfold dims_ok; rewrite Y1; apply nonneg2; lia).
    destruct (fill_holds dt y (s0 sc) s2 Dy Y5) as (s3 & E3 & N3 & H3 & C3).
    unfold memset0. rewrite (bind_ok _ _ _ _ _ E3).
    destruct (zrange_pos m Hm) as (lm & ->). destruct (zrange_pos l Hl1) as (ll & ->).
    destruct (zrange_pos logits ltac:(lia)) as (ln & ->). cbn [for_]. apply bind_ub. apply bind_ub.
    assert (HX3 : holds dt s3 x X).
    { apply (holds_frame_disj dt s2 s3 x y X); [apply (grown_holds dt s s2 [y; w] x X); auto|exact C3|].
      apply (grown_disjoint s s2 [y; w] x y); cbn; auto. }
    rewrite (bind_ok _ _ _ _ _ (at_ok dt s3 x X [0; 0] HX3 ltac:(rewrite Ex; cbn; lia))).
    apply bind_ub. rewrite (bind_ok _ _ _ _ _ (at_ok dt s3 y _ [0; 0] H3 ltac:(rewrite Y1; cbn; lia))).
    apply bind_ub. unfold at_. apply load_uninit.
    assert (Fw : foot w (addr w [0; 0])) by (apply addr_foot; rewrite W1; cbn; lia).
    rewrite C3.
    - rewrite Y7; [apply W8, Fw|]. cbn [addr daddr fst]. lia.
    - intros Q. assert (D : disjoint y w) by (apply blk_disjoint; lia). exact (D _ Q Fw).
  Qed.

  (** The same for the bias. *)
  Theorem C73_dense_bias : forall act logits w_init m l W s x X e,
    1 <= logits < 2 ^ 32 -> 1 <= m -> engine_ok sc e [m; l; logits] -> fills dt w_init [l; logits] W -> input dt s x ([m; l], X) ->
    dense dt sc e act logits w_init noop1 x s = UB.
  Proof using.
    intros act logits w_init m l W s x X e Hl Hm He HW I.
    pose proof (input_mapped dt s x _ I) as Mx. destruct I as (Fr & N & Ex & HX). cbn [fst snd] in *.
    inversion N as [|? ? Hm' N']; subst. inversion N' as [|? ? Hl' _]; subst.
    destruct (param dt s s [] [l; logits] W w_init) as (w & s1 & E1 & G1 & Dw & Hw & Bw & C1);
      [apply grown_nil; auto|apply nonneg2; lia|auto|].
    destruct (new_then dt s s1 [w] [m; logits] (matmul_fn sc l X W) (fun y => op_matmul dt sc e y x w))
      as (y & s2 & E2 & G2 & Dy & Hy & By & C2); [auto|apply nonneg2; lia| |].
    { intros s2 y Bn. pose proof (grown_born s s1 s2 [w] y _ G1 Bn) as G.
      destruct Bn as (B1 & B2 & B3 & B4 & B5 & B6 & B7 & _).
      apply (C26_matmul dt sc e y x w m l logits X W s2); auto; try lia.
      - apply (grown_holds dt s s2 [y; w] x X); auto.
      - apply (keep dt s s1 s2 [w] w W); auto. left; auto.
      - apply (grown_disjoint s s2 [y; w] x y); auto. left; auto.
      - apply blk_disjoint. apply (later s s1 [w] w y); auto. left; auto. }
    assert (E2' : new_result (matmul_shape [m; l] [l; logits]) (fun y => op_matmul dt sc e y x w) s1 = Ok y s2).
    { unfold new_result, matmul_shape. cbn [nth]. rewrite Z.eqb_refl. exact E2. }
    destruct (new_tensor_born s2 [logits] (proj1 G2)) as (b & s3 & E3 & (B1 & B2 & B3 & B4 & B5 & B6 & B7 & B8)).
    assert (E3' : new_parameter [logits] noop1 s2 = Ok b s3).
    { unfold new_parameter. rewrite (bind_ok _ _ _ _ _ E3). reflexivity. }
    unfold dense, nth_dim. rewrite to_u32_id by lia. rewrite Ex. cbn [nth].
    rewrite (bind_ok _ _ _ _ _ E1), (bind_ok _ _ _ _ _ E2'), (bind_ok _ _ _ _ _ E3'). apply bind_ub.
    cbn [op_bias]. unfold bias_generic. destruct (zrange_pos (size y)) as (ly & ->).
    { unfold size. rewrite Dy. cbn [prod]. nia. }
    cbn [for_]. apply bind_ub. cbv zeta.
    assert (Hy3 : holds dt s3 y (matmul_fn sc l X W)) by (apply (keep dt s s2 s3 [y; w] y); cbn; auto).
    assert (Ny : dims_ok y) by (unfold dims_ok; rewrite Dy; apply nonneg2; lia).
    rewrite (bind_ok _ _ _ _ _ (load_ok dt s3 (daddr y 0) _ (holds_daddr dt s3 y _ 0 Ny Hy3 ltac:(unfold size; rewrite Dy; cbn [prod]; nia)))).
    apply bind_ub. apply load_uninit. apply B8. rewrite Dy. exists 0. unfold size. rewrite B1. cbn [prod bias_position].
    split; [nia|]. f_equal.
  Qed.
End Defaults.

Example C73_example :
  dense zt Zsc Builtin noop2 2 noop1 noop1 (T_ 0 [1; 2]) (demo [[1; 2]]) = UB /\
  show (dense zt Zsc Builtin noop2 2 (init_with (fun i => i)) (init_with (fun i => i)) (T_ 0 [1; 2]) (demo [[1; 2]])) (fun l => [output l])
  = Some [([1; 2], inits [4; 8])].
Proof. vm_compute. auto. Qed.

(** *** C74: softmax as the activation of a layer is applied in place. *)
Theorem C74_dense_softmax : forall V (dt : dtype V R) e eps logits w_init b_init m l W B s x X,
  0 <= logits < 2 ^ 32 -> engine_ok Rsc e [m; l; logits] ->
  fills dt w_init [l; logits] W -> fills dt b_init [logits] B -> input dt s x ([m; l], X) ->
  let Y := fun i j => (sum_over Rsc (zrange l) (fun k => X [i; k] * W [k; j]) + B [j])%R in
  creates dt (dense dt Rsc e (op_softmax dt Rsc exp 2 eps) logits w_init b_init x) s
    ([m; logits], fun ix => overwrite (softmax_fn eps logits) (Z.to_nat logits) (Y (nth 0 ix 0)) (nth 1 ix 0))
    [([l; logits], W); ([logits], B)].
Proof.
  intros V dt e eps logits w_init b_init m l W B s x X Hl He HW HB I Y.
  set (F := fun (Y : list Z -> R) ix => overwrite (softmax_fn eps logits) (Z.to_nat logits) (row Y (removelast ix)) (last ix 0)).
  assert (Nm : 0 <= m) by (destruct I as (_ & N & _); cbn in N; inversion N; auto).
  assert (A : acts dt (op_softmax dt Rsc exp 2 eps) [m; logits] F).
  { intros s' y Q Fr E H. apply (C34_softmax V dt eps y [m] logits Q s'); auto. unfold dims_ok. rewrite E. apply nonneg2; lia. }
  destruct (C62_dense dt Rsc e _ logits w_init b_init m l W B F s x X Hl He HW HB A I) as (k & s' & E & G & [E1 H1] & H2).
  exists k, s'. split; [exact E|]. split; [exact G|]. split; [|exact H2]. split; [exact E1|].
  cbn [snd fst] in *. eapply holds_ext; [|exact H1]. intros ix Hix. rewrite E1 in Hix.
  destruct ix as [|i [|j [|? ?]]]; cbn in Hix; try tauto.
Qed.

(** It differs from softmax of the pre-activations. *)
Theorem C74_refuted : exists (eps : R) (logits : Z) (Y : Z -> R) (j : Z), 0 <= j < logits /\ (0 < eps)%R /\
  overwrite (softmax_fn eps logits) (Z.to_nat logits) Y j <> softmax_fn eps logits Y j.
Proof.
  destruct (C34_softmax_refuted (1/4)%R ltac:(lra)) as (n & X & i & Hi & E & L).
  exists (1/4)%R, n, X, i. split; [exact Hi|]. split; [lra|]. rewrite E. lra.
Qed.

Local Open Scope Q_scope.
(** Equal pre-activations (0 0), exp as in C34_example: the layer answers
    (1/2 1/3) where softmax is (1/2 1/2). *)
Example C74_example :
  let e (q : Q) := Qred (if Qle_bool q 0 then 1 + q else 1 + q * 2) in
  show (dense qt Qsc Builtin (op_softmax qt Qsc e 2 (1#8)) 2%Z (fun y => fill qt y 0) (fun y => fill qt y 0)
          (T_ 0 [1%Z; 1%Z]) (demo [[5]])) (fun l => [output l])
  = Some [([1%Z; 2%Z], inits [1#2; 1#3])].
Proof. reflexivity. Qed.
Local Close Scope Q_scope.

Print Assumptions C62_same_padding.
Print Assumptions C62_valid_padding.
Print Assumptions C63_released.
Print Assumptions C63_dense_weight.
Print Assumptions C63_dense_bias.
Print Assumptions C63_conv_weight.
Print Assumptions C63_conv_shape.
Print Assumptions C63_conv_bias.
Print Assumptions C63_pool_shape.
Print Assumptions C63_refuted.
Print Assumptions C72_batch_norm.
Print Assumptions C72_activation.
Print Assumptions C72_identity.
Print Assumptions C72_relu.
Print Assumptions C72_pool_nhwc.
Print Assumptions C72_pool_nchw.
Print Assumptions C73_dense_weight.
Print Assumptions C73_dense_bias.
Print Assumptions C74_dense_softmax.
Print Assumptions C74_refuted.
