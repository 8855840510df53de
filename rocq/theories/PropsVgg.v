(** Property C80: the VGG16 network of the examples. *)
From Coq Require Import ZArith List Bool Lia String Reals Lra Permutation QArith.
From Verif Require Import Base BaseFacts TensorFacts Traits TraitsSpec Scalar Demo LinAlg Conv ConvSpec
  Elem RealScalar Activation ActivationSpec Pool PoolSpec PropsSummary Utility PropsUtility
  Io IoSpec PropsIo Layers LayersSpec LayersFacts LayerCalls PropsLayers PropsLayers2 PropsSoftmax PropsTrain Vgg VggSpec VggFacts.
Import ListNotations.
Open Scope Z_scope.
Open Scope model_scope.

Section Model.
  Context {V : Type} (dt : dtype V R) (di : dtype V Z) (eps lowest : R) (e : engine)
    (p : string -> tensor -> M V unit) (W B : string -> list Z -> R).
  Context (Lo : (lowest <= 0)%R).

  Lemma dense_layers_creates : forall n l hs k s x X, 1 <= n -> 1 <= l -> hidden_ok dt p W B l hs ->
    let (d, Y) := hidden W B l hs X in
    param_ok dt p W B (snd k) [d; fst k] (fst k) ->
    input dt s x ([n; l], X) ->
    creates dt (dense_layers dt Rsc exp eps e p hs k x) s
      ([n; fst k], arg2 (fun i => softmax_fn eps (fst k) (fun j => affine d (W (snd k)) (B (snd k)) Y [i; j]))) [].
  Proof using.
    intros n l hs k s x X Hn Hl Hh. destruct (hidden W B l hs X) as [d Y] eqn:E. intros (Hk & HW & HB) I.
    pose proof I as (F & _). unfold dense_layers.
    destruct (hidden_creates dt e p W B n hs l (identity_layer dt) s x X [] F Hn Hl Hh (C72_identity dt [n; l] s x X I))
      as (Ws' & d' & Y' & E' & Hd & Cr). rewrite E in E'. injection E' as <- <-.
    rewrite seq_app. unfold sequential at 1. cbn [fold_left].
    assert (C2 : creates dt (composed (sequential (identity_layer dt) (map (vgg_hidden dt Rsc e p) hs))
                   (with_init (vgg_dense dt Rsc e (fst k)) (p (snd k ++ "_W")%string) (p (snd k ++ "_b")%string)) x) s
                   ([n; fst k], affine d (W (snd k)) (B (snd k)) Y) [([d; fst k], W (snd k)); ([fst k], B (snd k))]).
    { eapply composed_creates; [exact F| |exact Cr|]; [apply nonneg2; lia|]. intros s' y I'.
      apply vgg_dense_creates; auto. }
    eapply composed_creates; [exact F| |exact C2|]; [apply nonneg2; lia|]. intros s' y I'.
    apply vgg_softmax_creates. exact I'.
  Qed.

  Lemma expand_hwc : forall h w c a, 1 <= w -> 1 <= c -> expand [h; w; c] a = [a / (w * c); a / c mod w; a mod c].
  Proof using.
    intros h w c a Hw Hc. cbn [expand prod]. rewrite Z.mul_1_r, Z.div_1_r.
    rewrite (Z.mul_comm w c), Z.rem_mul_r by lia. rewrite (Z.mul_comm c (a / c mod w)).
    rewrite Z.div_add, Z.mod_add by lia. pose proof (Z.mod_pos_bound a c ltac:(lia)).
    rewrite (Z.div_small (a mod c) c), Z.mod_mod by lia. reflexivity.
  Qed.

  Lemma flattened_input : forall n h w c s t X, 1 <= n -> 1 <= h -> 1 <= w -> 1 <= c -> input dt s t ([n; h; w; c], X) ->
    input dt s (as_matrix 1 t) ([n; h * w * c], flattened h w c X).
  Proof using.
    intros n h w c s t X Hn Hh Hw Hc (F & N & E & H). cbn [fst snd] in *.
    assert (Ed : tdims (as_matrix 1 t) = [n; h * w * c]).
    { rewrite tdims_as_matrix, E. cbn [firstn skipn prod]. f_equal; [lia|]. f_equal. lia. }
    split; [exact F|]. split; [apply nonneg2; nia|]. split; [exact Ed|].
    cbn [snd]. assert (D : dims_ok t) by (unfold dims_ok; rewrite E; exact N).
    eapply holds_ext; [|exact (holds_as_matrix dt s 1 t X D H)].
    intros ix Hix. rewrite Ed in Hix. apply valid_2 in Hix.
    destruct Hix as (i & a & -> & Hi & Ha). unfold flattened, arg2. cbn [nth]. rewrite E. cbn [firstn skipn].
    rewrite expand_hwc by lia. cbn [expand prod app]. rewrite Z.div_1_r. reflexivity.
  Qed.

  (** Classifying: the two new tensors. *)
  Lemma top_new : forall m k P (o : tensor) s, fresh_ok s -> 0 <= m < 2 ^ 32 -> 0 <= k < 2 ^ 32 ->
    tdims o = [k] -> holds dt s o (arg1 P) ->
    exists y z s' L,
      (y <- new_tensor [to_u32 m] ;; z <- new_tensor [to_u32 m] ;;
       op_top dt di (mkitype false 32) Rsc y z o ;;; ret (y, z)) s = Ok (y, z) s' /\
      grown s s' [y; z] /\ tdims y = [m] /\ tdims z = [m] /\ Z.of_nat (List.length L) = Z.min k m /\ lists_top k P L /\
      (forall q i, nth_error L q = Some i ->
         cells s' (addr y [Z.of_nat q]) = Init (emb dt (P i)) /\ cells s' (addr z [Z.of_nat q]) = Init (emb di i)).
  Proof using.
    intros m k P o s F Hm Hk Eo Ho. rewrite to_u32_id by lia.
    destruct (new_tensor_born s [m] F) as (y & s1 & E1 & B1). pose proof (grown_born s s s1 [] y _ (grown_nil s F) B1) as G1.
    pose proof G1 as (F1 & _). destruct (new_tensor_born s1 [m] F1) as (z & s2 & E2 & B2).
    pose proof (grown_born s s1 s2 [y] z _ G1 B2) as G2.
    assert (Dy : tdims y = [m]) by apply B1. assert (Dz : tdims z = [m]) by apply B2.
    assert (Mo : mapped s o) by (eapply holds_mapped; [|exact Ho]; unfold dims_ok; rewrite Eo; repeat constructor; lia).
    assert (Ho2 : holds dt s2 o (arg1 P)) by (apply (grown_holds dt s s2 [z; y]); auto).
    pose proof G2 as (F2 & N2 & ND & A2 & C2). inversion A2 as [|? ? (Bz & Zz & Mz) A3]; subst.
    inversion A3 as [|? ? (By & Zy & My) _]; subst.
    assert (Nyz : tblk y <> tblk z) by (cbn [map] in ND; inversion ND as [|? ? Q _]; subst; cbn in Q; intros Q'; apply Q; left; auto).
    assert (C32 : forall a, 0 <= a < 2 ^ 32 -> conv (mkitype false 32) a = a).
    { intros a Ha. apply C48_fits; cbn; lia. }
    destruct (C48_top V R dt di (mkitype false 32) Rsc (fun _ => True) y z o k m (arg1 P) s2) as (s3 & L & E3 & N3 & Ln & NDL & InL & Wr & Ord & Out & Fr);
      auto; try lia; try (rewrite C32; lia); [cbn; lia|apply blk_disjoint; auto|apply Rltb_order|].
    rewrite !C32 in * by lia.
    assert (Frame : forall q, (fst q <> tblk y -> fst q <> tblk z -> cells s3 q = cells s2 q)).
    { intros q Q1 Q2. apply Fr. intros a _. split; intros ->; [apply Q1|apply Q2]; reflexivity. }
    assert (Keep : forall t, t = y \/ t = z -> forall q, foot t q -> cells s3 q <> Unmapped).
    { intros t Ht q Hq. assert (Mt : mapped s2 t) by (destruct Ht; subst t; auto). assert (Et : tdims t = [m]) by (destruct Ht; subst t; auto).
      destruct Hq as (a & Ha & ->). unfold size in Ha. rewrite Et in Ha. cbn [prod] in Ha.
      assert (Ea : forall b, addr t [b] = daddr t b). { intros b. unfold addr. rewrite Et. cbn. f_equal. lia. }
      destruct (Z_lt_dec a (Z.min k m)) as [La|La].
      - destruct (nth_error L (Z.to_nat a)) as [i|] eqn:En; [|apply nth_error_None in En; lia].
        destruct (Wr _ _ En) as [W1 W2]. rewrite Z2Nat.id in W1, W2 by lia. rewrite <- Ea.
        destruct Ht; subst t; [rewrite W1|rewrite W2]; discriminate.
      - rewrite Fr; [apply Mt; exists a; split; [unfold size; rewrite Et; cbn; lia|reflexivity]|].
        intros b Hb. destruct Ht; subst t.
        + split; [rewrite Ea; unfold daddr; intros Q; injection Q; lia|]. unfold addr, daddr. intros Q. apply Nyz. congruence.
        + split; [unfold addr, daddr; intros Q; apply Nyz; congruence|]. rewrite Ea. unfold daddr; intros Q; injection Q; lia. }
    exists y, z, s3, L. split.
    { rewrite (bind_ok _ _ _ _ _ E1), (bind_ok _ _ _ _ _ E2), (bind_ok _ _ _ _ _ E3). reflexivity. }
    split.
    { apply (grown_perm s s3 [z; y]); [apply perm_swap|]. split; [|split; [lia|split; [exact ND|split]]].
      - intros q Hq. rewrite Frame; [apply F2| |]; lia.
      - constructor; [split; [lia|split; [auto|intros q; apply Keep; auto]]|].
        constructor; [split; [lia|split; [auto|intros q; apply Keep; auto]]|constructor].
      - intros q Hq. cbn [map In] in Hq. rewrite Frame by (intros Q; apply Hq; auto). apply C2. cbn [map In]. auto. }
    split; [exact Dy|]. split; [exact Dz|]. split; [exact Ln|]. split; [|exact Wr].
    assert (T : forall i j, sltb Rsc (arg1 P [i]) (arg1 P [j]) = false /\ (sltb Rsc (arg1 P [j]) (arg1 P [i]) = false -> j < i) ->
      (P j < P i)%R \/ P i = P j /\ j < i).
    { intros i j [Q1 Q2]. unfold arg1 in *. cbn [nth sltb Rsc] in *. apply Rltb_false in Q1.
      destruct (Rle_lt_or_eq_dec _ _ Q1) as [Q|Q]; [left; auto|right; split; auto]. apply Q2. unfold Rltb. destruct (Rlt_dec _ _); [lra|reflexivity]. }
    split; [exact NDL|]. split; [exact InL|]. split; [intros; apply T; eapply Ord; eauto|intros; apply T; eapply Out; eauto].
  Qed.

  (** Any VGG network: [n] images, blocks [bs], hidden layers [hs], classes [k]. *)
  Theorem C80_network : forall bs hs k m n h w c s x X,
    1 <= n -> 1 <= h -> h + 3 < 2 ^ 32 -> 1 <= w -> w + 3 < 2 ^ 32 -> 1 <= c -> 0 <= m < 2 ^ 31 ->
    (2 ^ Z.of_nat (List.length bs) | h) -> (2 ^ Z.of_nat (List.length bs) | w) ->
    blocks_ok dt p W B h w c bs ->
    (let '(h', w', c', _) := blocks W B h w c bs X in
     hidden_ok dt p W B (h' * w' * c') hs /\
     param_ok dt p W B (snd k) [chan (h' * w' * c') hs; fst k] (fst k)) ->
    input dt s x ([n; h; w; c], X) ->
    exists y z s' L, vgg_model dt di Rsc exp eps lowest e p bs hs k m x s = Ok (y, z) s' /\
      grown s s' [y; z] /\ tdims y = [m] /\ tdims z = [m] /\ Z.of_nat (List.length L) = Z.min (fst k) m /\
      let P := softmax_fn eps (fst k) (fun j => scores W B h w c bs hs k X [0; j]) in
      lists_top (fst k) P L /\
      (forall q i, nth_error L q = Some i ->
         cells s' (addr y [Z.of_nat q]) = Init (emb dt (P i)) /\ cells s' (addr z [Z.of_nat q]) = Init (emb di i)).
  Proof using Lo.
    intros bs hs k m n h w c s x X Hn Hh Fh Hw Fw Hc Hm Dh Dw HB HH I.
    pose proof I as (F & _).
    destruct (blocks_creates dt di lowest e p W B Lo n bs h w c (identity_layer dt) s x X [] F Hn Hh Fh Hw Fw Hc HB
                (C72_identity dt _ s x X I)) as [Q _].
    destruct (Q Dh Dw) as (Ws & h' & w' & c' & Y & EB & Hh' & Hw' & Hc' & l5 & s1 & E1 & G1 & H1 & _).
    rewrite EB in HH. destruct HH as [HH HK].
    assert (I1 : input dt s1 (as_matrix 1 (output l5)) ([n; h' * w' * c'], flattened h' w' c' Y)).
    { apply flattened_input; auto. split; [apply G1|]. split; [apply nonneg4; lia|exact H1]. }
    pose proof (dense_layers_creates n (h' * w' * c') hs k s1 (as_matrix 1 (output l5)) (flattened h' w' c' Y) Hn ltac:(nia) HH) as Q2.
    assert (Ed : forall hs l X, fst (hidden W B l hs X) = chan l hs).
    { clear. intros hs. induction hs as [|[d nm] hs IH]; intros l X; cbn [hidden chan fold_left fst]; [reflexivity|apply IH]. }
    specialize (Ed hs (h' * w' * c') (flattened h' w' c' Y)).
    unfold scores. rewrite EB. destruct (hidden W B (h' * w' * c') hs (flattened h' w' c' Y)) as [d Y2] eqn:EH. cbn [fst] in Ed. subst d.
    destruct (Q2 HK I1) as (out & s2 & E2 & G2 & [D2 H2] & _). cbn [fst snd] in D2, H2.
    destruct HK as (Hk & _).
    set (P := softmax_fn eps (fst k) (fun j => affine (chan (h' * w' * c') hs) (W (snd k)) (B (snd k)) Y2 [0; j])).
    destruct (top_new m (fst k) P (sub (output out) 0) s2) as (y & z & s3 & L & E3 & G3 & Dy & Dz & Ln & LT & Wr);
      [apply G2|lia|lia|rewrite (tdims_sub _ _ _ _ D2); reflexivity| |].
    { eapply holds_ext; [|eapply (holds_sub dt s2 (output out) _ 0 n [fst k] D2); [lia|exact H2]].
      intros ix Hix. rewrite (tdims_sub _ _ _ _ D2) in Hix. destruct ix as [|i [|? ?]]; cbn in Hix; try tauto. }
    pose proof (grown_release s1 s2 s3 (owned out) [y; z] ltac:(apply G1) G2 G3) as G4.
    pose proof (grown_release s s1 _ (owned l5) [y; z] F G1 G4) as G5.
    exists y, z, (destroy l5 (destroy out s3)), L. split.
    { unfold vgg_model, with_layer. unfold conv_layers. rewrite E1, E2, E3. reflexivity. }
    split; [exact G5|]. split; [exact Dy|]. split; [exact Dz|]. split; [exact Ln|]. split; [exact LT|].
    assert (K : forall s0 s1 s2 ts us t (q : loc), grown s0 s1 ts -> grown s1 s2 us -> In t us -> fst q = tblk t ->
       cells (release ts s2) q = cells (s2 : st V) q).
    { clear. intros s0 s1 s2 ts us t q (F1 & N1 & D1 & A1 & C1) (F2 & N2 & D2 & A2 & C2) It Eq. apply release_out. intros J.
      apply in_map_iff in J. destruct J as (v & Ev & Iv). rewrite Forall_forall in A1, A2. specialize (A1 v Iv). specialize (A2 t It). lia. }
    intros q i En. destruct (Wr q i En) as [W1 W2]. unfold destroy. split.
    - rewrite (K s s1 _ (owned l5) [y; z] y) by (auto; left; auto). rewrite (K s1 s2 _ (owned out) [y; z] y) by (auto; left; auto). exact W1.
    - rewrite (K s s1 _ (owned l5) [y; z] z) by (auto; right; left; auto).
      rewrite (K s1 s2 _ (owned out) [y; z] z) by (auto; right; left; auto). exact W2.
  Qed.

  Theorem C80_rejects : forall bs hs k m n h w c s x X,
    1 <= n -> 1 <= h -> h + 3 < 2 ^ 32 -> 1 <= w -> w + 3 < 2 ^ 32 -> 1 <= c ->
    ~ ((2 ^ Z.of_nat (List.length bs) | h) /\ (2 ^ Z.of_nat (List.length bs) | w)) ->
    blocks_ok dt p W B h w c bs -> input dt s x ([n; h; w; c], X) ->
    exists s', vgg_model dt di Rsc exp eps lowest e p bs hs k m x s = Throw RuntimeError s' /\
      forall q, cells s' q = cells s q.
  Proof using Lo.
    intros bs hs k m n h w c s x X Hn Hh Fh Hw Fw Hc ND HB I. pose proof I as (F & _).
    destruct (blocks_creates dt di lowest e p W B Lo n bs h w c (identity_layer dt) s x X [] F Hn Hh Fh Hw Fw Hc HB
                (C72_identity dt _ s x X I)) as [_ Q].
    destruct (Q ND) as (ts & s' & E & G & Et). destruct ts; [|discriminate]. exists s'. split.
    - unfold vgg_model, with_layer, conv_layers. rewrite E. reflexivity.
    - intros q. destruct G as (_ & _ & _ & _ & C). apply C. cbn. tauto.
  Qed.

  (** VGG16.  Names, input and output channels of the convolutions. *)
  Definition vgg16_table : list (string * Z * Z) :=
    [ ("conv1_1", 3, 64); ("conv1_2", 64, 64); ("conv2_1", 64, 128); ("conv2_2", 128, 128);
      ("conv3_1", 128, 256); ("conv3_2", 256, 256); ("conv3_3", 256, 256);
      ("conv4_1", 256, 512); ("conv4_2", 512, 512); ("conv4_3", 512, 512);
      ("conv5_1", 512, 512); ("conv5_2", 512, 512); ("conv5_3", 512, 512) ]%string.

  Lemma vgg16_blocks_ok : forall h w, 1 <= h -> 1 <= w -> h * w * 64 <= 2 ^ 31 ->
    (forall name c d, In (name, c, d) vgg16_table ->
       fills dt (p (name ++ "_W")%string) [3; 3; c; d] (W name) /\ fills dt (p (name ++ "_b")%string) [d] (B name)) ->
    blocks_ok dt p W B h w 3 vgg16_blocks.
  Proof using.
    intros h w Hh Hw Hs HF.
    assert (K : forall name c d, In (name, c, d) vgg16_table -> param_ok dt p W B name [3; 3; c; d] d).
    { intros name c d J. split; [|apply HF; exact J]. cbn in J. intuition (try congruence); try (injection H; lia);
        repeat match goal with H : (_, _, _) = _ |- _ => injection H as <- <- <- end; lia. }
    assert (D : forall a b q, 0 <= a -> 0 <= b -> a * b * q <= 2 ^ 31 -> 0 <= q -> 0 <= a / 2 /\ 0 <= b / 2 /\ a / 2 * (b / 2) * (4 * q) <= 2 ^ 31).
    { intros a b q Ha Hb Hq Hq0. pose proof (Z.div_mod a 2 ltac:(lia)). pose proof (Z.div_mod b 2 ltac:(lia)).
      pose proof (Z.mod_pos_bound a 2 ltac:(lia)). pose proof (Z.mod_pos_bound b 2 ltac:(lia)).
      assert (2 * (a / 2) * (2 * (b / 2)) <= a * b) by (apply Z.mul_le_mono_nonneg; lia).
      split; [lia|]. split; [lia|].
      apply Z.le_trans with (a * b * q); [|exact Hq]. apply Z.le_trans with (2 * (a / 2) * (2 * (b / 2)) * q); [lia|].
      apply Z.mul_le_mono_nonneg_r; lia. }
    destruct (D h w 64 ltac:(lia) ltac:(lia) Hs ltac:(lia)) as (A1 & A2 & A3).
    destruct (D _ _ _ A1 A2 A3 ltac:(lia)) as (B1 & B2 & B3).
    destruct (D _ _ _ B1 B2 B3 ltac:(lia)) as (C1 & C2 & C3).
    destruct (D _ _ _ C1 C2 C3 ltac:(lia)) as (E1 & E2 & E3).
    assert (P0 : 0 <= h * w) by nia. assert (P1 : 0 <= h / 2 * (w / 2)) by nia.
    assert (P2 : 0 <= h / 2 / 2 * (w / 2 / 2)) by nia. assert (P3 : 0 <= h / 2 / 2 / 2 * (w / 2 / 2 / 2)) by nia.
    assert (P4 : 0 <= h / 2 / 2 / 2 / 2 * (w / 2 / 2 / 2 / 2)) by nia.
    cbn [vgg16_blocks blocks_ok convs_ok chan fold_left fst].
    repeat match goal with |- _ /\ _ => split end; try discriminate; try exact I;
      try (match goal with |- _ <= _ => lia end); apply K; cbn; tauto.
  Qed.

  Theorem C80_vgg16 : forall m n h w s x X,
    1 <= n -> 1 <= h -> 1 <= w -> (32 | h) -> (32 | w) -> h * w * 64 <= 2 ^ 31 -> 0 <= m < 2 ^ 31 ->
    (forall name c d, In (name, c, d) vgg16_table ->
       fills dt (p (name ++ "_W")%string) [3; 3; c; d] (W name) /\ fills dt (p (name ++ "_b")%string) [d] (B name)) ->
    (forall name l d, In (name, l, d) [("fc6", h / 32 * (w / 32) * 512, 4096); ("fc7", 4096, 4096); ("fc8", 4096, 1000)]%string ->
       fills dt (p (name ++ "_W")%string) [l; d] (W name) /\ fills dt (p (name ++ "_b")%string) [d] (B name)) ->
    input dt s x ([n; h; w; 3], X) ->
    exists y z s' L, vgg16_model dt di Rsc exp eps lowest e p m x s = Ok (y, z) s' /\
      grown s s' [y; z] /\ tdims y = [m] /\ tdims z = [m] /\ Z.of_nat (List.length L) = Z.min 1000 m /\
      let P := softmax_fn eps 1000 (fun j => scores W B h w 3 vgg_d_blocks vgg_d_hidden vgg_d_classes X [0; j]) in
      lists_top 1000 P L /\
      (forall q i, nth_error L q = Some i ->
         cells s' (addr y [Z.of_nat q]) = Init (emb dt (P i)) /\ cells s' (addr z [Z.of_nat q]) = Init (emb di i)).
  Proof using Lo.
    intros m n h w s x X Hn Hh Hw Dh Dw Hs Hm HC HF I.
    assert (Bh : h + 3 < 2 ^ 32) by nia. assert (Bw : w + 3 < 2 ^ 32) by nia.
    apply (C80_network vgg16_blocks vgg16_hidden vgg16_classes m n h w 3 s x X); auto; try lia.
    - apply vgg16_blocks_ok; auto.
    - assert (EB : exists Y, blocks W B h w 3 vgg16_blocks X = (h / 32, w / 32, 512, Y)).
      { eexists. cbn [blocks vgg16_blocks convs]. rewrite !Zdiv_Zdiv by lia. reflexivity. }
      destruct EB as (Y & ->). cbn [hidden_ok vgg16_hidden vgg16_classes chan fold_left fst snd]. unfold param_ok.
      pose proof (HF "fc6"%string _ _ (or_introl eq_refl)). pose proof (HF "fc7"%string _ _ (or_intror (or_introl eq_refl))).
      pose proof (HF "fc8"%string _ _ (or_intror (or_intror (or_introl eq_refl)))).
      repeat split; try lia; tauto.
  Qed.

  (** Sizes that are not multiples of 32. *)
  Theorem C80_vgg16_rejects : forall m n h w s x X,
    1 <= n -> 1 <= h -> 1 <= w -> ~ ((32 | h) /\ (32 | w)) -> h * w * 64 <= 2 ^ 31 ->
    (forall name c d, In (name, c, d) vgg16_table ->
       fills dt (p (name ++ "_W")%string) [3; 3; c; d] (W name) /\ fills dt (p (name ++ "_b")%string) [d] (B name)) ->
    input dt s x ([n; h; w; 3], X) ->
    exists s', vgg16_model dt di Rsc exp eps lowest e p m x s = Throw RuntimeError s' /\
      forall q, cells s' q = cells s q.
  Proof using Lo.
    intros m n h w s x X Hn Hh Hw ND Hs HC I.
    assert (Bh : h + 3 < 2 ^ 32) by nia. assert (Bw : w + 3 < 2 ^ 32) by nia.
    apply (C80_rejects vgg16_blocks vgg16_hidden vgg16_classes m n h w 3 s x X); auto; try lia.
    apply vgg16_blocks_ok; auto.
  Qed.
End Model.

(** The initialisers of the example do fill tensors of the stored shape. *)
Theorem C80_weights : forall V T (dt : dtype V T) (cd : codec T) code fs prefix l m r k fuel name ds X,
  fs prefix = Some (archive (l ++ m :: r) k) -> Forall member_ok (l ++ m :: r) -> (List.length (l ++ m :: r) < fuel)%nat ->
  m_name m = map (fun a => Z.of_nat (Ascii.nat_of_ascii a)) (list_ascii_of_string name) ->
  ~ In (m_name m) (map m_name r) -> m_data m = idx_file cd code ds X -> codec_ok cd -> u32_dims ds ->
  fills dt (tar_init dt cd code fuel fs prefix name) ds X.
Proof.
  intros V T dt cd code fs prefix l m r k fuel name ds X F WO Hf En NI Ed C U s w Fr Dw Mw. rewrite <- Dw in Ed, U.
  destruct (C56_found V T dt cd code fs prefix l m r k fuel X w s F WO Hf NI Ed C U Mw) as (s' & E & H & O).
  exists s'. split; [|split; [exact H|exact O]]. unfold tar_init. rewrite <- En, E. reflexivity.
Qed.

(** The layers in the order in which the example writes them. *)
Example C80_layers : forall V T (dt : dtype V T) di sc lowest e p,
  let conv d name := with_init (vgg_conv dt di sc e d) (p (name ++ "_W")%string) (p (name ++ "_b")%string) in
  let pool := vgg_pool dt sc lowest in
  conv_layers dt di sc lowest e p vgg16_blocks =
  sequential (identity_layer dt)
    [ conv 64 "conv1_1"%string; conv 64 "conv1_2"%string; pool;
      conv 128 "conv2_1"%string; conv 128 "conv2_2"%string; pool;
      conv 256 "conv3_1"%string; conv 256 "conv3_2"%string; conv 256 "conv3_3"%string; pool;
      conv 512 "conv4_1"%string; conv 512 "conv4_2"%string; conv 512 "conv4_3"%string; pool;
      conv 512 "conv5_1"%string; conv 512 "conv5_2"%string; conv 512 "conv5_3"%string; pool ].
Proof. reflexivity. Qed.

(** A network with one convolution, a 2 x 2 image, one hidden layer and three
    classes, 2^x in place of exp. *)
Example C80_example :
  let p (name : string) (t : tensor) : M Q unit :=
    for_ (zrange (size t)) (fun i => store qt (daddr t i)
      (if String.eqb name "a_W" then 1 else if String.eqb name "o_W" then inject_Z i else 0)%Q) in
  show (vgg_model qt qz Qsc exp2 (1#1000) (-1000)%Q Builtin p [[(1, "a")]]%string [] (3, "o"%string) 2
          (T_ 0 [1; 2; 2; 1]) (demo [[1; 0; 1; 0]%Q])) (fun yz => [fst yz; snd yz])
  = Some [([2], inits [16 # 21; 4 # 21]%Q); ([2], inits [2%Q; 1%Q])].
Proof. vm_compute. reflexivity. Qed.

Print Assumptions C80_network.
Print Assumptions C80_rejects.
Print Assumptions C80_vgg16.
Print Assumptions C80_vgg16_rejects.
Print Assumptions C80_weights.
