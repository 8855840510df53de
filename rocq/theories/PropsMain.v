(** Property C83: the VGG16 examples from files to printed lines. *)
From Coq Require Import ZArith List Bool Lia String Reals Lra QArith.
From Verif Require Import Base BaseFacts TensorFacts Traits Scalar Demo LinAlg RealScalar Activation ActivationSpec Conv Pool Elem Utility
  HashSpec Io IoSpec IoFacts TarFacts PropsIo Layers LayersSpec LayersFacts LayerCalls PropsLayers2 PropsSoftmax PropsTrain TrainTest
  Vgg VggSpec VggFacts PropsVgg Examples ExamplesSpec ExamplesFacts PropsData VggScope.
Import ListNotations.
Open Scope Z_scope.
Open Scope model_scope.

Section Layered.
  Context {V : Type} (dt : dtype V R) (di : dtype V Z) (eps lowest : R) (e : engine)
    (p : string -> tensor -> M V unit) (W B : string -> list Z -> R).
  Context (Lo : (lowest <= 0)%R).

  (** [y] and [z]: the [m] largest of the [k] numbers [P] and where they are. *)
  Definition winners (k m : Z) (P : Z -> R) (yz : tensor * tensor) (s : st V) : Prop :=
    let (y, z) := yz in
    tdims y = [m] /\ tdims z = [m] /\
    exists L, Z.of_nat (List.length L) = Z.min k m /\ lists_top k P L /\
      forall q i, nth_error L q = Some i ->
        cells s (addr y [Z.of_nat q]) = Init (emb dt (P i)) /\ cells s (addr z [Z.of_nat q]) = Init (emb di i).

  (** The network written with layers: exactly what [C80_network] says of the one
      written with models. *)
  Theorem C83_network : forall bs hs k m n h w c s x X,
    1 <= n -> 1 <= h -> h + 3 < 2 ^ 32 -> 1 <= w -> w + 3 < 2 ^ 32 -> 1 <= c -> 0 <= m < 2 ^ 31 ->
    (2 ^ Z.of_nat (List.length bs) | h) -> (2 ^ Z.of_nat (List.length bs) | w) ->
    blocks_ok dt p W B h w c bs ->
    (let '(h', w', c', _) := blocks W B h w c bs X in
     hidden_ok dt p W B (h' * w' * c') hs /\
     param_ok dt p W B (snd k) [chan (h' * w' * c') hs; fst k] (fst k)) ->
    input dt s x ([n; h; w; c], X) ->
    exists y z s', example_vgg16 dt di Rsc exp eps lowest e p bs hs k m x s = Ok (y, z) s' /\
      grown s s' [y; z] /\
      winners (fst k) m (softmax_fn eps (fst k) (fun j => scores W B h w c bs hs k X [0; j])) (y, z) s'.
  Proof using Lo.
    intros bs hs k m n h w c s x X Hn Hh Fh Hw Fw Hc Hm Dh Dw HB HH I.
    destruct (blocks_steps dt di lowest e p W B Lo n bs h w c X Hn Hh Fh Hw Fw Hc HB) as [Q _].
    destruct (Q Dh Dw) as (h' & w' & c' & Y & EB & Hh' & Hw' & Hc' & S1).
    rewrite EB in HH. destruct HH as [HH HK].
    pose proof (dense_steps dt eps e p W B n hs (h' * w' * c') (flattened h' w' c' Y) k Hn ltac:(nia) HH) as S2.
    assert (Ed : forall hs l X, fst (hidden W B l hs X) = chan l hs).
    { clear. intros hs. induction hs as [|[d nm] hs IH]; intros l X; cbn [hidden chan fold_left fst]; [reflexivity|apply IH]. }
    specialize (Ed hs (h' * w' * c') (flattened h' w' c' Y)).
    unfold scores. rewrite EB. destruct (hidden W B (h' * w' * c') hs (flattened h' w' c' Y)) as [d Y2] eqn:EH. cbn [fst] in Ed. subst d.
    specialize (S2 HK). destruct HK as (Hk & _).
    set (P := softmax_fn eps (fst k) (fun j => affine (chan (h' * w' * c') hs) (W (snd k)) (B (snd k)) Y2 [0; j])).
    set (us := fun yz : tensor * tensor => [fst yz; snd yz]).
    assert (St : forall a s s', (forall q, In (fst q) (map tblk (us a)) -> cells s' q = cells s q) -> winners (fst k) m P a s -> winners (fst k) m P a s').
    { intros [y z] s0 s0' Hc0 (Dy & Dz & L & Ln & LT & Wr). split; [exact Dy|]. split; [exact Dz|]. exists L. split; [exact Ln|]. split; [exact LT|].
      intros q i En. rewrite !Hc0 by (cbn; auto). apply Wr, En. }
    assert (K : exists a s', example_vgg16 dt di Rsc exp eps lowest e p bs hs k m x s = Ok a s' /\ grown s s' (us a) /\ winners (fst k) m P a s').
    { unfold example_vgg16. eapply (in_scope_ok dt _ us _ _ _ _ _ St S1); [|exact I]. intros s1 y1 I1.
      apply flattened_input in I1; auto. eapply (in_scope_ok dt _ us _ _ _ _ _ St S2); [|exact I1].
      clear - Hm Hk Hn. intros s2 out I2. pose proof I2 as (F2 & _ & D2 & H2). cbn [fst snd] in D2, H2.
      destruct (top_new dt di m (fst k) P (sub out 0) s2) as (y & z & s3 & L & E3 & G3 & Dy & Dz & Ln & LT & Wr);
        [exact F2|lia|lia|rewrite (tdims_sub _ _ _ _ D2); reflexivity| |].
      { eapply holds_ext; [|eapply (holds_sub dt s2 out _ 0 n [fst k] D2); [lia|exact H2]].
        intros ix Hix. rewrite (tdims_sub _ _ _ _ D2) in Hix. destruct ix as [|i [|? ?]]; cbn in Hix; try tauto. }
      exists (y, z), s3. split; [exact E3|]. split; [exact G3|]. split; [exact Dy|]. split; [exact Dz|]. exists L. auto. }
    destruct K as ([y z] & s' & E & G & Wn). exists y, z, s'. auto.
  Qed.

  Theorem C83_rejects : forall bs hs k m n h w c s x X,
    1 <= n -> 1 <= h -> h + 3 < 2 ^ 32 -> 1 <= w -> w + 3 < 2 ^ 32 -> 1 <= c ->
    ~ ((2 ^ Z.of_nat (List.length bs) | h) /\ (2 ^ Z.of_nat (List.length bs) | w)) ->
    blocks_ok dt p W B h w c bs -> input dt s x ([n; h; w; c], X) ->
    exists s', example_vgg16 dt di Rsc exp eps lowest e p bs hs k m x s = Throw RuntimeError s' /\
      forall q, cells s' q = cells s q.
  Proof using Lo.
    intros bs hs k m n h w c s x X Hn Hh Fh Hw Fw Hc ND HB I.
    destruct (blocks_steps dt di lowest e p W B Lo n bs h w c X Hn Hh Fh Hw Fw Hc HB) as [_ Q].
    destruct (Q ND) as (l1 & f & l2 & c' & EL & S1 & HL). unfold example_vgg16. rewrite EL.
    eapply in_scope_throws; eauto.
  Qed.
End Layered.

Section Main.
  Context {V : Type} (dt : dtype V R) (di : dtype V Z) (cd : codec R) (code : Z) (fs : filesystem) (eps lowest : R) (e : engine).
  Context (C1 : (1 <= csize cd)%nat) (Lo : (lowest <= 0)%R).

  Lemma print_list : forall names y z (P : Z -> R) (s : st V) L a out,
    (forall i, In i L -> 0 <= i) ->
    (forall q i, nth_error L q = Some i ->
       cells s (addr y [Z.of_nat (a + q)]) = Init (emb dt (P i)) /\ cells s (addr z [Z.of_nat (a + q)]) = Init (emb di i)) ->
    foldM (map Z.of_nat (seq a (List.length L))) (fun out i =>
      c <- load di (addr z [i]) ;;
      v <- load dt (addr y [i]) ;;
      match nth_error names (Z.to_nat c) with
      | Some name => ret (out ++ [(c, v, name)])
      | None => undef
      end) out s =
    if forallb (fun i => i <? Z.of_nat (List.length names)) L
    then Ok (out ++ map (fun i => (i, P i, nth (Z.to_nat i) names ([] : list Z))) L) s else UB.
  Proof using C1 Lo.
    intros names y z P s L. induction L as [|i L IH]; intros a out Pos H; cbn [List.length seq map foldM forallb].
    - rewrite app_nil_r. reflexivity.
    - destruct (H 0%nat i eq_refl) as [Hy Hz]. rewrite Nat.add_0_r in Hy, Hz.
      assert (Pi : 0 <= i) by (apply Pos; left; reflexivity).
      unfold bind at 1. rewrite (bind_ok _ _ _ _ _ (load_ok di s _ i Hz)). rewrite (bind_ok _ _ _ _ _ (load_ok dt s _ (P i) Hy)).
      destruct (Z.ltb_spec i (Z.of_nat (List.length names))) as [Li|Li]; cbn [andb].
      + destruct (nth_error names (Z.to_nat i)) as [nm|] eqn:En; [|apply nth_error_None in En; lia].
        cbn [ret]. rewrite IH; [|intros j Hj; apply Pos; right; exact Hj|intros q j Hq; replace (S a + q)%nat with (a + S q)%nat by lia; apply H; exact Hq].
        rewrite <- app_assoc. cbn [app]. rewrite (nth_error_nth _ _ [] En). reflexivity.
      + destruct (nth_error names (Z.to_nat i)) as [nm|] eqn:En; [|reflexivity].
        assert (Z.to_nat i < List.length names)%nat by (apply nth_error_Some; congruence). lia.
  Qed.

  (** The picture file missing or of another shape. *)
  Lemma main_picture : forall net m0 m1 m2 h w m prefix names s, fresh_ok s -> u32_dims [h; w; 3] ->
    load_class_names fs (prefix ++ str "/vgg16-class-names.txt") = Ret names ->
    unreadable fs code [h; w; 3] (prefix ++ str "/laska.idx") ->
    exists s', vgg_main dt di Rsc cd code fs net m0 m1 m2 h w m prefix s = Throw RuntimeError s' /\ forall q, cells s' q = cells s q.
  Proof using C1 Lo.
    intros net m0 m1 m2 h w m prefix names s F U En Un. unfold vgg_main. rewrite En. cbn [lift]. rewrite bind_ret_l.
    match goal with |- context [with_tensor ?ds ?b s] => destruct (with_tensor_run ds b s F) as (s1 & N1 & F1 & K1 & M1 & Q) end.
    cbv zeta in Q. set (x := mktensor (nextb s) 0 [1; h; w; 3]) in *.
    assert (Ex : tdims x = [1; h; w; 3]) by reflexivity.
    rewrite (BaseFacts.bind_throw _ _ _ _ _ (C82_no_picture dt Rsc cd code fs m0 m1 m2 prefix x 1 h w s1 Ex U Un)) in Q.
    destruct Q as (s' & E & _ & C). exists s'. split; [exact E|]. intros q. rewrite C.
    destruct (Z.eqb_spec (fst q) (nextb s)) as [Eq|Nq]; [symmetry; apply F; lia|apply K1, Nq].
  Qed.

  (** From files to lines, for any network that classifies. *)
  Lemma main_prints : forall net m0 m1 m2 h w k m prefix names bytes I P s,
    fresh_ok s -> u32_dims [h; w; 3] -> 0 <= m <= k ->
    load_class_names fs (prefix ++ str "/vgg16-class-names.txt") = Ret names ->
    fs (prefix ++ str "/laska.idx") = Some bytes -> stores cd code [h; w; 3] bytes I ->
    (forall s x, input dt s x ([1; h; w; 3], arg4 (fun _ r c d => (I [r; c; d] - (if d =? 0 then m0 else if d =? 1 then m1 else m2))%R)) ->
       exists y z s', net x s = Ok (y, z) s' /\ grown s s' [y; z] /\ winners dt di k m P (y, z) s') ->
    exists L, Z.of_nat (List.length L) = m /\ lists_top k P L /\
      ((forall i, In i L -> i < Z.of_nat (List.length names)) ->
       exists s', vgg_main dt di Rsc cd code fs net m0 m1 m2 h w m prefix s
                  = Ok (map (fun i => (i, P i, nth (Z.to_nat i) names [])) L) s' /\ forall q, cells s' q = cells s q) /\
      ((exists i, In i L /\ Z.of_nat (List.length names) <= i) ->
       vgg_main dt di Rsc cd code fs net m0 m1 m2 h w m prefix s = UB).
  Proof using C1 Lo.
    intros net m0 m1 m2 h w k m prefix names bytes I P s F U Hm En Fs St Hnet. unfold vgg_main. rewrite En. cbn [lift]. rewrite bind_ret_l.
    match goal with |- context [with_tensor ?ds ?b s] => destruct (with_tensor_run ds b s F) as (s1 & N1 & F1 & K1 & M1 & Q) end.
    cbv zeta in Q. set (x := mktensor (nextb s) 0 [1; h; w; 3]) in *.
    assert (Ex : tdims x = [1; h; w; 3]) by reflexivity.
    destruct (C82_picture dt Rsc cd code fs C1 m0 m1 m2 prefix bytes x 1 h w I (fun _ => 0%R) s1 Ex ltac:(lia) U F1 M1 Fs St
                ltac:(intros; lia)) as (s2 & R2 & H2 & O2).
    assert (F2 : fresh_ok s2) by (eapply fresh_ok_only_changes; eauto).
    rewrite (bind_ok _ _ _ _ _ R2) in Q.
    destruct (Hnet s2 x) as (y & z & s3 & R3 & G3 & Dy & Dz & L & Ln & LT & Wr).
    { split; [exact F2|]. split; [inversion U as [|? ? U1 U2]; inversion U2; subst; cbn; repeat constructor; lia|]. split; [exact Ex|].
      cbn [snd]. eapply holds_ext; [|exact H2]. intros ix Hix. rewrite Ex in Hix. apply valid_4 in Hix.
      destruct Hix as (i & r & c & d & -> & Hi & _). unfold arg4. cbn [nth ssub Rsc]. replace (i =? 0) with true by lia. reflexivity. }
    rewrite (bind_ok _ _ _ _ _ R3) in Q. cbn [fst snd] in Q.
    assert (Lm : List.length L = Z.to_nat m) by lia.
    pose proof (print_list names y z P s3 L 0 [] ltac:(intros i Hi; apply LT in Hi; lia) Wr) as PL. rewrite Lm in PL.
    fold (print_top dt di names m y z) in PL. change (map Z.of_nat (seq 0 (Z.to_nat m))) with (zrange m) in PL.
    change (print_top dt di names m y z s3 = if forallb (fun i => i <? Z.of_nat (List.length names)) L
      then Ok ([] ++ map (fun i => (i, P i, nth (Z.to_nat i) names ([] : list Z))) L) s3 else UB) in PL.
    rewrite PL in Q. exists L. split; [lia|]. split; [exact LT|]. split.
    - intros All. replace (forallb _ L) with true in Q; [|symmetry; apply forallb_forall; intros i Hi; apply Z.ltb_lt, All, Hi].
      cbn [app] in Q. destruct Q as (s' & E & _ & C). exists s'. split; [exact E|]. intros q. rewrite C.
      destruct (Z.eqb_spec (fst q) (nextb s)) as [Eq|Nq]; [symmetry; apply F; lia|].
      rewrite (grown_release_all s2 s3 [y; z] F2 G3 q). transitivity (cells s1 q); [|apply K1, Nq]. apply O2.
      intros (o & _ & Eo). apply Nq. rewrite Eo. reflexivity.
    - intros (i & Hi & Li). replace (forallb _ L) with false in Q; [exact Q|]. symmetry. apply not_true_iff_false. intros A.
      rewrite forallb_forall in A. specialize (A i Hi). apply Z.ltb_lt in A. lia.
  Qed.

  (** The last member [name] of the archive is a tensor file for [X]. *)
  Definition archived (ms : list member) (name : string) (ds : list Z) (X : list Z -> R) : Prop :=
    exists l mb r, ms = l ++ mb :: r /\ m_name mb = str name /\ ~ In (m_name mb) (map m_name r) /\ stores cd code ds (m_data mb) X.

  (** Everything the programs read, for pictures of [h] x [w]: the picture [I],
      the weights [W], [B] and the lines of the file of names. *)
  Definition vgg16_files (fuel : nat) (prefix : list Z) (h w : Z) (I : list Z -> R) (W B : string -> list Z -> R) (names : list (list Z)) : Prop :=
    (exists lines last, fs (prefix ++ str "/vgg16-class-names.txt") = Some (text lines last) /\ Forall no_newline (last :: lines) /\
       names = lines ++ if list_eq_dec Z.eq_dec last [] then [] else [last]) /\
    (exists bytes, fs (prefix ++ str "/laska.idx") = Some bytes /\ stores cd code [h; w; 3] bytes I) /\
    exists ms k, fs (prefix ++ str "/vgg16_weights.idx.tar") = Some (archive ms k) /\ Forall member_ok ms /\ (List.length ms < fuel)%nat /\
      (forall name c d, In (name, c, d) vgg16_table ->
         archived ms (name ++ "_W") [3; 3; c; d] (W name) /\ archived ms (name ++ "_b") [d] (B name)) /\
      (forall name l d, In (name, l, d) [("fc6", h / 32 * (w / 32) * 512, 4096); ("fc7", 4096, 4096); ("fc8", 4096, 1000)]%string ->
         archived ms (name ++ "_W") [l; d] (W name) /\ archived ms (name ++ "_b") [d] (B name)).

  Lemma archived_fills : forall ms k fuel prefix name ds X, fs prefix = Some (archive ms k) -> Forall member_ok ms ->
    (List.length ms < fuel)%nat -> archived ms name ds X -> u32_dims ds ->
    fills dt (tar_init dt cd code fuel fs prefix name) ds X.
  Proof using C1.
    intros ms k fuel prefix name ds X F O L (l & mb & r & -> & En & N & St) U. eapply tar_stores; eauto.
  Qed.

  (** The pixels without their mean. *)
  Definition centred (m0 m1 m2 : R) (I : list Z -> R) : list Z -> R :=
    arg4 (fun _ r c d => (I [r; c; d] - (if d =? 0 then m0 else if d =? 1 then m1 else m2))%R).

  Lemma files_fill : forall fuel prefix h w I W B names, 1 <= h -> 1 <= w -> h * w * 64 <= 2 ^ 31 ->
    vgg16_files fuel prefix h w I W B names ->
    let p := tar_init dt cd code fuel fs (prefix ++ str "/vgg16_weights.idx.tar") in
    (forall name c d, In (name, c, d) vgg16_table ->
       fills dt (p (name ++ "_W")%string) [3; 3; c; d] (W name) /\ fills dt (p (name ++ "_b")%string) [d] (B name)) /\
    (forall name l d, In (name, l, d) [("fc6", h / 32 * (w / 32) * 512, 4096); ("fc7", 4096, 4096); ("fc8", 4096, 1000)]%string ->
       fills dt (p (name ++ "_W")%string) [l; d] (W name) /\ fills dt (p (name ++ "_b")%string) [d] (B name)).
  Proof using C1.
    intros fuel prefix h w I W B names Hh Hw Hs (_ & _ & ms & k & F & O & L & HC & HF) p.
    assert (Hl : 0 <= h / 32 * (w / 32) * 512 < 2 ^ 32).
    { pose proof (Z.div_mod h 32 ltac:(lia)). pose proof (Z.div_mod w 32 ltac:(lia)).
      pose proof (Z.mod_pos_bound h 32 ltac:(lia)). pose proof (Z.mod_pos_bound w 32 ltac:(lia)).
      assert (32 * (h / 32) * (32 * (w / 32)) <= h * w) by (apply Z.mul_le_mono_nonneg; lia).
      assert (0 <= h / 32 * (w / 32)) by (apply Z.mul_nonneg_nonneg; lia). lia. }
    split.
    - intros name c d J. destruct (HC name c d J) as [A1 A2].
      assert (Hcd : 0 <= c < 2 ^ 32 /\ 0 <= d < 2 ^ 32).
      { cbn in J. intuition (try congruence); repeat match goal with H : (_, _, _) = _ |- _ => injection H as <- <- <- end; lia. }
      split; eapply archived_fills; eauto; repeat constructor; lia.
    - intros name l d J. destruct (HF name l d J) as [A1 A2].
      assert (Hcd : 0 <= l < 2 ^ 32 /\ 0 <= d < 2 ^ 32).
      { cbn [In] in J. intuition (try congruence); repeat match goal with H : (_, _, _) = _ |- _ => injection H as <- <- <- end; lia. }
      split; eapply archived_fills; eauto; repeat constructor; lia.
  Qed.

  Lemma centred_u32 : forall h w, 1 <= h -> 1 <= w -> h * w * 64 <= 2 ^ 31 -> u32_dims [h; w; 3].
  Proof using. clear. intros h w Hh Hw Hs. repeat constructor; nia. Qed.

  (** Both programs print the [m] most probable classes, the most probable first,
      with probabilities and names, and release all their memory.  A winning class
      without a name is undefined behaviour. *)
  Theorem C83_program : forall fuel layered m0 m1 m2 h w m prefix I W B names s,
    fresh_ok s -> 1 <= h -> 1 <= w -> (32 | h) -> (32 | w) -> h * w * 64 <= 2 ^ 31 -> 0 <= m <= 1000 ->
    vgg16_files fuel prefix h w I W B names ->
    let P := softmax_fn eps 1000 (fun j => scores W B h w 3 vgg_d_blocks vgg_d_hidden vgg_d_classes (centred m0 m1 m2 I) [0; j]) in
    let program := vgg16_main dt di Rsc cd code fs exp eps lowest e fuel layered m0 m1 m2 h w m prefix in
    exists L, Z.of_nat (List.length L) = m /\ lists_top 1000 P L /\
      ((forall i, In i L -> i < Z.of_nat (List.length names)) ->
       exists s', program s = Ok (map (fun i => (i, P i, nth (Z.to_nat i) names [])) L) s' /\ forall q, cells s' q = cells s q) /\
      ((exists i, In i L /\ Z.of_nat (List.length names) <= i) -> program s = UB).
  Proof using C1 Lo.
    intros fuel layered m0 m1 m2 h w m prefix I W B names s F Hh Hw Dh Dw Hs Hm Files P program.
    destruct (files_fill _ _ _ _ _ _ _ _ Hh Hw Hs Files) as [HC HF]. cbv zeta in HC, HF.
    destruct Files as ((lines & lst & Fn & Nn & ->) & (bytes & Fp & St) & _).
    subst program. unfold vgg16_main. cbv zeta. set (p := tar_init dt cd code fuel fs (prefix ++ str "/vgg16_weights.idx.tar")) in *.
    eapply main_prints; eauto.
    - apply centred_u32; auto.
    - inversion Nn; subst. rewrite (C82_name fs _ lines lst) by auto. destruct (list_eq_dec Z.eq_dec lst []); [rewrite app_nil_r|]; reflexivity.
    - fold (centred m0 m1 m2 I). intros s1 x In.
      assert (Bh : h + 3 < 2 ^ 32) by nia. assert (Bw : w + 3 < 2 ^ 32) by nia.
      destruct layered.
      + apply (C83_network dt di eps lowest e p W B Lo vgg16_blocks vgg16_hidden vgg16_classes m 1 h w 3 s1 x (centred m0 m1 m2 I)); auto; try lia.
        * apply vgg16_blocks_ok; auto.
        * assert (EB : exists Y, blocks W B h w 3 vgg16_blocks (centred m0 m1 m2 I) = (h / 32, w / 32, 512, Y)).
          { eexists. cbn [blocks vgg16_blocks convs]. rewrite !Zdiv_Zdiv by lia. reflexivity. }
          destruct EB as (Y & ->). cbn [hidden_ok vgg16_hidden vgg16_classes chan fold_left fst snd]. unfold param_ok.
          pose proof (HF "fc6"%string _ _ (or_introl eq_refl)). pose proof (HF "fc7"%string _ _ (or_intror (or_introl eq_refl))).
          pose proof (HF "fc8"%string _ _ (or_intror (or_intror (or_introl eq_refl)))).
          repeat split; try lia; tauto.
      + destruct (C80_vgg16 dt di eps lowest e p W B Lo m 1 h w s1 x (centred m0 m1 m2 I) ltac:(lia) Hh Hw Dh Dw Hs ltac:(lia) HC HF In)
          as (y & z & s' & L & E & G & Dy & Dz & Ln & LT & Wr).
        exists y, z, s'. split; [exact E|]. split; [exact G|]. split; [exact Dy|]. split; [exact Dz|]. exists L. auto.
  Qed.

  (** Failures: std::runtime_error, and memory is as before. *)
  Theorem C83_fails : forall fuel layered m0 m1 m2 h w m prefix s, fresh_ok s -> 1 <= h -> 1 <= w -> h * w * 64 <= 2 ^ 31 ->
    fs (prefix ++ str "/vgg16-class-names.txt") = None \/
    unreadable fs code [h; w; 3] (prefix ++ str "/laska.idx") \/
    (exists I W B names, vgg16_files fuel prefix h w I W B names /\ ~ ((32 | h) /\ (32 | w))) ->
    exists s', vgg16_main dt di Rsc cd code fs exp eps lowest e fuel layered m0 m1 m2 h w m prefix s = Throw RuntimeError s' /\
      forall q, cells s' q = cells s q.
  Proof using C1 Lo.
    intros fuel layered m0 m1 m2 h w m prefix s F Hh Hw Hs Hc. unfold vgg16_main. cbv zeta.
    destruct (fs (prefix ++ str "/vgg16-class-names.txt")) as [content|] eqn:En.
    2: { exists s. split; [|reflexivity]. unfold vgg_main. rewrite (C82_no_names fs _ En). reflexivity. }
    destruct (C82_names fs _ content En) as (lines & lst & _ & _ & _ & Ec).
    destruct Hc as [Hc|[Hc|(I & W & B & names & Files & ND)]]; [discriminate| |].
    { eapply main_picture; eauto. apply centred_u32; auto. }
    destruct (files_fill _ _ _ _ _ _ _ _ Hh Hw Hs Files) as [HC _]. cbv zeta in HC.
    destruct Files as (_ & (bytes & Fp & St) & _).
    set (p := tar_init dt cd code fuel fs (prefix ++ str "/vgg16_weights.idx.tar")) in *.
    unfold vgg_main. rewrite Ec. cbn [lift]. rewrite bind_ret_l.
    match goal with |- context [with_tensor ?ds ?b s] => destruct (with_tensor_run ds b s F) as (s1 & N1 & F1 & K1 & M1 & Q) end.
    cbv zeta in Q. set (x := mktensor (nextb s) 0 [1; h; w; 3]) in *.
    assert (Ex : tdims x = [1; h; w; 3]) by reflexivity.
    pose proof (centred_u32 h w Hh Hw Hs) as U.
    destruct (C82_picture dt Rsc cd code fs C1 m0 m1 m2 prefix bytes x 1 h w I (fun _ => 0%R) s1 Ex ltac:(lia) U F1 M1 Fp St
                ltac:(intros; lia)) as (s2 & R2 & H2 & O2).
    assert (F2 : fresh_ok s2) by (eapply fresh_ok_only_changes; eauto).
    rewrite (bind_ok _ _ _ _ _ R2) in Q.
    match type of H2 with holds _ _ _ ?Y => set (X := Y) in * end.
    assert (In : input dt s2 x ([1; h; w; 3], X)).
    { split; [exact F2|]. split; [cbn; repeat constructor; lia|]. split; [exact Ex|exact H2]. }
    assert (Bh : h + 3 < 2 ^ 32) by nia. assert (Bw : w + 3 < 2 ^ 32) by nia.
    assert (K : exists s3, (if layered then example_vgg16 dt di Rsc exp eps lowest e p vgg16_blocks vgg16_hidden vgg16_classes m
       else vgg16_model dt di Rsc exp eps lowest e p m) x s2 = Throw RuntimeError s3 /\ forall q, cells s3 q = cells s2 q).
    { destruct layered.
      - eapply (C83_rejects dt di eps lowest e p W B Lo vgg16_blocks vgg16_hidden vgg16_classes m 1 h w 3 s2 x X); auto; try lia.
        apply vgg16_blocks_ok; auto.
      - eapply (C80_vgg16_rejects dt di eps lowest e p W B Lo m 1 h w s2 x X); auto; lia. }
    destruct K as (s3 & E3 & C3). rewrite (BaseFacts.bind_throw _ _ _ _ _ E3) in Q.
    destruct Q as (s' & E & _ & C). exists s'. split; [exact E|]. intros q. rewrite C.
    destruct (Z.eqb_spec (fst q) (nextb s)) as [Eq|Nq]; [symmetry; apply F; lia|].
    rewrite C3. transitivity (cells s1 q); [|apply K1, Nq]. apply O2. intros (o & _ & Eo). apply Nq. rewrite Eo. reflexivity.
  Qed.
End Main.

(** *** Files for 224 x 224 pictures exist: everything zero, two names. *)
Definition vgg16_members : list (string * list Z) :=
  flat_map (fun '(name, c, d) => [((name ++ "_W")%string, [3; 3; c; d]); ((name ++ "_b")%string, [d])]) vgg16_table ++
  flat_map (fun '(name, l, d) => [((name ++ "_W")%string, [l; d]); ((name ++ "_b")%string, [d])])
    [("fc6"%string, 224 / 32 * (224 / 32) * 512, 4096); ("fc7"%string, 4096, 4096); ("fc8"%string, 4096, 1000)].
Definition zero_file (code : Z) (ds : list Z) : list Z := idx_header code ds ++ repeat 0 (Z.to_nat (prod ds)).
Definition zero_member (code : Z) (x : string * list Z) : member :=
  mkmember (str (fst x)) (repeat 0 24) (repeat 0 376) (zero_file code (snd x)).
Definition zero_codec : codec R := mkcodec 1 (fun _ => [0]) (fun _ => 0%R).

Lemma zero_stores : forall code ds, stores zero_codec code ds (zero_file code ds) (fun _ => 0%R).
Proof.
  intros code ds. eexists. split; [reflexivity|]. split; [rewrite repeat_length; cbn [csize zero_codec]; lia|]. reflexivity.
Qed.

Lemma zero_archived : forall code l name ds, NoDup (map (fun x => str (fst x)) l) -> In (name, ds) l ->
  archived zero_codec code (map (zero_member code) l) name ds (fun _ => 0%R).
Proof.
  intros code l name ds N I. apply in_split in I. destruct I as (l1 & l2 & ->).
  exists (map (zero_member code) l1), (zero_member code (name, ds)), (map (zero_member code) l2).
  split; [rewrite map_app; reflexivity|]. split; [reflexivity|]. split; [|apply zero_stores].
  rewrite map_app in N. apply NoDup_remove_2 in N. intros J. apply N. apply in_or_app. right.
  rewrite map_map in J. exact J.
Qed.

Example C83_files : forall code, exists fs W B I,
  vgg16_files zero_codec code fs 100 (str "p") 224 224 I W B [str "cat"; str "dog"].
Proof.
  intros code.
  set (ms := map (zero_member code) vgg16_members).
  exists (fun n => if list_eq_dec Z.eq_dec n (str "p/vgg16-class-names.txt") then Some (str "cat" ++ [10] ++ str "dog" ++ [10])
             else if list_eq_dec Z.eq_dec n (str "p/laska.idx") then Some (zero_file code [224; 224; 3])
             else if list_eq_dec Z.eq_dec n (str "p/vgg16_weights.idx.tar") then Some (archive ms 2) else None),
    (fun _ _ => 0%R), (fun _ _ => 0%R), (fun _ => 0%R).
  assert (N : NoDup (map (fun x => str (fst x)) vgg16_members)).
  { apply (NoDup_count_occ' (list_eq_dec Z.eq_dec)).
    assert (Q : forallb (fun n => Nat.eqb (count_occ (list_eq_dec Z.eq_dec) (map (fun x => str (fst x)) vgg16_members) n) 1)
                  (map (fun x => str (fst x)) vgg16_members) = true) by (vm_compute; reflexivity).
    intros n I. rewrite forallb_forall in Q. apply Nat.eqb_eq, Q, I. }
  split; [|split].
  - exists [str "cat"; str "dog"], []. split; [reflexivity|]. split; [|reflexivity].
    repeat constructor; unfold no_newline; cbn; lia.
  - exists (zero_file code [224; 224; 3]). split; [|apply zero_stores].
    destruct (list_eq_dec Z.eq_dec (str "p" ++ str "/laska.idx") (str "p/vgg16-class-names.txt")) as [Q|_]; [discriminate Q|].
    destruct (list_eq_dec Z.eq_dec (str "p" ++ str "/laska.idx") (str "p/laska.idx")) as [_|Q]; [reflexivity|exfalso; apply Q; reflexivity].
  - exists ms, 2%nat. split; [|split; [|split; [|split]]].
    + match goal with |- (if list_eq_dec _ ?a ?b then _ else _) = _ => destruct (list_eq_dec Z.eq_dec a b) as [Q|_]; [discriminate Q|] end.
      match goal with |- (if list_eq_dec _ ?a ?b then _ else _) = _ => destruct (list_eq_dec Z.eq_dec a b) as [Q|_]; [discriminate Q|] end.
      match goal with |- (if list_eq_dec _ ?a ?b then _ else _) = _ => destruct (list_eq_dec Z.eq_dec a b) as [_|Q]; [reflexivity|exfalso; apply Q; reflexivity] end.
    + subst ms. apply Forall_forall. intros mb I. apply in_map_iff in I. destruct I as ([name ds] & <- & I).
      assert (Q : forallb (fun x => (0 <=? prod (snd x)) && (prod (snd x) <=? 2 ^ 30) && (List.length (snd x) <=? 4)%nat &&
                    (List.length (str (fst x)) <=? 100)%nat && negb (List.length (str (fst x)) =? 0)%nat &&
                    forallb (fun b => negb (b =? 0)) (str (fst x))) vgg16_members = true) by (vm_compute; reflexivity).
      rewrite forallb_forall in Q. specialize (Q _ I). cbn [fst snd] in Q. rewrite !andb_true_iff in Q.
      destruct Q as (((((Q1 & Q2) & Q3) & Q4) & Q5) & Q6). apply Nat.leb_le in Q3, Q4.
      unfold member_ok, zero_member. cbn [m_name m_mid m_tail m_data fst snd].
      split; [intros E; rewrite E in Q5; discriminate|]. split.
      { intros J. rewrite forallb_forall in Q6. apply Q6 in J. discriminate. }
      split; [exact Q4|]. split; [reflexivity|]. split; [reflexivity|].
      unfold zero_file. rewrite app_length, repeat_length. unfold idx_header. rewrite app_length.
      assert (L4 : forall l, List.length (flat_map be4 l) = (4 * List.length l)%nat).
      { induction l as [|a l IH]; [reflexivity|]. cbn [flat_map]. rewrite app_length, IH. cbn. lia. }
      rewrite L4. cbn [List.length]. unfold size_limit. lia.
    + subst ms. rewrite map_length. vm_compute. lia.
    + intros name c d I. subst ms. split; (apply zero_archived; [exact N|]);
        apply in_or_app; left; apply in_flat_map; exists (name, c, d); (split; [exact I|]); cbn; auto.
    + intros name l d I. subst ms. split; (apply zero_archived; [exact N|]);
        apply in_or_app; right; apply in_flat_map; exists (name, l, d); (split; [exact I|]); cbn [In]; auto.
Qed.

(** *** A concrete run: pictures of 2 x 2, one convolution, three classes, 2^x in
    place of exp; both programs, then with a name missing, then with no picture. *)
Example C83_example :
  let p (name : string) (t : tensor) : M Q unit :=
    for_ (zrange (size t)) (fun i => store qt (daddr t i)
      (if String.eqb name "a_W" then 1 else if String.eqb name "o_W" then inject_Z i else 0)%Q) in
  let cdq : codec Q := mkcodec 1 (fun _ => []) (fun l => inject_Z (nth 0 l 0)) in
  let fs (names pic : list Z) n :=
    if list_eq_dec Z.eq_dec n (str "d/vgg16-class-names.txt") then Some names
    else if list_eq_dec Z.eq_dec n (str "d/laska.idx") then Some pic else None in
  let bs := [[(1, "a"%string)]] in
  let k := (3, "o"%string) in
  let pic := [0; 0; 8; 3; 0; 0; 0; 2; 0; 0; 0; 2; 0; 0; 0; 3;  11; 7; 3;  10; 7; 3;  10; 8; 3;  10; 7; 3] in
  let names := str "cat" ++ [10] ++ str "dog" ++ [10] ++ str "weasel" in
  let layered := example_vgg16 qt qz Qsc exp2 (1#1000) (-1000)%Q Builtin p bs [] k 2 in
  let model := vgg_model qt qz Qsc exp2 (1#1000) (-1000)%Q Builtin p bs [] k 2 in
  let go names pic net :=
    match vgg_main qt qz Qsc cdq 8 (fs names pic) net 10%Q 7%Q 3%Q 2 2 2 (str "d") (demo [[9%Q]]) with
    | Ok l s => Some (Some l, map (fun b => cells s (b, 0)) [0; 1; 2; 3])
    | Throw _ s => Some (None, map (fun b => cells s (b, 0)) [0; 1; 2; 3])
    | UB => None
    end in
  let lines := [(2, (16 # 21)%Q, str "weasel"); (1, (4 # 21)%Q, str "dog")] in
  go names pic layered = Some (Some lines, [Init 9%Q; Unmapped; Unmapped; Unmapped]) /\
  go names pic model = Some (Some lines, [Init 9%Q; Unmapped; Unmapped; Unmapped]) /\
  go (firstn 8 names) pic layered = None /\
  go names [] layered = None /\
  go names (0 :: pic) layered = Some (None, [Init 9%Q; Unmapped; Unmapped; Unmapped]).
Proof. vm_compute. repeat split. Qed.

Print Assumptions C83_network.
Print Assumptions C83_rejects.
Print Assumptions C83_program.
Print Assumptions C83_fails.
