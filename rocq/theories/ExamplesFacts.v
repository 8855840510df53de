(** Proofs about idx files, text files and layers in scope. *)
From Coq Require Import ZArith List Bool Lia String.
From Verif Require Import Base BaseFacts TensorFacts Traits HashSpec Scalar Io IoSpec IoFacts TarFacts PropsIo Layers LayersSpec LayersFacts
  LayerCalls Vgg Examples ExamplesSpec.
Import ListNotations.
Open Scope Z_scope.
Open Scope model_scope.

(** ** Files *)
Section Files.
  Context {V T : Type} (dt : dtype V T) (cd : codec T) (code : Z).

  Lemma stores_file : forall ds X tl, codec_ok cd -> u32_dims ds -> stores cd code ds (idx_file cd code ds X ++ tl) X.
  Proof using.
    intros ds X tl C U. exists (flat_map (fun ix => enc cd (X ix)) (indices ds) ++ tl).
    assert (D : Forall (fun d => 0 <= d) ds) by (eapply Forall_impl; [|exact U]; cbn; lia).
    pose proof (prod_nonneg _ D) as P.
    assert (Li : List.length (indices ds) = Z.to_nat (prod ds)) by (rewrite indices_expand, map_length, length_zrange by auto; reflexivity).
    assert (Lf : forall l, List.length (flat_map (fun ix => enc cd (X ix)) l) = (csize cd * List.length l)%nat).
    { intros l. induction l as [|ix l IH]; cbn [flat_map List.length]; [lia|]. rewrite app_length, IH. destruct C as [_ C].
      destruct (C (X ix)) as (-> & _). lia. }
    split; [unfold idx_file; rewrite app_assoc; reflexivity|]. split; [rewrite app_length, Lf, Li; lia|].
    intros ix Hix. pose proof (offset_bound _ _ Hix) as Ho.
    pose proof (chunk_flat cd X (indices ds) tl (List.length (flat_map (fun ix => enc cd (X ix)) (indices ds) ++ tl)) (offset ds ix) C) as Q.
    rewrite firstn_all in Q. unfold chunk in Q. rewrite Q; [|rewrite Li; lia|rewrite app_length, Lf; lia].
    destruct C as [_ C]. destruct (C (X (nth (Z.to_nat (offset ds ix)) (indices ds) []))) as (_ & _ & ->). f_equal.
    rewrite indices_expand by auto. rewrite nth_indep with (d' := expand ds 0) by (rewrite map_length, length_zrange; lia).
    rewrite map_nth. unfold zrange. change 0 with (Z.of_nat 0). rewrite map_nth. rewrite seq_nth by lia.
    cbn [Nat.add]. rewrite Z2Nat.id by lia. symmetry. apply expand_offset. auto.
  Qed.

  Lemma stores_tail : forall ds bytes X tl, stores cd code ds bytes X -> (1 <= csize cd)%nat -> stores cd code ds (bytes ++ tl) X.
  Proof using.
    intros ds bytes X tl (data & -> & L & H) C. exists (data ++ tl). split; [symmetry; apply app_assoc|].
    split; [rewrite app_length; lia|]. intros ix Hix. rewrite H by auto. f_equal. pose proof (offset_bound _ _ Hix) as Ho.
    assert (Z.to_nat (offset ds ix) * csize cd + csize cd <= List.length data)%nat by nia.
    rewrite skipn_app, firstn_app, skipn_length.
    replace (csize cd - (List.length data - Z.to_nat (offset ds ix) * csize cd))%nat with 0%nat by lia.
    cbn [firstn]. rewrite app_nil_r. reflexivity.
  Qed.

  Lemma deserialize_stores : forall y bytes X s, (1 <= csize cd)%nat -> u32_dims (tdims y) -> mapped s y ->
    stores cd code (tdims y) bytes X -> writes dt (deserialize dt cd code y (mkstream bytes true)) s y X.
  Proof using.
    intros y bytes X s C U M (data & -> & L & H). pose proof (u32_nonneg y U) as D. pose proof (prod_nonneg _ D) as P.
    destruct (load_bytes_cells dt cd y (firstn (csize cd * Z.to_nat (size y)) data) s C P M) as (s' & E & N & G & F).
    exists s'. split; [rewrite deserialize_ok by auto; exact E|]. split; [|split; [lia|exact F]].
    intros ix Hix. unfold addr. pose proof (offset_bound _ _ Hix) as Ho. rewrite G by auto.
    assert (B : (Z.to_nat (offset (tdims y) ix) * csize cd + csize cd <= csize cd * Z.to_nat (size y))%nat) by (unfold size; nia).
    assert (Ch : chunk cd (firstn (csize cd * Z.to_nat (size y)) data) (offset (tdims y) ix) =
      firstn (csize cd) (skipn (Z.to_nat (offset (tdims y) ix) * csize cd) data)).
    { unfold chunk. rewrite skipn_firstn_comm, firstn_firstn. f_equal. lia. }
    rewrite Ch. unfold patch. rewrite firstn_length_le by (rewrite skipn_length; unfold size in *; lia).
    rewrite Nat.eqb_refl, H by auto. reflexivity.
  Qed.

  Lemma readfile_stores : forall fs name bytes y X s, (1 <= csize cd)%nat -> u32_dims (tdims y) -> mapped s y ->
    fs name = Some bytes -> stores cd code (tdims y) bytes X -> writes dt (op_readfile dt cd code fs name y) s y X.
  Proof using. intros fs name bytes y X s C U M F H. unfold op_readfile. rewrite F. apply deserialize_stores; auto. Qed.

  (** A member of an archive. *)
  Lemma tar_stores : forall fs prefix l m r k fuel name ds X,
    fs prefix = Some (archive (l ++ m :: r) k) -> Forall member_ok (l ++ m :: r) -> (List.length (l ++ m :: r) < fuel)%nat ->
    m_name m = str name -> ~ In (m_name m) (map m_name r) -> stores cd code ds (m_data m) X -> (1 <= csize cd)%nat -> u32_dims ds ->
    fills dt (tar_init dt cd code fuel fs prefix name) ds X.
  Proof using.
    intros fs prefix l m r k fuel name ds X F W Hf En N St C U s w Fr Ew Mw. unfold tar_init.
    change (map (fun a => Z.of_nat (Ascii.nat_of_ascii a)) (list_ascii_of_string name)) with (str name). rewrite <- En.
    unfold writes. rewrite (readtar_member dt cd code fs prefix l m r k fuel w s F W Hf N).
    apply deserialize_stores; [exact C|rewrite Ew; exact U|exact Mw|]. rewrite Ew. apply stores_tail; auto.
  Qed.
End Files.

(** ** Text *)
Lemma getline_line : forall l r, no_newline l -> getline (l ++ 10 :: r) = (l, r).
Proof.
  intros l r. induction l as [|b l IH]; intros N; cbn [app getline]; [reflexivity|].
  destruct (Z.eqb_spec b 10) as [->|Nb]; [exfalso; apply N; left; reflexivity|].
  rewrite IH; [reflexivity|]. intros I. apply N. right. exact I.
Qed.

Lemma getline_last : forall l, no_newline l -> getline l = (l, []).
Proof.
  intros l. induction l as [|b l IH]; intros N; cbn [getline]; [reflexivity|].
  destruct (Z.eqb_spec b 10) as [->|Nb]; [exfalso; apply N; left; reflexivity|].
  rewrite IH; [reflexivity|]. intros I. apply N. right. exact I.
Qed.

Lemma all_lines_text : forall ls l fuel, Forall no_newline ls -> no_newline l ->
  (List.length (text ls l) <= fuel)%nat -> all_lines fuel (text ls l) = ls ++ (match l with [] => [] | _ => [l] end).
Proof.
  intros ls. induction ls as [|x ls IH]; intros l fuel N Nl L; unfold text in *; cbn [flat_map app] in *.
  - destruct l as [|b l]; [destruct fuel; reflexivity|]. cbn [List.length] in L. destruct fuel as [|fuel]; [lia|].
    cbn [all_lines]. rewrite getline_last by auto. destruct fuel; reflexivity.
  - inversion N; subst. rewrite <- !app_assoc in *. cbn [app] in *. rewrite app_length in L. cbn [List.length] in L.
    destruct fuel as [|fuel]; [lia|].
    assert (Ne : exists b t, x ++ 10 :: flat_map (fun l => l ++ [10]) ls ++ l = b :: t) by (destruct x; cbn; eauto).
    destruct Ne as (b & t & Ne). cbn [all_lines]. rewrite Ne. rewrite <- Ne, getline_line by auto. cbn [app]. f_equal.
    apply IH; auto. lia.
Qed.

Lemma text_exists : forall c, exists ls l, c = text ls l /\ Forall no_newline ls /\ no_newline l.
Proof.
  induction c as [|b c (ls & l & -> & N & Nl)].
  - exists [], []. split; [reflexivity|]. split; [constructor|intros []].
  - destruct (Z.eq_dec b 10) as [->|Nb].
    + exists ([] :: ls), l. split; [reflexivity|]. split; [constructor; auto; intros []|auto].
    + destruct ls as [|x ls].
      * exists [], (b :: l). split; [reflexivity|]. split; [constructor|]. intros [->|I]; [congruence|auto].
      * exists ((b :: x) :: ls), l. split; [reflexivity|]. inversion N; subst. split; [|auto]. constructor; auto.
        intros [->|I]; [congruence|auto].
Qed.
