(** Properties C81, C82: the data the examples start from. *)
From Coq Require Import ZArith List Bool Lia String.
From Verif Require Import Base BaseFacts TensorFacts Traits HashSpec Scalar Demo Elem ElemFacts Io IoSpec IoFacts PropsIo
  Layers LayersSpec LayersFacts PropsTrain PropsLayers2 Examples ExamplesSpec ExamplesFacts.
Import ListNotations.
Open Scope Z_scope.
Open Scope model_scope.

(** *** C81: load_mnist_data. *)

(** A file that readfile rejects for shape [ds]: it cannot be opened or its
    header is another one. *)
Definition unreadable (fs : filesystem) (code : Z) (ds : list Z) (name : list Z) : Prop :=
  match fs name with
  | None => True
  | Some c => is_bytes c /\ (List.length (idx_header code ds) <= List.length c)%nat /\
              firstn (List.length (idx_header code ds)) c <> idx_header code ds
  end.

Section Mnist.
  Context {V T : Type} (dt : dtype V T) (cd : codec T) (code : Z) (fs : filesystem).
  Context (C1 : (1 <= csize cd)%nat).

  (** What element [o] of a new tensor holds after reading [data]. *)
  Definition got (data : list Z) (o : Z) (c : cell V) : Prop :=
    let sz := csize cd in
    ((Z.to_nat o * sz + sz <= List.length data)%nat -> c = Init (emb dt (dec cd (firstn sz (skipn (Z.to_nat o * sz) data))))) /\
    ((List.length data <= Z.to_nat o * sz)%nat -> c = Uninit).

  Lemma readfile_new : forall name data y s, u32_dims (tdims y) -> mapped s y ->
    (forall q, foot y q -> cells s q = Uninit) -> fs name = Some (idx_header code (tdims y) ++ data) ->
    exists s', op_readfile dt cd code fs name y s = Ok tt s' /\ only_changes y s s' /\ mapped s' y /\
      forall o, 0 <= o < size y -> got data o (cells s' (daddr y o)).
  Proof using C1.
    intros name data y s U M Un F. pose proof (u32_nonneg y U) as D.
    destruct (load_bytes_cells dt cd y (firstn (csize cd * Z.to_nat (size y)) data) s C1 (prod_nonneg _ D) M) as (s' & E & N & G & K).
    exists s'. split; [unfold op_readfile; rewrite F, deserialize_ok by auto; exact E|]. split; [split; [lia|exact K]|].
    assert (Q : forall o, 0 <= o < size y ->
      cells s' (daddr y o) = patch dt cd (firstn (csize cd) (skipn (Z.to_nat o * csize cd) data)) Uninit).
    { intros o Ho. rewrite G, Un by (auto; apply daddr_foot; auto). f_equal. unfold chunk. rewrite skipn_firstn_comm, firstn_firstn.
      f_equal. nia. }
    split.
    - intros q (o & Ho & ->). rewrite Q by auto. unfold patch.
      set (ch := firstn _ _). destruct (Nat.eqb _ _); [discriminate|]. destruct ch; discriminate.
    - intros o Ho. rewrite Q by auto. set (ch := firstn (csize cd) (skipn (Z.to_nat o * csize cd) data)).
      assert (L : List.length ch = Nat.min (csize cd) (List.length data - Z.to_nat o * csize cd)) by (unfold ch; rewrite firstn_length, skipn_length; reflexivity).
      unfold got. fold ch. unfold patch. split; intros H.
      + destruct (Nat.eqb_spec (List.length ch) (csize cd)); [reflexivity|lia].
      + destruct (Nat.eqb_spec (List.length ch) (csize cd)); [lia|]. destruct ch; reflexivity.
  Qed.

  Lemma readfile_bad : forall name y (s : st V), u32_dims (tdims y) -> unreadable fs code (tdims y) name ->
    op_readfile dt cd code fs name y s = Throw RuntimeError s.
  Proof using.
    intros name y s U H. unfold unreadable in H. destruct (fs name) as [c|] eqn:F.
    - destruct H as (B & L & N). eapply C54_mismatch; eauto.
    - unfold op_readfile. rewrite F. reflexivity.
  Qed.

  (** Both tensors allocated. *)
  Lemma pair_start : forall n h w s, fresh_ok s -> 0 <= n -> 0 <= h -> 0 <= w ->
    exists images labels s2, grown s s2 [images; labels] /\ tdims images = [n; h; w] /\ tdims labels = [n] /\
      (forall q, foot images q -> cells s2 q = Uninit) /\ (forall q, foot labels q -> cells s2 q = Uninit) /\
      (forall prefix, load_pair dt cd code fs n h w prefix s =
         match (op_readfile dt cd code fs (prefix ++ str "-images-idx3-ubyte") images ;;;
                op_readfile dt cd code fs (prefix ++ str "-labels-idx1-ubyte") labels ;;; ret (images, labels)) s2 with
         | Throw e s' => Throw e (release [labels; images] s')
         | r => r
         end).
  Proof using C1.
    intros n h w s F Hn Hh Hw.
    destruct (new_tensor_born s [n; h; w] F) as (im & s1 & E1 & B1). pose proof (grown_born s s s1 [] im _ (grown_nil s F) B1) as G1.
    destruct (new_tensor_born s1 [n] ltac:(apply G1)) as (lb & s2 & E2 & B2). pose proof (grown_born s s1 s2 [im] lb _ G1 B2) as G2.
    exists im, lb, s2. split; [eapply grown_perm; [apply Permutation.perm_swap|exact G2]|].
    split; [apply B1|]. split; [apply B2|]. split; [|split; [apply B2|]].
    - intros q Hq. assert (Q : cells s1 q = Uninit) by (apply B1; exact Hq). rewrite <- Q.
      destruct B2 as (_ & _ & _ & _ & _ & _ & K & _). apply K. destruct Hq as (o & _ & ->). cbn.
      destruct B1 as (_ & _ & E3 & E4 & _). lia.
    - intros prefix. unfold load_pair, moved_out. rewrite (bind_ok _ _ _ _ _ E1).
      rewrite (bind_ok _ _ _ _ _ E2). match goal with |- match match ?m with _ => _ end with _ => _ end = _ => destruct m end; reflexivity.
  Qed.

  (** With the right headers the call succeeds: two new tensors, filled as far as
      the files go; what is missing stays uninitialised. *)
  Lemma pair_headers : forall n h w prefix id ld s, fresh_ok s -> u32_dims [n; h; w] ->
    fs (prefix ++ str "-images-idx3-ubyte") = Some (idx_header code [n; h; w] ++ id) ->
    fs (prefix ++ str "-labels-idx1-ubyte") = Some (idx_header code [n] ++ ld) ->
    exists images labels s', load_pair dt cd code fs n h w prefix s = Ok (images, labels) s' /\
      grown s s' [images; labels] /\ tdims images = [n; h; w] /\ tdims labels = [n] /\
      (forall o, 0 <= o < n * h * w -> got id o (cells s' (daddr images o))) /\
      (forall o, 0 <= o < n -> got ld o (cells s' (daddr labels o))).
  Proof using C1.
    intros n h w prefix id ld s F U Fi Fl. assert (U' := U). unfold u32_dims in U. rewrite !Forall_cons_iff in U.
    destruct (pair_start n h w s F) as (im & lb & s2 & G2 & Di & Dl & Ui & Ul & E); try lia. specialize (E prefix).
    assert (Mi : mapped s2 im /\ mapped s2 lb).
    { destruct G2 as (_ & _ & _ & A & _). rewrite !Forall_cons_iff in A. tauto. }
    assert (Nb : tblk im <> tblk lb) by (destruct G2 as (_ & _ & ND & _); cbn [map] in ND; inversion ND as [|? ? Q _]; intros E0; apply Q; left; auto).
    destruct (readfile_new (prefix ++ str "-images-idx3-ubyte") id im s2) as (s3 & E3 & O3 & M3 & Gi);
      [rewrite Di; auto|tauto|exact Ui|rewrite Di; exact Fi|].
    destruct (grown_change s s2 s3 [im; lb] im G2 (or_introl eq_refl) O3 M3) as [G3 K3].
    assert (Kl : forall q, foot lb q -> cells s3 q = cells s2 q) by (intros q (o & _ & ->); apply K3; cbn; auto).
    destruct (readfile_new (prefix ++ str "-labels-idx1-ubyte") ld lb s3) as (s4 & E4 & O4 & M4 & Gl).
    { rewrite Dl. unfold u32_dims. repeat constructor; lia. }
    { intros q Hq. rewrite Kl by auto. apply Mi. exact Hq. }
    { intros q Hq. rewrite Kl by auto. apply Ul, Hq. }
    { rewrite Dl. exact Fl. }
    destruct (grown_change s s3 s4 [im; lb] lb G3 (or_intror (or_introl eq_refl)) O4 M4) as [G4 K4].
    exists im, lb, s4. rewrite E, (bind_ok _ _ _ _ _ E3), (bind_ok _ _ _ _ _ E4).
    split; [reflexivity|]. split; [exact G4|]. split; [exact Di|]. split; [exact Dl|]. split.
    - intros o Ho. rewrite K4 by (cbn; auto). apply Gi. unfold size. rewrite Di. cbn. lia.
    - intros o Ho. apply Gl. unfold size. rewrite Dl. cbn. lia.
  Qed.

  Lemma pair_fails : forall n h w prefix s, fresh_ok s -> u32_dims [n; h; w] ->
    unreadable fs code [n; h; w] (prefix ++ str "-images-idx3-ubyte") \/
    (exists id, fs (prefix ++ str "-images-idx3-ubyte") = Some (idx_header code [n; h; w] ++ id)) /\
    unreadable fs code [n] (prefix ++ str "-labels-idx1-ubyte") ->
    exists s', load_pair dt cd code fs n h w prefix s = Throw RuntimeError s' /\ nextb s <= nextb s' /\ forall q, cells s' q = cells s q.
  Proof using C1.
    intros n h w prefix s F U H. assert (U' := U). unfold u32_dims in U. rewrite !Forall_cons_iff in U.
    destruct (pair_start n h w s F) as (im & lb & s2 & G2 & Di & Dl & Ui & Ul & E); try lia. specialize (E prefix). rewrite E. clear E.
    destruct H as [H|((id & Fi) & H)].
    - assert (Q : op_readfile dt cd code fs (prefix ++ str "-images-idx3-ubyte") im s2 = Throw RuntimeError s2).
      { apply readfile_bad; rewrite Di; auto. }
      eexists. split; [unfold bind; rewrite Q; reflexivity|]. split; [rewrite release_nextb; apply G2|]. apply grown_release_all; [exact F|].
      eapply grown_perm; [apply Permutation.perm_swap|exact G2].
    - assert (Mi : mapped s2 im).
      { destruct G2 as (_ & _ & _ & A & _). rewrite !Forall_cons_iff in A. tauto. }
      destruct (readfile_new (prefix ++ str "-images-idx3-ubyte") id im s2) as (s3 & E3 & O3 & M3 & Gi);
        [rewrite Di; auto|tauto|exact Ui|rewrite Di; exact Fi|].
      destruct (grown_change s s2 s3 [im; lb] im G2 (or_introl eq_refl) O3 M3) as [G3 K3].
      assert (Q : op_readfile dt cd code fs (prefix ++ str "-labels-idx1-ubyte") lb s3 = Throw RuntimeError s3).
      { apply readfile_bad; rewrite Dl; auto. unfold u32_dims. repeat constructor; lia. }
      eexists. split; [rewrite (bind_ok _ _ _ _ _ E3); unfold bind; rewrite Q; reflexivity|]. split; [rewrite release_nextb; apply G3|]. apply grown_release_all; [exact F|].
      eapply grown_perm; [apply Permutation.perm_swap|exact G3].
  Qed.

  Definition mnist_set (name : list Z) (n : Z) : Prop :=
    (name = str "train" /\ n = 60000) \/ (name = str "t10k" /\ n = 10000).
  Definition images_file (dir name : list Z) : list Z := dir ++ str "/" ++ name ++ str "-images-idx3-ubyte".
  Definition labels_file (dir name : list Z) : list Z := dir ++ str "/" ++ name ++ str "-labels-idx1-ubyte".

  Lemma mnist_call : forall dir name n s, mnist_set name n ->
    load_mnist_data dt cd code fs dir name s = load_pair dt cd code fs n 28 28 (dir ++ str "/" ++ name) s.
  Proof using. intros dir name n s [[-> ->]|[-> ->]]; reflexivity. Qed.

  Lemma file_names : forall dir name,
    images_file dir name = (dir ++ str "/" ++ name) ++ str "-images-idx3-ubyte" /\
    labels_file dir name = (dir ++ str "/" ++ name) ++ str "-labels-idx1-ubyte".
  Proof using. intros. unfold images_file, labels_file. rewrite <- !app_assoc. auto. Qed.

  Lemma mnist_u32 : forall name n, mnist_set name n -> u32_dims [n; 28; 28] /\ 0 <= n.
  Proof using. clear. intros name n [[_ ->]|[_ ->]]; unfold u32_dims; (split; [repeat constructor; lia|lia]). Qed.

  (** The data set is the contents of the two files. *)
  Theorem C81_load : forall dir name n ib lb I L s, mnist_set name n -> fresh_ok s ->
    fs (images_file dir name) = Some ib -> stores cd code [n; 28; 28] ib I ->
    fs (labels_file dir name) = Some lb -> stores cd code [n] lb L ->
    exists images labels s', load_mnist_data dt cd code fs dir name s = Ok (images, labels) s' /\
      grown s s' [images; labels] /\ has dt s' images ([n; 28; 28], I) /\ has dt s' labels ([n], L).
  Proof using C1.
    intros dir name n ib lb I L s HN F Fi (id & -> & Li & Hi) Fl (ld & -> & Ll & Hl).
    destruct (mnist_u32 name n HN) as [U N0]. destruct (file_names dir name) as [E1 E2]. rewrite E1 in Fi. rewrite E2 in Fl.
    destruct (pair_headers n 28 28 _ id ld s F U Fi Fl) as (im & lb & s' & E & G & Di & Dl & Gi & Gl).
    exists im, lb, s'. rewrite (mnist_call dir name n s HN). split; [exact E|]. split; [exact G|]. split; split; auto; cbn [fst snd].
    - intros ix Hix. rewrite Di in Hix. pose proof (offset_bound _ _ Hix) as Ho. unfold addr. rewrite Di.
      rewrite Hi by auto. cbn [prod] in Ho, Li. apply Gi; [lia|nia].
    - intros ix Hix. rewrite Dl in Hix. pose proof (offset_bound _ _ Hix) as Ho. unfold addr. rewrite Dl.
      rewrite Hl by auto. cbn [prod] in Ho, Ll. apply Gl; [lia|nia].
  Qed.

  (** Truncated files are accepted; what they lack is left uninitialised. *)
  Theorem C81_truncated : forall dir name n id ld s, mnist_set name n -> fresh_ok s ->
    fs (images_file dir name) = Some (idx_header code [n; 28; 28] ++ id) ->
    fs (labels_file dir name) = Some (idx_header code [n] ++ ld) ->
    exists images labels s', load_mnist_data dt cd code fs dir name s = Ok (images, labels) s' /\
      grown s s' [images; labels] /\ tdims images = [n; 28; 28] /\ tdims labels = [n] /\
      (forall o, 0 <= o < n * 28 * 28 -> got id o (cells s' (daddr images o))) /\
      (forall o, 0 <= o < n -> got ld o (cells s' (daddr labels o))).
  Proof using C1.
    intros dir name n id ld s HN F Fi Fl. destruct (mnist_u32 name n HN) as [U _]. rewrite (mnist_call dir name n s HN).
    destruct (file_names dir name) as [E1 E2]. rewrite E1 in Fi. rewrite E2 in Fl. apply pair_headers; auto.
  Qed.

  (** Failures: std::runtime_error, and no storage is left behind. *)
  Theorem C81_fails : forall dir name n s, mnist_set name n -> fresh_ok s ->
    unreadable fs code [n; 28; 28] (images_file dir name) \/
    (exists id, fs (images_file dir name) = Some (idx_header code [n; 28; 28] ++ id)) /\
    unreadable fs code [n] (labels_file dir name) ->
    exists s', load_mnist_data dt cd code fs dir name s = Throw RuntimeError s' /\ nextb s <= nextb s' /\ forall q, cells s' q = cells s q.
  Proof using C1.
    intros dir name n s HN F H. destruct (mnist_u32 name n HN) as [U _]. rewrite (mnist_call dir name n s HN).
    destruct (file_names dir name) as [E1 E2]. rewrite E1, E2 in H. apply pair_fails; auto.
  Qed.

  Theorem C81_name : forall dir name s, name <> str "train" -> name <> str "t10k" ->
    load_mnist_data dt cd code fs dir name s = Throw RuntimeError s.
  Proof using.
    intros dir name s N1 N2. unfold load_mnist_data, mnist_size.
    destruct (list_eq_dec Z.eq_dec name (str "train")); [congruence|].
    destruct (list_eq_dec Z.eq_dec name (str "t10k")); [congruence|]. reflexivity.
  Qed.
End Mnist.

(** Two images of 1 x 2 pixels; the third label is missing from a file for
    three; no image file. *)
Example C81_example :
  let s := demo [[9]] in
  let fs (l : list Z) (name : list Z) :=
    if list_eq_dec Z.eq_dec name (str "d-images-idx3-ubyte")
    then Some ([0; 0; 8; 3; 0; 0; 0; 2; 0; 0; 0; 1; 0; 0; 0; 2] ++ [10; 20; 30; 40])
    else if list_eq_dec Z.eq_dec name (str "d-labels-idx1-ubyte") then Some l else None in
  let u8 : codec Z := mkcodec 1 (fun v => [v]) (fun l => nth 0 l 0) in
  show (load_pair zt u8 8 (fs [0; 0; 8; 1; 0; 0; 0; 2; 7; 5]) 2 1 2 (str "d") s) (fun p => [fst p; snd p])
    = Some [([2; 1; 2], inits [10; 20; 30; 40]); ([2], inits [7; 5])] /\
  show (load_pair zt u8 8 (fs [0; 0; 8; 1; 0; 0; 0; 2; 7]) 2 1 2 (str "d") s) (fun p => [fst p; snd p])
    = Some [([2; 1; 2], inits [10; 20; 30; 40]); ([2], [Init 7; Uninit])] /\
  (exists s', load_pair zt u8 8 (fs [0; 0; 8; 1; 0; 0; 0; 3; 7; 5; 6]) 2 1 2 (str "d") s = Throw RuntimeError s' /\
     cells s' (1, 0) = Unmapped /\ cells s' (2, 0) = Unmapped) /\
  load_mnist_data zt u8 8 (fs []) (str "/data") (str "test") s = Throw RuntimeError s /\
  images_file (str "/data") (str "t10k") = str "/data/t10k-images-idx3-ubyte".
Proof. split; [vm_compute; reflexivity|]. split; [vm_compute; reflexivity|]. split; [eexists; split; [vm_compute; reflexivity|auto]|]. split; reflexivity. Qed.

(** *** C82: the class names and the picture of the VGG16 examples. *)

(** Every content is a list of lines in exactly this way. *)
Theorem C82_names : forall fs filename content, fs filename = Some content ->
  exists lines last, content = text lines last /\ Forall no_newline lines /\ no_newline last /\
    load_class_names fs filename = Ret (lines ++ match last with [] => [] | _ => [last] end).
Proof.
  intros fs filename content F. destruct (text_exists content) as (ls & l & E & N & Nl). exists ls, l.
  split; [exact E|]. split; [exact N|]. split; [exact Nl|]. unfold load_class_names. rewrite F. f_equal. rewrite E.
  apply all_lines_text; auto.
Qed.

(** [k] lines, the last with or without its newline, give [k] names. *)
Theorem C82_name : forall fs filename lines last, Forall no_newline lines -> no_newline last ->
  fs filename = Some (text lines last) ->
  load_class_names fs filename = Ret (if list_eq_dec Z.eq_dec last [] then lines else lines ++ [last]).
Proof.
  intros fs filename ls l N Nl F. unfold load_class_names. rewrite F. f_equal. rewrite all_lines_text by auto.
  destruct l; [rewrite app_nil_r|]; reflexivity.
Qed.

Theorem C82_no_names : forall fs filename, fs filename = None -> load_class_names fs filename = Exn RuntimeError.
Proof. intros fs filename F. unfold load_class_names. rewrite F. reflexivity. Qed.

Section Picture.
  Context {V T : Type} (dt : dtype V T) (sc : scalar T) (cd : codec T) (code : Z) (fs : filesystem).
  Context (C1 : (1 <= csize cd)%nat).

  (** Image 0 is read from the file, then the mean is taken off all images, channel by channel. *)
  Theorem C82_picture : forall m0 m1 m2 prefix bytes x n h w I X s,
    tdims x = [n; h; w; 3] -> 1 <= n -> u32_dims [h; w; 3] -> fresh_ok s -> mapped s x ->
    fs (prefix ++ str "/laska.idx") = Some bytes -> stores cd code [h; w; 3] bytes I ->
    (forall i, 1 <= i < n -> holds dt s (sub x i) (fun ix => X (i :: ix))) ->
    writes dt (read_example_image dt sc cd code fs m0 m1 m2 prefix x) s x (fun ix =>
      match ix with
      | [i; r; c; d] => ssub sc (if i =? 0 then I [r; c; d] else X ix) (if d =? 0 then m0 else if d =? 1 then m1 else m2)
      | _ => m0
      end).
  Proof using C1.
    intros m0 m1 m2 prefix bytes x n h w I X s Ex Hn U F M Fs St HX.
    assert (D : dims_ok x) by (unfold dims_ok; rewrite Ex; inversion U as [|? ? U1 U2]; inversion U2; subst; repeat constructor; lia).
    pose proof (tdims_sub x 0 _ _ Ex) as E0.
    pose proof (mapped_sub s x 0 n [h; w; 3] D Ex ltac:(lia) M) as M0.
    destruct (readfile_stores dt cd code fs _ bytes (sub x 0) I s C1 ltac:(rewrite E0; exact U) M0 Fs ltac:(rewrite E0; exact St))
      as (s1 & R1 & H1 & N1 & K1).
    set (X1 := fun ix => match ix with [i; r; c; d] => if i =? 0 then I [r; c; d] else X ix | _ => m0 end).
    assert (HX1 : holds dt s1 x X1).
    { intros ix Hix. rewrite Ex in Hix. destruct (valid_4 _ _ _ _ _ Hix) as (i & r & c & d & -> & Hi & Hr & Hc & Hd').
      assert (V3 : valid [h; w; 3] [r; c; d]) by (cbn; auto).
      cbn [X1]. rewrite <- (addr_sub x i n [h; w; 3] [r; c; d] Ex). destruct (Z.eqb_spec i 0) as [->|Ni].
      - apply H1. rewrite E0. exact V3.
      - rewrite K1.
        + apply (HX i ltac:(lia) [r; c; d]). rewrite (tdims_sub x i _ _ Ex). exact V3.
        + intros Hf. apply Ni. apply (foot_sub_inj x i 0 n [h; w; 3] (addr (sub x i) [r; c; d])); auto; [lia|].
          apply addr_foot. rewrite (tdims_sub x i _ _ Ex). exact V3. }
    assert (O1 : only_changes x s s1).
    { split; [exact N1|]. intros q Hq. apply K1. intros Hf. apply Hq. eapply (foot_sub x 0); eauto. lia. }
    assert (F1 : fresh_ok s1) by (eapply fresh_ok_only_changes; [exact F|exact M|exact O1]).
    set (G := fun ix => _). unfold read_example_image.
    destruct (with_tensor_writes dt [3] (fun mean =>
      store dt (daddr mean 0) m0 ;;; store dt (daddr mean 1) m1 ;;; store dt (daddr mean 2) m2 ;;;
      op_bias dt nhwc (f_sub sc) x x mean) s1 x G ltac:(repeat constructor; lia) F1 ltac:(eapply holds_mapped; eauto) D)
      as (s' & R' & H' & N' & K').
    - intros mean s2 Em Dm Mm F2 N2 Dj X2.
      assert (Fm : forall o, 0 <= o < 3 -> foot mean (daddr mean o)) by (intros o Ho; exists o; split; [unfold size; rewrite Em; cbn; lia|reflexivity]).
      assert (Ds : forall a b, a <> b -> daddr mean a <> daddr mean b) by (intros a b Hab E; unfold daddr in E; injection E; lia).
      set (sa := upd s2 (daddr mean 0) (emb dt m0)). set (sb := upd sa (daddr mean 1) (emb dt m1)).
      set (s3 := upd sb (daddr mean 2) (emb dt m2)).
      assert (Ms : forall o, 0 <= o < 3 -> cells s2 (daddr mean o) <> Unmapped) by (intros o Ho; apply Mm, Fm, Ho).
      rewrite (bind_ok _ _ _ _ _ (store_ok dt s2 _ m0 (Ms 0 ltac:(lia)))). fold sa.
      rewrite (bind_ok _ _ _ _ _ (store_ok dt sa (daddr mean 1) m1
        ltac:(unfold sa; rewrite cells_upd_other by (apply Ds; lia); apply Ms; lia))). fold sb.
      rewrite (bind_ok _ _ _ _ _ (store_ok dt sb (daddr mean 2) m2
        ltac:(unfold sb, sa; rewrite !cells_upd_other by (apply Ds; lia); apply Ms; lia))). fold s3.
      assert (K3 : forall q, ~ foot mean q -> cells s3 q = cells s2 q).
      { intros q Hq. unfold s3, sb, sa. rewrite !cells_upd_other; [reflexivity| | |]; intros ->; apply Hq, Fm; lia. }
      assert (HB : holds dt s3 mean (fun ix => match ix with [d] => if d =? 0 then m0 else if d =? 1 then m1 else m2 | _ => m0 end)).
      { intros ix Hix. rewrite Em in Hix. apply valid_1 in Hix. destruct Hix as (d & -> & Hd).
        unfold addr. rewrite Em. replace (offset [3] [d]) with d by (cbn; lia). unfold s3, sb, sa.
        assert (Hc : d = 0 \/ d = 1 \/ d = 2) by lia. destruct Hc as [-> |[-> | ->]]; cbn [Z.eqb].
        - rewrite !cells_upd_other by (apply Ds; lia). apply cells_upd_same.
        - rewrite cells_upd_other by (apply Ds; lia). apply cells_upd_same.
        - apply cells_upd_same. }
      pose proof (Dj x (holds_mapped dt s1 x X1 D HX1)) as Dx.
      assert (H3 : holds dt s3 x X1).
      { apply (holds_frame_disj dt s2 s3 x mean X1); [eapply extends_holds; eauto|exact K3|].
        intros q Hq Hm. apply (Dx q); auto. }
      destruct (op_bias_writes dt nhwc (f_sub sc) x x mean 3 X1 _ G s3 D eq_refl Em ltac:(rewrite Ex; reflexivity)
        ltac:(rewrite Ex; reflexivity) H3 HB ltac:(eapply holds_mapped; eauto) (safe_refl x)
        ltac:(intros q Hq Hm; apply (Dx q); auto)) as (s4 & R4 & H4 & N4 & K4).
      { intros ix Hix. rewrite Ex in Hix. destruct (valid_4 _ _ _ _ _ Hix) as (i & r & c & d & -> & Hi & Hr & Hc & Hd'). reflexivity. }
      exists s4. split; [exact R4|]. split; [cbn in N4; lia|]. split; [exact H4|].
      intros q Hm Hq. rewrite K4 by auto. apply K3. exact Hm.
    - exists s'. rewrite (bind_ok _ _ _ _ _ R1). split; [exact R'|]. split; [exact H'|]. split; [lia|].
      intros q Hq. rewrite K' by auto. apply O1. exact Hq.
  Qed.

  (** Nothing is written when the file is missing or has another header. *)
  Theorem C82_no_picture : forall m0 m1 m2 prefix x n h w s, tdims x = [n; h; w; 3] -> u32_dims [h; w; 3] ->
    unreadable fs code [h; w; 3] (prefix ++ str "/laska.idx") ->
    read_example_image dt sc cd code fs m0 m1 m2 prefix x s = Throw RuntimeError s.
  Proof using.
    intros m0 m1 m2 prefix x n h w s Ex U H. unfold read_example_image, bind.
    rewrite readfile_bad; [reflexivity| |]; rewrite (tdims_sub x 0 _ _ Ex); auto.
  Qed.
End Picture.

(** Names with and without a newline at the end, an empty line; two images of
    1 x 2 pixels, the first read from a file. *)
Example C82_example :
  let fs (c : list Z) (name : list Z) := if list_eq_dec Z.eq_dec name (str "d/laska.idx") then Some c else None in
  let u8 : codec Z := mkcodec 1 (fun v => [v]) (fun l => nth 0 l 0) in
  let names c := load_class_names (fun _ => Some c) (str "names") in
  let c := [0; 0; 8; 3; 0; 0; 0; 1; 0; 0; 0; 2; 0; 0; 0; 3; 11; 22; 33; 44; 55; 66] in
  let s := demo [[0; 0; 0; 0; 0; 0; 70; 71; 72; 73; 74; 75]] in
  let pic c := read_example_image zt Zsc u8 8 (fs c) 1 2 3 (str "d") (T_ 0 [2; 1; 2; 3]) in
  names (str "cat" ++ [10] ++ str "dog" ++ [10]) = Ret [str "cat"; str "dog"] /\
  names (str "cat" ++ [10; 10] ++ str "dog") = Ret [str "cat"; []; str "dog"] /\
  run (pic c) s (T_ 0 [12])
    = Some (inits [10; 20; 30; 43; 53; 63; 69; 69; 69; 72; 72; 72]) /\
  pic (firstn 20 c) s <> Throw RuntimeError s /\
  pic (0 :: c) s = Throw RuntimeError s.
Proof. split; [vm_compute; reflexivity|]. split; [vm_compute; reflexivity|]. split; [vm_compute; reflexivity|]. split; [vm_compute; discriminate|]. vm_compute; reflexivity. Qed.

Print Assumptions C81_load.
Print Assumptions C81_truncated.
Print Assumptions C81_fails.
Print Assumptions C81_name.
Print Assumptions C82_names.
Print Assumptions C82_name.
Print Assumptions C82_no_names.
Print Assumptions C82_picture.
Print Assumptions C82_no_picture.
