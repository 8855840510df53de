(** Proofs about layers: memory growth. *)
From Coq Require Import ZArith List Bool Lia Permutation.
From Verif Require Import Base BaseFacts TensorFacts ActivationFacts Traits Scalar LinAlg Conv ConvFacts Elem ElemSpec ElemFacts
  PropsElem Layers LayersSpec.
Import ListNotations.
Open Scope Z_scope.
Open Scope model_scope.

Section Grown.
  Context {V T : Type} (dt : dtype V T).

  Lemma grown_nil : forall s : st V, fresh_ok s -> grown s s [].
  Proof using. intros s F. split; [exact F|]. split; [lia|]. split; [constructor|]. split; [constructor|auto]. Qed.

  Lemma grown_perm : forall (s s' : st V) ts us, Permutation ts us -> grown s s' ts -> grown s s' us.
  Proof using.
    intros s s' ts us P (F & N & D & A & C). split; [exact F|]. split; [exact N|].
    pose proof (Permutation_map tblk P) as Q. split; [eapply Permutation_NoDup; eauto|].
    split; [eapply Permutation_Forall; eauto|]. intros p Hp. apply C. intros I. apply Hp. eapply Permutation_in; eauto.
  Qed.

  (** Old tensors survive growth. *)
  Lemma grown_foot : forall (s s' : st V) ts x p, fresh_ok s -> grown s s' ts -> mapped s x -> foot x p -> cells s' p = cells s p.
  Proof using.
    intros s s' ts x p F (_ & _ & _ & A & C) M Fp. apply C. intros I. pose proof (foot_fresh x s p F M Fp) as L.
    apply in_map_iff in I. destruct I as (t & E & I). rewrite Forall_forall in A. specialize (A t I). lia.
  Qed.

  Lemma grown_holds : forall (s s' : st V) ts x X, fresh_ok s -> grown s s' ts -> mapped s x ->
    holds dt s x X -> holds dt s' x X.
  Proof using. intros s s' ts x X F G M H. eapply holds_frame; [|exact H]. intros p Hp. eapply grown_foot; eauto. Qed.

  Lemma grown_mapped : forall (s s' : st V) ts x, fresh_ok s -> grown s s' ts -> mapped s x -> mapped s' x.
  Proof using. intros s s' ts x F G M p Hp. rewrite (grown_foot s s' ts x p F G M Hp). apply M, Hp. Qed.

  Lemma grown_disjoint : forall (s s' : st V) ts x t, fresh_ok s -> grown s s' ts -> mapped s x -> In t ts -> disjoint t x.
  Proof using.
    intros s s' ts x t F (_ & _ & _ & A & _) M I p [o [_ ->]] Hx. pose proof (foot_fresh x s _ F M Hx) as L. cbn in L.
    rewrite Forall_forall in A. specialize (A t I). lia.
  Qed.

  Lemma blk_disjoint : forall t u, tblk t <> tblk u -> disjoint t u.
  Proof using. intros t u N p [o [_ ->]] [q [_ E]]. apply N. unfold daddr in E. congruence. Qed.

  Lemma holds_off : forall (s s' : st V) t b X, tblk t <> b -> (forall p, fst p <> b -> cells s' p = cells s p) ->
    holds dt s t X -> holds dt s' t X.
  Proof using. intros s s' t b X N C H. eapply holds_frame; [|exact H]. intros p [o [_ ->]]. apply C. exact N. Qed.

  (** The state in which a new tensor is initialised. *)
  Definition born (s s1 : st V) (y : tensor) (ds : list Z) : Prop :=
    tdims y = ds /\ tbase y = 0 /\ tblk y = nextb s /\ nextb s1 = nextb s + 1 /\ mapped s1 y /\ fresh_ok s1 /\
    (forall p, fst p <> nextb s -> cells s1 p = cells s p) /\ (forall p, foot y p -> cells s1 p = Uninit).

  Lemma new_tensor_born : forall (s : st V) ds, fresh_ok s -> exists y s1, new_tensor ds s = Ok y s1 /\ born s s1 y ds.
  Proof using.
    intros s ds F. eexists. eexists. split; [reflexivity|].
    assert (U : forall p, foot (mktensor (nextb s) 0 ds) p ->
       (if (fst p =? nextb s) && (0 <=? snd p) && (snd p <? prod ds) then Uninit else cells s p) = Uninit).
    { intros p [o [Ho ->]]. unfold size in Ho. cbn [tdims] in Ho. cbn [daddr tblk tbase fst snd].
      rewrite Z.eqb_refl. replace (0 <=? 0 + o) with true by lia. replace (0 + o <? prod ds) with true by lia. reflexivity. }
    repeat (split; [reflexivity|]). split; [|split; [|split]].
    - intros p Hp. cbn [cells]. rewrite U by auto. discriminate.
    - intros p Hp. cbn [cells nextb] in *. replace (fst p =? nextb s) with false by lia. cbn. apply F. lia.
    - intros p Hp. cbn [cells]. replace (fst p =? nextb s) with false by lia. reflexivity.
    - exact U.
  Qed.

  Lemma grown_born : forall (s s1 s2 : st V) ts y ds, grown s s1 ts -> born s1 s2 y ds -> grown s s2 (y :: ts).
  Proof using.
    intros s s1 s2 ts y ds (F & N & D & A & C) (E1 & E2 & E3 & E4 & M & F2 & C2 & _). split; [exact F2|].
    split; [lia|]. split; [|split].
    - cbn [map]. constructor; auto. intros I. apply in_map_iff in I. destruct I as (t & Et & I).
      rewrite Forall_forall in A. specialize (A t I). lia.
    - constructor; [split; [lia|auto]|]. eapply Forall_impl; [|exact A]. cbn beta. intros t (B & Z0 & Mt).
      split; [lia|]. split; [exact Z0|]. intros p Hp. destruct Hp as [o [Ho Ep]]. rewrite C2; [apply Mt; exists o; auto|].
      rewrite Ep. cbn. lia.
    - intros p Hp. cbn [map] in Hp. rewrite C2 by (intros E; apply Hp; left; congruence). apply C. intros I. apply Hp. right; auto.
  Qed.

  (** Writing one of the grown tensors. *)
  Lemma grown_change : forall (s s1 s2 : st V) ts y, grown s s1 ts -> In y ts -> only_changes y s1 s2 -> mapped s2 y ->
    grown s s2 ts /\ (forall p, fst p <> tblk y -> cells s2 p = cells s1 p).
  Proof using.
    intros s s1 s2 ts y (F & N & D & A & C) I (N2 & C2) My.
    assert (O : forall p, fst p <> tblk y -> cells s2 p = cells s1 p).
    { intros p Hp. apply C2. intros [o [_ ->]]. apply Hp. reflexivity. }
    split; [|exact O]. split; [|split; [lia|split; [exact D|split]]].
    - eapply fresh_ok_frame; eauto. rewrite Forall_forall in A. apply A. auto.
    - apply Forall_forall. intros t It. rewrite Forall_forall in A. destruct (A t It) as (B & Z0 & Mt).
      split; [lia|]. split; [exact Z0|]. destruct (Z.eq_dec (tblk t) (tblk y)) as [E|E].
      + assert (t = y) as -> ; [|exact My].
        clear - D I It E. induction ts as [|u ts IH]; [contradiction|]. cbn [map] in D. inversion D as [|? ? Nu Du]; subst.
        destruct I as [->|I], It as [<-|It]; auto.
        * exfalso. apply Nu. rewrite <- E. apply in_map. auto.
        * exfalso. apply Nu. rewrite E. apply in_map. auto.
      + eapply mapped_frame; [|exact Mt]. intros p [o [_ ->]]. apply O. exact E.
    - intros p Hp. rewrite O; [apply C, Hp|]. intros E. apply Hp. rewrite E. apply in_map. auto.
  Qed.

  Lemma grown_writes : forall (s s1 : st V) ts y Y m, grown s s1 ts -> In y ts -> Forall (fun d => 0 <= d) (tdims y) ->
    writes dt m s1 y Y ->
    exists s2, m s1 = Ok tt s2 /\ grown s s2 ts /\ holds dt s2 y Y /\ (forall p, fst p <> tblk y -> cells s2 p = cells s1 p).
  Proof using.
    intros s s1 ts y Y m G I Dy (s2 & E & H & O). exists s2. split; [exact E|].
    destruct (grown_change s s1 s2 ts y G I O) as [G2 C2]; [eapply holds_mapped; eauto|]. auto.
  Qed.

  (** new T(shape) followed by an operation that fills it. *)
  Lemma new_then : forall (s s1 : st V) ts ds Y (op : tensor -> M V unit), grown s s1 ts -> Forall (fun d => 0 <= d) ds ->
    (forall s2 y, born s1 s2 y ds -> writes dt (op y) s2 y Y) ->
    exists y s3, (y <- new_tensor ds ;; op y ;;; ret y) s1 = Ok y s3 /\ grown s s3 (y :: ts) /\ tdims y = ds /\
      holds dt s3 y Y /\ tblk y = nextb s1 /\ (forall p, fst p <> nextb s1 -> cells s3 p = cells s1 p).
  Proof using.
    intros s s1 ts ds Y op G Hd Hop. destruct (new_tensor_born s1 ds) as (y & s2 & E & B); [apply G|].
    destruct (grown_writes s s2 (y :: ts) y Y (op y)) as (s3 & E3 & G3 & H3 & C3).
    - eapply grown_born; eauto.
    - left; auto.
    - destruct B as (-> & _). auto.
    - apply Hop, B.
    - destruct B as (B1 & B2 & B3 & B4 & B5 & B6 & B7 & _).
      exists y, s3. rewrite (bind_ok _ _ _ _ _ E), (bind_ok _ _ _ _ _ E3). split; [reflexivity|].
      split; [exact G3|]. split; [exact B1|]. split; [exact H3|]. split; [exact B3|].
      intros p Hp. rewrite C3 by congruence. apply B7, Hp.
  Qed.

  Lemma new_then_throws : forall (s s1 : st V) ts ds e (op : tensor -> M V unit), grown s s1 ts ->
    init_fails op ds e ->
    exists y s3, (y <- new_tensor ds ;; op y ;;; ret y) s1 = Throw e s3 /\ grown s s3 (y :: ts) /\ tdims y = ds.
  Proof using.
    intros s s1 ts ds e op G Hop. destruct (new_tensor_born s1 ds) as (y & s2 & E & B); [apply G|].
    pose proof (grown_born s s1 s2 ts y ds G B) as G2.
    destruct B as (B1 & B2 & B3 & B4 & B5 & B6 & B7 & _).
    destruct (Hop s2 y B6 B1 B5) as (s3 & E3 & O & M3).
    destruct (grown_change s s2 s3 (y :: ts) y G2) as [G3 _]; auto; [left; auto|].
    exists y, s3. rewrite (bind_ok _ _ _ _ _ E). unfold bind. rewrite E3. auto.
  Qed.

  (** Releasing what has grown. *)
  Lemma release_cells : forall ts (s : st V) p,
    cells (release ts s) p = if existsb (fun t => fst p =? tblk t) ts then Unmapped else cells s p.
  Proof using.
    intros ts. unfold release. induction ts as [|t ts IH]; intros s p; cbn [fold_left existsb]; [reflexivity|].
    rewrite IH. cbn [dealloc cells]. destruct (existsb _ ts); [rewrite orb_true_r; reflexivity|].
    rewrite orb_false_r. reflexivity.
  Qed.

  Lemma release_nextb : forall ts (s : st V), nextb (release ts s) = nextb s.
  Proof using. intros ts. unfold release. induction ts as [|t ts IH]; intros s; cbn [fold_left]; [reflexivity|rewrite IH; reflexivity]. Qed.

  Lemma release_in : forall ts (s : st V) p, In (fst p) (map tblk ts) -> cells (release ts s) p = Unmapped.
  Proof using.
    intros ts s p I. rewrite release_cells. replace (existsb _ ts) with true; [reflexivity|]. symmetry. apply existsb_exists.
    apply in_map_iff in I. destruct I as (t & E & I). exists t. split; [auto|lia].
  Qed.

  Lemma release_out : forall ts (s : st V) p, ~ In (fst p) (map tblk ts) -> cells (release ts s) p = cells s p.
  Proof using.
    intros ts s p I. rewrite release_cells. destruct (existsb _ ts) eqn:E; [|reflexivity]. exfalso. apply I.
    apply existsb_exists in E. destruct E as (t & It & E). apply in_map_iff. exists t. split; [lia|auto].
  Qed.

  Lemma grown_release_all : forall (s s' : st V) ts, fresh_ok s -> grown s s' ts -> forall p, cells (release ts s') p = cells s p.
  Proof using.
    intros s s' ts F (F' & N & D & A & C) p. destruct (in_dec Z.eq_dec (fst p) (map tblk ts)) as [I|I].
    - rewrite release_in by auto. symmetry. apply F. apply in_map_iff in I. destruct I as (t & E & I).
      rewrite Forall_forall in A. specialize (A t I). lia.
    - rewrite release_out by auto. auto.
  Qed.

  (** Releasing older tensors while younger ones stay. *)
  Lemma grown_release : forall (s s1 s2 : st V) ts us, fresh_ok s -> grown s s1 ts -> grown s1 s2 us ->
    grown s (release ts s2) us.
  Proof using.
    intros s s1 s2 ts us F (F1 & N1 & D1 & A1 & C1) (F2 & N2 & D2 & A2 & C2).
    assert (S : forall t u, In t ts -> In u us -> tblk t < tblk u).
    { intros t u It Iu. rewrite Forall_forall in A1, A2. specialize (A1 t It). specialize (A2 u Iu). lia. }
    split; [|split; [rewrite release_nextb; lia|split; [exact D2|split]]].
    - intros p Hp. rewrite release_nextb in Hp. destruct (in_dec Z.eq_dec (fst p) (map tblk ts)) as [I|I].
      + apply release_in; auto.
      + rewrite release_out by auto. apply F2. auto.
    - apply Forall_forall. intros u Iu. rewrite Forall_forall in A2. destruct (A2 u Iu) as (B & Z0 & Mu).
      rewrite release_nextb. split; [lia|]. split; [exact Z0|]. intros p Hp. rewrite release_out; [apply Mu, Hp|].
      destruct Hp as [o [_ ->]]. cbn. intros I. apply in_map_iff in I. destruct I as (t & E & It). specialize (S t u It Iu). lia.
    - intros p Hp. destruct (in_dec Z.eq_dec (fst p) (map tblk ts)) as [I|I].
      + rewrite release_in by auto. symmetry. apply F. apply in_map_iff in I. destruct I as (t & E & I).
        rewrite Forall_forall in A1. specialize (A1 t I). lia.
      + rewrite release_out by auto. rewrite C2, C1; auto.
  Qed.

  Lemma release_has : forall (s s1 s2 : st V) ts us u X, grown s s1 ts -> grown s1 s2 us -> In u us ->
    has dt s2 u X -> has dt (release ts s2) u X.
  Proof using.
    intros s s1 s2 ts us u X (F1 & N1 & D1 & A1 & C1) (F2 & N2 & D2 & A2 & C2) Iu [E H]. split; [exact E|].
    eapply holds_frame; [|exact H]. intros p [o [_ ->]]. apply release_out. cbn. intros I.
    apply in_map_iff in I. destruct I as (t & Et & It). rewrite Forall_forall in A1, A2.
    specialize (A1 t It). specialize (A2 u Iu). lia.
  Qed.
End Grown.

Section Calls.
  Context {V T : Type} (dt : dtype V T) (di : dtype V Z) (sc : scalar T).

  Lemma nonneg2 : forall a b, 0 <= a -> 0 <= b -> Forall (fun d => 0 <= d) [a; b].
  Proof using. intros. repeat constructor; auto. Qed.

  Lemma to_u32_id : forall x, 0 <= x < 2 ^ 32 -> to_u32 x = x.
  Proof using. intros x H. unfold to_u32. apply Z.mod_small. exact H. Qed.

  Lemma input_mapped : forall s x (X : content T), input dt s x X -> mapped s x.
  Proof using. intros s x X (F & N & E & H). eapply holds_mapped; eauto. unfold dims_ok. rewrite E. exact N. Qed.

  (** A parameter stage. *)
  Lemma param : forall (s s1 : st V) ts ds W init, grown s s1 ts -> Forall (fun d => 0 <= d) ds -> fills dt init ds W ->
    exists w s3, new_parameter ds init s1 = Ok w s3 /\ grown s s3 (w :: ts) /\ tdims w = ds /\
      holds dt s3 w W /\ tblk w = nextb s1 /\ (forall p, fst p <> nextb s1 -> cells s3 p = cells s1 p).
  Proof using.
    intros s s1 ts ds W init G D Hf. unfold new_parameter. apply new_then; auto.
    intros s2 y (B1 & B2 & B3 & B4 & B5 & B6 & B7 & _). apply Hf; auto.
  Qed.

  (** Members of grown lists keep their contents when another block changes. *)
  Lemma keep : forall (s s1 s2 : st V) ts t W, grown s s1 ts -> In t ts -> holds dt s1 t W ->
    (forall p, fst p <> nextb s1 -> cells s2 p = cells s1 p) -> holds dt s2 t W.
  Proof using.
    intros s s1 s2 ts t W (_ & _ & _ & A & _) I H C. eapply holds_off; [|exact C|exact H].
    rewrite Forall_forall in A. specialize (A t I). lia.
  Qed.

  Lemma later : forall (s s1 : st V) ts t y, grown s s1 ts -> In t ts -> tblk y = nextb s1 -> tblk y <> tblk t.
  Proof using. intros s s1 ts t y (_ & _ & _ & A & _) I E. rewrite Forall_forall in A. specialize (A t I). lia. Qed.

  Lemma dense_creates : forall e act logits w_init b_init m l W B F s x X,
    0 <= logits < 2 ^ 32 -> engine_ok sc e [m; l; logits] ->
    fills dt w_init [l; logits] W -> fills dt b_init [logits] B -> acts dt act [m; logits] F ->
    input dt s x ([m; l], X) ->
    creates dt (dense dt sc e act logits w_init b_init x) s
      ([m; logits], F (fun ix => sadd sc (matmul_fn sc l X W ix) (B [nth 1 ix 0])))
      [([l; logits], W); ([logits], B)].
  Proof using.
    intros e act logits w_init b_init m l W B F s x X Hl He HW HB HF I.
    pose proof (input_mapped s x _ I) as Mx. destruct I as (Fr & N & Ex & HX). cbn [fst snd] in *.
    inversion N as [|? ? Hm N']; subst. inversion N' as [|? ? Hl' _]; subst.
    unfold dense. rewrite to_u32_id by auto. cbv zeta. unfold nth_dim. rewrite Ex. cbn [nth].
    destruct (param s s [] [l; logits] W w_init) as (w & s1 & E1 & G1 & Dw & Hw & Bw & C1);
      [apply grown_nil; auto|apply nonneg2; lia|auto|].
    assert (Hx1 : holds dt s1 x X) by (apply (grown_holds dt s s1 [w] x X); auto).
    destruct (new_then dt s s1 [w] [m; logits] (matmul_fn sc l X W) (fun y => op_matmul dt sc e y x w))
      as (y & s2 & E2 & G2 & Dy & Hy & By & C2); [auto|apply nonneg2; lia| |].
    { intros s2 y Bn. pose proof (grown_born s s1 s2 [w] y _ G1 Bn) as G.
      destruct Bn as (B1 & B2 & B3 & B4 & B5 & B6 & B7 & _).
      apply (C26_matmul dt sc e y x w m l logits X W s2); auto; try lia.
      - apply (grown_holds dt s s2 [y; w] x X); auto.
      - apply (keep s s1 s2 [w] w W); auto. left; auto.
      - apply (grown_disjoint s s2 [y; w] x y); auto. left; auto.
      - apply blk_disjoint. apply (later s s1 [w] w y); auto. left; auto. }
    assert (E2' : new_result (matmul_shape [m; l] [l; logits]) (fun y => op_matmul dt sc e y x w) s1 = Ok y s2).
    { unfold new_result, matmul_shape. cbn [nth]. rewrite Z.eqb_refl. exact E2. }
    assert (Hw2 : holds dt s2 w W) by (apply (keep s s1 s2 [w] w W); auto; left; auto).
    destruct (param s s2 [y; w] [logits] B b_init) as (b & s3 & E3 & G3 & Db & Hb & Bb & C3);
      [auto|repeat constructor; lia|auto|].
    assert (Hw3 : holds dt s3 w W) by (apply (keep s s2 s3 [y; w] w W); auto; right; left; auto).
    assert (Hy3 : holds dt s3 y (matmul_fn sc l X W)) by (apply (keep s s2 s3 [y; w] y); auto; left; auto).
    assert (Nyb : tblk y <> tblk b) by (intros Q; apply (later s s2 [y; w] y b); auto; left; auto).
    assert (Nwb : tblk w <> tblk b) by (intros Q; apply (later s s2 [y; w] w b); auto; right; left; auto).
    assert (Nyw : tblk y <> tblk w) by (apply (later s s1 [w] w y); auto; left; auto).
    assert (Ny : Forall (fun d => 0 <= d) (tdims y)) by (rewrite Dy; apply nonneg2; lia).
    destruct (grown_writes dt s s3 [b; y; w] y (fun ix => sadd sc (matmul_fn sc l X W ix) (B [nth 1 ix 0]))
                (op_bias dt hw (f_add sc) y y b)) as (s4 & E4 & G4 & H4 & C4); auto; [right; left; auto| |].
    { apply (C30_add_bias dt sc hw 2 1 y y b logits _ B s3); auto.
      - left. auto.
      - rewrite Dy. reflexivity.
      - rewrite Dy. reflexivity.
      - eapply holds_mapped; eauto.
      - apply safe_refl.
      - apply blk_disjoint. auto. }
    destruct (grown_writes dt s s4 [b; y; w] y (F (fun ix => sadd sc (matmul_fn sc l X W ix) (B [nth 1 ix 0])))
                (act y y)) as (s5 & E5 & G5 & H5 & C5); auto; [right; left; auto| |].
    { apply HF; auto. apply G4. }
    exists (mklayer y [w; b]), s5. split.
    { rewrite (bind_ok _ _ _ _ _ E1), (bind_ok _ _ _ _ _ E2'), (bind_ok _ _ _ _ _ E3), (bind_ok _ _ _ _ _ E4),
        (bind_ok _ _ _ _ _ E5). reflexivity. }
    split.
    { eapply grown_perm; [|exact G5]. unfold owned. cbn [output weights]. apply Permutation_sym.
      apply (Permutation_cons_app [b] [w] y). apply perm_swap. }
    split; [split; auto|]. cbn [weights].
    assert (K : forall t Q, tblk t <> tblk y -> holds dt s3 t Q -> holds dt s5 t Q).
    { intros t Q Nt Ht. eapply holds_off; [exact Nt|exact C5|]. eapply holds_off; [exact Nt|exact C4|exact Ht]. }
    constructor; [split; [exact Dw|apply K; auto]|]. constructor; [split; [exact Db|apply K; auto]|constructor].
  Qed.
End Calls.
