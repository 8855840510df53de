(** Proofs about arbitrary BLAS libraries. *)
From Coq Require Import ZArith List Bool Lia Permutation Reals Lra.
From Coquelicot Require Import Coquelicot.
From Flocq Require Import Core BinarySingleNaN.
From Verif Require Import Base BaseFacts Traits TraitsSpec Scalar RealScalar SumFacts TensorFacts LinAlg LinAlgFacts Shapes Conv
  ConvSpec ConvFacts Elem ElemSpec Activation ActivationSpec ActivationFacts SoftmaxFacts Pool Reshape Backprop BackpropSpec
  Utility Float FloatSpec FloatFacts FloatNan FloatSumSpec FloatSumFacts FloatSoftSpec FloatSoftFacts FloatGradSpec FloatGradFacts PredictSpec PredictFacts
  PropsLinAlg PropsElem PropsNorm PropsConv PropsReshape
  ConvGradFacts BackpropFacts BackpropRun StableSpec StableFacts NetFloatSpec NetFloatFacts Blas BlasSpec.
Import ListNotations.
Open Scope Z_scope.
Open Scope model_scope.

(** ** What is written *)

Lemma with_tensor_some : forall {V T} (dt : dtype V T) ds (body : tensor -> M V unit) s z (Q : (list Z -> T) -> Prop),
  nonneg ds -> fresh_ok s -> mapped s z -> dims_ok z ->
  (forall tmp s1, tdims tmp = ds -> dims_ok tmp -> mapped s1 tmp -> fresh_ok s1 ->
     nextb s <= nextb s1 ->
     (forall t, mapped s t -> disjoint tmp t) ->
     extends s s1 ->
     exists X s2, Q X /\ body tmp s1 = Ok tt s2 /\ nextb s1 <= nextb s2 /\ holds dt s2 z X /\
       (forall p, ~ foot tmp p -> ~ foot z p -> cells s2 p = cells s1 p)) ->
  exists X, writes dt (with_tensor ds body) s z X /\ Q X.
Proof.
  intros V T dt ds body s z Q Hn Hf Hm Hz Hb.
  destruct (with_tensor_ok ds body s tt (fun s' => exists X, Q X /\ holds dt s' z X) z Hn Hf Hm) as (s' & E & (X & QX & HX) & O).
  - intros b s1 Eb N1 F1 C1 M1.
    destruct (Hb (mktensor b 0 ds) s1) as (X & s2 & QX & E2 & N2 & H2 & C2); auto; try lia.
    + intros t Ht p [o [_ ->]] Hp. apply (foot_fresh t s) in Hp; auto. simpl in Hp. lia.
    + intros p Hp. apply C1. intros E. apply Hp. apply Hf. lia.
    + exists s2. split; [exact E2|]. split; [exact N2|]. split.
      * intros p Hp Hzp. apply C2; auto. intros [o [_ ->]]. apply Hp. reflexivity.
      * intros s3 E3. exists X. split; [exact QX|]. intros ix Hix. rewrite E3; [apply H2; auto|].
        assert (B : fst (addr z ix) < nextb s) by (apply (foot_fresh z s); auto; apply addr_foot; auto).
        lia.
  - exists X. split; [|exact QX]. exists s'. auto.
Qed.

Lemma rows_scratch_some : forall {V T} (dt : dtype V T) (x0 : T) z d ds tmp (f : Z -> M V unit) (Q : list Z -> T -> Prop) s,
  dims_ok z -> tdims z = d :: ds -> mapped s tmp -> disjoint tmp z ->
  (forall i s', 0 <= i < d -> nextb s <= nextb s' -> mapped s' tmp ->
     (forall p, ~ foot tmp p -> ~ foot z p -> cells s' p = cells s p) ->
     (forall p, foot (sub z i) p -> cells s' p = cells s p) ->
     exists X s'', (forall ix, valid ds ix -> Q (i :: ix) (X ix)) /\ f i s' = Ok tt s'' /\ nextb s' <= nextb s'' /\
       holds dt s'' (sub z i) X /\ mapped s'' tmp /\
       (forall p, ~ foot tmp p -> ~ foot (sub z i) p -> cells s'' p = cells s' p)) ->
  exists X s', (forall ix, valid (d :: ds) ix -> Q ix (X ix)) /\
    for_ (zrange d) f s = Ok tt s' /\ nextb s <= nextb s' /\ holds dt s' z X /\ mapped s' tmp /\
    (forall p, ~ foot tmp p -> ~ foot z p -> cells s' p = cells s p).
Proof.
  intros V T dt x0 z d ds tmp f Q s Hd Ed Hm D Hstep.
  assert (Pd : 0 <= d) by (unfold dims_ok in Hd; rewrite Ed in Hd; inversion Hd; auto).
  destruct (for_range_inv d f (fun k s' => nextb s <= nextb s' /\ mapped s' tmp /\
     (forall p, ~ foot tmp p -> ~ foot z p -> cells s' p = cells s p) /\
     (exists X, forall i, 0 <= i < k -> holds dt s' (sub z i) (fun ix => X (i :: ix)) /\
       forall ix, valid ds ix -> Q (i :: ix) (X (i :: ix))) /\
     (forall i p, k <= i < d -> foot (sub z i) p -> cells s' p = cells s p)) s)
    as [s' [E [N [M [F [[X H] _]]]]]]; auto.
  - repeat split; auto; try lia. exists (fun _ => x0). intros i Hi. lia.
  - intros k s' Hk (N & M & F & [X H] & R).
    destruct (Hstep k s' Hk N M F) as (Y & s'' & HQ & E & N' & H' & M' & F').
    { intros p Hp. apply (R k); auto. lia. }
    exists s''. split; [exact E|]. split; [lia|]. split; [exact M'|]. split; [|split].
    + intros p Hp Hz. rewrite F'; auto. intros Hp2. apply Hz. eapply foot_sub; eauto.
    + exists (fun ix => if nth 0 ix 0 =? k then Y (tl ix) else X ix). intros i Hi. cbn [nth tl].
      destruct (Z.eqb_spec i k) as [->|Ne]; [split; assumption|].
      destruct (H i ltac:(lia)) as [Hi1 Hi2]. split; [|exact Hi2].
      eapply holds_frame; [|exact Hi1]. intros p Hp. apply F'.
      * intros Ht. apply (D _ Ht). eapply foot_sub with (i := i); eauto. lia.
      * intros Hp2. apply Ne. apply (foot_sub_inj z i k d ds p); auto; lia.
    + intros i p Hi Hp. rewrite F'; [apply (R i); auto; lia| |].
      * intros Ht. apply (D _ Ht). eapply foot_sub with (i := i); eauto. lia.
      * intros Hp2. assert (i = k) by (apply (foot_sub_inj z i k d ds p); auto; lia). lia.
  - exists X, s'. split; [|split; [exact E|]; split; [exact N|]; split; [|split; [exact M|exact F]]].
    + intros [|i ix] Hv; [contradiction|]. cbn [valid] in Hv. destruct Hv as [Hi Hv]. apply H; auto.
    + intros ix Hix. rewrite Ed in Hix. destruct ix as [|i ix]; [destruct Hix|]. destruct Hix as [Hi Hix].
      rewrite <- (addr_sub _ _ _ _ _ Ed). apply (proj1 (H i Hi)). rewrite (tdims_sub _ _ _ _ Ed). auto.
Qed.

Lemma fold_pairs : forall {T A} (sc : scalar T) (l : list A) (f g : A -> T),
  fold_left (fun tmp p => sadd sc tmp (smul sc (fst p) (snd p))) (map (fun k => (f k, g k)) l) (s0 sc)
  = sum_over sc l (fun k => smul sc (f k) (g k)).
Proof.
  intros T A sc l f g. unfold sum_over. generalize (s0 sc). induction l as [|a l IH]; intros x; cbn; auto.
Qed.

Lemma fold_snoc : forall {A B} (l : list A) (f : A -> B) acc,
  fold_left (fun acc k => acc ++ [f k]) l acc = acc ++ map f l.
Proof.
  intros A B l f. induction l as [|a l IH]; intros acc; cbn; [symmetry; apply app_nil_r|].
  rewrite IH, <- app_assoc. reflexivity.
Qed.

Section Writes.
  Context {V T : Type} (dt : dtype V T) (di : dtype V Z) (sc : scalar T).
  Notation zero := (s0 sc).
  Context (lib : library V T).

  Lemma pairs_ok : forall n (s : st V) (f g : Z -> M V T) (F G : Z -> T),
    (forall k, 0 <= k < n -> f k s = Ok (F k) s) ->
    (forall k, 0 <= k < n -> g k s = Ok (G k) s) ->
    foldM (zrange n) (fun acc k => aa <- f k ;; bb <- g k ;; ret (acc ++ [(aa, bb)])) [] s
    = Ok (map (fun k => (F k, G k)) (zrange n)) s.
  Proof using.
    intros n s f g F G Hf Hg.
    rewrite foldM_pure with (g := fun acc k => acc ++ [(F k, G k)]).
    - rewrite (fold_snoc (zrange n) (fun k => (F k, G k))). reflexivity.
    - intros b a Ha. apply in_zrange in Ha.
      rewrite (bind_ok _ _ _ _ _ (Hf a Ha)), (bind_ok _ _ _ _ _ (Hg a Ha)). reflexivity.
  Qed.

  Lemma blas_mm_writes : forall a b c m l n A B s,
    tdims a = [m; l] -> tdims b = [l; n] -> tdims c = [m; n] -> 1 <= m -> 1 <= l -> 1 <= n ->
    holds dt s a A -> holds dt s b B -> mapped s c -> disjoint c a -> disjoint c b ->
    writes dt (blas_mm dt sc lib a b c) s c
      (arg2 (fun i j => smul sc (s1 sc) (lib s (mkcall false false m n l (daddr a 0) l (daddr b 0) n (daddr c 0) n i j)
         (map (fun k => (A [i; k], B [k; j])) (zrange l))))).
  Proof using.
    intros a b c m l n A B s Ea Eb Ec Hm Hl Hn HA HB HC Da Db.
    assert (Dc : dims_ok c) by (eapply dims2; eauto; lia).
    eapply writes_ext; [symmetry|reflexivity|].
    { unfold blas_mm, blas_gemm, gemm_lib, len, wid, nth_dim. rewrite Ea, Eb, Ec. cbn [nth].
      match goal with |- (if ?b then _ else _) s = _ => replace b with false by lia end.
      rewrite for_nest2, <- Ec. reflexivity. }
    apply writes_loop; auto.
    intros ix s' Hix Ns' Fs' Os'. rewrite Ec in Hix. apply valid_2 in Hix.
    destruct Hix as [i [j [-> [Hi Hj]]]]. unfold arg2; cbn [nth].
    erewrite bind_ok; [|eapply pairs_ok with (F := (fun k => A [i; k])) (G := (fun k => B [k; j])); intros k Hk; cbv beta];
      [|rewrite (elt_addr a m l i k Ea); apply (at_frame dt s s' a c A [i; k]); auto; rewrite Ea; simpl; lia|rewrite (elt_addr b l n k j Eb); apply (at_frame dt s s' b c B [k; j]); auto; rewrite Eb; simpl; lia].
    rewrite (elt_addr c m n i j Ec).
    apply store_ok. rewrite Os'. apply mapped_addr; auto. rewrite Ec; simpl; auto.
  Qed.

  Lemma blas_mmt_writes : forall a b c m l n A B s,
    tdims a = [m; l] -> tdims b = [n; l] -> tdims c = [m; n] -> 1 <= m -> 1 <= l -> 1 <= n ->
    holds dt s a A -> holds dt s b B -> mapped s c -> disjoint c a -> disjoint c b ->
    writes dt (blas_mmt dt sc lib a b c) s c
      (arg2 (fun i j => smul sc (s1 sc) (lib s (mkcall false true m n l (daddr a 0) l (daddr b 0) l (daddr c 0) n i j)
         (map (fun k => (A [i; k], B [j; k])) (zrange l))))).
  Proof using.
    intros a b c m l n A B s Ea Eb Ec Hm Hl Hn HA HB HC Da Db.
    assert (Dc : dims_ok c) by (eapply dims2; eauto; lia).
    eapply writes_ext; [symmetry|reflexivity|].
    { unfold blas_mmt, blas_gemm, gemm_lib, len, wid, nth_dim. rewrite Ea, Eb, Ec. cbn [nth].
      match goal with |- (if ?b then _ else _) s = _ => replace b with false by lia end.
      rewrite for_nest2, <- Ec. reflexivity. }
    apply writes_loop; auto.
    intros ix s' Hix Ns' Fs' Os'. rewrite Ec in Hix. apply valid_2 in Hix.
    destruct Hix as [i [j [-> [Hi Hj]]]]. unfold arg2; cbn [nth].
    erewrite bind_ok; [|eapply pairs_ok with (F := (fun k => A [i; k])) (G := (fun k => B [j; k])); intros k Hk; cbv beta];
      [|rewrite (elt_addr a m l i k Ea); apply (at_frame dt s s' a c A [i; k]); auto; rewrite Ea; simpl; lia|rewrite (elt_addr_t b n l k j Eb); apply (at_frame dt s s' b c B [j; k]); auto; rewrite Eb; simpl; lia].
    rewrite (elt_addr c m n i j Ec).
    apply store_ok. rewrite Os'. apply mapped_addr; auto. rewrite Ec; simpl; auto.
  Qed.

  Lemma blas_mtm_writes : forall a b c m l n A B s,
    tdims a = [l; m] -> tdims b = [l; n] -> tdims c = [m; n] -> 1 <= m -> 1 <= l -> 1 <= n ->
    holds dt s a A -> holds dt s b B -> mapped s c -> disjoint c a -> disjoint c b ->
    writes dt (blas_mtm dt sc lib a b c) s c
      (arg2 (fun i j => smul sc (s1 sc) (lib s (mkcall true false m n l (daddr a 0) m (daddr b 0) n (daddr c 0) n i j)
         (map (fun k => (A [k; i], B [k; j])) (zrange l))))).
  Proof using.
    intros a b c m l n A B s Ea Eb Ec Hm Hl Hn HA HB HC Da Db.
    assert (Dc : dims_ok c) by (eapply dims2; eauto; lia).
    eapply writes_ext; [symmetry|reflexivity|].
    { unfold blas_mtm, blas_gemm, gemm_lib, len, wid, nth_dim. rewrite Ea, Eb, Ec. cbn [nth].
      match goal with |- (if ?b then _ else _) s = _ => replace b with false by lia end.
      rewrite for_nest2, <- Ec. reflexivity. }
    apply writes_loop; auto.
    intros ix s' Hix Ns' Fs' Os'. rewrite Ec in Hix. apply valid_2 in Hix.
    destruct Hix as [i [j [-> [Hi Hj]]]]. unfold arg2; cbn [nth].
    erewrite bind_ok; [|eapply pairs_ok with (F := (fun k => A [k; i])) (G := (fun k => B [k; j])); intros k Hk; cbv beta];
      [|rewrite (elt_addr_t a l m i k Ea); apply (at_frame dt s s' a c A [k; i]); auto; rewrite Ea; simpl; lia|rewrite (elt_addr b l n k j Eb); apply (at_frame dt s s' b c B [k; j]); auto; rewrite Eb; simpl; lia].
    rewrite (elt_addr c m n i j Ec).
    apply store_ok. rewrite Os'. apply mapped_addr; auto. rewrite Ec; simpl; auto.
  Qed.

  Lemma blas_mv_writes : forall a b c m n A B s,
    tdims a = [m; n] -> tdims b = [n] -> tdims c = [m] -> 1 <= m -> 1 <= n ->
    holds dt s a A -> holds dt s b B -> mapped s c -> disjoint c a -> disjoint c b ->
    writes dt (blas_mv dt sc lib a b c) s c
      (arg1 (fun i => smul sc (s1 sc) (lib s (mkcall false false m 1 n (daddr a 0) n (daddr b 0) 1 (daddr c 0) 1 i 0)
         (map (fun k => (A [i; k], B [k])) (zrange n))))).
  Proof using.
    intros a b c m n A B s Ea Eb Ec Hm Hn HA HB HC Da Db.
    assert (Dc : dims_ok c) by (unfold dims_ok; rewrite Ec; repeat constructor; lia).
    eapply writes_ext; [symmetry|reflexivity|].
    { unfold blas_mv, gemv_lib, len, wid, nth_dim. rewrite Ea. cbn [nth].
      match goal with |- (if ?b then _ else _) s = _ => replace b with false by lia end.
      rewrite for_nest1, <- Ec. reflexivity. }
    apply writes_loop; auto.
    intros ix s' Hix Ns' Fs' Os'. rewrite Ec in Hix. apply valid_1 in Hix.
    destruct Hix as [i [-> Hi]]. unfold arg1; cbn [nth].
    erewrite bind_ok; [|eapply pairs_ok with (F := (fun k => A [i; k])) (G := (fun k => B [k])); intros k Hk; cbv beta];
      [|rewrite (elt_addr a m n i k Ea); apply (at_frame dt s s' a c A [i; k]); auto; rewrite Ea; simpl; lia|rewrite (vec_addr b n k Eb); apply (at_frame dt s s' b c B [k]); auto; rewrite Eb; simpl; lia].
    rewrite (vec_addr c m i Ec).
    apply store_ok. rewrite Os'. apply mapped_addr; auto. rewrite Ec; simpl; auto.
  Qed.

  Lemma blas_vm_writes : forall a b c m n A B s,
    tdims a = [m] -> tdims b = [m; n] -> tdims c = [n] -> 1 <= m -> 1 <= n ->
    holds dt s a A -> holds dt s b B -> mapped s c -> disjoint c a -> disjoint c b ->
    writes dt (blas_vm dt sc lib a b c) s c
      (arg1 (fun j => smul sc (s1 sc) (lib s (mkcall true false n 1 m (daddr b 0) n (daddr a 0) 1 (daddr c 0) 1 j 0)
         (map (fun k => (B [k; j], A [k])) (zrange m))))).
  Proof using.
    intros a b c m n A B s Ea Eb Ec Hm Hn HA HB HC Da Db.
    assert (Dc : dims_ok c) by (unfold dims_ok; rewrite Ec; repeat constructor; lia).
    eapply writes_ext; [symmetry|reflexivity|].
    { unfold blas_vm, gemv_lib, len, wid, nth_dim. rewrite Eb. cbn [nth].
      match goal with |- (if ?b then _ else _) s = _ => replace b with false by lia end.
      rewrite for_nest1, <- Ec. reflexivity. }
    apply writes_loop; auto.
    intros ix s' Hix Ns' Fs' Os'. rewrite Ec in Hix. apply valid_1 in Hix.
    destruct Hix as [i [-> Hi]]. unfold arg1; cbn [nth].
    erewrite bind_ok; [|eapply pairs_ok with (F := (fun k => B [k; i])) (G := (fun k => A [k])); intros k Hk; cbv beta];
      [|rewrite (elt_addr_t b m n i k Eb); apply (at_frame dt s s' b c B [k; i]); auto; rewrite Eb; simpl; lia|rewrite (vec_addr a m k Ea); apply (at_frame dt s s' a c A [k]); auto; rewrite Ea; simpl; lia].
    rewrite (vec_addr c n i Ec).
    apply store_ok. rewrite Os'. apply mapped_addr; auto. rewrite Ec; simpl; auto.
  Qed.

  (** *** In terms of what the library and the builtin loops guarantee *)
  Context (Rel : list (T * T) -> T -> Prop).
  Context (RB : forall l, Rel l (fold_left (fun tmp p => sadd sc tmp (smul sc (fst p) (snd p))) l (s0 sc))).
  Context (RL : forall s c l, Rel l (smul sc (s1 sc) (lib s c l))).

  Lemma l_mm_some : forall e a b c m l n A B s, sizes_ok e [m; l; n] ->
    tdims a = [m; l] -> tdims b = [l; n] -> tdims c = [m; n] ->
    holds dt s a A -> holds dt s b B -> mapped s c -> disjoint c a -> disjoint c b ->
    exists F, writes dt (l_mm dt sc lib e a b c) s c (arg2 F) /\
      forall i j, Rel (map (fun k => (A [i; k], B [k; j])) (zrange l)) (F i j).
  Proof using RB RL.
    intros [] a b c m l n A B s He Ea Eb Ec HA HB HC Da Db; unfold sizes_ok in He; cbv iota in He; cbn [l_mm];
      inversion He as [|? ? F1 F']; subst; inversion F' as [|? ? F2 F'']; subst; inversion F''; subst.
    - eexists. split; [eapply mm_writes; eauto|]. intros i j. cbv beta. rewrite <- fold_pairs. apply RB.
    - eexists. split; [eapply blas_mm_writes; eauto|]. intros i j. apply RL.
  Qed.

  Lemma l_mmt_some : forall e a b c m l n A B s, sizes_ok e [m; l; n] ->
    tdims a = [m; l] -> tdims b = [n; l] -> tdims c = [m; n] ->
    holds dt s a A -> holds dt s b B -> mapped s c -> disjoint c a -> disjoint c b ->
    exists F, writes dt (l_mmt dt sc lib e a b c) s c (arg2 F) /\
      forall i j, Rel (map (fun k => (A [i; k], B [j; k])) (zrange l)) (F i j).
  Proof using RB RL.
    intros [] a b c m l n A B s He Ea Eb Ec HA HB HC Da Db; unfold sizes_ok in He; cbv iota in He; cbn [l_mmt];
      inversion He as [|? ? F1 F']; subst; inversion F' as [|? ? F2 F'']; subst; inversion F''; subst.
    - eexists. split; [eapply mmt_writes; eauto|]. intros i j. cbv beta. rewrite <- fold_pairs. apply RB.
    - eexists. split; [eapply blas_mmt_writes; eauto|]. intros i j. apply RL.
  Qed.

  Lemma l_mtm_some : forall e a b c m l n A B s, sizes_ok e [m; l; n] ->
    tdims a = [l; m] -> tdims b = [l; n] -> tdims c = [m; n] ->
    holds dt s a A -> holds dt s b B -> mapped s c -> disjoint c a -> disjoint c b ->
    exists F, writes dt (l_mtm dt sc lib e a b c) s c (arg2 F) /\
      forall i j, Rel (map (fun k => (A [k; i], B [k; j])) (zrange l)) (F i j).
  Proof using RB RL.
    intros [] a b c m l n A B s He Ea Eb Ec HA HB HC Da Db; unfold sizes_ok in He; cbv iota in He; cbn [l_mtm];
      inversion He as [|? ? F1 F']; subst; inversion F' as [|? ? F2 F'']; subst; inversion F''; subst.
    - eexists. split; [eapply mtm_writes; eauto|]. intros i j. cbv beta. rewrite <- fold_pairs. apply RB.
    - eexists. split; [eapply blas_mtm_writes; eauto|]. intros i j. apply RL.
  Qed.

  Lemma l_mv_some : forall e a b c m n A B s, sizes_ok e [m; n] ->
    tdims a = [m; n] -> tdims b = [n] -> tdims c = [m] ->
    holds dt s a A -> holds dt s b B -> mapped s c -> disjoint c a -> disjoint c b ->
    exists F, writes dt (l_mv dt sc lib e a b c) s c (arg1 F) /\
      forall i, Rel (map (fun k => (A [i; k], B [k])) (zrange n)) (F i).
  Proof using RB RL.
    intros [] a b c m n A B s He Ea Eb Ec HA HB HC Da Db; unfold sizes_ok in He; cbv iota in He; cbn [l_mv];
      inversion He as [|? ? F1 F']; subst; inversion F' as [|? ? F2 F'']; subst.
    - eexists. split; [eapply mv_writes; eauto|]. intros i. cbv beta. rewrite <- fold_pairs. apply RB.
    - eexists. split; [eapply blas_mv_writes; eauto|]. intros i. apply RL.
  Qed.

  (** Here the library is handed the factors the other way round. *)
  Lemma l_vm_some : forall e a b c m n A B s, sizes_ok e [m; n] ->
    tdims a = [m] -> tdims b = [m; n] -> tdims c = [n] ->
    holds dt s a A -> holds dt s b B -> mapped s c -> disjoint c a -> disjoint c b ->
    exists F, writes dt (l_vm dt sc lib e a b c) s c (arg1 F) /\
      forall j, Rel (map (fun k => (A [k], B [k; j])) (zrange m)) (F j) \/ Rel (map (fun k => (B [k; j], A [k])) (zrange m)) (F j).
  Proof using RB RL.
    intros [] a b c m n A B s He Ea Eb Ec HA HB HC Da Db; unfold sizes_ok in He; cbv iota in He; cbn [l_vm];
      inversion He as [|? ? F1 F']; subst; inversion F' as [|? ? F2 F'']; subst.
    - eexists. split; [eapply vm_writes; eauto|]. intros i. cbv beta. left. rewrite <- fold_pairs. apply RB.
    - eexists. split; [eapply blas_vm_writes; eauto|]. intros i. right. apply RL.
  Qed.

  (** The pairs of an entry of the convolution. *)
  Definition conv_pairs (H W : sample) (h w r s c : Z) (X Y : list Z -> T) (ix : list Z) : list (T * T) :=
    arg4 (fun l i j o =>
      map (arg3 (fun u v k => (zpad zero h w (fun p q => X [l; p; q; k]) (wpos H i u) (wpos W j v), Y [u; v; k; o])))
        (indices [r; s; c])) ix.

  Lemma conv_nhwc_some : forall e C z x y n h w c r s d h' w' X Y st,
    let H := axis_of (h_trait C) r in let W := axis_of (w_trait C) s in
    axis_ok H h h' -> axis_ok W w w' -> h * w * c <= 2 ^ 31 -> sizes_ok e [n; c; d] ->
    tdims x = [n; h; w; c] -> tdims y = [r; s; c; d] -> tdims z = [n; h'; w'; d] ->
    fresh_ok st -> holds dt st x X -> holds dt st y Y -> mapped st z -> disjoint z y ->
    exists Z, writes dt (conv_nhwc_lib dt di sc lib e C z x y) st z Z /\
      forall ix, valid [n; h'; w'; d] ix -> Rel (conv_pairs H W h w r s c X Y ix) (Z ix).
  Proof using RB RL.
    intros e C z x y n h w c r s d h' w' X Y st H W AH AW Hsz He Ex Ey Ez Hf HX HY HZ Dzy.
    assert (Hh' := axis_m _ _ _ AH). assert (Hw' := axis_m _ _ _ AW).
    assert (Hr := axis_k _ _ _ AH). assert (Hs := axis_k _ _ _ AW).
    assert (Hh := axis_n _ _ _ AH). assert (Hw := axis_n _ _ _ AW).
    assert (Kr : ksize (sfilter H) = r) by reflexivity. assert (Ks : ksize (sfilter W) = s) by reflexivity.
    rewrite Kr in Hr. rewrite Ks in Hs.
    assert (Hn : 0 <= n /\ 0 <= c /\ 0 <= d).
    { destruct (sizes3 _ _ _ _ He) as (? & ? & ?); auto. }
    destruct Hn as (Hn & Hc & Hd).
    assert (Dz : dims_ok z) by (unfold dims_ok; rewrite Ez; repeat constructor; lia).
    assert (Dx : dims_ok x) by (unfold dims_ok; rewrite Ex; repeat constructor; lia).
    assert (Dy : dims_ok y) by (unfold dims_ok; rewrite Ey; repeat constructor; lia).
    assert (Mx : mapped st x) by (eapply holds_mapped; eauto).
    assert (My : mapped st y) by (eapply holds_mapped; eauto).
    assert (EQ : conv_nhwc_lib dt di sc lib e C z x y st = with_tensor [n; h'; w'; r; s; c] (fun xu =>
      im2col_nhwc dt di sc H W xu x ;;; l_mm dt sc lib e (as_matrix 3 xu) (as_matrix 3 y) (as_matrix 3 z)) st).
    { unfold conv_nhwc_lib. rewrite Ey. cbn [filter_shape filter_height_position filter_width_position nth].
      rewrite (axis_sample _ _ _ _ AH), (axis_sample _ _ _ _ AW). unfold lift at 1 2. rewrite !bind_ret_l.
      fold H. fold W. rewrite Ex, (im2col_shape_ok H W h w c h' w' n AH AW). unfold lift. rewrite bind_ret_l.
      rewrite Kr, Ks. reflexivity. }
    cut (exists Z, writes dt (with_tensor [n; h'; w'; r; s; c] (fun xu =>
      im2col_nhwc dt di sc H W xu x ;;; l_mm dt sc lib e (as_matrix 3 xu) (as_matrix 3 y) (as_matrix 3 z))) st z Z /\
      forall ix, valid [n; h'; w'; d] ix -> Rel (conv_pairs H W h w r s c X Y ix) (Z ix)).
    { intros (Z & WZ & RZ). exists Z. split; [|exact RZ]. eapply writes_ext; [symmetry; exact EQ|reflexivity|exact WZ]. }
    apply with_tensor_some; auto; [repeat constructor; lia|].
    intros xu s1 Eu Du Mu F1 N1 Dis Ext.
    assert (Dux : disjoint xu x) by auto. assert (Duy : disjoint xu y) by auto.
    assert (Duz : disjoint xu z) by auto.
    assert (WU : writes dt (im2col_nhwc dt di sc H W xu x) s1 xu (gather_spec_n sc H W h w c X)).
    { eapply (im2col_nhwc_writes dt di sc H W xu x n h w c h' w'); eauto; try lia. eapply extends_holds; eauto. }
    destruct WU as (s2 & E2 & HU & Oc).
    assert (HU' : holds dt s2 xu (arg6 (fun l i j u v k =>
       zpad zero h w (fun p q => X [l; p; q; k]) (wpos H i u) (wpos W j v)))).
    { eapply holds_ext; [|exact HU]. intros ix Hix. rewrite Eu in Hix.
      eapply gather_spec_n_small; eauto. }
    assert (HY2 : holds dt s2 y Y).
    { eapply only_changes_holds; eauto. eapply extends_holds; eauto. }
    pose proof (holds_as_matrix dt s2 3 xu _ Du HU') as HA. rewrite Eu in HA.
    pose proof (holds_as_matrix dt s2 3 y _ Dy HY2) as HB. rewrite Ey in HB.
    match type of HA with holds _ _ _ ?A => match type of HB with holds _ _ _ ?B =>
      destruct (l_mm_some e (as_matrix 3 xu) (as_matrix 3 y) (as_matrix 3 z)
        (prod [n; h'; w']) (prod [r; s; c]) (prod [d]) A B s2) as (F & WF & RF) end end; auto.
    - unfold sizes_ok in *; destruct e; rewrite !Forall_cons_iff in He; destruct He as (Q1 & Q2 & Q3 & _);
        repeat constructor; first [apply prod_pos|apply prod_nonneg]; repeat constructor; lia.
    - rewrite tdims_as_matrix, Eu. reflexivity.
    - rewrite tdims_as_matrix, Ey. reflexivity.
    - rewrite tdims_as_matrix, Ez. reflexivity.
    - apply mapped_as_matrix. eapply only_changes_mapped; eauto. eapply extends_mapped; eauto.
    - apply disjoint_as_matrix. apply disjoint_sym; auto.
    - apply disjoint_as_matrix. auto.
    - apply (writes_as_matrix dt _ s2 3 z _ Dz) in WF. destruct WF as (s3 & E3 & HF & N3 & F3).
      exists (fun ix => F (offset (firstn 3 (tdims z)) (firstn 3 ix)) (offset (skipn 3 (tdims z)) (skipn 3 ix))), s3.
      destruct Oc as [N2 F2]. split; [|split; [|split; [|split]]].
      + intros ix Hix. rewrite Ez. cbn [firstn skipn]. apply valid_4 in Hix.
        destruct Hix as (l & i & j & o & -> & Hl & Hi & Hj & Ho). cbn [firstn skipn].
        specialize (RF (offset [n; h'; w'] [l; i; j]) (offset [d] [o])).
        replace (conv_pairs H W h w r s c X Y [l; i; j; o]) with
          (map (fun k => (arg6 (fun l i j u v k =>
             zpad zero h w (fun p q => X [l; p; q; k]) (wpos H i u) (wpos W j v))
               (expand [n; h'; w'] (offset [n; h'; w'] [l; i; j]) ++ expand [r; s; c] k),
             Y (expand [r; s; c] k ++ expand [d] (offset [d] [o])))) (zrange (prod [r; s; c]))).
        * exact RF.
        * unfold conv_pairs, arg4; cbn [nth]. rewrite indices_expand, map_map by (repeat constructor; lia).
          apply map_ext_in. intros k Hk. apply in_zrange in Hk.
          pose proof (valid_expand [r; s; c] k ltac:(repeat constructor; lia) Hk) as Vk.
          rewrite (expand_offset [n; h'; w'] [l; i; j]) by (simpl; auto).
          rewrite (expand_offset [d] [o]) by (simpl; auto).
          remember (expand [r; s; c] k) as kk. apply valid_3 in Vk.
          destruct Vk as (u & v & k2 & -> & _). reflexivity.
      + rewrite (bind_ok _ _ _ _ _ E2). exact E3.
      + lia.
      + exact HF.
      + intros p Hp Hq. rewrite F3, F2; auto.
  Qed.
  (** The pairs of an entry of the gradient of the filter. *)
  Definition conv_gy_pairs (H W : sample) (n h w h' w' : Z) (GZ X : list Z -> T) (ix : list Z) : list (T * T) :=
    arg4 (fun u v k t =>
      map (arg3 (fun l i j => (zpad zero h w (fun p q => X [l; p; q; k]) (wpos H i u) (wpos W j v), GZ [l; i; j; t])))
        (indices [n; h'; w'])) ix.

  Lemma conv_grad_y_some : forall e C gy gz x n h w c r s d h' w' GZ X st,
    let H := axis_of (h_trait C) r in let W := axis_of (w_trait C) s in
    axis_ok H h h' -> axis_ok W w w' -> sizes_ok e [n; c; d] ->
    tdims x = [n; h; w; c] -> tdims gy = [r; s; c; d] -> tdims gz = [n; h'; w'; d] ->
    fresh_ok st -> holds dt st gz GZ -> holds dt st x X -> mapped st gy -> disjoint gy gz ->
    exists Z, writes dt (conv_grad_y_lib dt sc lib e C gy gz x) st gy Z /\
      forall ix, valid [r; s; c; d] ix -> Rel (conv_gy_pairs H W n h w h' w' GZ X ix) (Z ix).
  Proof using RB RL.
    intros e C gy gz x n h w c r s d h' w' GZ X st H W AH AW He Ex Ey Ez Hf HZ HX HY Dyz.
    assert (Hh' := axis_m _ _ _ AH). assert (Hw' := axis_m _ _ _ AW).
    assert (Hr := axis_k _ _ _ AH). assert (Hs := axis_k _ _ _ AW).
    assert (Hh := axis_n _ _ _ AH). assert (Hw := axis_n _ _ _ AW).
    assert (Kr : ksize (sfilter H) = r) by reflexivity. assert (Ks : ksize (sfilter W) = s) by reflexivity.
    rewrite Kr in Hr. rewrite Ks in Hs.
    destruct (sizes3 _ _ _ _ He) as (Hn & Hc & Hd).
    assert (Dz : dims_ok gz) by (unfold dims_ok; rewrite Ez; repeat constructor; lia).
    assert (Dx : dims_ok x) by (unfold dims_ok; rewrite Ex; repeat constructor; lia).
    assert (Dy : dims_ok gy) by (unfold dims_ok; rewrite Ey; repeat constructor; lia).
    assert (Mz : mapped st gz) by (eapply holds_mapped; eauto).
    assert (Mx : mapped st x) by (eapply holds_mapped; eauto).
    assert (EQ : conv_grad_y_lib dt sc lib e C gy gz x st = with_tensor [n; h'; w'; r; s; c] (fun xu =>
      batched (im2col_hwrsc dt sc H W) xu x ;;; l_mtm dt sc lib e (as_matrix 3 xu) (as_matrix 3 gz) (as_matrix 3 gy)) st).
    { unfold conv_grad_y_lib. rewrite Ey. cbn [filter_shape filter_height_position filter_width_position nth].
      rewrite (axis_sample _ _ _ _ AH), (axis_sample _ _ _ _ AW). unfold lift at 1 2. rewrite !bind_ret_l.
      fold H. fold W. rewrite Ex, (im2col_shape_ok H W h w c h' w' n AH AW). unfold lift. rewrite bind_ret_l.
      rewrite Kr, Ks. reflexivity. }
    cut (exists Z, writes dt (with_tensor [n; h'; w'; r; s; c] (fun xu =>
      batched (im2col_hwrsc dt sc H W) xu x ;;; l_mtm dt sc lib e (as_matrix 3 xu) (as_matrix 3 gz) (as_matrix 3 gy))) st gy Z /\
      forall ix, valid [r; s; c; d] ix -> Rel (conv_gy_pairs H W n h w h' w' GZ X ix) (Z ix)).
    { intros (Z & WZ & RZ). exists Z. split; [|exact RZ]. eapply writes_ext; [symmetry; exact EQ|reflexivity|exact WZ]. }
    apply with_tensor_some; auto; [repeat constructor; lia|].
    intros xu s1 Eu Du Mu F1 N1 Dis Ext.
    assert (Dux : disjoint xu x) by auto. assert (Duy : disjoint xu gy) by auto.
    assert (Duz : disjoint xu gz) by auto.
    assert (HZ1 : holds dt s1 gz GZ) by (eapply extends_holds; eauto).
    assert (HX1 : holds dt s1 x X) by (eapply extends_holds; eauto).
    assert (WU := batched_writes dt (im2col_hwrsc dt sc H W) xu x n [h'; w'; r; s; c] [h; w; c] X (im2col_spec sc H W h w) s1).
    destruct WU as (s2 & E2 & HU & Oc); auto; try (repeat constructor; lia).
    { intros y' x' X' s' Ey' Ex' HX' My' D'.
      apply (im2col_hwrsc_writes dt sc H W y' x' h w c h' w' X' s'); auto. }
    assert (HZ2 : holds dt s2 gz GZ) by (eapply only_changes_holds; eauto).
    pose proof (holds_as_matrix dt s2 3 xu _ Du HU) as HA. rewrite Eu in HA.
    pose proof (holds_as_matrix dt s2 3 gz _ Dz HZ2) as HB. rewrite Ez in HB.
    match type of HA with holds _ _ _ ?A => match type of HB with holds _ _ _ ?B =>
      destruct (l_mtm_some e (as_matrix 3 xu) (as_matrix 3 gz) (as_matrix 3 gy)
        (prod [r; s; c]) (prod [n; h'; w']) (prod [d]) A B s2) as (F & WF & RF) end end; auto.
    - unfold sizes_ok in *; destruct e; rewrite !Forall_cons_iff in He; destruct He as (Q1 & Q2 & Q3 & _);
        repeat constructor; first [apply prod_pos|apply prod_nonneg]; repeat constructor; lia.
    - rewrite tdims_as_matrix, Eu. reflexivity.
    - rewrite tdims_as_matrix, Ez. reflexivity.
    - rewrite tdims_as_matrix, Ey. reflexivity.
    - apply mapped_as_matrix. eapply only_changes_mapped; eauto. eapply extends_mapped; eauto.
    - apply disjoint_as_matrix. apply disjoint_sym; auto.
    - apply disjoint_as_matrix. auto.
    - apply (writes_as_matrix dt _ s2 3 gy _ Dy) in WF. destruct WF as (s3 & E3 & HF & N3 & F3).
      exists (fun ix => F (offset (firstn 3 (tdims gy)) (firstn 3 ix)) (offset (skipn 3 (tdims gy)) (skipn 3 ix))), s3.
      destruct Oc as [N2 F2]. split; [|split; [|split; [|split]]].
      + intros ix Hix. rewrite Ey. cbn [firstn skipn]. apply valid_4 in Hix.
        destruct Hix as (u & v & k & t & -> & Hu & Hv & Hk & Ht). cbn [firstn skipn].
        specialize (RF (offset [r; s; c] [u; v; k]) (offset [d] [t])).
        match type of RF with Rel ?l _ => replace (conv_gy_pairs H W n h w h' w' GZ X [u; v; k; t]) with l; [exact RF|] end.
        unfold conv_gy_pairs, arg4; cbn [nth]. rewrite indices_expand, map_map by (repeat constructor; lia).
        apply map_ext_in. intros o Ho. apply in_zrange in Ho.
        pose proof (valid_expand [n; h'; w'] o ltac:(repeat constructor; lia) Ho) as Vo.
        unfold arg2; cbn [nth firstn skipn].
        rewrite (expand_offset [r; s; c] [u; v; k]) by (simpl; auto).
        rewrite (expand_offset [d] [t]) by (simpl; auto).
        remember (expand [n; h'; w'] o) as oo. apply valid_3 in Vo.
        destruct Vo as (l & i & j & -> & _). reflexivity.
      + rewrite (bind_ok _ _ _ _ _ E2). exact E3.
      + lia.
      + exact HF.
      + intros p Hp Hq. rewrite F3, F2; auto.
  Qed.

  (** Convolution in nchw: one product for every image. *)
  Definition conv_nchw_pairs (H W : sample) (h w r s c : Z) (X Y : list Z -> T) (ix : list Z) : list (T * T) :=
    arg4 (fun l o i j =>
      map (arg3 (fun k u v => (Y [o; k; u; v], zpad zero h w (fun p q => X [l; k; p; q]) (wpos H i u) (wpos W j v))))
        (indices [c; r; s])) ix.

  Lemma conv_nchw_some : forall e C z x y n h w c r s d h' w' X Y st,
    let H := axis_of (h_trait C) r in let W := axis_of (w_trait C) s in
    axis_ok H h h' -> axis_ok W w w' -> sizes_ok e [n; c; d] ->
    tdims x = [n; c; h; w] -> tdims y = [d; c; r; s] -> tdims z = [n; d; h'; w'] ->
    fresh_ok st -> holds dt st x X -> holds dt st y Y -> mapped st z -> disjoint z x -> disjoint z y ->
    exists Z, writes dt (conv_nchw_lib dt sc lib e C z x y) st z Z /\
      forall ix, valid [n; d; h'; w'] ix -> Rel (conv_nchw_pairs H W h w r s c X Y ix) (Z ix).
  Proof using RB RL.
    intros e C z x y n h w c r s d h' w' X Y st H W AH AW He Ex Ey Ez Hf HX HY HZ Dzx Dzy.
    assert (Hh' := axis_m _ _ _ AH). assert (Hw' := axis_m _ _ _ AW).
    assert (Hr := axis_k _ _ _ AH). assert (Hs := axis_k _ _ _ AW).
    assert (Hh := axis_n _ _ _ AH). assert (Hw := axis_n _ _ _ AW).
    assert (Kr : ksize (sfilter H) = r) by reflexivity. assert (Ks : ksize (sfilter W) = s) by reflexivity.
    rewrite Kr in Hr. rewrite Ks in Hs.
    destruct (sizes3 _ _ _ _ He) as (Hn & Hc & Hd).
    assert (Dz : dims_ok z) by (unfold dims_ok; rewrite Ez; repeat constructor; lia).
    assert (Dx : dims_ok x) by (unfold dims_ok; rewrite Ex; repeat constructor; lia).
    assert (Dy : dims_ok y) by (unfold dims_ok; rewrite Ey; repeat constructor; lia).
    assert (Mx : mapped st x) by (eapply holds_mapped; eauto).
    assert (My : mapped st y) by (eapply holds_mapped; eauto).
    assert (EQ : conv_nchw_lib dt sc lib e C z x y st = with_tensor [c; r; s; h'; w'] (fun xu =>
      for_ (zrange n) (fun l => batched (im2col_rshw dt sc H W) xu (sub x l) ;;;
        l_mm dt sc lib e (as_matrix 1 y) (as_matrix 3 xu) (as_matrix 1 (sub z l)))) st).
    { unfold conv_nchw_lib. rewrite Ey. cbn [filter_shape filter_height_position filter_width_position nth].
      rewrite (axis_sample _ _ _ _ AH), (axis_sample _ _ _ _ AW). unfold lift at 1 2. rewrite !bind_ret_l.
      fold H. fold W. rewrite Ex. cbn [tl]. rewrite (im2col_rshw_shape_ok H W h w h' w' c AH AW).
      unfold lift. rewrite bind_ret_l.
      rewrite Kr, Ks, Ez. cbn [batch_size batch_position nth]. reflexivity. }
    cut (exists Z, writes dt (with_tensor [c; r; s; h'; w'] (fun xu =>
      for_ (zrange n) (fun l => batched (im2col_rshw dt sc H W) xu (sub x l) ;;;
        l_mm dt sc lib e (as_matrix 1 y) (as_matrix 3 xu) (as_matrix 1 (sub z l))))) st z Z /\
      forall ix, valid [n; d; h'; w'] ix -> Rel (conv_nchw_pairs H W h w r s c X Y ix) (Z ix)).
    { intros (Z & WZ & RZ). exists Z. split; [|exact RZ]. eapply writes_ext; [symmetry; exact EQ|reflexivity|exact WZ]. }
    apply with_tensor_some; auto; [repeat constructor; lia|].
    intros xu s1 Eu Du Mu F1 N1 Dis Ext.
    assert (Dux : disjoint xu x) by auto. assert (Duy : disjoint xu y) by auto.
    assert (Duz : disjoint xu z) by auto.
    assert (HX1 : holds dt s1 x X) by (eapply extends_holds; eauto).
    assert (HY1 : holds dt s1 y Y) by (eapply extends_holds; eauto).
    assert (HZ1 : mapped s1 z) by (eapply extends_mapped; eauto).
    match goal with |- exists _ _, _ /\ ?body s1 = _ /\ _ =>
      cut (exists Z s', (forall ix, valid [n; d; h'; w'] ix -> Rel (conv_nchw_pairs H W h w r s c X Y ix) (Z ix)) /\
        body s1 = Ok tt s' /\ nextb s1 <= nextb s' /\ holds dt s' z Z /\ mapped s' xu /\
        (forall p, ~ foot xu p -> ~ foot z p -> cells s' p = cells s1 p)) end.
    { intros (Z & s' & R' & A & B & C' & _ & D'). exists Z, s'. auto. }
    apply (rows_scratch_some dt zero z n [d; h'; w'] xu _ (fun ix v => Rel (conv_nchw_pairs H W h w r s c X Y ix) v)); auto.
    intros l s2 Hl N2 M2 F2 O2.
    assert (Dzl : dims_ok (sub z l)) by (apply dims_ok_sub; auto).
    assert (Ezl : tdims (sub z l) = [d; h'; w']) by apply (tdims_sub _ _ _ _ Ez).
    assert (Exl : tdims (sub x l) = [c; h; w]) by apply (tdims_sub _ _ _ _ Ex).
    assert (HX2 : holds dt s2 (sub x l) (fun ix => X (l :: ix))).
    { eapply holds_frame; [|eapply holds_sub; eauto]. intros p Hp.
      assert (Hp' : foot x p) by (eapply foot_sub; eauto).
      apply F2; intros Hq; [apply (Dux p)|apply (Dzx p)]; auto. }
    assert (HY2 : holds dt s2 y Y).
    { eapply holds_frame; [|exact HY1]. intros p Hp. apply F2; intros Hq; [apply (Duy p)|apply (Dzy p)]; auto. }
    assert (MZ2 : mapped s2 (sub z l)).
    { eapply mapped_frame; [exact O2|]. eapply mapped_sub; eauto. }
    set (U := arg5 (fun k u v i j => zpad zero h w (fun p q => X [l; k; p; q]) (wpos H i u) (wpos W j v))).
    assert (W1 : writes dt (batched (im2col_rshw dt sc H W) xu (sub x l)) s2 xu U).
    { eapply (batched_rshw_writes dt sc H W xu (sub x l) c h w h' w' (fun ix => X (l :: ix))); eauto.
      eapply disjoint_sub_r; eauto. }
    assert (Dzu : disjoint (sub z l) xu) by (eapply disjoint_sub_l; eauto; apply disjoint_sym; auto).
    destruct W1 as (s3 & E3 & HU & Oc).
    assert (HY3 : holds dt s3 y Y) by (eapply only_changes_holds; eauto).
    pose proof (holds_as_matrix dt s3 3 xu _ Du HU) as HB. rewrite Eu in HB.
    pose proof (holds_as_matrix dt s3 1 y _ Dy HY3) as HA. rewrite Ey in HA.
    match type of HA with holds _ _ _ ?A => match type of HB with holds _ _ _ ?B =>
      destruct (l_mm_some e (as_matrix 1 y) (as_matrix 3 xu) (as_matrix 1 (sub z l))
        (prod [d]) (prod [c; r; s]) (prod [h'; w']) A B s3) as (F & WF & RF) end end; auto.
    - unfold sizes_ok in *; destruct e; rewrite !Forall_cons_iff in He; destruct He as (Q1 & Q2 & Q3 & _);
        repeat constructor; first [apply prod_pos|apply prod_nonneg]; repeat constructor; lia.
    - rewrite tdims_as_matrix, Ey. reflexivity.
    - rewrite tdims_as_matrix, Eu. reflexivity.
    - rewrite tdims_as_matrix, Ezl. reflexivity.
    - apply mapped_as_matrix. eapply only_changes_mapped; [exact Oc|apply disjoint_sym; auto|exact MZ2].
    - apply disjoint_as_matrix. eapply disjoint_sub_l; eauto.
    - apply disjoint_as_matrix. auto.
    - apply (writes_as_matrix dt _ s3 1 (sub z l) _ Dzl) in WF. destruct WF as (s4 & E4 & HF & N4 & F4).
      exists (fun ix => F (offset (firstn 1 (tdims (sub z l))) (firstn 1 ix)) (offset (skipn 1 (tdims (sub z l))) (skipn 1 ix))), s4.
      destruct Oc as [N3 F3]. split; [|split; [|split; [|split; [|split]]]].
      + intros ix Hix. rewrite Ezl. apply valid_3 in Hix.
        destruct Hix as (o & i & j & -> & Ho & Hi & Hj). cbn [firstn skipn].
        specialize (RF (offset [d] [o]) (offset [h'; w'] [i; j])).
        match type of RF with Rel ?q _ => replace (conv_nchw_pairs H W h w r s c X Y [l; o; i; j]) with q; [exact RF|] end.
        unfold conv_nchw_pairs, arg4; cbn [nth]. rewrite indices_expand, map_map by (repeat constructor; lia).
        apply map_ext_in. intros k Hk. apply in_zrange in Hk.
        pose proof (valid_expand [c; r; s] k ltac:(repeat constructor; lia) Hk) as Vk.
        unfold arg2; cbn [nth firstn skipn].
        rewrite (expand_offset [d] [o]) by (simpl; auto).
        rewrite (expand_offset [h'; w'] [i; j]) by (simpl; auto).
        remember (expand [c; r; s] k) as kk. apply valid_3 in Vk.
        destruct Vk as (k2 & a & b & -> & _). reflexivity.
      + rewrite (bind_ok _ _ _ _ _ E3). exact E4.
      + lia.
      + exact HF.
      + eapply mapped_frame; [|eapply holds_mapped; [exact Du|exact HU]]. intros p Hp. apply F4. intros Hq. apply (Dzu p); auto.
      + intros p Hp Hq. rewrite F4, F3; auto.
  Qed.

  (** The gradient by the image: the products are added up by col2im. *)
  Lemma conv_grad_x_some : forall e C gx gz y n h w c r s d h' w' GZ Y st,
    let H := axis_of (h_trait C) r in let W := axis_of (w_trait C) s in
    axis_ok H h h' -> axis_ok W w w' -> sizes_ok e [n; c; d] ->
    tdims gx = [n; h; w; c] -> tdims y = [r; s; c; d] -> tdims gz = [n; h'; w'; d] ->
    fresh_ok st -> holds dt st gz GZ -> holds dt st y Y -> mapped st gx ->
    exists Z U, writes dt (conv_grad_x_lib dt sc lib e C gx gz y) st gx Z /\
      (forall l p q k, valid [n; h; w; c] [l; p; q; k] -> Z [l; p; q; k]
        = sum_over sc (List.filter (arg4 (fun i j a b => (wpos H i a =? p) && (wpos W j b =? q))) (indices [h'; w'; r; s]))
            (arg4 (fun i j a b => U [l; i; j; a; b; k]))) /\
      forall l i j a b k, valid [n; h'; w'; r; s; c] [l; i; j; a; b; k] ->
        Rel (map (fun t => (GZ [l; i; j; t], Y [a; b; k; t])) (zrange d)) (U [l; i; j; a; b; k]).
  Proof using RB RL.
    intros e C gx gz y n h w c r s d h' w' GZ Y st H W AH AW He Ex Ey Ez Hf HZ HY HX.
    assert (Hh' := axis_m _ _ _ AH). assert (Hw' := axis_m _ _ _ AW).
    assert (Hr := axis_k _ _ _ AH). assert (Hs := axis_k _ _ _ AW).
    assert (Hh := axis_n _ _ _ AH). assert (Hw := axis_n _ _ _ AW).
    assert (Kr : ksize (sfilter H) = r) by reflexivity. assert (Ks : ksize (sfilter W) = s) by reflexivity.
    rewrite Kr in Hr. rewrite Ks in Hs.
    destruct (sizes3 _ _ _ _ He) as (Hn & Hc & Hd).
    assert (Dz : dims_ok gz) by (unfold dims_ok; rewrite Ez; repeat constructor; lia).
    assert (Dx : dims_ok gx) by (unfold dims_ok; rewrite Ex; repeat constructor; lia).
    assert (Dy : dims_ok y) by (unfold dims_ok; rewrite Ey; repeat constructor; lia).
    assert (Mz : mapped st gz) by (eapply holds_mapped; eauto).
    assert (My : mapped st y) by (eapply holds_mapped; eauto).
    assert (EQ : conv_grad_x_lib dt sc lib e C gx gz y st = with_tensor [n; h'; w'; r; s; c] (fun xu =>
      l_mmt dt sc lib e (as_matrix 3 gz) (as_matrix 3 y) (as_matrix 3 xu) ;;; batched (col2im dt sc H W) gx xu) st).
    { unfold conv_grad_x_lib. rewrite Ey. cbn [filter_shape filter_height_position filter_width_position nth].
      rewrite (axis_sample _ _ _ _ AH), (axis_sample _ _ _ _ AW). unfold lift at 1 2. rewrite !bind_ret_l.
      fold H. fold W. rewrite Ex, (im2col_shape_ok H W h w c h' w' n AH AW). unfold lift. rewrite bind_ret_l.
      rewrite Kr, Ks. reflexivity. }
    cut (exists Z, writes dt (with_tensor [n; h'; w'; r; s; c] (fun xu =>
      l_mmt dt sc lib e (as_matrix 3 gz) (as_matrix 3 y) (as_matrix 3 xu) ;;; batched (col2im dt sc H W) gx xu)) st gx Z /\
      exists U, (forall l p q k, valid [n; h; w; c] [l; p; q; k] -> Z [l; p; q; k]
        = sum_over sc (List.filter (arg4 (fun i j a b => (wpos H i a =? p) && (wpos W j b =? q))) (indices [h'; w'; r; s]))
            (arg4 (fun i j a b => U [l; i; j; a; b; k]))) /\
      forall l i j a b k, valid [n; h'; w'; r; s; c] [l; i; j; a; b; k] ->
        Rel (map (fun t => (GZ [l; i; j; t], Y [a; b; k; t])) (zrange d)) (U [l; i; j; a; b; k])).
    { intros (Z & WZ & U & Q1 & Q2). exists Z, U. split; [|split; assumption].
      eapply writes_ext; [symmetry; exact EQ|reflexivity|exact WZ]. }
    apply with_tensor_some; auto; [repeat constructor; lia|].
    intros xu s1 Eu Du Mu F1 N1 Dis Ext.
    assert (Dux : disjoint xu gx) by auto. assert (Duy : disjoint xu y) by auto.
    assert (Duz : disjoint xu gz) by auto.
    assert (HZ1 : holds dt s1 gz GZ) by (eapply extends_holds; eauto).
    assert (HY1 : holds dt s1 y Y) by (eapply extends_holds; eauto).
    pose proof (holds_as_matrix dt s1 3 gz _ Dz HZ1) as HA. rewrite Ez in HA.
    pose proof (holds_as_matrix dt s1 3 y _ Dy HY1) as HB. rewrite Ey in HB.
    match type of HA with holds _ _ _ ?A => match type of HB with holds _ _ _ ?B =>
      destruct (l_mmt_some e (as_matrix 3 gz) (as_matrix 3 y) (as_matrix 3 xu)
        (prod [n; h'; w']) (prod [d]) (prod [r; s; c]) A B s1) as (F & WF & RF) end end; auto.
    - unfold sizes_ok in *; destruct e; rewrite !Forall_cons_iff in He; destruct He as (Q1 & Q2 & Q3 & _);
        repeat constructor; first [apply prod_pos|apply prod_nonneg]; repeat constructor; lia.
    - rewrite tdims_as_matrix, Ez. reflexivity.
    - rewrite tdims_as_matrix, Ey. reflexivity.
    - rewrite tdims_as_matrix, Eu. reflexivity.
    - apply mapped_as_matrix. auto.
    - apply disjoint_as_matrix. auto.
    - apply disjoint_as_matrix. auto.
    - apply (writes_as_matrix dt _ s1 3 xu _ Du) in WF. destruct WF as (s2 & E2 & HU & Oc).
      match type of HU with holds _ _ _ ?u => set (U := u) in * end.
      destruct (batched_writes dt (col2im dt sc H W) gx xu n [h; w; c] [h'; w'; r; s; c] U (col2im_spec sc H W h' w' r s) s2)
        as (s3 & E3 & HG & N3 & F3); auto; try (repeat constructor; lia).
      { eapply only_changes_mapped; eauto. eapply extends_mapped; eauto. }
      { apply disjoint_sym; auto. }
      { intros y' x' X' s' Ey' Ex' HX' My' D'. apply (col2im_writes dt sc H W y' x' h w c h' w' X' s'); auto. }
      destruct Oc as [N2 F2].
      eexists. exists s3. split; [|split; [|split; [|split; [exact HG|]]]].
      + exists U. split.
        * intros l p q k Hv. reflexivity.
        * intros l i j a b k Hv. unfold U. rewrite Eu. cbn [firstn skipn]. unfold arg2; cbn [nth].
          specialize (RF (offset [n; h'; w'] [l; i; j]) (offset [r; s; c] [a; b; k])).
          match type of RF with Rel ?q _ => replace (map (fun t => (GZ [l; i; j; t], Y [a; b; k; t])) (zrange d)) with q; [exact RF|] end.
          cbn [valid] in Hv. destruct Hv as (Hl & Hi & Hj & Ha & Hb & Hk & _).
          cbn [prod]. rewrite Z.mul_1_r. apply map_ext_in. intros t Ht. unfold arg2; cbn [nth firstn skipn].
          rewrite (expand_offset [n; h'; w'] [l; i; j]) by (simpl; auto).
          rewrite (expand_offset [r; s; c] [a; b; k]) by (simpl; auto).
          assert (E1 : expand [d] t = [t]) by (cbn [expand prod]; rewrite Z.div_1_r; reflexivity).
          rewrite E1. reflexivity.
      + rewrite (bind_ok _ _ _ _ _ E2). exact E3.
      + lia.
      + intros p Hp Hq. rewrite F3, F2; auto.
  Qed.
End Writes.

(** ** The library that adds in increasing order *)
Section InOrder.
  Context {V T : Type} (dt : dtype V T) (di : dtype V Z) (sc : scalar T) (exp_ : T -> T) (eps : T).
  Notation total := (fun l => fold_left (fun tmp p => sadd sc tmp (smul sc (fst p) (snd p))) l (s0 sc)).

  Lemma collect : forall (l : list Z) (f g : Z -> M V T) (k : T -> M V unit) acc s,
    (pairs <- foldM l (fun acc k => aa <- f k ;; bb <- g k ;; ret (acc ++ [(aa, bb)])) acc ;; k (total pairs)) s
    = (tmp <- foldM l (fun tmp k => aa <- f k ;; bb <- g k ;; ret (sadd sc tmp (smul sc aa bb))) (total acc) ;; k tmp) s.
  Proof using.
    intros l f g k. induction l as [|a l IH]; intros acc s; [reflexivity|].
    cbn [foldM]. unfold bind in *. destruct (f a s) as [x s1|e s1|]; auto. destruct (g a s1) as [y s2|e s2|]; auto.
    cbn [ret]. specialize (IH (acc ++ [(x, y)]) s2). rewrite fold_left_app in IH. exact IH.
  Qed.

  Lemma gemm_in_order : forall ta tb Mm N K alpha A lda B ldb C ldc s,
    gemm_lib dt sc (in_order sc) ta tb Mm N K alpha A lda B ldb C ldc s = gemm dt sc ta tb Mm N K alpha A lda B ldb C ldc s.
  Proof using.
    intros. unfold gemm_lib, gemm, in_order. destruct (_ || _); [reflexivity|].
    apply for_ext. intros i s1 _. apply for_ext. intros j s2 _.
    apply (collect (zrange K) (fun k => load dt (elt A ta lda i k)) (fun k => load dt (elt B tb ldb k j))
      (fun tmp => store dt (elt C false ldc i j) (smul sc alpha tmp)) [] s2).
  Qed.

  Lemma gemv_in_order : forall ta Mm N alpha A lda X Y s,
    gemv_lib dt sc (in_order sc) ta Mm N alpha A lda X Y s = gemv dt sc ta Mm N alpha A lda X Y s.
  Proof using.
    intros. unfold gemv_lib, gemv, in_order. destruct (_ || _); [reflexivity|].
    apply for_ext. intros i s1 _.
    apply (collect (zrange (if ta then Mm else N)) (fun k => load dt (elt A ta lda i k)) (fun k => load dt (fst X, snd X + k))
      (fun tmp => store dt (fst Y, snd Y + i) (smul sc alpha tmp)) [] s1).
  Qed.
  Lemma l_mm_in_order : forall e a b c s, l_mm dt sc (in_order sc) e a b c s = e_mm dt sc e a b c s.
  Proof using. intros [] a b c s; [reflexivity|]. apply gemm_in_order. Qed.
  Lemma l_mmt_in_order : forall e a b c s, l_mmt dt sc (in_order sc) e a b c s = e_mmt dt sc e a b c s.
  Proof using. intros [] a b c s; [reflexivity|]. apply gemm_in_order. Qed.
  Lemma l_mtm_in_order : forall e a b c s, l_mtm dt sc (in_order sc) e a b c s = e_mtm dt sc e a b c s.
  Proof using. intros [] a b c s; [reflexivity|]. apply gemm_in_order. Qed.

  Lemma bind_same : forall {A B} (m : M V A) (f g : A -> M V B) s, (forall a s, f a s = g a s) -> (a <- m ;; f a) s = (a <- m ;; g a) s.
  Proof using. intros A B m f g s H. unfold bind. destruct (m s); auto. Qed.

  Lemma with_tensor_same : forall {A} ds (f g : tensor -> M V A) s, (forall t s, f t s = g t s) -> with_tensor ds f s = with_tensor ds g s.
  Proof using. intros A ds f g s H. unfold with_tensor, with_temp. destruct (alloc (prod ds) s) as [b s1|e s1|]; auto. rewrite H. reflexivity. Qed.

  Lemma conv_nhwc_in_order : forall e C z x y s, conv_nhwc_lib dt di sc (in_order sc) e C z x y s = conv_nhwc dt di sc e C z x y s.
  Proof using.
    intros e C z x y s. unfold conv_nhwc_lib, conv_nhwc. apply bind_same; intros H s1. apply bind_same; intros W s2.
    apply bind_same; intros up s3. apply with_tensor_same; intros t s4. apply bind_same; intros [] s5. apply l_mm_in_order.
  Qed.

  Lemma conv_grad_y_in_order : forall e C gy gz x s, conv_grad_y_lib dt sc (in_order sc) e C gy gz x s = conv_grad_y dt sc e C gy gz x s.
  Proof using.
    intros e C gy gz x s. unfold conv_grad_y_lib, conv_grad_y. apply bind_same; intros H s1. apply bind_same; intros W s2.
    apply bind_same; intros up s3. apply with_tensor_same; intros t s4. apply bind_same; intros [] s5. apply l_mtm_in_order.
  Qed.

  Lemma conv_nchw_in_order : forall e C z x y s, conv_nchw_lib dt sc (in_order sc) e C z x y s = conv_nchw dt sc e C z x y s.
  Proof using.
    intros e C z x y s. unfold conv_nchw_lib, conv_nchw. apply bind_same; intros H s1. apply bind_same; intros W s2.
    apply bind_same; intros up s3. apply with_tensor_same; intros t s4. apply for_ext. intros l s5 _.
    apply bind_same; intros [] s6. apply l_mm_in_order.
  Qed.

  Lemma conv_grad_x_in_order : forall e C gx gz y s, conv_grad_x_lib dt sc (in_order sc) e C gx gz y s = conv_grad_x dt sc e C gx gz y s.
  Proof using.
    intros e C gx gz y s. unfold conv_grad_x_lib, conv_grad_x. apply bind_same; intros H s1. apply bind_same; intros W s2.
    apply bind_same; intros up s3. apply with_tensor_same; intros t s4. unfold bind. rewrite l_mmt_in_order. reflexivity.
  Qed.

  Lemma net_in_order : forall E net k s, net_lib dt di sc exp_ eps (in_order sc) E k net s = forward_from dt di sc exp_ eps E k net s.
  Proof using.
    intros E net. induction net as [|L net IH]; intros k s; [reflexivity|]. cbn [net_lib forward_from].
    assert (Q : forall s, forward_lib dt di sc exp_ eps (in_order sc) L (E (Out (S k))) (E (Out k)) (E (Par k)) s
      = forward dt di sc exp_ eps L (E (Out (S k))) (E (Out k)) (E (Par k)) s).
    { intros s1. destruct L; try reflexivity; cbn [forward_lib forward]; [apply l_mm_in_order|apply conv_nhwc_in_order]. }
    unfold bind. rewrite Q. destruct (forward _ _ _ _ _ _ _ _ _ s) as [[] s1|e s1|]; auto.
  Qed.
End InOrder.

(** ** Rounding *)
Section Rounding.
  Context (prec emax : Z) {Hprec : Prec_gt_0 prec} {Hmax : Prec_lt_emax prec emax}.
  Notation sc := (Fsc prec emax).
  Notation flt := (binary_float prec emax).
  Notation u := (unit_roundoff prec).
  Notation eta := (half_tiny prec emax).
  Notation fexp := (FLT_exp (3 - emax - prec) prec).
  Notation rnd := (round radix2 fexp ZnearestE).
  Open Scope R_scope.

  Lemma one_times : forall v : flt, Bmult mode_NE Bone v = v.
  Proof.
    intros v. pose proof (is_finite_Bone prec emax _ _) as F1. pose proof (Bone_correct prec emax _ _) as E1.
    pose proof (Bsign_Bone prec emax _ _) as S1.
    destruct (is_finite v) eqn:Fv.
    - destruct (mul_one prec emax v Fv) as [F E]. apply B2R_Bsign_inj; auto.
      pose proof (Bmult_correct prec emax _ _ mode_NE Bone v) as C. rewrite Rlt_bool_true in C.
      + destruct C as (_ & _ & C). rewrite C, S1; [destruct (Bsign v); reflexivity|].
        destruct (Bmult mode_NE Bone v); try discriminate F; reflexivity.
      + rewrite Bone_correct, Rmult_1_l, round_generic by (try apply valid_rnd_round_mode; apply generic_format_B2R).
        apply abs_B2R_lt_emax.
    - destruct (@Bone prec emax _ _) as [s|s| |s m e B]; try discriminate F1.
      + cbn in E1. lra.
      + cbn in S1. subst s. destruct v as [s'|s'| |s' m' e' B']; try discriminate Fv; cbn; [|reflexivity].
        destruct s'; reflexivity.
  Qed.

  (** The loops that are built in, and the result of a call with alpha = 1. *)
  Lemma builtin_sums : forall l : list (flt * flt),
    dot_value prec emax l (fold_left (fun tmp p => sadd sc tmp (smul sc (fst p) (snd p))) l (s0 sc)).
  Proof.
    intros l. induction l as [|[a b] l IH] using rev_ind; [apply dot_nil|].
    rewrite fold_left_app. cbn [fold_left]. apply dot_add; [exact IH|apply dot_one].
  Qed.

  Lemma lib_sums {V} : forall lib : library V flt, sums prec emax lib -> forall s c l,
    dot_value prec emax l (smul sc (s1 sc) (lib s c l)).
  Proof. intros lib H s c l. cbn [smul s1 Fsc]. rewrite one_times. apply H. Qed.

  Lemma sumR_perm : forall {A} (l l' : list A) (f : A -> R), Permutation l l' -> sum_over Rsc l f = sum_over Rsc l' f.
  Proof using.
    intros A l l' f H. induction H; auto.
    - rewrite !list_sum_cons, IHPermutation. reflexivity.
    - rewrite !list_sum_cons. lra.
    - congruence.
  Qed.

  Lemma sumR_app : forall {A} (l l' : list A) (f : A -> R), sum_over Rsc (l ++ l') f = sum_over Rsc l f + sum_over Rsc l' f.
  Proof using.
    intros A l l' f. induction l as [|a l IH].
    - change (sum_over Rsc [] f) with 0. cbn [app]. lra.
    - cbn [app]. rewrite !list_sum_cons, IH. lra.
  Qed.

  Lemma bound_grow : forall n n' T T', (n <= n')%nat -> 0 <= T <= T' -> dot_bound prec emax n T <= dot_bound prec emax n' T'.
  Proof.
    intros n n' T T' Hn HT. unfold dot_bound. pose proof (pow_ge1 prec n) as Q. pose proof (u_pos prec) as Pu.
    pose proof (eta_pos prec emax) as Pe. pose proof (pos_INR n) as PN.
    assert (Q2 : (1 + u) ^ n <= (1 + u) ^ n') by (apply Rle_pow; [lra|exact Hn]).
    apply le_INR in Hn. apply Rplus_le_compat; [apply Rmult_le_compat; lra|].
    apply Rmult_le_compat; try lra; [apply Rmult_le_pos; lra|]. apply Rmult_le_compat_r; lra.
  Qed.

  Lemma bound_pos : forall n T, 0 <= T -> 0 <= dot_bound prec emax n T.
  Proof.
    intros n T HT. unfold dot_bound. pose proof (pow_ge1 prec n). pose proof (eta_pos prec emax). pose proof (pos_INR n).
    apply Rplus_le_le_0_compat; [apply Rmult_le_pos; lra|]. apply Rmult_le_pos; [apply Rmult_le_pos|]; lra.
  Qed.

  (** Adding two sums. *)
  Lemma bound_join : forall n1 n2 T1 T2, (1 <= n1)%nat -> (1 <= n2)%nat -> 0 <= T1 -> 0 <= T2 ->
    (1 + u) * (dot_bound prec emax n1 T1 + dot_bound prec emax n2 T2) + u * (T1 + T2) <= dot_bound prec emax (n1 + n2) (T1 + T2).
  Proof.
    intros n1 n2 T1 T2 N1 N2 H1 H2. unfold dot_bound. pose proof (u_pos prec) as Pu. pose proof (eta_pos prec emax) as Pe.
    assert (K : forall n, (S n <= n1 + n2)%nat -> (1 + u) * (1 + u) ^ n <= (1 + u) ^ (n1 + n2)).
    { intros n Hn. change ((1 + u) * (1 + u) ^ n) with ((1 + u) ^ S n). apply Rle_pow; [lra|exact Hn]. }
    pose proof (K n1 ltac:(lia)) as K1. pose proof (K n2 ltac:(lia)) as K2. rewrite plus_INR.
    pose proof (pos_INR n1) as P1. pose proof (pos_INR n2) as P2.
    set (N1' := INR n1) in *. set (N2' := INR n2) in *. set (q1 := (1 + u) ^ n1) in *. set (q2 := (1 + u) ^ n2) in *.
    set (q := (1 + u) ^ (n1 + n2)) in *.
    assert (A1 : (1 + u) * q1 * T1 <= q * T1) by (apply Rmult_le_compat_r; lra).
    assert (A2 : (1 + u) * q2 * T2 <= q * T2) by (apply Rmult_le_compat_r; lra).
    assert (B1 : N1' * eta * ((1 + u) * q1) <= N1' * eta * q) by (apply Rmult_le_compat_l; [apply Rmult_le_pos|]; lra).
    assert (B2 : N2' * eta * ((1 + u) * q2) <= N2' * eta * q) by (apply Rmult_le_compat_l; [apply Rmult_le_pos|]; lra).
    lra.
  Qed.

  (** A product added without rounding. *)
  Lemma bound_fma : forall n T t, 0 <= T -> 0 <= t ->
    (1 + u) * dot_bound prec emax n T + u * (t + T) + eta <= dot_bound prec emax (S n) (t + T).
  Proof.
    intros n T t HT Ht. unfold dot_bound. pose proof (u_pos prec) as Pu. pose proof (eta_pos prec emax) as Pe.
    pose proof (pow_ge1 prec n) as Q. rewrite S_INR. pose proof (pos_INR n) as PN. cbn [pow].
    set (q := (1 + u) ^ n) in *. set (N := INR n) in *.
    assert (A : (1 + u) * t <= (1 + u) * q * t) by (rewrite Rmult_assoc; apply Rmult_le_compat_l; [lra|]; nra).
    assert (B0 : 1 <= (1 + u) * q) by nra.
    assert (B : eta * 1 <= eta * ((1 + u) * q)) by (apply Rmult_le_compat_l; lra).
    lra.
  Qed.

  Lemma ffma_ok : forall x y z : flt, is_finite x = true -> is_finite y = true -> is_finite z = true ->
    Rabs (rnd (B2R x * B2R y + B2R z)) < bpow radix2 emax ->
    is_finite (Bfma mode_NE x y z) = true /\ B2R (Bfma mode_NE x y z) = rnd (B2R x * B2R y + B2R z).
  Proof.
    intros x y z Fx Fy Fz H. pose proof (Bfma_correct prec emax _ _ mode_NE x y z Fx Fy Fz) as C. cbv zeta in C.
    change (SpecFloat.fexp prec emax) with fexp in C. cbn [round_mode] in C.
    rewrite Rlt_bool_true in C by exact H. destruct C as (C1 & C2 & _). auto.
  Qed.

  Lemma dot_abs_pos : forall l, 0 <= dot_abs prec emax l.
  Proof. intros l. apply sumR_nonneg. intros. apply Rabs_pos. Qed.
  Lemma dot_le_abs : forall l, Rabs (dot_R prec emax l) <= dot_abs prec emax l.
  Proof. intros l. apply list_sum_abs. Qed.

  (** The error of a sum taken in whatever way. *)
  Lemma dot_any : forall l v, dot_value prec emax l v ->
    (forall p, In p l -> is_finite (fst p) = true /\ is_finite (snd p) = true) ->
    no_overflow prec emax (length l) (dot_abs prec emax l) ->
    is_finite v = true /\ Rabs (B2R v - dot_R prec emax l) <= dot_bound prec emax (length l) (dot_abs prec emax l).
  Proof.
    pose proof (u_pos prec) as Pu. pose proof (eta_pos prec emax) as Pe. unfold no_overflow.
    intros l v H. induction H as [s|a b|l1 l2 v1 v2 H1 IH1 H2 IH2|a b l v H IH|l l' v P H IH]; intros HF HO.
    - split; [reflexivity|]. unfold dot_R, dot_bound. cbn. rewrite Rminus_0_r, Rabs_R0. lra.
    - destruct (HF (a, b) (or_introl eq_refl)) as [Fa Fb]. cbn [fst snd] in *.
      unfold dot_abs, dot_R in *. rewrite !list_sum_cons in *. cbn [fst snd length] in *. cbn [sum_over fold_left s0 Rsc] in *.
      unfold dot_bound in *. cbn [pow INR] in *.
      set (p := B2R a * B2R b) in *. pose proof (Rabs_pos p) as Pp. pose proof (rnd_err prec emax p) as E.
      assert (EU : 0 <= eta * u) by (apply Rmult_le_pos; lra).
      assert (O : Rabs (rnd p) < bpow radix2 emax).
      { replace (rnd p) with (p + (rnd p - p)) by ring. eapply Rle_lt_trans; [apply Rabs_triang|]. lra. }
      destruct (fmul_ok prec emax a b Fa Fb O) as [F B]. split; [exact F|]. rewrite B. fold p. rewrite Rplus_0_r.
      eapply Rle_trans; [exact E|]. lra.
    - assert (TT : dot_abs prec emax (l1 ++ l2) = dot_abs prec emax l1 + dot_abs prec emax l2) by apply sumR_app.
      assert (SS : dot_R prec emax (l1 ++ l2) = dot_R prec emax l1 + dot_R prec emax l2) by apply sumR_app.
      rewrite TT, SS, app_length in *.
      pose proof (dot_abs_pos l1) as P1. pose proof (dot_abs_pos l2) as P2.
      pose proof (dot_le_abs l1) as A1. pose proof (dot_le_abs l2) as A2.
      set (T1 := dot_abs prec emax l1) in *. set (T2 := dot_abs prec emax l2) in *.
      set (S1 := dot_R prec emax l1) in *. set (S2 := dot_R prec emax l2) in *.
      set (B := dot_bound prec emax (length l1 + length l2) (T1 + T2)) in *.
      pose proof (bound_grow (length l1) (length l1 + length l2) T1 (T1 + T2) ltac:(lia) ltac:(lra)) as G1.
      pose proof (bound_grow (length l2) (length l1 + length l2) T2 (T1 + T2) ltac:(lia) ltac:(lra)) as G2.
      fold B in G1, G2.
      destruct IH1 as [F1 E1]; [intros p Hp; apply HF, in_or_app; auto|lra|].
      destruct IH2 as [F2 E2]; [intros p Hp; apply HF, in_or_app; auto|lra|].
      assert (Er : Rabs (rnd (B2R v1 + B2R v2) - (S1 + S2)) <= B).
      { destruct (Nat.eq_dec (length l1) 0) as [Z1|Z1]; [|destruct (Nat.eq_dec (length l2) 0) as [Z2|Z2]].
        - apply length_zero_iff_nil in Z1. assert (X1 : S1 = 0) by (unfold S1; rewrite Z1; reflexivity).
          assert (Y1 : dot_bound prec emax (length l1) T1 = 0) by (unfold T1, dot_bound, dot_abs; rewrite Z1; cbn; lra).
          rewrite Y1, X1 in E1. apply Rabs_le_2 in E1. replace (B2R v1) with 0 by lra. rewrite X1, !Rplus_0_l.
          rewrite round_generic; [lra|apply valid_rnd_N|apply generic_format_B2R].
        - apply length_zero_iff_nil in Z2. assert (X2 : S2 = 0) by (unfold S2; rewrite Z2; reflexivity).
          assert (Y2 : dot_bound prec emax (length l2) T2 = 0) by (unfold T2, dot_bound, dot_abs; rewrite Z2; cbn; lra).
          rewrite Y2, X2 in E2. apply Rabs_le_2 in E2. replace (B2R v2) with 0 by lra. rewrite X2, !Rplus_0_r.
          rewrite round_generic; [lra|apply valid_rnd_N|apply generic_format_B2R].
        - pose proof (bound_join (length l1) (length l2) T1 T2 ltac:(lia) ltac:(lia) P1 P2) as J. fold B in J.
          pose proof (rnd_plus_err prec emax v1 v2) as E.
          assert (Ab : Rabs (B2R v1 + B2R v2) <= (T1 + T2) + (dot_bound prec emax (length l1) T1 + dot_bound prec emax (length l2) T2)).
          { apply Rabs_le_2 in E1. apply Rabs_le_2 in E2. apply Rabs_le_2 in A1. apply Rabs_le_2 in A2. apply Rabs_le_2. lra. }
          apply (Rmult_le_compat_l u) in Ab; [|lra].
          apply Rabs_le_2 in E1. apply Rabs_le_2 in E2. apply Rabs_le_2 in E. apply Rabs_le_2. lra. }
      destruct (fadd_ok prec emax v1 v2 F1 F2) as [F Q].
      { apply Rabs_le_2 in Er. apply Rabs_le_2 in A1. apply Rabs_le_2 in A2.
        eapply Rle_lt_trans; [|exact HO]. apply Rabs_le_2. lra. }
      split; [exact F|]. rewrite Q. exact Er.
    - assert (TT : dot_abs prec emax ((a, b) :: l) = Rabs (B2R a * B2R b) + dot_abs prec emax l) by (unfold dot_abs; rewrite list_sum_cons; reflexivity).
      assert (SS : dot_R prec emax ((a, b) :: l) = B2R a * B2R b + dot_R prec emax l) by (unfold dot_R; rewrite list_sum_cons; reflexivity).
      rewrite TT, SS in *. cbn [length] in *.
      destruct (HF (a, b) (or_introl eq_refl)) as [Fa Fb]. cbn [fst snd] in *.
      pose proof (dot_abs_pos l) as P1. pose proof (dot_le_abs l) as A1.
      set (T1 := dot_abs prec emax l) in *. set (S1 := dot_R prec emax l) in *.
      set (p := B2R a * B2R b) in *. pose proof (Rabs_pos p) as Pp. set (t := Rabs p) in *.
      pose proof (bound_fma (length l) T1 t P1 Pp) as J. pose proof (bound_pos (length l) T1 P1) as PB.
      set (B := dot_bound prec emax (S (length l)) (t + T1)) in *. set (B1 := dot_bound prec emax (length l) T1) in *.
      assert (PU : 0 <= u * B1) by (apply Rmult_le_pos; lra). assert (PT : 0 <= u * (t + T1)) by (apply Rmult_le_pos; lra).
      destruct IH as [F1 E1]; [intros q Hq; apply HF; right; exact Hq|lra|].
      assert (At : Rabs p <= t) by apply Rle_refl. apply Rabs_le_2 in At. apply Rabs_le_2 in A1. apply Rabs_le_2 in E1.
      pose proof (rnd_err prec emax (p + B2R v)) as E.
      assert (Ab : Rabs (p + B2R v) <= t + T1 + B1) by (apply Rabs_le_2; lra).
      apply (Rmult_le_compat_l u) in Ab; [|lra].
      assert (Er : Rabs (rnd (p + B2R v) - (p + S1)) <= B).
      { apply Rabs_le_2 in E. apply Rabs_le_2. lra. }
      destruct (ffma_ok a b v Fa Fb F1) as [F Q].
      { fold p. apply Rabs_le_2 in Er. eapply Rle_lt_trans; [|exact HO]. apply Rabs_le_2. lra. }
      split; [exact F|]. rewrite Q. exact Er.
    - assert (TT : dot_abs prec emax l' = dot_abs prec emax l) by (symmetry; apply sumR_perm; exact P).
      assert (SS : dot_R prec emax l' = dot_R prec emax l) by (symmetry; apply sumR_perm; exact P).
      rewrite TT, SS in *. rewrite <- (Permutation_length P) in *. apply IH; auto.
      intros p Hp. apply HF. eapply Permutation_in; eauto.
  Qed.

  (** *** Integers *)

  (** *** In terms of the factors *)
  Lemma pairs_within : forall {A} (l : list A) (f g : A -> flt) v, dot_value prec emax (map (fun k => (f k, g k)) l) v ->
    (forall k, In k l -> is_finite (f k) = true /\ is_finite (g k) = true) ->
    no_overflow prec emax (length l) (sum_over Rsc l (fun k => Rabs (B2R (f k) * B2R (g k)))) ->
    approximates prec emax l (fun k => B2R (f k)) (fun k => B2R (g k)) v.
  Proof.
    intros A l f g v HV HF HO.
    assert (ET : dot_abs prec emax (map (fun k => (f k, g k)) l) = sum_over Rsc l (fun k => Rabs (B2R (f k) * B2R (g k))))
      by (unfold dot_abs; rewrite sum_over_map; reflexivity).
    assert (ER : dot_R prec emax (map (fun k => (f k, g k)) l) = sum_over Rsc l (fun k => B2R (f k) * B2R (g k))%R)
      by (unfold dot_R; rewrite sum_over_map; reflexivity).
    destruct (dot_any _ _ HV) as [F E].
    - intros p Hp. apply in_map_iff in Hp. destruct Hp as (k & <- & Hk). apply HF. exact Hk.
    - rewrite ET, map_length. exact HO.
    - rewrite ET, ER, map_length in E. split; assumption.
  Qed.

  Lemma sumdot_any : forall {A B} (l : list A) (m : list B) (f g : A -> B -> flt) (U : A -> flt),
    (forall a, In a l -> dot_value prec emax (map (fun b => (f a b, g a b)) m) (U a)) ->
    (forall a b, In a l -> In b m -> is_finite (f a b) = true /\ is_finite (g a b) = true) ->
    let T := sum_over Rsc l (fun a => sum_over Rsc m (fun b => Rabs (B2R (f a b) * B2R (g a b)))) in
    T + sumdot_bound prec emax (length m) (length l) T < bpow radix2 emax ->
    FloatSumSpec.within prec emax (sumdot_bound prec emax (length m) (length l) T)
      (sum_over Rsc l (fun a => sum_over Rsc m (fun b => B2R (f a b) * B2R (g a b))))
      (sum_over sc l U).
  Proof.
    intros A B l m f g U HU HF T HO.
    set (n := length m) in *. set (k := length l) in *.
    set (t := fun a => sum_over Rsc m (fun b => Rabs (B2R (f a b) * B2R (g a b)))).
    set (D := (1 + u) ^ n). set (P := (1 + u) ^ Nat.pred k).
    assert (EQ : sumdot_bound prec emax n k T = (D * P - 1) * T + INR k * INR n * eta * (D * P)).
    { unfold sumdot_bound, D, P. rewrite pow_add. reflexivity. }
    assert (D1 : 1 <= D) by apply pow_ge1. assert (P1 : 1 <= P) by apply pow_ge1.
    pose proof (u_pos prec) as Pu. pose proof (eta_pos prec emax) as Pe.
    assert (t0 : forall a, 0 <= t a) by (intros a; unfold t; apply sumR_nonneg; intros; apply Rabs_pos).
    assert (T0 : 0 <= T) by (apply sumR_nonneg; auto).
    assert (N0 : 0 <= INR n) by apply pos_INR.
    assert (DP : D <= D * P) by nra.
    assert (W : forall a, In a l -> FloatSumSpec.within prec emax (dot_bound prec emax n (t a))
              (sum_over Rsc m (fun b => B2R (f a b) * B2R (g a b))) (U a)).
    { intros a Ha. apply (pairs_within m (f a) (g a) (U a) (HU a Ha)); [intros b Hb; auto|].
      unfold no_overflow. change (sum_over Rsc m (fun b => Rabs (B2R (f a b) * B2R (g a b)))) with (t a). fold n.
      eapply Rle_lt_trans; [|exact HO]. rewrite EQ. unfold dot_bound. fold D.
      assert (Lt : t a <= T) by (apply (sumR_pick l t a); auto).
      assert (K1 : 1 <= INR k).
      { apply (le_INR 1). unfold k. destruct l; [contradiction|cbn; lia]. }
      assert (Q1 : D * t a <= D * P * T) by (apply Rmult_le_compat; try lra; auto).
      assert (Q2 : INR n * eta * D <= INR k * INR n * eta * (D * P)).
      { assert (0 <= INR n * eta) by (apply Rmult_le_pos; lra).
        apply Rmult_le_compat; try lra.
        rewrite Rmult_assoc. rewrite <- (Rmult_1_l (INR n * eta)) at 1. apply Rmult_le_compat_r; lra. }
      lra. }
    assert (E : sum_over Rsc l (fun a => dot_bound prec emax n (t a)) = (D - 1) * T + INR k * (INR n * eta * D)).
    { unfold dot_bound. fold D. rewrite sumR_plus, sumR_scale, sumR_const. reflexivity. }
    assert (R1 : sum_over Rsc l (fun a => Rabs (sum_over Rsc m (fun b => B2R (f a b) * B2R (g a b)))) <= T).
    { apply sumR_le. intros a _. apply sumR_abs. }
    destruct (sum_within prec emax l _ _ _ W) as (F & S).
    - fold k P. rewrite E. eapply Rle_lt_trans; [|exact HO]. rewrite EQ.
      replace (T + ((D * P - 1) * T + INR k * INR n * eta * (D * P)))
        with (P * (T + ((D - 1) * T + INR k * (INR n * eta * D)))) by ring.
      apply Rmult_le_compat_l; lra.
    - split; [exact F|]. fold k P in S. rewrite E in S. rewrite EQ. eapply Rle_trans; [exact S|].
      replace ((D * P - 1) * T + INR k * INR n * eta * (D * P))
        with ((P - 1) * T + P * ((D - 1) * T + INR k * (INR n * eta * D))) by ring.
      apply Rplus_le_compat_r, Rmult_le_compat_l; lra.
  Qed.

  Lemma sumZ_perm : forall {A} (l l' : list A) (f : A -> Z), Permutation l l' -> sum_over Zsc l f = sum_over Zsc l' f.
  Proof using.
    intros A l l' f H.
    assert (C : forall a l, sum_over Zsc (a :: l) f = (f a + sum_over Zsc l f)%Z).
    { intros a k. induction k as [|b k IH] using rev_ind; [cbn; lia|]. rewrite app_comm_cons, !sumZ_snoc, IH. lia. }
    induction H; auto; rewrite ?C; lia.
  Qed.

  Lemma sumZ_app : forall {A} (l l' : list A) (f : A -> Z), sum_over Zsc (l ++ l') f = (sum_over Zsc l f + sum_over Zsc l' f)%Z.
  Proof using.
    intros A l l' f. induction l' as [|a l' IH] using rev_ind; [rewrite app_nil_r; cbn; lia|].
    rewrite app_assoc, !sumZ_snoc, IH. lia.
  Qed.

  Lemma sumZ_pos : forall {A} (l : list A) (f : A -> Z), (0 <= sum_over Zsc l (fun a => Z.abs (f a)))%Z.
  Proof using. intros A l f. induction l as [|a l IH] using rev_ind; [reflexivity|]. rewrite sumZ_snoc. lia. Qed.

  Lemma dot_any_exact : forall l v, dot_value prec emax l v -> forall x y : flt * flt -> Z,
    (forall p, In p l -> integral prec emax (fst p) (x p) /\ integral prec emax (snd p) (y p)) ->
    (sum_over Zsc l (fun p => Z.abs (x p * y p)) <= 2 ^ prec)%Z ->
    integral prec emax v (sum_over Zsc l (fun p => x p * y p)%Z).
  Proof.
    intros l v H x y. induction H as [s|a b|l1 l2 v1 v2 H1 IH1 H2 IH2|a b l v H IH|l l' v P H IH]; intros HI HB.
    - split; reflexivity.
    - destruct (HI (a, b) (or_introl eq_refl)) as [Ia Ib]. cbn [fst snd] in *. apply integral_mul; auto.
    - rewrite !sumZ_app in *.
      pose proof (sumZ_pos l1 (fun p => x p * y p)%Z) as P1. pose proof (sumZ_pos l2 (fun p => x p * y p)%Z) as P2.
      pose proof (sumZ_abs l1 (fun p => x p * y p)%Z) as A1. pose proof (sumZ_abs l2 (fun p => x p * y p)%Z) as A2.
      cbv beta in *. apply integral_add; [apply IH1|apply IH2|]; try lia; intros p Hp; apply HI, in_or_app; auto.
    - change ((a, b) :: l) with ([(a, b)] ++ l) in *. rewrite !sumZ_app in *.
      destruct (HI (a, b) (or_introl eq_refl)) as [[Fa Ea] [Fb Eb]]. cbn [fst snd] in *.
      pose proof (sumZ_pos l (fun p => x p * y p)%Z) as P1. pose proof (sumZ_abs l (fun p => x p * y p)%Z) as A1.
      cbv beta in *. change (sum_over Zsc [(a, b)] ?f) with (f (a, b)) in *. cbv beta in *.
      set (q := sum_over Zsc l (fun p => x p * y p)%Z) in *.
      destruct IH as [Fv Ev]; [intros p Hp; apply HI; right; exact Hp|lia|].
      assert (QR : rnd (B2R a * B2R b + B2R v) = IZR (x (a, b) * y (a, b) + q)).
      { rewrite Ea, Eb, Ev, <- mult_IZR, <- plus_IZR. apply (integral_rnd prec emax). lia. }
      destruct (ffma_ok a b v Fa Fb Fv) as [F E]; rewrite QR in *.
      + apply (integral_small prec emax). lia.
      + split; assumption.
    - rewrite <- !(sumZ_perm l l') in * by exact P. apply IH; auto. intros p Hp. apply HI. eapply Permutation_in; eauto.
  Qed.

  (** *** A layer *)
  Context (exp_ : flt -> flt) (eps : flt).
  Notation tns := (list Z -> flt).

  Definition layer_rel (L : layer) (P X Y : tns) : Prop :=
    match L with
    | LMatmul _ m l n => forall i j, (0 <= i < m)%Z -> (0 <= j < n)%Z ->
        dot_value prec emax (map (fun k => (X [i; k], P [k; j])) (zrange l)) (Y [i; j])
    | LConv _ C n h w c r s d h' w' => forall ix, valid [n; h'; w'; d] ix ->
        dot_value prec emax (conv_pairs sc (axis_of (h_trait C) r) (axis_of (w_trait C) s) h w r s c X P ix) (Y ix)
    | _ => Y = layer_float prec emax exp_ eps L P X
    end.

  Lemma forward_some {V} (dt : dtype V flt) (di : dtype V Z) (lib : library V flt) : sums prec emax lib ->
    forall L z x p P X s, layer_ok L ->
    tdims z = out_shape L -> tdims x = in_shape L -> tdims p = par_shape L ->
    fresh_ok s -> holds dt s x X -> holds dt s p P -> mapped s z -> disjoint z x -> disjoint z p ->
    exists Y, writes dt (forward_lib dt di sc exp_ eps lib L z x p) s z Y /\ layer_rel L P X Y.
  Proof.
    intros HS L z x p P X s Hok Ez Ex Ep Hf HX HP HZ D1 D2.
    destruct L as [ds|ds|e m l n|m n|n h w c|e C n h w c r t d h' w'|ds|m n|rs ds];
      cbn [forward_lib layer_rel];
      try (eexists; split; [|reflexivity]; apply forward_float; auto; exact I).
    - cbn [layer_ok out_shape in_shape par_shape] in *.
      destruct (l_mm_some dt sc lib (dot_value prec emax) builtin_sums (lib_sums lib HS) e x p z m l n X P s) as (F & WF & RF); auto.
      exists (arg2 F). split; [exact WF|]. intros i j _ _. apply RF.
    - cbn [layer_ok out_shape in_shape par_shape] in *. destruct Hok as (A1 & A2 & A3 & A4).
      apply (conv_nhwc_some dt di sc lib (dot_value prec emax) builtin_sums (lib_sums lib HS) e C z x p n h w c r t d h' w' X P s); auto.
  Qed.

  (** A sum of products of numbers of at most [m] with weights of sum [a]. *)
  Lemma dot_layer_any : forall {A} (l : list A) (f g : A -> flt) a m v, 0 <= m ->
    dot_value prec emax (map (fun k => (f k, g k)) l) v ->
    (forall k, In k l -> is_finite (f k) = true /\ is_finite (g k) = true /\ (Rabs (B2R (f k)) <= m)%R) ->
    sum_over Rsc l (fun k => Rabs (B2R (g k))) <= a ->
    a * m + dot_bound prec emax (length l) (a * m) < bpow radix2 emax ->
    let r := sum_over Rsc l (fun k => B2R (f k) * B2R (g k)) in
    is_finite v = true /\ Rabs (B2R v - r) <= dot_bound prec emax (length l) (a * m) /\ Rabs r <= a * m.
  Proof.
    intros A l f g a m v Hm HV H Ha HO r.
    assert (ER : dot_R prec emax (map (fun k => (f k, g k)) l) = r) by (unfold dot_R; rewrite sum_over_map; reflexivity).
    assert (ET : dot_abs prec emax (map (fun k => (f k, g k)) l) = sum_over Rsc l (fun k => Rabs (B2R (f k) * B2R (g k))))
      by (unfold dot_abs; rewrite sum_over_map; reflexivity).
    assert (HT : sum_over Rsc l (fun k => Rabs (B2R (f k) * B2R (g k))) <= a * m).
    { eapply Rle_trans; [apply (list_sum_le l _ (fun k => m * Rabs (B2R (g k))))|].
      - intros k Hk. destruct (H k Hk) as (_ & _ & B). rewrite Rabs_mult. apply Rmult_le_compat_r; [apply Rabs_pos|exact B].
      - rewrite (sumR_scale l m (fun k => Rabs (B2R (g k)))), Rmult_comm. apply Rmult_le_compat_r; auto. }
    assert (H0 : 0 <= sum_over Rsc l (fun k => Rabs (B2R (f k) * B2R (g k)))) by (apply sumR_nonneg; intros; apply Rabs_pos).
    pose proof (bound_le prec emax (length l) _ _ (conj H0 HT)) as HB.
    destruct (dot_any _ _ HV) as (F & E).
    - intros p Hp. apply in_map_iff in Hp. destruct Hp as (k & <- & Hk). destruct (H k Hk) as (A1 & A2 & _). auto.
    - unfold no_overflow. rewrite ET, map_length. lra.
    - rewrite ER, ET, map_length in E. split; [exact F|]. split; [lra|].
      unfold r. eapply Rle_trans; [apply list_sum_abs|exact HT].
  Qed.

  Lemma layer_rounding_any : forall d L P X Y a b m, layer_ok L -> 0 <= m -> is_finite eps = true -> B2R eps <= 1 ->
    layer_rel L P X Y ->
    finite_on prec emax (in_shape L) X -> bounded (in_shape L) m (reals prec emax X) ->
    weights_ok prec emax L P b -> gain L (reals prec emax P) a -> room prec emax d exp_ L a b m ->
    finite_on prec emax (out_shape L) Y /\
    close (out_shape L) (rounding prec emax d L a b m) (reals prec emax Y)
      (layer_fn (B2R eps) L (reals prec emax P) (reals prec emax X)) /\
    bounded (out_shape L) (reach L a b m) (layer_fn (B2R eps) L (reals prec emax P) (reals prec emax X)).
  Proof.
    intros d L P X Y a b m Hok Hm Fe He HY FX BX HW G HR.
    destruct L as [ds|ds|e q l n|q n|n h w c|e C n h w c r t k h' w'|ds|q n|rs ds];
      try (cbn [layer_rel] in HY; subst Y; apply layer_rounding; auto; fail).
    - destruct HW as [FP _]. destruct HR as [RO _]. unfold finite_on, close, bounded, reals in *.
      pose proof (eta_pos prec emax) as Pe.
      cbn [layer_rel layer_fn out_shape in_shape par_shape layer_ok rounding reach gain] in *.
      destruct G as [Ha G]. destruct (sizes3 _ _ _ _ Hok) as (_ & Hl & _).
      assert (H : forall i j, (0 <= i < q)%Z -> (0 <= j < n)%Z ->
        let r := rsum l (fun k => B2R (X [i; k]) * B2R (P [k; j])) in
        is_finite (Y [i; j]) = true /\ Rabs (B2R (Y [i; j]) - r) <= dot_bound prec emax (Z.to_nat l) (a * m) /\ Rabs r <= a * m).
      { intros i j Hi Hj r. rewrite <- (length_zrange l).
        apply (dot_layer_any (zrange l) (fun k => X [i; k]) (fun k => P [k; j])); auto.
        - intros k Hk. apply in_zrange in Hk. repeat split; [apply FX|apply FP|apply BX]; cbn; lia.
        - apply G; auto.
        - rewrite length_zrange. lra. }
      split; [|split]; intros ix Hv; apply valid_2 in Hv; destruct Hv as (i & j & -> & Hi & Hj); cbn [arg2]; apply H; auto.
    - destruct HW as [FP _]. destruct HR as [RO _]. unfold finite_on, close, bounded, reals in *.
      pose proof (eta_pos prec emax) as Pe.
      cbn [layer_rel layer_fn out_shape in_shape par_shape layer_ok rounding reach gain] in *.
      destruct G as [Ha G]. destruct Hok as (A1 & A2 & A3 & A4). destruct (sizes3 _ _ _ _ A3) as (_ & Hc & _).
      set (H_ := axis_of (h_trait C) r) in *. set (W_ := axis_of (w_trait C) t) in *.
      assert (Hr : (0 <= r)%Z) by (destruct A1 as [Q _]; unfold H_ in Q; cbn in Q; lia).
      assert (Ht : (0 <= t)%Z) by (destruct A2 as [Q _]; unfold W_ in Q; cbn in Q; lia).
      assert (LI : length (indices [r; t; c]) = Z.to_nat (r * t * c)).
      { pose proof (length_indices [r; t; c]%Z ltac:(repeat constructor; lia)) as Q. cbn [prod] in Q. lia. }
      assert (H : forall l i j o, (0 <= l < n)%Z -> (0 <= i < h')%Z -> (0 <= j < w')%Z -> (0 <= o < k)%Z ->
        let y := conv_spec_nhwc Rsc H_ W_ h w r t c (fun ix => B2R (X ix)) (fun ix => B2R (P ix)) [l; i; j; o] in
        is_finite (Y [l; i; j; o]) = true /\
        Rabs (B2R (Y [l; i; j; o]) - y) <= dot_bound prec emax (Z.to_nat (r * t * c)) (a * m) /\ Rabs y <= a * m).
      { intros l i j o Hl Hi Hj Ho y.
        set (f := arg3 (fun p q k => zpad (B754_zero false) h w (fun p q => X [l; p; q; k]) (wpos H_ i p) (wpos W_ j q)) : list Z -> flt).
        set (g := arg3 (fun p q k => P [p; q; k; o]) : list Z -> flt).
        assert (Ev : conv_pairs sc H_ W_ h w r t c X P [l; i; j; o] = map (fun z => (f z, g z)) (indices [r; t; c])).
        { unfold conv_pairs, arg4; cbn [nth]. apply map_ext_in. intros z Hz. apply in_indices, valid_3 in Hz.
          destruct Hz as (p & q & s & -> & _). reflexivity. }
        assert (Ey : y = sum_over Rsc (indices [r; t; c]) (fun z => B2R (f z) * B2R (g z))).
        { unfold y, conv_spec_nhwc. cbn [arg4]. apply sum_over_ext. intros z Hz. apply in_indices, valid_3 in Hz.
          destruct Hz as (p & q & s & -> & _). unfold f, g, arg3, arg4, zpad; cbn [nth smul Rsc].
          destruct (inb h (wpos H_ i p) && inb w (wpos W_ j q)); cbn [s0 Rsc B2R]; reflexivity. }
        assert (HV := HY [l; i; j; o] ltac:(cbn; lia)). rewrite Ev in HV.
        rewrite Ey, <- LI. apply dot_layer_any; auto.
        - intros z Hz. apply in_indices, valid_3 in Hz. destruct Hz as (p & q & s & -> & Hp & Hq & Hs). unfold f, g, arg3; cbn [nth].
          assert (Z0 : is_finite (zpad (B754_zero false) h w (fun p q => X [l; p; q; s]) (wpos H_ i p) (wpos W_ j q)) = true /\
            Rabs (B2R (zpad (B754_zero false) h w (fun p q => X [l; p; q; s]) (wpos H_ i p) (wpos W_ j q))) <= m).
          { unfold zpad, inb. destruct (andb _ _) eqn:Q.
            - split; [apply FX|apply BX]; cbn; lia.
            - split; [reflexivity|]. cbn. rewrite Rabs_R0. exact Hm. }
          destruct Z0. repeat split; auto. apply FP. cbn; lia.
        - eapply Rle_trans; [|apply (G o Ho)]. apply Req_le. apply sum_over_ext. intros z Hz. apply in_indices, valid_3 in Hz.
          destruct Hz as (p & q & s & -> & _). reflexivity.
        - rewrite LI. lra. }
      split; [|split]; intros ix Hv; apply valid_4 in Hv; destruct Hv as (l & i & j & o & -> & Hl & Hi & Hj & Ho); apply H; auto.
  Qed.

  (** *** The network *)
  Fixpoint net_rel (k : nat) (net : list layer) (P : nat -> tns) (X Y : tns) : Prop :=
    match net with
    | [] => Y = X
    | L :: net => exists Z, layer_rel L (P k) X Z /\ net_rel (S k) net P Z Y
    end.

  Lemma net_run_some {V} (dt : dtype V flt) (di : dtype V Z) (lib : library V flt) (E : node -> tensor) : sums prec emax lib ->
    forall net k d0 P X s, net_ok d0 net ->
    nodes_ok (used k d0 net) E -> nodes_mapped (used k d0 net) E s ->
    holds dt s (E (Out k)) X -> params_held dt E s k net P ->
    exists s' Y, net_lib dt di sc exp_ eps lib E k net s = Ok tt s' /\
      holds dt s' (E (Out (k + length net))) Y /\ net_rel k net P X Y /\
      only_nodes (fun c => exists i, (k < i <= k + length net)%nat /\ c = Out i) E s s'.
  Proof.
    intros HS. induction net as [|L net IH]; intros k d0 P X s H OK HM HX HP.
    - exists s, X. split; [reflexivity|]. cbn [length]. rewrite Nat.add_0_r. split; [exact HX|]. split; [reflexivity|].
      split; [lia|auto].
    - destruct H as (H1 & H2 & H3). destruct HP as [HP1 HP2]. subst d0. destruct OK as [OD OJ]. destruct HM as [Hf Hm].
      pose proof (used_first (L :: net) k (in_shape L)) as U1. pose proof (used_par L net k (in_shape L)) as U2.
      pose proof (used_tail L net k (in_shape L) _ _ (used_first net (S k) (out_shape L))) as U3.
      assert (N1 : used k (in_shape L) (L :: net) (Out k) <> None) by congruence.
      assert (N2 : used k (in_shape L) (L :: net) (Par k) <> None) by congruence.
      assert (N3 : used k (in_shape L) (L :: net) (Out (S k)) <> None) by congruence.
      assert (NT : forall c, used (S k) (out_shape L) net c <> None -> used k (in_shape L) (L :: net) c <> None).
      { intros c Hc. destruct (used (S k) (out_shape L) net c) eqn:Q; [|congruence].
        rewrite (used_tail L net k (in_shape L) _ _ Q). discriminate. }
      destruct (forward_some dt di lib HS L (E (Out (S k))) (E (Out k)) (E (Par k)) (P k) X s H1) as (Z & (s1 & E1 & W1 & O1) & RZ); auto.
      { apply OJ; auto. intros Q; injection Q; lia. }
      { apply OJ; auto. discriminate. }
      destruct (IH (S k) (out_shape L) P Z s1 H3) as (s2 & Y & E2 & W2 & RY & O2); auto.
      { split.
        - intros c ds Q. apply OD. apply used_tail. exact Q.
        - intros c c' Q Q' Ne. apply OJ; auto. }
      { split; [eapply fresh_ok_only_changes; eauto|]. intros c Hc.
        destruct (node_eq_dec c (Out (S k))) as [->|Ne].
        - eapply holds_mapped; [|exact W1]. unfold dims_ok. rewrite (OD _ _ U3). apply layer_nonneg. exact H1.
        - eapply only_changes_mapped; [exact O1| |apply Hm; auto]. apply OJ; auto. }
      { eapply params_frame; [exact HP2| |exact O1]. intros i Hi. apply OJ; [exact N3|apply NT; exact Hi|discriminate]. }
      exists s2, Y. cbn [net_lib]. rewrite (bind_ok _ _ _ _ _ E1). split; [exact E2|]. split; [|split].
      + cbn [length]. rewrite Nat.add_succ_r. exact W2.
      + exists Z. auto.
      + eapply only_nodes_trans; [|eapply only_nodes_weaken; [|exact O2]].
        * destruct O1 as [Nx F]. split; [exact Nx|]. intros p Hp. apply F, Hp. exists (S k). cbn [length]. split; [lia|reflexivity].
        * intros c (i & Hi & ->). exists i. cbn [length]. split; [lia|reflexivity].
  Qed.

  Lemma net_rounding_any : forall d net k d0 P X Y x A B m e, net_ok d0 net -> 0 <= m -> 0 <= e ->
    is_finite eps = true -> B2R eps <= 1 -> net_rel k net P X Y ->
    finite_on prec emax d0 X -> bounded d0 m (reals prec emax X) -> close d0 e (reals prec emax X) x ->
    all_weights_ok prec emax k net P B -> gains k net (fun i => reals prec emax (P i)) A ->
    net_room prec emax d exp_ k net A B m ->
    finite_on prec emax (net_out d0 net) Y /\
    close (net_out d0 net) (net_error prec emax d k net A B m e) (reals prec emax Y)
      (net_fn (B2R eps) k net (fun i => reals prec emax (P i)) x).
  Proof.
    intros d net. induction net as [|L net IH]; intros k d0 P X Y x A B m e H Hm He Fe Le HY FX BX CX HW HG HR.
    - cbn in HY. subst Y. cbn. auto.
    - destruct H as (H1 & H2 & H3). subst d0. destruct HW as [W1 W2]. destruct HG as [G1 G2]. destruct HR as [R1 R2].
      destruct HY as (Z & RZ & HY).
      destruct (layer_rounding_any d L (P k) X Z (A k) (B k) m) as (F & C & Bd); auto.
      destruct (rounding_nonneg prec emax exp_ d L (P k) (A k) (B k) m Hm G1 W1 R1) as [N1 N2]. pose proof (gain_nonneg _ _ _ G1) as Na.
      pose proof (layer_close0 (B2R eps) L (reals prec emax (P k)) _ _ (A k) e H1 G1 He CX) as C2.
      assert (Ne : 0 <= A k * e) by (apply Rmult_le_pos; auto).
      cbn [net_out net_fn net_error]. cbv zeta. apply (IH (S k) (out_shape L) P Z); auto; try lra.
      + intros ix Hv. specialize (C ix Hv). specialize (Bd ix Hv). apply Rabs_le_2 in C. apply Rabs_le_2 in Bd. apply Rabs_le_2. lra.
      + intros ix Hv. specialize (C ix Hv). specialize (C2 ix Hv). apply Rabs_le_2 in C. apply Rabs_le_2 in C2. apply Rabs_le_2. lra.
  Qed.

  (** Followed by argmax. *)
  Lemma predict_some {V} (dt : dtype V flt) (di dn : dtype V Z) N (lib : library V flt) (E : node -> tensor) : sums prec emax lib ->
    forall net d0 P X n k c s, net_ok d0 net -> net_out d0 net = [n; k] ->
    (0 < it_bits N)%Z -> (k - 1 <= it_max N)%Z -> (1 <= k)%Z -> (0 <= n)%Z ->
    nodes_ok (used 0 d0 net) E -> nodes_mapped (used 0 d0 net) E s ->
    holds dt s (E (Out 0)) X -> params_held dt E s 0 net P ->
    tdims c = [n] -> mapped s c -> (forall i, disjoint c (E (Out i))) ->
    exists t Y, (net_lib dt di sc exp_ eps lib E 0 net ;;; op_argmax dn N dt sc 1 c (E (Out (length net)))) s = Ok tt t /\
      net_rel 0 net P X Y /\ holds dn t c (fun ix => scan sc k (row Y ix)).
  Proof.
    intros HS net d0 P X n k c s H Eo Hb HN Hk Hn OK HM HX HP Ec Mc Dc.
    destruct (net_run_some dt di lib E HS net 0 d0 P X s H OK HM HX HP) as (t & Y & E1 & W1 & RY & O1). cbn [Nat.add] in W1.
    assert (El : tdims (E (Out (length net))) = [n] ++ [k]).
    { pose proof (proj1 OK _ _ (used_last net 0 d0)) as Q. cbn [Nat.add] in Q. rewrite Q. exact Eo. }
    destruct (op_argmax_writes dn N dt sc c (E (Out (length net))) [n] k Y t) as (t2 & E2 & W2 & _); auto.
    { unfold dims_ok. rewrite El. repeat constructor; lia. }
    { intros p Hp. destruct O1 as [_ O1]. rewrite O1; [apply Mc; exact Hp|].
      intros q (i & _ & ->) F. exact (Dc i p Hp F). }
    exists t2, Y. rewrite (bind_ok _ _ _ _ _ E1). split; [exact E2|]. split; [exact RY|exact W2].
  Qed.
End Rounding.
