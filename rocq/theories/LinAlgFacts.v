From Coq Require Import ZArith List Bool Lia ZifyBool Ring_theory Ring.
From Verif Require Import Base BaseFacts Scalar LinAlg.
Import ListNotations.
Open Scope Z_scope.
Open Scope model_scope.

Lemma sum_over_snoc : forall {T A} (sc : scalar T) l (a : A) f,
  sum_over sc (l ++ [a]) f = sadd sc (sum_over sc l f) (f a).
Proof. intros. unfold sum_over. rewrite fold_left_app. reflexivity. Qed.

Lemma sum_over_ext : forall {T A} (sc : scalar T) (l : list A) f g,
  (forall a, In a l -> f a = g a) -> sum_over sc l f = sum_over sc l g.
Proof. intros. unfold sum_over. apply fold_left_ext_in. intros. rewrite H; auto. Qed.

Lemma sum_over_map : forall {T A B} (sc : scalar T) (l : list A) (g : A -> B) f,
  sum_over sc (map g l) f = sum_over sc l (fun a => f (g a)).
Proof. intros. unfold sum_over. rewrite fold_left_map. reflexivity. Qed.

Section LinAlgFacts.
  Context {V T : Type} (dt : dtype V T) (sc : scalar T).

  Lemma dot_ok : forall n (s : st V) (f g : Z -> M V T) (F G : Z -> T),
    (forall k, 0 <= k < n -> f k s = Ok (F k) s) ->
    (forall k, 0 <= k < n -> g k s = Ok (G k) s) ->
    foldM (zrange n) (fun tmp k => aa <- f k ;; bb <- g k ;; ret (sadd sc tmp (smul sc aa bb))) (s0 sc) s
    = Ok (sum_over sc (zrange n) (fun k => smul sc (F k) (G k))) s.
  Proof.
    intros n s f g F G Hf Hg.
    rewrite foldM_pure with (g := fun tmp k => sadd sc tmp (smul sc (F k) (G k))).
    - reflexivity.
    - intros b a Ha. apply in_zrange in Ha.
      rewrite (bind_ok _ _ _ _ _ (Hf a Ha)), (bind_ok _ _ _ _ _ (Hg a Ha)). reflexivity.
  Qed.

  Lemma dims2 : forall t m n, tdims t = [m; n] -> 0 <= m -> 0 <= n -> dims_ok t.
  Proof. intros t m n E Hm Hn. unfold dims_ok. rewrite E. repeat constructor; auto. Qed.

  Lemma mm_writes : forall a b c m l n A B s,
    tdims a = [m; l] -> tdims b = [l; n] -> tdims c = [m; n] -> 0 <= m -> 0 <= l -> 0 <= n ->
    holds dt s a A -> holds dt s b B -> mapped s c -> disjoint c a -> disjoint c b ->
    writes dt (mm dt sc a b c) s c
      (arg2 (fun i j => sum_over sc (zrange l) (fun k => smul sc (A [i; k]) (B [k; j])))).
  Proof.
    intros a b c m l n A B s Ea Eb Ec Hm Hl Hn HA HB HC Da Db.
    assert (Dc : dims_ok c) by (eapply dims2; eauto).
    eapply writes_ext; [symmetry|reflexivity|].
    { unfold mm, nth_dim. rewrite Ea, Eb, Ec. cbn [nth].
      rewrite !Z.eqb_refl. unfold contract. rewrite !bind_ret_l. reflexivity. }
    unfold memset0. apply writes_seq_fill; auto.
    intros s1 N1 H1 F1.
    apply writes_rows with (d := m) (ds := [n]); auto.
    intros i s2 Hi N2 F2 O2.
    (* invariant over k *)
    destruct (for_range_inv l
      (fun k => aa <- at_ dt a [i; k] ;;
         for_ (zrange n) (fun j => cc <- at_ dt c [i; j] ;; bb <- at_ dt b [k; j] ;;
            set_ dt c [i; j] (sadd sc cc (smul sc aa bb))))
      (fun k s' => nextb s2 <= nextb s' /\
         (forall p, ~ foot (sub c i) p -> cells s' p = cells s2 p) /\
         (forall j, 0 <= j < n -> cells s' (addr c [i; j]) =
            Init (emb dt (sum_over sc (zrange k) (fun k => smul sc (A [i; k]) (B [k; j])))))) s2)
      as [s3 [E3 [N3 [F3 C3]]]]; auto.
    - repeat split; auto; try lia. intros j Hj. rewrite O2.
      + rewrite zrange_0. unfold sum_over; cbn [fold_left]. apply (H1 [i; j]). rewrite Ec. simpl. auto.
      + rewrite <- (addr_sub c i m [n] [j] Ec). apply addr_foot.
        rewrite (tdims_sub _ _ _ _ Ec). simpl. auto.
    - intros k s' Hk [N' [F' C']].
      assert (Fs : forall p, ~ foot c p -> cells s' p = cells s p).
      { intros p Hp. rewrite F', F2, F1; auto. intros Hq. apply Hp. eapply foot_sub; eauto. }
      assert (La : at_ dt a [i; k] s' = Ok (A [i; k]) s').
      { eapply at_frame; eauto. rewrite Ea. simpl. lia. }
      rewrite (bind_ok _ _ _ _ _ La).
      destruct (for_assign (zrange n)
        (fun j => cc <- at_ dt c [i; j] ;; bb <- at_ dt b [k; j] ;;
            set_ dt c [i; j] (sadd sc cc (smul sc (A [i; k]) bb)))
        (fun j => addr c [i; j])
        (fun j => emb dt (sum_over sc (zrange (k + 1)) (fun k => smul sc (A [i; k]) (B [k; j])))) s')
        as [s'' [E'' [N'' [C'' F'']]]].
      + apply NoDup_zrange.
      + intros x y Hx Hy E. apply in_zrange in Hx. apply in_zrange in Hy.
        apply addr_inj in E; [congruence| |]; rewrite Ec; simpl; lia.
      + intros j s4 Hj N4 F4 O4. apply in_zrange in Hj.
        assert (Lc : at_ dt c [i; j] s4 = Ok (sum_over sc (zrange k) (fun k => smul sc (A [i; k]) (B [k; j]))) s4).
        { apply load_ok. rewrite O4. apply C'; auto. }
        rewrite (bind_ok _ _ _ _ _ Lc).
        assert (Lb : at_ dt b [k; j] s4 = Ok (B [k; j]) s4).
        { apply load_ok. rewrite F4.
          - rewrite Fs. { apply HB. rewrite Eb. simpl. lia. }
            intros Hq. apply (Db _ Hq). apply addr_foot. rewrite Eb. simpl. lia.
          - intros x Hx E. apply in_zrange in Hx. apply (Db (addr c [i; x])).
            + apply addr_foot. rewrite Ec. simpl. lia.
            + rewrite <- E. apply addr_foot. rewrite Eb. simpl. lia. }
        rewrite (bind_ok _ _ _ _ _ Lb).
        rewrite set_ok; [|rewrite O4, C' by auto; congruence].
        rewrite zrange_succ by lia. rewrite sum_over_snoc. reflexivity.
      + exists s''. split; [exact E''|]. split; [lia|]. split.
        * intros p Hp. rewrite F''; auto. intros j Hj ->. apply in_zrange in Hj. apply Hp.
          rewrite <- (addr_sub c i m [n] [j] Ec). apply addr_foot.
          rewrite (tdims_sub _ _ _ _ Ec). simpl. auto.
        * intros j Hj. apply (C'' j). apply in_zrange; auto.
    - exists s3. split; [exact E3|]. split; [|split; auto].
      intros ix Hix. rewrite (tdims_sub _ _ _ _ Ec) in Hix. apply valid_1 in Hix.
      destruct Hix as [j [-> Hj]]. rewrite (addr_sub _ _ _ _ _ Ec). apply C3; auto.
  Qed.

  Lemma mmt_writes : forall a b c m l n A B s,
    tdims a = [m; l] -> tdims b = [n; l] -> tdims c = [m; n] -> 0 <= m -> 0 <= l -> 0 <= n ->
    holds dt s a A -> holds dt s b B -> mapped s c -> disjoint c a -> disjoint c b ->
    writes dt (mmt dt sc a b c) s c
      (arg2 (fun i j => sum_over sc (zrange l) (fun k => smul sc (A [i; k]) (B [j; k])))).
  Proof.
    intros a b c m l n A B s Ea Eb Ec Hm Hl Hn HA HB HC Da Db.
    assert (Dc : dims_ok c) by (eapply dims2; eauto).
    eapply writes_ext; [symmetry|reflexivity|].
    { unfold mmt, nth_dim. rewrite Ea, Eb, Ec. cbn [nth].
      rewrite !Z.eqb_refl. unfold contract. rewrite !bind_ret_l. rewrite for_nest2, <- Ec. reflexivity. }
    apply writes_loop; auto.
    intros ix s' Hix Ns' Fs' Os'. rewrite Ec in Hix. apply valid_2 in Hix.
    destruct Hix as [i [j [-> [Hi Hj]]]]. unfold arg2; cbn [nth].
    erewrite bind_ok; [|eapply dot_ok with (F := (fun k => A [i; k])) (G := (fun k => B [j; k])); intros k Hk; cbv beta];
      [|apply (at_frame dt s s' a c A [i; k]); auto; rewrite Ea; simpl; lia|apply (at_frame dt s s' b c B [j; k]); auto; rewrite Eb; simpl; lia].
    apply set_ok. rewrite Os'. apply mapped_addr; auto. rewrite Ec; simpl; auto.
  Qed.

  Lemma mtm_writes : forall a b c m l n A B s,
    tdims a = [l; m] -> tdims b = [l; n] -> tdims c = [m; n] -> 0 <= m -> 0 <= l -> 0 <= n ->
    holds dt s a A -> holds dt s b B -> mapped s c -> disjoint c a -> disjoint c b ->
    writes dt (mtm dt sc a b c) s c
      (arg2 (fun i j => sum_over sc (zrange l) (fun k => smul sc (A [k; i]) (B [k; j])))).
  Proof.
    intros a b c m l n A B s Ea Eb Ec Hm Hl Hn HA HB HC Da Db.
    assert (Dc : dims_ok c) by (eapply dims2; eauto).
    eapply writes_ext; [symmetry|reflexivity|].
    { unfold mtm, nth_dim. rewrite Ea, Eb, Ec. cbn [nth].
      rewrite !Z.eqb_refl. unfold contract. rewrite !bind_ret_l. rewrite for_nest2, <- Ec. reflexivity. }
    apply writes_loop; auto.
    intros ix s' Hix Ns' Fs' Os'. rewrite Ec in Hix. apply valid_2 in Hix.
    destruct Hix as [i [j [-> [Hi Hj]]]]. unfold arg2; cbn [nth].
    erewrite bind_ok; [|eapply dot_ok with (F := (fun k => A [k; i])) (G := (fun k => B [k; j])); intros k Hk; cbv beta];
      [|apply (at_frame dt s s' a c A [k; i]); auto; rewrite Ea; simpl; lia|apply (at_frame dt s s' b c B [k; j]); auto; rewrite Eb; simpl; lia].
    apply set_ok. rewrite Os'. apply mapped_addr; auto. rewrite Ec; simpl; auto.
  Qed.

  Lemma mv_writes : forall a b c m n A B s,
    tdims a = [m; n] -> tdims b = [n] -> tdims c = [m] -> 0 <= m -> 0 <= n ->
    holds dt s a A -> holds dt s b B -> mapped s c -> disjoint c a -> disjoint c b ->
    writes dt (mv dt sc a b c) s c
      (arg1 (fun i => sum_over sc (zrange n) (fun j => smul sc (A [i; j]) (B [j])))).
  Proof.
    intros a b c m n A B s Ea Eb Ec Hm Hn HA HB HC Da Db.
    assert (Dc : dims_ok c) by (unfold dims_ok; rewrite Ec; repeat constructor; auto).
    eapply writes_ext; [symmetry|reflexivity|].
    { unfold mv, nth_dim. rewrite Ea, Eb, Ec. cbn [nth].
      rewrite !Z.eqb_refl. unfold contract. rewrite !bind_ret_l. rewrite for_nest1, <- Ec. reflexivity. }
    apply writes_loop; auto.
    intros ix s' Hix Ns' Fs' Os'. rewrite Ec in Hix. apply valid_1 in Hix.
    destruct Hix as [i [-> Hi]]. unfold arg1; cbn [nth].
    erewrite bind_ok; [|eapply dot_ok with (F := (fun k => A [i; k])) (G := (fun k => B [k])); intros k Hk; cbv beta];
      [|apply (at_frame dt s s' a c A [i; k]); auto; rewrite Ea; simpl; lia|apply (at_frame dt s s' b c B [k]); auto; rewrite Eb; simpl; lia].
    apply set_ok. rewrite Os'. apply mapped_addr; auto. rewrite Ec; simpl; auto.
  Qed.

  Lemma vm_writes : forall a b c m n A B s,
    tdims a = [m] -> tdims b = [m; n] -> tdims c = [n] -> 0 <= m -> 0 <= n ->
    holds dt s a A -> holds dt s b B -> mapped s c -> disjoint c a -> disjoint c b ->
    writes dt (vm dt sc a b c) s c
      (arg1 (fun j => sum_over sc (zrange m) (fun i => smul sc (A [i]) (B [i; j])))).
  Proof.
    intros a b c m n A B s Ea Eb Ec Hm Hn HA HB HC Da Db.
    assert (Dc : dims_ok c) by (unfold dims_ok; rewrite Ec; repeat constructor; auto).
    eapply writes_ext; [symmetry|reflexivity|].
    { unfold vm, nth_dim. rewrite Ea, Eb, Ec. cbn [nth].
      rewrite !Z.eqb_refl. unfold contract. rewrite !bind_ret_l. rewrite for_nest1, <- Ec. reflexivity. }
    apply writes_loop; auto.
    intros ix s' Hix Ns' Fs' Os'. rewrite Ec in Hix. apply valid_1 in Hix.
    destruct Hix as [i [-> Hi]]. unfold arg1; cbn [nth].
    erewrite bind_ok; [|eapply dot_ok with (F := (fun k => A [k])) (G := (fun k => B [k; i])); intros k Hk; cbv beta];
      [|apply (at_frame dt s s' a c A [k]); auto; rewrite Ea; simpl; lia|apply (at_frame dt s s' b c B [k; i]); auto; rewrite Eb; simpl; lia].
    apply set_ok. rewrite Os'. apply mapped_addr; auto. rewrite Ec; simpl; auto.
  Qed.

  (** Contract failures. *)
  Lemma contract_bind : forall (b : bool) (k : M V unit) s,
    (contract b ;;; k) s = if b then k s else Throw RuntimeError s.
  Proof. intros []; reflexivity. Qed.

  Lemma mm_throws : forall a b c s, 
    ~ (nth_dim b 0 = nth_dim a 1 /\ nth_dim c 0 = nth_dim a 0 /\ nth_dim c 1 = nth_dim b 1) ->
    mm dt sc a b c s = Throw RuntimeError s.
  Proof.
    intros a b c s H. unfold mm. rewrite !contract_bind.
    destruct (Z.eqb_spec (nth_dim b 0) (nth_dim a 1)); auto.
    destruct (Z.eqb_spec (nth_dim a 0) (nth_dim c 0)); auto.
    destruct (Z.eqb_spec (nth_dim b 1) (nth_dim c 1)); auto.
    exfalso; apply H; auto.
  Qed.
  Lemma mmt_throws : forall a b c s, 
    ~ (nth_dim b 1 = nth_dim a 1 /\ nth_dim c 0 = nth_dim a 0 /\ nth_dim c 1 = nth_dim b 0) ->
    mmt dt sc a b c s = Throw RuntimeError s.
  Proof.
    intros a b c s H. unfold mmt. rewrite !contract_bind.
    destruct (Z.eqb_spec (nth_dim b 1) (nth_dim a 1)); auto.
    destruct (Z.eqb_spec (nth_dim a 0) (nth_dim c 0)); auto.
    destruct (Z.eqb_spec (nth_dim b 0) (nth_dim c 1)); auto.
    exfalso; apply H; auto.
  Qed.
  Lemma mtm_throws : forall a b c s, 
    ~ (nth_dim b 0 = nth_dim a 0 /\ nth_dim c 0 = nth_dim a 1 /\ nth_dim c 1 = nth_dim b 1) ->
    mtm dt sc a b c s = Throw RuntimeError s.
  Proof.
    intros a b c s H. unfold mtm. rewrite !contract_bind.
    destruct (Z.eqb_spec (nth_dim b 0) (nth_dim a 0)); auto.
    destruct (Z.eqb_spec (nth_dim a 1) (nth_dim c 0)); auto.
    destruct (Z.eqb_spec (nth_dim b 1) (nth_dim c 1)); auto.
    exfalso; apply H; auto.
  Qed.
  Lemma mv_throws : forall a b c s, 
    ~ (nth_dim b 0 = nth_dim a 1 /\ nth_dim c 0 = nth_dim a 0) ->
    mv dt sc a b c s = Throw RuntimeError s.
  Proof.
    intros a b c s H. unfold mv. rewrite !contract_bind.
    destruct (Z.eqb_spec (nth_dim a 1) (nth_dim b 0)); auto.
    destruct (Z.eqb_spec (nth_dim a 0) (nth_dim c 0)); auto.
    exfalso; apply H; auto.
  Qed.
  Lemma vm_throws : forall a b c s, 
    ~ (nth_dim a 0 = nth_dim b 0 /\ nth_dim c 0 = nth_dim b 1) ->
    vm dt sc a b c s = Throw RuntimeError s.
  Proof.
    intros a b c s H. unfold vm. rewrite !contract_bind.
    destruct (Z.eqb_spec (nth_dim b 0) (nth_dim a 0)); auto.
    destruct (Z.eqb_spec (nth_dim b 1) (nth_dim c 0)); auto.
    exfalso; apply H; auto.
  Qed.

  (** ** CBLAS *)
  Lemma elt_addr : forall t m n i j, tdims t = [m; n] ->
    elt (daddr t 0) false n i j = addr t [i; j].
  Proof.
    intros t m n i j E. unfold elt, addr, daddr. rewrite E. simpl. f_equal. lia.
  Qed.
  Lemma elt_addr_t : forall t m n i j, tdims t = [m; n] ->
    elt (daddr t 0) true n i j = addr t [j; i].
  Proof.
    intros t m n i j E. unfold elt, addr, daddr. rewrite E. simpl. f_equal. lia.
  Qed.
  Lemma vec_addr : forall t n i, tdims t = [n] ->
    (fst (daddr t 0), snd (daddr t 0) + i) = addr t [i].
  Proof. intros t n i E. unfold addr, daddr. rewrite E. simpl. f_equal. lia. Qed.

  Hypothesis laws : ring_laws sc.

  Lemma one_mul : forall x, smul sc (s1 sc) x = x.
  Proof. intros. apply (Rmul_1_l laws). Qed.

  Lemma cblas_mm_writes : forall a b c m l n A B s,
    tdims a = [m; l] -> tdims b = [l; n] -> tdims c = [m; n] -> 1 <= m -> 1 <= l -> 1 <= n ->
    holds dt s a A -> holds dt s b B -> mapped s c -> disjoint c a -> disjoint c b ->
    writes dt (cblas_mm dt sc a b c) s c
      (arg2 (fun i j => sum_over sc (zrange l) (fun k => smul sc (A [i; k]) (B [k; j])))).
  Proof.
    intros a b c m l n A B s Ea Eb Ec Hm Hl Hn HA HB HC Da Db.
    assert (Dc : dims_ok c) by (eapply dims2; eauto; lia).
    eapply writes_ext; [symmetry|reflexivity|].
    { unfold cblas_mm, cblas_gemm, gemm, len, wid, nth_dim. rewrite Ea, Eb, Ec. cbn [nth].
      match goal with |- (if ?b then _ else _) s = _ => replace b with false by lia end.
      rewrite for_nest2, <- Ec. reflexivity. }
    apply writes_loop; auto.
    intros ix s' Hix Ns' Fs' Os'. rewrite Ec in Hix. apply valid_2 in Hix.
    destruct Hix as [i [j [-> [Hi Hj]]]]. unfold arg2; cbn [nth].
    erewrite bind_ok; [|eapply dot_ok with (F := (fun k => A [i; k])) (G := (fun k => B [k; j])); intros k Hk; cbv beta];
      [|rewrite (elt_addr a m l i k Ea); apply (at_frame dt s s' a c A [i; k]); auto; rewrite Ea; simpl; lia|rewrite (elt_addr b l n k j Eb); apply (at_frame dt s s' b c B [k; j]); auto; rewrite Eb; simpl; lia].
    rewrite (elt_addr c m n i j Ec), one_mul.
    apply store_ok. rewrite Os'. apply mapped_addr; auto. rewrite Ec; simpl; auto.
  Qed.

  Lemma cblas_mmt_writes : forall a b c m l n A B s,
    tdims a = [m; l] -> tdims b = [n; l] -> tdims c = [m; n] -> 1 <= m -> 1 <= l -> 1 <= n ->
    holds dt s a A -> holds dt s b B -> mapped s c -> disjoint c a -> disjoint c b ->
    writes dt (cblas_mmt dt sc a b c) s c
      (arg2 (fun i j => sum_over sc (zrange l) (fun k => smul sc (A [i; k]) (B [j; k])))).
  Proof.
    intros a b c m l n A B s Ea Eb Ec Hm Hl Hn HA HB HC Da Db.
    assert (Dc : dims_ok c) by (eapply dims2; eauto; lia).
    eapply writes_ext; [symmetry|reflexivity|].
    { unfold cblas_mmt, cblas_gemm, gemm, len, wid, nth_dim. rewrite Ea, Eb, Ec. cbn [nth].
      match goal with |- (if ?b then _ else _) s = _ => replace b with false by lia end.
      rewrite for_nest2, <- Ec. reflexivity. }
    apply writes_loop; auto.
    intros ix s' Hix Ns' Fs' Os'. rewrite Ec in Hix. apply valid_2 in Hix.
    destruct Hix as [i [j [-> [Hi Hj]]]]. unfold arg2; cbn [nth].
    erewrite bind_ok; [|eapply dot_ok with (F := (fun k => A [i; k])) (G := (fun k => B [j; k])); intros k Hk; cbv beta];
      [|rewrite (elt_addr a m l i k Ea); apply (at_frame dt s s' a c A [i; k]); auto; rewrite Ea; simpl; lia|rewrite (elt_addr_t b n l k j Eb); apply (at_frame dt s s' b c B [j; k]); auto; rewrite Eb; simpl; lia].
    rewrite (elt_addr c m n i j Ec), one_mul.
    apply store_ok. rewrite Os'. apply mapped_addr; auto. rewrite Ec; simpl; auto.
  Qed.

  Lemma cblas_mtm_writes : forall a b c m l n A B s,
    tdims a = [l; m] -> tdims b = [l; n] -> tdims c = [m; n] -> 1 <= m -> 1 <= l -> 1 <= n ->
    holds dt s a A -> holds dt s b B -> mapped s c -> disjoint c a -> disjoint c b ->
    writes dt (cblas_mtm dt sc a b c) s c
      (arg2 (fun i j => sum_over sc (zrange l) (fun k => smul sc (A [k; i]) (B [k; j])))).
  Proof.
    intros a b c m l n A B s Ea Eb Ec Hm Hl Hn HA HB HC Da Db.
    assert (Dc : dims_ok c) by (eapply dims2; eauto; lia).
    eapply writes_ext; [symmetry|reflexivity|].
    { unfold cblas_mtm, cblas_gemm, gemm, len, wid, nth_dim. rewrite Ea, Eb, Ec. cbn [nth].
      match goal with |- (if ?b then _ else _) s = _ => replace b with false by lia end.
      rewrite for_nest2, <- Ec. reflexivity. }
    apply writes_loop; auto.
    intros ix s' Hix Ns' Fs' Os'. rewrite Ec in Hix. apply valid_2 in Hix.
    destruct Hix as [i [j [-> [Hi Hj]]]]. unfold arg2; cbn [nth].
    erewrite bind_ok; [|eapply dot_ok with (F := (fun k => A [k; i])) (G := (fun k => B [k; j])); intros k Hk; cbv beta];
      [|rewrite (elt_addr_t a l m i k Ea); apply (at_frame dt s s' a c A [k; i]); auto; rewrite Ea; simpl; lia|rewrite (elt_addr b l n k j Eb); apply (at_frame dt s s' b c B [k; j]); auto; rewrite Eb; simpl; lia].
    rewrite (elt_addr c m n i j Ec), one_mul.
    apply store_ok. rewrite Os'. apply mapped_addr; auto. rewrite Ec; simpl; auto.
  Qed.

  Lemma cblas_mv_writes : forall a b c m n A B s,
    tdims a = [m; n] -> tdims b = [n] -> tdims c = [m] -> 1 <= m -> 1 <= n ->
    holds dt s a A -> holds dt s b B -> mapped s c -> disjoint c a -> disjoint c b ->
    writes dt (cblas_mv dt sc a b c) s c
      (arg1 (fun i => sum_over sc (zrange n) (fun j => smul sc (A [i; j]) (B [j])))).
  Proof.
    intros a b c m n A B s Ea Eb Ec Hm Hn HA HB HC Da Db.
    assert (Dc : dims_ok c) by (unfold dims_ok; rewrite Ec; repeat constructor; lia).
    eapply writes_ext; [symmetry|reflexivity|].
    { unfold cblas_mv, gemv, len, wid, nth_dim. rewrite Ea. cbn [nth].
      match goal with |- (if ?b then _ else _) s = _ => replace b with false by lia end.
      rewrite for_nest1, <- Ec. reflexivity. }
    apply writes_loop; auto.
    intros ix s' Hix Ns' Fs' Os'. rewrite Ec in Hix. apply valid_1 in Hix.
    destruct Hix as [i [-> Hi]]. unfold arg1; cbn [nth].
    erewrite bind_ok; [|eapply dot_ok with (F := (fun k => A [i; k])) (G := (fun k => B [k])); intros k Hk; cbv beta];
      [|rewrite (elt_addr a m n i k Ea); apply (at_frame dt s s' a c A [i; k]); auto; rewrite Ea; simpl; lia|rewrite (vec_addr b n k Eb); apply (at_frame dt s s' b c B [k]); auto; rewrite Eb; simpl; lia].
    rewrite (vec_addr c m i Ec), one_mul.
    apply store_ok. rewrite Os'. apply mapped_addr; auto. rewrite Ec; simpl; auto.
  Qed.

  Lemma cblas_vm_writes : forall a b c m n A B s,
    tdims a = [m] -> tdims b = [m; n] -> tdims c = [n] -> 1 <= m -> 1 <= n ->
    holds dt s a A -> holds dt s b B -> mapped s c -> disjoint c a -> disjoint c b ->
    writes dt (cblas_vm dt sc a b c) s c
      (arg1 (fun j => sum_over sc (zrange m) (fun i => smul sc (A [i]) (B [i; j])))).
  Proof.
    intros a b c m n A B s Ea Eb Ec Hm Hn HA HB HC Da Db.
    assert (Dc : dims_ok c) by (unfold dims_ok; rewrite Ec; repeat constructor; lia).
    eapply writes_ext; [symmetry| |].
    { unfold cblas_vm, gemv, len, wid, nth_dim. rewrite Eb. cbn [nth].
      match goal with |- (if ?b then _ else _) s = _ => replace b with false by lia end.
      rewrite for_nest1, <- Ec. reflexivity. }
    2: apply writes_loop with (X := arg1 (fun j => sum_over sc (zrange m) (fun i => smul sc (B [i; j]) (A [i])))); auto.
    - intros ix Hix. unfold arg1. apply sum_over_ext. intros. apply (Rmul_comm laws).
    - intros ix s' Hix Ns' Fs' Os'. rewrite Ec in Hix. apply valid_1 in Hix.
      destruct Hix as [i [-> Hi]]. unfold arg1; cbn [nth].
      erewrite bind_ok; [|eapply dot_ok with (F := (fun k => B [k; i])) (G := (fun k => A [k])); intros k Hk; cbv beta];
      [|rewrite (elt_addr_t b m n i k Eb); apply (at_frame dt s s' b c B [k; i]); auto; rewrite Eb; simpl; lia|rewrite (vec_addr a m k Ea); apply (at_frame dt s s' a c A [k]); auto; rewrite Ea; simpl; lia].
      rewrite (vec_addr c n i Ec), one_mul.
      apply store_ok. rewrite Os'. apply mapped_addr; auto. rewrite Ec; simpl; auto.
  Qed.
End LinAlgFacts.
