(** Accuracy of predictions. *)
From Coq Require Import ZArith List Bool Lia Reals Lra.
From Coquelicot Require Import Coquelicot.
From Verif Require Import Base BaseFacts Traits Scalar RealScalar SumFacts TensorFacts LinAlg LinAlgFacts ConvFacts
  ConvGradFacts Elem ElemSpec ElemFacts PropsElem Activation ActivationSpec ActivationFacts SoftmaxFacts
  PropsSoftmax Pool PoolSpec Summary PropsSummary Utility UtilityFacts PropsUtility LayersFacts Train TrainSpec TrainFacts TrainEpoch.
Import ListNotations.
Open Scope Z_scope.
Open Scope model_scope.

Lemma with_tensor_run : forall {V A} ds (body : tensor -> M V A) (s : st V), fresh_ok s ->
  exists s1, let t := mktensor (nextb s) 0 ds in
    nextb s1 = nextb s + 1 /\ fresh_ok s1 /\ (forall p, fst p <> nextb s -> cells s1 p = cells s p) /\ mapped s1 t /\
    match body t s1 with
    | Ok a s2 => exists s', with_tensor ds body s = Ok a s' /\ nextb s' = nextb s2 /\
        forall p, cells s' p = if fst p =? nextb s then Unmapped else cells s2 p
    | Throw e s2 => exists s', with_tensor ds body s = Throw e s' /\ nextb s' = nextb s2 /\
        forall p, cells s' p = if fst p =? nextb s then Unmapped else cells s2 p
    | UB => with_tensor ds body s = UB
    end.
Proof.
  intros V A ds body s Hf.
  exists (mkst (fun q => if (fst q =? nextb s) && (0 <=? snd q) && (snd q <? prod ds)
                              then Uninit else cells s q) (nextb s + 1)).
  cbv zeta. split; [reflexivity|]. split; [|split; [|split]].
  - intros p Hp. cbn in Hp |- *. replace (fst p =? nextb s) with false by lia. cbn. apply Hf. lia.
  - intros p Hp. cbn. replace (fst p =? nextb s) with false by lia. reflexivity.
  - intros p (o & Ho & ->). cbn. unfold size in Ho; cbn in Ho.
    replace ((nextb s =? nextb s) && (0 <=? o) && (o <? prod ds)) with true by lia. discriminate.
  - unfold with_tensor, with_temp, alloc. destruct (body _ _) as [a s2|e s2|]; auto.
    + eexists. split; [reflexivity|]. split; reflexivity.
    + eexists. split; [reflexivity|]. split; reflexivity.
Qed.

Lemma Rltb_true : forall a b, Rltb a b = true <-> (a < b)%R.
Proof. intros a b. unfold Rltb. destruct (Rlt_dec a b); split; auto; discriminate. Qed.
Lemma Rltb_false : forall a b, Rltb a b = false <-> (b <= a)%R.
Proof. intros a b. unfold Rltb. destruct (Rlt_dec a b); split; intros; auto; try discriminate; lra. Qed.

Lemma Rsc_order : weak_order (fun _ => True) (sltb Rsc).
Proof.
  split; [|split]; cbn.
  - intros a _. apply Rltb_false. lra.
  - intros a b c _ _ _. rewrite !Rltb_true. lra.
  - intros a b c _ _ _. rewrite !Rltb_false. lra.
Qed.

Lemma count_compl : forall n p, 0 <= n -> count n p + count n (fun i => negb (p i)) = n.
Proof.
  intros n p Hn. unfold count.
  assert (G : forall l, (length (List.filter p l) + length (List.filter (fun i => negb (p i)) l) = length l)%nat).
  { intros l. induction l as [|a l IH]; cbn; [reflexivity|]. destruct (p a); cbn; lia. }
  specialize (G (zrange n)). rewrite length_zrange in G. lia.
Qed.

Lemma diffs_1 : forall n (J1 J2 : list Z -> Z), 
  diffs (fun a b => negb (a =? b)) [n] J1 J2 = count n (fun i => negb (J1 [i] =? J2 [i])).
Proof.
  intros n J1 J2. unfold diffs, count. rewrite indices_1. do 1 f_equal.
  induction (zrange n) as [|a l IH]; cbn; [reflexivity|]. destruct (J1 [a] =? J2 [a]); cbn; congruence.
Qed.

Section Accuracy.
  Context {V : Type} (dt : dtype V R) (dn : dtype V Z) (df : dtype V R).

  Lemma accuracy_ok : forall n k ys y_s X Y s, fresh_ok s -> 1 <= n -> 1 <= k <= 2 ^ 32 ->
    tdims ys = [n; k] -> tdims y_s = [n; k] -> holds dt s ys (arg2 X) -> holds dt s y_s (arg2 Y) ->
    exists s' (J1 J2 : Z -> Z),
      accuracy dt dn Rsc df Rsc ys y_s s = Ok (IZR (count n (fun i => J1 i =? J2 i)) / IZR n)%R s' /\
      nextb s <= nextb s' /\ (forall p, cells s' p = cells s p) /\
      (forall i, 0 <= i < n -> first_max k (X i) (J1 i) /\ first_max k (Y i) (J2 i)).
  Proof using.
    intros n k ys y_s X Y s Hf Hn Hk Ex Ey HX HY. unfold accuracy, nth_dim. rewrite Ex, Ey. cbn [nth].
    assert (Dx : dims_ok ys) by (unfold dims_ok; rewrite Ex; repeat constructor; lia).
    assert (Dy : dims_ok y_s) by (unfold dims_ok; rewrite Ey; repeat constructor; lia).
    match goal with |- context[with_tensor [n] ?b s] =>
      destruct (with_tensor_run [n] b s Hf) as (s1 & N1 & F1 & C1 & M1 & R1) end.
    set (t1 := mktensor (nextb s) 0 [n]) in *.
    match type of R1 with match (with_tensor [n] ?b s1) with _ => _ end =>
      destruct (with_tensor_run [n] b s1 F1) as (s2 & N2 & F2 & C2 & M2 & R2) end.
    set (t2 := mktensor (nextb s1) 0 [n]) in *.
    assert (Mx : mapped s ys) by (eapply holds_mapped; eauto).
    assert (My : mapped s y_s) by (eapply holds_mapped; eauto).
    assert (Bl : forall t p, mapped s t -> foot t p -> fst p < nextb s) by (intros; eapply foot_fresh; eauto).
    assert (C12 : forall p, fst p < nextb s -> cells s2 p = cells s p).
    { intros p Hp. rewrite C2, C1 by lia. reflexivity. }
    assert (HX2 : holds dt s2 ys (arg2 X)) by (eapply holds_frame; [|exact HX]; intros; apply C12; eauto).
    assert (HY2 : holds dt s2 y_s (arg2 Y)) by (eapply holds_frame; [|exact HY]; intros; apply C12; eauto).
    assert (M12 : mapped s2 t1).
    { eapply mapped_frame; [|exact M1]. intros p (o & _ & ->). apply C2. cbn. lia. }
    assert (Ft1 : forall p, foot t1 p -> fst p = nextb s) by (intros p (o & _ & ->); reflexivity).
    assert (Ft2 : forall p, foot t2 p -> fst p = nextb s1) by (intros p (o & _ & ->); reflexivity).
    destruct (C47_argmax V R dn (mkitype false 32) dt Rsc (fun _ => True) t1 ys [n] k (arg2 X) s2) as (J1 & (s3 & E3 & H3 & N3 & F3) & P1);
      auto; try (cbn; lia); try apply Rsc_order.
    { intros p Q1 Q2. apply Ft1 in Q1. pose proof (Bl _ _ Mx Q2). lia. }
    assert (HY3 : holds dt s3 y_s (arg2 Y)).
    { eapply holds_frame; [|exact HY2]. intros p Hp. apply F3. intros Q. apply Ft1 in Q. pose proof (Bl _ _ My Hp). lia. }
    destruct (C47_argmax V R dn (mkitype false 32) dt Rsc (fun _ => True) t2 y_s [n] k (arg2 Y) s3) as (J2 & (s4 & E4 & H4 & N4 & F4) & P2);
      auto; try (cbn; lia); try apply Rsc_order.
    { eapply mapped_frame; [|exact M2]. intros p Hp. apply F3. intros Q. apply Ft1 in Q. apply Ft2 in Hp. lia. }
    { intros p Q1 Q2. apply Ft2 in Q1. pose proof (Bl _ _ My Q2). lia. }
    assert (H34 : holds dn s4 t1 J1).
    { eapply holds_frame; [|exact H3]. intros p Hp. apply F4. intros Q. apply Ft1 in Hp. apply Ft2 in Q. lia. }
    assert (F4' : fresh_ok s4).
    { intros p Hp. rewrite F4, F3; [apply F2; lia| |]; intros Q; [apply Ft1 in Q|apply Ft2 in Q]; lia. }
    rewrite (bind_ok _ _ _ _ _ E3), (bind_ok _ _ _ _ _ E4) in R2.
    match type of R2 with match (with_tensor [] ?b s4) with _ => _ end =>
      destruct (with_tensor_run [] b s4 F4') as (s5 & N5 & F5 & C5 & M5 & R5) end.
    set (t3 := mktensor (nextb s4) 0 []) in *.
    assert (H15 : holds dn s5 t1 J1).
    { eapply holds_frame; [|exact H34]. intros p Hp. apply C5. apply Ft1 in Hp. lia. }
    assert (H25 : holds dn s5 t2 J2).
    { eapply holds_frame; [|exact H4]. intros p Hp. apply C5. apply Ft2 in Hp. lia. }
    destruct (C49_value V Z df dn (fun a b => negb (a =? b)) t3 t1 t2 J1 J2 s5) as (s6 & E6 & H6 & N6 & F6); auto.
    { repeat constructor; lia. }
    { unfold size; cbn; lia. }
    rewrite (bind_ok _ _ _ _ _ E6) in R5. specialize (H6 [] I). unfold addr in H6. cbn [offset tdims t3] in H6.
    rewrite (load_ok _ _ _ _ H6) in R5.
    destruct R5 as (s7 & E7 & N7 & C7). rewrite E7 in R2. destruct R2 as (s8 & E8 & N8 & C8).
    rewrite E8 in R1. destruct R1 as (s9 & E9 & N9 & C9).
    exists s9, (fun i => J1 [i]), (fun i => J2 [i]).
    split; [|split; [lia|split]].
    - rewrite E9. f_equal. replace (size t1) with n by (unfold size; cbn; lia). cbn [tdims t1]. rewrite diffs_1.
      pose proof (count_compl n (fun i => J1 [i] =? J2 [i]) ltac:(lia)) as Q.
      assert (Q2 : (IZR n <> 0)%R) by (apply not_0_IZR; lia). apply (f_equal IZR) in Q. rewrite plus_IZR in Q.
      apply (Rmult_eq_reg_r (IZR n)); [|exact Q2].
      replace ((1 - IZR (count n (fun i => negb (J1 [i] =? J2 [i]))) / IZR n) * IZR n)%R
        with (IZR n - IZR (count n (fun i => negb (J1 [i] =? J2 [i]))))%R by (field; auto).
      replace (IZR (count n (fun i => J1 [i] =? J2 [i])) / IZR n * IZR n)%R
        with (IZR (count n (fun i => J1 [i] =? J2 [i]))) by (field; auto). lra.
    - intros p. rewrite C9. destruct (Z.eqb_spec (fst p) (nextb s)) as [Q|Q].
      { symmetry. apply Hf. lia. }
      rewrite C8. destruct (Z.eqb_spec (fst p) (nextb s1)) as [Q1|Q1].
      { symmetry. apply Hf. lia. }
      rewrite C7. destruct (Z.eqb_spec (fst p) (nextb s4)) as [Q2|Q2].
      { symmetry. apply Hf. lia. }
      assert (T3 : ~ foot t3 p) by (intros (o & _ & ->); apply Q2; reflexivity).
      rewrite F6 by exact T3. rewrite C5 by exact Q2.
      rewrite F4 by (intros Q3; apply Ft2 in Q3; lia). rewrite F3 by (intros Q3; apply Ft1 in Q3; lia).
      rewrite C2, C1 by lia. reflexivity.
    - intros i Hi. assert (Vi : valid [n] [i]) by (cbn; lia).
      destruct (P1 [i] Vi) as (A1 & A2 & A3). destruct (P2 [i] Vi) as (B1 & B2 & B3).
      unfold arg2 in *. cbn [app nth] in *. unfold first_max. cbn [sltb Rsc] in *.
      split; (split; [assumption|]); split; intros j Hj.
      + apply Rltb_false. auto.
      + apply Rltb_true. auto.
      + apply Rltb_false. auto.
      + apply Rltb_true. auto.
  Qed.
End Accuracy.
