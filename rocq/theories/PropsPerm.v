(** Property C102: reordering channels, hidden units and classes. *)
From Coq Require Import ZArith List Bool Lia ZifyBool Permutation Reals Lra.
From Verif Require Import Base BaseFacts TensorFacts Traits TraitsSpec Scalar RealScalar LinAlg LinAlgFacts SumFacts
  Elem ElemSpec ElemFacts Conv ConvSpec ConvFacts ConvAlgSpec ConvAlgFacts Pool PoolSpec PoolAlgSpec PoolAlgFacts
  Activation ActivationSpec ActivationFacts Summary Utility Layers
  PropsElem PropsNorm PropsSoftmax PropsUtility PropsSummary PropsPoolAlg PropsLayers2 MatAlgSpec PropsMatAlg PermSpec Demo.
From Flocq Require Import BinarySingleNaN.
From Verif Require Import Float FloatSpec PropsFloat.
Import ListNotations.
Open Scope Z_scope.
Open Scope model_scope.

Lemma reorder_perm : forall n f, reorders n f -> Permutation (map f (zrange n)) (zrange n).
Proof.
  intros n f [B I]. apply NoDup_Permutation_bis.
  - apply NoDup_map_in; [|apply NoDup_zrange]. intros a b Ha Hb. apply in_zrange in Ha, Hb. apply I; auto.
  - rewrite map_length. auto.
  - intros k Hk. apply in_map_iff in Hk. destruct Hk as (q & <- & Hq). apply in_zrange in Hq. apply in_zrange. auto.
Qed.

Lemma sum_reorder : forall {T} (sc : scalar T), ring_laws sc -> forall n f F, reorders n f ->
  sum_over sc (zrange n) (fun k => F (f k)) = sum_over sc (zrange n) F.
Proof.
  intros T sc laws n f F H. rewrite <- (sum_over_map sc (zrange n) f F).
  apply (sum_perm sc laws). apply reorder_perm; auto.
Qed.

(** One more step before [m2]. *)
Lemma step_leaves : forall {V T} (dt : dtype V T) m1 m2 s t X z Z,
  writes dt m1 s t X -> (forall s', holds dt s' t X -> only_changes t s s' -> leaves dt m2 s' z Z) ->
  leaves dt (m1 ;;; m2) s z Z.
Proof.
  intros V T dt m1 m2 s t X z Z (s1 & E1 & H1 & O1) H. destruct (H s1 H1 O1) as (s2 & E2 & H2).
  exists s2. split; [|exact H2]. rewrite (bind_ok _ _ _ _ _ E1). exact E2.
Qed.

Lemma keep_holds : forall {V T} (dt : dtype V T) a b (s s' : st V) A,
  disjoint a b -> dims_ok b -> holds dt s b A -> only_changes a s s' -> holds dt s' b A.
Proof.
  intros V T dt a b s s' A D Db H [_ O] ix Hix. rewrite O; [apply H; auto|].
  intros Q. apply (D _ Q). apply addr_foot; auto.
Qed.
Lemma keep_mapped : forall {V} a b (s s' : st V), disjoint a b -> mapped s b -> only_changes a s s' -> mapped s' b.
Proof. intros V a b s s' D H [_ O] p Hp. rewrite O; [apply H; auto|]. intros Q. exact (D p Q Hp). Qed.
Lemma disjoint_flip : forall a b, disjoint a b -> disjoint b a.
Proof. unfold disjoint. firstorder. Qed.

(** ** Without any law of arithmetic: bit for bit *)
Section Any.
  Context {V T : Type} (dt : dtype V T) (sc : scalar T).

  Lemma axis_value : forall p f ix, (p < length ix)%nat -> nth p (at_axis p f ix) 0 = f (nth p ix 0).
  Proof using.
    intros p f ix Hp. unfold at_axis. rewrite app_nth2; rewrite firstn_length_le by lia; [|lia].
    rewrite Nat.sub_diag. reflexivity.
  Qed.

  Lemma valid_at : forall ds ix p, valid ds ix -> (p < length ds)%nat -> (p < length ix)%nat /\ 0 <= nth p ix 0 < nth p ds 0.
  Proof using.
    induction ds as [|d ds IH]; intros [|i ix] p H Hp; cbn [valid length nth] in *; try tauto; [lia|].
    destruct H as [Hi Hv]. destruct p as [|p]; cbn [nth]; [split; [lia|exact Hi]|].
    destruct (IH ix p Hv ltac:(lia)). split; [lia|auto].
  Qed.

  (** Images and biases reordered alike give the results reordered. *)
  Theorem C102_bias : forall o rank ds p n f (op : T -> T -> T) s s2 z x b z2 x2 b2 X B X2 B2,
    bias_layout o rank p -> length ds = rank -> reorders n f ->
    bias_call dt ds p n s z x b X B -> bias_call dt ds p n s2 z2 x2 b2 X2 B2 ->
    (forall ix, valid ds ix -> X2 ix = X (at_axis p f ix)) -> (forall k, 0 <= k < n -> B2 [k] = B [f k]) ->
    exists Z, writes dt (op_bias dt o (fun a c => Ret (op a c)) z x b) s z Z /\
      writes dt (op_bias dt o (fun a c => Ret (op a c)) z2 x2 b2) s2 z2 (fun ix => Z (at_axis p f ix)).
  Proof using.
    intros o rank ds p n f op s s2 z x b z2 x2 b2 X B X2 B2 L Hl R
      (N & Hn & Ez & Ex & Eb & HX & HB & HZ & S & D) (_ & _ & Ez2 & Ex2 & Eb2 & HX2 & HB2 & HZ2 & S2 & D2) EX EB.
    assert (Hp : (p < length ds)%nat) by (destruct L as [(_ & Q & ->)|[(_ & Q & ->)|(_ & Q & ->)]]; lia).
    exists (fun ix => op (X ix) (B [nth p ix 0])). split.
    - eapply (bias_op dt _ op o rank p z x b n X B); auto; unfold dims_ok; rewrite ?Ez; auto.
    - eapply writes_ext; [reflexivity| |eapply (bias_op dt _ op o rank p z2 x2 b2 n X2 B2); auto; unfold dims_ok; rewrite ?Ez2; auto].
      + intros ix Hix. rewrite Ez2 in Hix. cbv beta. rewrite (EX ix Hix).
        destruct (valid_at ds ix p Hix Hp) as [Hq Hk]. rewrite Hn in Hk. rewrite EB by auto. rewrite axis_value by auto. reflexivity.
  Qed.

  (** So do batch normalisations with means and variances reordered alike. *)
  Theorem C102_bn : forall o ds p n f (norm : T -> T -> T -> outcome T) s s2 y x m v y2 x2 m2 v2 X Mu Va X2 Mu2 Va2,
    bn_axis o p -> length ds = 4%nat -> reorders n f ->
    bn_call dt ds p n s y x m v X Mu Va -> bn_call dt ds p n s2 y2 x2 m2 v2 X2 Mu2 Va2 ->
    (forall k, 0 <= k < n -> forall a, exists r, norm a (Mu [k]) (Va [k]) = Ret r) ->
    (forall ix, valid ds ix -> X2 ix = X (at_axis p f ix)) ->
    (forall k, 0 <= k < n -> Mu2 [k] = Mu [f k] /\ Va2 [k] = Va [f k]) ->
    exists Y, writes dt (op_bn dt o norm y x m v) s y Y /\
      writes dt (op_bn dt o norm y2 x2 m2 v2) s2 y2 (fun ix => Y (at_axis p f ix)).
  Proof using.
    intros o ds p n f norm s s2 y x m v y2 x2 m2 v2 X Mu Va X2 Mu2 Va2 L Hl R
      (N & Hn & Ey & Ex & Em & Ev & HX & HM & HV & HY & S & Dm & Dv)
      (_ & _ & Ey2 & Ex2 & Em2 & Ev2 & HX2 & HM2 & HV2 & HY2 & S2 & Dm2 & Dv2) Tot EX EM.
    assert (Hp : (p < length ds)%nat) by (destruct L as [(_ & ->)|(_ & ->)]; lia).
    set (Y := fun ix => match norm (X ix) (Mu [nth p ix 0]) (Va [nth p ix 0]) with Ret r => r | _ => X ix end).
    exists Y. split.
    - apply (C32_bn dt o p norm y x m v n X Mu Va Y); auto; unfold dims_ok; rewrite ?Ex; auto.
      intros ix Hix. destruct (valid_at ds ix p Hix Hp) as [_ Hk]. rewrite Hn in Hk.
      unfold Y. destruct (Tot _ Hk (X ix)) as [r ->]. reflexivity.
    - apply (C32_bn dt o p norm y2 x2 m2 v2 n X2 Mu2 Va2); auto; unfold dims_ok; rewrite ?Ex2; auto.
      intros ix Hix. destruct (valid_at ds ix p Hix Hp) as [Hq Hk]. rewrite Hn in Hk.
      destruct (EM _ Hk) as [-> ->]. rewrite (EX ix Hix). unfold Y. rewrite axis_value by auto.
      destruct (Tot (f (nth p ix 0)) (proj1 R _ Hk) (X (at_axis p f ix))) as [r ->]. reflexivity.
  Qed.

  (** Pooling, max or mean, in every layout that has channels. *)
  Theorem C102_pool : forall (A : accumulator T) o P g f s s2 y x y2 x2 X X2,
    pcalled dt o P g s y x X -> pcalled dt o P g s2 y2 x2 X2 -> yields A (kh_of P * kw_of P) -> reorders (pgc g) f ->
    (forall l p q k, pin g l p q k -> X2 (pcell o l p q k) = X (pcell o l p q (f k))) ->
    exists Y Y2, writes dt (op_pool dt o A P y x) s y Y /\ writes dt (op_pool dt o A P y2 x2) s2 y2 Y2 /\
      forall l i j k, pout g l i j k -> Y2 (pcell o l i j k) = Y (pcell o l i j (f k)).
  Proof using.
    intros A o P g f s s2 y x y2 x2 X X2 K K2 Hy [R _] E.
    destruct (C94_window dt A _ _ _ _ _ _ _ _ _ _ _ _ _ _ K K2 Hy Hy) as (Y & Y2 & W & W2 & Q).
    exists Y, Y2. split; [exact W|]. split; [exact W2|]. intros l i j k Ho. symmetry.
    apply (Q l i j (f k) l i j k); [|exact Ho|].
    - unfold pout in *. destruct Ho as (? & ? & ? & Hk). auto.
    - unfold pseen. apply map_ext_in. intros q Hq. apply pwindow_in in Hq. symmetry. apply E. unfold pin, pout in *. tauto.
  Qed.

  (** A row whose largest element is unique keeps its class under reordering of
      the classes. *)
  Theorem C102_argmax : forall (dn : dtype V Z) N dom ds n f s s2 y x y2 x2 X X2,
    0 < it_bits N -> n - 1 <= it_max N -> 1 <= n -> weak_order dom (sltb sc) -> reorders n f ->
    row_call dt ds n s y x X -> row_call dt ds n s2 y2 x2 X2 -> tdims y = ds -> tdims y2 = ds ->
    (forall ix, valid (ds ++ [n]) ix -> dom (X ix)) -> rows_reordered ds n f X X2 ->
    exists J J2, writes dn (op_argmax dn N dt sc (length ds) y x) s y J /\
      writes dn (op_argmax dn N dt sc (length ds) y2 x2) s2 y2 J2 /\
      forall ix, valid ds ix ->
        (forall k, 0 <= k < n -> k <> J ix -> sltb sc (X (ix ++ [k])) (X (ix ++ [J ix])) = true) ->
        f (J2 ix) = J ix.
  Proof using.
    intros dn N dom ds n f s s2 y x y2 x2 X X2 Hb HN Hn WO R (Nn & Ex & HX & HY & D) (_ & Ex2 & HX2 & HY2 & D2) Ey Ey2 Hdom E.
    assert (Dx : dims_ok x) by (unfold dims_ok; rewrite Ex; exact Nn).
    assert (Dx2 : dims_ok x2) by (unfold dims_ok; rewrite Ex2; exact Nn).
    assert (V2 : forall ix k, valid ds ix -> 0 <= k < n -> valid (ds ++ [n]) (ix ++ [k])).
    { clear. induction ds as [|d ds IH]; intros [|i ix] k H Hk; cbn in *; try tauto. split; [tauto|]. apply IH; tauto. }
    destruct (C47_argmax V T dn N dt sc dom y x ds n X s) as (J & W & HJ); auto.
    { rewrite Ex. auto. }
    destruct (C47_argmax V T dn N dt sc dom y2 x2 ds n X2 s2) as (J2 & W2 & HJ2); auto.
    { rewrite Ex2. intros ix Hix.
      assert (SP : exists a k, ix = a ++ [k] /\ valid ds a /\ 0 <= k < n).
      { clear - Hix. revert ix Hix. induction ds as [|d ds IH]; intros [|i ix] H; cbn in *; try tauto.
        - destruct ix; cbn in H; [|tauto]. exists [], i. cbn. tauto.
        - destruct (IH ix) as (a & k & -> & Ha & Hk); [tauto|]. exists (i :: a), k. cbn. tauto. }
      destruct SP as (a & k & -> & Ha & Hk). rewrite E by auto. apply Hdom, V2; auto. apply R; auto. }
    exists J, J2. split; [exact W|]. split; [exact W2|]. intros ix Hix U.
    destruct (HJ ix Hix) as (B & _). destruct (HJ2 ix Hix) as (B2 & M & _).
    destruct (Z.eq_dec (f (J2 ix)) (J ix)) as [|Ne]; [auto|exfalso].
    assert (P : exists k, 0 <= k < n /\ f k = J ix).
    { assert (I : In (J ix) (map f (zrange n))).
      { apply (Permutation_in _ (Permutation_sym (reorder_perm n f R))). apply in_zrange. auto. }
      apply in_map_iff in I. destruct I as (k & Ek & Hk). apply in_zrange in Hk. eauto. }
    destruct P as (k & Hk & Ek). specialize (M k Hk). rewrite !E, Ek in M by auto.
    rewrite U in M; [discriminate| |auto]. apply R; auto.
  Qed.
End Any.

(** ** In exact arithmetic *)
Section Ring.
  Context {V T : Type} (dt : dtype V T) (di : dtype V Z) (sc : scalar T) (laws : ring_laws sc).

  (** Reordering the channels of the images and of the filters alike changes
      nothing: a network for RGB pictures becomes one for BGR pictures by
      reordering the filters of its first layer. *)
  Theorem C102_conv : forall io e e2 C g f s s2 z x y z2 x2 y2 X X2 Y Y2,
    called dt sc io e C g s z x y X Y -> called dt sc io e2 C g s2 z2 x2 y2 X2 Y2 -> reorders (gc g) f ->
    (forall l p q k, in_img g l p q k -> X2 (pix io l p q k) = X (pix io l p q (f k))) ->
    (forall u v k t, in_flt g u v k t -> Y2 (wgt io u v k t) = Y (wgt io u v (f k) t)) ->
    exists Z, writes dt (op_conv dt di sc io e C z x y) s z Z /\ writes dt (op_conv dt di sc io e2 C z2 x2 y2) s2 z2 Z.
  Proof using laws.
    intros io e e2 C g f s s2 z x y z2 x2 y2 X X2 Y Y2 K K2 R EX EY.
    exists (conv_fn sc io C g X Y). split; [apply conv_result; auto|].
    eapply writes_ext; [reflexivity| |apply conv_result; exact K2].
    intros ix Hix. pose proof K2 as (_ & _ & _ & _ & Ez & _). rewrite Ez in Hix.
    destruct (pix_cases io _ _ _ _ _ (called_io dt sc _ _ _ _ _ _ _ _ _ _ K) Hix) as (l & i & j & t & -> & Hl & Hi & Hj & Ht).
    rewrite !conv_fn_pix. unfold conv_at. rewrite !(tapsum_nest sc laws).
    apply sum_over_ext. intros u Hu. apply in_zrange in Hu. apply sum_over_ext. intros v Hv. apply in_zrange in Hv.
    etransitivity; [|apply (sum_reorder sc laws (gc g) f _ R)]. apply sum_over_ext. intros k Hk. apply in_zrange in Hk.
    rewrite EY by (unfold in_flt; auto). f_equal. unfold zimg, zpad.
    destruct (inb (gh g) _ && inb (gw g) _) eqn:B; [|reflexivity].
    apply andb_true_iff in B. unfold inb in B. apply EX. unfold in_img. lia.
  Qed.

  (** Reordering the hidden units of a network changes nothing. *)
  Theorem C102_hidden : forall e1 e2 e3 e4 act m l h n f s x w1 b1 t w2 b2 z v1 a1 v2 X W1 B1 W2 B2 V1 A1 V2,
    engine_ok sc e1 [m; l; h] -> engine_ok sc e2 [m; h; n] -> engine_ok sc e3 [m; l; h] -> engine_ok sc e4 [m; h; n] ->
    0 <= m -> 0 <= l -> 0 <= h -> 0 <= n -> reorders h f ->
    tdims x = [m; l] -> tdims t = [m; h] -> tdims z = [m; n] ->
    tdims w1 = [l; h] -> tdims b1 = [h] -> tdims w2 = [h; n] -> tdims b2 = [n] ->
    tdims v1 = [l; h] -> tdims a1 = [h] -> tdims v2 = [h; n] ->
    holds dt s x X -> holds dt s w1 W1 -> holds dt s b1 B1 -> holds dt s w2 W2 -> holds dt s b2 B2 ->
    holds dt s v1 V1 -> holds dt s a1 A1 -> holds dt s v2 V2 -> mapped s t -> mapped s z ->
    separate [t; z] [x; w1; b1; w2; b2; v1; a1; v2] ->
    (forall i k, 0 <= i < l -> 0 <= k < h -> V1 [i; k] = W1 [i; f k]) ->
    (forall k, 0 <= k < h -> A1 [k] = B1 [f k]) ->
    (forall k j, 0 <= k < h -> 0 <= j < n -> V2 [k; j] = W2 [f k; j]) ->
    exists Z, leaves dt (two_layers dt sc e1 e2 act x w1 b1 t w2 b2 z) s z Z /\
      leaves dt (two_layers dt sc e3 e4 act x v1 a1 t v2 b2 z) s z Z.
  Proof using laws.
    intros e1 e2 e3 e4 act m l h n f s x w1 b1 t w2 b2 z v1 a1 v2 X W1 B1 W2 B2 V1 A1 V2 H1 H2 H3 H4 Hm Hl Hh Hn R
      Ex Et Ez Ew1 Eb1 Ew2 Eb2 Ev1 Ea1 Ev2 HX HW1 HB1 HW2 HB2 HV1 HA1 HV2 Mt Mz [Sep1 Sep2] EV1 EA1 EV2.
    rewrite !Forall_cons_iff in Sep2. destruct Sep2 as (St & Sz & _).
    inversion Sep1 as [|? ? Stz _]; subst. rewrite Forall_cons_iff in Stz. destruct Stz as [Stz _].
    assert (Szt : disjoint z t) by (apply disjoint_flip; exact Stz).
    assert (D2 : forall a b0 c, tdims a = [b0; c] -> 0 <= b0 -> 0 <= c -> dims_ok a)
      by (intros a b0 c E P Q; unfold dims_ok; rewrite E; repeat constructor; auto).
    assert (D1 : forall a b0, tdims a = [b0] -> 0 <= b0 -> dims_ok a)
      by (intros a b0 E P; unfold dims_ok; rewrite E; repeat constructor; auto).
    assert (Run : forall e e' w b w' W B W', engine_ok sc e [m; l; h] -> engine_ok sc e' [m; h; n] ->
      tdims w = [l; h] -> tdims b = [h] -> tdims w' = [h; n] -> holds dt s w W -> holds dt s b B -> holds dt s w' W' ->
      disjoint t w -> disjoint t b -> disjoint t w' -> disjoint z w' ->
      leaves dt (two_layers dt sc e e' act x w b t w' b2 z) s z
        (fun ix => sadd sc (matmul_fn sc h (fun ix => act (sadd sc (matmul_fn sc l X W ix) (B [nth 1 ix 0]))) W' ix) (B2 [nth 1 ix 0]))).
    { intros e e' w b w' W B W' He He' Ew Eb Ew' HW HB HW' Q1 Q2 Q3 Q4. unfold two_layers.
      set (F1 := matmul_fn sc l X W). set (F2 := fun ix => sadd sc (F1 ix) (B [nth 1 ix 0])). set (F3 := fun ix => act (F2 ix)).
      eapply step_leaves; [apply (C26_matmul dt sc e t x w m l h X W); auto; tauto|]. intros sa HTa Oa.
      assert (HBa : holds dt sa b B) by (eapply (keep_holds dt t); eauto).
      assert (HW'a : holds dt sa w' W') by (eapply (keep_holds dt t); eauto).
      assert (HB2a : holds dt sa b2 B2) by (eapply (keep_holds dt t); eauto; tauto).
      assert (Mza : mapped sa z) by (eapply (keep_mapped t); eauto).
      assert (Mta : mapped sa t) by (eapply holds_mapped; eauto).
      eapply step_leaves; [apply (C30_add_bias dt sc hw 2 1 t t b h F1 B sa); auto; unfold dims_ok; rewrite ?Et; auto; [left; auto|right; repeat split]|].
      intros sb HTb Ob.
      assert (HW'b : holds dt sb w' W') by (eapply (keep_holds dt t); eauto).
      assert (HB2b : holds dt sb b2 B2) by (eapply (keep_holds dt t); eauto; tauto).
      assert (Mzb : mapped sb z) by (eapply (keep_mapped t); eauto).
      assert (Mtb : mapped sb t) by (eapply holds_mapped; eauto).
      eapply step_leaves; [apply (C27_pointwise dt act t t F2 sb); eauto; right; repeat split|].
      intros sc_ HTc Oc.
      assert (HW'c : holds dt sc_ w' W') by (eapply (keep_holds dt t); eauto).
      assert (HB2c : holds dt sc_ b2 B2) by (eapply (keep_holds dt t); eauto; tauto).
      assert (Mzc : mapped sc_ z) by (eapply (keep_mapped t); eauto).
      eapply step_leaves; [apply (C26_matmul dt sc e' z t w' m h n F3 W'); eauto|].
      intros sd HZd Od.
      assert (HB2d : holds dt sd b2 B2) by (eapply (keep_holds dt z); eauto; tauto).
      apply writes_leaves. apply (C30_add_bias dt sc hw 2 1 z z b2 n (matmul_fn sc h F3 W') B2 sd); auto; unfold dims_ok; rewrite ?Ez; auto; try tauto; [left; auto|eapply holds_mapped; eauto|right; repeat split]. }
    eexists. split; [apply (Run e1 e2 w1 b1 w2 W1 B1 W2); auto; tauto|].
    eapply leaves_ext; [|apply (Run e3 e4 v1 a1 v2 V1 A1 V2); auto; tauto].
    intros ix Hix. rewrite Ez in Hix. apply valid_2 in Hix. destruct Hix as (i & j & -> & Hi & Hj).
    cbv beta. f_equal. unfold matmul_fn, arg2. cbn [nth].
    etransitivity; [|apply (sum_reorder sc laws h f _ R)]. apply sum_over_ext. intros k Hk. apply in_zrange in Hk.
    rewrite EV2, EA1 by auto. do 3 f_equal. apply sum_over_ext. intros q Hq. apply in_zrange in Hq. rewrite EV1 by auto. reflexivity.
  Qed.

  (** Two tensors with the same elements in another order, and possibly another
      shape, have the same sum. *)
  Theorem C102_sum : forall s s2 x x2 X X2, dims_ok x -> dims_ok x2 -> holds dt s x X -> holds dt s2 x2 X2 ->
    Permutation (elements x X) (elements x2 X2) ->
    exists t, s_sum dt sc x s = Ok t s /\ s_sum dt sc x2 s2 = Ok t s2.
  Proof using laws.
    intros s s2 x x2 X X2 D D2 H H2 P. eexists. split; [apply C43_sum; eauto|].
    rewrite (C43_sum V T dt sc x2 X2 s2 D2 H2). f_equal.
    assert (E : forall t (F : list Z -> T), sum_over sc (elements t F) (fun v => v) = sum_over sc (indices (tdims t)) F).
    { intros t F. unfold elements. rewrite sum_over_map. apply sum_over_ext. auto. }
    rewrite <- !E. symmetry. apply (sum_perm sc laws). exact P.
  Qed.
End Ring.

(** ** Over the reals *)
Lemma rsum_reorder : forall n f F, reorders n f -> rsum n (fun k => F (f k)) = rsum n F.
Proof. intros. apply (sum_reorder Rsc Rsc_laws); auto. Qed.

(** softmax of reordered rows is reordered. *)
Theorem C102_softmax : forall V (dt : dtype V R) eps ds n f s s2 y x y2 x2 X X2, reorders n f ->
  row_call dt ds n s y x X -> row_call dt ds n s2 y2 x2 X2 -> tdims y = ds ++ [n] -> tdims y2 = ds ++ [n] ->
  rows_reordered ds n f X X2 ->
  exists Y Y2, writes dt (op_softmax dt Rsc exp (length ds + 1) eps y x) s y Y /\
    writes dt (op_softmax dt Rsc exp (length ds + 1) eps y2 x2) s2 y2 Y2 /\ rows_reordered ds n f Y Y2.
Proof.
  intros V dt eps ds n f s s2 y x y2 x2 X X2 H (Nn & Ex & HX & HY & D) (_ & Ex2 & HX2 & HY2 & D2) Ey Ey2 E.
  eexists _, _. split; [apply (C33_value dt eps y x ds n X s); auto; unfold dims_ok; rewrite Ex; auto|].
  split; [apply (C33_value dt eps y2 x2 ds n X2 s2); auto; unfold dims_ok; rewrite Ex2; auto|].
  intros ix k Hix Hk. rewrite !removelast_last, !last_last. unfold softmax_fn, row.
  assert (S : rsum n (fun j => exp (X2 (ix ++ [j]))) = rsum n (fun j => exp (X (ix ++ [j])))).
  { rewrite <- (rsum_reorder n f (fun j => exp (X (ix ++ [j]))) H).
    apply sum_over_ext. intros j Hj. apply in_zrange in Hj. rewrite E by auto. reflexivity. }
  rewrite S, E by auto. reflexivity.
Qed.

(** The cross entropy of rows reordered alike is the same. *)
Theorem C102_xentropy : forall V (dt : dtype V R) ds n f s s2 z x y z2 x2 y2 X Y X2 Y2, reorders n f ->
  row_call dt ds n s z x X -> row_call dt ds n s z y Y -> row_call dt ds n s2 z2 x2 X2 -> row_call dt ds n s2 z2 y2 Y2 ->
  tdims z = ds -> tdims z2 = ds -> rows_reordered ds n f X X2 -> rows_reordered ds n f Y Y2 ->
  exists Z, writes dt (op_xentropy dt Rsc ln (length ds + 1) z x y) s z Z /\
    writes dt (op_xentropy dt Rsc ln (length ds + 1) z2 x2 y2) s2 z2 Z.
Proof.
  intros V dt ds n f s s2 z x y z2 x2 y2 X Y X2 Y2 H (Nn & Ex & HX & HZ & D) (_ & Ey & HY & _ & D')
    (_ & Ex2 & HX2 & HZ2 & D2) (_ & Ey2 & HY2 & _ & D2') Ez Ez2 EX EY.
  eexists. split; [apply (C36_value dt z x y ds n X Y s); auto; unfold dims_ok; rewrite Ex; auto|].
  eapply writes_ext; [reflexivity| |apply (C36_value dt z2 x2 y2 ds n X2 Y2 s2); auto; unfold dims_ok; rewrite Ex2; auto].
  intros ix Hix. rewrite Ez2 in Hix. unfold xent_fn, row.
  rewrite <- (rsum_reorder n f (fun j => X (ix ++ [j]) * ln (Y (ix ++ [j])))%R H).
  f_equal. apply sum_over_ext. intros j Hj. apply in_zrange in Hj. rewrite EX, EY by auto. reflexivity.
Qed.

(** Mean, variance and standard deviation do not depend on the order. *)
Theorem C102_summaries : forall V (dt : dtype V R) s s2 x x2 X X2, dims_ok x -> dims_ok x2 -> 1 <= size x ->
  holds dt s x X -> holds dt s2 x2 X2 -> Permutation (elements x X) (elements x2 X2) ->
  exists m v, s_mean dt Rsc (div_float Rsc) x s = Ok m s /\ s_mean dt Rsc (div_float Rsc) x2 s2 = Ok m s2 /\
    s_var dt Rsc (div_float Rsc) x s = Ok v s /\ s_var dt Rsc (div_float Rsc) x2 s2 = Ok v s2 /\
    s_std dt Rsc (div_float Rsc) sqrt x s = Ok (sqrt v) s /\ s_std dt Rsc (div_float Rsc) sqrt x2 s2 = Ok (sqrt v) s2.
Proof.
  intros V dt s s2 x x2 X X2 D D2 Hn H H2 P.
  assert (En : size x2 = size x).
  { apply Permutation_length in P. unfold elements in P. rewrite !map_length in P.
    pose proof (length_indices _ D) as L1. pose proof (length_indices _ D2) as L2. unfold size. lia. }
  assert (E : forall F : R -> R, total x2 X2 F = total x X F).
  { intros F. unfold total.
    assert (Q : forall t (G : list Z -> R), sum_over Rsc (elements t G) F = sum_over Rsc (indices (tdims t)) (fun ix => F (G ix))).
    { intros t G. unfold elements. apply sum_over_map. }
    rewrite <- !Q. symmetry. apply (sum_perm Rsc Rsc_laws). exact P. }
  destruct (C43_variance_real V dt x X s D Hn H) as (m & v & Em & Ev & V1 & _ & _).
  destruct (C43_variance_real V dt x2 X2 s2 D2 ltac:(lia) H2) as (m2 & v2 & Em2 & Ev2 & V2 & _ & _).
  destruct (C43_mean_real V dt x X s D Hn H) as (q & Eq & Mq).
  destruct (C43_mean_real V dt x2 X2 s2 D2 ltac:(lia) H2) as (q2 & Eq2 & Mq2).
  assert (q = m) by congruence. assert (q2 = m2) by congruence. subst q q2.
  assert (P0 : (IZR (size x) <> 0)%R) by (apply not_0_IZR; lia).
  rewrite En in *.
  assert (m2 = m) by (rewrite (E (fun a => a)) in Mq2; apply (Rmult_eq_reg_r (IZR (size x))); auto; congruence). subst m2.
  assert (v2 = v) by (rewrite E in V2; apply (Rmult_eq_reg_r (IZR (size x))); auto; congruence). subst v2.
  exists m, v. repeat split; auto.
  - unfold s_std, bind. rewrite Ev. reflexivity.
  - unfold s_std, bind. rewrite Ev2. reflexivity.
Qed.

(** ** Concrete cases *)

(** 0 -> 1 -> 2 -> 0. *)
Definition cycle (k : Z) : Z := (k + 1) mod 3.
Example C102_cycle : reorders 3 cycle.
Proof.
  unfold cycle. split; [intros; apply Z.mod_pos_bound; lia|].
  intros k k' H H' E. assert (k = 0 \/ k = 1 \/ k = 2) as C by lia. assert (k' = 0 \/ k' = 1 \/ k' = 2) as C' by lia.
  destruct C as [->|[->| ->]]; destruct C' as [->|[->| ->]]; cbn in E; lia.
Qed.

(** A picture of two pixels and three channels, one filter of one tap; the
    channels of both in another order. *)
Definition tr102 : conv_trait := mkconv (mklconv (mkpadding 0 0) 1 1) (mklconv (mkpadding 0 0) 1 1).
Example C102_conv_case :
  let r X Y := run (op_conv zt zt Zsc nhwc Builtin tr102 (T_ 2 [1; 1; 2; 1]) (T_ 0 [1; 1; 2; 3]) (T_ 1 [1; 1; 3; 1]))
                 (demo [X; Y; [0; 0]]) (T_ 2 [2]) in
  r [1; 2; 3; 4; 5; 6] [1; 10; 100] = Some (inits [321; 654]) /\
  r [2; 3; 1; 5; 6; 4] [10; 100; 1] = Some (inits [321; 654]) /\
  r [2; 3; 1; 5; 6; 4] [1; 10; 100] = Some (inits [132; 465]).
Proof. vm_compute. auto. Qed.

(** Three hidden units with relu, in two orders. *)
Example C102_hidden_case :
  let r w1 b1 w2 := run (two_layers zt Zsc Builtin Builtin (relu1 Zsc) (T_ 0 [1; 2]) (T_ 1 [2; 3]) (T_ 2 [3]) (T_ 3 [1; 3])
      (T_ 4 [3; 2]) (T_ 5 [2]) (T_ 6 [1; 2]))
    (demo [[1; 2]; w1; b1; [0; 0; 0]; w2; [100; 200]; [0; 0]]) (T_ 6 [2]) in
  r [1; -1; 2; 3; -1; 1] [0; 1; -1] [1; 2; 3; 4; 5; 6] = Some (inits [122; 232]) /\
  r [-1; 2; 1; -1; 1; 3] [1; -1; 0] [3; 4; 5; 6; 1; 2] = Some (inits [122; 232]).
Proof. vm_compute. auto. Qed.

(** Bias along the channels of an nchw image, max pooling of an hwc image, and
    the class of a row. *)
Example C102_any_case :
  let bias X B := run (op_bias zt nchw (fun a c => Ret (a + c)) (T_ 2 [1; 3; 1; 2]) (T_ 0 [1; 3; 1; 2]) (T_ 1 [3]))
                    (demo [X; B; repeat 0 6]) (T_ 2 [6]) in
  let cls X := run (op_argmax zt int8 zt Zsc 1 (T_ 1 [1]) (T_ 0 [1; 3])) (demo [X; [9]]) (T_ 1 [1]) in
  bias [1; 2; 3; 4; 5; 6] [10; 20; 30] = Some (inits [11; 12; 23; 24; 35; 36]) /\
  bias [3; 4; 5; 6; 1; 2] [20; 30; 10] = Some (inits [23; 24; 35; 36; 11; 12]) /\
  cls [3; 9; 4] = Some (inits [1]) /\ cls [9; 4; 3] = Some (inits [0]) /\ cycle 0 = 1.
Proof. vm_compute. auto 6. Qed.

Example C102_pool_case :
  exists P, new_pool_kps 2 1 (mkpadding 0 0) (mkpadding 0 0) 2 1 = Ret P /\
  let r X := run (op_pool_hwc zt (max_acc Zsc (-100)) P (T_ 1 [1; 1; 3]) (T_ 0 [2; 1; 3])) (demo [X; [0; 0; 0]]) (T_ 1 [3]) in
  r [1; 8; 3; 4; 5; 6] = Some (inits [4; 8; 6]) /\ r [8; 3; 1; 5; 6; 4] = Some (inits [8; 6; 4]).
Proof. eexists. split; [reflexivity|]. vm_compute. auto. Qed.

(** Equal largest elements: the first one wins, so the class depends on the
    order. *)
Theorem C102_ties_refuted :
  let cls X := run (op_argmax zt int8 zt Zsc 1 (T_ 1 [1]) (T_ 0 [1; 2])) (demo [X; [9]]) (T_ 1 [1]) in
  let swap k := 1 - k in
  reorders 2 swap /\ cls [5; 5] = Some (inits [0]) /\ swap 0 <> 0.
Proof. split; [split; intros; lia|]. vm_compute. split; [auto|discriminate]. Qed.

(** In floating point the order matters: 2^24 + 1 + 1 and 1 + 1 + 2^24; softmax
    with exponentials 1, 2^-24, 2^-24 (about those of 0, -16.6, -16.6). *)
Definition exp102 (x : float) : float :=
  match x with
  | B754_nan => B754_nan
  | B754_infinity false => B754_infinity false
  | B754_infinity true => B754_zero false
  | B754_zero _ => f32 1 0
  | B754_finite s _ _ _ => if s then f32 1 (-24) else f32 1 24
  end.
Example C102_exp_ok : exp_ok 24 128 exp102.
Proof.
  assert (E1 : f32 1 0 = Bone) by (apply B2SF_inj; vm_compute; reflexivity).
  repeat split.
  - intros [?|?| |? ? ? ?]; try discriminate. reflexivity.
  - destruct x as [?|[]| |[] ? ? ?]; try discriminate; vm_compute; reflexivity.
  - destruct x as [?|[]| |[] ? ? ?]; try discriminate; vm_compute; reflexivity.
  - intros s. cbn [exp102]. rewrite E1. apply Bone_correct.
Qed.
Theorem C102_float_refuted :
  let sum X := match s_sum ft F32 (T_ 0 [3]) (demo [X]) with Ok v _ => Some (B2SF v) | _ => None end in
  let soft X := shown (run (op_softmax ft F32 exp102 1 (f32 0 0) (T_ 1 [3]) (T_ 0 [3])) (demo [X; repeat (f32 0 0) 3]) (T_ 1 [3])) in
  sum [f32 1 24; f32 1 0; f32 1 0] = Some (B2SF (f32 1 24)) /\
  sum [f32 1 0; f32 1 0; f32 1 24] = Some (B2SF (f32 8388609 1)) /\
  (exists a b, soft [f32 0 0; f32 (-17) 0; f32 (-17) 0] = floats [f32 1 0; a; b]) /\
  (exists a b, soft [f32 (-17) 0; f32 (-17) 0; f32 0 0] = floats [a; b; f32 16777214 (-24)]).
Proof.
  repeat split; try (vm_compute; reflexivity).
  - exists (f32 8388608 (-47)), (f32 8388608 (-47)). vm_compute. reflexivity.
  - exists (f32 16777214 (-48)), (f32 16777214 (-48)). vm_compute. reflexivity.
Qed.

Print Assumptions C102_bias.
Print Assumptions C102_bn.
Print Assumptions C102_pool.
Print Assumptions C102_argmax.
Print Assumptions C102_conv.
Print Assumptions C102_hidden.
Print Assumptions C102_sum.
Print Assumptions C102_softmax.
Print Assumptions C102_xentropy.
Print Assumptions C102_summaries.
Print Assumptions C102_ties_refuted.
Print Assumptions C102_float_refuted.
