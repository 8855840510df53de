(** Testing a model for any number type, and runs of programs that own everything
    they allocate. *)
From Coq Require Import ZArith List Bool Lia String.
From Verif Require Import Base BaseFacts Traits Scalar SumFacts TensorFacts LinAlg LinAlgFacts ConvFacts
  Elem ElemSpec ElemFacts PropsElem Activation Pool Summary Utility UtilityFacts PropsUtility FloatNan
  Io IoSpec IoFacts PropsIo Layers LayersSpec LayersFacts Vgg Examples Train TrainSpec TrainFacts TrainEpoch TrainTest TrainFloatFacts TrainMain ActivationSpec.
Import ListNotations.
Open Scope Z_scope.
Open Scope model_scope.

(** ** Testing *)

Section Test.
  Context {V T F : Type} (dt : dtype V T) (du dn : dtype V Z) (df : dtype V F) (sc : scalar T) (sf : scalar F).
  Context (quo : F -> F -> F) (Hq : forall a b, sdiv sf a b = Ret (quo a b)).

  (** 1 minus the share of wrong answers. *)
  Definition g_accuracy (n : Z) (wrong : Z) : F := ssub sf (s1 sf) (quo (sofZ sf wrong) (sofZ sf n)).

  Lemma g_similarity : forall neqb z x y X Y s,
    dims_ok x -> tdims y = tdims x -> tdims z = [] ->
    holds dn s x X -> holds dn s y Y -> mapped s z ->
    writes df (op_similarity df sf dn neqb z x y) s z (fun _ => g_accuracy (size x) (diffs neqb (tdims x) X Y)).
  Proof using Hq.
    intros neqb z x y X Y s D Ey Ez HX HY Mz.
    assert (E : op_similarity df sf dn neqb z x y s =
      Ok tt (upd s (daddr z 0) (emb df (g_accuracy (size x) (diffs neqb (tdims x) X Y))))).
    { unfold op_similarity. rewrite (bind_ok _ _ _ _ _ (hamming_ok dn neqb x y X Y s D Ey HX HY)).
      replace (size (flat x)) with (size x) by (unfold size; cbn; lia). rewrite Hq. cbn [lift]. rewrite bind_ret_l.
      apply store_ok. apply Mz. apply daddr_foot. unfold size. rewrite Ez. cbn. lia. }
    eexists. split; [exact E|]. split.
    - intros ix Hix. rewrite Ez in Hix. destruct ix; [|destruct Hix]. unfold addr. rewrite Ez. cbn [offset cells upd].
      rewrite loc_eqb_refl. reflexivity.
    - split; [cbn; lia|]. intros p Hp. cbn [cells upd]. destruct (loc_eqb_spec p (daddr z 0)) as [->|]; [|reflexivity].
      exfalso. apply Hp. apply daddr_foot. unfold size. rewrite Ez. cbn. lia.
  Qed.

  Lemma g_accuracy_ok : forall n k ys y_s X Y s, fresh_ok s -> 0 <= n -> 1 <= k <= 2 ^ 32 ->
    tdims ys = [n; k] -> tdims y_s = [n; k] -> holds dt s ys (arg2 X) -> holds dt s y_s (arg2 Y) ->
    exists s', accuracy dt dn sc df sf ys y_s s
        = Ok (g_accuracy n (count n (fun i => negb (scan sc k (X i) =? scan sc k (Y i))))) s' /\
      nextb s <= nextb s' /\ (forall p, cells s' p = cells s p).
  Proof using Hq.
    intros n k ys y_s X Y s Hf Hn Hk Ex Ey HX HY. unfold accuracy, nth_dim. rewrite Ex, Ey. cbn [nth].
    assert (Dx : dims_ok ys) by (unfold dims_ok; rewrite Ex; repeat constructor; lia).
    assert (Dy : dims_ok y_s) by (unfold dims_ok; rewrite Ey; repeat constructor; lia).
    match goal with |- context[with_tensor [n] ?b s] =>
      destruct (with_tensor_run [n] b s Hf) as (sa & N1 & F1 & C1 & M1 & R1) end.
    set (t1 := mktensor (nextb s) 0 [n]) in *.
    match type of R1 with match (with_tensor [n] ?b sa) with _ => _ end =>
      destruct (with_tensor_run [n] b sa F1) as (s2 & N2 & F2 & C2 & M2 & R2) end.
    set (t2 := mktensor (nextb sa) 0 [n]) in *.
    assert (Mx : mapped s ys) by (eapply holds_mapped; eauto).
    assert (My : mapped s y_s) by (eapply holds_mapped; eauto).
    assert (Bl : forall t p, mapped s t -> foot t p -> fst p < nextb s) by (intros; eapply foot_fresh; eauto).
    assert (C12 : forall p, fst p < nextb s -> cells s2 p = cells s p).
    { intros p Hp. rewrite C2, C1 by lia. reflexivity. }
    assert (HX2 : holds dt s2 ys (arg2 X)) by (eapply holds_frame; [|exact HX]; intros; apply C12; eauto).
    assert (HY2 : holds dt s2 y_s (arg2 Y)) by (eapply holds_frame; [|exact HY]; intros; apply C12; eauto).
    assert (M12 : mapped s2 t1).
    { eapply mapped_frame; [|exact M1]. intros p (o & _ & ->). apply C2. cbn. lia. }
    assert (Ft1 : forall p, foot t1 p -> fst p = nextb s) by (intros p (o & _ & ->); reflexivity).
    assert (Ft2 : forall p, foot t2 p -> fst p = nextb sa) by (intros p (o & _ & ->); reflexivity).
    destruct (op_argmax_writes dn (mkitype false 32) dt sc t1 ys [n] k (arg2 X) s2) as (s3 & E3 & H3 & N3 & F3);
      auto; try (cbn; lia).
    { intros p Q1 Q2. apply Ft1 in Q1. pose proof (Bl _ _ Mx Q2). lia. }
    assert (HY3 : holds dt s3 y_s (arg2 Y)).
    { eapply holds_frame; [|exact HY2]. intros p Hp. apply F3. intros Q. apply Ft1 in Q. pose proof (Bl _ _ My Hp). lia. }
    destruct (op_argmax_writes dn (mkitype false 32) dt sc t2 y_s [n] k (arg2 Y) s3) as (s4 & E4 & H4 & N4 & F4);
      auto; try (cbn; lia).
    { eapply mapped_frame; [|exact M2]. intros p Hp. apply F3. intros Q. apply Ft1 in Q. apply Ft2 in Hp. lia. }
    { intros p Q1 Q2. apply Ft2 in Q1. pose proof (Bl _ _ My Q2). lia. }
    set (J1 := fun ix : list Z => scan sc k (row (arg2 X) ix)) in *. set (J2 := fun ix : list Z => scan sc k (row (arg2 Y) ix)) in *.
    assert (H34 : holds dn s4 t1 J1).
    { eapply holds_frame; [|exact H3]. intros p Hp. apply F4. intros Q. apply Ft1 in Hp. apply Ft2 in Q. lia. }
    assert (F4' : fresh_ok s4).
    { intros p Hp. rewrite F4, F3; [apply F2; lia| |]; intros Q; [apply Ft1 in Q|apply Ft2 in Q]; lia. }
    cbn [Datatypes.length] in E3, E4.
    rewrite (bind_ok _ _ _ _ _ E3), (bind_ok _ _ _ _ _ E4) in R2.
    match type of R2 with match (with_tensor [] ?b s4) with _ => _ end =>
      destruct (with_tensor_run [] b s4 F4') as (s5 & N5 & F5 & C5 & M5 & R5) end.
    set (t3 := mktensor (nextb s4) 0 []) in *.
    assert (H15 : holds dn s5 t1 J1).
    { eapply holds_frame; [|exact H34]. intros p Hp. apply C5. apply Ft1 in Hp. lia. }
    assert (H25 : holds dn s5 t2 J2).
    { eapply holds_frame; [|exact H4]. intros p Hp. apply C5. apply Ft2 in Hp. lia. }
    destruct (g_similarity (fun a b => negb (a =? b)) t3 t1 t2 J1 J2 s5) as (s6 & E6 & H6 & N6 & F6); auto.
    { repeat constructor; lia. }
    rewrite (bind_ok _ _ _ _ _ E6) in R5. specialize (H6 [] I). unfold addr in H6. cbn [offset tdims t3] in H6.
    rewrite (load_ok _ _ _ _ H6) in R5.
    destruct R5 as (s7 & E7 & N7 & C7). rewrite E7 in R2. destruct R2 as (s8 & E8 & N8 & C8).
    rewrite E8 in R1. destruct R1 as (s9 & E9 & N9 & C9).
    exists s9. split; [|split; [lia|]].
    - rewrite E9. f_equal. replace (size t1) with n by (unfold size; cbn; lia). cbn [tdims t1]. rewrite diffs_1. reflexivity.
    - intros p. rewrite C9. destruct (Z.eqb_spec (fst p) (nextb s)) as [Q|Q].
      { symmetry. apply Hf. lia. }
      rewrite C8. destruct (Z.eqb_spec (fst p) (nextb sa)) as [Q1|Q1].
      { symmetry. apply Hf. lia. }
      rewrite C7. destruct (Z.eqb_spec (fst p) (nextb s4)) as [Q2|Q2].
      { symmetry. apply Hf. lia. }
      assert (T3 : ~ foot t3 p) by (intros (o & _ & ->); apply Q2; reflexivity).
      rewrite F6 by exact T3. rewrite C5 by exact Q2.
      rewrite F4 by (intros Q3; apply Ft2 in Q3; lia). rewrite F3 by (intros Q3; apply Ft1 in Q3; lia).
      rewrite C2, C1 by lia. reflexivity.
  Qed.

  Lemma g_slp_writes : forall e ys xs wt b n d k X W B s, engine_ok sc e [n; d; k] ->
    tdims ys = [n; k] -> tdims xs = [n; d] -> tdims wt = [d; k] -> tdims b = [k] -> 0 <= n -> 0 <= d -> 0 <= k ->
    holds dt s xs (arg2 X) -> holds dt s wt (arg2 W) -> holds dt s b (arg1 B) -> mapped s ys ->
    disjoint ys xs -> disjoint ys wt -> disjoint ys b ->
    writes dt (slp dt sc e ys xs wt b) s ys (arg2 (g_score sc d X W B)).
  Proof using.
    intros e ys xs wt b n d k X W B s He Ey Ex Ew Eb Hn Hd Hk HX HW HB My D1 D2 D3.
    assert (Dy : dims_ok ys) by (unfold dims_ok; rewrite Ey; repeat constructor; lia).
    destruct (writes_then dt dt (op_matmul dt sc e ys xs wt) (op_bias dt hw (f_add sc) ys ys b) s ys ys
      (matmul_fn sc d (arg2 X) (arg2 W)) (arg2 (g_score sc d X W B))) as (s' & E' & N' & H' & F').
    - eapply (C26_matmul dt sc e _ _ _ n d k); eauto.
    - intros sa H1 O1. eapply writes_ext; [reflexivity| |
        eapply (C30_add_bias dt sc hw 2 1 ys ys b k (matmul_fn sc d (arg2 X) (arg2 W)) (arg1 B))]; auto.
      + left; auto.
      + rewrite Ey; reflexivity.
      + rewrite Ey; reflexivity.
      + destruct O1 as [_ Fr]. eapply holds_frame; [|exact HB]. intros p Hp. apply Fr. intros Q. exact (D3 p Q Hp).
      + eapply holds_mapped; eauto.
      + apply safe_refl.
    - exists s'. split; [exact E'|]. split; [exact H'|]. split; [exact N'|]. intros p Hp. auto.
  Qed.

  Lemma g_load : forall f N h w n k off images labels xs y_s I_ L s,
    0 <= n -> 0 <= h -> 0 <= w -> 0 <= k <= 255 -> 0 <= off -> off + n <= N ->
    tdims images = [N; h; w] -> tdims labels = [N] -> tdims xs = [n; h * w] -> tdims y_s = [n; k] ->
    holds du s images (arg3 I_) -> holds du s labels (arg1 L) -> mapped s xs -> mapped s y_s ->
    disjoint xs images -> disjoint xs labels -> disjoint y_s labels -> disjoint xs y_s ->
    exists s', load_data dt du sc f h w images labels off n xs y_s s = Ok tt s' /\
      holds dt s' xs (arg2 (fun i a => f (I_ (off + i) (a / w) (a mod w)))) /\
      holds dt s' y_s (arg2 (fun i j => if L (off + i) =? j then s1 sc else s0 sc)) /\
      nextb s <= nextb s' /\ (forall p, ~ foot xs p -> ~ foot y_s p -> cells s' p = cells s p).
  Proof using.
    intros f N h w n k off images labels xs y_s I_ L s Hn Hh Hw Hk Ho Hb Ei El Ex Ey HI HL Mx My D1 D2 D3 D4.
    destruct (load_x dt du n h w N off images Hn Hh Hw Ei Ho Hb f I_ xs s Ex Mx D1 HI) as (sa & E1 & H1 & N1 & F1).
    destruct (load_y dt sc du n N off labels Hn El Ho Hb L k y_s sa Hk Ey) as (s2 & E2 & H2 & N2 & F2); auto.
    { eapply mapped_frame; [|exact My]. intros p Hp. apply F1. intros Q. exact (D4 p Q Hp). }
    { eapply holds_frame; [|exact HL]. intros p Hp. apply F1. intros Q. exact (D2 p Q Hp). }
    exists s2. unfold load_data. rewrite (bind_ok _ _ _ _ _ E1). split; [exact E2|].
    split; [|split; [exact H2|split; [lia|]]].
    - eapply holds_frame; [|exact H1]. intros p Hp. apply F2. intros Q. exact (D4 p Hp Q).
    - intros p Q1 Q2. rewrite F2, F1; auto.
  Qed.

  (** The position of the 1. *)
  Lemma scan_onehot : forall k l, sltb sc (s0 sc) (s1 sc) = true -> sltb sc (s0 sc) (s0 sc) = false ->
    sltb sc (s1 sc) (s0 sc) = false -> sltb sc (s1 sc) (s1 sc) = false -> 0 <= l < k ->
    scan sc k (fun j => if l =? j then s1 sc else s0 sc) = l.
  Proof using.
    intros k l O01 O00 O10 O11 Hl. unfold scan. set (v := fun j => if l =? j then s1 sc else s0 sc).
    set (g := fun (b : Z * T) i => if sltb sc (snd b) (v (i + 1)) then (i + 1, v (i + 1)) else b).
    assert (G : forall m : nat, fold_left g (zrange (Z.of_nat m)) (0, v 0) = if l <=? Z.of_nat m then (l, s1 sc) else (0, s0 sc)).
    { induction m as [|m IH].
      - cbn. unfold v. destruct (Z.eqb_spec l 0) as [->|]; [reflexivity|]. replace (l <=? 0) with false by lia. reflexivity.
      - rewrite zrange_S, fold_left_app, IH. cbn [fold_left]. unfold g.
        destruct (l <=? Z.of_nat m) eqn:Q; cbn [snd].
        + replace (l <=? Z.of_nat (S m)) with true by lia. unfold v. destruct (l =? _); rewrite ?O11, ?O10; reflexivity.
        + unfold v. destruct (Z.eqb_spec l (Z.of_nat m + 1)) as [E|E].
          * rewrite O01. replace (l <=? Z.of_nat (S m)) with true by lia. rewrite <- E. reflexivity.
          * rewrite O00. replace (l <=? Z.of_nat (S m)) with false by lia. reflexivity. }
    specialize (G (Z.to_nat (k - 1))). rewrite Z2Nat.id in G by lia. change (fst (fold_left g (zrange (k - 1)) (0, v 0)) = l).
    rewrite G. replace (l <=? k - 1) with true by lia. reflexivity.
  Qed.

  Context (O01 : sltb sc (s0 sc) (s1 sc) = true) (O00 : sltb sc (s0 sc) (s0 sc) = false)
          (O10 : sltb sc (s1 sc) (s0 sc) = false) (O11 : sltb sc (s1 sc) (s1 sc) = false).

  Definition g_wrong (f : Z -> T) (N h w k : Z) (I_ : Z -> Z -> Z -> Z) (L : Z -> Z) (W : Z -> Z -> T) (B : Z -> T) : Z :=
    count N (fun i => negb (scan sc k (g_score sc (h * w) (fun i a => f (I_ i (a / w) (a mod w))) W B i) =? L i)).

  Lemma g_test_ok : forall e f N h w k images labels wt b I_ L W B s,
    0 <= N -> 0 <= h -> 0 <= w -> 1 <= k <= 255 -> engine_ok sc e [N; h * w; k] ->
    tdims images = [N; h; w] -> tdims labels = [N] -> tdims wt = [h * w; k] -> tdims b = [k] -> fresh_ok s ->
    holds du s images (arg3 I_) -> holds du s labels (arg1 L) -> holds dt s wt (arg2 W) -> holds dt s b (arg1 B) ->
    (forall i, 0 <= i < N -> 0 <= L i < k) ->
    exists s', test_slp_model dt du dn sc e df sf f k images labels wt b s
        = Ok (g_accuracy N (g_wrong f N h w k I_ L W B)) s' /\
      nextb s <= nextb s' /\ (forall p, cells s' p = cells s p).
  Proof using Hq O01 O00 O10 O11.
    intros e f N h w k images labels wt b I_ L W B s HN Hh Hw Hk He Ei El Ew Eb Hf HI HL HW HB Lk. unfold g_wrong.
    set (d := h * w) in *. assert (Hd : 0 <= d) by (unfold d; nia).
    assert (Mw : mapped s wt) by (eapply holds_mapped; eauto; unfold dims_ok; rewrite Ew; repeat constructor; lia).
    assert (Mb : mapped s b) by (eapply holds_mapped; eauto; unfold dims_ok; rewrite Eb; repeat constructor; lia).
    assert (Mi : mapped s images) by (eapply holds_mapped; eauto; unfold dims_ok; rewrite Ei; repeat constructor; lia).
    assert (Ml : mapped s labels) by (eapply holds_mapped; eauto; unfold dims_ok; rewrite El; repeat constructor; lia).
    unfold test_slp_model. cbv zeta. unfold nth_dim. rewrite Ei. cbn [nth]. fold d.
    match goal with |- context[with_vars ?l ?E ?k s] =>
      destruct (with_vars_run l E k s Hf ltac:(repeat constructor; cbn; intuition discriminate))
        as (E' & sa & (N1 & F1 & C1 & L1 & K1 & B1) & R1) end.
    destruct (L1 XS [N; d] ltac:(cbn; tauto)) as (Bx & Ex & Mx).
    destruct (L1 YS [N; k] ltac:(cbn; tauto)) as (By & Ey & My).
    destruct (L1 Y_S [N; k] ltac:(cbn; tauto)) as (Bz & Ez & Mz).
    assert (Dxy : disjoint (E' XS) (E' YS)) by (apply blk_disjoint, B1; cbn; [tauto|tauto|discriminate]).
    assert (Dxz : disjoint (E' XS) (E' Y_S)) by (apply blk_disjoint, B1; cbn; [tauto|tauto|discriminate]).
    assert (Dyz : disjoint (E' YS) (E' Y_S)) by (apply blk_disjoint, B1; cbn; [tauto|tauto|discriminate]).
    assert (Ewt : E' W_ = wt) by (rewrite K1; [reflexivity|cbn; intuition discriminate]).
    assert (Ebt : E' B_ = b) by (rewrite K1; [reflexivity|cbn; intuition discriminate]).
    rewrite Ewt, Ebt in R1. clear K1 B1 L1.
    assert (Old : forall t p, mapped s t -> foot t p -> fst p < nextb s) by (intros; eapply foot_fresh; eauto).
    assert (Dn : forall v t, nextb s <= tblk (E' v) -> mapped s t -> disjoint (E' v) t).
    { intros v t Q Mt p (o & _ & ->) P2. pose proof (Old _ _ Mt P2). cbn in *. lia. }
    assert (Kp : forall T (dt : dtype V T) t X, mapped s t -> holds dt s t X -> holds dt sa t X).
    { intros T' dt' t X Mt H. eapply holds_frame; [|exact H]. intros p Hp. apply C1. eauto. }
    destruct (g_load f N h w N k 0 images labels (E' XS) (E' Y_S) I_ L sa) as (s2 & E2 & HX & HY & N2 & F2);
      try lia; auto; try (apply Dn; [lia|assumption]).
    rewrite (bind_ok _ _ _ _ _ E2) in R1.
    assert (K2 : forall T (dt : dtype V T) t X, mapped s t -> holds dt sa t X -> holds dt s2 t X).
    { intros T' dt' t X Mt H. eapply holds_frame; [|exact H]. intros p Hp. apply F2; intros (o & _ & Q); subst p.
      - pose proof (Old _ _ Mt Hp). cbn in *. lia.
      - pose proof (Old _ _ Mt Hp). cbn in *. lia. }
    destruct (g_slp_writes e (E' YS) (E' XS) wt b N d k _ W B s2 He Ey Ex Ew Eb ltac:(lia) Hd ltac:(lia) HX) as (s3 & E3 & HS & N3 & F3);
      auto; try (apply Dn; [lia|assumption]).
    { eapply mapped_frame; [|exact My]. intros p Hp. apply F2; intros Q; [exact (Dxy p Q Hp)|exact (Dyz p Hp Q)]. }
    { apply disjoint_sym, Dxy. }
    rewrite (bind_ok _ _ _ _ _ E3) in R1.
    assert (F3' : fresh_ok s3).
    { intros p Hp. rewrite F3, F2; [apply F1; lia| | |]; intros (o & _ & ->); cbn in Hp; lia. }
    destruct (g_accuracy_ok N k (E' YS) (E' Y_S) _ _ s3 F3' HN ltac:(lia) Ey Ez HS
      ltac:(eapply holds_frame; [|exact HY]; intros p Hp; apply F3; intros Q; exact (Dyz p Q Hp)))
      as (s4 & E4 & N4 & F4).
    rewrite E4 in R1. destruct R1 as (s' & R1 & Nr & Cr).
    exists s'. split; [|split].
    - rewrite R1. do 2 f_equal. unfold count. do 2 f_equal. apply filter_ext_in. intros i Hi. apply in_zrange in Hi.
      change (0 + i) with i. rewrite (scan_onehot k (L i)) by auto. reflexivity.
    - lia.
    - intros p. rewrite Cr. destruct ((nextb s <=? fst p) && (fst p <? nextb sa)) eqn:Q.
      + symmetry. apply Hf. lia.
      + assert (G : forall v, nextb s <= tblk (E' v) < nextb sa -> ~ foot (E' v) p).
        { intros v Hv (o & _ & ->). cbn in Q. lia. }
        rewrite F4, F3, F2 by auto.
        destruct (Z_lt_dec (fst p) (nextb s)) as [Q1|Q1]; [apply C1; auto|].
        rewrite (F1 p) by lia. symmetry. apply Hf. lia.
  Qed.
End Test.

(** ** Runs that leave nothing behind *)

(** The outcome [o], in a state with the same memory. *)
Definition ends {V A} (m : M V A) (s : st V) (o : A + exn) : Prop :=
  exists s', m s = (match o with inl a => Ok a s' | inr e => Throw e s' end) /\ nextb s <= nextb s' /\ forall p, cells s' p = cells s p.

Lemma ends_two : forall {V A} d1 d2 (body : tensor -> tensor -> M V A) (s : st V) o, fresh_ok s ->
  (forall t1 t2 s2, tdims t1 = d1 -> tdims t2 = d2 -> tblk t1 = nextb s -> tblk t2 = nextb s + 1 ->
     mapped s2 t1 -> mapped s2 t2 -> fresh_ok s2 -> nextb s2 = nextb s + 2 -> (forall p, fst p < nextb s -> cells s2 p = cells s p) ->
     exists s3, body t1 t2 s2 = (match o with inl a => Ok a s3 | inr e => Throw e s3 end) /\ nextb s2 <= nextb s3 /\
       forall p, ~ foot t1 p -> ~ foot t2 p -> cells s3 p = cells s2 p) ->
  ends (with_tensor d1 (fun t1 => with_tensor d2 (fun t2 => body t1 t2))) s o.
Proof.
  intros V A d1 d2 body s o Hf H.
  destruct (with_tensor_run d1 (fun t1 => with_tensor d2 (fun t2 => body t1 t2)) s Hf) as (sa & N1 & F1 & C1 & M1 & R1).
  set (t1 := mktensor (nextb s) 0 d1) in *.
  destruct (with_tensor_run d2 (fun t2 => body t1 t2) sa F1) as (sb & N2 & F2 & C2 & M2 & R2).
  set (t2 := mktensor (nextb sa) 0 d2) in *.
  assert (M1' : mapped sb t1).
  { eapply mapped_frame; [|exact M1]. intros p (o' & _ & ->). apply C2. cbn. lia. }
  destruct (H t1 t2 sb eq_refl eq_refl eq_refl N1 M1' M2 F2 ltac:(lia)) as (s3 & E3 & N3 & C3).
  { intros p Hp. rewrite C2, C1 by lia. reflexivity. }
  assert (K : forall s4 s5 : st V, (forall p, cells s4 p = if fst p =? nextb sa then Unmapped else cells s3 p) ->
    (forall p, cells s5 p = if fst p =? nextb s then Unmapped else cells s4 p) -> forall p, cells s5 p = cells s p).
  { intros s4 s5 H4 H5 p. rewrite H5. destruct (Z.eqb_spec (fst p) (nextb s)) as [Q|Q]; [symmetry; apply Hf; lia|].
    rewrite H4. destruct (Z.eqb_spec (fst p) (nextb sa)) as [Q2|Q2]; [symmetry; apply Hf; lia|].
    rewrite C3; [rewrite C2, C1 by lia; reflexivity| |]; intros (o' & _ & ->); cbn in *; lia. }
  destruct o as [a|ex]; rewrite E3 in R2; destruct R2 as (s4 & E4 & N4 & C4); rewrite E4 in R1; destruct R1 as (s5 & E5 & N5 & C5);
    exists s5; (split; [exact E5|]); (split; [lia|]); eapply K; eauto.
Qed.

Lemma ends_dataset : forall {V A} (m : M V (tensor * tensor)) (k : tensor * tensor -> M V A) (s : st V) im lb sa o, fresh_ok s ->
  m s = Ok (im, lb) sa -> grown s sa [im; lb] -> ends (k (im, lb)) sa o -> ends (with_dataset m k) s o.
Proof.
  intros V A m k s im lb sa o Hf E G (s2 & E2 & N2 & C2).
  assert (G2 : grown s s2 [im; lb]).
  { destruct G as (F & N & ND & A0 & K). split; [intros p Hp; rewrite C2; apply F; lia|]. split; [lia|]. split; [exact ND|]. split.
    - eapply Forall_impl; [|exact A0]. intros t (B & Z0 & M). split; [lia|]. split; [exact Z0|]. intros p Hp. rewrite C2. apply M, Hp.
    - intros p Hp. rewrite C2. apply K, Hp. }
  exists (release [im; lb] s2). unfold with_dataset. rewrite E, E2. cbn [fst snd].
  split; [destruct o; reflexivity|]. split.
  - assert (Nb : forall ts (x : st V), nextb (release ts x) = nextb x) by (induction ts as [|t ts IH]; intros x; [reflexivity|exact (IH (dealloc (tblk t) x))]).
    rewrite Nb. destruct G2 as (_ & N & _). exact N.
  - apply grown_release_all; auto.
Qed.

Lemma ends_bind : forall {V A B} (m : M V A) (k : A -> M V B) (s : st V) a o, 
  ends m s (inl a) -> (forall s', nextb s <= nextb s' -> (forall p, cells s' p = cells s p) -> ends (k a) s' o) -> ends (bind m k) s o.
Proof.
  intros V A B m k s a o (sa & E & N & C) H. destruct (H sa N C) as (s2 & E2 & N2 & C2).
  exists s2. rewrite (bind_ok _ _ _ _ _ E). split; [exact E2|]. split; [lia|]. intros p. rewrite C2. apply C.
Qed.

Lemma ends_bind_throw : forall {V A B} (m : M V A) (k : A -> M V B) (s : st V) e, ends m s (inr e) -> ends (bind m k) s (inr e).
Proof. intros V A B m k s e (sa & E & N & C). exists sa. split; [unfold bind; rewrite E; reflexivity|auto]. Qed.

(** ** The blocks of the program *)

Definition put (fs : filesystem) (name bytes : list Z) : filesystem :=
  fun n => if list_eq_dec Z.eq_dec n name then Some bytes else fs n.

Section Blocks.
  Context {V T F : Type} (dt : dtype V T) (du dn : dtype V Z) (df : dtype V F) (sc : scalar T) (sf : scalar F).
  Context (exp_ log_ : T -> T) (eps : T) (div_n : T -> Z -> outcome T) (e : engine) (f : Z -> T) (half inv : T).
  Context (cd : codec T) (code : Z) (can_open : list Z -> bool) (system : filesystem -> filesystem) (fuel : nat).
  Context (h w k batch N N2 : Z).
  Context (quo : F -> F -> F) (Hq : forall a b, sdiv sf a b = Ret (quo a b)).
  Context (O01 : sltb sc (s0 sc) (s1 sc) = true) (O00 : sltb sc (s0 sc) (s0 sc) = false)
          (O10 : sltb sc (s1 sc) (s0 sc) = false) (O11 : sltb sc (s1 sc) (s1 sc) = false).
  Context (Hh : 0 <= h) (Hw : 0 <= w) (Hd : h * w < 2 ^ 32) (Hk : 1 <= k <= 255) (HN : 0 <= N) (HN2 : 0 <= N2)
          (He : engine_ok sc e [N2; h * w; k]).
  Context (I2 : Z -> Z -> Z -> Z) (L2 : Z -> Z) (HL : forall i, 0 <= i < N2 -> 0 <= L2 i < k).
  Notation acc W B := (g_accuracy sf quo N2 (g_wrong sc f N2 h w k I2 L2 W B)).
  Notation test_model := (test_slp_model dt du dn sc e df sf f k).

  Definition data_at (n : Z) (s : st V) (d : tensor * tensor) (I_ : Z -> Z -> Z -> Z) (L : Z -> Z) : Prop :=
    tdims (fst d) = [n; h; w] /\ tdims (snd d) = [n] /\ holds du s (fst d) (arg3 I_) /\ holds du s (snd d) (arg1 L).

  Lemma data_mapped : forall n s d I_ L, 0 <= n -> data_at n s d I_ L -> mapped s (fst d) /\ mapped s (snd d).
  Proof using Hh Hw. clear O01 O00 O10 O11.
    intros n s d I_ L Hn (E1 & E2 & H1 & H2). split; eapply holds_mapped; eauto; unfold dims_ok; [rewrite E1|rewrite E2]; repeat constructor; lia.
  Qed.

  Lemma data_frame : forall n s s' d I_ L, 0 <= n -> fresh_ok s -> (forall p, fst p < nextb s -> cells s' p = cells s p) ->
    data_at n s d I_ L -> data_at n s' d I_ L.
  Proof using Hh Hw. clear O01 O00 O10 O11.
    intros n s s' d I_ L Hn Hf K H. destruct (data_mapped n s d I_ L Hn H) as (M1 & M2).
    destruct H as (E1 & E2 & H1 & H2). split; [exact E1|]. split; [exact E2|].
    split; [eapply holds_frame; [|exact H1]|eapply holds_frame; [|exact H2]]; intros p Hp; apply K.
    - exact (foot_fresh _ s p Hf M1 Hp).
    - exact (foot_fresh _ s p Hf M2 Hp).
  Qed.

  (** The parameters training ends with. *)
  Definition trains (I_ : Z -> Z -> Z -> Z) (L : Z -> Z) (W : Z -> Z -> T) (B : Z -> T) : Prop :=
    forall images labels wt b s, data_at N s (images, labels) I_ L -> tdims wt = [h * w; k] -> tdims b = [k] -> fresh_ok s ->
      holds dt s wt (arg2 (fun _ _ => half)) -> holds dt s b (arg1 (fun _ => s0 sc)) ->
      disjoint wt b -> disjoint wt images -> disjoint wt labels -> disjoint b images -> disjoint b labels ->
      exists s', train_slp_model dt du sc exp_ log_ eps div_n e f half inv k images labels wt b batch s = Ok tt s' /\
        holds dt s' wt (arg2 W) /\ holds dt s' b (arg1 B) /\ nextb s <= nextb s' /\
        (forall p, ~ foot wt p -> ~ foot b p -> cells s' p = cells s p).

  Lemma writefile_put : forall fs name x X (s : st V), u32_dims (tdims x) -> holds dt s x X -> can_open name = true ->
    op_writefile dt cd code can_open fs name x s = Ok (put fs name (idx_file cd code (tdims x) X)) s.
  Proof using. clear O01 O00 O10 O11.
    intros fs name x X s U HX Ho. destruct (C53_file V T dt cd code can_open fs name x X s U HX Ho) as (fs' & E & F1 & _).
    unfold op_writefile in *. rewrite Ho in *. unfold bind in *. destruct (serialize dt cd code x s) as [c sa|ex sa|]; try discriminate.
    unfold ret in *. injection E as E1 E2. rewrite <- E1 in F1. destruct (list_eq_dec Z.eq_dec name name) as [_|Ne]; [|congruence].
    injection F1 as ->. rewrite E2. reflexivity.
  Qed.

  Notation files fs W B :=
    (put (put fs (str "w.idx") (idx_file cd code [h * w; k] (arg2 W))) (str "b.idx") (idx_file cd code [k] (arg1 B))).

  Lemma u32_w : u32_dims [h * w; k].
  Proof using Hh Hw Hd Hk. clear O01 O00 O10 O11. unfold u32_dims. repeat constructor; nia. Qed.
  Lemma u32_b : u32_dims [k].
  Proof using Hk. clear O01 O00 O10 O11. unfold u32_dims. repeat constructor; lia. Qed.

  Lemma test_runs : forall test wt b W B s, data_at N2 s test I2 L2 -> tdims wt = [h * w; k] -> tdims b = [k] -> fresh_ok s ->
    holds dt s wt (arg2 W) -> holds dt s b (arg1 B) -> ends (test_model (fst test) (snd test) wt b) s (inl (acc W B)).
  Proof using Hq O01 O00 O10 O11 Hh Hw Hk HN2 He HL.
    intros [im lb] wt b W B s (E1 & E2 & H1 & H2) Ew Eb Hf HW HB. cbn [fst snd] in *.
    destruct (g_test_ok dt du dn df sc sf quo Hq O01 O00 O10 O11 e f N2 h w k im lb wt b I2 L2 W B s) as (s' & E & Nb & C); auto.
    exists s'. auto.
  Qed.

  (** The two parameters after their allocation and a call of fill on each. *)
  Lemma filled : forall v1 v2 wt b (s : st V), tdims wt = [h * w; k] -> tdims b = [k] -> tblk wt <> tblk b -> mapped s wt -> mapped s b ->
    fresh_ok s -> nextb s > tblk wt -> nextb s > tblk b ->
    exists s', (forall A (m : M V A), (fill dt wt v1 ;;; fill dt b v2 ;;; m) s = m s') /\ fresh_ok s' /\ nextb s' = nextb s /\
      holds dt s' wt (fun _ => v1) /\ holds dt s' b (fun _ => v2) /\ (forall p, ~ foot wt p -> ~ foot b p -> cells s' p = cells s p).
  Proof using Hh Hw Hk. clear O01 O00 O10 O11.
    intros v1 v2 wt b s Ew Eb Ne Mw Mb Hf Nw Nb.
    assert (Dw : dims_ok wt) by (unfold dims_ok; rewrite Ew; repeat constructor; nia).
    assert (Db : dims_ok b) by (unfold dims_ok; rewrite Eb; repeat constructor; lia).
    assert (Dj : disjoint wt b) by (apply blk_disjoint; exact Ne).
    destruct (fill_holds dt wt v1 s Dw Mw) as (sa & E1 & N1 & H1 & F1).
    destruct (fill_holds dt b v2 sa Db) as (sb & E2 & N2' & H2 & F2).
    { eapply mapped_frame; [|exact Mb]. intros p Hp. apply F1. intros Q. exact (Dj p Q Hp). }
    exists sb. split; [intros A m; rewrite (bind_ok _ _ _ _ _ E1), (bind_ok _ _ _ _ _ E2); reflexivity|].
    assert (K : forall p, ~ foot wt p -> ~ foot b p -> cells sb p = cells s p) by (intros p P1 P2; rewrite F2, F1; auto).
    split; [|split; [lia|split; [|split; [exact H2|exact K]]]].
    - intros p Hp. rewrite K; [apply Hf; lia| |]; intros (o & _ & ->); cbn in Hp; lia.
    - eapply holds_frame; [|exact H1]. intros p Hp. apply F2. intros Q. exact (Dj p Hp Q).
  Qed.

  Lemma new_disjoint : forall t u (s : st V), mapped s u -> fresh_ok s -> nextb s <= tblk t -> disjoint t u.
  Proof using. clear O01 O00 O10 O11. intros t u s M Hf Hb p (o & _ & ->) Q. pose proof (foot_fresh u s _ Hf M Q). cbn in *. lia. Qed.

  Lemma train_block_run : forall fs train test I1 L1 W B s, fresh_ok s -> data_at N s train I1 L1 -> data_at N2 s test I2 L2 ->
    trains I1 L1 W B ->
    (can_open (str "w.idx") = true -> can_open (str "b.idx") = true ->
     ends (train_block dt du dn df sc sf exp_ log_ eps div_n e f half inv cd code can_open h w k batch fs train test) s
       (inl ([acc W B; acc W B], files fs W B))) /\
    (can_open (str "w.idx") = false \/ can_open (str "b.idx") = false ->
     ends (train_block dt du dn df sc sf exp_ log_ eps div_n e f half inv cd code can_open h w k batch fs train test) s (inr RuntimeError)).
  Proof using Hq O01 O00 O10 O11 Hh Hw Hd Hk HN HN2 He HL.
    intros fs train test I1 L1 W B s Hf HT HS TR.
    destruct (data_mapped N s train I1 L1 HN HT) as (Mi & Ml).
    assert (G : forall o, (forall wt b s3, tdims wt = [h * w; k] -> tdims b = [k] -> holds dt s3 wt (arg2 W) -> holds dt s3 b (arg1 B) ->
        fresh_ok s3 -> data_at N2 s3 test I2 L2 ->
        ends (a1 <- test_model (fst test) (snd test) wt b ;;
              fs <- op_writefile dt cd code can_open fs (str "w.idx") wt ;;
              fs <- op_writefile dt cd code can_open fs (str "b.idx") b ;;
              a2 <- test_model (fst test) (snd test) wt b ;;
              ret ([a1; a2], fs)) s3 o) ->
      ends (train_block dt du dn df sc sf exp_ log_ eps div_n e f half inv cd code can_open h w k batch fs train test) s o).
    { intros o H. unfold train_block. apply ends_two; [exact Hf|].
      intros wt b s2 Ew Eb Bw Bb Mw Mb F2 N2' K2.
      destruct (filled half (s0 sc) wt b s2 Ew Eb ltac:(lia) Mw Mb F2 ltac:(lia) ltac:(lia)) as (s3 & E3 & F3 & N3 & HW & HB & K3).
      assert (Dj : disjoint wt b) by (apply blk_disjoint; lia).
      assert (K23 : forall p, fst p < nextb s -> cells s3 p = cells s p).
      { intros p Hp. rewrite K3; [apply K2, Hp| |]; intros (o' & _ & ->); cbn in Hp; lia. }
      destruct train as [im lb]. cbn [fst snd] in *.
      destruct (TR im lb wt b s3) as (s4 & E4 & HW4 & HB4 & N4 & K4); auto.
      { exact (data_frame N s s3 _ I1 L1 HN Hf K23 HT). }
      { eapply new_disjoint; [exact Mi|exact Hf|lia]. }
      { eapply new_disjoint; [exact Ml|exact Hf|lia]. }
      { eapply new_disjoint; [exact Mi|exact Hf|lia]. }
      { eapply new_disjoint; [exact Ml|exact Hf|lia]. }
      assert (K34 : forall p, fst p < nextb s -> cells s4 p = cells s p).
      { intros p Hp. rewrite K4; [apply K23, Hp| |]; intros (o' & _ & ->); cbn in Hp; lia. }
      assert (F4 : fresh_ok s4).
      { intros p Hp. rewrite K4; [apply F3; lia| |]; intros (o' & _ & ->); cbn in Hp; lia. }
      destruct (H wt b s4 Ew Eb HW4 HB4 F4 (data_frame N2 s s4 _ I2 L2 HN2 Hf K34 HS)) as (s5 & E5 & N5 & K5).
      exists s5. rewrite E3, (bind_ok _ _ _ _ _ E4). split; [exact E5|]. split; [lia|].
      intros p P1 P2. rewrite K5, K4, K3; auto. }
    split.
    - intros O1 O2. apply G. intros wt b s3 Ew Eb HW HB F3 D3.
      eapply ends_bind; [apply test_runs; eassumption|]. intros s4 N4 K4.
      assert (HW4 : holds dt s4 wt (arg2 W)) by (eapply holds_frame; [|exact HW]; auto).
      assert (HB4 : holds dt s4 b (arg1 B)) by (eapply holds_frame; [|exact HB]; auto).
      assert (F4 : fresh_ok s4) by (intros p Hp; rewrite K4; apply F3; lia).
      unfold ends. erewrite (bind_ok _ _ _ _ _ (writefile_put fs (str "w.idx") wt (arg2 W) s4 ltac:(rewrite Ew; exact u32_w) HW4 O1)).
      erewrite (bind_ok _ _ _ _ _ (writefile_put _ (str "b.idx") b (arg1 B) s4 ltac:(rewrite Eb; exact u32_b) HB4 O2)).
      rewrite Ew, Eb.
      assert (D4 : data_at N2 s4 test I2 L2) by (apply (data_frame N2 s3 s4); auto).
      destruct (test_runs test wt b W B s4 D4 Ew Eb F4 HW4 HB4) as (s5 & E5 & N5 & K5). rewrite (bind_ok _ _ _ _ _ E5).
      exists s5. split; [reflexivity|]. auto.
    - intros O. apply G. intros wt b s3 Ew Eb HW HB F3 D3.
      eapply ends_bind; [apply test_runs; eassumption|]. intros s4 N4 K4.
      assert (HW4 : holds dt s4 wt (arg2 W)) by (eapply holds_frame; [|exact HW]; auto).
      destruct (can_open (str "w.idx")) eqn:O1.
      + destruct O as [O|O]; [discriminate|].
        unfold ends. erewrite (bind_ok _ _ _ _ _ (writefile_put fs (str "w.idx") wt (arg2 W) s4 ltac:(rewrite Ew; exact u32_w) HW4 O1)).
        exists s4. split; [|split; [lia|reflexivity]]. unfold bind at 1. unfold op_writefile. rewrite O. reflexivity.
      + exists s4. split; [|split; [lia|reflexivity]]. unfold bind at 1. unfold op_writefile. rewrite O1. reflexivity.
  Qed.

  (** An archive in which the last members called [name] hold these tensors. *)
  Definition archived (ms : list member) (name : list Z) (ds : list Z) (X : list Z -> T) : Prop :=
    exists l m r, ms = l ++ m :: r /\ m_name m = name /\ ~ In name (map m_name r) /\ m_data m = idx_file cd code ds X.

  Lemma archived_reads : forall fs ms kk name ds X y (s : st V), codec_ok cd -> fs (str "params.idx.tar") = Some (archive ms kk) ->
    Forall member_ok ms -> (List.length ms < fuel)%nat -> archived ms (str name) ds X -> tdims y = ds -> u32_dims ds -> mapped s y ->
    exists s', tar_init dt cd code fuel fs (str "params.idx.tar") name y s = Ok tt s' /\ holds dt s' y X /\ only_changes y s s'.
  Proof using. clear O01 O00 O10 O11.
    intros fs ms kk name ds X y s C Fs Ok Fu (l & m & r & -> & Em & Ni & Ed) Ey U M.
    destruct (C56_found V T dt cd code fs (str "params.idx.tar") l m r kk fuel X y s Fs Ok Fu) as (s' & E & H); auto.
    { rewrite Em. exact Ni. }
    { rewrite Ey. exact Ed. }
    { rewrite Ey. exact U. }
    exists s'. split; [|exact H]. unfold tar_init. unfold str in Em at 1. rewrite <- Em, E. reflexivity.
  Qed.

  Lemma test_block_run : forall fs test ms kk W B s, codec_ok cd -> fresh_ok s -> data_at N2 s test I2 L2 ->
    fs (str "params.idx.tar") = Some (archive ms kk) -> Forall member_ok ms -> (List.length ms < fuel)%nat ->
    archived ms (str "w.idx") [h * w; k] (arg2 W) -> archived ms (str "b.idx") [k] (arg1 B) ->
    ends (test_block dt du dn df sc sf e f cd code fuel h w k fs test) s (inl (acc W B)).
  Proof using Hq O01 O00 O10 O11 Hh Hw Hd Hk HN2 He HL.
    intros fs test ms kk W B s C Hf HS Fs Ok Fu AW AB. unfold test_block. apply ends_two; [exact Hf|].
    intros wt b s2 Ew Eb Bw Bb Mw Mb F2 N2' K2.
    destruct (filled (s0 sc) (s0 sc) wt b s2 Ew Eb ltac:(lia) Mw Mb F2 ltac:(lia) ltac:(lia)) as (s3 & E3 & F3 & N3 & HW & HB & K3).
    assert (Dj : disjoint wt b) by (apply blk_disjoint; lia).
    assert (Dw : dims_ok wt) by (unfold dims_ok; rewrite Ew; repeat constructor; nia).
    assert (Db : dims_ok b) by (unfold dims_ok; rewrite Eb; repeat constructor; lia).
    destruct (archived_reads fs ms kk "w.idx" [h * w; k] (arg2 W) wt s3) as (s4 & E4 & HW4 & N4 & K4); auto.
    { exact u32_w. }
    { eapply holds_mapped; eauto. }
    destruct (archived_reads fs ms kk "b.idx" [k] (arg1 B) b s4) as (s5 & E5 & HB5 & N5 & K5); auto.
    { exact u32_b. }
    { eapply mapped_frame; [|eapply holds_mapped; eauto]. intros p Hp. apply K4. intros Q. exact (Dj p Q Hp). }
    assert (KK : forall p, ~ foot wt p -> ~ foot b p -> cells s5 p = cells s2 p) by (intros p P1 P2; rewrite K5, K4, K3; auto).
    assert (K25 : forall p, fst p < nextb s -> cells s5 p = cells s p).
    { intros p Hp. rewrite KK; [apply K2, Hp| |]; intros (o' & _ & ->); cbn in Hp; lia. }
    destruct (test_runs test wt b W B s5 (data_frame N2 s s5 _ I2 L2 HN2 Hf K25 HS) Ew Eb) as (s6 & E6 & N6 & K6); auto.
    { intros p Hp. rewrite KK; [apply F2; lia| |]; intros (o' & _ & ->); cbn in Hp; lia. }
    { eapply holds_frame; [|exact HW4]. intros p Hp. apply K5. intros Q. exact (Dj p Hp Q). }
    exists s6. rewrite E3, (bind_ok _ _ _ _ _ E4), (bind_ok _ _ _ _ _ E5). split; [exact E6|]. split; [lia|].
    intros p P1 P2. rewrite K6. apply KK; auto.
  Qed.

  Lemma test_block_missing : forall fs test (s : st V), fresh_ok s ->
    (fs (str "params.idx.tar") = None \/ exists c, fs (str "params.idx.tar") = Some c /\ Z.of_nat (List.length c) mod 512 <> 0) ->
    ends (test_block dt du dn df sc sf e f cd code fuel h w k fs test) s (inr RuntimeError).
  Proof using Hh Hw Hk. clear O01 O00 O10 O11.
    intros fs test s Hf Hn. unfold test_block. apply ends_two; [exact Hf|].
    intros wt b s2 Ew Eb Bw Bb Mw Mb F2 N2' K2.
    destruct (filled (s0 sc) (s0 sc) wt b s2 Ew Eb ltac:(lia) Mw Mb F2 ltac:(lia) ltac:(lia)) as (s3 & E3 & F3 & N3 & HW & HB & K3).
    exists s3. rewrite E3. split; [|split; [lia|exact K3]]. unfold bind at 1. unfold tar_init.
    rewrite (C56_open V T dt cd code fs _ fuel _ wt s3 Hn). reflexivity.
  Qed.

  (** The program, for any way of loading the two data sets. *)
  Definition loads (m : M V (tensor * tensor)) (n : Z) (I_ : Z -> Z -> Z -> Z) (L : Z -> Z) : Prop :=
    forall s, fresh_ok s -> exists d s', m s = Ok d s' /\ grown s s' [fst d; snd d] /\ data_at n s' d I_ L.

  Definition loads_fail (m : M V (tensor * tensor)) : Prop := forall s, fresh_ok s ->
    exists s', m s = Throw RuntimeError s' /\ nextb s <= nextb s' /\ forall p, cells s' p = cells s p.

  Notation program := (slp_program dt du dn df sc sf exp_ log_ eps div_n e f half inv cd code can_open system fuel h w k batch).

  Lemma with_loaded : forall m n I_ L A (body : tensor * tensor -> M V A) s o, 0 <= n -> fresh_ok s -> loads m n I_ L ->
    (forall d s', fresh_ok s' -> nextb s <= nextb s' -> (forall p, fst p < nextb s -> cells s' p = cells s p) -> data_at n s' d I_ L ->
       ends (body d) s' o) -> ends (with_dataset m body) s o.
  Proof using. clear O01 O00 O10 O11.
    intros m n I_ L A body s o Hn Hf Hm H. destruct (Hm s Hf) as ([im lb] & s' & E & G & D). cbn [fst snd] in G.
    eapply ends_dataset; eauto. apply H; auto; try apply G.
    intros p Hp. destruct G as (_ & _ & _ & A0 & K). apply K. cbn [map In]. rewrite !Forall_cons_iff in A0. cbn. lia.
  Qed.

  Lemma program_run : forall fs ltr lte I1 L1 W B s o, fresh_ok s -> loads ltr N I1 L1 -> loads lte N2 I2 L2 -> trains I1 L1 W B ->
    can_open (str "w.idx") = true -> can_open (str "b.idx") = true ->
    (forall test s', fresh_ok s' -> data_at N2 s' test I2 L2 ->
       ends (test_block dt du dn df sc sf e f cd code fuel h w k (system (files fs W B)) test) s' o) ->
    ends (program fs ltr lte) s
      (match o with inl a3 => inl ([acc W B; acc W B; a3], system (files fs W B)) | inr ex => inr ex end).
  Proof using Hq O01 O00 O10 O11 Hh Hw Hd Hk HN HN2 He HL.
    intros fs ltr lte I1 L1 W B s o Hf H1 H2 TR O1 O2 H3. unfold slp_program.
    apply (with_loaded ltr N I1 L1); auto. intros train sa Fa Na Ka Da.
    apply (with_loaded lte N2 I2 L2); auto. intros test sb Fb Nb Kb Db.
    assert (Da' : data_at N sb train I1 L1) by (exact (data_frame N sa sb _ I1 L1 HN Fa Kb Da)).
    destruct (train_block_run fs train test I1 L1 W B sb Fb Da' Db TR) as (R & _). specialize (R O1 O2).
    eapply ends_bind; [exact R|]. intros sd Nd Kd. cbn [fst snd]. cbv zeta.
    assert (Fd : fresh_ok sd) by (intros p Hp; rewrite Kd; apply Fb; lia).
    assert (Dd : data_at N2 sd test I2 L2) by (apply (data_frame N2 sb sd); auto).
    specialize (H3 test sd Fd Dd). destruct o as [a3|ex].
    - destruct H3 as (s4 & E4 & N4 & K4). exists s4. rewrite (bind_ok _ _ _ _ _ E4). split; [reflexivity|auto].
    - apply ends_bind_throw, H3.
  Qed.

  Lemma program_unwritable : forall fs ltr lte I1 L1 W B s, fresh_ok s -> loads ltr N I1 L1 -> loads lte N2 I2 L2 -> trains I1 L1 W B ->
    can_open (str "w.idx") = false \/ can_open (str "b.idx") = false -> ends (program fs ltr lte) s (inr RuntimeError).
  Proof using Hq O01 O00 O10 O11 Hh Hw Hd Hk HN HN2 He HL.
    intros fs ltr lte I1 L1 W B s Hf H1 H2 TR O. unfold slp_program.
    apply (with_loaded ltr N I1 L1); auto. intros train sa Fa Na Ka Da.
    apply (with_loaded lte N2 I2 L2); auto. intros test sb Fb Nb Kb Db.
    assert (Da' : data_at N sb train I1 L1) by (exact (data_frame N sa sb _ I1 L1 HN Fa Kb Da)).
    destruct (train_block_run fs train test I1 L1 W B sb Fb Da' Db TR) as (_ & R). apply ends_bind_throw, R, O.
  Qed.

  Lemma program_unloaded : forall fs ltr lte I1 L1 s, fresh_ok s -> loads_fail ltr \/ loads ltr N I1 L1 /\ loads_fail lte ->
    ends (program fs ltr lte) s (inr RuntimeError).
  Proof using HN. clear O01 O00 O10 O11.
    intros fs ltr lte I1 L1 s Hf [H|(H1 & H2)]; unfold slp_program.
    - destruct (H s Hf) as (s' & E & Nb & C). exists s'. unfold with_dataset. rewrite E. auto.
    - apply (with_loaded ltr N I1 L1); auto. intros train sa Fa Na Ka Da.
      destruct (H2 sa Fa) as (s' & E & Nb & C). exists s'. unfold with_dataset. rewrite E. auto.
  Qed.
End Blocks.
