From Coq Require Import ZArith List Bool Lia ZifyBool Reals Lra.
From Verif Require Import Base BaseFacts TensorFacts Traits TraitsSpec TraitsFacts Scalar RealScalar LinAlgFacts SumFacts
  Conv ConvSpec ConvFacts Pool PoolSpec PoolFacts PoolAlgSpec Elem.
Import ListNotations.
Open Scope Z_scope.
Open Scope model_scope.

Lemma holds_unique : forall {V T} (dt : dtype V T) s z Z Z', holds dt s z Z -> holds dt s z Z' ->
  forall ix, valid (tdims z) ix -> Z ix = Z' ix.
Proof.
  intros V T dt s z Z Z' H H' ix Hix. specialize (H ix Hix). rewrite (H' ix Hix) in H.
  assert (E : emb dt (Z ix) = emb dt (Z' ix)) by congruence.
  pose proof (prj_emb dt (Z ix)) as P. rewrite E, prj_emb in P. congruence.
Qed.

Lemma writes_unique : forall {V T} (dt : dtype V T) m s z Z Z', writes dt m s z Z -> writes dt m s z Z' ->
  forall ix, valid (tdims z) ix -> Z ix = Z' ix.
Proof.
  intros V T dt m s z Z Z' (s1 & E1 & H1 & _) (s2 & E2 & H2 & _). rewrite E1 in E2. injection E2 as <-.
  eapply holds_unique; eauto.
Qed.

(** One operator after another, through the tensor [t]. *)
Lemma then_leaves : forall {V T T2} (dt : dtype V T) (dt2 : dtype V T2) m m2 s t y T_ Y,
  writes dt m s t T_ -> disjoint y t -> mapped s y ->
  (forall s', holds dt s' t T_ -> only_changes t s s' -> mapped s' y -> writes dt2 m2 s' y Y) ->
  leaves dt2 (m ;;; m2) s y Y.
Proof.
  intros V T T2 dt dt2 m m2 s t y T_ Y (s1 & E1 & H1 & O1) D My H.
  assert (My1 : mapped s1 y).
  { intros p Hp. destruct O1 as [_ O1]. rewrite O1; [apply My; auto|]. intros Q. exact (D p Hp Q). }
  destruct (H s1 H1 O1 My1) as (s2 & E2 & H2 & _). exists s2. split; [|exact H2].
  rewrite (bind_ok _ _ _ _ _ E1). exact E2.
Qed.

Lemma writes_leaves : forall {V T} (dt : dtype V T) m s y Y, writes dt m s y Y -> leaves dt m s y Y.
Proof. intros V T dt m s y Y (s' & E & H & _). exists s'. auto. Qed.

Lemma leaves_ext : forall {V T} (dt : dtype V T) m s y Y Y', (forall ix, valid (tdims y) ix -> Y ix = Y' ix) ->
  leaves dt m s y Y -> leaves dt m s y Y'.
Proof. intros V T dt m s y Y Y' E (s' & E' & H). exists s'. split; auto. intros ix Hix. rewrite <- E by auto. auto. Qed.

Section Batch.
  Context {V T : Type} (dt : dtype V T) (A : accumulator T).

  Lemma unpadded_fits : forall sp n m, axis_fits sp n m -> axis_fits (unpadded sp) n m.
  Proof. intros sp n m H. unfold axis_fits in *; cbn in *. lia. Qed.

  Lemma inner_unpadded : forall kh kw ph pw sh sw P, new_pool_kps kh kw ph pw sh sw = Ret P ->
    1 <= kh -> 1 <= kw -> 1 <= sh -> 1 <= sw ->
    inner_pool P = Ret (mkpool (unpadded (h_sample P)) (unpadded (w_sample P))).
  Proof.
    intros kh kw ph pw sh sw P E H1 H2 H3 H4. rewrite new_pool_kps_iff in E by auto. injection E as <-.
    unfold inner_pool, unpadded. cbn [h_sample w_sample sfilter ksize stride].
    unfold new_pool_ks. apply new_pool_kps_iff; auto.
  Qed.

  Lemma built_pos : forall kh kw ph pw sh sw P, new_pool_kps kh kw ph pw sh sw = Ret P ->
    1 <= kh /\ 1 <= kw /\ 1 <= sh /\ 1 <= sw /\
    P = mkpool (mksample (mkfilter kh sh 1) ph) (mksample (mkfilter kw sw 1) pw).
  Proof.
    intros kh kw [a b] [c d] sh sw P E.
    assert (K : 1 <= kh /\ 1 <= kw /\ 1 <= sh /\ 1 <= sw).
    { destruct (Z.ltb_spec kh 1); [|destruct (Z.ltb_spec kw 1); [|destruct (Z.ltb_spec sh 1); [|
        destruct (Z.ltb_spec sw 1); [|lia]]]];
      rewrite new_pool_kps_throws in E by lia; discriminate. }
    rewrite new_pool_kps_iff in E by apply K. injection E as <-. tauto.
  Qed.


  (** The four operators at once. *)
  Lemma pool_result : forall o P g s y x X Y, pcalled dt o P g s y x X ->
    (forall l i j k, pout g l i j k -> pooled A (pseen o P g X l i j k) = Ret (Y (pcell o l i j k))) ->
    writes dt (op_pool dt o A P y x) s y Y.
  Proof.
    intros o P [n h w c h' w'] s y x X Y ((O & (kh & kw & ph & pw & sh & sw & EP & KK) & AH & AW & Hn & Hc & NE & Ex & Ey) & HX & HY & D) HQ.
    unfold pout, pseen, pwindow in HQ. cbn [pgn pgh pgw pgc pgh' pgw'] in *.
    destruct (built_pos _ _ _ _ _ _ _ EP) as (K1 & K2 & K3 & K4 & _).
    destruct o; cbn [pcell effective op_pool] in *; try tauto.
    - apply (pool_hw_writes dt A (h_sample P) (w_sample P) y x h w h' w' X); auto.
      intros i j Hi Hj. apply (HQ 0 i j 0); lia.
    - apply (pool_hwc_writes dt A (h_sample P) (w_sample P) y x h w c h' w' X); auto.
      intros i j k Hi Hj Hk. apply (HQ 0 i j k); lia.
    - unfold op_pool_nchw. rewrite (inner_unpadded _ _ _ _ _ _ _ EP) by auto.
      unfold lift. eapply writes_ext; [rewrite bind_ret_l; reflexivity|reflexivity|].
      unfold nth_dim. rewrite Ex. cbn [nth].
      assert (Dx : dims_ok x) by (unfold dims_ok; rewrite Ex; unfold axis_fits in *; repeat constructor; tauto).
      assert (Dy : dims_ok y) by (unfold dims_ok; rewrite Ey; unfold axis_fits in *; repeat constructor; tauto).
      assert (Tx : forall l, tdims (sub x l) = [c; h; w]) by (intros; apply (tdims_sub _ _ _ _ Ex)).
      assert (Ty : forall l, tdims (sub y l) = [c; h'; w']) by (intros; apply (tdims_sub _ _ _ _ Ey)).
      assert (FY : forall l k p, 0 <= l < n -> 0 <= k < c -> foot (sub (sub y l) k) p -> foot (sub y l) p).
      { intros l k p Hl Hk Hp. eapply (foot_sub (sub y l)); eauto. apply dims_ok_sub; auto. }
      assert (FY1 : forall l p, 0 <= l < n -> foot (sub y l) p -> foot y p).
      { intros l p Hl Hp. eapply (foot_sub y); eauto. }
      apply (writes_rows dt y n [c; h'; w']); auto. intros l s1 Hl N1 F1 O1.
      apply (writes_rows dt (sub y l) c [h'; w']); [apply dims_ok_sub; auto|apply Ty|].
      intros k s2 Hk N2 F2 O2. unfold op_pool_hw; cbn [h_sample w_sample].
      apply (pool_hw_writes dt A _ _ (sub (sub y l) k) (sub (sub x l) k) h w h' w' (fun ix => X (l :: k :: ix))); auto.
      + apply (tdims_sub _ _ _ _ (Tx l)).
      + apply (tdims_sub _ _ _ _ (Ty l)).
      + apply (holds_sub dt s2 (sub x l) (fun ix => X (l :: ix)) k c [h; w]); auto.
        apply (holds_sub dt s2 x X l n [c; h; w]); auto.
        intros ix Hix. rewrite F2, F1.
        * apply HX; auto.
        * intros Q. apply (D (addr x ix)); auto. apply addr_foot; auto.
        * intros Q. apply (D (addr x ix)); eauto. apply addr_foot; auto.
      + intros p Hp. rewrite O2, O1 by eauto. apply HY. eauto.
      + eapply disjoint_sub_l; [apply dims_ok_sub; auto|apply Ty|auto|].
        eapply disjoint_sub_l; eauto.
        eapply disjoint_sub_r; [apply dims_ok_sub; auto|apply Tx|auto|].
        eapply disjoint_sub_r; eauto.
    - unfold op_pool_nhwc. rewrite (inner_unpadded _ _ _ _ _ _ _ EP) by auto.
      unfold lift. eapply writes_ext; [rewrite bind_ret_l; reflexivity|reflexivity|].
      unfold nth_dim. rewrite Ex. cbn [nth].
      assert (Dx : dims_ok x) by (unfold dims_ok; rewrite Ex; unfold axis_fits in *; repeat constructor; tauto).
      assert (Dy : dims_ok y) by (unfold dims_ok; rewrite Ey; unfold axis_fits in *; repeat constructor; tauto).
      apply (writes_rows dt y n [h'; w'; c]); auto. intros l s' Hl N F O'. unfold op_pool_hwc; cbn [h_sample w_sample].
      apply (pool_hwc_writes dt A _ _ (sub y l) (sub x l) h w c h' w' (fun ix => X (l :: ix))); auto.
      + apply (tdims_sub _ _ _ _ Ex).
      + apply (tdims_sub _ _ _ _ Ey).
      + apply (holds_sub dt s' x X l n [h; w; c]); auto. eapply holds_frame_disj; eauto.
      + intros p Hp. rewrite O' by auto. apply HY. eapply foot_sub; eauto.
      + eapply disjoint_sub_l; eauto. eapply disjoint_sub_r; eauto.
  Qed.
End Batch.

(** ** Output tensors as functions of (image, row, column, channel) *)

Definition coords {D} (o : order) (f : Z -> Z -> Z -> Z -> D) (ix : list Z) : D :=
  match o with
  | hw => f 0 (nth 0 ix 0) (nth 1 ix 0) 0
  | hwc => f 0 (nth 0 ix 0) (nth 1 ix 0) (nth 2 ix 0)
  | chw => f 0 (nth 1 ix 0) (nth 2 ix 0) (nth 0 ix 0)
  | nhwc => f (nth 0 ix 0) (nth 1 ix 0) (nth 2 ix 0) (nth 3 ix 0)
  | nchw => f (nth 0 ix 0) (nth 2 ix 0) (nth 3 ix 0) (nth 1 ix 0)
  end.

Lemma coords_cell : forall {V T D} (dt : dtype V T) o P g s y x X (f : Z -> Z -> Z -> Z -> D) l i j k,
  pcalled dt o P g s y x X -> 0 <= l < pgn g -> 0 <= k < pgc g -> coords o f (pcell o l i j k) = f l i j k.
Proof.
  intros V T D dt o P g s y x X f l i j k ((Q & _) & _) Hl Hk. destruct o; cbn [coords pcell nth]; try tauto.
  - destruct Q. replace l with 0 by lia. replace k with 0 by lia. reflexivity.
  - replace l with 0 by lia. reflexivity.
Qed.

Lemma cell_valid : forall o n h w c l p q k, 0 <= l < n -> 0 <= p < h -> 0 <= q < w -> 0 <= k < c ->
  valid (pcell o n h w c) (pcell o l p q k).
Proof. intros. destruct o; cbn; tauto. Qed.

Lemma valid_4 : forall a b c d ix, valid [a; b; c; d] ix ->
  exists i j k l, ix = [i; j; k; l] /\ 0 <= i < a /\ 0 <= j < b /\ 0 <= k < c /\ 0 <= l < d.
Proof.
  intros a b c d ix H. destruct ix as [|i [|j [|k [|l [|m ix]]]]]; cbn in H; try tauto.
  exists i, j, k, l. tauto.
Qed.

Lemma cell_cases : forall {V T} (dt : dtype V T) o P g s y x X h w ix, pcalled dt o P g s y x X ->
  valid (pcell o (pgn g) h w (pgc g)) ix ->
  exists l p q k, ix = pcell o l p q k /\ 0 <= l < pgn g /\ 0 <= p < h /\ 0 <= q < w /\ 0 <= k < pgc g.
Proof.
  intros V T dt o P g s y x X h w ix ((O & _) & _) H. destruct o; cbn [pcell] in *; try tauto.
  - apply valid_2 in H. destruct H as (p & q & -> & ? & ?). exists 0, p, q, 0. destruct O. repeat split; lia.
  - apply valid_3 in H. destruct H as (p & q & k & -> & ? & ? & ?). exists 0, p, q, k. repeat split; lia.
  - apply valid_4 in H. destruct H as (l & k & p & q & -> & ? & ? & ? & ?). exists l, p, q, k. repeat split; lia.
  - apply valid_4 in H. destruct H as (l & p & q & k & -> & ? & ? & ? & ?). exists l, p, q, k. repeat split; lia.
Qed.

Lemma pwindow_in : forall o P g i j p, In p (pwindow o P g i j) -> 0 <= fst p < pgh g /\ 0 <= snd p < pgw g.
Proof. intros. eapply window_in; eauto. Qed.

Lemma ksize_eff : forall o sp, ksize (sfilter (effective o sp)) = ksize (sfilter sp).
Proof. intros []; reflexivity. Qed.

Lemma pcalled_k : forall {V T} (dt : dtype V T) o P g s y x X, pcalled dt o P g s y x X ->
  1 <= kh_of P /\ 1 <= kw_of P /\ kh_of P * kw_of P < 2 ^ 32.
Proof.
  intros V T dt o P g s y x X ((_ & (kh & kw & ph & pw & sh & sw & EP & KK) & _) & _).
  destruct (built_pos _ _ _ _ _ _ _ EP) as (K1 & K2 & K3 & K4 & ->). unfold kh_of, kw_of; cbn. lia.
Qed.

Lemma pseen_length : forall {V T} (dt : dtype V T) o P g s y x X l i j k, pcalled dt o P g s y x X ->
  Z.of_nat (length (pseen o P g X l i j k)) <= kh_of P * kw_of P.
Proof.
  intros V T dt o P g s y x X l i j k K. destruct (pcalled_k _ _ _ _ _ _ _ _ K) as (K1 & K2 & _).
  unfold pseen, pwindow, kh_of, kw_of in *. rewrite map_length.
  rewrite <- (ksize_eff o (h_sample P)), <- (ksize_eff o (w_sample P)). apply window_length; rewrite ksize_eff; lia.
Qed.

Lemma pseen_nonempty : forall {V T} (dt : dtype V T) o P g s y x X l i j k, pcalled dt o P g s y x X ->
  pout g l i j k -> pseen o P g X l i j k <> [].
Proof.
  intros V T dt o P g s y x X l i j k ((_ & _ & _ & _ & _ & _ & NE & _) & _) (_ & Hi & Hj & _) E.
  apply map_eq_nil in E. eapply NE; eauto.
Qed.

(** ** Any accumulator *)

Section Any.
  Context {V T : Type} (dt : dtype V T) (A : accumulator T).

  Definition pool_fn (o : order) (P : pool_trait) (g : pgeom) (X : list Z -> T) : list Z -> T :=
    coords o (fun l i j k => match pooled A (pseen o P g X l i j k) with Ret v => v | _ => X [] end).

  Lemma yields_pooled : forall o P g s y x X l i j k, pcalled dt o P g s y x X -> yields A (kh_of P * kw_of P) ->
    pout g l i j k -> exists r, pooled A (pseen o P g X l i j k) = Ret r.
  Proof.
    intros o P g s y x X l i j k K Hy Ho.
    pose proof (pseen_nonempty _ _ _ _ _ _ _ _ l i j k K Ho) as N.
    pose proof (pseen_length _ _ _ _ _ _ _ _ l i j k K) as L.
    destruct (pseen o P g X l i j k) as [|v r]; [congruence|]. apply (Hy v r). exact L.
  Qed.

  Lemma pool_fn_writes : forall o P g s y x X, pcalled dt o P g s y x X -> yields A (kh_of P * kw_of P) ->
    writes dt (op_pool dt o A P y x) s y (pool_fn o P g X) /\
    forall l i j k, pout g l i j k -> pooled A (pseen o P g X l i j k) = Ret (pool_fn o P g X (pcell o l i j k)).
  Proof.
    intros o P g s y x X K Hy.
    assert (E : forall l i j k, pout g l i j k -> pooled A (pseen o P g X l i j k) = Ret (pool_fn o P g X (pcell o l i j k))).
    { intros l i j k Ho. unfold pool_fn. rewrite (coords_cell dt o P g s y x X) by (auto; apply Ho).
      destruct (yields_pooled _ _ _ _ _ _ _ _ _ _ _ K Hy Ho) as (r & ->). reflexivity. }
    split; [|exact E]. apply (pool_result dt A o P g s y x X); auto.
  Qed.
End Any.

Lemma max_yields : forall {T} (sc : scalar T) lowest k, yields (max_acc sc lowest) k.
Proof. intros T sc lowest k v l _. eexists. reflexivity. Qed.

Lemma mean_yields_R : forall k, k < 2 ^ 32 -> yields (mean_acc Rsc (div_float Rsc)) k.
Proof.
  intros k Hk v l Hl. pose proof (mean_pooled Rsc (div_float Rsc) (v :: l) ltac:(lia)) as E. unfold pooled in E.
  eexists. rewrite E. unfold div_float. apply Rdiv_ok. cbn [sofZ Rsc]. apply not_0_IZR. cbn [length]. lia.
Qed.

Lemma mean_value_R : forall l : list R, l <> [] -> Z.of_nat (length l) < 2 ^ 32 ->
  pooled (mean_acc Rsc (div_float Rsc)) l = Ret (sum_over Rsc l (fun v => v) / IZR (Z.of_nat (length l)))%R.
Proof.
  intros l N L. rewrite mean_pooled by auto. unfold div_float. apply Rdiv_ok. cbn [sofZ Rsc].
  apply not_0_IZR. destruct l; [congruence|]. cbn [length]. lia.
Qed.

(** ** Greatest elements *)

Lemma greatest_map : forall {T T2} (lt : T -> T -> bool) (lt2 : T2 -> T2 -> bool) (f : T -> T2) (dom : T -> Prop) l v,
  (forall a b, dom a -> dom b -> lt a b = false -> lt2 (f a) (f b) = false) ->
  (forall a, In a l -> dom a) -> greatest lt l v -> greatest lt2 (map f l) (f v).
Proof.
  intros T T2 lt lt2 f dom l v M D (I1 & I2). split; [apply in_map; auto|].
  intros x Hx. apply in_map_iff in Hx. destruct Hx as (a & <- & Ha). apply M; auto.
Qed.

Lemma greatest_equiv : forall {T} (lt : T -> T -> bool) l l' v v',
  greatest lt l v -> greatest lt l' v' -> (forall a, In a l <-> In a l') -> lt v v' = false /\ lt v' v = false.
Proof.
  intros T lt l l' v v' (I1 & I2) (J1 & J2) E. split; [apply I2, E, J1|apply J2, E, I1].
Qed.

Section MaxFacts.
  Context {V T : Type} (dt : dtype V T) (sc : scalar T).

  Lemma max_greatest : forall dom lowest o P g s y x X, pcalled dt o P g s y x X -> orderly sc dom lowest o g X ->
    forall l i j k, pout g l i j k ->
      greatest (sltb sc) (pseen o P g X l i j k) (pool_fn (max_acc sc lowest) o P g X (pcell o l i j k)) /\
      forall a, In a (pseen o P g X l i j k) -> dom a.
  Proof.
    intros dom lowest o P g s y x X K (WO & DL & OX) l i j k Ho.
    assert (B : forall a, In a (pseen o P g X l i j k) -> dom a /\ (sltb sc lowest a = true \/ a = lowest)).
    { intros a Ha. apply in_map_iff in Ha. destruct Ha as (p & <- & Hp). apply pwindow_in in Hp. apply OX.
      unfold pin, pout in *. tauto. }
    split; [|intros a Ha; apply B; auto].
    destruct (max_pooled sc dom lowest (pseen o P g X l i j k) WO) as (v & Ev & Gv); auto.
    { eapply pseen_nonempty; eauto. }
    destruct (pool_fn_writes dt (max_acc sc lowest) o P g s y x X K (max_yields _ _ _)) as [_ E].
    rewrite (E l i j k Ho) in Ev. injection Ev as <-. exact Gv.
  Qed.
End MaxFacts.

(** ** Windows that lie inside the image *)

Lemma filter_all : forall {A} (p : A -> bool) l, length (List.filter p l) = length l -> List.filter p l = l.
Proof.
  assert (F : forall {A} (p : A -> bool) l, (length (List.filter p l) <= length l)%nat).
  { intros A p l. induction l as [|c l IH]; cbn; [lia|]. destruct (p c); cbn; lia. }
  intros A p l. induction l as [|a l IH]; cbn; auto. destruct (p a); cbn; intros E; [f_equal; auto|].
  pose proof (F _ p l). lia.
Qed.

Lemma filter_true : forall {A} (p : A -> bool) l, (forall a, In a l -> p a = true) -> List.filter p l = l.
Proof.
  intros A p l H. induction l as [|a l IH]; cbn; auto. rewrite H by (left; auto). f_equal. apply IH.
  intros b Hb. apply H. right; auto.
Qed.

(** The cells under window (i, j), clipped or not. *)
Definition under (o : order) (P : pool_trait) (i j : Z) : list (Z * Z) :=
  map (arg2 (fun u v => (wpos (effective o (h_sample P)) i u, wpos (effective o (w_sample P)) j v)))
      (indices [kh_of P; kw_of P]).

Lemma pwindow_full : forall o P g i j, 1 <= kh_of P -> 1 <= kw_of P ->
  Z.of_nat (length (pwindow o P g i j)) = kh_of P * kw_of P -> pwindow o P g i j = under o P i j.
Proof.
  intros o P g i j H1 H2 E. unfold pwindow, window, under in *. rewrite !ksize_eff in *. fold (kh_of P) (kw_of P) in *.
  apply filter_all. rewrite map_length.
  pose proof (length_indices [kh_of P; kw_of P] ltac:(repeat constructor; lia)) as L. cbn [prod] in L. lia.
Qed.

(** The geometry of an unpadded pool whose shape function accepts the image. *)
Definition exact (P : pool_trait) (g : pgeom) : Prop :=
  exists kh kw sh sw, P = mkpool (mksample (mkfilter kh sh 1) (mkpadding 0 0)) (mksample (mkfilter kw sw 1) (mkpadding 0 0)) /\
    1 <= kh /\ 1 <= kw /\ 1 <= sh /\ 1 <= sw /\ 1 <= pgh' g /\ 1 <= pgw' g /\
    pgh g = kh + sh * (pgh' g - 1) /\ pgw g = kw + sw * (pgw' g - 1).

Lemma exact_of : forall kh kw sh sw P n h w c h' w', new_pool_ks kh kw sh sw = Ret P ->
  0 <= h < 2 ^ 32 -> 0 <= w < 2 ^ 32 -> kh < 2 ^ 32 -> kw < 2 ^ 32 ->
  pool_shape2 P [h; w] = Ret [h'; w'] -> exact P (mkpgeom n h w c h' w').
Proof.
  intros kh kw sh sw P n h w c h' w' EP Hh Hw Bh Bw ES. unfold new_pool_ks in EP.
  destruct (built_pos _ _ _ _ _ _ _ EP) as (K1 & K2 & K3 & K4 & E).
  destruct (pool_axes kh kw (mkpadding 0 0) (mkpadding 0 0) sh sw P h w [h'; w']) as (_ & a & b & Q & AH & AW); auto.
  { unfold pool_args; cbn. lia. }
  injection Q as <- <-. exists kh, kw, sh, sw. subst P. cbn [pgh pgw pgh' pgw'].
  unfold axis_ok, valid_config, span in AH, AW; cbn [h_sample w_sample sfilter spadding ksize stride rate left_ right_] in AH, AW.
  repeat split; lia.
Qed.

Lemma exact_window : forall o P g i j, exact P g -> 0 <= i < pgh' g -> 0 <= j < pgw' g ->
  pwindow o P g i j = under o P i j.
Proof.
  intros o P g i j (kh & kw & sh & sw & -> & K1 & K2 & K3 & K4 & M1 & M2 & Eh & Ew) Hi Hj.
  unfold pwindow, window, under. rewrite !ksize_eff. fold kh_of kw_of. unfold kh_of, kw_of; cbn [h_sample w_sample sfilter ksize].
  apply filter_true. intros p Hp. apply in_map_iff in Hp.
  destruct Hp as (ix & <- & I). apply in_indices, valid_2 in I. destruct I as (u & v & -> & Hu & Hv).
  unfold arg2, inb. cbn [nth fst snd]. replace (effective o _) with (mksample (mkfilter kh sh 1) (mkpadding 0 0)) by (destruct o; reflexivity).
  replace (effective o _) with (mksample (mkfilter kw sw 1) (mkpadding 0 0)) by (destruct o; reflexivity).
  unfold wpos, tap; cbn. nia.
Qed.

Lemma under_in : forall o kh kw sh sw i j p q,
  In (p, q) (under o (mkpool (mksample (mkfilter kh sh 1) (mkpadding 0 0)) (mksample (mkfilter kw sw 1) (mkpadding 0 0))) i j) <->
  i * sh <= p < i * sh + kh /\ j * sw <= q < j * sw + kw.
Proof.
  intros o kh kw sh sw i j p q. unfold under. rewrite in_map_iff. unfold kh_of, kw_of; cbn [h_sample w_sample sfilter ksize].
  replace (effective o (mksample (mkfilter kh sh 1) (mkpadding 0 0))) with (mksample (mkfilter kh sh 1) (mkpadding 0 0)) by (destruct o; reflexivity).
  replace (effective o (mksample (mkfilter kw sw 1) (mkpadding 0 0))) with (mksample (mkfilter kw sw 1) (mkpadding 0 0)) by (destruct o; reflexivity).
  unfold arg2, wpos, tap; cbn [sfilter spadding stride rate left_]. split.
  - intros (ix & E & I). apply in_indices, valid_2 in I. destruct I as (u & v & -> & Hu & Hv). cbn [nth] in E.
    injection E as <- <-. lia.
  - intros (Hp & Hq). exists [p - i * sh; q - j * sw]. cbn [nth]. split; [f_equal; lia|].
    apply in_indices. cbn. lia.
Qed.

(** Sums over a product of ranges. *)
Lemma sum_zrange_mul : forall {T} (sc : scalar T), ring_laws sc -> forall a b (f : Z -> T), 0 <= a -> 0 <= b ->
  sum_over sc (zrange (a * b)) f = sum_over sc (zrange b) (fun u => sum_over sc (zrange a) (fun v => f (u * a + v))).
Proof.
  intros T sc laws a b f Ha Hb. revert f. pattern b. apply natlike_ind; [|clear b Hb|exact Hb].
  - intros f. rewrite Z.mul_0_r. reflexivity.
  - intros b Hb IH f. unfold Z.succ. rewrite Z.mul_add_distr_l, Z.mul_1_r.
    rewrite zrange_app by nia. rewrite (sum_app sc laws), IH. rewrite (zrange_app b 1) by lia.
    rewrite (sum_app sc laws), !sum_over_map. f_equal.
    change (zrange 1) with [0]. rewrite (sum_cons sc laws), (sum_nil sc).
    transitivity (sum_over sc (zrange a) (fun v => f ((b + 0) * a + v))).
    + apply sum_over_ext. intros v _. f_equal. lia.
    + symmetry. destruct laws as [? ? Ac]. rewrite Radd_comm. apply Radd_0_l.
Qed.

Lemma sum_under : forall (o : order) kh kw sh sw i j (F : Z * Z -> R),
  sum_over Rsc (under o (mkpool (mksample (mkfilter kh sh 1) (mkpadding 0 0)) (mksample (mkfilter kw sw 1) (mkpadding 0 0))) i j) F
  = sum_over Rsc (zrange kh) (fun u => sum_over Rsc (zrange kw) (fun v => F (i * sh + u, j * sw + v))).
Proof.
  intros o kh kw sh sw i j F. unfold under. rewrite sum_over_map. unfold kh_of, kw_of; cbn [h_sample w_sample sfilter ksize].
  rewrite (sum_indices_cons Rsc Rsc_laws). apply sum_over_ext. intros u _.
  rewrite (sum_indices_cons Rsc Rsc_laws). apply sum_over_ext. intros v _. rewrite (sum_indices_nil Rsc Rsc_laws).
  replace (effective o (mksample (mkfilter kh sh 1) (mkpadding 0 0))) with (mksample (mkfilter kh sh 1) (mkpadding 0 0)) by (destruct o; reflexivity).
  replace (effective o (mksample (mkfilter kw sw 1) (mkpadding 0 0))) with (mksample (mkfilter kw sw 1) (mkpadding 0 0)) by (destruct o; reflexivity).
  unfold arg2, wpos, tap; cbn [nth sfilter spadding stride rate left_]. f_equal. f_equal; lia.
Qed.

Lemma under_length : forall o P i j, 0 <= kh_of P -> 0 <= kw_of P ->
  Z.of_nat (length (under o P i j)) = kh_of P * kw_of P.
Proof.
  intros o P i j H1 H2. unfold under. rewrite map_length.
  rewrite length_indices by (repeat constructor; lia). cbn [prod]. lia.
Qed.

Lemma mean_fn_value : forall {V} (dt : dtype V R) o P g s y x X, pcalled dt o P g s y x X ->
  writes dt (op_pool dt o (mean_acc Rsc (div_float Rsc)) P y x) s y (pool_fn (mean_acc Rsc (div_float Rsc)) o P g X) /\
  forall l i j k, pout g l i j k -> pool_fn (mean_acc Rsc (div_float Rsc)) o P g X (pcell o l i j k) =
    (sum_over Rsc (pwindow o P g i j) (fun p => X (pcell o l (fst p) (snd p) k)) / IZR (Z.of_nat (length (pwindow o P g i j))))%R.
Proof.
  intros V dt o P g s y x X K. destruct (pcalled_k _ _ _ _ _ _ _ _ K) as (K1 & K2 & K3).
  destruct (pool_fn_writes dt (mean_acc Rsc (div_float Rsc)) o P g s y x X K (mean_yields_R _ K3)) as [Wr E].
  split; [exact Wr|]. intros l i j k Ho. specialize (E l i j k Ho).
  pose proof (pseen_length dt o P g s y x X l i j k K) as L.
  rewrite mean_value_R in E; [|eapply pseen_nonempty; eauto|lia]. injection E as <-.
  unfold pseen. rewrite sum_over_map, map_length. reflexivity.
Qed.

(** Windows of windows along one axis. *)
Lemma axis_twice : forall k1 s1 k2 m p, 1 <= s1 -> s1 <= k1 -> 1 <= k2 ->
  (m * s1 <= p < m * s1 + (k1 + s1 * (k2 - 1)) <-> exists a, m <= a < m + k2 /\ a * s1 <= p < a * s1 + k1).
Proof.
  intros k1 s1 k2 m p H1 H2 H3. split.
  - intros (Hp & Hq). pose proof (Z.div_mod p s1 ltac:(lia)) as DM. pose proof (Z.mod_pos_bound p s1 ltac:(lia)) as MB.
    assert (L : m <= p / s1) by (apply Z.div_le_lower_bound; lia).
    destruct (Z_le_gt_dec (p / s1) (m + k2 - 1)) as [Le|Gt].
    + exists (p / s1). split; [lia|]. split; lia.
    + exists (m + k2 - 1). split; [lia|]. split; [|lia].
      assert (s1 * (m + k2 - 1) <= s1 * (p / s1)) by (apply Z.mul_le_mono_nonneg_l; lia). lia.
  - intros (a & Ha & Hp).
    assert (m * s1 <= a * s1) by (apply Z.mul_le_mono_nonneg_r; lia).
    assert (a * s1 <= (m + k2 - 1) * s1) by (apply Z.mul_le_mono_nonneg_r; lia). lia.
Qed.

Lemma axis_twice_size : forall k1 s1 k2 s2 h h1 h2, h = k1 + s1 * (h1 - 1) -> h1 = k2 + s2 * (h2 - 1) ->
  h = k1 + s1 * (k2 - 1) + s1 * s2 * (h2 - 1).
Proof. intros. subst. ring. Qed.

Lemma axis_twice_in : forall k2 s2 h1 h2 i a, 1 <= s2 -> 0 <= i < h2 -> h1 = k2 + s2 * (h2 - 1) ->
  i * s2 <= a < i * s2 + k2 -> 0 <= a < h1.
Proof.
  intros k2 s2 h1 h2 i a H2 Hi E Ha.
  assert (i * s2 <= (h2 - 1) * s2) by (apply Z.mul_le_mono_nonneg_r; lia).
  assert (0 <= i * s2) by (apply Z.mul_nonneg_nonneg; lia). lia.
Qed.

(** Two unpadded pools in a row. *)
Lemma twice_geometry : forall kh1 kw1 sh1 sw1 kh2 kw2 sh2 sw2 P1 P2 P3 o n h w c h1 w1 h2 w2 t x y,
  new_pool_ks kh1 kw1 sh1 sw1 = Ret P1 -> new_pool_ks kh2 kw2 sh2 sw2 = Ret P2 ->
  new_pool_ks (kh1 + sh1 * (kh2 - 1)) (kw1 + sw1 * (kw2 - 1)) (sh1 * sh2) (sw1 * sw2) = Ret P3 ->
  sh1 <= kh1 -> sw1 <= kw1 ->
  pool_shape2 P1 [h; w] = Ret [h1; w1] -> pool_shape2 P2 [h1; w1] = Ret [h2; w2] ->
  psized o P1 (mkpgeom n h w c h1 w1) t x -> psized o P2 (mkpgeom n h1 w1 c h2 w2) y t ->
  psized o P3 (mkpgeom n h w c h2 w2) y x ->
  exact P1 (mkpgeom n h w c h1 w1) /\ exact P2 (mkpgeom n h1 w1 c h2 w2) /\ exact P3 (mkpgeom n h w c h2 w2) /\
  P1 = mkpool (mksample (mkfilter kh1 sh1 1) (mkpadding 0 0)) (mksample (mkfilter kw1 sw1 1) (mkpadding 0 0)) /\
  P2 = mkpool (mksample (mkfilter kh2 sh2 1) (mkpadding 0 0)) (mksample (mkfilter kw2 sw2 1) (mkpadding 0 0)) /\
  forall i j, 0 <= i < h2 -> 0 <= j < w2 -> forall p q,
    In (p, q) (pwindow o P3 (mkpgeom n h w c h2 w2) i j) <->
    exists a b, In (a, b) (pwindow o P2 (mkpgeom n h1 w1 c h2 w2) i j) /\ In (p, q) (pwindow o P1 (mkpgeom n h w c h1 w1) a b).
Proof.
  intros kh1 kw1 sh1 sw1 kh2 kw2 sh2 sw2 P1 P2 P3 o n h w c h1 w1 h2 w2 t x y B1 B2 B3 G1 G2 S1 S2 Z1 Z2 Z3.
  destruct (built_pos _ _ _ _ _ _ _ B1) as (A1 & A2 & A3 & A4 & E1).
  destruct (built_pos _ _ _ _ _ _ _ B2) as (C1 & C2 & C3 & C4 & E2).
  destruct (built_pos _ _ _ _ _ _ _ B3) as (D1 & D2 & D3 & D4 & E3).
  assert (SZ : forall P g t x, psized o P g t x -> 0 <= pgh g < 2 ^ 32 /\ 0 <= pgw g < 2 ^ 32 /\ kh_of P < 2 ^ 32 /\ kw_of P < 2 ^ 32).
  { clear. intros P g t x (_ & (kh & kw & ph & pw & sh & sw & EP & KK) & AH & AW & _).
    destruct (built_pos _ _ _ _ _ _ _ EP) as (K1 & K2 & K3 & K4 & ->). unfold kh_of, kw_of; cbn [h_sample w_sample sfilter ksize] in *.
    unfold axis_fits in AH, AW. repeat split; try lia; try nia. }
  destruct (SZ _ _ _ _ Z1) as (b1 & b2 & b3 & b4). destruct (SZ _ _ _ _ Z2) as (b5 & b6 & b7 & b8). clear SZ.
  cbn [pgh pgw] in *.
  assert (X1 : exact P1 (mkpgeom n h w c h1 w1)).
  { subst P1. eapply exact_of; eauto. }
  assert (X2 : exact P2 (mkpgeom n h1 w1 c h2 w2)).
  { subst P2. eapply exact_of; eauto. }
  assert (X1' := X1). assert (X2' := X2).
  destruct X1' as (q1 & q2 & q3 & q4 & Q & _ & _ & _ & _ & U1 & U2 & U3 & U4). rewrite E1 in Q. injection Q as <- <- <- <-.
  destruct X2' as (q1 & q2 & q3 & q4 & Q & _ & _ & _ & _ & U5 & U6 & U7 & U8). rewrite E2 in Q. injection Q as <- <- <- <-.
  cbn [pgh pgw pgh' pgw'] in *.
  assert (X3 : exact P3 (mkpgeom n h w c h2 w2)).
  { exists (kh1 + sh1 * (kh2 - 1)), (kw1 + sw1 * (kw2 - 1)), (sh1 * sh2), (sw1 * sw2). cbn [pgh pgw pgh' pgw'].
    split; [exact E3|]. repeat (split; [assumption|]). split; eapply axis_twice_size; eauto. }
  repeat (split; [assumption|]). intros i j Hi Hj p q.
  rewrite exact_window by (auto; cbn; auto). rewrite E3, under_in.
  rewrite (exact_window o P2) by (auto; cbn; auto). rewrite E2.
  replace (i * (sh1 * sh2)) with (i * sh2 * sh1) by ring. replace (j * (sw1 * sw2)) with (j * sw2 * sw1) by ring.
  rewrite (axis_twice kh1 sh1 kh2 (i * sh2) p), (axis_twice kw1 sw1 kw2 (j * sw2) q) by assumption. split.
  - intros ((a & Ha & Hp) & (b & Hb & Hq)). exists a, b. rewrite under_in. split; [tauto|].
    rewrite (exact_window o P1), E1, under_in; [tauto|auto|apply (axis_twice_in kh2 sh2 h1 h2 i a); auto|apply (axis_twice_in kw2 sw2 w1 w2 j b); auto].
  - intros (a & b & Hab & Hpq). rewrite under_in in Hab. destruct Hab as [Ha Hb].
    rewrite (exact_window o P1), E1, under_in in Hpq; [|auto|apply (axis_twice_in kh2 sh2 h1 h2 i a); auto|apply (axis_twice_in kw2 sw2 w1 w2 j b); auto].
    split; [exists a|exists b]; tauto.
Qed.

Lemma real_weak : weak_order (fun _ : R => True) (sltb Rsc).
Proof.
  repeat split; intros; cbn [sltb Rsc] in *; unfold Rltb in *;
    repeat match goal with |- context [Rlt_dec ?a ?b] => destruct (Rlt_dec a b)
      | H : context [Rlt_dec ?a ?b] |- _ => destruct (Rlt_dec a b) end; try discriminate; auto; lra.
Qed.

(** relu and the scan for the maximum. *)
Lemma fold_max_relu : forall {T} (sc : scalar T) (dom : T -> Prop) lowest l, weak_order dom (sltb sc) ->
  (forall v, dom v \/ ~ dom v) -> (forall a v, ~ dom v -> sltb sc a v = false) ->
  dom lowest -> dom (s0 sc) -> (sltb sc lowest (s0 sc) = true \/ s0 sc = lowest) -> l <> [] ->
  fold_left (fun v x => if sltb sc v x then x else v) (map (relu1 sc) l) lowest
  = relu1 sc (fold_left (fun v x => if sltb sc v x then x else v) l lowest).
Proof.
  intros T sc dom lowest l WO Dec Nan DL D0 Lo Hl.
  set (f := fun v x => if sltb sc v x then x else v).
  assert (Ir : sltb sc (s0 sc) (s0 sc) = false) by (apply WO; auto).
  assert (Z0 : sltb sc (s0 sc) lowest = false).
  { destruct Lo as [Lo|Lo]; [eapply weak_asym; eauto|]. rewrite <- Lo. exact Ir. }
  assert (St : forall v x, dom v -> f (relu1 sc v) (relu1 sc x) = relu1 sc (f v x)).
  { intros v x Dv. unfold f, relu1. destruct (Dec x) as [Dx|Nx].
    - pose proof WO as (_ & Tr & NT).
      destruct (sltb sc v x) eqn:E, (sltb sc (s0 sc) v) eqn:Ev, (sltb sc (s0 sc) x) eqn:Ex; rewrite ?E, ?Ev, ?Ex, ?Ir; auto.
      + rewrite (Tr (s0 sc) v x) in Ex by auto. discriminate.
      + rewrite (weak_asym dom (sltb sc) (s0 sc) v) by auto. reflexivity.
      + rewrite (NT (s0 sc) v x) in Ex by auto. discriminate.
    - rewrite !(Nan _ x) by auto. destruct (sltb sc (s0 sc) v) eqn:Ev; rewrite ?Ev, ?Ir; auto.
      rewrite (weak_asym dom (sltb sc) (s0 sc) v) by auto. reflexivity. }
  assert (Df : forall v x, dom v -> dom (f v x)).
  { intros v x Dv. unfold f. destruct (sltb sc v x) eqn:E; auto. destruct (Dec x) as [|Nx]; auto. rewrite Nan in E by auto. discriminate. }
  assert (G : forall l v, dom v -> fold_left f (map (relu1 sc) l) (relu1 sc v) = relu1 sc (fold_left f l v)).
  { clear l Hl. induction l as [|x l IH]; intros v Dv; cbn [map fold_left]; auto. rewrite St by auto. apply IH. auto. }
  destruct l as [|x l]; [congruence|]. cbn [map fold_left].
  replace (f lowest (relu1 sc x)) with (relu1 sc (f lowest x)); [apply G; auto|].
  rewrite <- St by auto. unfold f. replace (relu1 sc lowest) with (s0 sc) by (unfold relu1; rewrite Z0; reflexivity).
  destruct Lo as [Lo|Lo]; [|rewrite Lo; reflexivity].
  unfold relu1. destruct (sltb sc (s0 sc) x) eqn:Ex.
  - rewrite Ex. destruct (Dec x) as [Dx|Nx]; [|rewrite Nan in Ex by auto; discriminate].
    pose proof WO as (_ & Tr & _). rewrite (Tr lowest (s0 sc) x) by auto. reflexivity.
  - rewrite Ir, Lo. reflexivity.
Qed.
