From Coq Require Import ZArith List Bool Lia ZifyBool Permutation Sorted.
From Verif Require Import Base BaseFacts TensorFacts Scalar PoolSpec PoolFacts Utility RowFacts ActivationFacts.
Import ListNotations.
Open Scope Z_scope.
Open Scope model_scope.

Lemma loc_eqb_true : forall p q, loc_eqb p q = true <-> p = q.
Proof. intros p q. destruct (loc_eqb_spec p q); split; congruence. Qed.

Lemma nth_error_Some_lt : forall {A} (l : list A) n a, nth_error l n = Some a -> (n < length l)%nat.
Proof. intros A l n a H. apply nth_error_Some. congruence. Qed.

Lemma pow_half : forall b, 0 < b -> 2 ^ b = 2 * 2 ^ (b - 1) /\ 0 < 2 ^ (b - 1).
Proof.
  intros b H. split; [|apply Z.pow_pos_nonneg; lia].
  replace b with (Z.succ (b - 1)) at 1 by lia. rewrite Z.pow_succ_r by lia. reflexivity.
Qed.

Lemma conv_id : forall N z, 0 < it_bits N -> it_min N <= z <= it_max N -> conv N z = z.
Proof.
  intros [sg b] z Hb H. unfold conv, it_min, it_max in *; cbn [it_signed it_bits] in *.
  destruct (pow_half b Hb) as [E P]. destruct sg; [|apply Z.mod_small; lia].
  rewrite Z.mod_small by lia. lia.
Qed.

Lemma conv_le : forall N z, 0 < it_bits N -> 0 <= z -> conv N z <= z.
Proof.
  intros [sg b] z Hb H. unfold conv; cbn [it_signed it_bits] in *.
  destruct (pow_half b Hb) as [E P]. destruct sg; [|apply Z.mod_le; lia].
  pose proof (Z.mod_le (z + 2 ^ (b - 1)) (2 ^ b)). lia.
Qed.

Lemma conv_range : forall N z, 0 < it_bits N -> it_min N <= conv N z <= it_max N.
Proof.
  intros [sg b] z Hb. unfold conv, it_min, it_max; cbn [it_signed it_bits] in *.
  destruct (pow_half b Hb) as [E P]. destruct sg.
  - pose proof (Z.mod_pos_bound (z + 2 ^ (b - 1)) (2 ^ b)). lia.
  - pose proof (Z.mod_pos_bound z (2 ^ b)). lia.
Qed.

Lemma it_min_le0 : forall N, 0 < it_bits N -> it_min N <= 0.
Proof.
  intros [sg b] Hb. unfold it_min; cbn [it_signed it_bits] in *. destruct (pow_half b Hb). destruct sg; lia.
Qed.

Lemma conv_small : forall N i n, 0 < it_bits N -> 0 <= i < conv N n -> conv N i = i.
Proof.
  intros N i n Hb Hi. apply conv_id; auto. pose proof (conv_range N n Hb). pose proof (it_min_le0 N Hb). lia.
Qed.

(** One write. *)
Lemma holds_upd : forall {V T} (dt : dtype V T) s t (X : list Z -> T) ix v,
  holds dt s t X -> valid (tdims t) ix ->
  holds dt (upd s (addr t ix) (emb dt v)) t (fun jx => if ix_eqb jx ix then v else X jx).
Proof.
  intros V T dt s t X ix v H Hix jx Hjx. cbn [cells upd].
  destruct (loc_eqb (addr t jx) (addr t ix)) eqn:E.
  - apply loc_eqb_true in E. apply addr_inj in E; auto. subst jx.
    destruct (ix_eqb ix ix) eqn:Q; [reflexivity|].
    assert (ix_eqb ix ix = true) by (apply ix_eqb_true; auto). congruence.
  - destruct (ix_eqb jx ix) eqn:Q; [|apply H; auto]. apply ix_eqb_true in Q. subst jx.
    assert (loc_eqb (addr t ix) (addr t ix) = true) by (apply loc_eqb_true; auto). congruence.
Qed.

Section Facts.
  Context {V : Type}.

  Lemma cast_writes : forall {R S} (dr : dtype V R) (d : dtype V S) f y x X s,
    dims_ok y -> tdims x = tdims y -> holds d s x X -> mapped s y -> disjoint y x ->
    writes dr (op_cast dr d f y x) s y (fun ix => f (X ix)).
  Proof.
    intros R S dr d f y x X s Dy E H Hm D. unfold op_cast, nth_dim; cbn [flat reshape tdims nth].
    change (prod (tdims y)) with (size y). apply writes_loop_flat; auto.
    intros o s' Ho N F O. assert (Dx : dims_ok x) by (unfold dims_ok in *; congruence).
    erewrite bind_ok.
    2:{ apply load_ok. change (daddr (flat x) o) with (daddr x o). rewrite F.
        - apply holds_daddr; eauto. unfold size in *. rewrite E. auto.
        - intros Q. apply (D _ Q). apply daddr_foot. unfold size in *. rewrite E. auto. }
    rewrite E. change (daddr (flat y) o) with (daddr y o).
    apply store_ok. rewrite O. apply Hm. apply daddr_foot; auto.
  Qed.

  (** *** argmax *)
  Lemma argmax1_ok : forall {R} (dr : dtype V R) sc dom x n X s,
    tdims x = [n] -> 1 <= n -> (forall j, 0 <= j < n -> load dr (daddr x j) s = Ok (X j) s) ->
    weak_order dom (sltb sc) -> (forall j, 0 <= j < n -> dom (X j)) ->
    exists j, argmax1 dr sc x s = Ok j s /\ 0 <= j < n /\
      (forall k, 0 <= k < n -> sltb sc (X j) (X k) = false) /\
      (forall k, 0 <= k < j -> sltb sc (X k) (X j) = true).
  Proof.
    intros R dr sc dom x n X s E Hn L WO HD. destruct WO as (Irr & Tr & NT) eqn:EW; clear EW.
    assert (Es : size x = n) by (unfold size; rewrite E; cbn; lia).
    set (g := fun (b : Z * R) i => if sltb sc (snd b) (X (i + 1)) then (i + 1, X (i + 1)) else b).
    assert (G : forall m, 0 <= m -> m <= n - 1 ->
      let b := fold_left g (zrange m) (0, X 0) in
      0 <= fst b <= m /\ snd b = X (fst b) /\
      (forall k, 0 <= k <= m -> sltb sc (X (fst b)) (X k) = false) /\
      (forall k, 0 <= k < fst b -> sltb sc (X k) (X (fst b)) = true)).
    { refine (Z_nonneg_ind _ _ _).
      - intros _. cbn. repeat split; try lia. intros k Hk. replace k with 0 by lia. apply Irr, HD; lia.
      - intros m Hm IH Hmn. specialize (IH ltac:(lia)). rewrite zrange_succ by lia.
        rewrite fold_left_app. cbn [fold_left]. cbv zeta in *.
        set (b := fold_left g (zrange m) (0, X 0)) in *. destruct IH as (I1 & I2 & I3 & I4).
        assert (Eg : g b m = if sltb sc (snd b) (X (m + 1)) then (m + 1, X (m + 1)) else b) by reflexivity.
        rewrite Eg; clear Eg.
        destruct (sltb sc (snd b) (X (m + 1))) eqn:Q; cbn [fst snd].
        + rewrite I2 in Q. split; [lia|]. split; [reflexivity|].
          assert (LT : forall k, 0 <= k <= m -> sltb sc (X k) (X (m + 1)) = true).
          { intros k Hk. apply (weak_le_lt dom _ _ (X (fst b))); auto; apply HD; lia. }
          split; [|intros; apply LT; lia].
          intros k Hk. destruct (Z.eq_dec k (m + 1)) as [->|]; [apply Irr, HD; lia|].
          apply (weak_asym dom _ _ _ WO); try (apply HD; lia). apply LT; lia.
        + rewrite I2 in Q. split; [lia|]. split; [auto|]. split; [|auto].
          intros k Hk. destruct (Z.eq_dec k (m + 1)) as [->|]; [auto|]. apply I3. lia. }
    specialize (G (n - 1) ltac:(lia) ltac:(lia)). cbv zeta in G.
    set (b := fold_left g (zrange (n - 1)) (0, X 0)) in *. destruct G as (I1 & I2 & I3 & I4).
    exists (fst b). split; [|split; [lia|split; [intros; apply I3; lia|auto]]].
    unfold argmax1. rewrite Es. replace (n =? 0) with false by lia.
    rewrite (bind_ok _ _ _ _ _ (L 0 ltac:(lia))).
    erewrite bind_ok; [reflexivity|]. apply foldM_pure. intros c i Hi. apply in_zrange in Hi.
    rewrite (bind_ok _ _ _ _ _ (L (i + 1) ltac:(lia))). reflexivity.
  Qed.

  (** *** onehot *)
  Definition hot {R} (sc : scalar R) (kN : Z) (X : Z -> Z) (i j : Z) : R :=
    if (j =? X i) && (X i <? kN) then s1 sc else s0 sc.

  Lemma onehot2_writes : forall {R} (dn : dtype V Z) N (dr : dtype V R) sc y x n k X s,
    0 < it_bits N -> tdims x = [n] -> tdims y = [n; k] -> 0 <= n -> 0 <= k ->
    (forall i, 0 <= i < n -> cells s (daddr x i) = Init (emb dn (X i))) -> mapped s y -> disjoint y x ->
    writes dr (onehot2 dn N dr sc y x) s y (arg2 (hot sc (conv N k) X)).
  Proof.
    intros R dn N dr sc y x n k X s Hb Ex Ey Hn Hk HX HY D.
    assert (Dy : dims_ok y) by (unfold dims_ok; rewrite Ey; repeat constructor; auto).
    unfold onehot2, nth_dim. rewrite Ex, Ey; cbn [nth].
    apply writes_seq_fill; auto. intros s1 N1 H1 F1.
    pose proof (conv_le N k Hb Hk) as Hc.
    destruct (for_range_inv n
      (fun i => j <- load dn (daddr x i) ;; if (0 <=? j) && (j <? conv N k) then set_ dr y [i; j] (Scalar.s1 sc) else ret tt)
      (fun m s' => nextb s1 <= nextb s' /\ (forall p, ~ foot y p -> cells s' p = cells s1 p) /\
         holds dr s' y (arg2 (fun i j => if i <? m then hot sc (conv N k) X i j else Scalar.s0 sc))) s1) as (s2 & E & N2 & F2 & H2); auto.
    - split; [lia|]. split; [auto|]. eapply holds_ext; [|exact H1]. intros ix Hix. rewrite Ey in Hix.
      apply valid_2 in Hix. destruct Hix as (i & j & -> & Hi & Hj). unfold arg2; cbn [nth].
      replace (i <? 0) with false by lia. reflexivity.
    - intros m s' Hm (Ns & Fs & Hs).
      assert (L : load dn (daddr x m) s' = Ok (X m) s').
      { assert (Q : ~ foot y (daddr x m)).
        { intros Q. apply (D _ Q). apply daddr_foot. unfold size. rewrite Ex. cbn. lia. }
        apply load_ok. rewrite Fs, F1 by auto. apply HX; auto. }
      rewrite (bind_ok _ _ _ _ _ L). destruct ((0 <=? X m) && (X m <? conv N k)) eqn:C.
      + assert (Hv : valid (tdims y) [m; X m]) by (rewrite Ey; cbn; lia).
        eexists. split; [apply set_ok; rewrite Hs by auto; discriminate|].
        split; [cbn; auto|]. split.
        * intros p Hp. cbn [cells upd]. destruct (loc_eqb p (addr y [m; X m])) eqn:Q; [|auto].
          apply loc_eqb_true in Q. subst p. exfalso. apply Hp. apply addr_foot; auto.
        * eapply holds_ext; [|apply (holds_upd dr s' y _ [m; X m] (Scalar.s1 sc) Hs Hv)].
          intros ix Hix. rewrite Ey in Hix. apply valid_2 in Hix. destruct Hix as (i & j & -> & Hi & Hj).
          unfold arg2; cbn [nth]. unfold hot.
          assert (Ei : ix_eqb [i; j] [m; X m] = (i =? m) && (j =? X m)).
          { unfold ix_eqb. destruct (list_eq_dec Z.eq_dec [i; j] [m; X m]) as [Q|Q]; [inversion Q; lia|].
            destruct (Z.eqb_spec i m) as [->|]; destruct (Z.eqb_spec j (X m)) as [->|]; auto; congruence. }
          rewrite Ei; clear Ei.
          destruct (Z.eqb_spec i m) as [->|Ne]; cbn [andb].
          -- replace (m <? m + 1) with true by lia. replace (m <? m) with false by lia.
             destruct (Z.eqb_spec j (X m)) as [->|]; cbn [andb]; [|reflexivity].
             replace (X m <? conv N k) with true by lia. reflexivity.
          -- destruct (i <? m) eqn:Q; [replace (i <? m + 1) with true by lia|replace (i <? m + 1) with false by lia];
               reflexivity.
      + exists s'. split; [reflexivity|]. split; [auto|]. split; [auto|].
        eapply holds_ext; [|exact Hs]. intros ix Hix. rewrite Ey in Hix.
        apply valid_2 in Hix. destruct Hix as (i & j & -> & Hi & Hj). unfold arg2; cbn [nth]. unfold hot.
        destruct (Z.eqb_spec i m) as [->|Ne].
        -- replace (m <? m + 1) with true by lia. replace (m <? m) with false by lia.
           destruct (Z.eqb_spec j (X m)) as [->|]; cbn [andb]; [|reflexivity].
           replace (X m <? conv N k) with false by lia. reflexivity.
        -- destruct (i <? m) eqn:Q; [replace (i <? m + 1) with true by lia|replace (i <? m + 1) with false by lia];
             reflexivity.
    - exists s2. split; [exact E|]. split; [|split; auto].
      eapply holds_ext; [|exact H2]. intros ix Hix. rewrite Ey in Hix.
      apply valid_2 in Hix. destruct Hix as (i & j & -> & Hi & Hj). unfold arg2; cbn [nth].
      replace (i <? n) with true by lia. reflexivity.
  Qed.

  (** *** top *)
  Lemma read_pairs_ok : forall {R} (dr : dtype V R) N x n X s l,
    tdims x = [n] -> holds dr s x X -> (forall i, In i l -> 0 <= i < n /\ conv N i = i) ->
    read_pairs dr N x l s = Ok (map (fun i => (X [i], i)) l) s.
  Proof.
    intros R dr N x n X s l Ex H. induction l as [|i l IH]; intros Hl; [reflexivity|]. cbn [read_pairs map].
    destruct (Hl i (or_introl eq_refl)) as [Hi Ci].
    rewrite (bind_ok _ _ _ _ _ (at_ok dr s x X [i] H ltac:(rewrite Ex; cbn; lia))).
    rewrite (bind_ok _ _ _ _ _ (IH ltac:(intros; apply Hl; right; auto))). rewrite Ci. reflexivity.
  Qed.

  Lemma insert_perm : forall {A} gt (a : A) l, Permutation (insert gt a l) (a :: l).
  Proof.
    intros A gt a l. induction l as [|b l IH]; cbn [insert]; [auto|]. destruct (gt b a); [|auto].
    rewrite IH. apply perm_swap.
  Qed.

  Lemma sort_perm : forall {A} gt (l : list A), Permutation (sort gt l) l.
  Proof. intros A gt l. induction l as [|a l IH]; cbn; [auto|]. fold (sort gt l). rewrite insert_perm, IH. auto. Qed.

  Lemma sort_sorted : forall {A} (gt : A -> A -> bool) l,
    (forall a b c, In a l -> In b l -> In c l -> gt a b = true -> gt b c = true -> gt a c = true) ->
    (forall a b, In a l -> In b l -> gt a b = false -> gt b a = false -> a = b) -> NoDup l ->
    StronglySorted (fun a b => gt a b = true) (sort gt l).
  Proof.
    intros A gt l. induction l as [|a l IH]; intros Tr Tot ND; cbn; [constructor|]. fold (sort gt l).
    inversion ND as [|? ? NI ND']; subst.
    specialize (IH ltac:(intros; eapply Tr; eauto; right; auto) ltac:(intros; apply Tot; auto; right; auto) ND').
    assert (NI' : ~ In a (sort gt l)) by (intros Q; apply NI; eapply Permutation_in; [apply sort_perm|exact Q]).
    assert (Sub : forall b, In b (sort gt l) -> In b l) by (intros b Q; eapply Permutation_in; [apply sort_perm|exact Q]).
    clear NI ND ND'. revert IH NI' Sub. generalize (sort gt l). intros m IH.
    induction IH as [|b m S IHm F]; intros NI Sub; cbn [insert].
    - repeat constructor.
    - destruct (gt b a) eqn:Q.
      + constructor; [apply IHm; [intros Q2; apply NI; right; auto|intros; apply Sub; right; auto]|].
        apply Forall_forall. intros c Hc. eapply Permutation_in in Hc; [|apply insert_perm].
        destruct Hc as [<-|Hc]; [exact Q|]. rewrite Forall_forall in F. auto.
      + assert (G : gt a b = true).
        { destruct (gt a b) eqn:Q2; [reflexivity|]. exfalso. apply NI. left. symmetry.
          apply Tot; auto; [left; auto|right; apply Sub; left; auto]. }
        constructor; [constructor; auto|]. constructor; auto. rewrite Forall_forall in *. intros c Hc.
        apply (Tr a b c); auto; [left; auto|right; apply Sub; left; auto|right; apply Sub; right; auto].
  Qed.

  Lemma pair_gt_trans : forall {R} (sc : scalar R) dom a b c, weak_order dom (sltb sc) ->
    dom (fst a) -> dom (fst b) -> dom (fst c) ->
    pair_gt sc a b = true -> pair_gt sc b c = true -> pair_gt sc a c = true.
  Proof.
    intros R sc dom [a i] [b j] [c k] WO Da Db Dc. unfold pair_gt; cbn [fst snd] in *.
    destruct (sltb sc b a) eqn:E1; destruct (sltb sc c b) eqn:E2; cbn [orb].
    - intros _ _. destruct WO as (_ & Tr & _). rewrite (Tr c b a) by auto. reflexivity.
    - intros _ H. assert (Q : sltb sc b c = false) by (destruct (sltb sc b c); [discriminate|reflexivity]).
      rewrite (weak_le_lt dom _ c b a WO); auto.
    - intros H _. assert (Q : sltb sc a b = false) by (destruct (sltb sc a b); [discriminate|reflexivity]).
      rewrite (weak_lt_le dom _ c b a WO); auto.
    - intros H1 H2.
      assert (Q1 : sltb sc a b = false) by (destruct (sltb sc a b); [discriminate|reflexivity]).
      assert (Q2 : sltb sc b c = false) by (destruct (sltb sc b c); [discriminate|reflexivity]).
      destruct WO as (_ & _ & NT). rewrite (NT c b a), (NT a b c) by auto. rewrite Q1, Q2 in *. cbn in *. lia.
  Qed.

  Lemma pair_gt_total : forall {R} (sc : scalar R) (a b : R * Z),
    pair_gt sc a b = false -> pair_gt sc b a = false -> snd a = snd b.
  Proof.
    intros R sc [a i] [b j]. unfold pair_gt; cbn [fst snd].
    destruct (sltb sc b a) eqn:E1; destruct (sltb sc a b) eqn:E2; cbn [orb negb andb]; try discriminate. lia.
  Qed.

  Lemma pair_gt_spec : forall {R} (sc : scalar R) dom a b, weak_order dom (sltb sc) ->
    dom (fst a) -> dom (fst b) -> pair_gt sc a b = true ->
    sltb sc (fst a) (fst b) = false /\ (sltb sc (fst b) (fst a) = false -> snd b < snd a).
  Proof.
    intros R sc dom [a i] [b j] WO Da Db. unfold pair_gt; cbn [fst snd] in *.
    destruct (sltb sc b a) eqn:E1; destruct (sltb sc a b) eqn:E2; cbn [orb negb andb]; try discriminate.
    - rewrite (weak_asym dom _ b a WO Db Da E1) in E2. discriminate.
    - intros _. split; auto. discriminate.
    - intros H. split; auto. intros _. lia.
  Qed.

  (** Pairs with different second components. *)
  Lemma same_snd : forall {A} (l : list (A * Z)) a b, NoDup (map snd l) -> In a l -> In b l -> snd a = snd b -> a = b.
  Proof.
    intros A l. induction l as [|c l IH]; intros a b ND Ha Hb E; [destruct Ha|].
    cbn [map] in ND. inversion ND as [|? ? NI ND']; subst.
    destruct Ha as [<-|Ha], Hb as [<-|Hb]; auto.
    - exfalso. apply NI. rewrite E. apply in_map; auto.
    - exfalso. apply NI. rewrite <- E. apply in_map; auto.
  Qed.

  Lemma sort_pairs : forall {R} (sc : scalar R) dom (l : list (R * Z)), weak_order dom (sltb sc) ->
    (forall a, In a l -> dom (fst a)) -> NoDup (map snd l) ->
    StronglySorted (fun a b => pair_gt sc a b = true) (sort (pair_gt sc) l).
  Proof.
    intros R sc dom l WO HD ND. apply sort_sorted.
    - intros a b c Ha Hb Hc. apply (pair_gt_trans sc dom); auto.
    - intros a b Ha Hb H1 H2. apply (same_snd l); auto. eapply pair_gt_total; eauto.
    - apply (NoDup_map_inv snd); auto.
  Qed.

  (** Consecutive writes into two vectors. *)
  Lemma write_pairs_ok : forall {R} (dr : dtype V R) (dn : dtype V Z) y z k k' l i s,
    tdims y = [k] -> tdims z = [k'] -> 0 <= i -> i + Z.of_nat (length l) <= k -> i + Z.of_nat (length l) <= k' ->
    mapped s y -> mapped s z -> disjoint y z ->
    exists s', write_pairs dr dn y z i l s = Ok tt s' /\ nextb s' = nextb s /\
      (forall q v, nth_error l q = Some v ->
         cells s' (addr y [i + Z.of_nat q]) = Init (emb dr (fst v)) /\
         cells s' (addr z [i + Z.of_nat q]) = Init (emb dn (snd v))) /\
      (forall p, (forall q, i <= q < i + Z.of_nat (length l) -> p <> addr y [q] /\ p <> addr z [q]) ->
         cells s' p = cells s p).
  Proof.
    intros R dr dn y z k k' l. induction l as [|v l IH]; intros i s Ey Ez Hi Hk Hk' My Mz D; cbn [write_pairs].
    - exists s. split; [reflexivity|]. split; [auto|]. split; [|auto]. intros [|q] v Hq; discriminate.
    - cbn [length] in Hk, Hk'. rewrite Nat2Z.inj_succ in Hk, Hk'.
      assert (Vy : valid (tdims y) [i]) by (rewrite Ey; cbn; lia).
      assert (Vz : valid (tdims z) [i]) by (rewrite Ez; cbn; lia).
      rewrite (bind_ok _ _ _ _ _ (set_ok dr s y [i] (fst v) (mapped_addr s y [i] My Vy))).
      set (s1 := upd s (addr y [i]) (emb dr (fst v))).
      assert (U : forall (t : tensor) (w : st V) p x, mapped w t -> mapped (upd w p x) t).
      { intros t w p x Hm q Hq. cbn [cells upd]. destruct (loc_eqb q p); [discriminate|apply Hm; auto]. }
      rewrite (bind_ok _ _ _ _ _ (set_ok dn s1 z [i] (snd v) (mapped_addr s1 z [i] (U z s _ _ Mz) Vz))).
      set (s2 := upd s1 (addr z [i]) (emb dn (snd v))).
      destruct (IH (i + 1) s2 Ey Ez) as (s' & E & N & W & F); try lia; try (apply U, U; auto); auto.
      assert (YZ : forall a b, 0 <= a < k -> 0 <= b < k' -> addr y [a] <> addr z [b]).
      { intros a b Ha Hb Q. apply (D (addr y [a])); [apply addr_foot; rewrite Ey; cbn; lia|].
        rewrite Q. apply addr_foot. rewrite Ez. cbn. lia. }
      assert (YY : forall a b, 0 <= a < k -> 0 <= b < k -> addr y [a] = addr y [b] -> a = b).
      { intros a b Ha Hb Q. apply addr_inj in Q; [congruence| |]; rewrite Ey; cbn; lia. }
      assert (ZZ : forall a b, 0 <= a < k' -> 0 <= b < k' -> addr z [a] = addr z [b] -> a = b).
      { intros a b Ha Hb Q. apply addr_inj in Q; [congruence| |]; rewrite Ez; cbn; lia. }
      exists s'. split; [exact E|]. split; [rewrite N; reflexivity|]. split.
      + intros [|q] w Hq; cbn [nth_error] in Hq.
        * inversion Hq; subst w. rewrite Z.add_0_r. rewrite !F.
          -- unfold s2, s1. cbn [cells upd]. split.
             ++ replace (loc_eqb (addr y [i]) (addr z [i])) with false.
                ** replace (loc_eqb (addr y [i]) (addr y [i])) with true; [reflexivity|].
                   symmetry. apply loc_eqb_true; auto.
                ** symmetry. destruct (loc_eqb (addr y [i]) (addr z [i])) eqn:Q; [|reflexivity].
                   apply loc_eqb_true in Q. exfalso. revert Q. apply YZ; lia.
             ++ replace (loc_eqb (addr z [i]) (addr z [i])) with true; [reflexivity|].
                symmetry. apply loc_eqb_true; auto.
          -- intros q Hq2. split; [intros Q; symmetry in Q; revert Q; apply YZ; lia|].
             intros Q. apply ZZ in Q; lia.
          -- intros q Hq2. split; [|apply YZ; lia]. intros Q. apply YY in Q; lia.
        * replace (i + Z.of_nat (S q)) with (i + 1 + Z.of_nat q) by lia. apply W; auto.
      + intros p Hp. cbn [length] in Hp. rewrite Nat2Z.inj_succ in Hp. rewrite F by (intros q Hq; apply Hp; lia).
        destruct (Hp i ltac:(lia)) as [P1 P2]. unfold s2, s1. cbn [cells upd].
        replace (loc_eqb p (addr z [i])) with false; [replace (loc_eqb p (addr y [i])) with false; [reflexivity|]|].
        * symmetry. destruct (loc_eqb p (addr y [i])) eqn:Q; [|reflexivity]. apply loc_eqb_true in Q. contradiction.
        * symmetry. destruct (loc_eqb p (addr z [i])) eqn:Q; [|reflexivity]. apply loc_eqb_true in Q. contradiction.
  Qed.

  Lemma NoDup_firstn : forall {A} n (l : list A), NoDup l -> NoDup (firstn n l).
  Proof.
    intros A n l. revert n. induction l as [|a l IH]; intros [|n] H; cbn; try constructor; inversion H; subst; auto.
    intros Q. apply H2. rewrite <- (firstn_skipn n l). apply in_or_app. auto.
  Qed.

  Lemma sorted_nth : forall {A} (Rl : A -> A -> Prop) l, StronglySorted Rl l ->
    forall p q a b, (p < q)%nat -> nth_error l p = Some a -> nth_error l q = Some b -> Rl a b.
  Proof.
    intros A Rl l H. induction H as [|x l S IH F]; intros p q a b Hpq Ha Hb; [destruct p; discriminate|].
    destruct p as [|p], q as [|q]; cbn in *; try lia.
    - inversion Ha; subst. rewrite Forall_forall in F. apply F. eapply nth_error_In; eauto.
    - eapply IH; [|eauto|eauto]. lia.
  Qed.

  Lemma nth_firstn : forall {A} n (l : list A) p, (p < n)%nat -> nth_error (firstn n l) p = nth_error l p.
  Proof.
    intros A n. induction n as [|n IH]; intros [|a l] [|p] H; cbn; auto; try lia. apply IH. lia.
  Qed.

  Lemma top_ok : forall {R} (dr : dtype V R) (dn : dtype V Z) N sc dom y z x n k X s,
    0 < it_bits N -> tdims x = [n] -> tdims y = [k] -> tdims z = [k] -> 0 <= n -> 0 <= k ->
    0 <= conv N n -> 0 <= conv N k ->
    holds dr s x X -> mapped s y -> mapped s z -> disjoint y z -> weak_order dom (sltb sc) ->
    (forall i, 0 <= i < conv N n -> dom (X [i])) ->
    let n0 := conv N n in let m := Z.min n0 (conv N k) in
    exists s' L, op_top dr dn N sc y z x s = Ok tt s' /\ nextb s' = nextb s /\
      Z.of_nat (length L) = m /\ NoDup L /\ (forall i, In i L -> 0 <= i < n0) /\
      (forall p i, nth_error L p = Some i ->
         cells s' (addr y [Z.of_nat p]) = Init (emb dr (X [i])) /\
         cells s' (addr z [Z.of_nat p]) = Init (emb dn i)) /\
      (forall p q i j, (p < q)%nat -> nth_error L p = Some i -> nth_error L q = Some j ->
         sltb sc (X [i]) (X [j]) = false /\ (sltb sc (X [j]) (X [i]) = false -> j < i)) /\
      (forall i j, In i L -> 0 <= j < n0 -> ~ In j L ->
         sltb sc (X [i]) (X [j]) = false /\ (sltb sc (X [j]) (X [i]) = false -> j < i)) /\
      (forall p, (forall q, 0 <= q < m -> p <> addr y [q] /\ p <> addr z [q]) -> cells s' p = cells s p).
  Proof.
    intros R dr dn N sc dom y z x n k X s Hb Ex Ey Ez Hn Hk Cn Ck HX My Mz D SO HD n0 m.
    pose proof (conv_le N n Hb Hn) as Ln. pose proof (conv_le N k Hb Hk) as Lk.
    set (P := map (fun i => (X [i], i)) (zrange n0)).
    set (w := sort (pair_gt sc) P).
    assert (Sz : forall t d, tdims t = [d] -> size t = d) by (intros t d E; unfold size; rewrite E; cbn; lia).
    assert (RP : read_pairs dr N x (zrange n0) s = Ok P s).
    { apply (read_pairs_ok dr N x n X); auto. intros i Hi. apply in_zrange in Hi. split; [unfold n0 in *; lia|].
      apply (conv_small N i n); auto. }
    assert (PW : Permutation w P) by apply sort_perm.
    assert (NP : NoDup (map snd P)).
    { unfold P. rewrite map_map. cbn [snd]. rewrite map_id. apply NoDup_zrange. }
    assert (Lw : length w = Z.to_nat n0).
    { rewrite (Permutation_length PW). unfold P. rewrite map_length, length_zrange. reflexivity. }
    assert (SW : StronglySorted (fun a b => pair_gt sc a b = true) w).
    { apply (sort_pairs sc dom); auto. intros a Ha. unfold P in Ha. apply in_map_iff in Ha.
      destruct Ha as (i & <- & Hi). apply in_zrange in Hi. apply HD; auto. }
    assert (IW : forall v, In v w -> v = (X [snd v], snd v) /\ 0 <= snd v < n0).
    { intros v Hv. apply (Permutation_in _ PW) in Hv. unfold P in Hv. apply in_map_iff in Hv.
      destruct Hv as (i & <- & Hi). apply in_zrange in Hi. auto. }
    set (l := firstn (Z.to_nat m) w).
    assert (Ll : Z.of_nat (length l) = m) by (unfold l; rewrite firstn_length, Lw; unfold m in *; lia).
    destruct (write_pairs_ok dr dn y z k k l 0 s) as (s' & E & Nb & W & F); auto; try (unfold m in *; lia).
    exists s', (map snd l).
    assert (IL : forall v, In v l -> In v w).
    { intros v Hv. rewrite <- (firstn_skipn (Z.to_nat m) w). apply in_or_app. auto. }
    assert (NthL : forall p i, nth_error (map snd l) p = Some i ->
      nth_error w p = Some (X [i], i) /\ nth_error l p = Some (X [i], i)).
    { intros p i Hp. rewrite nth_error_map in Hp. destruct (nth_error l p) as [v|] eqn:Q; [|discriminate].
      cbn in Hp. inversion Hp; subst i. assert (In v l) by (eapply nth_error_In; eauto).
      destruct (IW v (IL v H)) as [Ev _]. rewrite <- Ev. split; [|reflexivity].
      rewrite <- Q. symmetry. apply nth_firstn. clear - Q. apply nth_error_Some_lt in Q. unfold l in Q. rewrite firstn_length in Q. lia. }
    split; [|split; [exact Nb|split; [|split; [|split; [|split; [|split; [|split]]]]]]].
    - unfold op_top. rewrite (Sz x n Ex), (Sz y k Ey). fold n0. replace (n0 <? 0) with false by (unfold n0; lia).
      rewrite (bind_ok _ _ _ _ _ RP). cbv zeta. fold m. replace (m <? 0) with false by (unfold m; lia). exact E.
    - rewrite map_length. exact Ll.
    - unfold l. rewrite <- firstn_map. apply NoDup_firstn.
      eapply Permutation_NoDup; [apply Permutation_map, Permutation_sym, PW|].
      unfold P. rewrite map_map. cbn [snd]. rewrite map_id. apply NoDup_zrange.
    - intros i Hi. apply in_map_iff in Hi. destruct Hi as (v & <- & Hv). apply IW. auto.
    - intros p i Hp. destruct (NthL p i Hp) as [_ Q]. exact (W p _ Q).
    - intros p q i j Hpq Hp Hq. destruct (NthL p i Hp) as [Q1 _]. destruct (NthL q j Hq) as [Q2 _].
      assert (Bi : 0 <= i < n0) by (apply (IW (X [i], i)); eapply nth_error_In; eauto).
      assert (Bj : 0 <= j < n0) by (apply (IW (X [j], j)); eapply nth_error_In; eauto).
      apply (pair_gt_spec sc dom (X [i], i) (X [j], j)); auto; try (apply HD; auto). apply (sorted_nth _ w SW p q); auto.
    - intros i j Hi Hj Hn'. apply In_nth_error in Hi. destruct Hi as [p Hp].
      destruct (NthL p i Hp) as [Q1 Ql].
      assert (Hw : In (X [j], j) w).
      { apply (Permutation_in _ (Permutation_sym PW)). unfold P. apply in_map_iff. exists j. split; auto.
        apply in_zrange; auto. }
      apply In_nth_error in Hw. destruct Hw as [q Hq].
      assert (Bi : 0 <= i < n0) by (apply (IW (X [i], i)); eapply nth_error_In; eauto).
      apply (pair_gt_spec sc dom (X [i], i) (X [j], j)); auto; try (apply HD; auto). apply (sorted_nth _ w SW p q); auto.
      apply nth_error_Some_lt in Ql. unfold l in Ql. rewrite firstn_length in Ql.
      destruct (Nat.lt_ge_cases p q) as [|Ge]; [auto|]. exfalso. apply Hn'. apply in_map_iff.
      exists (X [j], j). split; auto. apply (nth_error_In _ q). unfold l. rewrite nth_firstn by lia. auto.
    - intros p Hp. apply F. intros q Hq. apply Hp. lia.
  Qed.

  (** *** similarity *)
  Definition diffs {A} (neqb : A -> A -> bool) (ds : list Z) (X Y : list Z -> A) : Z :=
    Z.of_nat (length (List.filter (fun ix => neqb (X ix) (Y ix)) (indices ds))).

  Lemma hamming_ok : forall {A} (d1 : dtype V A) neqb x y X Y s,
    dims_ok x -> tdims y = tdims x -> holds d1 s x X -> holds d1 s y Y ->
    hamming d1 neqb (flat x) (flat y) s = Ok (diffs neqb (tdims x) X Y) s.
  Proof.
    intros A d1 neqb x y X Y s D E HX HY. unfold hamming.
    assert (D' : dims_ok y) by (unfold dims_ok in *; congruence).
    replace (size (flat x)) with (size x) by (unfold size; cbn; lia).
    erewrite foldM_pure with (g := fun c o => if neqb (X (expand (tdims x) o)) (Y (expand (tdims x) o)) then c + 1 else c).
    - f_equal. unfold diffs. rewrite indices_expand by auto. change (prod (tdims x)) with (size x).
      assert (G : forall l c, fold_left (fun c o => if neqb (X (expand (tdims x) o)) (Y (expand (tdims x) o)) then c + 1 else c) l c
        = c + Z.of_nat (length (List.filter (fun ix => neqb (X ix) (Y ix)) (map (expand (tdims x)) l)))).
      { intros l. induction l as [|o l IH]; intros c; cbn [fold_left map List.filter length]; [lia|].
        destruct (neqb _ _); rewrite IH; cbn [length]; lia. }
      rewrite G. lia.
    - intros c o Ho. apply in_zrange in Ho.
      change (daddr (flat x) o) with (daddr x o). change (daddr (flat y) o) with (daddr y o).
      rewrite (bind_ok _ _ _ _ _ (load_ok d1 s (daddr x o) _ (holds_daddr d1 s x X o D HX Ho))).
      assert (Ho' : 0 <= o < size y) by (unfold size in *; rewrite E; auto).
      rewrite (bind_ok _ _ _ _ _ (load_ok d1 s (daddr y o) _ (holds_daddr d1 s y Y o D' HY Ho'))).
      rewrite E. reflexivity.
  Qed.
End Facts.
