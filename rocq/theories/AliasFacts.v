(** Proofs about calls whose output shares storage with an input. *)
From Coq Require Import ZArith List Bool Lia Ring_theory Ring.
From Verif Require Import Base BaseFacts TensorFacts Traits TraitsSpec Scalar LinAlg LinAlgFacts Conv ConvSpec ConvFacts Pool PoolSpec PoolFacts.
Import ListNotations.
Open Scope Z_scope.
Open Scope model_scope.

Section InPlace.
  Context {V T : Type} (dt : dtype V T) (sc : scalar T) (laws : ring_laws sc).
  Let rt : ring_theory (s0 sc) (s1 sc) (sadd sc) (smul sc) (ssub sc) (sneg sc) (@eq T) := laws.
  Add Ring scring : rt.

  (** A loop that keeps [z] filled with zeros. *)
  Lemma zeros_loop : forall z n (f : Z -> M V unit) (P : st V -> Prop) s,
    0 <= n -> P s -> (forall k s', 0 <= k < n -> P s' -> exists s'', f k s' = Ok tt s'' /\ P s'') ->
    (forall s', P s' -> nextb s <= nextb s' /\ holds dt s' z (fun _ => s0 sc) /\
       forall p, ~ foot z p -> cells s' p = cells s p) ->
    writes dt (for_ (zrange n) f) s z (fun _ => s0 sc).
  Proof using.
    intros z n f P s Hn H0 St Out. destruct (for_range_inv n f (fun _ => P) s) as (s' & E & Q); auto.
    exists s'. split; [exact E|]. destruct (Out s' Q) as (A & B & C). repeat split; auto.
  Qed.

  Lemma same_addr : forall z x ix, same_cells z x -> addr x ix = addr z ix.
  Proof using. intros z x ix (A & B & C). unfold addr, daddr. rewrite A, B, C. reflexivity. Qed.

  (** The product zeroes the output first; an operand stored there is lost. *)
  Lemma mm_in_place : forall a b c n m l X s,
    tdims a = [m; l] -> tdims b = [l; n] -> tdims c = [m; n] -> 0 <= m -> 0 <= l -> 0 <= n ->
    mapped s c ->
    (same_cells c a /\ disjoint c b /\ holds dt s b X) \/ (same_cells c b /\ disjoint c a /\ holds dt s a X) \/
    (same_cells c a /\ same_cells c b) ->
    writes dt (mm dt sc a b c) s c (fun _ => s0 sc).
  Proof.
    intros a b c n m l X s Ea Eb Ec Hm Hl Hn HC Al.
    assert (Dc : dims_ok c) by (eapply dims2; eauto).
    eapply writes_ext; [symmetry|reflexivity|].
    { unfold mm, nth_dim. rewrite Ea, Eb, Ec. cbn [nth].
      rewrite !Z.eqb_refl. unfold contract. rewrite !bind_ret_l. reflexivity. }
    unfold memset0. apply writes_seq_fill; auto.
    intros s1 N1 H1 F1.
    set (P := fun s' : st V => nextb s1 <= nextb s' /\ holds dt s' c (fun _ => s0 sc) /\
       forall p, ~ foot c p -> cells s' p = cells s1 p).
    assert (P1 : P s1) by (repeat split; auto; lia).
    assert (Rd : forall t r q s' ix, tdims t = [r; q] ->
       same_cells c t \/ (disjoint c t /\ holds dt s t X) -> P s' -> valid [r; q] ix ->
       exists v, at_ dt t ix s' = Ok v s' /\ (same_cells c t -> v = s0 sc)).
    { intros t r q s' ix Et Or (N & Hz & Fr) Vi.
      destruct Or as [S_|(D & HX)].
      - exists (s0 sc). split; [|auto]. unfold at_. rewrite (same_addr c t) by auto. apply load_ok.
        apply Hz. destruct S_ as (_ & _ & <-) in Et. rewrite Et. exact Vi.
      - exists (X ix). split.
        + eapply at_frame; eauto; [|rewrite Et; exact Vi]. intros p Hp. rewrite Fr, F1; auto.
        + intros S_. exfalso. destruct S_ as (A & B & E).
          apply (D (addr t ix)); [|apply addr_foot; rewrite Et; exact Vi].
          rewrite (same_addr c t) by (repeat split; auto). apply addr_foot. rewrite E, Et. exact Vi. }
    apply (zeros_loop c m _ P); auto.
    intros i s2 Hi P2.
    destruct (for_range_inv l (fun k => aa <- at_ dt a [i; k] ;;
         for_ (zrange n) (fun j => cc <- at_ dt c [i; j] ;; bb <- at_ dt b [k; j] ;;
            set_ dt c [i; j] (sadd sc cc (smul sc aa bb)))) (fun _ => P) s2) as (s3 & E3 & P3); auto; [|eauto].
    intros k s' Hk Ps.
    destruct (Rd a m l s' [i; k] Ea) as (aa & Ra & Za); [tauto|auto|cbn; auto|].
    rewrite (bind_ok _ _ _ _ _ Ra).
    apply (for_range_inv n _ (fun _ => P)); auto.
    intros j s4 Hj P4.
    assert (Rc : at_ dt c [i; j] s4 = Ok (s0 sc) s4).
    { unfold at_. apply load_ok. apply P4. rewrite Ec. cbn. auto. }
    rewrite (bind_ok _ _ _ _ _ Rc).
    destruct (Rd b l n s4 [k; j] Eb) as (bb & Rb & Zb); [tauto|auto|cbn; auto|].
    rewrite (bind_ok _ _ _ _ _ Rb).
    assert (Z0 : sadd sc (s0 sc) (smul sc aa bb) = s0 sc).
    { destruct Al as [(A & _)|[(A & _)|(A & _)]]; [rewrite (Za A)|rewrite (Zb A)|rewrite (Za A)]; ring. }
    rewrite Z0. eexists. split.
    - apply set_ok. destruct P4 as (_ & Hz & _). rewrite (Hz [i; j]); [discriminate|]. rewrite Ec. cbn. auto.
    - destruct P4 as (N & Hz & Fr). split; [exact N|]. split.
      + intros ix Hix. unfold upd; cbn. destruct (loc_eqb _ _); auto.
      + intros p Hp. unfold upd; cbn. destruct (loc_eqb_spec p (addr c [i; j])) as [->|]; auto.
        exfalso. apply Hp, addr_foot. rewrite Ec. cbn. auto.
  Qed.
End InPlace.

(** ** Loops that write in a known order *)

Lemma writes_loop_order : forall {V T} (dt : dtype V T) (z : tensor) N (pi : Z -> list Z)
    (f : Z -> M V unit) (X : list Z -> T) (s : st V),
  0 <= N ->
  (forall o, 0 <= o < N -> valid (tdims z) (pi o)) ->
  (forall a b, 0 <= a < N -> 0 <= b < N -> pi a = pi b -> a = b) ->
  (forall ix, valid (tdims z) ix -> exists o, 0 <= o < N /\ pi o = ix) ->
  (forall o s', 0 <= o < N -> nextb s <= nextb s' ->
     (forall p, (forall q, 0 <= q < o -> p <> addr z (pi q)) -> cells s' p = cells s p) ->
     f o s' = Ok tt (upd s' (addr z (pi o)) (emb dt (X (pi o))))) ->
  writes dt (for_ (zrange N) f) s z X.
Proof.
  intros V T dt z N pi f X s HN Val Inj Sur St.
  destruct (for_range_inv N f (fun k s' => nextb s <= nextb s' /\
     (forall p, (forall q, 0 <= q < k -> p <> addr z (pi q)) -> cells s' p = cells s p) /\
     (forall q, 0 <= q < k -> cells s' (addr z (pi q)) = Init (emb dt (X (pi q))))) s) as (s' & E & N' & F & C); auto.
  - repeat split; auto; try lia.
  - intros k s' Hk (N' & F & C). rewrite (St k s' Hk N' F). eexists. split; [reflexivity|]. split; [exact N'|]. split.
    + intros p Hp. unfold upd; cbn. destruct (loc_eqb_spec p (addr z (pi k))) as [->|Ne].
      * exfalso. apply (Hp k); auto. lia.
      * apply F. intros q Hq. apply Hp. lia.
    + intros q Hq. unfold upd; cbn. destruct (loc_eqb_spec (addr z (pi q)) (addr z (pi k))) as [Eq|Ne].
      * apply addr_inj in Eq; [|apply Val; lia|apply Val; lia]. rewrite Eq. reflexivity.
      * apply C. assert (q <> k) by (intros ->; auto). lia.
  - exists s'. split; [exact E|]. split; [|split; [exact N'|]].
    + intros ix Hix. destruct (Sur ix Hix) as (o & Ho & <-). apply C; auto.
    + intros p Hp. apply F. intros q Hq ->. apply Hp, addr_foot, Val, Hq.
Qed.

Lemma writes_rows_order : forall {V T} (dt : dtype V T) (z : tensor) d ds (f : Z -> M V unit) (X : list Z -> T) (s : st V),
  dims_ok z -> tdims z = d :: ds ->
  (forall i s', 0 <= i < d -> nextb s <= nextb s' ->
     (forall p, (forall q, 0 <= q < i -> ~ foot (sub z q) p) -> cells s' p = cells s p) ->
     writes dt (f i) s' (sub z i) (fun ix => X (i :: ix))) ->
  writes dt (for_ (zrange d) f) s z X.
Proof.
  intros V T dt z d ds f X s Dz Ez St.
  assert (Hd : 0 <= d) by (unfold dims_ok in Dz; rewrite Ez in Dz; inversion Dz; auto).
  destruct (for_range_inv d f (fun k s' => nextb s <= nextb s' /\
     (forall p, (forall q, 0 <= q < k -> ~ foot (sub z q) p) -> cells s' p = cells s p) /\
     (forall q, 0 <= q < k -> holds dt s' (sub z q) (fun ix => X (q :: ix)))) s) as (s' & E & N' & F & C); auto.
  - repeat split; auto; try lia.
  - intros k s1 Hk (N1 & F1 & C1). destruct (St k s1 Hk N1 F1) as (s2 & E2 & H2 & N2 & F2).
    exists s2. split; [exact E2|]. split; [lia|]. split.
    + intros p Hp. rewrite F2 by (apply Hp; lia). apply F1. intros q Hq. apply Hp. lia.
    + intros q Hq. destruct (Z.eq_dec q k) as [->|Ne]; [exact H2|].
      eapply holds_frame; [|apply C1; lia]. intros p Hp. apply F2. intros Q. apply Ne.
      eapply (foot_sub_inj z q k d ds); eauto; lia.
  - exists s'. split; [exact E|]. split; [|split; [exact N'|]].
    + intros ix Hix. rewrite Ez in Hix. destruct ix as [|i ix]; [destruct Hix|]. destruct Hix as [Hi Hix].
      rewrite <- (addr_sub _ _ _ _ _ Ez). apply C; auto. rewrite (tdims_sub _ _ _ _ Ez). exact Hix.
    + intros p Hp. apply F. intros q Hq Q. apply Hp. eapply foot_sub; eauto.
Qed.

(** ** Pools written from the start of their image or before *)
Section Pools.
  Context {V T : Type} (dt : dtype V T) (A : accumulator T).

  Lemma acc_loop_window : forall H W h w h' w' i_ j_ (ld : Z -> Z -> M V T) (X : Z -> Z -> T) s,
    axis_fits H h h' -> axis_fits W w w' -> 0 <= i_ < h' -> 0 <= j_ < w' ->
    (forall u v, 0 <= u < ksize (sfilter H) -> 0 <= v < ksize (sfilter W) ->
       0 <= wpos H i_ u < h -> 0 <= wpos W j_ v < w ->
       ld (wpos H i_ u) (wpos W j_ v) s = Ok (X (wpos H i_ u) (wpos W j_ v)) s) ->
    foldM (zrange (ksize (sfilter H))) (fun acc u =>
      foldM (zrange (ksize (sfilter W))) (fun acc v =>
        q <- lift (source H W h w i_ j_ u v) ;;
        match q with
        | Some (i, j) => a <- ld i j ;; ret (acc_step A acc a)
        | None => ret acc
        end) acc) (acc0 A) s
    = Ok (fold_left (acc_step A) (map (fun p => X (fst p) (snd p)) (window H W h w i_ j_)) (acc0 A)) s.
  Proof.
    intros H W h w h' w' i_ j_ ld X s AH AW Hi Hj HL.
    rewrite fold_left_map, <- fold_window. apply foldM_pure. intros acc u Hu. apply in_zrange in Hu.
    apply foldM_pure. intros acc' v Hv. apply in_zrange in Hv.
    rewrite (source_fits H W h w h' w' i_ j_ u v) by auto. unfold lift. rewrite bind_ret_l.
    destruct (inb h (wpos H i_ u) && inb w (wpos W j_ v)) eqn:E; [|reflexivity].
    apply andb_true_iff in E. rewrite !inb_iff in E. destruct E as [E1 E2].
    rewrite (bind_ok _ _ _ _ _ (HL _ _ Hu Hv E1 E2)). reflexivity.
  Qed.

  (** Without left padding a window starts at or behind its own index. *)
  Lemma wpos_ge : forall sp n m i u, axis_fits sp n m -> left_ (spadding sp) = 0 -> 0 <= i -> 0 <= u -> i <= wpos sp i u.
  Proof. intros sp n m i u Fi L Hi Hu. unfold axis_fits in Fi. unfold wpos, tap. rewrite L. nia. Qed.

  Lemma pool_hw_behind : forall H W y x h w h' w' X Y s,
    axis_fits H h h' -> axis_fits W w w' -> left_ (spadding H) = 0 -> left_ (spadding W) = 0 -> w' <= w ->
    tdims x = [h; w] -> tdims y = [h'; w'] ->
    holds dt s x X -> mapped s y -> (tblk y = tblk x -> tbase y <= tbase x) ->
    (forall i j, 0 <= i < h' -> 0 <= j < w' ->
       pooled A (map (fun p => X [fst p; snd p]) (window H W h w i j)) = Ret (Y [i; j])) ->
    writes dt (pool_hw dt A H W y x) s y Y.
  Proof.
    intros H W y x h w h' w' X Y s AH AW LH LW Hw Ex Ey HX HY B HP.
    assert (Nn : nonneg [h'; w']) by (unfold axis_fits in *; repeat constructor; tauto).
    eapply writes_ext; [symmetry|reflexivity|].
    { unfold pool_hw, nth_dim. rewrite Ex, Ey. cbn [nth]. rewrite for_nest2, indices_expand, for_map by auto. reflexivity. }
    apply writes_loop_order with (pi := expand [h'; w']).
    - apply prod_nonneg; auto.
    - intros o Ho. rewrite Ey. apply valid_expand; auto.
    - intros a b Ha Hb E. rewrite <- (offset_expand [h'; w'] a), <- (offset_expand [h'; w'] b) by auto. congruence.
    - intros ix Hix. rewrite Ey in Hix. exists (offset [h'; w'] ix). split; [apply offset_bound; auto|apply expand_offset; auto].
    - intros o s' Ho N F.
      assert (Ao : forall q, 0 <= q < prod [h'; w'] -> addr y (expand [h'; w'] q) = daddr y q).
      { intros q Hq. unfold addr. rewrite Ey, offset_expand by auto. reflexivity. }
      assert (Own : cells s' (addr y (expand [h'; w'] o)) = cells s (addr y (expand [h'; w'] o))).
      { apply F. intros q Hq E. rewrite !Ao in E by lia. apply daddr_inj in E. lia. }
      assert (Off := offset_expand [h'; w'] o Nn Ho).
      assert (Vo := valid_expand [h'; w'] o Nn Ho).
      remember (expand [h'; w'] o) as ix. apply valid_2 in Vo. destruct Vo as (i & j & -> & Hi & Hj).
      cbn [offset prod] in Off. unfold arg2; cbn [nth].
      erewrite bind_ok; [|apply (acc_loop_window H W h w h' w' i j (fun i j => at_ dt x [i; j]) (fun i j => X [i; j]) s'); auto].
      + unfold pooled in HP. rewrite HP by auto. unfold lift. rewrite bind_ret_l.
        apply set_ok. rewrite Own. apply mapped_addr; auto. rewrite Ey; simpl; auto.
      + intros u v Hu Hv Ha Hb. unfold at_. apply load_ok. rewrite F; [apply HX; rewrite Ex; simpl; auto|].
        intros q Hq E. rewrite Ao in E by lia.
        unfold addr, daddr in E. rewrite Ex in E. cbn [offset prod] in E. injection E as E1 E2. specialize (B (eq_sym E1)).
        pose proof (wpos_ge H h h' i u AH LH ltac:(lia) ltac:(lia)).
        pose proof (wpos_ge W w w' j v AW LW ltac:(lia) ltac:(lia)).
        assert (i * w' <= wpos H i u * w) by nia. lia.
  Qed.

  Lemma pool_hwc_behind : forall H W y x h w c h' w' X Y s,
    axis_fits H h h' -> axis_fits W w w' -> left_ (spadding H) = 0 -> left_ (spadding W) = 0 -> w' <= w -> 0 <= c ->
    tdims x = [h; w; c] -> tdims y = [h'; w'; c] ->
    holds dt s x X -> mapped s y -> (tblk y = tblk x -> exists e, 0 <= e /\ tbase x = tbase y + e * c) ->
    (forall i j k, 0 <= i < h' -> 0 <= j < w' -> 0 <= k < c ->
       pooled A (map (fun p => X [fst p; snd p; k]) (window H W h w i j)) = Ret (Y [i; j; k])) ->
    writes dt (pool_hwc dt A H W y x) s y Y.
  Proof.
    intros H W y x h w c h' w' X Y s AH AW LH LW Hw Hc Ex Ey HX HY B HP.
    assert (Nn : nonneg [c; h'; w']) by (unfold axis_fits in *; repeat constructor; tauto).
    eapply writes_ext; [symmetry|reflexivity|].
    { unfold pool_hwc, nth_dim. rewrite Ex, Ey. cbn [nth]. rewrite Z.eqb_refl. unfold contract.
      rewrite bind_ret_l, for_nest3, indices_expand, for_map by auto. reflexivity. }
    set (rot := arg3 (fun k i j : Z => [i; j; k])).
    assert (Vr : forall q, 0 <= q < prod [c; h'; w'] -> exists k i j, expand [c; h'; w'] q = [k; i; j] /\
       0 <= k < c /\ 0 <= i < h' /\ 0 <= j < w' /\ q = (k * h' + i) * w' + j).
    { intros q Hq. assert (Off := offset_expand [c; h'; w'] q Nn Hq). assert (Vo := valid_expand [c; h'; w'] q Nn Hq).
      apply valid_3 in Vo. destruct Vo as (k & i & j & E & Hk & Hi & Hj). rewrite E in Off. exists k, i, j.
      repeat split; auto; try lia. cbn [offset prod] in Off. lia. }
    apply writes_loop_order with (pi := fun o => rot (expand [c; h'; w'] o)).
    - apply prod_nonneg; auto.
    - intros o Ho. destruct (Vr o Ho) as (k & i & j & -> & ? & ? & ? & _). rewrite Ey. cbn. auto.
    - intros a b Ha Hb E. destruct (Vr a Ha) as (k & i & j & Ea & _ & _ & _ & ->).
      destruct (Vr b Hb) as (k2 & i2 & j2 & Eb & _ & _ & _ & ->). rewrite Ea, Eb in E. cbn in E. injection E as -> -> ->. reflexivity.
    - intros ix Hix. rewrite Ey in Hix. apply valid_3 in Hix. destruct Hix as (i & j & k & -> & Hi & Hj & Hk).
      exists (offset [c; h'; w'] [k; i; j]). split; [apply offset_bound; cbn; auto|].
      rewrite expand_offset by (cbn; auto). reflexivity.
    - intros o s' Ho N F. destruct (Vr o Ho) as (k & i & j & Eo & Hk & Hi & Hj & Oo). rewrite Eo.
      assert (Ad : forall a b l, addr y [a; b; l] = daddr y ((a * w' + b) * c + l)).
      { intros a b l. unfold addr. rewrite Ey. cbn [offset prod]. f_equal. lia. }
      assert (Own : cells s' (addr y [i; j; k]) = cells s (addr y [i; j; k])).
      { apply F. intros q Hq E. destruct (Vr q ltac:(lia)) as (k2 & i2 & j2 & Eq & Hk2 & Hi2 & Hj2 & Oq).
        rewrite Eq in E. unfold rot, arg3 in E; cbn [nth] in E. apply addr_inj in E; [|rewrite Ey; cbn; auto..].
        injection E as -> -> ->. lia. }
      unfold rot, arg3; cbn [nth].
      erewrite bind_ok; [|apply (acc_loop_window H W h w h' w' i j (fun i j => at_ dt x [i; j; k]) (fun i j => X [i; j; k]) s'); auto].
      + unfold pooled in HP. rewrite HP by auto. unfold lift. rewrite bind_ret_l.
        apply set_ok. rewrite Own. apply mapped_addr; auto. rewrite Ey; simpl; auto.
      + intros u v Hu Hv Ha Hb. unfold at_. apply load_ok. rewrite F; [apply HX; rewrite Ex; simpl; auto|].
        intros q Hq E. destruct (Vr q ltac:(lia)) as (k2 & i2 & j2 & Eq & Hk2 & Hi2 & Hj2 & Oq).
        rewrite Eq in E. unfold rot, arg3 in E; cbn [nth] in E. rewrite Ad in E.
        unfold addr, daddr in E. rewrite Ex in E. cbn [offset prod] in E. injection E as E1 E2.
        destruct (B (eq_sym E1)) as (e & He & Be).
        pose proof (wpos_ge H h h' i u AH LH ltac:(lia) ltac:(lia)).
        pose proof (wpos_ge W w w' j v AW LW ltac:(lia) ltac:(lia)).
        set (a := wpos H i u) in *. set (b := wpos W j v) in *.
        assert (D : (i2 * w' + j2) * c + k2 = (e + a * w + b) * c + k) by lia.
        assert (K : k2 = k).
        { assert (M : ((i2 * w' + j2) * c + k2) mod c = ((e + a * w + b) * c + k) mod c) by (rewrite D; reflexivity).
          rewrite !(Z.add_comm (_ * c)), !Z.mod_add in M by lia. rewrite !Z.mod_small in M by lia. exact M. }
        subst k2. assert (D' : i2 * w' + j2 = e + a * w + b) by nia.
        assert (i * w' <= a * w) by nia.
        assert (G : i * w' + j <= i2 * w' + j2) by lia.
        assert (q >= o) by (subst q o; nia). lia.
  Qed.
End Pools.
