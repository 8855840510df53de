(** More facts on tensors: matrix views, temporaries, sequencing. *)
From Coq Require Import ZArith List Bool Lia ZifyBool.
From Verif Require Import Base BaseFacts.
Import ListNotations.
Open Scope Z_scope.
Open Scope model_scope.

Lemma valid_split : forall p ds ix, valid ds ix ->
  valid (firstn p ds) (firstn p ix) /\ valid (skipn p ds) (skipn p ix).
Proof.
  intros p ds ix H. pose proof (valid_length _ _ H) as L.
  apply valid_app; [rewrite !firstn_length; lia|]. rewrite !firstn_skipn. auto.
Qed.

Lemma offset_split : forall p ds ix, valid ds ix ->
  offset ds ix = offset (firstn p ds) (firstn p ix) * prod (skipn p ds)
                 + offset (skipn p ds) (skipn p ix).
Proof.
  intros p ds ix H. pose proof (valid_length _ _ H) as L.
  rewrite <- offset_app by (rewrite !firstn_length; lia). rewrite !firstn_skipn. auto.
Qed.

Lemma as_matrix_index : forall p ds ix, valid ds ix ->
  expand [prod (firstn p ds); prod (skipn p ds)] (offset ds ix)
  = [offset (firstn p ds) (firstn p ix); offset (skipn p ds) (skipn p ix)].
Proof.
  intros p ds ix H. destruct (valid_split p _ _ H) as [H1 H2].
  pose proof (offset_bound _ _ H1). pose proof (offset_bound _ _ H2).
  rewrite (offset_split p ds ix H).
  rewrite <- (expand_offset [prod (firstn p ds); prod (skipn p ds)]
     [offset (firstn p ds) (firstn p ix); offset (skipn p ds) (skipn p ix)]) by (simpl; lia).
  f_equal. simpl. lia.
Qed.

Lemma expand_app : forall a b o1 o2, nonneg a -> nonneg b ->
  0 <= o1 < prod a -> 0 <= o2 < prod b ->
  expand (a ++ b) (o1 * prod b + o2) = expand a o1 ++ expand b o2.
Proof.
  intros a b o1 o2 Ha Hb H1 H2.
  pose proof (valid_expand _ _ Ha H1) as V1. pose proof (valid_expand _ _ Hb H2) as V2.
  rewrite <- (expand_offset (a ++ b) (expand a o1 ++ expand b o2)).
  - f_equal. rewrite offset_app by (apply valid_length; auto). rewrite !offset_expand; auto.
  - apply valid_app; auto. apply valid_length; auto.
Qed.

Lemma size_as_matrix : forall p t, size (as_matrix p t) = size t.
Proof.
  intros. unfold size, as_matrix; simpl. rewrite Z.mul_1_r. apply prod_firstn_skipn.
Qed.

Lemma tdims_as_matrix : forall p t,
  tdims (as_matrix p t) = [prod (firstn p (tdims t)); prod (skipn p (tdims t))].
Proof. reflexivity. Qed.

Lemma dims_ok_as_matrix : forall p t, dims_ok t -> dims_ok (as_matrix p t).
Proof.
  intros p t H. unfold dims_ok. rewrite tdims_as_matrix.
  constructor; [|constructor; [|constructor]]; apply prod_nonneg;
    [apply nonneg_firstn|apply nonneg_skipn]; exact H.
Qed.

Lemma foot_as_matrix : forall p t q, foot (as_matrix p t) q <-> foot t q.
Proof.
  intros. apply foot_reshape. simpl. rewrite Z.mul_1_r. apply prod_firstn_skipn.
Qed.

Lemma mapped_as_matrix : forall {V} (s : st V) p t, mapped s t -> mapped s (as_matrix p t).
Proof. intros V s p t H q Hq. apply H. apply (foot_as_matrix p). exact Hq. Qed.

Lemma disjoint_as_matrix : forall p q t u, disjoint t u -> disjoint (as_matrix p t) (as_matrix q u).
Proof.
  intros p q t u H x Hx Hy. apply (H x); [apply (foot_as_matrix p)|apply (foot_as_matrix q)]; auto.
Qed.

Lemma holds_as_matrix : forall {V T} (dt : dtype V T) s p t (X : list Z -> T),
  dims_ok t -> holds dt s t X ->
  holds dt s (as_matrix p t)
    (arg2 (fun a b => X (expand (firstn p (tdims t)) a ++ expand (skipn p (tdims t)) b))).
Proof.
  intros V T dt s p t X Hd H.
  eapply holds_ext; [|apply holds_reshape; [exact Hd| |exact H]].
  - intros ix Hix. rewrite tdims_as_matrix in Hix. apply valid_2 in Hix.
    destruct Hix as [a [b [-> [Ha Hb]]]]. unfold arg2; cbn [nth].
    f_equal. rewrite <- expand_app by (auto using nonneg_firstn, nonneg_skipn).
    rewrite firstn_skipn. f_equal. simpl. lia.
  - simpl. rewrite Z.mul_1_r. apply prod_firstn_skipn.
Qed.

Lemma writes_as_matrix : forall {V T} (dt : dtype V T) m s p z (F : Z -> Z -> T),
  dims_ok z -> writes dt m s (as_matrix p z) (arg2 F) ->
  writes dt m s z (fun ix => F (offset (firstn p (tdims z)) (firstn p ix))
                               (offset (skipn p (tdims z)) (skipn p ix))).
Proof.
  intros V T dt m s p z F Hd H. eapply writes_reshape with (X := arg2 F); [exact Hd| | | |exact H].
  - simpl. rewrite Z.mul_1_r. apply prod_firstn_skipn.
  - intros ix Hix. rewrite as_matrix_index by auto. reflexivity.
  - exact (dims_ok_as_matrix p z Hd).
Qed.

(** [s1] extends [s]: everything allocated in [s] is unchanged. *)
Definition extends {V} (s s1 : st V) : Prop :=
  forall p, cells s p <> Unmapped -> cells s1 p = cells s p.

Lemma extends_holds : forall {V T} (dt : dtype V T) s s1 t (X : list Z -> T),
  extends s s1 -> holds dt s t X -> holds dt s1 t X.
Proof.
  intros V T dt s s1 t X E H ix Hix. rewrite E; [apply H; auto|]. rewrite H by auto. congruence.
Qed.

Lemma extends_mapped : forall {V} (s s1 : st V) t, extends s s1 -> mapped s t -> mapped s1 t.
Proof. intros V s s1 t E H p Hp. rewrite E; auto. Qed.

(** A temporary used to produce [z]. *)
Lemma with_tensor_writes : forall {V T} (dt : dtype V T) ds (body : tensor -> M V unit) s z (X : list Z -> T),
  nonneg ds -> fresh_ok s -> mapped s z -> dims_ok z ->
  (forall tmp s1, tdims tmp = ds -> dims_ok tmp -> mapped s1 tmp -> fresh_ok s1 ->
     nextb s <= nextb s1 ->
     (forall t, mapped s t -> disjoint tmp t) ->
     extends s s1 ->
     exists s2, body tmp s1 = Ok tt s2 /\ nextb s1 <= nextb s2 /\ holds dt s2 z X /\
       (forall p, ~ foot tmp p -> ~ foot z p -> cells s2 p = cells s1 p)) ->
  writes dt (with_tensor ds body) s z X.
Proof.
  intros V T dt ds body s z X Hn Hf Hm Hz Hb.
  apply (with_tensor_ok ds body s tt (fun s' => holds dt s' z X) z Hn Hf Hm).
  intros b s1 Eb N1 F1 C1 M1.
  destruct (Hb (mktensor b 0 ds) s1) as [s2 [E2 [N2 [H2 C2]]]]; auto; try lia.
  - intros t Ht p [o [_ ->]] Hp. apply (foot_fresh t s) in Hp; auto. simpl in Hp. lia.
  - intros p Hp. apply C1. intros E. apply Hp. apply Hf. lia.
  - exists s2. split; [exact E2|]. split; [exact N2|]. split.
    + intros p Hp Hzp. apply C2; auto. intros [o [_ ->]]. apply Hp. reflexivity.
    + intros s3 E3 ix Hix. rewrite E3; [apply H2; auto|].
      assert (B : fst (addr z ix) < nextb s) by (apply (foot_fresh z s); auto; apply addr_foot; auto).
      lia.
Qed.

(** Filling a tensor [t], then computing [z] from it. *)
Lemma writes_then : forall {V T1 T} (d1 : dtype V T1) (dt : dtype V T) (m1 m2 : M V unit) s t z
    (X1 : list Z -> T1) (X : list Z -> T),
  writes d1 m1 s t X1 ->
  (forall s', holds d1 s' t X1 -> only_changes t s s' -> writes dt m2 s' z X) ->
  exists s2, (m1 ;;; m2) s = Ok tt s2 /\ nextb s <= nextb s2 /\ holds dt s2 z X /\
    (forall p, ~ foot t p -> ~ foot z p -> cells s2 p = cells s p).
Proof.
  intros V T1 T d1 dt m1 m2 s t z X1 X [s1 [E1 [H1 [N1 F1]]]] H2.
  destruct (H2 s1 H1 (conj N1 F1)) as [s2 [E2 [H3 [N2 F2]]]].
  exists s2. rewrite (bind_ok _ _ _ _ _ E1). repeat split; auto; [lia|].
  intros p Hp Hz. rewrite F2, F1; auto.
Qed.

Lemma only_changes_holds : forall {V T} (dt : dtype V T) s s' z t (X : list Z -> T),
  only_changes z s s' -> disjoint z t -> holds dt s t X -> holds dt s' t X.
Proof. intros V T dt s s' z t X [_ F] D H. eapply holds_frame_disj; eauto. Qed.

Lemma only_changes_mapped : forall {V} (s s' : st V) z t,
  only_changes z s s' -> disjoint z t -> mapped s t -> mapped s' t.
Proof.
  intros V s s' z t [_ F] D H. eapply mapped_frame; [|exact H].
  intros p Hp. apply F. intros Hz. exact (D _ Hz Hp).
Qed.

Lemma disjoint_sub_l : forall t u i d ds, dims_ok t -> tdims t = d :: ds -> 0 <= i < d ->
  disjoint t u -> disjoint (sub t i) u.
Proof. intros t u i d ds Hd E Hi H p Hp Hu. apply (H p); auto. eapply foot_sub; eauto. Qed.

Lemma disjoint_sub_r : forall t u i d ds, dims_ok u -> tdims u = d :: ds -> 0 <= i < d ->
  disjoint t u -> disjoint t (sub u i).
Proof. intros t u i d ds Hd E Hi H p Hp Hu. apply (H p); auto. eapply foot_sub; eauto. Qed.

Lemma mapped_sub : forall {V} (s : st V) t i d ds, dims_ok t -> tdims t = d :: ds -> 0 <= i < d ->
  mapped s t -> mapped s (sub t i).
Proof. intros V s t i d ds Hd E Hi H p Hp. apply H. eapply foot_sub; eauto. Qed.

Lemma writes_then_keep : forall {V T1 T} (d1 : dtype V T1) (dt : dtype V T) (m1 m2 : M V unit) s t z
    (X1 : list Z -> T1) (X : list Z -> T),
  disjoint z t ->
  writes d1 m1 s t X1 ->
  (forall s', holds d1 s' t X1 -> only_changes t s s' -> writes dt m2 s' z X) ->
  exists s2, (m1 ;;; m2) s = Ok tt s2 /\ nextb s <= nextb s2 /\ holds dt s2 z X /\ holds d1 s2 t X1 /\
    (forall p, ~ foot t p -> ~ foot z p -> cells s2 p = cells s p).
Proof.
  intros V T1 T d1 dt m1 m2 s t z X1 X D [s1 [E1 [H1 [N1 F1]]]] H2.
  destruct (H2 s1 H1 (conj N1 F1)) as [s2 [E2 [H3 [N2 F2]]]].
  exists s2. rewrite (bind_ok _ _ _ _ _ E1). repeat split; auto; [lia| |].
  - eapply holds_frame_disj; eauto.
  - intros p Hp Hz. rewrite F2, F1; auto.
Qed.

(** Sub-tensors computed one by one with a shared scratch tensor. *)
Lemma rows_scratch : forall {V T} (dt : dtype V T) z d ds tmp (f : Z -> M V unit) (X : list Z -> T) s,
  dims_ok z -> tdims z = d :: ds -> mapped s tmp -> disjoint tmp z ->
  (forall i s', 0 <= i < d -> nextb s <= nextb s' -> mapped s' tmp ->
     (forall p, ~ foot tmp p -> ~ foot z p -> cells s' p = cells s p) ->
     (forall p, foot (sub z i) p -> cells s' p = cells s p) ->
     exists s'', f i s' = Ok tt s'' /\ nextb s' <= nextb s'' /\
       holds dt s'' (sub z i) (fun ix => X (i :: ix)) /\ mapped s'' tmp /\
       (forall p, ~ foot tmp p -> ~ foot (sub z i) p -> cells s'' p = cells s' p)) ->
  exists s', for_ (zrange d) f s = Ok tt s' /\ nextb s <= nextb s' /\ holds dt s' z X /\ mapped s' tmp /\
    (forall p, ~ foot tmp p -> ~ foot z p -> cells s' p = cells s p).
Proof.
  intros V T dt z d ds tmp f X s Hd Ed Hm D Hstep.
  assert (Pd : 0 <= d) by (unfold dims_ok in Hd; rewrite Ed in Hd; inversion Hd; auto).
  destruct (for_range_inv d f (fun k s' => nextb s <= nextb s' /\ mapped s' tmp /\
     (forall p, ~ foot tmp p -> ~ foot z p -> cells s' p = cells s p) /\
     (forall i, 0 <= i < k -> holds dt s' (sub z i) (fun ix => X (i :: ix))) /\
     (forall i p, k <= i < d -> foot (sub z i) p -> cells s' p = cells s p)) s)
    as [s' [E [N [M [F [H _]]]]]]; auto.
  - repeat split; auto; lia.
  - intros k s' Hk (N & M & F & H & R).
    destruct (Hstep k s' Hk N M F) as (s'' & E & N' & H' & M' & F').
    { intros p Hp. apply (R k); auto. lia. }
    exists s''. split; [exact E|]. split; [lia|]. split; [exact M'|]. split; [|split].
    + intros p Hp Hz. rewrite F'; auto. intros Hp2. apply Hz. eapply foot_sub; eauto.
    + intros i Hi. destruct (Z.eq_dec i k) as [->|Ne]; [exact H'|].
      eapply holds_frame; [|apply H; lia]. intros p Hp. apply F'.
      * intros Ht. apply (D _ Ht). eapply foot_sub with (i := i); eauto. lia.
      * intros Hp2. apply Ne. apply (foot_sub_inj z i k d ds p); auto; lia.
    + intros i p Hi Hp. rewrite F'; [apply (R i); auto; lia| |].
      * intros Ht. apply (D _ Ht). eapply foot_sub with (i := i); eauto. lia.
      * intros Hp2. assert (i = k) by (apply (foot_sub_inj z i k d ds p); auto; lia). lia.
  - exists s'. repeat split; auto.
    intros ix Hix. rewrite Ed in Hix. destruct ix as [|i ix]; [destruct Hix|]. destruct Hix as [Hi Hix].
    rewrite <- (addr_sub _ _ _ _ _ Ed). apply (H i Hi). rewrite (tdims_sub _ _ _ _ Ed). auto.
Qed.

(** Accumulation into a tensor: iteration [a] updates the element [ad a], if any. *)
Definition ix_eqb (a b : list Z) : bool := if list_eq_dec Z.eq_dec a b then true else false.

Lemma ix_eqb_true : forall a b, ix_eqb a b = true <-> a = b.
Proof. intros. unfold ix_eqb. destruct (list_eq_dec Z.eq_dec a b); split; congruence. Qed.

Definition hits (o : option (list Z)) (ix : list Z) : bool :=
  match o with Some a => ix_eqb a ix | None => false end.

Lemma accum_writes : forall {V T A} (dt : dtype V T) (z : tensor) (l : list A) (f : A -> M V unit)
    (ad : A -> option (list Z)) (h : A -> T -> T) (X0 : list Z -> T) (s : st V),
  dims_ok z -> holds dt s z X0 ->
  (forall a ix, In a l -> ad a = Some ix -> valid (tdims z) ix) ->
  (forall a s', In a l -> nextb s' = nextb s ->
     (forall p, ~ foot z p -> cells s' p = cells s p) ->
     match ad a with
     | None => f a s' = Ok tt s'
     | Some ix => forall v, cells s' (addr z ix) = Init (emb dt v) ->
                  f a s' = Ok tt (upd s' (addr z ix) (emb dt (h a v)))
     end) ->
  writes dt (for_ l f) s z
    (fun ix => fold_left (fun v b => h b v) (filter (fun b => hits (ad b) ix) l) (X0 ix)).
Proof.
  intros V T A dt z l f ad h X0 s Hd H0 Hval Hstep.
  destruct (for_accum dt l f (fun a => option_map (addr z) (ad a)) h
     (fun p => X0 (expand (tdims z) (snd p - tbase z))) s) as [s' [E [N [C F]]]].
  - intros a p Ha Ep. destruct (ad a) as [ix|] eqn:Ea; [|discriminate]. injection Ep as <-.
    rewrite H0 by eauto. unfold addr, daddr; simpl.
    replace (tbase z + offset (tdims z) ix - tbase z) with (offset (tdims z) ix) by lia.
    rewrite expand_offset; eauto.
  - intros a s' Ha Ns F. specialize (Hstep a s' Ha Ns).
    destruct (ad a) as [ix|] eqn:Ea; cbn [option_map]; apply Hstep;
      intros p Hp; apply F; intros b Hb Eb; destruct (ad b) as [ib|] eqn:Eb2; try discriminate;
      injection Eb as <-; apply Hp; apply addr_foot; eauto.
  - exists s'. split; [exact E|]. split; [|split; [lia|]].
    + intros ix Hix.
      destruct (existsb (fun b => hits (ad b) ix) l) eqn:Ex.
      * apply existsb_exists in Ex. destruct Ex as [a [Ha Hh]].
        destruct (ad a) as [ia|] eqn:Ea; [|discriminate]. apply ix_eqb_true in Hh. subst ia.
        rewrite (C a (addr z ix)); auto; [|rewrite Ea; reflexivity].
        f_equal. f_equal. unfold addr at 2, daddr; simpl.
        replace (tbase z + offset (tdims z) ix - tbase z) with (offset (tdims z) ix) by lia.
        rewrite expand_offset by auto. f_equal. apply filter_ext_in. intros b Hb.
        destruct (ad b) as [ib|] eqn:Eb; cbn [option_map hits]; [|reflexivity].
        unfold opt_loc_is. unfold ix_eqb. destruct (list_eq_dec Z.eq_dec ib ix) as [->|Ne].
        -- unfold loc_eqb. rewrite !Z.eqb_refl. reflexivity.
        -- unfold loc_eqb. apply not_true_is_false. intros Q. apply Ne.
           apply (addr_inj z); eauto. unfold addr, daddr in *. simpl in *. f_equal. lia.
      * rewrite F.
        -- rewrite H0 by auto. f_equal. f_equal.
           rewrite filter_false; [reflexivity|]. intros b Hb.
           destruct (hits (ad b) ix) eqn:Eh; auto. exfalso.
           assert (existsb (fun b => hits (ad b) ix) l = true) by (apply existsb_exists; eauto). congruence.
        -- intros a Ha Ea. destruct (ad a) as [ia|] eqn:Ead; [|discriminate]. cbn [option_map] in Ea.
           assert (Eq : addr z ia = addr z ix) by congruence.
           assert (ia = ix) as -> by (apply (addr_inj z); eauto).
           assert (existsb (fun b => hits (ad b) ix) l = true).
           { apply existsb_exists. exists a. split; auto. rewrite Ead. apply ix_eqb_true. auto. }
           congruence.
    + intros p Hp. apply F. intros a Ha Ea. destruct (ad a) as [ia|] eqn:Ead; [|discriminate].
      injection Ea as <-. apply Hp. apply addr_foot; eauto.
Qed.
