(** Loading of batches, local variables and the loop over the batches. *)
From Coq Require Import ZArith List Bool Lia Reals Lra.
From Coquelicot Require Import Coquelicot.
From Verif Require Import Base BaseFacts Traits Scalar RealScalar SumFacts TensorFacts LinAlg LinAlgFacts ConvFacts
  ConvGradFacts Elem ElemSpec ElemFacts PropsElem Activation ActivationSpec ActivationFacts SoftmaxFacts
  PropsSoftmax Pool Summary PropsSummary Utility UtilityFacts PropsUtility LayersFacts Train TrainSpec TrainFacts.
Import ListNotations.
Open Scope Z_scope.
Open Scope model_scope.

(** ** Slices *)

Lemma addr_slice : forall t a b d ds i ix, tdims t = d :: ds -> addr (slice t a b) (i :: ix) = addr t (a + i :: ix).
Proof.
  intros t a b d ds i ix E. unfold addr, daddr, slice; cbn. rewrite E. cbn. f_equal. ring.
Qed.

Lemma holds_slice : forall {V T} (dt : dtype V T) s t a b d ds X, tdims t = d :: ds -> 0 <= a -> b <= d ->
  holds dt s t X -> holds dt s (slice t a b) (fun ix => X (a + nth 0 ix 0 :: tl ix)).
Proof.
  intros V T dt s t a b d ds X E Ha Hb H ix Hix. unfold slice in Hix; cbn in Hix. rewrite E in Hix. cbn in Hix.
  destruct ix as [|i ix]; [destruct Hix|]. destruct Hix as [Hi Hix].
  rewrite (addr_slice t a b d ds i ix E). cbn [nth tl]. apply H. rewrite E. cbn. split; [lia|auto].
Qed.

Lemma foot_slice : forall t a b d ds p, tdims t = d :: ds -> dims_ok t -> 0 <= a -> b <= d ->
  foot (slice t a b) p -> foot t p.
Proof.
  intros t a b d ds p E D Ha Hb (o & Ho & ->). unfold dims_ok in D. rewrite E in D.
  inversion D as [|? ? Hd Hds]; subst. pose proof (prod_nonneg _ Hds) as P.
  unfold size, slice in Ho; cbn in Ho. rewrite E in Ho; cbn in Ho.
  exists (a * prod ds + o). split.
  - unfold size. rewrite E; cbn. nia.
  - unfold daddr, slice; cbn. rewrite E; cbn. f_equal. ring.
Qed.

(** ** Local variables *)

Definition released {V} (lo hi : Z) (s s' : st V) : Prop :=
  nextb s' = nextb s /\ forall p, cells s' p = if (lo <=? fst p) && (fst p <? hi) then Unmapped else cells s p.

Definition locals {V} (l : list (var * list Z)) (E E' : var -> tensor) (s s1 : st V) : Prop :=
  nextb s <= nextb s1 /\ fresh_ok s1 /\ (forall p, fst p < nextb s -> cells s1 p = cells s p) /\
  (forall v ds, In (v, ds) l -> nextb s <= tblk (E' v) < nextb s1 /\ tdims (E' v) = ds /\ mapped s1 (E' v)) /\
  (forall v, ~ In v (map fst l) -> E' v = E v) /\
  (forall u v, In u (map fst l) -> In v (map fst l) -> u <> v -> tblk (E' u) <> tblk (E' v)).

Lemma with_vars_run : forall {V A} l E (k : (var -> tensor) -> M V A) (s : st V),
  fresh_ok s -> NoDup (map fst l) ->
  exists E' s1, locals l E E' s s1 /\
    match k E' s1 with
    | Ok a s2 => exists s', with_vars l E k s = Ok a s' /\ released (nextb s) (nextb s1) s2 s'
    | Throw e s2 => exists s', with_vars l E k s = Throw e s' /\ released (nextb s) (nextb s1) s2 s'
    | UB => with_vars l E k s = UB
    end.
Proof.
  intros V A l. induction l as [|[v ds] l IH]; intros E k s Hf ND.
  - exists E, s. split.
    + repeat split; auto; try lia; try (intros; match goal with H : In _ [] |- _ => destruct H end).
    + cbn [with_vars]. assert (R0 : forall s2 : st V, released (nextb s) (nextb s) s2 s2).
      { intros s2. split; auto. intros p. replace ((nextb s <=? fst p) && (fst p <? nextb s)) with false by lia. reflexivity. }
      destruct (k E s); eauto.
  - cbn [map fst] in ND. inversion ND as [|? ? Nv ND']; subst.
    set (b := nextb s). set (t := mktensor b 0 ds).
    set (sa := mkst (fun q => if (fst q =? nextb s) && (0 <=? snd q) && (snd q <? prod ds)
                              then Uninit else cells s q) (nextb s + 1)).
    assert (Fa : fresh_ok sa).
    { intros p Hp. cbn in Hp |- *. replace (fst p =? nextb s) with false by lia. cbn. apply Hf. lia. }
    destruct (IH (fun u => if var_eqb u v then t else E u) k sa Fa ND') as (E' & s1 & (N1 & F1 & C1 & L1 & K1 & D1) & R1).
    cbn [nextb sa] in N1, L1, C1. fold b in N1, L1, C1.
    assert (Ev : E' v = t).
    { rewrite K1 by exact Nv. destruct (var_eqb_spec v v); congruence. }
    exists E', s1. split.
    + split; [fold b; lia|]. split; [exact F1|]. split; [|split; [|split]].
      * intros p Hp. fold b in Hp. rewrite C1 by lia. cbn. fold b. replace (fst p =? b) with false by lia. reflexivity.
      * intros u es [Q|Q].
        -- injection Q as <- <-. rewrite Ev. cbn. split; [fold b; lia|]. split; auto.
           intros p (o & Ho & ->). rewrite C1 by (cbn; lia). cbn. fold b.
           unfold size in Ho; cbn in Ho.
           replace ((b =? b) && (0 <=? o) && (o <? prod ds)) with true by lia. discriminate.
        -- destruct (L1 u es Q) as (B1 & T1 & M1). split; [fold b; lia|auto].
      * intros u Hu. cbn in Hu. rewrite K1 by tauto. destruct (var_eqb_spec u v) as [->|]; [tauto|reflexivity].
      * assert (G : forall u, In u (map fst l) -> b + 1 <= tblk (E' u)).
        { intros u Hu. apply in_map_iff in Hu. destruct Hu as ([u' es] & <- & Hu). destruct (L1 _ _ Hu). cbn. lia. }
        intros u w Hu Hw Ne. cbn in Hu, Hw. destruct Hu as [<-|Hu], Hw as [<-|Hw]; [tauto| | |apply D1; auto].
        -- rewrite Ev. cbn. pose proof (G _ Hw). lia.
        -- rewrite Ev. cbn. pose proof (G _ Hu). lia.
    + assert (RR : forall s2 s' : st V, released (nextb sa) (nextb s1) s2 s' -> released (nextb s) (nextb s1) s2 (dealloc b s')).
      { intros s2 s' [N' C']. split; [exact N'|]. intros p. cbn [cells dealloc]. rewrite C'. cbn [nextb sa]. fold b.
        destruct (fst p =? b) eqn:Q.
        - replace ((b <=? fst p) && (fst p <? nextb s1)) with true by lia. reflexivity.
        - replace (b + 1 <=? fst p) with (b <=? fst p) by lia. reflexivity. }
      cbn [with_vars]. unfold with_tensor, with_temp, alloc. fold b.
      change (mkst (fun q => if (fst q =? b) && (0 <=? snd q) && (snd q <? prod ds) then Uninit else cells s q) (b + 1)) with sa.
      fold t. destruct (k E' s1) as [a s2|ex s2|].
      * destruct R1 as (s' & -> & R1). eexists. split; [reflexivity|]. apply RR; auto.
      * destruct R1 as (s' & -> & R1). eexists. split; [reflexivity|]. apply RR; auto.
      * rewrite R1. reflexivity.
Qed.

(** ** Loading *)

Section Load.
  Context {V T : Type} (dt : dtype V T) (sc : scalar T) (du : dtype V Z).
  Context (n h w N off : Z) (images labels : tensor) (Hn : 0 <= n) (Hh : 0 <= h) (Hw : 0 <= w)
          (Ei : tdims images = [N; h; w]) (El : tdims labels = [N]) (Ho : 0 <= off) (Hb : off + n <= N).

  Lemma load_x : forall f I_ xs s, tdims xs = [n; h * w] -> mapped s xs -> disjoint xs images ->
    holds du s images (arg3 I_) ->
    writes dt (transform1 dt du f (reshape xs [n; h; w]) (slice images off (off + n))) s xs
      (arg2 (fun i a => f (I_ (off + i) (a / w) (a mod w)))).
  Proof using Hn Hh Hw Ei Ho Hb.
    intros f I_ xs s Ex Mx Di HD.
    assert (Dim : dims_ok images) by (unfold dims_ok; rewrite Ei; repeat constructor; lia).
    assert (Nr : nonneg [n; h; w]) by (repeat constructor; lia).
    assert (Sz : prod [n; h; w] = size xs) by (unfold size; rewrite Ex; cbn; ring).
    eapply (writes_reshape dt _ s xs [n; h; w]
        (fun ix => f (arg3 I_ (off + nth 0 ix 0 :: tl ix)))); auto.
    - unfold dims_ok. rewrite Ex. repeat constructor; nia.
    - intros ix Hix. rewrite Ex in Hix |- *. apply valid_2 in Hix. destruct Hix as (i & a & -> & Hi & Ha).
      unfold arg2, arg3. cbn [offset expand nth tl prod].
      assert (Pw : 0 < w) by nia. assert (Ph : 0 < h) by nia.
      replace (i * (h * w * 1) + (a * 1 + 0)) with (a + i * (h * w)) by ring.
      rewrite !Z.mul_1_r, Z.div_add, Z.mod_add, Z.div_1_r by nia.
      rewrite (Z.div_small a (h * w)), (Z.mod_small a (h * w)) by lia. reflexivity.
    - eapply (transform1_writes dt du f (reshape xs [n; h; w]) (slice images off (off + n))
          (fun ix => arg3 I_ (off + nth 0 ix 0 :: tl ix))).
      + exact Nr.
      + cbn. rewrite Ei. cbn. f_equal. lia.
      + eapply holds_slice; eauto.
      + apply mapped_reshape; auto.
      + left. intros p H1 H2. apply (Di p).
        * refine (proj1 (foot_reshape xs [n; h; w] p Sz) H1).
        * eapply foot_slice; eauto.
  Qed.

  Lemma load_y : forall L k y_s s, 0 <= k <= 255 -> tdims y_s = [n; k] -> mapped s y_s -> disjoint y_s labels ->
    holds du s labels (arg1 L) ->
    writes dt (op_onehot du uint8 dt sc 1 y_s (slice labels off (off + n))) s y_s
      (arg2 (fun i j => if L (off + i) =? j then s1 sc else s0 sc)).
  Proof using Hn El Ho Hb.
    intros L k y_s s Hk Ey My Dl HD.
    assert (Dlb : dims_ok labels) by (unfold dims_ok; rewrite El; repeat constructor; lia).
    eapply writes_ext; [reflexivity| |
        eapply (C45_onehot V T du uint8 dt sc y_s (slice labels off (off + n)) [n] k
          (fun ix => arg1 L (off + nth 0 ix 0 :: tl ix)))].
    - intros ix Hix. rewrite Ey in Hix. apply valid_2 in Hix. destruct Hix as (i & j & -> & Hi & Hj).
      unfold arg1, arg2. cbn [last removelast nth tl].
      destruct (Z.eq_dec j (L (off + i))) as [E0|E0]; destruct (Z.eqb_spec (L (off + i)) j); try reflexivity; congruence.
    - reflexivity.
    - cbn. lia.
    - cbn. rewrite El. cbn. f_equal. lia.
    - exact Ey.
    - unfold dims_ok. rewrite Ey. repeat constructor; lia.
    - eapply holds_slice; eauto.
    - exact My.
    - intros p H1 H2. apply (Dl p H1). eapply foot_slice; eauto.
  Qed.
End Load.

Section Epoch.
  Context {V T : Type} (dt : dtype V T) (sc : scalar T) (du : dtype V Z).
  Context (n h w k : Z) (E : var -> tensor) (Hn : 1 <= n) (Hh : 0 <= h) (Hw : 0 <= w) (Hk : 0 <= k <= 255)
          (OK : env_ok n (h * w) k E).
  Context (N : Z) (images labels : tensor) (Ei : tdims images = [N; h; w]) (El : tdims labels = [N]) (HN : 0 <= N)
          (Di : forall v, disjoint (E v) images) (Dl : forall v, disjoint (E v) labels).
  Context (f : Z -> T) (I_ : Z -> Z -> Z -> Z) (L : Z -> Z).

  Let d := h * w.
  Let Hd : 0 <= d.
  Proof using Hh Hw. unfold d. nia. Qed.

  Definition data (s : st V) : Prop := holds du s images (arg3 I_) /\ holds du s labels (arg1 L).

  Lemma data_keep : forall P s s', only_vars P E s s' -> data s -> data s'.
  Proof using Di Dl.
    intros P s s' [_ F] [H1 H2]. split; (eapply holds_frame; [|eassumption]); intros p Hp; apply F; intros v _ Q.
    - exact (Di v p Q Hp).
    - exact (Dl v p Q Hp).
  Qed.

  Lemma load_data_ok : forall off A s (Q : var -> Prop), 0 <= off -> off + n <= N ->
    inv dt E A s -> data s -> Q XS -> Q Y_S ->
    exists s', load_data dt du sc f h w images labels off n (E XS) (E Y_S) s = Ok tt s' /\
      inv dt E (learn (learn A XS (arg2 (fun i a => f (I_ (off + i) (a / w) (a mod w)))))
        Y_S (arg2 (fun i j => if L (off + i) =? j then s1 sc else s0 sc))) s' /\ only_vars Q E s s'.
  Proof using Hn Hh Hw Hk OK Ei El HN Di Dl.
    intros off A s Q Ho Hb HI HD QX QY. unfold load_data.
    pose proof (proj1 OK XS) as Ex. pose proof (proj1 OK Y_S) as Ey. cbn in Ex, Ey.
    destruct (inv_step dt n d k E Hn Hd (proj1 Hk) OK A s
      (transform1 dt du f (reshape (E XS) [n; h; w]) (slice images off (off + n))) XS
      (arg2 (fun i a => f (I_ (off + i) (a / w) (a mod w)))) Q HI QX) as (sa & E1 & I1 & O1).
    { apply (load_x dt du n h w N); auto; try lia; [apply HI|apply HD]. }
    rewrite (bind_ok _ _ _ _ _ E1). pose proof (data_keep _ _ _ O1 HD) as HD1.
    destruct (inv_step dt n d k E Hn Hd (proj1 Hk) OK _ sa
      (op_onehot du uint8 dt sc 1 (E Y_S) (slice labels off (off + n))) Y_S
      (arg2 (fun i j => if L (off + i) =? j then s1 sc else s0 sc)) Q I1 QY) as (s2 & E2 & I2 & O2).
    { apply (load_y dt sc du n N off labels) with (k := k); auto; try lia; [apply I1|apply HD1]. }
    exists s2. split; [exact E2|]. split; [exact I2|]. eapply only_vars_trans; eauto.
  Qed.

  (** One step for given examples and labels. *)
  Context (exp_ log_ : T -> T) (eps : T) (div_n : T -> Z -> outcome T) (e : engine) (rate : T).
  Notation matrix := (Z -> Z -> T).
  Notation vector := (Z -> T).
  Context (F : matrix -> matrix -> matrix * vector -> matrix * vector).
  Definition step_runs : Prop := forall E X Y W B A s, env_ok n d k E ->
    inv dt E A s -> A XS = Some (arg2 X) -> A Y_S = Some (arg2 Y) -> A W_ = Some (arg2 W) -> A B_ = Some (arg1 B) ->
    A G_LS = Some (fun _ => rate) ->
    exists s' A', train_step dt sc exp_ log_ eps div_n e E s = Ok tt s' /\
      inv dt E A' s' /\ only_vars (fun v => ~ is_input v) E s s' /\
      A' W_ = Some (arg2 (fst (F X Y (W, B)))) /\ A' B_ = Some (arg1 (snd (F X Y (W, B)))) /\
      (forall v, is_input v -> A' v = A v).

  Definition pixels (o : Z) : matrix := fun i a => f (I_ (o * n + i) (a / w) (a mod w)).
  Definition onehots (o : Z) : matrix := fun i j => if L (o * n + i) =? j then s1 sc else s0 sc.
  Definition steps_of (steps : Z) (p : matrix * vector) : matrix * vector :=
    fold_left (fun p o => F (pixels o) (onehots o) p) (zrange steps) p.

  Lemma steps_succ : forall o p, 0 <= o -> steps_of (o + 1) p = F (pixels o) (onehots o) (steps_of o p).
  Proof using. intros o p Ho. unfold steps_of. rewrite zrange_succ, fold_left_app by exact Ho. reflexivity. Qed.

  Lemma epoch_ok : step_runs -> forall W B A s steps, 0 <= steps -> steps * n <= N ->
    inv dt E A s -> data s -> A W_ = Some (arg2 W) -> A B_ = Some (arg1 B) -> A G_LS = Some (fun _ => rate) ->
    let P := steps_of steps (W, B) in
    exists s' A', for_ (zrange steps) (fun o =>
        load_data dt du sc f h w images labels (o * n) n (E XS) (E Y_S) ;;;
        train_step dt sc exp_ log_ eps div_n e E) s = Ok tt s' /\
      inv dt E A' s' /\ only_vars (fun v => v <> G_L /\ v <> G_LS) E s s' /\
      A' W_ = Some (arg2 (fst P)) /\ A' B_ = Some (arg1 (snd P)).
  Proof using Hn Hh Hw Hk OK Ei El HN Di Dl.
    intros SR W B A s steps Hs Hb HI HD AW AB AG P.
    destruct (for_range_inv steps (fun o =>
        load_data dt du sc f h w images labels (o * n) n (E XS) (E Y_S) ;;;
        train_step dt sc exp_ log_ eps div_n e E)
      (fun o s' => exists A', inv dt E A' s' /\ only_vars (fun v => v <> G_L /\ v <> G_LS) E s s' /\
         let P := steps_of o (W, B) in
         A' W_ = Some (arg2 (fst P)) /\ A' B_ = Some (arg1 (snd P)) /\ A' G_LS = Some (fun _ => rate)) s)
      as (s' & E' & A' & I' & O' & W' & B' & _); auto.
    - exists A. split; [exact HI|]. split; [apply only_vars_refl|]. cbn. auto.
    - intros o s1 Hso (A1 & I1 & O1 & W1 & B1 & G1). cbv zeta in *.
      destruct (load_data_ok (o * n) A1 s1 (fun v => v <> G_L /\ v <> G_LS)) as (s2 & E2 & I2 & O2); auto; try nia;
        try (split; discriminate).
      { eapply data_keep; eauto. }
      rewrite (bind_ok _ _ _ _ _ E2).
      set (Po := steps_of o (W, B)) in *.
      destruct (SR E (pixels o) (onehots o) (fst Po) (snd Po) _ s2 OK I2) as (s3 & A3 & E3 & I3 & O3 & W3 & B3 & K3);
        auto; try reflexivity.
      exists s3. split; [exact E3|]. exists A3. split; [exact I3|]. split; [|split; [|split]].
      + eapply only_vars_trans; [exact O1|]. eapply only_vars_trans; [exact O2|].
        eapply only_vars_weaken; [|exact O3]. intros v Hv. unfold is_input in Hv.
        split; intros ->; tauto.
      + rewrite steps_succ by lia. fold Po. rewrite <- surjective_pairing in W3. exact W3.
      + rewrite steps_succ by lia. fold Po. rewrite <- surjective_pairing in B3. exact B3.
      + rewrite K3; [exact G1|unfold is_input; tauto].
    - exists s', A'. auto.
  Qed.
End Epoch.

(** train_slp_model, given what a step computes. *)
Lemma train_run : forall {V T} (dt : dtype V T) sc (du : dtype V Z) exp_ log_ eps div_n e rate F f half N h w n k
    images labels wt b I_ L W B s,
  1 <= n < 2 ^ 32 -> 0 <= N < 2 ^ 32 -> 0 <= h -> 0 <= w -> 0 <= k <= 255 ->
  step_runs dt sc n h w k exp_ log_ eps div_n e rate F ->
  tdims images = [N; h; w] -> tdims labels = [N] -> tdims wt = [h * w; k] -> tdims b = [k] -> fresh_ok s ->
  holds du s images (arg3 I_) -> holds du s labels (arg1 L) -> holds dt s wt (arg2 W) -> holds dt s b (arg1 B) ->
  disjoint wt b -> disjoint wt images -> disjoint wt labels -> disjoint b images -> disjoint b labels ->
  let P := steps_of sc n w f I_ L F (N / n) (W, B) in
  exists s', train_slp_model dt du sc exp_ log_ eps div_n e f half rate k images labels wt b n s = Ok tt s' /\
    holds dt s' wt (arg2 (fst P)) /\ holds dt s' b (arg1 (snd P)) /\
    nextb s <= nextb s' /\ (forall p, ~ foot wt p -> ~ foot b p -> cells s' p = cells s p).
Proof.
  intros V T dt sc du exp_ log_ eps div_n e rate F f half N h w n k images labels wt b I_ L W B s Hn HN Hh Hw Hk SR Ei El Ew Eb Hf HI HL HW HB
    D1 D2 D3 D4 D5 P.
  set (d := h * w) in *. assert (Hd : 0 <= d) by (unfold d; nia).
  assert (Mw : mapped s wt) by (eapply holds_mapped; eauto; unfold dims_ok; rewrite Ew; repeat constructor; lia).
  assert (Mb : mapped s b) by (eapply holds_mapped; eauto; unfold dims_ok; rewrite Eb; repeat constructor; lia).
  assert (Mi : mapped s images) by (eapply holds_mapped; eauto; unfold dims_ok; rewrite Ei; repeat constructor; lia).
  assert (Ml : mapped s labels) by (eapply holds_mapped; eauto; unfold dims_ok; rewrite El; repeat constructor; lia).
  unfold train_slp_model. cbv zeta. unfold nth_dim. rewrite Ei, Ew, Eb. cbn [nth]. fold d.
  match goal with |- context[with_vars ?l ?E ?k s] =>
    destruct (with_vars_run l E k s Hf ltac:(repeat constructor; cbn; intuition discriminate))
      as (E' & s1 & (N1 & F1 & C1 & L1 & K1 & B1) & R1) end.
  set (loc := map fst _) in *.
  assert (Ewt : E' W_ = wt) by (rewrite K1; [reflexivity|cbn; intuition discriminate]).
  assert (Ebt : E' B_ = b) by (rewrite K1; [reflexivity|cbn; intuition discriminate]).
  assert (Cs : forall v, (In v loc /\ v <> W_ /\ v <> B_ /\ nextb s <= tblk (E' v) < nextb s1 /\
             tdims (E' v) = var_shape n d k v /\ mapped s1 (E' v)) \/ v = W_ \/ v = B_).
  { intros v. destruct v; try (right; left; reflexivity); try (right; right; reflexivity);
      (left; split; [cbn; tauto|split; [discriminate|split; [discriminate|]]]; apply L1; cbn; tauto). }
  assert (Old : forall t p, mapped s t -> foot t p -> fst p < nextb s) by (intros; eapply foot_fresh; eauto).
  assert (New : forall v p, v <> W_ -> v <> B_ -> foot (E' v) p -> nextb s <= fst p < nextb s1).
  { intros v p Q1 Q2 (o & _ & ->). destruct (Cs v) as [C|[C|C]]; [cbn; lia|tauto|tauto]. }
  assert (OK : env_ok n d k E').
  { split.
    - intros v. destruct (Cs v) as [C|[-> | ->]]; [tauto|rewrite Ewt; exact Ew|rewrite Ebt; exact Eb].
    - assert (G : forall u v, u <> W_ -> u <> B_ -> v = W_ \/ v = B_ -> disjoint (E' u) (E' v)).
      { intros u v Q1 Q2 Q3 p P1 P2. pose proof (New u p Q1 Q2 P1).
        destruct Q3 as [-> | ->]; [rewrite Ewt in P2; pose proof (Old _ _ Mw P2)|rewrite Ebt in P2; pose proof (Old _ _ Mb P2)]; lia. }
      intros u v Ne. destruct (Cs u) as [Cu|Cu], (Cs v) as [Cv|Cv].
      + apply blk_disjoint. apply B1; tauto.
      + apply G; tauto.
      + apply disjoint_sym, G; tauto.
      + destruct Cu as [-> | ->], Cv as [-> | ->]; try tauto; rewrite Ewt, Ebt; [exact D1|apply disjoint_sym; exact D1]. }
  assert (Hi : forall v, disjoint (E' v) images).
  { intros v p P1 P2. pose proof (Old _ _ Mi P2). destruct (Cs v) as [C|[-> | ->]].
    - pose proof (New v p ltac:(tauto) ltac:(tauto) P1). lia.
    - rewrite Ewt in P1. exact (D2 p P1 P2).
    - rewrite Ebt in P1. exact (D4 p P1 P2). }
  assert (Hl : forall v, disjoint (E' v) labels).
  { intros v p P1 P2. pose proof (Old _ _ Ml P2). destruct (Cs v) as [C|[-> | ->]].
    - pose proof (New v p ltac:(tauto) ltac:(tauto) P1). lia.
    - rewrite Ewt in P1. exact (D3 p P1 P2).
    - rewrite Ebt in P1. exact (D5 p P1 P2). }
  assert (I0 : inv dt E' (fun v => match v with W_ => Some (arg2 W) | B_ => Some (arg1 B) | _ => None end) s1).
  { split; [exact F1|]. split.
    - intros v. destruct (Cs v) as [C|[-> | ->]]; [tauto| |].
      + rewrite Ewt. eapply mapped_frame; [|exact Mw]. intros p Hp. apply C1. eauto.
      + rewrite Ebt. eapply mapped_frame; [|exact Mb]. intros p Hp. apply C1. eauto.
    - intros v Z0 Q. destruct v; try discriminate; injection Q as <-.
      + rewrite Ewt. eapply holds_frame; [|exact HW]. intros p Hp. apply C1. eauto.
      + rewrite Ebt. eapply holds_frame; [|exact HB]. intros p Hp. apply C1. eauto. }
  assert (HD : data du images labels I_ L s1).
  { split; [eapply holds_frame; [|exact HI]|eapply holds_frame; [|exact HL]]; intros p Hp; apply C1; eauto. }
  assert (Hn1 : 1 <= n) by lia.
  (* g_l, g_ls *)
  destruct (inv_step dt n d k E' Hn1 Hd (proj1 Hk) OK _ s1 (store dt (daddr (E' G_L) 0) half) G_L (fun _ => half)
    (fun _ => True) I0 I) as (s2 & E2 & I2 & O2).
  { assert (EG : tdims (E' G_L) = []) by (apply (proj1 OK)).
    exists (upd s1 (daddr (E' G_L) 0) (emb dt half)).
    assert (FG : foot (E' G_L) (daddr (E' G_L) 0)) by (apply daddr_foot; unfold size; rewrite EG; cbn; lia).
    split; [apply store_ok; apply (proj1 (proj2 I0) G_L); exact FG|]. split.
    - intros ix Hix. rewrite EG in Hix. destruct ix; [|destruct Hix]. unfold addr. rewrite EG. cbn [offset]. apply cells_upd_same.
    - split; [cbn; lia|]. intros p Hp. apply cells_upd_other. intros ->. tauto. }
  destruct (inv_step dt n d k E' Hn1 Hd (proj1 Hk) OK _ s2 (fill dt (E' G_LS) rate) G_LS (fun _ => rate)
    (fun _ => True) I2 I) as (s3 & E3 & I3 & O3).
  { destruct (fill_holds dt (E' G_LS) rate s2) as (s' & Q1 & Q2 & Q3 & Q4).
    - apply (env_dims_ok n d k E' Hn1 Hd (proj1 Hk) OK).
    - apply (proj1 (proj2 I2)).
    - exists s'. split; [exact Q1|]. split; [exact Q3|]. split; [lia|exact Q4]. }
  rewrite (bind_ok _ _ _ _ _ E2), (bind_ok _ _ _ _ _ E3) in R1.
  assert (En0 : (n =? 0) = false) by lia.
  assert (EN : to_u32 N / to_u32 n = N / n) by (unfold to_u32; rewrite !Z.mod_small by lia; reflexivity).
  assert (R2 : forall A (k0 : Z -> M V A) x, (steps <- lift (if n =? 0 then Undef else Ret (to_u32 N / to_u32 n)) ;; k0 steps) x
                                       = k0 (N / n) x) by (intros; rewrite En0, EN; reflexivity).
  rewrite R2 in R1.
  pose proof (Z.div_pos N n ltac:(lia) ltac:(lia)) as Hs. pose proof (Z.mul_div_le N n ltac:(lia)) as Hs2.
  pose proof (only_vars_trans _ _ _ _ _ O2 O3) as O13.
  destruct (epoch_ok dt sc du n h w k E' Hn1 Hh Hw Hk OK N images labels Ei El ltac:(lia) Hi Hl f I_ L
    exp_ log_ eps div_n e rate F SR W B _ s3 (N / n) Hs ltac:(lia) I3 (data_keep du E' images labels Hi Hl I_ L _ _ _ O13 HD) eq_refl eq_refl eq_refl)
    as (s4 & A4 & E4 & I4 & O4 & W4 & B4).
  rewrite E4 in R1. destruct R1 as (s' & R1 & Nr & Cr).
  exists s'. split; [exact R1|].
  assert (Lo : forall p, fst p < nextb s -> cells s' p = cells s4 p).
  { intros p Hp. rewrite Cr. replace (nextb s <=? fst p) with false by lia. reflexivity. }
  split; [|split; [|split]].
  - eapply holds_frame; [|rewrite <- Ewt; exact (proj2 (proj2 I4) W_ _ W4)]. intros p Hp. apply Lo. eauto.
  - eapply holds_frame; [|rewrite <- Ebt; exact (proj2 (proj2 I4) B_ _ B4)]. intros p Hp. apply Lo. eauto.
  - destruct O13, O4. lia.
  - intros p Q1 Q2. rewrite Cr. destruct ((nextb s <=? fst p) && (fst p <? nextb s1)) eqn:Z0.
    + symmetry. apply Hf. lia.
    + assert (Nv : forall v, ~ foot (E' v) p).
      { intros v Qv. destruct (Cs v) as [C|[-> | ->]].
        - pose proof (New v p ltac:(tauto) ltac:(tauto) Qv). lia.
        - rewrite Ewt in Qv. tauto.
        - rewrite Ebt in Qv. tauto. }
      rewrite (proj2 O4) by auto. rewrite (proj2 O13) by auto.
      destruct (Z_lt_dec (fst p) (nextb s)) as [Q|Q]; [apply C1; auto|].
      rewrite (F1 p) by lia. symmetry. apply Hf. lia.
Qed.
