(** Properties C64 (constant initialisers) and C65 (truncated normal). *)
From Coq Require Import ZArith List Bool Lia Reals Lra QArith SpecFloat.
From Verif Require Import Base BaseFacts TensorFacts Scalar LinAlgFacts SumFacts Demo RealScalar Init.
Import ListNotations.
Open Scope Z_scope.
Open Scope model_scope.

(** *** C64. *)
Section Constants.
  Context {V T : Type} (dt : dtype V T) (sc : scalar T).

  Lemma size_flat : forall t, size (flat t) = size t.
  Proof using. intros t. unfold size, flat. cbn. lia. Qed.

  Lemma fill_flat : forall t (v : T) s, dims_ok t -> mapped s t -> writes dt (fill dt (flat t) v) s t (fun _ => v).
  Proof using.
    intros t v s D Mt. destruct (fill_holds dt t v s D Mt) as (s' & E & N & H & C).
    exists s'. split; [|split; [exact H|split; [lia|exact C]]].
    rewrite <- E. unfold fill. rewrite size_flat. reflexivity.
  Qed.

  Theorem C64_zeros : forall t s, dims_ok t -> mapped s t -> writes dt (init_zeros dt sc t) s t (fun _ => s0 sc).
  Proof using. intros. apply fill_flat; auto. Qed.

  Theorem C64_ones : forall t s, dims_ok t -> mapped s t -> writes dt (init_ones dt sc t) s t (fun _ => s1 sc).
  Proof using. intros. apply fill_flat; auto. Qed.

  Theorem C64_constant : forall v t s, dims_ok t -> mapped s t -> writes dt (init_constant dt v t) s t (fun _ => v).
  Proof using. intros. apply fill_flat; auto. Qed.

  Theorem C64_uniform : forall t s v, dims_ok t -> mapped s t -> sdiv sc (s1 sc) (sofZ sc (size t)) = Ret v ->
    writes dt (init_uniform dt sc t) s t (fun _ => v).
  Proof using.
    intros t s v D Mt E. destruct (fill_flat t v s D Mt) as (s' & E' & R). exists s'. split; [|exact R].
    unfold init_uniform. rewrite size_flat, E. cbn [lift]. rewrite bind_ret_l. exact E'.
  Qed.
End Constants.

(** Over the reals a non-empty tensor gets values 1/size that add up to 1. *)
Theorem C64_uniform_sum : forall V (dt : dtype V R) t s, dims_ok t -> mapped s t -> 1 <= size t ->
  exists Y, writes dt (init_uniform dt Rsc t) s t Y /\ (forall ix, Y ix = 1 / IZR (size t))%R /\
    sum_over Rsc (indices (tdims t)) Y = 1%R.
Proof.
  intros V dt t s D Mt Hs. exists (fun _ => (1 / IZR (size t))%R).
  assert (N : IZR (size t) <> 0%R) by (apply not_0_IZR; lia).
  split; [|split; [reflexivity|]].
  - apply C64_uniform; auto. apply Rdiv_ok. exact N.
  - rewrite indices_expand, sum_over_map by exact D.
    assert (G : forall n (c : R), 0 <= n -> sum_over Rsc (zrange n) (fun _ => c) = (IZR n * c)%R).
    { intros n c. revert n. apply Z_nonneg_ind; [unfold zrange; cbn; lra|]. intros n Hn IH.
      rewrite zrange_succ by lia. rewrite (sum_app Rsc Rsc_laws), IH. unfold sum_over. cbn. rewrite plus_IZR. lra. }
    rewrite G by (apply prod_nonneg; exact D). fold (size t). field. exact N.
Qed.

Local Open Scope Q_scope.
Example C64_example :
  run (init_uniform qt Qsc (T_ 0 [2%Z; 2%Z])) (demo [[7; 7; 7; 7; 7]]) (T_ 0 [5%Z]) = Some (inits [1#4; 1#4; 1#4; 1#4; 7]) /\
  run (init_ones qt Qsc (T_ 0 [3%Z])) (demo [[7; 7; 7; 7]]) (T_ 0 [4%Z]) = Some (inits [1; 1; 1; 7]).
Proof. split; reflexivity. Qed.
Local Close Scope Q_scope.

(** *** C65. *)
Section Truncated.
  Context {V T D G : Type} (dt : dtype V T) (di : dtype V Z) (sd : scalar D).
  Context (fabs : D -> D) (up : T -> D) (down : D -> T) (next : T -> G -> T * G).
  Context (stddev : D).

  (** The engine after [n] draws, the [n]-th draw (from 0), the accepted ones
      among the first [n]. *)
  Fixpoint after (n : nat) (g : G) : G :=
    match n with O => g | S n => after n (snd (next (down stddev) g)) end.
  Definition stream (g : G) (n : nat) : T := fst (next (down stddev) (after n g)).
  Definition in_range (v : T) : bool := negb (sltb sd (smul sd (sofZ sd 2) (fabs stddev)) (fabs (up v))).
  Definition accepted (g : G) (n : nat) : list T := filter in_range (map (stream g) (seq 0 n)).

  Lemma after_add : forall m n g, after (m + n) g = after n (after m g).
  Proof using. induction m as [|m IH]; intros n g; cbn; auto. Qed.

  Lemma accepted_add : forall m n g, accepted g (m + n) = accepted g m ++ accepted (after m g) n.
  Proof using.
    intros m n g. unfold accepted. rewrite seq_app, map_app, filter_app. f_equal. f_equal.
    assert (Sh : forall k a, seq (m + a) k = map (fun j => (m + j)%nat) (seq a k)).
    { induction k as [|k IH]; intros a; cbn; [reflexivity|]. f_equal. rewrite <- IH. f_equal. lia. }
    cbn [plus]. rewrite <- (Nat.add_0_r m) at 1. rewrite Sh, map_map. apply map_ext. intros j. unfold stream.
    rewrite after_add. reflexivity.
  Qed.

  Notation drawn f g := (draw sd fabs up down next f stddev g).

  Lemma exceeds_in : forall v, exceeds sd fabs up stddev v = negb (in_range v).
  Proof using. intros v. unfold in_range. rewrite negb_involutive. reflexivity. Qed.

  Lemma draw_some : forall f g v g', drawn f g = Some (v, g') ->
    exists k, (k < f)%nat /\ g' = after (S k) g /\ accepted g (S k) = [v] /\ accepted g k = [].
  Proof using.
    induction f as [|f IH]; intros g v g' E; cbn in E; [discriminate|].
    destruct (next (down stddev) g) as [w g1] eqn:En. rewrite exceeds_in in E. destruct (in_range w) eqn:Ew; cbn in E.
    - assert (w = v /\ g1 = g') as [-> ->] by (split; congruence). exists 0%nat. cbn. rewrite En. split; [lia|]. split; [reflexivity|].
      unfold accepted. cbn. unfold stream. cbn. rewrite En. cbn. rewrite Ew. auto.
    - destruct (IH _ _ _ E) as (k & Hk & -> & A1 & A2). exists (S k). split; [lia|].
      assert (Q : accepted g 1 = []) by (unfold accepted; cbn; unfold stream; cbn; rewrite En; cbn; rewrite Ew; reflexivity).
      assert (Q1 : after 1 g = g1) by (cbn; rewrite En; reflexivity).
      split; [change (S (S k)) with (1 + S k)%nat; rewrite after_add, Q1; reflexivity|].
      change (S (S k)) with (1 + S k)%nat. change (S k) with (1 + k)%nat at 2. rewrite !accepted_add, Q, Q1. auto.
  Qed.

  Lemma draw_none : forall f g, drawn f g = None <-> accepted g f = [].
  Proof using.
    induction f as [|f IH]; intros g; cbn [draw]; [split; reflexivity|].
    destruct (next (down stddev) g) as [w g1] eqn:En. rewrite exceeds_in.
    assert (Q1 : after 1 g = g1) by (cbn; rewrite En; reflexivity).
    change (S f) with (1 + f)%nat. rewrite accepted_add, Q1.
    assert (Q : accepted g 1 = if in_range w then [w] else []) by (unfold accepted; cbn; unfold stream; cbn; rewrite En; reflexivity).
    rewrite Q. destruct (in_range w); cbn; [split; discriminate|apply IH].
  Qed.

  (** [n] draws in a row. *)
  Fixpoint draws (f n : nat) (g : G) : option (list T * G) :=
    match n with
    | O => Some ([], g)
    | S n => match drawn f g with
             | None => None
             | Some (v, g1) => match draws f n g1 with None => None | Some (vs, g2) => Some (v :: vs, g2) end
             end
    end.

  Lemma draws_some : forall f n g vs g', draws f n g = Some (vs, g') ->
    exists m, g' = after m g /\ accepted g m = vs /\ length vs = n /\ (forall k, (k < m)%nat -> length (accepted g k) < n)%nat.
  Proof using.
    induction n as [|n IH]; intros g vs g' E; cbn in E.
    - assert (vs = [] /\ g' = g) as [-> ->] by (split; congruence). exists 0%nat. repeat split. intros k Hk. lia.
    - destruct (drawn f g) as [[v g1]|] eqn:E1; [|discriminate]. destruct (draws f n g1) as [[ws g2]|] eqn:E2; [|discriminate].
      assert (v :: ws = vs /\ g2 = g') as [<- <-] by (split; congruence).
      destruct (draw_some _ _ _ _ E1) as (k & Hk & -> & A1 & A2). destruct (IH _ _ _ E2) as (m & -> & A & L & Min).
      exists (S k + m)%nat. rewrite accepted_add, after_add, A1, A. split; [reflexivity|]. split; [reflexivity|].
      split; [cbn; lia|]. intros j Hj. destruct (le_lt_dec j k) as [Q|Q].
      + replace k with (j + (k - j))%nat in A2 by lia. rewrite accepted_add in A2. apply app_eq_nil in A2. destruct A2 as [-> _]. cbn. lia.
      + replace j with (S k + (j - S k))%nat by lia. rewrite accepted_add, A1, app_length. specialize (Min (j - S k)%nat ltac:(lia)). cbn [length plus]. lia.
  Qed.

  Lemma draws_complete : forall n g m, (n <= length (accepted g m))%nat -> draws m n g <> None.
  Proof using.
    intros n g m. assert (Gen : forall n g m f, (m <= f)%nat -> (n <= length (accepted g m))%nat -> draws f n g <> None).
    2: { intros H. apply (Gen n g m m); auto. }
    clear n g m. induction n as [|n IH]; intros g m f Hf H; cbn; [discriminate|].
    destruct (drawn f g) as [[v g1]|] eqn:E1.
    - destruct (draw_some _ _ _ _ E1) as (k & Hk & -> & A1 & A2).
      destruct (le_lt_dec m k) as [Q|Q].
      + replace k with (m + (k - m))%nat in A2 by lia. rewrite accepted_add in A2. apply app_eq_nil in A2. destruct A2 as [Z0 _].
        rewrite Z0 in H. cbn in H. lia.
      + replace m with (S k + (m - S k))%nat in H by lia. rewrite accepted_add, A1, app_length in H. cbn [length] in H.
        specialize (IH (after (S k) g) (m - S k)%nat f ltac:(lia) ltac:(lia)).
        destruct (draws f n (after (S k) g)) as [[ws g2]|]; [discriminate|congruence].
    - apply draw_none in E1. replace f with (m + (f - m))%nat in E1 by lia. rewrite accepted_add in E1.
      apply app_eq_nil in E1. destruct E1 as [Z0 _]. rewrite Z0 in H. cbn in H. lia.
  Qed.

  Notation gen f y os g := (generate dt sd fabs up down next f stddev y os g).

  Lemma generate_some : forall (dv : T) f y os g vs g' s, draws f (length os) g = Some (vs, g') ->
    (forall o, In o os -> cells s (daddr y o) <> Unmapped) -> NoDup os ->
    exists s', gen f y os g s = Ok (Some g') s' /\ nextb s' = nextb s /\
      (forall i, (i < length os)%nat -> cells s' (daddr y (nth i os 0)) = Init (emb dt (nth i vs dv))) /\
      (forall p, (forall o, In o os -> p <> daddr y o) -> cells s' p = cells s p).
  Proof using.
    intros dv f y. induction os as [|o os IH]; intros g vs g' s E Mp ND; cbn in E |- *.
    - assert (g = g') as -> by congruence. exists s. repeat split; auto. intros i Hi. lia.
    - destruct (drawn f g) as [[v g1]|]; [|discriminate]. destruct (draws f (length os) g1) as [[ws g2]|] eqn:E2; [|discriminate].
      assert (v :: ws = vs /\ g2 = g') as [<- <-] by (split; congruence). apply NoDup_cons_iff in ND. destruct ND as [Nin ND].
      rewrite (bind_ok _ _ _ _ _ (store_ok dt s (daddr y o) v (Mp o (or_introl eq_refl)))).
      destruct (IH g1 ws g2 (upd s (daddr y o) (emb dt v)) E2) as (s' & E' & N & C & F).
      + intros o' Ho'. cbn. destruct (loc_eqb (daddr y o') (daddr y o)); [discriminate|]. apply Mp. right. exact Ho'.
      + exact ND.
      + exists s'. split; [exact E'|]. split; [rewrite N; reflexivity|]. split.
        * intros [|i] Hi; cbn [nth].
          -- rewrite F; [cbn; rewrite loc_eqb_refl; reflexivity|]. intros o' Ho' Q. apply daddr_inj in Q. subst. contradiction.
          -- apply C. lia.
        * intros p Hp. rewrite F by auto. cbn. destruct (loc_eqb_spec p (daddr y o)) as [Q|Q]; [|reflexivity]. exfalso. apply (Hp o); auto.
  Qed.

  Lemma generate_none : forall f y os g s, draws f (length os) g = None ->
    (forall o, In o os -> cells s (daddr y o) <> Unmapped) -> exists s', gen f y os g s = Ok None s'.
  Proof using.
    intros f y. induction os as [|o os IH]; intros g s E Mp; cbn in E |- *; [discriminate|].
    destruct (drawn f g) as [[v g1]|]; [|eexists; reflexivity].
    destruct (draws f (length os) g1) as [[ws g2]|] eqn:E2; [discriminate|].
    rewrite (bind_ok _ _ _ _ _ (store_ok dt s (daddr y o) v (Mp o (or_introl eq_refl)))).
    apply (IH g1); auto. intros o' Ho'. cbn. destruct (loc_eqb (daddr y o') (daddr y o)); [discriminate|]. apply Mp. right. exact Ho'.
  Qed.

  (** Positive standard deviation, as seen by the distribution. *)
  Definition positive : Prop := sltb sd (s0 sd) (up (down stddev)) = true.

  (** The tensor receives, in order, the in-range draws among the first [m],
      where [m] is the least number of draws containing enough of them; the
      rest of memory is unchanged. *)
  Theorem C65_values : forall (dv : T) f y g s r s', dims_ok y -> mapped s y ->
    tn_engine dt sd fabs up down next f stddev y g s = Ok (Some r) s' ->
    exists m, r = after m g /\ Z.of_nat (length (accepted g m)) = size y /\
      (forall k, (k < m)%nat -> Z.of_nat (length (accepted g k)) < size y) /\
      holds dt s' y (fun ix => nth (Z.to_nat (offset (tdims y) ix)) (accepted g m) dv) /\ only_changes y s s'.
  Proof using.
    intros dv f y g s r s' Dy My E. unfold tn_engine in E. destruct (sltb sd (s0 sd) (up (down stddev))); [|discriminate].
    assert (Ps : 0 <= size y) by (apply prod_nonneg; exact Dy).
    assert (L : length (zrange (size y)) = Z.to_nat (size y)) by (unfold zrange; rewrite map_length, seq_length; reflexivity).
    assert (Mp : forall o, In o (zrange (size y)) -> cells s (daddr y o) <> Unmapped).
    { intros o Ho. apply in_zrange in Ho. apply My. apply daddr_foot. exact Ho. }
    destruct (draws f (length (zrange (size y))) g) as [[vs g']|] eqn:Ed.
    - destruct (generate_some dv f y _ g vs g' s Ed Mp) as (s1 & E1 & N & C & F).
      { unfold zrange. apply FinFun.Injective_map_NoDup; [intros a b; lia|apply seq_NoDup]. }
      rewrite E1 in E. assert (g' = r /\ s1 = s') as [<- <-] by (split; congruence).
      destruct (draws_some _ _ _ _ _ Ed) as (m & -> & A & Lm & Min). exists m. rewrite A. rewrite L in *.
      split; [reflexivity|]. split; [lia|]. split; [intros k Hk; specialize (Min k Hk); lia|]. split.
      + intros ix Hix. pose proof (offset_bound (tdims y) ix Hix) as B. fold (size y) in B.
        specialize (C (Z.to_nat (offset (tdims y) ix)) ltac:(lia)).
        unfold zrange in C. rewrite (nth_indep _ 0 (Z.of_nat 0)) in C by (rewrite map_length, seq_length; lia).
        rewrite map_nth, seq_nth in C by lia. rewrite Nat.add_0_l, Z2Nat.id in C by lia. exact C.
      + split; [lia|]. intros p Hp. apply F. intros o Ho ->. apply Hp. apply in_zrange in Ho. apply daddr_foot. exact Ho.
    - destruct (generate_none f y _ g s Ed Mp) as (s1 & E1). rewrite E1 in E. discriminate.
  Qed.

  (** It returns (for some number of draws per element) exactly when the stream
      contains enough in-range draws, and never fails. *)
  Theorem C65_terminates : forall y g s, dims_ok y -> mapped s y -> positive ->
    ((exists f r s', tn_engine dt sd fabs up down next f stddev y g s = Ok (Some r) s') <->
     exists m, size y <= Z.of_nat (length (accepted g m))).
  Proof using.
    intros y g s Dy My P. unfold tn_engine. rewrite P.
    assert (Ps : 0 <= size y) by (apply prod_nonneg; exact Dy).
    assert (L : length (zrange (size y)) = Z.to_nat (size y)) by (unfold zrange; rewrite map_length, seq_length; reflexivity).
    assert (Mp : forall o, In o (zrange (size y)) -> cells s (daddr y o) <> Unmapped).
    { intros o Ho. apply in_zrange in Ho. apply My. apply daddr_foot. exact Ho. }
    split.
    - intros (f & r & s' & E). destruct (draws f (length (zrange (size y))) g) as [[vs g']|] eqn:Ed.
      + destruct (draws_some _ _ _ _ _ Ed) as (m & -> & A & Lm & _). exists m. rewrite A. lia.
      + destruct (generate_none f y _ g s Ed Mp) as (s1 & E1). rewrite E1 in E. discriminate.
    - intros (m & H). exists m. destruct (draws m (length (zrange (size y))) g) as [[vs g']|] eqn:Ed.
      + assert (ND : NoDup (zrange (size y))) by (unfold zrange; apply FinFun.Injective_map_NoDup; [intros a b; lia|apply seq_NoDup]).
        destruct (generate_some (down stddev) m y _ g vs g' s Ed Mp ND) as (s1 & E1 & _). eauto.
      + exfalso. revert Ed. apply draws_complete. rewrite L. lia.
  Qed.

  (** Every element written is in range. *)
  Theorem C65_in_range : forall f y g s r s', dims_ok y -> mapped s y ->
    tn_engine dt sd fabs up down next f stddev y g s = Ok (Some r) s' ->
    exists Y, holds dt s' y Y /\ forall ix, valid (tdims y) ix -> in_range (Y ix) = true.
  Proof using.
    intros f y g s r s' Dy My E. destruct (C65_values (down stddev) f y g s r s' Dy My E) as (m & _ & L & _ & H & _).
    eexists. split; [exact H|]. intros ix Hix. cbn beta. pose proof (offset_bound (tdims y) ix Hix) as B. fold (size y) in B.
    assert (I : In (nth (Z.to_nat (offset (tdims y) ix)) (accepted g m) (down stddev)) (accepted g m)) by (apply nth_In; lia).
    unfold accepted at 2 in I. apply filter_In in I. apply I.
  Qed.

  Theorem C65_nonpositive : forall f y g s, sltb sd (s0 sd) (up (down stddev)) = false ->
    tn_engine dt sd fabs up down next f stddev y g s = UB.
  Proof using. intros f y g s H. unfold tn_engine. rewrite H. reflexivity. Qed.

  (** Equal seeds give equal tensors, whatever std::random_device answers,
      wherever the tensors live. *)
  Theorem C65_seeded : forall mk rd rd' f f' y y' x x' v s1 s1' r r' s2 s2',
    dims_ok y -> tdims y' = tdims y -> mapped s1 y -> mapped s1' y' ->
    cells s1 (daddr x 0) = Init (emb di v) -> cells s1' (daddr x' 0) = Init (emb di v) ->
    tn_seeded dt di sd fabs up down next mk rd f stddev y x s1 = Ok (Some r) s2 ->
    tn_seeded dt di sd fabs up down next mk rd' f' stddev y' x' s1' = Ok (Some r') s2' ->
    exists Y, holds dt s2 y Y /\ holds dt s2' y' Y.
  Proof using.
    intros mk rd rd' f f' y y' x x' v s1 s1' r r' s2 s2' Dy Ey My My' Ex Ex' E E'. unfold tn_seeded in E, E'.
    rewrite (bind_ok _ _ _ _ _ (load_ok di _ _ _ Ex)) in E. rewrite (bind_ok _ _ _ _ _ (load_ok di _ _ _ Ex')) in E'.
    assert (Dy' : dims_ok y') by (unfold dims_ok; rewrite Ey; exact Dy).
    destruct (C65_values (down stddev) f y (mk v) s1 r s2 Dy My E) as (m & _ & L & Min & H & _).
    destruct (C65_values (down stddev) f' y' (mk v) s1' r' s2' Dy' My' E') as (m' & _ & L' & Min' & H' & _).
    assert (Es : size y' = size y) by (unfold size; rewrite Ey; reflexivity).
    assert (m' = m) as ->.
    { destruct (lt_eq_lt_dec m m') as [[Q| <-]|Q]; [|reflexivity|].
      - specialize (Min' _ Q). lia.
      - specialize (Min _ Q). lia. }
    rewrite Ey in H'. eauto.
  Qed.
End Truncated.

(** Over the reals: magnitude at most twice the standard deviation. *)
Theorem C65_bounded : forall V G (dt : dtype V R) (next : R -> G -> R * G) stddev f y g s r s', dims_ok y -> mapped s y ->
  tn_engine dt Rsc Rabs (fun v => v) (fun v => v) next f stddev y g s = Ok (Some r) s' ->
  exists Y, holds dt s' y Y /\ forall ix, valid (tdims y) ix -> (Rabs (Y ix) <= 2 * Rabs stddev)%R.
Proof.
  intros V G dt next stddev f y g s r s' Dy My E.
  destruct (C65_in_range dt Rsc Rabs (fun v => v) (fun v => v) next stddev f y g s r s' Dy My E) as (Y & H & I).
  exists Y. split; [exact H|]. intros ix Hix. specialize (I ix Hix). unfold in_range in I. cbn in I.
  unfold Rltb in I. destruct (Rlt_dec (2 * Rabs stddev) (Rabs (Y ix))); [discriminate|lra].
Qed.

(** The test is "not greater than the bound": in IEEE arithmetic a NaN drawn
    would be accepted. *)
Example C65_nan : SFltb (S754_finite false 1 0) (SFabs S754_nan) = false.
Proof. reflexivity. Qed.

(** Draws 5, -1, 9, 2, 4, -4 with standard deviation 2: 5 and 9 are rejected. *)
Example C65_example :
  let next (_ : Z) (g : list Z) := (hd 0 g, tl g) in
  run (tn_engine zt Zsc Z.abs (fun v => v) (fun v => v) next 3 2 (T_ 0 [4]) [5; -1; 9; 2; 4; -4; 7]) (demo [[0; 0; 0; 0; 0]]) (T_ 0 [5])
  = Some (inits [-1; 2; 4; -4; 0]) /\
  tn_engine zt Zsc Z.abs (fun v => v) (fun v => v) next 3 0 (T_ 0 [4]) [5] (demo [[0; 0; 0; 0; 0]]) = UB.
Proof. vm_compute. split; reflexivity. Qed.

Print Assumptions C64_zeros.
Print Assumptions C64_ones.
Print Assumptions C64_constant.
Print Assumptions C64_uniform.
Print Assumptions C64_uniform_sum.
Print Assumptions C65_values.
Print Assumptions C65_terminates.
Print Assumptions C65_in_range.
Print Assumptions C65_nonpositive.
Print Assumptions C65_seeded.
Print Assumptions C65_bounded.
