(** NaN and infinities in softmax and pooling. *)
From Coq Require Import ZArith Reals List Bool Lia Lra.
From Flocq Require Import Core BinarySingleNaN.
From Verif Require Import Base BaseFacts TensorFacts Scalar RealScalar Float FloatSpec FloatFacts
  Activation Utility UtilityFacts Pool PoolFacts ActivationSpec ActivationFacts RowFacts Reshape LinAlg PoolSpec.
Import ListNotations.
Open Scope R_scope.

(** softmax at any scalar type with a division that always returns. *)
Lemma op_softmax_writes : forall {V T} (dt : dtype V T) sc exp_ eps y x ds n X (Q : T -> T) s,
  (forall t, sdiv sc (s1 sc) t = Ret (Q t)) ->
  tdims x = ds ++ [n] -> tdims y = ds ++ [n] -> dims_ok x ->
  holds dt s x X -> mapped s y -> disjoint y x ->
  writes dt (op_softmax dt sc exp_ (length ds + 1) eps y x) s y
    (fun ix => smax sc eps (Q (soft_tot sc exp_ n (row X (removelast ix)) (last ix 0%Z)))).
Proof.
  intros V T dt sc exp_ eps y x ds n X Q s HQ Ex Ey Dx HX HY D.
  assert (Dy : dims_ok y) by (unfold dims_ok in *; congruence).
  destruct (nonneg_snoc x ds n Ex Dx) as (Hds & Hn & Hp).
  unfold op_softmax. replace (length ds + 1 - 1)%nat with (length ds) by lia.
  set (F := fun a b => smax sc eps (Q (soft_tot sc exp_ n (fun j => X (expand ds a ++ [j])) b))).
  apply (writes_as_rows dt _ s y ds n F (fun i j => smax sc eps (Q (soft_tot sc exp_ n (row X i) j)))); auto.
  - intros i j Hi Hj. unfold F. rewrite (expand_offset ds i Hi). reflexivity.
  - eapply writes_ext; [reflexivity| |
      eapply (softmax2_writes dt sc exp_ eps _ _ (prod ds) n
        (arg2 (fun a b => X (expand ds a ++ [b])))
        (fun a b => Q (soft_tot sc exp_ n (fun j => X (expand ds a ++ [j])) b)))].
    + intros ix _. reflexivity.
    + apply dims_as_rows; auto.
    + apply dims_as_rows; auto.
    + exact Hp.
    + exact Hn.
    + apply (holds_as_rows dt s x ds n X); auto.
    + apply mapped_as_matrix; auto.
    + apply disjoint_as_matrix; auto.
    + intros i j Hi Hj. unfold arg2; cbn [nth]. apply HQ.
Qed.

(** argmax at any scalar type: the scan that keeps the best element so far. *)
Definition scan {T} (sc : scalar T) (n : Z) (f : Z -> T) : Z :=
  fst (fold_left (fun (b : Z * T) i => if sltb sc (snd b) (f (i + 1)%Z) then ((i + 1)%Z, f (i + 1)%Z) else b)
    (zrange (n - 1)) (0%Z, f 0%Z)).

Lemma zrange_S : forall k, zrange (Z.of_nat (S k)) = zrange (Z.of_nat k) ++ [Z.of_nat k].
Proof. intros k. unfold zrange. rewrite !Nat2Z.id, seq_S, map_app. reflexivity. Qed.

(** Invariant of the scan when the values outside [dom] never compare greater. *)
Lemma scan_dom : forall {T} (sc : scalar T) (dom : T -> Prop) (f : Z -> T),
  weak_order dom (sltb sc) -> (forall v, dom v \/ ~ dom v) ->
  (forall a v, ~ dom v -> sltb sc a v = false) -> dom (f 0%Z) ->
  forall n, (1 <= n)%Z ->
  let j := scan sc n f in
  (0 <= j < n)%Z /\ dom (f j) /\
  (forall k, (0 <= k < n)%Z -> sltb sc (f j) (f k) = false) /\
  (forall k, (0 <= k < j)%Z -> dom (f k) -> sltb sc (f k) (f j) = true).
Proof.
  intros T sc dom f WO Dec ND D0 n Hn.
  set (g := fun (b : Z * T) i => if sltb sc (snd b) (f (i + 1)%Z) then ((i + 1)%Z, f (i + 1)%Z) else b).
  assert (G : forall k, let b := fold_left g (zrange (Z.of_nat k)) (0%Z, f 0%Z) in
    snd b = f (fst b) /\ (0 <= fst b <= Z.of_nat k)%Z /\ dom (snd b) /\
    (forall i, (0 <= i <= Z.of_nat k)%Z -> sltb sc (snd b) (f i) = false) /\
    (forall i, (0 <= i < fst b)%Z -> dom (f i) -> sltb sc (f i) (snd b) = true)).
  { induction k as [|k IH].
    - cbn. split; [reflexivity|]. split; [lia|]. split; [auto|]. split; [|intros; lia].
      intros i Hi. replace i with 0%Z by lia. apply WO; auto.
    - rewrite zrange_S, fold_left_app. cbn [fold_left]. cbv zeta in *.
      set (b := fold_left g (zrange (Z.of_nat k)) (0%Z, f 0%Z)) in *.
      destruct IH as (I1 & I2 & I3 & I4 & I5). replace (g b (Z.of_nat k)) with (if sltb sc (snd b) (f (Z.of_nat k + 1)%Z) then ((Z.of_nat k + 1)%Z, f (Z.of_nat k + 1)%Z) else b) by reflexivity.
      destruct (sltb sc (snd b) (f (Z.of_nat k + 1)%Z)) eqn:Q; cbn [fst snd].
      + assert (Dn : dom (f (Z.of_nat k + 1)%Z)).
        { destruct (Dec (f (Z.of_nat k + 1)%Z)) as [|N]; auto. rewrite (ND _ _ N) in Q. discriminate. }
        split; [reflexivity|]. split; [lia|]. split; [auto|]. split.
        * intros i Hi. destruct (Dec (f i)) as [Di|N]; [|auto].
          destruct (Z.eq_dec i (Z.of_nat k + 1)) as [->|]; [apply WO; auto|].
          destruct (sltb sc (f (Z.of_nat k + 1)%Z) (f i)) eqn:Q2; [|reflexivity].
          rewrite <- (I4 i) by lia. symmetry. eapply (proj1 (proj2 WO)); [| | |exact Q|exact Q2]; auto.
        * intros i Hi Di. apply (weak_le_lt dom _ _ (snd b)); auto. apply I4. lia.
      + split; [exact I1|]. split; [lia|]. split; [auto|]. split; [|exact I5].
        intros i Hi. destruct (Z.eq_dec i (Z.of_nat k + 1)) as [->|]; [exact Q|]. apply I4. lia. }
  specialize (G (Z.to_nat (n - 1))). rewrite Z2Nat.id in G by lia. cbv zeta in G.
  unfold scan. fold g. destruct G as (I1 & I2 & I3 & I4 & I5). cbv zeta. rewrite I1 in *.
  split; [lia|]. split; [auto|]. split; [|exact I5]. intros k Hk. apply I4. lia.
Qed.

Lemma scan_stuck : forall {T} (sc : scalar T) n (f : Z -> T), (forall v, sltb sc (f 0%Z) v = false) -> scan sc n f = 0%Z.
Proof.
  intros T sc n f H. unfold scan. induction (zrange (n - 1)) as [|i l IH]; [reflexivity|].
  cbn [fold_left snd]. rewrite H. exact IH.
Qed.

Lemma op_argmax_writes : forall {V R} (dn : dtype V Z) N (dr : dtype V R) sc y x ds n X s,
  (0 < it_bits N)%Z -> (n - 1 <= it_max N)%Z -> (1 <= n)%Z ->
  tdims y = ds -> tdims x = ds ++ [n] -> dims_ok x ->
  holds dr s x X -> mapped s y -> disjoint y x ->
  writes dn (op_argmax dn N dr sc (length ds) y x) s y (fun ix => scan sc n (row X ix)).
Proof.
  intros V R dn N dr sc y x ds n X s Hb HN Hn Ey Ex Dx HX HY D.
  destruct (nonneg_snoc x ds n Ex Dx) as (Hds & Hn0 & Hp).
  assert (Dy : dims_ok y) by (unfold dims_ok; rewrite Ey; exact Hds).
  pose proof (dims_as_rows x ds n Ex) as Em.
  assert (B : forall f : Z -> R, (0 <= scan sc n f < n)%Z).
  { intros f. unfold scan.
    assert (G : forall l (b : Z * R), (forall i, In i l -> (0 <= i < n - 1)%Z) -> (0 <= fst b < n)%Z ->
      (0 <= fst (fold_left (fun (b : Z * R) i => if sltb sc (snd b) (f (i + 1)%Z) then ((i + 1)%Z, f (i + 1)%Z) else b) l b) < n)%Z).
    { induction l as [|i l IH]; intros b Hl Hbb; [exact Hbb|]. cbn [fold_left].
      apply IH; [intros; apply Hl; right; auto|]. specialize (Hl i (or_introl eq_refl)).
      destruct (sltb sc (snd b) (f (i + 1)%Z)); cbn [fst]; lia. }
    apply G; [intros i Hi; apply in_zrange in Hi; exact Hi|cbn; lia]. }
  unfold op_argmax, argmax2, nth_dim; cbn [flat reshape tdims nth].
  change (prod (tdims y)) with (size y). apply writes_loop_flat; auto.
  intros o s' Ho Nb F O. unfold size in Ho. rewrite Ey in *.
  pose proof (valid_expand ds o Hds Ho) as Hv.
  assert (H' : holds dr s' x X) by (eapply holds_frame_disj; eauto).
  assert (Es : tdims (sub (as_matrix (length ds) x) o) = [n]) by exact (tdims_sub _ _ _ _ Em).
  assert (L : forall j, (0 <= j < n)%Z ->
    load dr (daddr (sub (as_matrix (length ds) x) o) j) s' = Ok (row X (expand ds o) j) s').
  { intros j Hj. apply load_ok.
    pose proof (holds_sub dr s' (as_matrix (length ds) x) (arg2 (fun a b => X (expand ds a ++ [b]))) o
      (prod ds) [n] Em Ho (holds_as_rows dr s' x ds n X Ex Dx H')) as HS.
    specialize (HS [j]). rewrite Es in HS. specialize (HS ltac:(cbn; lia)).
    unfold arg2 in HS; cbn [nth] in HS. unfold row. rewrite <- HS.
    unfold addr. rewrite Es. f_equal. f_equal. cbn. lia. }
  assert (E : argmax1 dr sc (sub (as_matrix (length ds) x) o) s' = Ok (scan sc n (row X (expand ds o))) s').
  { unfold argmax1.
    replace (size (sub (as_matrix (length ds) x) o)) with n by (unfold size; rewrite Es; cbn; lia).
    replace (n =? 0)%Z with false by lia. rewrite (bind_ok _ _ _ _ _ (L 0%Z ltac:(lia))).
    erewrite bind_ok.
    2:{ apply foldM_pure. intros c i Hi. apply in_zrange in Hi.
        rewrite (bind_ok _ _ _ _ _ (L (i + 1)%Z ltac:(lia))). reflexivity. }
    reflexivity. }
  rewrite (bind_ok _ _ _ _ _ E).
  rewrite (conv_id N _ Hb) by (pose proof (it_min_le0 N Hb); specialize (B (row X (expand ds o))); lia).
  change (daddr (flat y) o) with (daddr y o). apply store_ok. rewrite O. apply HY, daddr_foot.
  unfold size. rewrite Ey. auto.
Qed.

(** The greatest of a list, ignoring the values that never compare greater. *)
Lemma fold_max_dom : forall {T} (sc : scalar T) (dom : T -> Prop),
  weak_order dom (sltb sc) -> (forall v, dom v \/ ~ dom v) -> (forall a v, ~ dom v -> sltb sc a v = false) ->
  forall l v0, dom v0 ->
  let v := fold_left (fun val x => if sltb sc val x then x else val) l v0 in
  dom v /\ (v = v0 \/ In v l) /\ sltb sc v v0 = false /\ forall x, In x l -> sltb sc v x = false.
Proof.
  intros T sc dom WO Dec ND. induction l as [|x l IH]; intros v0 D0; cbn [fold_left]; cbv zeta.
  - split; [auto|]. split; [auto|]. split; [apply WO; auto|]. intros x [].
  - destruct (sltb sc v0 x) eqn:Q.
    + assert (Dx : dom x) by (destruct (Dec x) as [|N]; auto; rewrite (ND _ _ N) in Q; discriminate).
      destruct (IH x Dx) as (I1 & I2 & I3 & I4). split; [auto|]. split; [right; destruct I2 as [->|]; [left|right]; auto|].
      assert (H : sltb sc (fold_left (fun val x => if sltb sc val x then x else val) l x) v0 = false).
      { eapply (proj2 (proj2 WO)); [| | |exact I3|]; auto. eapply weak_asym; eauto. }
      split; [exact H|]. intros y [->|Hy]; auto.
    + destruct (IH v0 D0) as (I1 & I2 & I3 & I4). split; [auto|]. split; [destruct I2; auto; right; right; auto|].
      split; [auto|]. intros y [->|Hy]; auto.
      destruct (Dec y) as [Dy|N]; [|auto]. eapply (proj2 (proj2 WO)); [| | |exact I3|exact Q]; auto.
Qed.

Section Float.
  Context (prec emax : Z) {Hprec : Prec_gt_0 prec} {Hmax : Prec_lt_emax prec emax}.
  Notation flt := (binary_float prec emax).
  Notation sc := (Fsc prec emax).
  Notation fexp := (FLT_exp (3 - emax - prec) prec).
  Notation rnd := (round radix2 fexp ZnearestE).
  Notation key := (key prec emax).

  Lemma key_fin : forall v : flt, is_finite v = true -> key v = B2R v /\ - bpow radix2 emax < key v < bpow radix2 emax.
  Proof using.
    intros v Fv. assert (E : key v = B2R v) by (destruct v; [reflexivity|discriminate|discriminate|reflexivity]).
    split; [exact E|]. rewrite E. pose proof (abs_B2R_lt_emax prec emax v) as Q. apply Rabs_def2 in Q. lra.
  Qed.

  Lemma key_inf : forall v : flt, is_nan v = false -> bpow radix2 emax <= key v -> v = B754_infinity false.
  Proof using.
    intros v N H. destruct (is_finite v) eqn:F.
    - pose proof (key_fin v F). lra.
    - destruct v as [?|s| |? ? ? ?]; try discriminate. destruct s; [|reflexivity]. cbn in H.
      pose proof (bpow_gt_0 radix2 emax). lra.
  Qed.

  Lemma key_one : key Bone = 1.
  Proof. rewrite (proj1 (key_fin _ (is_finite_Bone prec emax _ _))). apply Bone_correct. Qed.

  (** The sum of two values that are not NaN and not negative. *)
  Lemma add_nonneg : forall a b : flt, is_nan a = false -> is_nan b = false -> 0 <= key a -> 0 <= key b ->
    is_nan (Bplus mode_NE a b) = false /\ key a <= key (Bplus mode_NE a b) /\ key b <= key (Bplus mode_NE a b).
  Proof.
    intros a b Na Nb Ha Hb. pose proof (bpow_gt_0 radix2 emax) as Pe.
    destruct (is_finite a) eqn:Fa; [destruct (is_finite b) eqn:Fb|].
    - destruct (key_fin a Fa) as [Ka _]. destruct (key_fin b Fb) as [Kb _]. rewrite Ka, Kb in *.
      pose proof (Bplus_correct prec emax _ _ mode_NE a b Fa Fb) as C.
      change (SpecFloat.fexp prec emax) with fexp in C. cbn [round_mode] in C.
      destruct (Rlt_bool_spec (Rabs (rnd (B2R a + B2R b))) (bpow radix2 emax)) as [L|L].
      + destruct C as (C1 & C2 & _). split; [destruct (Bplus mode_NE a b); try discriminate; reflexivity|].
        rewrite (proj1 (key_fin _ C2)), C1. split.
        * apply round_ge_generic; [apply FLT_exp_valid; auto|apply valid_rnd_N|apply generic_format_B2R|lra].
        * apply round_ge_generic; [apply FLT_exp_valid; auto|apply valid_rnd_N|apply generic_format_B2R|lra].
      + destruct C as (C1 & C2).
        assert (Sa : Bsign a = false).
        { destruct (Bsign a) eqn:Q; [|reflexivity]. exfalso.
          assert (Neg : forall v : flt, Bsign v = true -> B2R v <= 0).
          { intros v Hv. destruct v as [?|?| |s m e Hm]; cbn in *; try lra. subst s. cbn.
            apply F2R_le_0. cbn. lia. }
          pose proof (Neg a Q). symmetry in C2. pose proof (Neg b C2).
          assert (E0 : B2R a + B2R b = 0) by lra. rewrite E0, round_0, Rabs_R0 in L by apply valid_rnd_N. lra. }
        rewrite Sa in C1. cbn in C1.
        assert (E : Bplus mode_NE a b = B754_infinity false).
        { destruct (Bplus mode_NE a b); cbn in C1; try discriminate. congruence. }
        rewrite E. cbn [FloatFacts.key is_nan]. pose proof (key_fin a Fa). pose proof (key_fin b Fb).
        split; [reflexivity|]. lra.
    - destruct b as [?|s| |? ? ? ?]; try discriminate. destruct s; [cbn in Hb; lra|].
      assert (E : Bplus mode_NE a (B754_infinity false) = B754_infinity false) by (destruct a as [?|?| |? ? ? ?]; try discriminate; reflexivity).
      rewrite E. pose proof (key_fin a Fa). cbn [FloatFacts.key is_nan]. split; [reflexivity|]. lra.
    - destruct a as [?|s| |? ? ? ?]; try discriminate. destruct s; [cbn in Ha; lra|].
      destruct (is_finite b) eqn:Fb.
      + assert (E : Bplus mode_NE (B754_infinity false) b = B754_infinity false) by (destruct b as [?|?| |? ? ? ?]; try discriminate; reflexivity).
        rewrite E. pose proof (key_fin b Fb). cbn [FloatFacts.key is_nan]. split; [reflexivity|]. lra.
      + destruct b as [?|s| |? ? ? ?]; try discriminate. destruct s; [cbn in Hb; lra|].
        cbn. split; [reflexivity|]. lra.
  Qed.

  Lemma sum_nonneg : forall {A} (l : list A) (f : A -> flt),
    (forall a, In a l -> is_nan (f a) = false /\ 0 <= key (f a)) ->
    is_nan (sum_over sc l f) = false /\ 0 <= key (sum_over sc l f) /\
    forall a, In a l -> key (f a) <= key (sum_over sc l f).
  Proof.
    intros A l f. induction l as [|a l IH] using rev_ind; intros H.
    - cbn. split; [reflexivity|]. split; [lra|]. intros a [].
    - destruct IH as (N & P & B); [intros; apply H, in_or_app; auto|].
      destruct (H a) as [Na Pa]; [apply in_or_app; right; left; auto|].
      assert (E : sum_over sc (l ++ [a]) f = Bplus mode_NE (sum_over sc l f) (f a)).
      { unfold sum_over. rewrite fold_left_app. reflexivity. }
      rewrite E. destruct (add_nonneg _ _ N Na P Pa) as (Q1 & Q2 & Q3).
      split; [exact Q1|]. split; [lra|]. intros b Hb. apply in_app_or in Hb. destruct Hb as [Hb|[<-|[]]].
      + specialize (B b Hb). lra.
      + exact Q3.
  Qed.

  Lemma minus_self : forall v : flt, is_finite v = true -> exists s, Bminus mode_NE v v = B754_zero s.
  Proof.
    intros v F. pose proof (Bminus_correct prec emax _ _ mode_NE v v F F) as C.
    change (SpecFloat.fexp prec emax) with fexp in C. cbn [round_mode] in C.
    rewrite Rminus_diag_eq in C by reflexivity. rewrite round_0, Rabs_R0 in C by apply valid_rnd_N.
    rewrite Rlt_bool_true in C by apply bpow_gt_0. destruct C as (C1 & C2 & _).
    destruct (Bminus mode_NE v v) as [s|s| |s m e Hm]; try discriminate; [eauto|].
    exfalso. cbn in C1. apply eq_0_F2R in C1. destruct s; discriminate.
  Qed.

  Lemma minus_nan_l : forall b : flt, Bminus mode_NE B754_nan b = B754_nan.
  Proof using. intros b. destruct b; reflexivity. Qed.
  Lemma minus_nan_r : forall a : flt, Bminus mode_NE a B754_nan = B754_nan.
  Proof using. intros a. destruct a; reflexivity. Qed.
  Lemma minus_inf_self : forall s, Bminus mode_NE (B754_infinity s) (B754_infinity s : flt) = B754_nan.
  Proof using. intros []; reflexivity. Qed.

  Lemma div_one : forall t : flt, is_nan t = false -> 1 <= key t ->
    is_finite (Bdiv mode_NE Bone t) = true /\ 0 <= B2R (Bdiv mode_NE Bone t) <= 1.
  Proof.
    intros t Nt Ht. destruct (is_finite t) eqn:F.
    - destruct (key_fin t F) as [K _]. rewrite K in Ht.
      pose proof (Bdiv_correct prec emax _ _ mode_NE Bone t ltac:(lra)) as C.
      change (SpecFloat.fexp prec emax) with fexp in C. cbn [round_mode] in C. rewrite Bone_correct in C.
      assert (I : 0 <= 1 / B2R t <= 1).
      { split; [apply Rlt_le, Rdiv_lt_0_compat; lra|]. apply Rmult_le_reg_r with (B2R t); [lra|].
        unfold Rdiv. rewrite Rmult_assoc, Rinv_l by lra. lra. }
      assert (G1 : generic_format radix2 fexp 1).
      { rewrite <- (Bone_correct prec emax _ _). apply generic_format_B2R. }
      assert (R1 : 0 <= rnd (1 / B2R t) <= 1).
      { split.
        - apply round_ge_generic; [apply FLT_exp_valid; auto|apply valid_rnd_N|apply generic_format_0|lra].
        - apply round_le_generic; [apply FLT_exp_valid; auto|apply valid_rnd_N|exact G1|lra]. }
      rewrite Rlt_bool_true in C.
      + destruct C as (C1 & C2 & _). rewrite C1, C2. split; [apply is_finite_Bone|exact R1].
      + rewrite Rabs_pos_eq by lra. eapply Rle_lt_trans; [apply R1|]. change 1 with (bpow radix2 0).
        apply bpow_lt. pose proof Hprec as P. pose proof Hmax as M. unfold Prec_gt_0 in P. unfold Prec_lt_emax in M. lia.
    - destruct t as [?|s| |? ? ? ?]; try discriminate. destruct s; [cbn in Ht; pose proof (bpow_gt_0 radix2 emax); lra|].
      pose proof (is_finite_strict_Bone prec emax _ _) as Q. destruct (Bone : flt); try discriminate. cbn. split; [reflexivity|lra].
  Qed.

  (** *** One softmax output *)
  Lemma nonneg_key : forall v : flt, is_nan v = false -> Bltb v (B754_zero false) = false -> 0 <= key v.
  Proof using.
    intros v N H. rewrite ltb_key in H by auto. change (key (B754_zero false)) with 0 in H.
    destruct (Rlt_bool_spec (key v) 0); [discriminate|lra].
  Qed.

  Lemma exp_sign : forall exp_ x, exp_ok prec emax exp_ -> is_nan x = false -> is_nan (exp_ x) = false /\ 0 <= key (exp_ x).
  Proof using.
    intros exp_ x (_ & E & _) Nx. destruct (E x Nx) as [N B]. split; [exact N|]. apply nonneg_key; auto.
  Qed.

  Lemma exp_zero : forall exp_ s, exp_ok prec emax exp_ -> key (exp_ (B754_zero s)) = 1.
  Proof using.
    intros exp_ s (_ & _ & E & _). specialize (E s). destruct (exp_ (B754_zero s)); cbn in *; try lra.
  Qed.

  Lemma soft_cases : forall exp_ n (X : Z -> flt) i, exp_ok prec emax exp_ -> (0 <= i < n)%Z ->
    let q := Bdiv mode_NE Bone (soft_tot sc exp_ n X i) in
    is_nan q = true \/ (is_finite q = true /\ 0 <= B2R q <= 1).
  Proof.
    intros exp_ n X i EO Hi q. pose proof (proj1 EO) as E1.
    assert (Dec : (exists j, (0 <= j < n)%Z /\ is_nan (Bminus mode_NE (X j) (X i)) = true) \/
      forall j, (0 <= j < n)%Z -> is_nan (Bminus mode_NE (X j) (X i)) = false).
    { destruct (existsb (fun j => is_nan (Bminus mode_NE (X j) (X i))) (zrange n)) eqn:Q.
      - apply existsb_exists in Q. destruct Q as (j & Hj & Q). apply in_zrange in Hj. left; eauto.
      - right. intros j Hj. destruct (is_nan (Bminus mode_NE (X j) (X i))) eqn:Q2; [|reflexivity].
        rewrite <- Q. symmetry. apply existsb_exists. exists j. split; auto. apply in_zrange; auto. }
    destruct Dec as [(j & Hj & Q)|Q].
    - left. unfold q, soft_tot. rewrite (sum_nan prec emax _ _ j); [| |apply E1; exact Q].
      + destruct (Bone : flt); reflexivity.
      + apply in_zrange; auto.
    - right. assert (Fi : is_finite (X i) = true).
      { specialize (Q i Hi). destruct (X i) as [?|s| |? ? ? ?]; try reflexivity.
        - rewrite minus_inf_self in Q. discriminate.
        - discriminate. }
      destruct (sum_nonneg (zrange n) (fun j => exp_ (Bminus mode_NE (X j) (X i)))) as (N & P & B).
      { intros j Hj. apply in_zrange in Hj. apply exp_sign; auto. }
      apply div_one; [exact N|]. destruct (minus_self (X i) Fi) as (s & Es).
      specialize (B i ltac:(apply in_zrange; auto)). cbv beta in B. rewrite Es, exp_zero in B by auto. exact B.
  Qed.

  (** A NaN or +infinity in the row. *)
  Lemma soft_bad : forall exp_ n (X : Z -> flt) i j, exp_ok prec emax exp_ -> (0 <= i < n)%Z -> (0 <= j < n)%Z ->
    (X j = B754_nan \/ X j = B754_infinity false) ->
    let q := Bdiv mode_NE Bone (soft_tot sc exp_ n X i) in
    is_nan q = true \/ (is_finite q = true /\ B2R q = 0).
  Proof.
    intros exp_ n X i j EO Hi Hj Hb q. destruct (soft_cases exp_ n X i EO Hi) as [Q|Q]; [left; exact Q|].
    fold q in Q. destruct (is_nan q) eqn:Nq; [left; reflexivity|]. right. split; [apply Q|].
    pose proof (proj1 EO) as E1. pose proof (proj2 (proj2 (proj2 EO))) as E4.
    assert (NN : forall k, (0 <= k < n)%Z -> is_nan (Bminus mode_NE (X k) (X i)) = false).
    { intros k Hk. destruct (is_nan (Bminus mode_NE (X k) (X i))) eqn:Q2; [|reflexivity].
      unfold q, soft_tot in Nq. rewrite (sum_nan prec emax _ _ k) in Nq; [| |apply E1; exact Q2].
      - destruct (Bone : flt); discriminate.
      - apply in_zrange; auto. }
    pose proof (NN j Hj) as Nj. pose proof (NN i Hi) as Ni. destruct Hb as [Hb|Hb]; rewrite Hb in Nj.
    - rewrite minus_nan_l in Nj. discriminate.
    - assert (Ed : Bminus mode_NE (X j) (X i) = B754_infinity false).
      { rewrite Hb. destruct (X i) as [?|s| |? ? ? ?]; try reflexivity; [|discriminate].
        destruct s; [reflexivity|discriminate]. }
      destruct (sum_nonneg (zrange n) (fun j => exp_ (Bminus mode_NE (X j) (X i)))) as (N & P & B).
      { intros k Hk. apply in_zrange in Hk. apply exp_sign; auto. }
      specialize (B j ltac:(apply in_zrange; auto)). cbv beta in B. rewrite Ed, E4 in B. cbn [FloatFacts.key] in B.
      apply key_inf in B; [|exact N]. unfold q, soft_tot.
      change (fun j0 => exp_ (ssub sc (X j0) (X i))) with (fun j0 => exp_ (Bminus mode_NE (X j0) (X i))).
      rewrite B. pose proof (is_finite_strict_Bone prec emax _ _) as F1. destruct (Bone : flt); try discriminate. reflexivity.
  Qed.

  (** std::max(eps, q) *)
  Lemma smax_cases : forall eps q : flt, is_finite eps = true ->
    (is_nan q = true -> smax sc eps q = eps) /\
    (is_finite q = true -> is_finite (smax sc eps q) = true /\ B2R (smax sc eps q) = Rmax (B2R eps) (B2R q)).
  Proof using.
    intros eps q Fe. unfold smax; cbn [sltb Fsc]. split.
    - intros Nq. rewrite (nan_eq prec emax q Nq), ltb_nan_r. reflexivity.
    - intros Fq. rewrite Bltb_correct by auto. destruct (Rlt_bool_spec (B2R eps) (B2R q)).
      + split; auto. rewrite Rmax_right by lra. reflexivity.
      + split; auto. rewrite Rmax_left by lra. reflexivity.
  Qed.

  (** *** The order of the values that are not NaN *)
  Lemma float_order : weak_order (fun v : flt => is_nan v = false) (@Bltb prec emax).
  Proof using.
    assert (T : forall a b : flt, is_nan a = false -> is_nan b = false -> (Bltb a b = true <-> key a < key b)).
    { intros a b Na Nb. rewrite ltb_key by auto. destruct (Rlt_bool_spec (key a) (key b)); split; intros; auto; try discriminate; lra. }
    assert (F : forall a b : flt, is_nan a = false -> is_nan b = false -> (Bltb a b = false <-> key b <= key a)).
    { intros a b Na Nb. rewrite ltb_key by auto. destruct (Rlt_bool_spec (key a) (key b)); split; intros; auto; try discriminate; lra. }
    repeat split.
    - intros a Na. apply F; auto. lra.
    - intros a b c Na Nb Nc. rewrite !T by auto. lra.
    - intros a b c Na Nb Nc. rewrite !F by auto. lra.
  Qed.
End Float.
