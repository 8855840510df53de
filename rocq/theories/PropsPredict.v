(** Property C90: predicted class and loss.

    Over the reals std::exp, std::log are the real functions; the float theorems
    assume of them only [exp_ok] and [log_ok]. *)
From Coq Require Import ZArith List Bool Lia ZifyBool Reals Lra.
From Coquelicot Require Import Coquelicot.
From Flocq Require Import Core BinarySingleNaN.
From Verif Require Import Base BaseFacts TensorFacts Scalar SumFacts RealScalar LinAlgFacts
  Activation ActivationSpec ActivationFacts RowFacts SoftmaxFacts Utility UtilityFacts PoolSpec VggSpec
  Float FloatSpec FloatFacts FloatNan PropsSoftmax PropsUtility PropsBatch PropsFloat PredictSpec PredictFacts Demo.
Import ListNotations.
Open Scope Z_scope.
Open Scope model_scope.

Lemma mapped_after : forall {V} (s s' : st V) t u, only_changes t s s' -> disjoint u t -> mapped s u -> mapped s' u.
Proof. intros V s s' t u [_ O] D M p Hp. rewrite O; [apply M; auto|]. intros Q. exact (D p Hp Q). Qed.

Section RealPredict.
  Context {V : Type} (dt : dtype V R) (dn : dtype V Z) (N : itype).

  (** *** The class predicted from the probabilities is the one predicted from the
      scores, for every row, whenever the clamp is at most 1/n. *)
  Theorem C90_prediction : forall eps c y x ds n X s,
    0 < it_bits N -> n - 1 <= it_max N -> 1 <= n -> (eps <= 1 / IZR n)%R ->
    tdims x = ds ++ [n] -> tdims y = ds ++ [n] -> tdims c = ds -> dims_ok x ->
    holds dt s x X -> mapped s y -> mapped s c -> disjoint y x -> disjoint c y -> disjoint c x ->
    exists J s',
      writes dn (op_argmax dn N dt Rsc (length ds) c x) s c J /\
      (op_softmax dt Rsc exp (length ds + 1) eps y x ;;; op_argmax dn N dt Rsc (length ds) c y) s = Ok tt s' /\
      holds dn s' c J /\
      forall ix, valid ds ix -> first_greatest n (row X ix) (J ix).
  Proof.
    intros eps c y x ds n X s Hb HN Hn He Ex Ey Ec Dx HX HY HC D1 D2 D3.
    assert (Dy : dims_ok y) by (unfold dims_ok in *; rewrite Ey, <- Ex; exact Dx).
    pose proof (C33_value dt eps y x ds n X s Ex Ey Dx HX HY D1) as W1.
    destruct (writes_then dt dn _ (op_argmax dn N dt Rsc (length ds) c y) s y c _
      (fun ix => scan Rsc n (row X ix)) W1) as (s2 & E & _ & H & _).
    { intros s' Hs' O.
      eapply writes_ext; [reflexivity| |apply (op_argmax_writes dn N dt Rsc c y ds n _ s' Hb HN Hn Ec Ey Dy Hs')]; auto.
      - intros ix Hix. rewrite Ec in Hix. cbv beta. apply (first_unique n (softmax_fn eps n (row X ix))).
        + eapply first_ext; [|apply scan_first; exact Hn]. intros i Hi. unfold row at 1. rewrite removelast_last, last_last. reflexivity.
        + apply soft_first; [exact He|apply scan_first; exact Hn].
      - eapply mapped_after; eauto. }
    exists (fun ix => scan Rsc n (row X ix)), s2. split; [|split; [exact E|split; [exact H|]]].
    - apply op_argmax_writes; auto.
    - intros ix _. apply scan_first; exact Hn.
  Qed.

  (** The bound is exact: for every greater clamp there are scores of class 1
      that are predicted as class 0. *)
  Theorem C90_prediction_refuted : forall eps n, 2 <= n -> (1 / IZR n < eps)%R ->
    exists X : list Z -> R, forall c y x s,
      0 < it_bits N -> n - 1 <= it_max N ->
      tdims x = [n] -> tdims y = [n] -> tdims c = [] ->
      holds dt s x X -> mapped s y -> mapped s c -> disjoint y x -> disjoint c y -> disjoint c x ->
      writes dn (op_argmax dn N dt Rsc 0 c x) s c (fun _ => 1) /\
      exists s', (op_softmax dt Rsc exp 1 eps y x ;;; op_argmax dn N dt Rsc 0 c y) s = Ok tt s' /\ holds dn s' c (fun _ => 0).
  Proof.
    intros eps n Hn He. destruct (spoiled_clamped eps n Hn He) as (d & Hd & Hall).
    exists (fun ix => spoiled d (nth 0 ix 0)). intros c y x s Hb HN Ex Ey Ec HX HY HC D1 D2 D3.
    assert (Dx : dims_ok x) by (unfold dims_ok; rewrite Ex; repeat constructor; lia).
    assert (Dy : dims_ok y) by (unfold dims_ok; rewrite Ey; repeat constructor; lia).
    split.
    - eapply writes_ext; [reflexivity| |apply (op_argmax_writes dn N dt Rsc c x [] n (fun ix => spoiled d (nth 0 ix 0)) s)]; auto; [|lia].
      intros ix Hix. rewrite Ec in Hix. destruct ix; [|destruct Hix].
      apply (first_unique n (spoiled d)); [|apply spoiled_first; auto].
      eapply first_ext; [|apply scan_first; lia]. intros i Hi. reflexivity.
    - pose proof (C33_value dt eps y x [] n _ s Ex Ey Dx HX HY D1) as W1. cbn [length Nat.add] in W1.
      destruct (writes_then dt dn _ (op_argmax dn N dt Rsc 0 c y) s y c _ (fun _ => 0) W1) as (s2 & E & _ & H & _).
      { intros s' Hs' O.
        eapply writes_ext; [reflexivity| |apply (op_argmax_writes dn N dt Rsc c y [] n _ s' Hb HN ltac:(lia) Ec Ey Dy Hs')]; auto.
        - intros ix Hix. rewrite Ec in Hix. destruct ix; [|destruct Hix]. cbv beta.
          apply (first_unique n (fun _ => eps)).
          + eapply first_ext; [|apply scan_first; lia]. intros i Hi. unfold row. cbn [app removelast last].
            exact (Hall i Hi).
          + split; [lia|]. split; intros; [lra|lia].
        - eapply mapped_after; eauto. }
      exists s2. split; [exact E|exact H].
  Qed.

  (** *** The best k classes. *)

  Lemma top_lists : forall v z x n k X s,
    0 < it_bits N -> 0 <= n <= it_max N -> 0 <= k <= it_max N ->
    tdims x = [n] -> tdims v = [k] -> tdims z = [k] ->
    holds dt s x X -> mapped s v -> mapped s z -> disjoint v z ->
    exists s' L, op_top dt dn N Rsc v z x s = Ok tt s' /\
      Z.of_nat (length L) = Z.min n k /\ lists_top n (fun i => X [i]) L /\
      (forall p i, nth_error L p = Some i ->
         cells s' (addr v [Z.of_nat p]) = Init (emb dt (X [i])) /\
         cells s' (addr z [Z.of_nat p]) = Init (emb dn i)).
  Proof.
    intros v z x n k X s Hb Hn Hk Ex Ev Ez HX HV HZ D.
    destruct (C48_top V R dt dn N Rsc (fun _ => True) v z x n k X s) as (s' & L & E & _ & Hl & ND & I & C & S & T & _);
      rewrite ?C48_fits by auto; auto; try lia.
    { apply real_order. }
    rewrite !C48_fits in * by auto. exists s', L. split; [exact E|]. split; [exact Hl|]. split; [|exact C].
    assert (G : forall a b, sltb Rsc a b = false -> (b <= a)%R).
    { intros a b. cbn [sltb Rsc]. unfold Rltb. destruct (Rlt_dec a b); [discriminate|lra]. }
    assert (G' : forall a b (P : Prop), (sltb Rsc a b = false -> P) -> (a < b)%R \/ P).
    { intros a b P. cbn [sltb Rsc]. unfold Rltb. destruct (Rlt_dec a b); auto. }
    assert (K : forall a b (P : Prop), sltb Rsc a b = false -> (sltb Rsc b a = false -> P) -> (b < a)%R \/ a = b /\ P).
    { intros a b P A B. apply G in A. destruct A as [A|A]; [left; exact A|]. right. split; [auto|].
      apply B. cbn [sltb Rsc]. unfold Rltb. destruct (Rlt_dec b a); [lra|reflexivity]. }
    split; [exact ND|]. split; [exact I|]. split.
    - intros p q i j Hpq Hi Hj. destruct (S p q i j Hpq Hi Hj) as [A B]. apply K; auto.
    - intros i j Hi Hj NI. destruct (T i j Hi Hj NI) as [A B]. apply K; auto.
  Qed.

  (** When nothing is clamped, top of the probabilities lists the same classes
      in the same order as top of the scores. *)
  Theorem C90_top : forall eps v z y x n k X s,
    0 < it_bits N -> 1 <= n <= it_max N -> 0 <= k <= it_max N ->
    tdims x = [n] -> tdims y = [n] -> tdims v = [k] -> tdims z = [k] ->
    holds dt s x X -> mapped s y -> mapped s v -> mapped s z -> disjoint y x -> disjoint v y -> disjoint z y -> disjoint v z ->
    unclamped eps n (row X []) ->
    exists L s1 s2,
      Z.of_nat (length L) = Z.min n k /\
      op_top dt dn N Rsc v z x s = Ok tt s1 /\
      (op_softmax dt Rsc exp 1 eps y x ;;; op_top dt dn N Rsc v z y) s = Ok tt s2 /\
      lists_top n (fun i => X [i]) L /\
      forall p i, nth_error L p = Some i ->
        cells s1 (addr z [Z.of_nat p]) = Init (emb dn i) /\
        cells s2 (addr z [Z.of_nat p]) = Init (emb dn i) /\
        cells s1 (addr v [Z.of_nat p]) = Init (emb dt (X [i])) /\
        cells s2 (addr v [Z.of_nat p]) = Init (emb dt (exp (X [i]) / rsum n (fun j => exp (X [j]))))%R.
  Proof.
    intros eps v z y x n k X s Hb Hn Hk Ex Ey Ev Ez HX HY HV HZ D1 D2 D3 D4 U.
    assert (Dx : dims_ok x) by (unfold dims_ok; rewrite Ex; repeat constructor; lia).
    destruct (C33_value dt eps y x [] n X s Ex Ey Dx HX HY D1) as (s' & E1 & H1 & O1).
    destruct (top_lists v z x n k X s) as (s1 & L & E & Hl & LT & C); auto; [lia|].
    destruct (top_lists v z y n k _ s' Hb ltac:(lia) Hk Ey Ev Ez H1) as (s2 & L' & E' & Hl' & LT' & C'); auto;
      try (eapply mapped_after; eauto).
    assert (Q : L' = L).
    { apply (lists_top_unique n (fun i => X [i])); [|exact LT|apply Nat2Z.inj; congruence].
      revert LT'. apply lists_top_order. intros i j Hi Hj. cbn [removelast last].
      pose proof (U i Hi) as Ui. pose proof (U j Hj) as Uj. unfold softmax_fn. rewrite !Rmax_right by lra.
      rewrite soft_div_lt by lia. reflexivity. }
    subst L'. exists L, s1, s2. split; [exact Hl|]. split; [exact E|]. split; [rewrite (bind_ok _ _ _ _ _ E1); exact E'|].
    split; [exact LT|]. intros p i Hp. destruct (C p i Hp) as [A1 A2]. destruct (C' p i Hp) as [B1 B2].
    repeat split; auto. rewrite B1. cbn [removelast last].
    assert (Hi : 0 <= i < n) by (apply LT; eapply nth_error_In; eauto).
    unfold softmax_fn. rewrite Rmax_right; [reflexivity|]. left. apply (U i Hi).
  Qed.

  (** With clamping the ranking of the unlikely classes is lost, whatever the
      (positive) clamp. *)
  Theorem C90_top_refuted : forall eps, (0 < eps)%R -> 3 <= it_max N -> 0 < it_bits N ->
    exists X : list Z -> R, forall v z y x s,
      tdims x = [3] -> tdims y = [3] -> tdims v = [3] -> tdims z = [3] ->
      holds dt s x X -> mapped s y -> mapped s v -> mapped s z -> disjoint y x -> disjoint v y -> disjoint z y -> disjoint v z ->
      exists s1 s2,
        op_top dt dn N Rsc v z x s = Ok tt s1 /\
        (op_softmax dt Rsc exp 1 eps y x ;;; op_top dt dn N Rsc v z y) s = Ok tt s2 /\
        (forall p i, nth_error [2; 0; 1] p = Some i -> cells s1 (addr z [Z.of_nat p]) = Init (emb dn i)) /\
        (forall p i, nth_error [2; 1; 0] p = Some i -> cells s2 (addr z [Z.of_nat p]) = Init (emb dn i)).
  Proof.
    intros eps He HN Hb.
    set (f := fun i => if i =? 0 then 1%R else if i =? 1 then 0%R else (1 + ln (1 + 3 / eps))%R).
    exists (fun ix => f (nth 0 ix 0)). intros v z y x s Ex Ey Ev Ez HX HY HV HZ D1 D2 D3 D4.
    assert (Dx : dims_ok x) by (unfold dims_ok; rewrite Ex; repeat constructor; lia).
    assert (Pos : (0 < 3 / eps)%R) by (apply Rdiv_lt_0_compat; lra).
    assert (Ln : (0 < ln (1 + 3 / eps))%R) by (rewrite <- ln_1; apply ln_increasing; lra).
    assert (F0 : f 0 = 1%R) by reflexivity. assert (F1 : f 1 = 0%R) by reflexivity.
    assert (F2 : f 2 = (1 + ln (1 + 3 / eps))%R) by reflexivity.
    set (T := rsum 3 (fun j => exp (f j))).
    assert (E1' : (1 < exp 1 <= 3)%R) by (split; [pose proof (exp_ineq1 1 ltac:(lra)); lra|apply exp_le_3]).
    assert (TT : (3 / eps <= T)%R).
    { unfold T. eapply Rle_trans; [|apply (rsum_ge_one 3 2 (fun j => exp (f j))); [lia|intros; left; apply exp_pos]].
      rewrite F2, exp_plus, exp_ln by lra. nra. }
    assert (Cl : forall i, (exp (f i) <= 3)%R -> softmax_fn eps 3 f i = eps).
    { intros i Hi. unfold softmax_fn. fold T. apply Rmax_left. apply (Rmult_le_reg_r T); [lra|].
      replace (exp (f i) / T * T)%R with (exp (f i)) by (field; lra).
      apply Rle_trans with (eps * (3 / eps))%R; [replace (eps * (3 / eps))%R with 3%R by (field; lra); exact Hi|].
      apply Rmult_le_compat_l; lra. }
    assert (S0 : softmax_fn eps 3 f 0 = eps) by (apply Cl; rewrite F0; lra).
    assert (S1 : softmax_fn eps 3 f 1 = eps) by (apply Cl; rewrite F1, exp_0; lra).
    assert (S2 : (eps <= softmax_fn eps 3 f 2)%R) by apply Rmax_l.
    assert (LX : lists_top 3 f [2; 0; 1]).
    { split; [repeat constructor; cbn; lia|]. split; [cbn; intros; lia|]. split.
      - intros p q i j Hpq Hi Hj. left.
        destruct p as [|[|[|p]]], q as [|[|[|q]]]; cbn in Hi, Hj; try lia;
          try (rewrite nth_error_nil in Hj; discriminate); try (destruct q; discriminate); inversion Hi; inversion Hj; subst; lra.
      - intros i j _ Hj NI. exfalso. apply NI. cbn. lia. }
    assert (LS : lists_top 3 (softmax_fn eps 3 f) [2; 1; 0]).
    { assert (G : (softmax_fn eps 3 f 0 < softmax_fn eps 3 f 2)%R \/ softmax_fn eps 3 f 2 = softmax_fn eps 3 f 0)
        by (rewrite S0; lra).
      split; [repeat constructor; cbn; lia|]. split; [cbn; intros; lia|]. split.
      - intros p q i j Hpq Hi Hj.
        destruct p as [|[|[|p]]], q as [|[|[|q]]]; cbn in Hi, Hj; try lia;
          try (rewrite nth_error_nil in Hj; discriminate); try (destruct q; discriminate); inversion Hi; inversion Hj; subst.
        + rewrite S1. rewrite S0 in G. destruct G; [left|right; split]; auto; lia.
        + destruct G; [left|right; split]; auto; lia.
        + right. rewrite S0, S1. split; [reflexivity|lia].
      - intros i j _ Hj NI. exfalso. apply NI. cbn. lia. }
    destruct (C33_value dt eps y x [] 3 _ s Ex Ey Dx HX HY D1) as (s' & E1 & H1 & O1).
    destruct (top_lists v z x 3 3 _ s Hb ltac:(lia) ltac:(lia) Ex Ev Ez HX) as (s1 & L & E & Hl & LT & C); auto.
    destruct (top_lists v z y 3 3 _ s' Hb ltac:(lia) ltac:(lia) Ey Ev Ez H1) as (s2 & L' & E' & Hl' & LT' & C'); auto;
      try (eapply mapped_after; eauto).
    assert (Q : L = [2; 0; 1]) by (apply (lists_top_unique 3 f); auto; apply Nat2Z.inj; rewrite Hl; reflexivity).
    assert (Q' : L' = [2; 1; 0]).
    { apply (lists_top_unique 3 (softmax_fn eps 3 f)); [|exact LS|apply Nat2Z.inj; rewrite Hl'; reflexivity].
      revert LT'. apply lists_top_ext. intros i Hi. cbn [removelast last]. reflexivity. }
    exists s1, s2. split; [exact E|]. split; [rewrite (bind_ok _ _ _ _ _ E1); exact E'|]. subst L L'. split.
    - intros p i Hp. apply (C p i Hp).
    - intros p i Hp. apply (C' p i Hp).
  Qed.

  (** *** The loss against integer labels. *)

  (** Minus the logarithm of the probability given to the label; 0 for a label
      that is not a class. *)
  Theorem C90_loss : forall z t l y ds n L Y s,
    0 < it_bits N -> n <= it_max N ->
    tdims l = ds -> tdims t = ds ++ [n] -> tdims y = ds ++ [n] -> tdims z = ds -> dims_ok t ->
    holds dn s l L -> holds dt s y Y -> mapped s t -> mapped s z ->
    disjoint t l -> disjoint t y -> disjoint z t -> disjoint z y ->
    exists s', (op_onehot dn N dt Rsc (length ds) t l ;;; op_xentropy dt Rsc ln (length ds + 1) z t y) s = Ok tt s' /\
      holds dt s' z (fun ix => if (0 <=? L ix) && (L ix <? n) then (- ln (Y (ix ++ [L ix])))%R else 0%R).
  Proof.
    intros z t l y ds n L Y s Hb HN El Et Ey Ez Dt HL HY HT HZ D1 D2 D3 D4.
    pose proof (C45_onehot V R dn N dt Rsc t l ds n L s Hb HN El Et Dt HL HT D1) as W1.
    destruct (writes_then dt dt _ (op_xentropy dt Rsc ln (length ds + 1) z t y) s t z _
      (fun ix => if (0 <=? L ix) && (L ix <? n) then (- ln (Y (ix ++ [L ix])))%R else 0%R) W1) as (s2 & E & _ & H & _).
    { intros s' Hs' O.
      eapply writes_ext; [reflexivity| |apply (C36_value dt z t y ds n _ Y s' Et Ey Ez Dt Hs'); auto].
      - intros ix Hix. cbv beta.
        assert (Q : xent_fn n (row (fun ix0 : list Z => if Z.eq_dec (last ix0 0) (L (removelast ix0)) then s1 Rsc else s0 Rsc) ix) (row Y ix)
                  = xent_fn n (fun j => if Z.eq_dec j (L ix) then 1%R else 0%R) (row Y ix)).
        { unfold xent_fn. f_equal. apply rsum_ext. intros j Hj. unfold row at 1. rewrite removelast_last, last_last. reflexivity. }
        rewrite Q. destruct ((0 <=? L ix) && (L ix <? n)) eqn:B.
        + rewrite xent_onehot by lia. reflexivity.
        + unfold xent_fn. rewrite (rsum_ext n _ (fun j => 0 * 0)%R).
          * rewrite rsum_scal_l. ring.
          * intros j Hj. destruct (Z.eq_dec j (L ix)); [lia|ring].
      - eapply only_changes_holds; eauto.
      - eapply mapped_after; eauto. }
    exists s2. split; [exact E|exact H].
  Qed.

  (** The loss of clamped softmax probabilities against distributions lies
      between 0 and -ln eps. *)
  Theorem C90_loss_range : forall eps z y x t ds n X P s,
    (0 < eps <= 1)%R ->
    tdims x = ds ++ [n] -> tdims t = ds ++ [n] -> tdims y = ds ++ [n] -> tdims z = ds -> dims_ok x ->
    holds dt s x X -> holds dt s t P -> mapped s y -> mapped s z ->
    disjoint y x -> disjoint y t -> disjoint z t -> disjoint z y ->
    exists s' L, (op_softmax dt Rsc exp (length ds + 1) eps y x ;;; op_xentropy dt Rsc ln (length ds + 1) z t y) s = Ok tt s' /\
      holds dt s' z L /\
      forall ix, valid ds ix -> distribution n (row P ix) -> (0 <= L ix <= - ln eps)%R.
  Proof.
    intros eps z y x t ds n X P s He Ex Et Ey Ez Dx HX HP HY HZ D1 D2 D3 D4.
    assert (Dt : dims_ok t) by (unfold dims_ok in *; rewrite Et, <- Ex; exact Dx).
    pose proof (C33_value dt eps y x ds n X s Ex Ey Dx HX HY D1) as W1.
    destruct (writes_then dt dt _ (op_xentropy dt Rsc ln (length ds + 1) z t y) s y z _
      (fun ix => xent_fn n (row P ix) (softmax_fn eps n (row X ix))) W1) as (s2 & E & _ & H & _).
    { intros s' Hs' O.
      eapply writes_ext; [reflexivity| |apply (C36_value dt z t y ds n P _ s' Et Ey Ez Dt) with (2 := Hs'); auto].
      - intros ix Hix. unfold xent_fn. f_equal. apply rsum_ext. intros j Hj. unfold row at 2. rewrite removelast_last, last_last. reflexivity.
      - eapply only_changes_holds; eauto.
      - eapply mapped_after; eauto. }
    exists s2. eexists. split; [exact E|]. split; [exact H|]. intros ix Hv HD. cbv beta.
    apply xent_range; [exact HD|lra|]. intros i Hi. apply soft_range; auto.
  Qed.

  (** A loss below ln 2 proves the prediction right. *)
  Theorem C90_loss_correct : forall eps c z t l y x ds n L X s,
    0 < it_bits N -> n <= it_max N -> 1 <= n -> (0 < eps <= 1 / 2)%R ->
    tdims l = ds -> tdims c = ds -> tdims x = ds ++ [n] -> tdims t = ds ++ [n] -> tdims y = ds ++ [n] -> tdims z = ds -> dims_ok x ->
    holds dn s l L -> holds dt s x X -> mapped s y -> mapped s t -> mapped s z -> mapped s c ->
    disjoint y x -> disjoint y l -> disjoint t y -> disjoint z y -> disjoint t l -> disjoint z t -> disjoint c x ->
    exists J Loss s',
      writes dn (op_argmax dn N dt Rsc (length ds) c x) s c J /\
      (op_softmax dt Rsc exp (length ds + 1) eps y x ;;;
       (op_onehot dn N dt Rsc (length ds) t l ;;; op_xentropy dt Rsc ln (length ds + 1) z t y)) s = Ok tt s' /\
      holds dt s' z Loss /\
      forall ix, valid ds ix -> 0 <= L ix < n -> (Loss ix < ln 2)%R -> J ix = L ix.
  Proof.
    intros eps c z t l y x ds n L X s Hb HN Hn He El Ec Ex Et Ey Ez Dx HL HX HY HT HZ HC D1 D2 D3 D4 D5 D6 D7.
    assert (Dt : dims_ok t) by (unfold dims_ok in *; rewrite Et, <- Ex; exact Dx).
    destruct (C33_value dt eps y x ds n X s Ex Ey Dx HX HY D1) as (s1 & E1 & H1 & O1).
    assert (HL1 : holds dn s1 l L) by (eapply only_changes_holds; eauto).
    destruct (C90_loss z t l y ds n L _ s1 Hb HN El Et Ey Ez Dt HL1 H1) as (s2 & E2 & H2); auto;
      try (eapply mapped_after; eauto).
    exists (fun ix => scan Rsc n (row X ix)). eexists. exists s2. split; [apply op_argmax_writes; auto; lia|].
      split; [rewrite (bind_ok _ _ _ _ _ E1); exact E2|]. split; [exact H2|].
      intros ix Hv HLx Hlt. cbv beta in Hlt. replace ((0 <=? L ix) && (L ix <? n)) with true in Hlt by lia.
      rewrite removelast_last, last_last in Hlt.
      pose proof (soft_range eps n (row X ix) (L ix) ltac:(lra) HLx) as [R1 R2].
      assert (B : (1 / 2 < softmax_fn eps n (row X ix) (L ix))%R).
      { apply ln_lt_inv; [lra|lra|]. replace (1 / 2)%R with (/ 2)%R by field. rewrite ln_Rinv by lra. lra. }
      unfold softmax_fn in B. assert (B' : (1 / 2 < exp (row X ix (L ix)) / rsum n (fun j => exp (row X ix j)))%R).
      { unfold Rmax in B. destruct (Rle_dec _ _) in B; lra. }
      apply (first_unique n (row X ix)); [apply scan_first; exact Hn|].
      split; [exact HLx|]. split; intros k Hk.
      + destruct (Z.eq_dec k (L ix)) as [->|Ne]; [lra|]. left. eapply majority; eauto.
      + eapply majority; eauto; lia.
  Qed.

  (** The loss is least when the prediction is the label distribution, and only
      then. *)
  Theorem C90_loss_least : forall z w p q ds n P Q s,
    tdims p = ds ++ [n] -> tdims q = ds ++ [n] -> tdims z = ds -> tdims w = ds -> dims_ok p ->
    holds dt s p P -> holds dt s q Q -> mapped s z -> mapped s w ->
    disjoint z p -> disjoint z q -> disjoint w p ->
    exists Lq Lp,
      writes dt (op_xentropy dt Rsc ln (length ds + 1) z p q) s z Lq /\
      writes dt (op_xentropy dt Rsc ln (length ds + 1) w p p) s w Lp /\
      forall ix, valid ds ix -> distribution n (row P ix) -> distribution n (row Q ix) ->
        (forall i, 0 <= i < n -> (0 < row P ix i /\ 0 < row Q ix i)%R) ->
        (Lp ix <= Lq ix)%R /\ (Lp ix = Lq ix <-> forall i, 0 <= i < n -> P (ix ++ [i]) = Q (ix ++ [i])).
  Proof.
    intros z w p q ds n P Q s Ep Eq Ez Ew Dp HP HQ HZ HW D1 D2 D3.
    do 2 eexists. split; [apply (C36_value dt z p q ds n P Q s); auto|]. split; [apply (C36_value dt w p p ds n P P s); auto|].
    intros ix Hv DP DQ Pos. destruct (gibbs n (row P ix) (row Q ix) DP) as [A B].
    - intros i Hi. apply Pos; auto.
    - intros i Hi. apply Pos; auto.
    - apply DQ.
    - split; [exact A|]. split; [exact B|]. intros E. cbv beta. unfold xent_fn. f_equal. apply rsum_ext. intros j Hj.
      unfold row at 2 4. rewrite E by auto. reflexivity.
  Qed.
End RealPredict.

(** The bound ln 2 cannot be improved: with two equal scores and label 1, the
    loss is ln 2 and class 0 is predicted. *)
Theorem C90_loss_correct_refuted :
  let X := fun _ : Z => 0%R in
  xent_fn 2 (fun j => if Z.eq_dec j 1 then 1%R else 0%R) (softmax_fn (1 / 1000000) 2 X) = ln 2 /\ first_greatest 2 X 0.
Proof.
  split.
  - rewrite xent_onehot by lia. unfold softmax_fn. rewrite rsum_2, exp_0. replace (1 / (1 + 1))%R with (/ 2)%R by field.
    rewrite Rmax_right by lra. rewrite ln_Rinv by lra. ring.
  - split; [lia|]. split; intros; [lra|lia].
Qed.

(** *** Floating point. *)
Section FloatPredict.
  Context {V : Type} (prec emax : Z) {Hprec : Prec_gt_0 prec} {Hmax : Prec_lt_emax prec emax}.
  Context (dt : dtype V (binary_float prec emax)) (dn : dtype V Z) (N : itype).
  Notation sc := (Fsc prec emax).
  Notation flt := (binary_float prec emax).
  Context (exp_ log_ : flt -> flt) (EO : exp_ok prec emax exp_) (LO : log_ok log_).

  Lemma float_loss_writes : forall z t l y ds n L Y s,
    0 < it_bits N -> n <= it_max N ->
    tdims l = ds -> tdims t = ds ++ [n] -> tdims y = ds ++ [n] -> tdims z = ds -> dims_ok t ->
    holds dn s l L -> holds dt s y Y -> mapped s t -> mapped s z ->
    disjoint t l -> disjoint t y -> disjoint z t -> disjoint z y ->
    exists s', (op_onehot dn N dt sc (length ds) t l ;;; op_xentropy dt sc log_ (length ds + 1) z t y) s = Ok tt s' /\
      holds dt s' z (fun ix => sneg sc (sum_over sc (zrange n) (fun j =>
        smul sc (if Z.eq_dec j (L ix) then s1 sc else s0 sc) (log_ (Y (ix ++ [j])))))).
  Proof using.
    intros z t l y ds n L Y s Hb HN El Et Ey Ez Dt HL HY HT HZ D1 D2 D3 D4.
    pose proof (C45_onehot V flt dn N dt sc t l ds n L s Hb HN El Et Dt HL HT D1) as W1.
    destruct (writes_then dt dt _ (op_xentropy dt sc log_ (length ds + 1) z t y) s t z _
      (fun ix => sneg sc (sum_over sc (zrange n) (fun j =>
        smul sc (if Z.eq_dec j (L ix) then s1 sc else s0 sc) (log_ (Y (ix ++ [j])))))) W1) as (s2 & E & _ & H & _).
    { intros s' Hs' O.
      eapply writes_ext; [reflexivity| |apply (op_xentropy_writes dt sc log_ z t y ds n _ Y s' Et Ey Ez Dt Hs'); auto].
      - intros ix Hix. cbv beta. f_equal. apply sum_over_ext. intros j _. unfold row. rewrite removelast_last, last_last. reflexivity.
      - eapply only_changes_holds; eauto.
      - eapply mapped_after; eauto. }
    exists s2. split; [exact E|exact H].
  Qed.

  (** No rounding happens: the loss is the negated logarithm of the entry of the
      label, as long as the row is positive and finite.  One zero at another class
      makes it NaN; a zero at the label makes it +infinity. *)
  Theorem C90_float_loss : forall z t l y ds n L Y s,
    0 < it_bits N -> n <= it_max N ->
    tdims l = ds -> tdims t = ds ++ [n] -> tdims y = ds ++ [n] -> tdims z = ds -> dims_ok t ->
    holds dn s l L -> holds dt s y Y -> mapped s t -> mapped s z ->
    disjoint t l -> disjoint t y -> disjoint z t -> disjoint z y ->
    exists s' Loss, (op_onehot dn N dt sc (length ds) t l ;;; op_xentropy dt sc log_ (length ds + 1) z t y) s = Ok tt s' /\
      holds dt s' z Loss /\
      forall ix, valid ds ix -> 0 <= L ix < n ->
        ((forall j, 0 <= j < n -> is_finite (Y (ix ++ [j])) = true /\ (0 < B2R (Y (ix ++ [j])))%R) ->
           is_finite (Loss ix) = true /\ B2R (Loss ix) = (- B2R (log_ (Y (ix ++ [L ix]))))%R) /\
        (forall j, 0 <= j < n -> j <> L ix -> is_finite (Y (ix ++ [j])) = true -> B2R (Y (ix ++ [j])) = 0%R ->
           is_nan (Loss ix) = true) /\
        (is_finite (Y (ix ++ [L ix])) = true -> B2R (Y (ix ++ [L ix])) = 0%R ->
         (forall j, 0 <= j < n -> j <> L ix -> is_finite (Y (ix ++ [j])) = true /\ (0 < B2R (Y (ix ++ [j])))%R) ->
           Loss ix = B754_infinity false).
  Proof using LO.
    intros z t l y ds n L Y s Hb HN El Et Ey Ez Dt HL HY HT HZ D1 D2 D3 D4.
    destruct (float_loss_writes z t l y ds n L Y s) as (s' & E & H); auto.
    exists s'. eexists. split; [exact E|]. split; [exact H|]. intros ix Hv HLx. cbv beta.
    set (lg := fun j => log_ (Y (ix ++ [j]))).
    change (fun j => smul sc (if Z.eq_dec j (L ix) then s1 sc else s0 sc) (log_ (Y (ix ++ [j]))))
      with (fun j => smul sc (if Z.eq_dec j (L ix) then s1 sc else s0 sc) (lg j)).
    assert (Z0 : forall v : flt, is_finite v = true -> B2R v = 0%R -> log_ v = B754_infinity true).
    { intros [b|b| |b m e Hm] F R0; try discriminate; [apply LO|].
      exfalso. cbn [B2R] in R0. apply eq_0_F2R in R0. destruct b; discriminate. }
    split; [|split].
    - intros Pos. destruct (onehot_sum prec emax n (L ix) lg HLx) as [F R].
      { intros j Hj. apply LO; apply Pos; auto. }
      cbn [sneg Fsc]. rewrite is_finite_Bopp, B2R_Bopp. rewrite R. auto.
    - intros j Hj Ne F R0. rewrite (sum_nan prec emax _ _ j); [reflexivity|apply in_zrange; auto|].
      unfold lg. rewrite (Z0 _ F R0). destruct (Z.eq_dec j (L ix)); [congruence|]. reflexivity.
    - intros F R0 Pos. rewrite (onehot_inf prec emax n (L ix) lg HLx); [reflexivity|apply Z0; auto|].
      intros j Hj Ne. destruct (Pos j Hj Ne). apply LO; auto.
  Qed.

  (** Training is safe with a positive clamp: whatever the scores are, NaN and
      infinities included, the loss is finite. *)
  Theorem C90_float_finite : forall eps z t l y x ds n L X s,
    is_finite eps = true -> (0 < B2R eps)%R ->
    0 < it_bits N -> n <= it_max N ->
    tdims l = ds -> tdims x = ds ++ [n] -> tdims t = ds ++ [n] -> tdims y = ds ++ [n] -> tdims z = ds -> dims_ok x ->
    holds dn s l L -> holds dt s x X -> mapped s y -> mapped s t -> mapped s z ->
    disjoint y x -> disjoint y l -> disjoint t y -> disjoint z y -> disjoint t l -> disjoint z t ->
    exists s' Loss,
      (op_softmax dt sc exp_ (length ds + 1) eps y x ;;;
       (op_onehot dn N dt sc (length ds) t l ;;; op_xentropy dt sc log_ (length ds + 1) z t y)) s = Ok tt s' /\
      holds dt s' z Loss /\
      forall ix, valid ds ix -> 0 <= L ix < n -> is_finite (Loss ix) = true.
  Proof.
    intros eps z t l y x ds n L X s Fe Pe Hb HN El Ex Et Ey Ez Dx HL HX HY HT HZ D1 D2 D3 D4 D5 D6.
    assert (Dt : dims_ok t) by (unfold dims_ok in *; rewrite Et, <- Ex; exact Dx).
    destruct (C85_softmax prec emax dt exp_ EO eps y x ds n X s Fe Ex Ey Dx HX HY D1) as (Y & (s1 & E1 & H1 & O1) & B).
    assert (HL1 : holds dn s1 l L) by (eapply only_changes_holds; eauto).
    destruct (C90_float_loss z t l y ds n L Y s1 Hb HN El Et Ey Ez Dt HL1 H1) as (s2 & Loss & E2 & H2 & P); auto;
      try (eapply mapped_after; eauto).
    exists s2, Loss. split; [rewrite (bind_ok _ _ _ _ _ E1); exact E2|]. split; [exact H2|].
    intros ix Hv HLx. apply (P ix Hv HLx). intros j Hj. destruct (B ix j Hv Hj) as [F [R1 _]]. split; [exact F|lra].
  Qed.
End FloatPredict.

(** The hypotheses are satisfiable: a crude logarithm. *)
Definition log_toy (x : float) : float :=
  match x with
  | B754_nan => B754_nan
  | B754_infinity false => B754_infinity false
  | B754_infinity true => B754_nan
  | B754_zero _ => B754_infinity true
  | B754_finite s _ _ _ => if s then B754_nan
      else if Bltb x (f32 1 (-1)) then f32 (-2) 0 else if Bltb x (f32 1 0) then f32 (-1) 0 else f32 0 0
  end.
Example C90_log_ok : @log_ok 24 128 log_toy.
Proof.
  split; [intros []; reflexivity|]. intros [b|b| |b m e Hm] F P; try discriminate.
  - cbn [B2R] in P. lra.
  - destruct b.
    + exfalso. cbn [B2R] in P. pose proof (F2R_lt_0 radix2 (Float radix2 (Z.neg m) e) ltac:(reflexivity)) as Q.
      unfold cond_Zopp in P. cbn in P, Q. lra.
    + cbn [log_toy]. destruct (Bltb _ _); [vm_compute; reflexivity|]. destruct (Bltb _ _); vm_compute; reflexivity.
Qed.

Definition rt : dtype (R + Z) R := dt_inl R Z.
Definition nt : dtype (R + Z) Z := dt_inr R Z.

(** Scores [1 3 2] with the default clamp: class 1, before and after softmax. *)
Example C90_prediction_example :
  let s := demo [[inl 1; inl 3; inl 2]; repeat (inl 9) 3; [inr 7%Z]]%R in
  let x := T_ 0 [3] in let y := T_ 1 [3] in let c := T_ 2 [] in
  exists s1 s2, op_argmax nt int8 rt Rsc 0 c x s = Ok tt s1 /\ cells s1 (2, 0) = Init (inr 1) /\
    (op_softmax rt Rsc exp 1 (1 / 1000000)%R y x ;;; op_argmax nt int8 rt Rsc 0 c y) s = Ok tt s2 /\ cells s2 (2, 0) = Init (inr 1).
Proof.
  cbv zeta. set (s := demo _).
  destruct (C90_prediction rt nt int8 (1 / 1000000)%R (T_ 2 []) (T_ 1 [3]) (T_ 0 [3]) [] 3
    (fun ix => if nth 0 ix 0 =? 0 then 1%R else if nth 0 ix 0 =? 1 then 3%R else 2%R) s) as (J & s2 & W & E & H & F);
    try reflexivity; try (cbn; lia).
  - lra.
  - repeat constructor; lia.
  - intros [|i [|j ix]] Hv; try (cbn in Hv; lia). cbn in Hv.
    assert (D : i = 0 \/ i = 1 \/ i = 2) by lia. destruct D as [->|[->| ->]]; reflexivity.
  - intros p [o [Ho ->]]. cbn in Ho. assert (D : o = 0 \/ o = 1 \/ o = 2) by lia. destruct D as [->|[->| ->]]; discriminate.
  - intros p [o [Ho ->]]. cbn in Ho. assert (D : o = 0) by lia. subst o. discriminate.
  - intros p [o [_ ->]] [o' [_ Q]]. discriminate.
  - intros p [o [_ ->]] [o' [_ Q]]. discriminate.
  - intros p [o [_ ->]] [o' [_ Q]]. discriminate.
  - assert (J1 : J [] = 1).
    { apply (first_unique 3 (row (fun ix => if nth 0 ix 0 =? 0 then 1%R else if nth 0 ix 0 =? 1 then 3%R else 2%R) [])); [apply F; exact I|].
      split; [lia|]. unfold row; cbn [app nth]. split; intros k Hk.
      - destruct (k =? 0); [cbn; lra|]. destruct (k =? 1); cbn; lra.
      - assert (k = 0) by lia. subst k. cbn. lra. }
    destruct W as (s1 & E1 & H1 & _). exists s1, s2. cbn [length Nat.add] in *.
    split; [exact E1|]. specialize (H1 [] I). specialize (H [] I). rewrite J1 in *. split; [exact H1|]. split; [exact E|exact H].
Qed.

(** Three classes, labels 0, 1, 2, predictions [1/4 1/2 1/4], [0 1 0], [1/2 1/2 0]:
    the losses are 2 (crude log), NaN though the prediction is perfect, and
    +infinity. *)
Example C90_float_example :
  let s := demo ([map inr [0; 1; 2]] ++ map (map inl)
    [[f32 1 (-2); f32 1 (-1); f32 1 (-2); f32 0 0; f32 1 0; f32 0 0; f32 1 (-1); f32 1 (-1); f32 0 0]; repeat nan 9; repeat nan 3]) in
  let z := T_ 3 [3] in let t := T_ 2 [3; 3] in let y := T_ 1 [3; 3] in let l := T_ 0 [3] in
  shown1 (run (op_onehot (dt_inr float Z) int8 (dt_inl float Z) F32 1 t l ;;;
    op_xentropy (dt_inl float Z) F32 log_toy 2 z t y) s z) = floats [f32 2 0; nan; inf] /\
  (* finite, when clamped softmax is applied (in place) before *)
  shown1 (run (op_softmax (dt_inl float Z) F32 exp_toy 2 (f32 1 (-20)) y y ;;; (op_onehot (dt_inr float Z) int8 (dt_inl float Z) F32 1 t l ;;;
    op_xentropy (dt_inl float Z) F32 log_toy 2 z t y)) s z) = floats [f32 2 0; f32 1 0; f32 2 0].
Proof. vm_compute. split; reflexivity. Qed.

(** Labels 1 and 5 (not a class): the loss of the latter is 0 over the integers
    with an arbitrary "log". *)
Example C90_loss_example :
  run (op_onehot zt int8 zt Zsc 1 (T_ 2 [2; 3]) (T_ 0 [2]) ;;; op_xentropy zt Zsc (fun v => - v) 2 (T_ 3 [2]) (T_ 2 [2; 3]) (T_ 1 [2; 3]))
    (demo [[1; 5]; [10; 20; 30; 40; 50; 60]; repeat 9 6; [9; 9]]) (T_ 3 [2]) = Some (inits [20; 0]).
Proof. reflexivity. Qed.

Print Assumptions C90_prediction.
Print Assumptions C90_prediction_refuted.
Print Assumptions C90_top.
Print Assumptions C90_top_refuted.
Print Assumptions C90_loss.
Print Assumptions C90_loss_range.
Print Assumptions C90_loss_correct.
Print Assumptions C90_loss_correct_refuted.
Print Assumptions C90_loss_least.
Print Assumptions C90_float_loss.
Print Assumptions C90_float_finite.
