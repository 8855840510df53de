(** Properties C45 - C49 and C70: labels, selection, similarity, conversion. *)
From Coq Require Import ZArith List Bool Lia ZifyBool Permutation Sorted Reals Lra.
From Verif Require Import Base BaseFacts TensorFacts Scalar RealScalar PoolSpec ActivationSpec RowFacts ActivationFacts
  Utility UtilityFacts Demo.
Import ListNotations.
Open Scope Z_scope.
Open Scope model_scope.

(** *** C45, C46: onehot for labels of any rank. *)

(** Exactly what is written, for every label type and class count: class counts
    are taken modulo the range of the label type. *)
Theorem C46_value : forall V R (dn : dtype V Z) N (dr : dtype V R) sc y x ds k X s,
  0 < it_bits N -> tdims x = ds -> tdims y = ds ++ [k] -> dims_ok y ->
  holds dn s x X -> mapped s y -> disjoint y x ->
  writes dr (op_onehot dn N dr sc (length ds) y x) s y
    (fun ix => let l := X (removelast ix) in
               if (last ix 0 =? l) && (l <? conv N k) then s1 sc else s0 sc).
Proof.
  intros V R dn N dr sc y x ds k X s Hb Ex Ey Dy HX HY D.
  destruct (nonneg_snoc y ds k Ey Dy) as (Hds & Hk & Hp).
  assert (Dx : dims_ok x) by (unfold dims_ok; rewrite Ex; exact Hds).
  unfold op_onehot.
  apply (writes_as_rows dr _ s y ds k (hot sc (conv N k) (fun a => X (expand ds a)))
    (fun i j => if (j =? X i) && (X i <? conv N k) then s1 sc else s0 sc)); auto.
  - intros i j Hi Hj. unfold hot. rewrite expand_offset by auto. reflexivity.
  - apply (onehot2_writes dn N dr sc (as_matrix (length ds) y) (flat x) (prod ds) k); auto.
    + unfold flat, reshape; cbn. rewrite Ex. reflexivity.
    + apply dims_as_rows; auto.
    + intros i Hi. change (daddr (flat x) i) with (daddr x i). rewrite <- Ex. apply holds_daddr; auto.
      unfold size. rewrite Ex. auto.
    + apply mapped_as_matrix; auto.
    + intros p H1 H2. apply (D p); [exact (proj1 (foot_as_matrix _ y p) H1)|].
      refine (proj1 (foot_reshape x [prod (tdims x)] p _) H2). unfold size; cbn; lia.
Qed.

(** A class count that fits the label type: 1 at the label, 0 elsewhere. *)
Theorem C45_onehot : forall V R (dn : dtype V Z) N (dr : dtype V R) sc y x ds k X s,
  0 < it_bits N -> k <= it_max N -> tdims x = ds -> tdims y = ds ++ [k] -> dims_ok y ->
  holds dn s x X -> mapped s y -> disjoint y x ->
  writes dr (op_onehot dn N dr sc (length ds) y x) s y
    (fun ix => if Z.eq_dec (last ix 0) (X (removelast ix)) then s1 sc else s0 sc).
Proof.
  intros V R dn N dr sc y x ds k X s Hb Hk Ex Ey Dy HX HY D.
  destruct (nonneg_snoc y ds k Ey Dy) as (Hds & Hk0 & Hp).
  eapply writes_ext; [reflexivity| |eapply C46_value; eauto].
  intros ix Hix. rewrite Ey in Hix. destruct (valid_snoc _ _ _ Hix) as (i & j & -> & Hi & Hj).
  rewrite removelast_last, last_last. cbv zeta.
  rewrite (conv_id N k Hb) by (pose proof (it_min_le0 N Hb); lia).
  destruct (Z.eq_dec j (X i)) as [<-|Ne].
  - replace (j =? j) with true by lia. replace (j <? k) with true by lia. reflexivity.
  - replace (j =? X i) with false by lia. reflexivity.
Qed.

Example C45_example :
  run (op_onehot zt int8 zt Zsc 1 (T_ 1 [4; 3]) (T_ 0 [4])) (demo [[2; 0; -1; 3]; repeat 9 12]) (T_ 1 [12])
    = Some (inits [0; 0; 1; 1; 0; 0; 0; 0; 0; 0; 0; 0]).
Proof. reflexivity. Qed.

(** int8_t labels, 200 classes: label 5 is valid but its row is all 0, since
    200 is converted to -56. *)
Theorem C46_refuted : exists (s : st Z) x y,
  run (ret tt) s x = Some (inits [5]) /\ tdims y = [1; 200] /\
  run (op_onehot zt int8 zt Zsc 1 y x) s y = Some (inits (repeat 0 200)).
Proof. exists (demo [[5]; repeat 9 200]), (T_ 0 [1]), (T_ 1 [1; 200]). vm_compute. auto. Qed.

(** *** C47: argmax, and argmax after onehot. *)

(** Position of the first greatest element of every row. *)
Theorem C47_argmax : forall V R (dn : dtype V Z) N (dr : dtype V R) sc dom y x ds n X s,
  0 < it_bits N -> n - 1 <= it_max N -> 1 <= n -> weak_order dom (sltb sc) ->
  tdims y = ds -> tdims x = ds ++ [n] -> dims_ok x ->
  holds dr s x X -> mapped s y -> disjoint y x ->
  (forall ix, valid (tdims x) ix -> dom (X ix)) ->
  exists J, writes dn (op_argmax dn N dr sc (length ds) y x) s y J /\
    forall ix, valid ds ix ->
      0 <= J ix < n /\
      (forall k, 0 <= k < n -> sltb sc (X (ix ++ [J ix])) (X (ix ++ [k])) = false) /\
      (forall k, 0 <= k < J ix -> sltb sc (X (ix ++ [k])) (X (ix ++ [J ix])) = true).
Proof.
  intros V R dn N dr sc dom y x ds n X s Hb HN Hn SO Ey Ex Dx HX HY D HD.
  destruct (nonneg_snoc x ds n Ex Dx) as (Hds & Hn0 & Hp).
  assert (Dy : dims_ok y) by (unfold dims_ok; rewrite Ey; exact Hds).
  set (best := fun ix : list Z =>
    fst (fold_left (fun (b : Z * R) i => if sltb sc (snd b) (X (ix ++ [i + 1])) then (i + 1, X (ix ++ [i + 1])) else b)
      (zrange (n - 1)) (0, X (ix ++ [0])))).
  pose proof (dims_as_rows x ds n Ex) as Em.
  assert (Q : forall ix s', valid ds ix -> holds dr s' x X ->
    argmax1 dr sc (sub (as_matrix (length ds) x) (offset ds ix)) s' = Ok (best ix) s' /\ 0 <= best ix < n /\
    (forall k, 0 <= k < n -> sltb sc (X (ix ++ [best ix])) (X (ix ++ [k])) = false) /\
    (forall k, 0 <= k < best ix -> sltb sc (X (ix ++ [k])) (X (ix ++ [best ix])) = true)).
  { intros ix s' Hv H'. pose proof (offset_bound _ _ Hv) as Bo.
    assert (Es : tdims (sub (as_matrix (length ds) x) (offset ds ix)) = [n]) by exact (tdims_sub _ _ _ _ Em).
    assert (L : forall j, 0 <= j < n ->
      load dr (daddr (sub (as_matrix (length ds) x) (offset ds ix)) j) s' = Ok (X (ix ++ [j])) s').
    { intros j Hj. apply load_ok.
      pose proof (holds_sub dr s' (as_matrix (length ds) x) (arg2 (fun a b => X (expand ds a ++ [b]))) (offset ds ix)
        (prod ds) [n] Em Bo (holds_as_rows dr s' x ds n X Ex Dx H')) as HS.
      specialize (HS [j]). rewrite Es in HS. specialize (HS ltac:(cbn; lia)).
      unfold arg2 in HS; cbn [nth] in HS. rewrite expand_offset in HS by auto. rewrite <- HS.
      unfold addr. rewrite Es. f_equal. f_equal. cbn. lia. }
    assert (HD' : forall j, 0 <= j < n -> dom (X (ix ++ [j]))).
    { intros j Hj. apply HD. rewrite Ex. apply valid_app; [apply valid_length; auto|]. cbn; auto. }
    destruct (argmax1_ok dr sc dom _ n (fun j => X (ix ++ [j])) s' Es Hn L SO HD') as (j & E & Hj & G1 & G2).
    assert (j = best ix).
    { revert E. unfold argmax1.
      replace (size (sub (as_matrix (length ds) x) (offset ds ix))) with n by (unfold size; rewrite Es; cbn; lia).
      replace (n =? 0) with false by lia. rewrite (bind_ok _ _ _ _ _ (L 0 ltac:(lia))).
      erewrite bind_ok.
      2:{ apply foldM_pure. intros c i Hi. apply in_zrange in Hi.
          rewrite (bind_ok _ _ _ _ _ (L (i + 1) ltac:(lia))). reflexivity. }
      unfold ret. intros E; inversion E. reflexivity. }
    subst j. auto. }
  exists best. split; [|intros ix Hv; apply (Q ix s Hv HX)].
  unfold op_argmax, argmax2, nth_dim; cbn [flat reshape tdims nth].
  change (prod (tdims y)) with (size y). apply writes_loop_flat; auto.
  intros o s' Ho Nb F O. unfold size in Ho. rewrite Ey in *.
  pose proof (valid_expand ds o Hds Ho) as Hv.
  destruct (Q (expand ds o) s' Hv ltac:(eapply holds_frame_disj; eauto)) as (E & Hj & _).
  rewrite offset_expand in E by auto. rewrite (bind_ok _ _ _ _ _ E).
  rewrite (conv_id N (best (expand ds o)) Hb) by (pose proof (it_min_le0 N Hb); lia).
  change (daddr (flat y) o) with (daddr y o). apply store_ok. rewrite O. apply HY, daddr_foot.
  unfold size. rewrite Ey. auto.
Qed.

(** Labels in range come back. *)
Theorem C47_inverse : forall V R (dn : dtype V Z) N (dr : dtype V R) sc dom x y z ds k X s,
  0 < it_bits N -> k <= it_max N -> weak_order dom (sltb sc) -> dom (s0 sc) -> dom (s1 sc) -> sltb sc (s0 sc) (s1 sc) = true ->
  tdims x = ds -> tdims y = ds ++ [k] -> tdims z = ds -> dims_ok y -> 1 <= k ->
  holds dn s x X -> (forall ix, valid ds ix -> 0 <= X ix < k) ->
  mapped s y -> mapped s z -> disjoint y x -> disjoint z y ->
  exists s', (op_onehot dn N dr sc (length ds) y x ;;; op_argmax dn N dr sc (length ds) z y) s = Ok tt s' /\
    holds dn s' z X.
Proof.
  intros V R dn N dr sc dom x y z ds k X s Hb HN SO D0 D1 H01 Ex Ey Ez Dy Hk HX HL My Mz Dyx Dzy.
  destruct (C45_onehot V R dn N dr sc y x ds k X s Hb HN Ex Ey Dy HX My Dyx) as (s1 & E1 & H1 & N1 & F1).
  assert (Mz1 : mapped s1 z).
  { intros p Hp. rewrite F1; [apply Mz; auto|]. intros Q. exact (Dzy p Hp Q). }
  destruct (C47_argmax V R dn N dr sc dom z y ds k _ s1 Hb ltac:(lia) Hk SO Ez Ey Dy H1 Mz1 Dzy
    ltac:(intros ix _; cbv beta; destruct (Z.eq_dec _ _); auto))
    as (J & (s2 & E2 & H2 & _) & HJ).
  exists s2. rewrite (bind_ok _ _ _ _ _ E1). split; [exact E2|].
  eapply holds_ext; [|exact H2]. intros ix Hix. rewrite Ez in Hix.
  destruct (HJ ix Hix) as (B & G & _). specialize (G (X ix) (HL ix Hix)).
  rewrite !removelast_last, !last_last in G.
  destruct (Z.eq_dec (X ix) (X ix)) as [_|]; [|congruence].
  destruct (Z.eq_dec (J ix) (X ix)) as [e|]; [exact e|]. congruence.
Qed.

Example C47_example :
  run (op_onehot zt int8 zt Zsc 1 (T_ 1 [4; 3]) (T_ 0 [4]) ;;; op_argmax zt int8 zt Zsc 1 (T_ 2 [4]) (T_ 1 [4; 3]))
    (demo [[2; 0; 1; 2]; repeat 9 12; repeat 9 4]) (T_ 2 [4]) = Some (inits [2; 0; 1; 2]) /\
  run (op_argmax zt int8 zt Zsc 1 (T_ 1 [2]) (T_ 0 [2; 3])) (demo [[1; 7; 7; 4; 0; 3]; [9; 9]]) (T_ 1 [2])
    = Some (inits [1; 0]).
Proof. split; reflexivity. Qed.

(** *** C48: top. *)

(** The sizes are first converted to the index type: [n0] elements are looked
    at and [m] results written. *)
Theorem C48_top : forall V R (dr : dtype V R) (dn : dtype V Z) N sc dom y z x n k X s,
  0 < it_bits N -> tdims x = [n] -> tdims y = [k] -> tdims z = [k] -> 0 <= n -> 0 <= k ->
  0 <= conv N n -> 0 <= conv N k ->
  holds dr s x X -> mapped s y -> mapped s z -> disjoint y z -> weak_order dom (sltb sc) ->
  (forall i, 0 <= i < conv N n -> dom (X [i])) ->
  let n0 := conv N n in let m := Z.min n0 (conv N k) in
  exists s' L, op_top dr dn N sc y z x s = Ok tt s' /\ nextb s' = nextb s /\
    Z.of_nat (length L) = m /\ NoDup L /\ (forall i, In i L -> 0 <= i < n0) /\
    (forall p i, nth_error L p = Some i ->
       cells s' (addr y [Z.of_nat p]) = Init (emb dr (X [i])) /\
       cells s' (addr z [Z.of_nat p]) = Init (emb dn i)) /\
    (forall p q i j, (p < q)%nat -> nth_error L p = Some i -> nth_error L q = Some j ->
       sltb sc (X [i]) (X [j]) = false /\ (sltb sc (X [j]) (X [i]) = false -> j < i)) /\
    (forall i j, In i L -> 0 <= j < n0 -> ~ In j L ->
       sltb sc (X [i]) (X [j]) = false /\ (sltb sc (X [j]) (X [i]) = false -> j < i)) /\
    (forall p, (forall q, 0 <= q < m -> p <> addr y [q] /\ p <> addr z [q]) -> cells s' p = cells s p).
Proof. intros. apply (top_ok dr dn N sc dom y z x n k); auto. Qed.

(** Sizes that fit are not changed by the conversion. *)
Theorem C48_fits : forall N n, 0 < it_bits N -> 0 <= n <= it_max N -> conv N n = n.
Proof. intros N n Hb H. apply conv_id; auto. pose proof (it_min_le0 N Hb). lia. Qed.

(** Any std::sort result is the modelled one: a descending arrangement of the
    pairs is unique. *)
Theorem C48_sort_unique : forall R (sc : scalar R) dom (l w : list (R * Z)), weak_order dom (sltb sc) ->
  (forall a, In a l -> dom (fst a)) -> NoDup (map snd l) ->
  Permutation w l -> StronglySorted (fun a b => pair_gt sc a b = true) w -> w = sort (pair_gt sc) l.
Proof.
  intros R sc dom l w SO HD ND P S.
  assert (S2 : StronglySorted (fun a b => pair_gt sc a b = true) (sort (pair_gt sc) l)).
  { apply (sort_pairs sc dom); auto. }
  assert (P2 : Permutation w (sort (pair_gt sc) l)) by (rewrite P; symmetry; apply sort_perm).
  assert (Irr : forall a, dom (fst a) -> pair_gt sc a a = false).
  { intros [a i] Da. unfold pair_gt; cbn. destruct SO as (I & _). rewrite I by auto. cbn. lia. }
  assert (HW : forall a, In a w -> dom (fst a)) by (intros a Ha; apply HD; eapply Permutation_in; eauto).
  clear P ND HD. revert P2 S S2 HW. generalize (sort (pair_gt sc) l). clear l. intros l.
  revert l. induction w as [|a w IH]; intros [|b l] P S1 S2 HW; auto.
  - apply Permutation_nil in P. discriminate.
  - apply Permutation_sym, Permutation_nil in P. discriminate.
  - inversion S1 as [|? ? Sw Fw]; inversion S2 as [|? ? Sl Fl]; subst.
    assert (a = b).
    { assert (Ia : In a (b :: l)) by (eapply Permutation_in; [exact P|left; auto]).
      assert (Ib : In b (a :: w)) by (eapply Permutation_in; [symmetry; exact P|left; auto]).
      pose proof (HW b Ib) as Db. pose proof (HW a (or_introl eq_refl)) as Da.
      destruct Ia as [|Ia]; [auto|]. destruct Ib as [|Ib]; [auto|].
      rewrite Forall_forall in Fw, Fl. pose proof (pair_gt_trans sc dom a b a SO Da Db Da (Fw b Ib) (Fl a Ia)) as Q.
      rewrite Irr in Q by auto. discriminate. }
    subst b. f_equal. apply IH; auto; [eapply Permutation_cons_inv; eauto|intros; apply HW; right; auto].
Qed.

(** A size that converts to a negative number throws before anything is written. *)
Theorem C48_throws : forall V R (dr : dtype V R) (dn : dtype V Z) N sc y z x (s : st V),
  conv N (size x) < 0 -> op_top dr dn N sc y z x s = Throw LogicError s.
Proof. intros. unfold op_top. cbv zeta. replace (conv N (size x) <? 0) with true by lia. reflexivity. Qed.

Example C48_example :
  run (op_top zt zt int32 Zsc (T_ 1 [3]) (T_ 2 [3]) (T_ 0 [5])) (demo [[4; 9; 4; 1; 7]; [0; 0; 0]; [0; 0; 0]]) (T_ 1 [3])
    = Some (inits [9; 7; 4]) /\
  run (op_top zt zt int32 Zsc (T_ 1 [3]) (T_ 2 [3]) (T_ 0 [5])) (demo [[4; 9; 4; 1; 7]; [0; 0; 0]; [0; 0; 0]]) (T_ 2 [3])
    = Some (inits [1; 4; 2]) /\
  (* fewer elements than results: the rest is untouched *)
  run (op_top zt zt int32 Zsc (T_ 1 [3]) (T_ 2 [3]) (T_ 0 [2])) (demo [[4; 9]; [0; 0; -5]; [0; 0; -6]]) (T_ 1 [3])
    = Some (inits [9; 4; -5]).
Proof. repeat split. Qed.

(** uint8_t positions, 257 elements: only the first element is looked at, so
    the largest one, at position 1, is missed. *)
Theorem C48_refuted : exists (s : st Z) x y z,
  tdims x = [257] /\ run (ret tt) s x = Some (inits (1 :: 100 :: repeat 0 255)) /\
  run (op_top zt zt uint8 Zsc y z x) s y = Some (inits [1; -1]) /\
  run (op_top zt zt uint8 Zsc y z x) s z = Some (inits [0; -1]).
Proof.
  exists (demo [1 :: 100 :: repeat 0 255; [-1; -1]; [-1; -1]]), (T_ 0 [257]), (T_ 1 [2]), (T_ 2 [2]).
  vm_compute. auto.
Qed.

(** *** C49: similarity. *)
Theorem C49_value : forall V A (dr : dtype V R) (d1 : dtype V A) neqb z x y X Y s,
  dims_ok x -> 1 <= size x -> tdims y = tdims x -> tdims z = [] ->
  holds d1 s x X -> holds d1 s y Y -> mapped s z ->
  writes dr (op_similarity dr Rsc d1 neqb z x y) s z
    (fun _ => 1 - IZR (diffs neqb (tdims x) X Y) / IZR (size x))%R.
Proof.
  intros V A dr d1 neqb z x y X Y s D Hn Ey Ez HX HY Mz.
  assert (E : op_similarity dr Rsc d1 neqb z x y s =
    Ok tt (upd s (daddr z 0) (emb dr (1 - IZR (diffs neqb (tdims x) X Y) / IZR (size x))%R))).
  { unfold op_similarity. rewrite (bind_ok _ _ _ _ _ (hamming_ok d1 neqb x y X Y s D Ey HX HY)).
    replace (size (flat x)) with (size x) by (unfold size; cbn; lia).
    rewrite Rdiv_ok by (cbn; apply not_0_IZR; lia). cbn [lift]. rewrite bind_ret_l.
    cbn [ssub Rsc Scalar.s1 sofZ]. apply store_ok. apply Mz. apply daddr_foot. unfold size. rewrite Ez. cbn. lia. }
  eexists. split; [exact E|]. split.
  - intros ix Hix. rewrite Ez in Hix. destruct ix; [|destruct Hix]. unfold addr. rewrite Ez. cbn [offset cells upd].
    rewrite loc_eqb_refl. reflexivity.
  - split; [cbn; lia|]. intros p Hp. cbn [cells upd]. destruct (loc_eqb_spec p (daddr z 0)) as [->|]; [|reflexivity].
    exfalso. apply Hp. apply daddr_foot. unfold size. rewrite Ez. cbn. lia.
Qed.

Definition sim {A} (neqb : A -> A -> bool) (ds : list Z) (X Y : list Z -> A) : R :=
  (1 - IZR (diffs neqb ds X Y) / IZR (prod ds))%R.

Lemma filter_len : forall {A} f (l : list A), (length (List.filter f l) <= length l)%nat.
Proof. intros A f l. induction l as [|a l IH]; cbn; [lia|]. destruct (f a); cbn; lia. Qed.

Lemma filter_none : forall {A} (f : A -> bool) l, (forall a, In a l -> f a = false) -> List.filter f l = [].
Proof.
  intros A f l H. induction l as [|a l IH]; cbn; [reflexivity|]. rewrite H by (left; auto). apply IH.
  intros; apply H; right; auto.
Qed.

Lemma diffs_range : forall A neqb ds (X Y : list Z -> A), nonneg ds -> 0 <= diffs neqb ds X Y <= prod ds.
Proof.
  intros A neqb ds X Y H. unfold diffs. rewrite <- length_indices by auto.
  pose proof (filter_len (fun ix => neqb (X ix) (Y ix)) (indices ds)). lia.
Qed.

Theorem C49_bounds : forall A neqb ds (X Y : list Z -> A), nonneg ds -> 1 <= prod ds ->
  (0 <= sim neqb ds X Y <= 1)%R.
Proof.
  intros A neqb ds X Y H Hn. destruct (diffs_range A neqb ds X Y H) as [L U]. unfold sim.
  apply IZR_le in L. apply IZR_le in U. assert (P : (0 < IZR (prod ds))%R) by (apply (IZR_lt 0); lia).
  assert (Q1 : (0 <= IZR (diffs neqb ds X Y) / IZR (prod ds))%R).
  { apply Rmult_le_pos; [exact L|]. apply Rlt_le, Rinv_0_lt_compat; auto. }
  assert (Q2 : (IZR (diffs neqb ds X Y) / IZR (prod ds) <= 1)%R).
  { apply Rmult_le_reg_r with (IZR (prod ds)); [exact P|]. unfold Rdiv. rewrite Rmult_assoc, Rinv_l by lra. lra. }
  lra.
Qed.

Theorem C49_one : forall A (neqb : A -> A -> bool) ds (X Y : list Z -> A), nonneg ds -> 1 <= prod ds ->
  (forall a b, neqb a b = false <-> a = b) ->
  (sim neqb ds X Y = 1%R <-> forall ix, valid ds ix -> X ix = Y ix).
Proof.
  intros A neqb ds X Y H Hn NE.
  assert (P : (0 < IZR (prod ds))%R) by (apply (IZR_lt 0); lia).
  assert (E : sim neqb ds X Y = 1%R <-> diffs neqb ds X Y = 0).
  { unfold sim. split; intros Q.
    - apply eq_IZR. replace (IZR (diffs neqb ds X Y)) with (IZR (diffs neqb ds X Y) / IZR (prod ds) * IZR (prod ds))%R by (field; lra).
      replace (IZR (diffs neqb ds X Y) / IZR (prod ds))%R with 0%R by lra. ring.
    - rewrite Q. unfold Rdiv. ring. }
  rewrite E. unfold diffs. split.
  - intros Q ix Hix. apply NE. destruct (neqb (X ix) (Y ix)) eqn:B; [|reflexivity].
    assert (I : In ix (List.filter (fun ix => neqb (X ix) (Y ix)) (indices ds))).
    { apply filter_In. split; auto. apply in_indices; auto. }
    destruct (List.filter _ _); [destruct I|discriminate].
  - intros Q. replace (List.filter (fun ix => neqb (X ix) (Y ix)) (indices ds)) with (@nil (list Z)); [reflexivity|].
    symmetry. apply filter_none. intros ix Hix. apply NE, Q.
    apply in_indices; auto.
Qed.

Theorem C49_symmetric : forall A (neqb : A -> A -> bool) ds (X Y : list Z -> A),
  (forall a b, neqb a b = neqb b a) -> sim neqb ds X Y = sim neqb ds Y X.
Proof.
  intros A neqb ds X Y S. unfold sim, diffs. do 5 f_equal. apply filter_ext. intros ix. apply S.
Qed.

(** Different shapes are rejected. *)
Theorem C49_shape : forall x y, similarity_shape x y = if list_eq_dec Z.eq_dec x y then Ret [] else Exn RuntimeError.
Proof. intros x y. unfold similarity_shape. destruct (list_eq_dec Z.eq_dec x y); reflexivity. Qed.

Example C49_example :
  run (op_similarity qt Qsc qt (fun a b => negb (QArith_base.Qeq_bool a b)) (T_ 2 []) (T_ 0 [2; 2]) (T_ 1 [2; 2]))
    (demo [[QArith_base.Qmake 1 1; QArith_base.Qmake 2 1; QArith_base.Qmake 3 1; QArith_base.Qmake 4 1];
           [QArith_base.Qmake 1 1; QArith_base.Qmake 2 1; QArith_base.Qmake 3 1; QArith_base.Qmake 5 1];
           [QArith_base.Qmake 0 1]]) (T_ 2 [1]) = Some (inits [QArith_base.Qmake 3 4]).
Proof. vm_compute. reflexivity. Qed.

(** *** C70: cast. *)
Theorem C70_cast : forall V A B (da : dtype V A) (db : dtype V B) (f : B -> A) y x X s,
  dims_ok y -> tdims x = tdims y -> holds db s x X -> mapped s y -> disjoint y x ->
  writes da (op_cast da db f y x) s y (fun ix => f (X ix)).
Proof. intros. apply cast_writes; auto. Qed.

(** int32_t to uint8_t. *)
Example C70_example :
  run (op_cast zt zt (conv uint8) (T_ 1 [2; 2]) (T_ 0 [2; 2])) (demo [[1; -1; 256; 300]; [0; 0; 0; 0]]) (T_ 1 [4])
    = Some (inits [1; 255; 0; 44]).
Proof. reflexivity. Qed.

Print Assumptions C45_onehot.
Print Assumptions C46_value.
Print Assumptions C46_refuted.
Print Assumptions C47_argmax.
Print Assumptions C47_inverse.
Print Assumptions C48_top.
Print Assumptions C48_fits.
Print Assumptions C48_sort_unique.
Print Assumptions C48_throws.
Print Assumptions C48_refuted.
Print Assumptions C49_value.
Print Assumptions C49_bounds.
Print Assumptions C49_one.
Print Assumptions C49_symmetric.
Print Assumptions C49_shape.
Print Assumptions C70_cast.
