From Coq Require Import ZArith List Bool Lia ZifyBool.
From Verif Require Import Base BaseFacts TensorFacts Scalar LinAlgFacts Pool PoolSpec PoolFacts Summary RowFacts.
Import ListNotations.
Open Scope Z_scope.
Open Scope model_scope.

(** The greatest element by a left-to-right scan; [f] keeps the first or the
    last of equivalent elements. *)
Lemma fold_pick : forall {T} dom (lt : T -> T -> bool) f l v0, weak_order dom lt ->
  (forall a b, dom a -> dom b -> (f a b = a /\ lt a b = false) \/ (f a b = b /\ lt b a = false)) ->
  (forall x, In x (v0 :: l) -> dom x) ->
  greatest lt (v0 :: l) (fold_left f l v0).
Proof.
  intros T dom lt f l v0 WO Hf. revert v0. induction l as [|x l IH]; intros v0 Hd; cbn [fold_left].
  - split; [left; auto|]. intros x [<-|[]]. apply WO. apply Hd. left; auto.
  - assert (D0 : dom v0) by (apply Hd; left; auto). assert (Dx : dom x) by (apply Hd; right; left; auto).
    assert (M : (f v0 x = v0 \/ f v0 x = x) /\ lt (f v0 x) v0 = false /\ lt (f v0 x) x = false).
    { destruct (Hf v0 x D0 Dx) as [(-> & L)|(-> & L)]; repeat split; auto; apply WO; auto. }
    destruct M as (M1 & M2 & M3).
    assert (Df : dom (f v0 x)) by (destruct M1 as [->| ->]; auto).
    assert (Hd' : forall z, In z (f v0 x :: l) -> dom z).
    { intros z [<-|Hz]; [exact Df|apply Hd; right; right; auto]. }
    destruct (IH (f v0 x) Hd') as (I1 & I2).
    assert (I3 : lt (fold_left f l (f v0 x)) (f v0 x) = false) by (apply I2; left; auto).
    split.
    + destruct I1 as [I1|I1]; [|right; right; exact I1]. rewrite <- I1. destruct M1 as [->| ->]; cbn; auto.
    + assert (Dr : dom (fold_left f l (f v0 x))) by (apply Hd'; exact I1).
      intros z [<-|[<-|Hz]]; [eapply WO; [| | |exact I3|]; eauto|eapply WO; [| | |exact I3|]; eauto|apply I2; right; auto].
Qed.

Lemma fold_greatest : forall {T} dom (lt : T -> T -> bool) l v0, weak_order dom lt ->
  (forall x, In x (v0 :: l) -> dom x) ->
  greatest lt (v0 :: l) (fold_left (fun m x => if lt m x then x else m) l v0).
Proof.
  intros T dom lt l v0 WO. apply (fold_pick dom); auto. intros a b Da Db.
  destruct (lt a b) eqn:E; [right|left]; split; auto. eapply weak_asym; eauto.
Qed.

Lemma fold_greatest_last : forall {T} dom (lt : T -> T -> bool) l v0, weak_order dom lt ->
  (forall x, In x (v0 :: l) -> dom x) ->
  greatest lt (v0 :: l) (fold_left (fun m x => if lt x m then m else x) l v0).
Proof.
  intros T dom lt l v0 WO. apply (fold_pick dom); auto. intros a b Da Db.
  destruct (lt b a) eqn:E; [left|right]; split; auto. eapply weak_asym; eauto.
Qed.

Definition flip {T} (lt : T -> T -> bool) (a b : T) : bool := lt b a.

Lemma weak_flip : forall {T} dom (lt : T -> T -> bool), weak_order dom lt -> weak_order dom (flip lt).
Proof. intros T dom lt (I & Tr & To). unfold flip. repeat split; eauto. Qed.

Section SummaryFacts.
  Context {V T : Type} (dt : dtype V T) (sc : scalar T).
  Context (div_n : T -> Z -> outcome T) (abs_ sqrt_ : T -> T).

  Lemma load_elem : forall x X o s, dims_ok x -> holds dt s x X -> 0 <= o < size x ->
    load dt (daddr x o) s = Ok (X (expand (tdims x) o)) s.
  Proof. intros x X o s D H Ho. apply load_ok. apply holds_daddr; auto. Qed.

  (** The elements in storage order. *)
  Definition elems (x : tensor) (X : list Z -> T) : list T := map X (indices (tdims x)).

  Lemma elems_zrange : forall x X, dims_ok x ->
    elems x X = map (fun o => X (expand (tdims x) o)) (zrange (size x)).
  Proof. intros x X D. unfold elems, size. rewrite indices_expand by auto. rewrite map_map. reflexivity. Qed.

  Lemma accumulate_ok : forall {B} (f : B -> T -> B) b x X s, dims_ok x -> holds dt s x X ->
    accumulate dt f b x s = Ok (fold_left f (elems x X) b) s.
  Proof.
    intros B f b x X s D H. unfold accumulate. rewrite elems_zrange, fold_left_map by auto.
    apply foldM_pure. intros acc o Ho. apply in_zrange in Ho.
    rewrite (bind_ok _ _ _ _ _ (load_elem x X o s D H Ho)). reflexivity.
  Qed.

  Lemma accumulate_tl_ok : forall {B} (f : B -> T -> B) b x X s, dims_ok x -> holds dt s x X -> 1 <= size x ->
    accumulate_tl dt f b x s = Ok (fold_left f (tl (elems x X)) b) s.
  Proof.
    intros B f b x X s D H Hn. unfold accumulate_tl. rewrite elems_zrange by auto.
    assert (E : zrange (size x) = 0 :: map (fun i => 1 + i) (zrange (size x - 1))).
    { rewrite <- zrange_succ_l by lia. f_equal. lia. }
    rewrite E. cbn [map tl]. rewrite map_map, fold_left_map.
    apply foldM_pure. intros acc o Ho. apply in_zrange in Ho.
    rewrite (bind_ok _ _ _ _ _ (load_elem x X (o + 1) s D H ltac:(lia))). rewrite (Z.add_comm 1 o). reflexivity.
  Qed.

  Lemma elems_hd : forall x X, dims_ok x -> 1 <= size x ->
    elems x X = X (expand (tdims x) 0) :: tl (elems x X).
  Proof.
    intros x X D Hn. rewrite elems_zrange by auto.
    assert (E : zrange (size x) = 0 :: map (fun i => 1 + i) (zrange (size x - 1))).
    { rewrite <- zrange_succ_l by lia. f_equal. lia. }
    rewrite E. reflexivity.
  Qed.

  Lemma elems_dom : forall (dom : T -> Prop) x X, (forall ix, valid (tdims x) ix -> dom (X ix)) ->
    forall v, In v (elems x X) -> dom v.
  Proof.
    intros dom x X H v Hv. unfold elems in Hv. apply in_map_iff in Hv. destruct Hv as (ix & <- & I).
    apply H. apply in_indices; auto.
  Qed.

  Lemma s_max_ok : forall dom x X s, dims_ok x -> holds dt s x X -> 1 <= size x -> weak_order dom (sltb sc) ->
    (forall ix, valid (tdims x) ix -> dom (X ix)) ->
    exists v, s_max dt sc x s = Ok v s /\ greatest (sltb sc) (elems x X) v.
  Proof.
    intros dom x X s D H Hn SO HD. pose proof (elems_dom dom x X HD) as ED. eexists. split.
    - unfold s_max. replace (size x =? 0) with false by lia.
      rewrite (bind_ok _ _ _ _ _ (load_elem x X 0 s D H ltac:(lia))).
      apply (accumulate_tl_ok _ _ x X s D H Hn).
    - rewrite (elems_hd x X D Hn) in ED. rewrite (elems_hd x X D Hn) at 1. apply (fold_greatest dom); auto.
  Qed.

  Lemma s_min_ok : forall dom x X s, dims_ok x -> holds dt s x X -> 1 <= size x -> weak_order dom (sltb sc) ->
    (forall ix, valid (tdims x) ix -> dom (X ix)) ->
    exists v, s_min dt sc x s = Ok v s /\ greatest (flip (sltb sc)) (elems x X) v.
  Proof.
    intros dom x X s D H Hn SO HD. pose proof (elems_dom dom x X HD) as ED. eexists. split.
    - unfold s_min. replace (size x =? 0) with false by lia.
      rewrite (bind_ok _ _ _ _ _ (load_elem x X 0 s D H ltac:(lia))).
      apply (accumulate_tl_ok _ _ x X s D H Hn).
    - rewrite (elems_hd x X D Hn) in ED. rewrite (elems_hd x X D Hn) at 1.
      apply (fold_greatest dom (flip (sltb sc))); auto. apply weak_flip; auto.
  Qed.

  Lemma s_span_ok : forall dom x X s, dims_ok x -> holds dt s x X -> 1 <= size x -> weak_order dom (sltb sc) ->
    (forall ix, valid (tdims x) ix -> dom (X ix)) ->
    exists a b, s_span dt sc x s = Ok (ssub sc b a) s /\
      greatest (flip (sltb sc)) (elems x X) a /\ greatest (sltb sc) (elems x X) b.
  Proof.
    intros dom x X s D H Hn SO HD. pose proof (elems_dom dom x X HD) as ED. rewrite (elems_hd x X D Hn) in ED.
    set (f := fun (mm : T * T) v => (if sltb sc v (fst mm) then v else fst mm,
               if sltb sc v (snd mm) then snd mm else v)).
    assert (E : forall l a b, fold_left f l (a, b) =
      (fold_left (fun m x => if flip (sltb sc) m x then x else m) l a,
       fold_left (fun m x => if sltb sc x m then m else x) l b)).
    { intros l. induction l as [|v l IH]; intros a b; [reflexivity|]. cbn [fold_left].
      unfold f at 2; cbn [fst snd]. rewrite IH. reflexivity. }
    eexists; eexists. split; [|split].
    - unfold s_span. replace (size x =? 0) with false by lia.
      rewrite (bind_ok _ _ _ _ _ (load_elem x X 0 s D H ltac:(lia))).
      rewrite (bind_ok _ _ _ _ _ (accumulate_tl_ok f _ x X s D H Hn)). rewrite E. cbn [fst snd]. reflexivity.
    - rewrite (elems_hd x X D Hn) at 1. apply (fold_greatest dom (flip (sltb sc))); auto. apply weak_flip; auto.
    - rewrite (elems_hd x X D Hn) at 1. apply (fold_greatest_last dom); auto.
  Qed.

  Lemma s_sum_ok : forall x X s, dims_ok x -> holds dt s x X ->
    s_sum dt sc x s = Ok (sum_over sc (indices (tdims x)) X) s.
  Proof.
    intros x X s D H. unfold s_sum. rewrite (accumulate_ok _ _ x X s D H). f_equal.
    unfold elems. rewrite fold_left_map. reflexivity.
  Qed.

  Lemma s_mean_ok : forall x X s q, dims_ok x -> holds dt s x X ->
    div_n (sum_over sc (indices (tdims x)) X) (size x) = Ret q ->
    s_mean dt sc div_n x s = Ok q s.
  Proof.
    intros x X s q D H E. unfold s_mean. rewrite (bind_ok _ _ _ _ _ (s_sum_ok x X s D H)). rewrite E. reflexivity.
  Qed.

  Lemma s_var_ok : forall x X s m v, dims_ok x -> holds dt s x X ->
    div_n (sum_over sc (indices (tdims x)) X) (size x) = Ret m ->
    div_n (sum_over sc (indices (tdims x)) (fun ix => smul sc (ssub sc (X ix) m) (ssub sc (X ix) m))) (size x) = Ret v ->
    s_var dt sc div_n x s = Ok v s.
  Proof.
    intros x X s m v D H E1 E2. unfold s_var.
    rewrite (bind_ok _ _ _ _ _ (s_sum_ok x X s D H)). rewrite E1. unfold lift at 1. rewrite bind_ret_l.
    rewrite (bind_ok _ _ _ _ _ (accumulate_ok _ _ x X s D H)).
    unfold elems. rewrite fold_left_map. cbv zeta.
    change (fold_left _ (indices (tdims x)) (s0 sc)) with
      (sum_over sc (indices (tdims x)) (fun ix => smul sc (ssub sc (X ix) m) (ssub sc (X ix) m))).
    rewrite E2. reflexivity.
  Qed.

  Lemma s_adj_ok : forall x X s, dims_ok x -> holds dt s x X -> 1 <= size x ->
    s_adj dt sc abs_ x s = Ok (sum_over sc (zrange (size x - 1)) (fun o =>
      abs_ (ssub sc (X (expand (tdims x) (o + 1))) (X (expand (tdims x) o))))) s.
  Proof.
    intros x X s D H Hn. unfold s_adj. replace (size x =? 0) with false by lia.
    apply foldM_pure. intros acc o Ho. apply in_zrange in Ho.
    rewrite (bind_ok _ _ _ _ _ (load_elem x X (o + 1) s D H ltac:(lia))).
    rewrite (bind_ok _ _ _ _ _ (load_elem x X o s D H ltac:(lia))). reflexivity.
  Qed.

  Lemma evals_ok : forall (fs : list (tensor -> M V T)) x vs s, Forall2 (fun f v => f x s = Ok v s) fs vs -> evals fs x s = Ok vs s.
  Proof.
    intros fs x vs s H. induction H as [|f v fs vs E H IH]; [reflexivity|].
    cbn [evals]. rewrite (bind_ok _ _ _ _ _ E), (bind_ok _ _ _ _ _ IH). reflexivity.
  Qed.

  Lemma copy_list_for : forall vs t i s d,
    copy_list dt vs t i s = for_ (zrange (Z.of_nat (length vs))) (fun k => store dt (daddr t (i + k)) (nth (Z.to_nat k) vs d)) s.
  Proof.
    intros vs t. induction vs as [|v vs IH]; intros i s d; [reflexivity|]. cbn [copy_list length].
    rewrite Nat2Z.inj_succ. replace (Z.succ (Z.of_nat (length vs))) with (1 + Z.of_nat (length vs)) by lia.
    rewrite zrange_succ_l by lia. cbn [for_]. rewrite Z.add_0_r. change (nth (Z.to_nat 0) (v :: vs) d) with v.
    unfold bind. destruct (store dt (daddr t i) v s) as [[] s1| |] eqn:E; auto.
    rewrite (IH (i + 1) s1 d), for_map. apply for_ext. intros k s2 Hk. apply in_zrange in Hk.
    replace (i + 1 + k) with (i + (1 + k)) by lia. f_equal.
    replace (Z.to_nat (1 + k)) with (S (Z.to_nat k)) by lia. reflexivity.
  Qed.

  Lemma copy_list_writes : forall vs t s d, tdims t = [Z.of_nat (length vs)] -> mapped s t ->
    writes dt (copy_list dt vs t 0) s t (fun ix => nth (Z.to_nat (nth 0 ix 0)) vs d).
  Proof.
    intros vs t s d E Hm.
    assert (Ds : dims_ok t) by (unfold dims_ok; rewrite E; repeat constructor; lia).
    eapply writes_ext; [symmetry; rewrite (copy_list_for vs t 0 s d); reflexivity|reflexivity|].
    replace (Z.of_nat (length vs)) with (size t) by (unfold size; rewrite E; cbn; lia).
    apply writes_loop_flat; auto. intros o s' Ho N F O.
    rewrite store_ok.
    - rewrite E. cbn [expand prod nth]. rewrite Z.div_1_r. reflexivity.
    - cbn. rewrite O. apply Hm. apply daddr_foot; auto.
  Qed.

  Lemma op_mean_writes : forall y x ds n X Q s,
    tdims x = ds ++ [n] -> tdims y = ds -> dims_ok x ->
    holds dt s x X -> mapped s y -> disjoint y x ->
    (forall ix, valid ds ix -> div_n (sum_over sc (zrange n) (fun j => X (ix ++ [j]))) n = Ret (Q ix)) ->
    writes dt (op_mean dt sc div_n (length ds) y x) s y Q.
  Proof.
    intros y x ds n X Q s Ex Ey Dx HX HY D HQ.
    destruct (nonneg_snoc x ds n Ex Dx) as (Hds & Hn & Hp).
    assert (Dy : dims_ok y) by (unfold dims_ok; rewrite Ey; exact Hds).
    unfold op_mean, nth_dim. rewrite (dims_as_rows x ds n Ex). cbn [nth].
    replace (prod ds) with (size y) by (unfold size; rewrite Ey; reflexivity).
    apply writes_loop_flat; auto. intros o s' Ho N F O. unfold size in Ho. rewrite Ey in *.
    pose proof (dims_as_rows x ds n Ex) as Em.
    pose proof (valid_expand ds o Hds Ho) as Hv.
    assert (HX' : holds dt s' x X) by (eapply holds_frame_disj; eauto).
    erewrite bind_ok.
    2:{ apply (s_mean_ok (sub (as_matrix (length ds) x) o) (fun ix => X (expand ds o ++ ix)) s').
        - unfold dims_ok. rewrite (tdims_sub _ _ _ _ Em). repeat constructor; auto.
        - eapply holds_ext; [|apply (holds_sub dt s' (as_matrix (length ds) x)
            (arg2 (fun a b => X (expand ds a ++ [b]))) o (prod ds) [n]); auto; eapply holds_as_rows; eauto].
          intros ix Hix. rewrite (tdims_sub _ _ _ _ Em) in Hix. apply valid_1 in Hix.
          destruct Hix as (j & -> & Hj). reflexivity.
        - rewrite (tdims_sub _ _ _ _ Em). unfold size. rewrite (tdims_sub _ _ _ _ Em).
          cbn [prod]. rewrite Z.mul_1_r. rewrite indices_1, sum_over_map. apply HQ; auto. }
    rewrite store_ok; [reflexivity|]. rewrite O. apply HY, daddr_foot. unfold size. rewrite Ey. auto.
  Qed.
End SummaryFacts.
