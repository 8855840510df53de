From Coq Require Import ZArith List Bool Lia ZifyBool Ring_theory Ring.
From Verif Require Import Base BaseFacts TensorFacts Traits TraitsSpec TraitsFacts Scalar LinAlg LinAlgFacts
  SumFacts Conv ConvSpec ConvFacts ConvGradFacts Conv1d Conv1dSpec.
Import ListNotations.
Open Scope Z_scope.
Open Scope model_scope.

Lemma to_i32_small : forall x, - 2 ^ 31 <= x < 2 ^ 31 -> to_i32 x = x.
Proof. intros x H. unfold to_i32. rewrite Z.mod_small; lia. Qed.

Lemma to_u32_small : forall x, 0 <= x < 2 ^ 32 -> to_u32 x = x.
Proof. intros x H. unfold to_u32. apply Z.mod_small; auto. Qed.

Lemma to_u32_add_l : forall a b, to_u32 (to_u32 a + b) = to_u32 (a + b).
Proof. intros. unfold to_u32. apply Zplus_mod_idemp_l. Qed.

Lemma axis32_facts : forall sp n m, axis32_ok sp n m ->
  1 <= m /\ 1 <= ksize (sfilter sp) /\ 1 <= span (ksize (sfilter sp)) (rate (sfilter sp)) /\
  span (ksize (sfilter sp)) (rate (sfilter sp)) <= left_ (spadding sp) + n + right_ (spadding sp) /\
  m < 2 ^ 31 /\ ksize (sfilter sp) < 2 ^ 31 /\ stride (sfilter sp) * (m - 1) < 2 ^ 31.
Proof.
  intros [[k s r] [pl pr]] n m. unfold axis32_ok, valid_config; cbn [sfilter spadding ksize stride rate left_ right_].
  intros (Hk & Hs & Hr & Hl & Hn & H1 & H2 & Hm & E). pose proof (span_pos k r Hk Hr) as P.
  assert (k - 1 <= r * (k - 1)) by nia. unfold span in *. assert (m - 1 <= s * (m - 1)) by nia.
  repeat split; try lia; nia.
Qed.

Lemma pad_len_i32 : forall pl pr n, - 2 ^ 31 <= pl -> 0 <= n -> pl + n < 2 ^ 31 ->
  - 2 ^ 31 <= pl + n + pr < 2 ^ 31 -> pad_len I32 (mkpadding pl pr) n = Ret (pl + n + pr).
Proof.
  intros. unfold pad_len, iadd; cbn [left_ right_].
  rewrite norm_fits by (unfold fits; lia). cbn [obind]. apply norm_fits. unfold fits; lia.
Qed.

Lemma sample_len_i32 : forall k s r pl pr n,
  1 <= k -> 1 <= s -> 1 <= r -> - 2 ^ 31 <= pl -> 0 <= n -> pl + n < 2 ^ 31 ->
  - 2 ^ 31 <= pl + n + pr < 2 ^ 31 -> span k r < 2 ^ 31 ->
  (forall m, sample_len I32 (mksample (mkfilter k s r) (mkpadding pl pr)) n = Ret m
             <-> valid_config k s r pl pr n m) /\
  ((forall m, ~ valid_config k s r pl pr n m) ->
   sample_len I32 (mksample (mkfilter k s r) (mkpadding pl pr)) n = Exn InvalidArgument).
Proof.
  intros k s r pl pr n Hk Hs Hr Hl Hn H1 H2 H3.
  pose proof (span_pos k r Hk Hr) as Hsp.
  destruct (Z.ltb_spec (pl + n + pr) (span k r)) as [L|L].
  - assert (E : sample_len I32 (mksample (mkfilter k s r) (mkpadding pl pr)) n = Exn InvalidArgument).
    { unfold sample_len, filter_len; cbn [sfilter spadding]. rewrite pad_len_i32 by auto. cbn [obind].
      rewrite patch_size_ok by (auto; unfold fits; lia). cbn [obind].
      replace (pl + n + pr <? span k r) with true by lia. reflexivity. }
    rewrite E. split; [|auto]. intros m. split; [discriminate|]. unfold valid_config. intros [? ?]. nia.
  - (* same as with the whole length as [n] and no padding *)
    assert (E : sample_len I32 (mksample (mkfilter k s r) (mkpadding pl pr)) n
              = sample_len I32 (mksample (mkfilter k s r) (mkpadding 0 0)) (pl + n + pr)).
    { unfold sample_len, filter_len; cbn [sfilter spadding]. rewrite !pad_len_i32 by lia.
      replace (0 + (pl + n + pr) + 0) with (pl + n + pr) by lia. reflexivity. }
    rewrite E.
    destruct (sample_len_iff I32 k s r 0 0 (pl + n + pr)) as [Q1 Q2]; auto; try (unfold fits; lia).
    assert (W : forall m, valid_config k s r 0 0 (pl + n + pr) m <-> valid_config k s r pl pr n m).
    { intros m. unfold valid_config. replace (pl + n + pr + 0 + 0) with (n + pl + pr) by lia. tauto. }
    split.
    + intros m. rewrite Q1. apply W.
    + intros F. apply Q2. intros m C. apply (F m). apply W; auto.
Qed.

Lemma axis32_len : forall sp n m, axis32_ok sp n m -> sample_len I32 sp n = Ret m.
Proof.
  intros [[k s r] [pl pr]] n m H. pose proof (axis32_facts _ _ _ H) as F.
  unfold axis32_ok in H; cbn [sfilter spadding ksize stride rate left_ right_] in *.
  destruct (sample_len_i32 k s r pl pr n) as [Q _]; try lia. apply Q. tauto.
Qed.

Lemma filter_len_mixed_ok : forall k s r pl pr n,
  1 <= k -> 1 <= s < 2 ^ 31 -> 1 <= r -> span k r < 2 ^ 31 ->
  0 <= pl + n + pr < 2 ^ 32 ->
  (forall m, filter_len_mixed (mkfilter k s r) (mkpadding pl pr) n = Ret m
             <-> valid_config k s r pl pr n m) /\
  ((forall m, ~ valid_config k s r pl pr n m) ->
   filter_len_mixed (mkfilter k s r) (mkpadding pl pr) n = Exn InvalidArgument).
Proof.
  intros k s r pl pr n Hk Hs Hr H1 H2.
  pose proof (span_pos k r Hk Hr) as Hsp.
  assert (E : filter_len_mixed (mkfilter k s r) (mkpadding pl pr) n
            = sample_len U32 (mksample (mkfilter k s r) (mkpadding 0 0)) (pl + n + pr)).
  { unfold filter_len_mixed, sample_len, filter_len; cbn [sfilter spadding left_ right_ stride].
    rewrite to_u32_add_l, (to_u32_small (pl + n + pr)) by lia.
    rewrite pad_len_ok by (unfold fits; lia). rewrite !patch_size_ok by (auto; unfold fits; lia).
    cbn [obind]. replace (0 + (pl + n + pr) + 0) with (pl + n + pr) by lia.
    rewrite (to_u32_small (span k r)), (to_u32_small s) by lia.
    destruct (pl + n + pr <? span k r) eqn:L; [reflexivity|].
    unfold isub. rewrite norm_fits by (unfold fits; lia). cbn [obind].
    rewrite to_u32_small by lia. reflexivity. }
  rewrite E.
  destruct (sample_len_iff U32 k s r 0 0 (pl + n + pr)) as [Q1 Q2]; auto; try (unfold fits; lia).
  assert (W : forall m, valid_config k s r 0 0 (pl + n + pr) m <-> valid_config k s r pl pr n m).
  { intros m. unfold valid_config. replace (pl + n + pr + 0 + 0) with (n + pl + pr) by lia. tauto. }
  split.
  - intros m. rewrite Q1. apply W.
  - intros F. apply Q2. intros m C. apply (F m). apply W; auto.
Qed.

Lemma source1_ok : forall sp n m j k, axis32_ok sp n m -> 0 <= j < m -> 0 <= k < ksize (sfilter sp) ->
  source1 sp n j k = Ret (if inb n (wpos sp j k) then Some (wpos sp j k) else None).
Proof.
  intros [[K s r] [pl pr]] n m j k H Hj Hk. pose proof (axis32_facts _ _ _ H) as F.
  unfold axis32_ok in H; cbn [sfilter spadding ksize stride rate left_ right_] in *.
  destruct H as (HK & Hs & Hr & Hl & Hn & H1 & H2 & Hv).
  pose proof (tap_bounds K s r pl pr n m j k HK Hs Hr Hv Hj Hk) as B.
  unfold source1. rewrite !to_i32_small by lia.
  unfold sample_pos, sample_inside, sample_unpad, wpos; cbn [sfilter spadding stride rate left_].
  rewrite (filter_pos_ok I32 K s r j k (n + pl + pr)) by (auto; unfold fits; lia). cbn [obind].
  unfold pad_inside, pad_unpad, iadd, isub; cbn [left_]. set (t := tap s r j k) in *.
  unfold inb. destruct (Z.leb_spec pl t).
  - rewrite norm_fits by (unfold fits; lia). cbn [obind].
    destruct (Z.ltb_spec t (pl + n)).
    + rewrite norm_fits by (unfold fits; lia). cbn [obind]. rewrite to_u32_small by lia.
      replace ((0 <=? t - pl) && (t - pl <? n)) with true by lia. reflexivity.
    + replace ((0 <=? t - pl) && (t - pl <? n)) with false by lia. reflexivity.
  - cbn [obind]. replace ((0 <=? t - pl) && (t - pl <? n)) with false by lia. reflexivity.
Qed.

Lemma source1_mixed_ok : forall sp n m j k, axis32_ok sp n m -> 0 <= j < m -> 0 <= k < ksize (sfilter sp) ->
  source1_mixed (sfilter sp) (spadding sp) n j k
  = Ret (if inb n (wpos sp j k) then Some (wpos sp j k) else None).
Proof.
  intros [[K s r] [pl pr]] n m j k H Hj Hk. pose proof (axis32_facts _ _ _ H) as F.
  unfold axis32_ok in H; cbn [sfilter spadding ksize stride rate left_ right_] in *.
  destruct H as (HK & Hs & Hr & Hl & Hn & H1 & H2 & Hv).
  pose proof (tap_bounds K s r pl pr n m j k HK Hs Hr Hv Hj Hk) as B.
  unfold source1_mixed, wpos; cbn [sfilter spadding stride rate left_].
  assert (E : to_u32 (to_u32 (j * s) + to_u32 (k * r)) = tap s r j k).
  { unfold tap in *. assert (0 <= j * s) by nia. assert (0 <= k * r) by nia.
    rewrite !to_u32_small by (rewrite ?to_u32_small; lia). reflexivity. }
  rewrite E. set (t := tap s r j k) in *. rewrite !to_i32_small by lia.
  unfold pad_inside, iadd; cbn [left_]. unfold inb. destruct (Z.leb_spec pl t).
  - rewrite norm_fits by (unfold fits; lia). cbn [obind].
    destruct (Z.ltb_spec t (pl + n)).
    + rewrite to_u32_small by lia.
      replace ((0 <=? t - pl) && (t - pl <? n)) with true by lia. reflexivity.
    + replace ((0 <=? t - pl) && (t - pl <? n)) with false by lia. reflexivity.
  - cbn [obind]. replace ((0 <=? t - pl) && (t - pl <? n)) with false by lia. reflexivity.
Qed.

Lemma fold_left_filter : forall {A B} (p : A -> bool) (f : B -> A -> B) l b,
  fold_left (fun b a => if p a then f b a else b) l b = fold_left f (List.filter p l) b.
Proof.
  intros A B p f l. induction l as [|a l IH]; intros b; [reflexivity|]. cbn [fold_left List.filter].
  destruct (p a); cbn [fold_left]; apply IH.
Qed.

Section Conv1dFacts.
  Context {V T : Type} (dt : dtype V T) (sc : scalar T).
  Notation zero := (s0 sc).

  Lemma load_frame1 : forall s s' t z X n i,
    holds dt s t X -> (forall p, ~ foot z p -> cells s' p = cells s p) -> disjoint z t ->
    tdims t = [n] -> 0 <= i < n -> load dt (daddr t i) s' = Ok (X [i]) s'.
  Proof.
    intros s s' t z X n i H F D E Hi.
    assert (Q : at_ dt t [i] s' = Ok (X [i]) s') by (apply (at_frame dt s s' t z X); auto; rewrite E; simpl; auto).
    unfold at_, addr in Q. rewrite E in Q. cbn [offset prod] in Q.
    replace (i * 1 + 0) with i in Q by lia. exact Q.
  Qed.

  Lemma im2col1d_writes : forall sp y x n m X s,
    axis32_ok sp n m -> tdims x = [n] -> tdims y = [m; ksize (sfilter sp)] ->
    holds dt s x X -> mapped s y -> disjoint y x ->
    writes dt (im2col1d dt sc sp y x) s y
      (arg2 (fun j k => zpad1 zero n (fun i => X [i]) (wpos sp j k))).
  Proof.
    intros sp y x n m X s A Ex Ey HX HY D. pose proof (axis32_facts _ _ _ A).
    assert (Dy : dims_ok y) by (unfold dims_ok; rewrite Ey; repeat constructor; lia).
    eapply writes_ext; [symmetry|reflexivity|].
    { unfold im2col1d, nth_dim. rewrite Ex, Ey. cbn [nth]. rewrite for_nest2, <- Ey. reflexivity. }
    apply writes_loop; auto. intros ix s' Hix N F O. rewrite Ey in Hix. apply valid_2 in Hix.
    destruct Hix as (j & k & -> & Hj & Hk). unfold arg2; cbn [nth].
    rewrite (source1_ok sp n m j k) by auto. unfold lift. rewrite bind_ret_l. unfold zpad1.
    destruct (inb n (wpos sp j k)) eqn:E.
    - apply inb_iff in E.
      erewrite bind_ok; [|apply (at_frame dt s s' x y X); auto; rewrite Ex; simpl; auto].
      apply set_ok. rewrite O. apply mapped_addr; auto. rewrite Ey; simpl; auto.
    - rewrite bind_ret_l. apply set_ok. rewrite O. apply mapped_addr; auto. rewrite Ey; simpl; auto.
  Qed.

  Lemma conv1d_writes : forall c z x y n k m X Y s,
    let sp := mksample (mkfilter k (cstride c) (crate c)) (cpad c) in
    axis32_ok sp n m -> tdims x = [n] -> tdims y = [k] -> tdims z = [m] ->
    holds dt s x X -> holds dt s y Y -> mapped s z -> disjoint z x -> disjoint z y ->
    writes dt (conv1d dt sc c z x y) s z
      (arg1 (fun j => sum_over sc (List.filter (fun t => inb n (wpos sp j t)) (zrange k))
                        (fun t => smul sc (Y [t]) (X [wpos sp j t])))).
  Proof.
    intros c z x y n k m X Y s sp A Ex Ey Ez HX HY HZ Dx Dy. pose proof (axis32_facts _ _ _ A) as F0.
    cbn [sp sfilter ksize] in F0.
    assert (Dz : dims_ok z) by (unfold dims_ok; rewrite Ez; repeat constructor; lia).
    eapply writes_ext; [symmetry|reflexivity|].
    { unfold conv1d, nth_dim. rewrite Ex, Ey, Ez. cbn [nth]. rewrite to_i32_small by lia.
      assert (N : new_filter k (cstride c) (crate c) = Ret (sfilter sp)).
      { unfold new_filter. unfold axis32_ok in A; cbn [sp sfilter ksize stride rate] in A.
        replace (k <? 1) with false by lia. replace (cstride c <? 1) with false by lia.
        replace (crate c <? 1) with false by lia. reflexivity. }
      rewrite N. unfold lift. rewrite bind_ret_l. replace m with (size z) by (unfold size; rewrite Ez; simpl; lia).
      reflexivity. }
    apply writes_loop_flat; auto. intros j s' Hj N F O.
    assert (Sz : size z = m) by (unfold size; rewrite Ez; simpl; lia). rewrite Sz in Hj.
    rewrite Ez. cbn [expand]. unfold arg1; cbn [nth prod]. rewrite Z.div_1_r.
    erewrite bind_ok.
    2:{ apply foldM_pure with (g := fun acc t => if inb n (wpos sp j t)
          then sadd sc acc (smul sc (Y [t]) (X [wpos sp j t])) else acc).
        intros acc t Ht. apply in_zrange in Ht.
        change (cpad c) with (spadding sp). rewrite (source1_mixed_ok sp n m j t) by auto.
        unfold lift. rewrite bind_ret_l. destruct (inb n (wpos sp j t)) eqn:E; [|reflexivity].
        apply inb_iff in E.
        erewrite bind_ok; [|apply (load_frame1 s s' y z Y k); auto].
        erewrite bind_ok; [|apply (load_frame1 s s' x z X n); auto].
        reflexivity. }
    rewrite fold_left_filter. apply store_ok. rewrite O. apply HZ. exists j. rewrite Sz. auto.
  Qed.

  Lemma col2im1d_writes : forall sp y x n m X s,
    axis32_ok sp n m -> tdims x = [m; ksize (sfilter sp)] -> tdims y = [n] ->
    holds dt s x X -> mapped s y -> disjoint y x ->
    writes dt (col2im1d dt sc sp y x) s y
      (arg1 (fun i => sum_over sc (List.filter (arg2 (fun j k => wpos sp j k =? i)) (indices [m; ksize (sfilter sp)])) X)).
  Proof.
    intros sp y x n m X s A Ex Ey HX HY D. pose proof (axis32_facts _ _ _ A).
    assert (Hn : 0 <= n) by (unfold axis32_ok in A; lia).
    assert (Dy : dims_ok y) by (unfold dims_ok; rewrite Ey; repeat constructor; lia).
    eapply writes_ext; [symmetry|reflexivity|].
    { unfold col2im1d, nth_dim. rewrite Ex, Ey. cbn [nth]. reflexivity. }
    apply writes_seq_fill; auto. intros st0 N0 HZ0 F0.
    eapply writes_ext; [symmetry; apply for_nest2| |].
    2: apply (accum_writes dt y (indices [m; ksize (sfilter sp)]) _
         (arg2 (fun j k => if inb n (wpos sp j k) then Some [wpos sp j k] else None))
         (fun b v => sadd sc v (X b)) (fun _ => zero) st0 Dy HZ0).
    - intros ix Hix. rewrite Ey in Hix. apply valid_1 in Hix. destruct Hix as (i & -> & Hi).
      unfold arg1, sum_over; cbn [nth]. f_equal. apply filter_ext_in. intros a Ha.
      apply in_indices, valid_2 in Ha. destruct Ha as (j & k & -> & Hj & Hk). unfold arg2; cbn [nth].
      destruct (Z.eqb_spec (wpos sp j k) i) as [->|Ne].
      + replace (inb n i) with true by (symmetry; apply inb_iff; auto). cbn [hits].
        apply ix_eqb_true. reflexivity.
      + destruct (inb n (wpos sp j k)); [|reflexivity]. cbn [hits].
        apply not_true_is_false. rewrite ix_eqb_true. congruence.
    - intros a ix Ha Ea. apply in_indices, valid_2 in Ha. destruct Ha as (j & k & -> & Hj & Hk).
      unfold arg2 in Ea; cbn [nth] in Ea. destruct (inb n (wpos sp j k)) eqn:E; [|discriminate].
      injection Ea as <-. apply inb_iff in E. rewrite Ey; simpl; auto.
    - intros a s' Ha Ns F. apply in_indices, valid_2 in Ha. destruct Ha as (j & k & -> & Hj & Hk).
      unfold arg2; cbn [nth]. rewrite (source1_ok sp n m j k) by auto.
      destruct (inb n (wpos sp j k)) eqn:E; unfold lift.
      + intros v0 Hv0. rewrite bind_ret_l.
        erewrite bind_ok; [|apply (at_frame dt s s' x y X); auto;
          [intros p0 Hp0; rewrite F, F0; auto|rewrite Ex; simpl; intuition]].
        erewrite bind_ok; [|unfold at_; apply load_ok; exact Hv0].
        apply set_ok. rewrite Hv0. congruence.
      + rewrite bind_ret_l. reflexivity.
  Qed.

  Lemma sum_const_length : forall {A B} (l : list A) (l' : list B) (x : T), length l = length l' ->
    sum_over sc l (fun _ => x) = sum_over sc l' (fun _ => x).
  Proof.
    intros A B l l' x. unfold sum_over. generalize (s0 sc). revert l'.
    induction l as [|a l IH]; intros [|b l'] acc E; cbn in *; try discriminate; auto.
  Qed.

  Lemma length_zrange : forall n, length (zrange n) = Z.to_nat n.
  Proof. intros. unfold zrange. rewrite map_length, seq_length. reflexivity. Qed.

  (** Summing the zero-padded windows back gives multiples. *)
  Lemma multiplicity_sum : forall sp n m (X : list Z -> T) i, 0 <= i < n ->
    sum_over sc (List.filter (arg2 (fun j k => wpos sp j k =? i)) (indices [m; ksize (sfilter sp)]))
      (arg2 (fun j k => zpad1 zero n (fun i => X [i]) (wpos sp j k)))
    = sum_over sc (zrange (multiplicity sp m i)) (fun _ => X [i]).
  Proof.
    intros sp n m X i Hi.
    rewrite (sum_over_ext sc _ _ (fun _ => X [i])).
    - apply sum_const_length. rewrite length_zrange. unfold multiplicity. rewrite Nat2Z.id. reflexivity.
    - intros a Ha. apply filter_In in Ha. destruct Ha as [Ha E]. apply in_indices, valid_2 in Ha.
      destruct Ha as (j & k & -> & _). unfold arg2 in *; cbn [nth] in *.
      assert (wpos sp j k = i) as -> by lia. unfold zpad1.
      replace (inb n i) with true by (symmetry; apply inb_iff; auto). reflexivity.
  Qed.
End Conv1dFacts.
