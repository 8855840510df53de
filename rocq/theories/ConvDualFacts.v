(** Proofs about convolution gradients as convolutions, and about folding. *)
From Coq Require Import ZArith List Bool Lia ZifyBool Permutation Ring_theory Ring.
From Verif Require Import Base BaseFacts TensorFacts Traits TraitsSpec Scalar LinAlg LinAlgFacts SumFacts
  Elem ElemSpec Conv ConvSpec ConvFacts ConvAlgSpec ConvAlgFacts ConvDualSpec Layers PropsElem PropsConv ConvGradFacts.
Import ListNotations.
Open Scope Z_scope.

Section Ring.
  Context {T : Type} (sc : scalar T) (laws : ring_laws sc).
  Notation zero := (s0 sc).
  Notation "a [+] b" := (sadd sc a b) (at level 50, left associativity).
  Notation "a [*] b" := (smul sc a b) (at level 40, left associativity).
  Notation sum := (sum_over sc).
  Let rt : ring_theory (s0 sc) (s1 sc) (sadd sc) (smul sc) (ssub sc) (sneg sc) (@eq T) := laws.
  Add Ring sc_ring_cd : rt.

  (** Sums over two, three and four indices, nested. *)
  Lemma sum2 : forall a b (f : Z -> Z -> T),
    sum (indices [a; b]) (arg2 f) = sum (zrange a) (fun i => sum (zrange b) (fun j => f i j)).
  Proof.
    intros. rewrite (sum_indices_cons sc laws). apply sum_over_ext. intros i _.
    rewrite (sum_indices_cons sc laws). apply sum_over_ext. intros j _. apply (sum_indices_nil sc laws).
  Qed.
  Lemma sum3 : forall a b c (f : Z -> Z -> Z -> T),
    sum (indices [a; b; c]) (arg3 f) = sum (zrange a) (fun i => sum (zrange b) (fun j => sum (zrange c) (fun k => f i j k))).
  Proof.
    intros. rewrite (sum_indices_cons sc laws). apply sum_over_ext. intros i _.
    exact (sum2 b c (f i)).
  Qed.
  Lemma sum4 : forall a b c d (f : Z -> Z -> Z -> Z -> T),
    sum (indices [a; b; c; d]) (arg4 f)
    = sum (zrange a) (fun i => sum (zrange b) (fun j => sum (zrange c) (fun k => sum (zrange d) (fun l => f i j k l)))).
  Proof.
    intros. rewrite (sum_indices_cons sc laws). apply sum_over_ext. intros i _.
    exact (sum3 b c d (f i)).
  Qed.

  Lemma sum_rev : forall n (f : Z -> T), sum (zrange n) (fun u => f (n - 1 - u)) = sum (zrange n) f.
  Proof.
    intros n f. rewrite <- (sum_over_map sc (zrange n) (fun u => n - 1 - u) f). apply (sum_perm sc laws).
    apply NoDup_Permutation.
    - apply FinFun.Injective_map_NoDup; [|apply NoDup_zrange]. intros a b E. lia.
    - apply NoDup_zrange.
    - intros a. rewrite in_map_iff. split.
      + intros (u & <- & Hu). apply in_zrange in Hu. apply in_zrange. lia.
      + intros Ha. apply in_zrange in Ha. exists (n - 1 - a). split; [lia|]. apply in_zrange. lia.
  Qed.

  (** The one window whose tap [u] looks at [p], if there is one. *)
  Lemma window_pick : forall sp m u p (f : Z -> T), 1 <= stride (sfilter sp) -> 1 <= m ->
    let a := p + left_ (spadding sp) - u * rate (sfilter sp) in let s := stride (sfilter sp) in
    sum (zrange m) (fun i => if wpos sp i u =? p then f i else zero)
    = if inb (spread_len m s) a then if a mod s =? 0 then f (a / s) else zero else zero.
  Proof.
    intros sp m u p f Hs Hm a s.
    assert (E : forall i, (wpos sp i u =? p) = (i * s =? a)) by (intros i; unfold wpos, tap, a, s; lia).
    rewrite (sum_over_ext sc _ _ (fun i => if i * s =? a then f i else zero)) by (intros; rewrite E; reflexivity).
    fold s in Hs. clearbody a s. clear E. unfold inb, spread_len.
    destruct ((0 <=? a) && (a <? (m - 1) * s + 1)) eqn:B; [destruct (a mod s =? 0) eqn:D|].
    - assert (A : a = s * (a / s)) by (apply Z.div_exact; lia).
      rewrite (sum_single sc laws _ (a / s)).
      + replace (a / s * s =? a) with true by lia. reflexivity.
      + apply NoDup_zrange.
      + apply in_zrange. nia.
      + intros b _ Ne. replace (b * s =? a) with false; auto. symmetry. apply Z.eqb_neq. intros Q. apply Ne.
        rewrite <- Q. symmetry. apply Z.div_mul. lia.
    - apply (sum_zero_ext sc laws). intros b _. replace (b * s =? a) with false; auto.
      symmetry. apply Z.eqb_neq. intros Q. rewrite <- Q, Z.mod_mul in D by lia. discriminate.
    - apply (sum_zero_ext sc laws). intros b Hb. apply in_zrange in Hb. replace (b * s =? a) with false; auto.
      symmetry. apply Z.eqb_neq. intros Q. nia.
  Qed.

  (** The input gradient, as a sum over taps of what the taps see. *)
  Lemma gx_taps : forall H W h' w' r s d GZ Y l p q k,
    conv_gx_spec sc H W h' w' r s d GZ Y [l; p; q; k]
    = sum (zrange r) (fun u => sum (zrange s) (fun v => sum (zrange d) (fun t =>
        sum (zrange h') (fun i => if wpos H i u =? p then
          sum (zrange w') (fun j => if wpos W j v =? q then GZ [l; i; j; t] else zero) else zero) [*] Y [u; v; k; t]))).
  Proof.
    intros. unfold conv_gx_spec, col2im_spec, arg4 at 1, arg3; cbn [nth].
    rewrite (sum_filter sc laws).
    rewrite (sum_over_ext sc _ _ (arg4 (fun i j u v => if (wpos H i u =? p) && (wpos W j v =? q)
      then sum (zrange d) (fun t => GZ [l; i; j; t] [*] Y [u; v; k; t]) else zero))) by (intros; reflexivity).
    rewrite sum4.
    (* move u and v outside *)
    transitivity (sum (zrange h') (fun i => sum (zrange r) (fun u => sum (zrange s) (fun v => sum (zrange w') (fun j =>
      if (wpos H i u =? p) && (wpos W j v =? q)
      then sum (zrange d) (fun t => GZ [l; i; j; t] [*] Y [u; v; k; t]) else zero))))).
    { apply sum_over_ext. intros i _. rewrite (sum_swap sc laws). apply sum_over_ext. intros u _. apply (sum_swap sc laws). }
    rewrite (sum_swap sc laws). apply sum_over_ext. intros u _.
    rewrite (sum_swap sc laws). apply sum_over_ext. intros v _.
    transitivity (sum (zrange h') (fun i => sum (zrange w') (fun j => sum (zrange d) (fun t =>
      (if wpos H i u =? p then if wpos W j v =? q then GZ [l; i; j; t] else zero else zero) [*] Y [u; v; k; t])))).
    { apply sum_over_ext. intros i _. apply sum_over_ext. intros j _.
      destruct (wpos H i u =? p), (wpos W j v =? q); cbn [andb]; auto;
      symmetry; apply (sum_zero_ext sc laws); intros t _; apply (mul_zero_l sc laws). }
    transitivity (sum (zrange h') (fun i => sum (zrange d) (fun t => sum (zrange w') (fun j =>
      (if wpos H i u =? p then if wpos W j v =? q then GZ [l; i; j; t] else zero else zero) [*] Y [u; v; k; t])))).
    { apply sum_over_ext. intros i _. apply (sum_swap sc laws). }
    rewrite (sum_swap sc laws). apply sum_over_ext. intros t _. rewrite <- (sum_scale_r sc laws).
    apply sum_over_ext. intros i _. rewrite (sum_scale_r sc laws). f_equal.
    destruct (wpos H i u =? p); auto. apply (sum_zero sc laws).
  Qed.

  (** The input gradient is the convolution of the spread gradient with the
      turned filters. *)
  Lemma gx_back : forall C g GZ Y l p q k, axes_ok C g ->
    conv_gx_spec sc (axis_h C g) (axis_w C g) (gh' g) (gw' g) (gr g) (gs g) (gd g) GZ Y [l; p; q; k]
    = conv_fn sc nhwc (back_trait C g) (back_geom C g)
        (spread zero (lstride (h_trait C)) (lstride (w_trait C)) GZ) (turned (gr g) (gs g) Y) [l; p; q; k].
  Proof.
    intros C g GZ Y l p q k (AH & AW & _). rewrite gx_taps.
    change (conv_fn sc nhwc (back_trait C g) (back_geom C g) ?X ?Y [l; p; q; k])
      with (conv_at sc nhwc (back_trait C g) (back_geom C g) X Y l p q k).
    unfold conv_at. rewrite (tapsum_nest sc laws). cbn [back_geom gr gs gc gd].
    rewrite <- (sum_rev (gr g)). apply sum_over_ext. intros u _.
    rewrite <- (sum_rev (gs g)). apply sum_over_ext. intros v _.
    apply sum_over_ext. intros t _. unfold mulo, turned, arg4; cbn [wgt nth].
    f_equal.
    assert (Hs : 1 <= stride (sfilter (axis_h C g))) by (destruct AH; tauto).
    assert (Ht : 1 <= stride (sfilter (axis_w C g))) by (destruct AW; tauto).
    rewrite (window_pick (axis_h C g)) by (auto; apply (axis_m _ _ _ AH)).
    rewrite (window_pick (axis_w C g)) by (auto; apply (axis_m _ _ _ AW)).
    unfold zimg, zpad, spread, arg4; cbn [pix nth back_geom gh gw].
    assert (EH : wpos (axis_h (back_trait C g) (back_geom C g)) p u
      = p + left_ (spadding (axis_h C g)) - (gr g - 1 - u) * rate (sfilter (axis_h C g))) by (geo; cbn; ring).
    assert (EW : wpos (axis_w (back_trait C g) (back_geom C g)) q v
      = q + left_ (spadding (axis_w C g)) - (gs g - 1 - v) * rate (sfilter (axis_w C g))) by (geo; cbn; ring).
    rewrite EH, EW.
    change (stride (sfilter (axis_h C g))) with (lstride (h_trait C)).
    change (stride (sfilter (axis_w C g))) with (lstride (w_trait C)).
    destruct (inb (spread_len (gh' g) _) _), (inb (spread_len (gw' g) _) _); cbn [andb]; auto;
    repeat match goal with |- context [if ?b =? 0 then _ else _] => destruct (b =? 0); cbn [andb]; auto end.
  Qed.

  (** The filter gradient is a convolution of the images with the gradient of
      the result. *)
  Lemma gy_swap : forall C g GZ X u v k t,
    conv_gy_spec sc (axis_h C g) (axis_w C g) (gn g) (gh g) (gw g) (gh' g) (gw' g) GZ X [u; v; k; t]
    = conv_fn sc nhwc (swap_trait C) (swap_geom g)
        (arg4 (fun k p q l => X [l; p; q; k])) (arg4 (fun i j l t => GZ [l; i; j; t])) [k; u; v; t].
  Proof.
    intros C g GZ X u v k t.
    change (conv_fn sc nhwc (swap_trait C) (swap_geom g) ?X ?Y [k; u; v; t])
      with (conv_at sc nhwc (swap_trait C) (swap_geom g) X Y k u v t).
    unfold conv_at, conv_gy_spec. rewrite (tapsum_nest sc laws). unfold arg4 at 1; cbn [nth].
    rewrite sum3. cbn [swap_geom gr gs gc].
    rewrite (sum_swap sc laws). apply sum_over_ext. intros i _.
    rewrite (sum_swap sc laws). apply sum_over_ext. intros j _.
    apply sum_over_ext. intros l _. unfold mulo, arg4, zimg; cbn [wgt pix nth].
    replace (wpos (axis_h (swap_trait C) (swap_geom g)) u i) with (wpos (axis_h C g) i u) by (geo; cbn; ring).
    replace (wpos (axis_w (swap_trait C) (swap_geom g)) v j) with (wpos (axis_w C g) j v) by (geo; cbn; ring).
    reflexivity.
  Qed.
End Ring.

(** ** Folding *)

Lemma Zring : ring_laws Zsc.
Proof. constructor; intros; cbn [sadd ssub smul sneg s0 s1 Zsc]; ring. Qed.

Lemma length_filter_sum : forall {A} (p : A -> bool) (l : list A),
  Z.of_nat (length (List.filter p l)) = sum_over Zsc l (fun a => if p a then 1 else 0).
Proof.
  intros A p l. induction l as [|a l IH]; [reflexivity|]. rewrite (sum_cons Zsc Zring), <- IH. cbn [List.filter].
  destruct (p a); cbn [length s0 sadd Zsc]; lia.
Qed.

Lemma cover_sum : forall sp m p, cover sp m p =
  sum_over Zsc (zrange m) (fun i => sum_over Zsc (zrange (ksize (sfilter sp))) (fun u => if wpos sp i u =? p then 1 else 0)).
Proof.
  intros. unfold cover. rewrite length_filter_sum.
  rewrite (sum_over_ext Zsc _ _ (arg2 (fun i u => if wpos sp i u =? p then 1 else 0))) by (intros; reflexivity).
  apply (sum2 Zsc Zring).
Qed.

(** The pairs of windows and taps that look at a pixel. *)
Lemma cover2 : forall H W h' w' p q,
  Z.of_nat (length (List.filter (arg4 (fun i j u v => (wpos H i u =? p) && (wpos W j v =? q)))
                                (indices [h'; w'; ksize (sfilter H); ksize (sfilter W)])))
  = cover H h' p * cover W w' q.
Proof.
  intros. rewrite length_filter_sum, !cover_sum.
  rewrite (sum_over_ext Zsc _ _ (arg4 (fun i j u v => if (wpos H i u =? p) && (wpos W j v =? q) then 1 else 0)))
    by (intros; reflexivity).
  rewrite (sum4 Zsc Zring). change Z.mul with (smul Zsc).
  rewrite <- (sum_scale_r Zsc Zring (zrange h')
    (sum_over Zsc (zrange w') (fun j => sum_over Zsc (zrange (ksize (sfilter W))) (fun v => if wpos W j v =? q then 1 else 0)))
    (fun i => sum_over Zsc (zrange (ksize (sfilter H))) (fun u => if wpos H i u =? p then 1 else 0))).
  apply sum_over_ext. intros i _.
  rewrite <- (sum_scale_l Zsc Zring). apply sum_over_ext. intros j _.
  rewrite <- (sum_scale_r Zsc Zring). apply sum_over_ext. intros u _.
  rewrite <- (sum_scale_l Zsc Zring). apply sum_over_ext. intros v _.
  cbn [smul Zsc]. destruct (wpos H i u =? p), (wpos W j v =? q); reflexivity.
Qed.

Lemma sum_interval : forall n lo hi,
  0 <= n -> sum_over Zsc (zrange n) (fun i => if (lo <=? i) && (i <=? hi) then 1 else 0)
            = Z.max 0 (Z.min (n - 1) hi - Z.max 0 lo + 1).
Proof.
  intros n lo hi Hn. revert n Hn. apply (Z_nonneg_ind (fun n => sum_over Zsc (zrange n) _ = Z.max 0 (Z.min (n - 1) hi - Z.max 0 lo + 1))).
  - change (zrange 0) with (@nil Z). rewrite sum_nil. cbn [s0 Zsc]. lia.
  - intros n Hn IH. rewrite zrange_succ, (sum_app Zsc Zring), IH, (sum_cons Zsc Zring), sum_nil by auto.
    cbn [s0 sadd Zsc]. destruct ((lo <=? n) && (n <=? hi)) eqn:E; lia.
Qed.

(** How many windows look at a pixel, without dilation. *)
Lemma cover_rate1 : forall sp m p, 0 <= m -> 1 <= stride (sfilter sp) -> rate (sfilter sp) = 1 ->
  let P := p + left_ (spadding sp) in let s := stride (sfilter sp) in
  cover sp m p = Z.max 0 (Z.min (m - 1) (P / s) - Z.max 0 ((P - ksize (sfilter sp)) / s + 1) + 1).
Proof.
  intros sp m p Hm Hs Hr P s. rewrite cover_sum.
  rewrite <- sum_interval by auto. apply sum_over_ext. intros i _.
  rewrite (sum_over_ext Zsc _ _ (fun u => if P - i * s =? u then 1 else 0)).
  - rewrite (sum_pick Zsc Zring _ _ (fun _ => 1)).
    pose proof (Z.div_mod P s ltac:(lia)). pose proof (Z.mod_pos_bound P s ltac:(lia)).
    pose proof (Z.div_mod (P - ksize (sfilter sp)) s ltac:(lia)).
    pose proof (Z.mod_pos_bound (P - ksize (sfilter sp)) s ltac:(lia)).
    set (k := ksize (sfilter sp)) in *. clearbody k. fold s in Hs. clearbody P s.
    set (a := P / s) in *. set (b := (P - k) / s) in *. clearbody a b.
    assert ((0 <=? P - i * s) && (P - i * s <? k) = (b + 1 <=? i) && (i <=? a)) as ->; [|reflexivity].
    assert (0 <= P - i * s <-> i <= a) by nia. assert (P - i * s < k <-> b + 1 <= i) by nia. lia.
  - intros u _. unfold wpos, tap. rewrite Hr. fold s. unfold P.
    destruct (_ =? p) eqn:E1, (_ =? u) eqn:E2; lia.
Qed.

Section Fold.
  Context {T : Type} (sc : scalar T).

  Lemma sum_const : forall {A} (l : list A) (a : T), sum_over sc l (fun _ => a) = times sc (Z.of_nat (length l)) a.
  Proof.
    intros A l a. unfold times, sum_over. generalize (s0 sc).
    assert (E : length (zrange (Z.of_nat (length l))) = length l) by (rewrite length_zrange; lia).
    revert E. generalize (zrange (Z.of_nat (length l))). induction l as [|x l IH]; intros [|y l'] E z; try discriminate; auto.
    cbn [fold_left]. apply IH. injection E; auto.
  Qed.

  Lemma fold_unfold_spec : forall H W h w c h' w' X p q k, 0 <= p < h -> 0 <= q < w -> 0 <= k < c ->
    col2im_spec sc H W h' w' (ksize (sfilter H)) (ksize (sfilter W))
      (arg5 (fun i j u v k => zpad (s0 sc) h w (fun p q => X [p; q; k]) (wpos H i u) (wpos W j v))) [p; q; k]
    = times sc (cover H h' p * cover W w' q) (X [p; q; k]).
  Proof.
    intros H W h w c h' w' X p q k Hp Hq Hk. unfold col2im_spec, arg3; cbn [nth].
    rewrite (sum_over_ext sc _ _ (fun _ => X [p; q; k])).
    - rewrite sum_const, cover2. reflexivity.
    - intros ix Hix. apply filter_In in Hix. destruct Hix as [_ Hix]. unfold arg4, arg5 in *; cbn [nth].
      apply andb_true_iff in Hix. destruct Hix as [E1 E2]. apply Z.eqb_eq in E1, E2. rewrite E1, E2.
      unfold zpad. replace (inb h p && inb w q) with true by (unfold inb; lia). reflexivity.
  Qed.

  Lemma cover_inj : forall sp m p i u i' u', cover sp m p <= 1 ->
    0 <= i < m -> 0 <= i' < m -> 0 <= u < ksize (sfilter sp) -> 0 <= u' < ksize (sfilter sp) ->
    wpos sp i u = p -> wpos sp i' u' = p -> i = i' /\ u = u'.
  Proof.
    intros sp m p i u i' u' Hc Hi Hi' Hu Hu' E E'.
    set (L := List.filter (arg2 (fun i u => wpos sp i u =? p)) (indices [m; ksize (sfilter sp)])) in *.
    assert (A : In [i; u] L).
    { apply filter_In. split; [apply in_indices; cbn; tauto|]. unfold arg2; cbn [nth]. lia. }
    assert (B : In [i'; u'] L).
    { apply filter_In. split; [apply in_indices; cbn; tauto|]. unfold arg2; cbn [nth]. lia. }
    assert (N : (length L <= 1)%nat) by (unfold cover in Hc; fold L in Hc; lia).
    destruct L as [|a [|b L]]; [destruct A| |cbn [length] in N; lia].
    destruct A as [A|[]], B as [B|[]]. subst a. injection B as -> ->. auto.
  Qed.
End Fold.
