From Coq Require Import ZArith List Bool Lia ZifyBool.
From Verif Require Import Base BaseFacts TensorFacts Traits TraitsSpec TraitsFacts Scalar LinAlgFacts
  Conv ConvSpec ConvFacts Pool PoolSpec.
Import ListNotations.
Open Scope Z_scope.
Open Scope model_scope.

Lemma axis_ok_fits : forall sp n m, axis_ok sp n m -> axis_fits sp n m.
Proof.
  intros [[k s r] [pl pr]] n m H. unfold axis_ok, axis_fits in *; cbn in *.
  destruct H as (Hk & Hst & Hr & Hl & Hrr & Hn & Hf & Hv).
  assert (Hm : 1 <= m) by apply Hv.
  pose proof (tap_bounds k s r pl pr n m (m - 1) (k - 1) Hk Hst Hr Hv ltac:(lia) ltac:(lia)). lia.
Qed.

Lemma fits_pos : forall sp n m j u, axis_fits sp n m -> 0 <= j < m -> 0 <= u < ksize (sfilter sp) ->
  exists i, sample_pos U32 sp j u = Ret i /\
    sample_inside U32 sp i n = Ret (inb n (wpos sp j u)) /\
    (inb n (wpos sp j u) = true -> sample_unpad U32 sp i = Ret (wpos sp j u)).
Proof.
  intros [[k s r] [pl pr]] n m j u H Hj Hu.
  unfold axis_fits in H; cbn [sfilter spadding ksize stride rate left_ right_] in *.
  destruct H as (Hk & Hst & Hr & Hl & Hn & Hm & Hf & Hv).
  assert (B : 0 <= tap s r j u < 2 ^ 32) by (unfold tap in *; nia).
  exists (tap s r j u). unfold sample_pos, sample_inside, sample_unpad; cbn [sfilter spadding].
  split; [|split].
  - apply (filter_pos_ok U32 k s r j u (2 ^ 32 - 1)); auto; unfold fits; lia.
  - rewrite pad_inside_val by (auto; unfold fits; lia). f_equal.
    unfold inb, wpos; cbn [sfilter spadding stride rate left_]. lia.
  - unfold inb, wpos; cbn [sfilter spadding stride rate left_]. intros E.
    apply (pad_unpad_val U32 pl pr (tap s r j u) n); unfold fits; lia.
Qed.

Lemma source_fits : forall H W h w h' w' i_ j_ u v,
  axis_fits H h h' -> axis_fits W w w' ->
  0 <= i_ < h' -> 0 <= j_ < w' -> 0 <= u < ksize (sfilter H) -> 0 <= v < ksize (sfilter W) ->
  source H W h w i_ j_ u v =
    Ret (if inb h (wpos H i_ u) && inb w (wpos W j_ v)
         then Some (wpos H i_ u, wpos W j_ v) else None).
Proof.
  intros H W h w h' w' i_ j_ u v AH AW Hi Hj Hu Hv.
  destruct (fits_pos H h h' i_ u AH Hi Hu) as [i [E1 [E2 E3]]].
  destruct (fits_pos W w w' j_ v AW Hj Hv) as [j [F1 [F2 F3]]].
  unfold source. rewrite E1. cbn [obind]. rewrite F1. cbn [obind]. rewrite E2. cbn [obind].
  destruct (inb h (wpos H i_ u)); [|reflexivity]. rewrite F2. cbn [obind].
  destruct (inb w (wpos W j_ v)); [|reflexivity]. rewrite E3, F3 by auto. reflexivity.
Qed.

(** Folding over a window as two nested loops. *)
Lemma fold_window : forall {B} (f : B -> Z * Z -> B) H W h w i j b,
  fold_left (fun b u => fold_left (fun b v =>
      if inb h (wpos H i u) && inb w (wpos W j v) then f b (wpos H i u, wpos W j v) else b)
    (zrange (ksize (sfilter W))) b) (zrange (ksize (sfilter H))) b
  = fold_left f (window H W h w i j) b.
Proof.
  intros B f H W h w i j b. unfold window.
  assert (F : forall {C} (p : C -> bool) (g : B -> C -> B) l b,
    fold_left g (List.filter p l) b = fold_left (fun b c => if p c then g b c else b) l b).
  { intros C p g l. induction l as [|c l IH]; intros b'; cbn; [reflexivity|].
    destruct (p c); cbn; apply IH. }
  rewrite F, fold_left_map. cbn [indices]. rewrite fold_left_flat_map. apply fold_left_ext_in.
  intros b' u _. rewrite fold_left_map, fold_left_flat_map. apply fold_left_ext_in.
  intros b'' v _. reflexivity.
Qed.

Section PoolFacts.
  Context {V T : Type} (dt : dtype V T) (A : accumulator T).

  Lemma window_in : forall H W h w i j p, In p (window H W h w i j) -> 0 <= fst p < h /\ 0 <= snd p < w.
  Proof.
    intros H W h w i j p Hp. apply filter_In in Hp. destruct Hp as [_ Hp]. unfold inb in Hp. lia.
  Qed.

  (** What one output cell receives. *)
  Definition pooled (l : list T) : outcome T := acc_get A (fold_left (acc_step A) l (acc0 A)).

  Lemma acc_loop : forall H W h w h' w' i_ j_ (ld : Z -> Z -> M V T) (X : Z -> Z -> T) s,
    axis_fits H h h' -> axis_fits W w w' -> 0 <= i_ < h' -> 0 <= j_ < w' ->
    (forall i j, 0 <= i < h -> 0 <= j < w -> ld i j s = Ok (X i j) s) ->
    foldM (zrange (ksize (sfilter H))) (fun acc u =>
      foldM (zrange (ksize (sfilter W))) (fun acc v =>
        q <- lift (source H W h w i_ j_ u v) ;;
        match q with
        | Some (i, j) => a <- ld i j ;; ret (acc_step A acc a)
        | None => ret acc
        end) acc) (acc0 A) s
    = Ok (fold_left (acc_step A) (map (fun p => X (fst p) (snd p)) (window H W h w i_ j_)) (acc0 A)) s.
  Proof.
    intros H W h w h' w' i_ j_ ld X s AH AW Hi Hj HL.
    rewrite fold_left_map, <- fold_window. apply foldM_pure. intros acc u Hu. apply in_zrange in Hu.
    apply foldM_pure. intros acc' v Hv. apply in_zrange in Hv.
    rewrite (source_fits H W h w h' w' i_ j_ u v) by auto. unfold lift. rewrite bind_ret_l.
    destruct (inb h (wpos H i_ u) && inb w (wpos W j_ v)) eqn:E; [|reflexivity].
    apply andb_true_iff in E. rewrite !inb_iff in E. destruct E as [E1 E2].
    rewrite (bind_ok _ _ _ _ _ (HL _ _ E1 E2)). reflexivity.
  Qed.

  Lemma pool_hw_writes : forall H W y x h w h' w' X Y s,
    axis_fits H h h' -> axis_fits W w w' ->
    tdims x = [h; w] -> tdims y = [h'; w'] ->
    holds dt s x X -> mapped s y -> disjoint y x ->
    (forall i j, 0 <= i < h' -> 0 <= j < w' ->
       pooled (map (fun p => X [fst p; snd p]) (window H W h w i j)) = Ret (Y [i; j])) ->
    writes dt (pool_hw dt A H W y x) s y Y.
  Proof.
    intros H W y x h w h' w' X Y s AH AW Ex Ey HX HY D HP.
    assert (Dy : dims_ok y).
    { unfold dims_ok. rewrite Ey. unfold axis_fits in *. repeat constructor; tauto. }
    eapply writes_ext; [symmetry|reflexivity|].
    { unfold pool_hw, nth_dim. rewrite Ex, Ey. cbn [nth]. rewrite for_nest2, <- Ey. reflexivity. }
    apply writes_loop; auto. intros ix s' Hix N F O. rewrite Ey in Hix. apply valid_2 in Hix.
    destruct Hix as (i & j & -> & Hi & Hj). unfold arg2; cbn [nth].
    erewrite bind_ok; [|apply (acc_loop H W h w h' w' i j (fun i j => at_ dt x [i; j]) (fun i j => X [i; j]) s');
      auto; intros a b Ha Hb; apply (at_frame dt s s' x y X); auto; rewrite Ex; simpl; tauto].
    unfold pooled in HP. rewrite HP by auto. unfold lift. rewrite bind_ret_l.
    apply set_ok. rewrite O. apply mapped_addr; auto. rewrite Ey; simpl; auto.
  Qed.

  Lemma pool_hwc_writes : forall H W y x h w c h' w' X Y s,
    axis_fits H h h' -> axis_fits W w w' -> 0 <= c ->
    tdims x = [h; w; c] -> tdims y = [h'; w'; c] ->
    holds dt s x X -> mapped s y -> disjoint y x ->
    (forall i j k, 0 <= i < h' -> 0 <= j < w' -> 0 <= k < c ->
       pooled (map (fun p => X [fst p; snd p; k]) (window H W h w i j)) = Ret (Y [i; j; k])) ->
    writes dt (pool_hwc dt A H W y x) s y Y.
  Proof.
    intros H W y x h w c h' w' X Y s AH AW Hc Ex Ey HX HY D HP.
    assert (Nn : nonneg [c; h'; w']).
    { unfold axis_fits in *. repeat constructor; tauto. }
    assert (Dy : dims_ok y).
    { unfold dims_ok. rewrite Ey. unfold axis_fits in *. repeat constructor; tauto. }
    eapply writes_ext; [symmetry|reflexivity|].
    { unfold pool_hwc, nth_dim. rewrite Ex, Ey. cbn [nth]. rewrite Z.eqb_refl. unfold contract.
      rewrite bind_ret_l, for_nest3. reflexivity. }
    apply writes_loop_perm with (pi := arg3 (fun k i j => [i; j; k])); auto.
    - apply NoDup_indices; auto.
    - intros a Ha. apply in_indices in Ha. apply valid_3 in Ha. destruct Ha as (k & i & j & -> & ?).
      rewrite Ey. unfold arg3; cbn. tauto.
    - intros a b Ha Hb. apply in_indices, valid_3 in Ha. apply in_indices, valid_3 in Hb.
      destruct Ha as (k & i & j & -> & _). destruct Hb as (k2 & i2 & j2 & -> & _). unfold arg3; cbn. congruence.
    - intros ix Hix. rewrite Ey in Hix. apply valid_3 in Hix. destruct Hix as (i & j & k & -> & ?).
      exists [k; i; j]. split; [|reflexivity]. apply in_indices. cbn. tauto.
    - intros ix s' Hix N F O. apply in_indices, valid_3 in Hix.
      destruct Hix as (k & i & j & -> & Hk & Hi & Hj). unfold arg3 in *; cbn [nth] in *.
      erewrite bind_ok; [|apply (acc_loop H W h w h' w' i j (fun i j => at_ dt x [i; j; k]) (fun i j => X [i; j; k]) s');
        auto; intros a b Ha Hb; apply (at_frame dt s s' x y X); auto; rewrite Ex; simpl; tauto].
      unfold pooled in HP. rewrite HP by auto. unfold lift. rewrite bind_ret_l.
      apply set_ok. rewrite O. apply mapped_addr; auto. rewrite Ey; simpl; auto.
  Qed.

End PoolFacts.

(** ** The two accumulators *)

Lemma weak_asym : forall {T} dom (lt : T -> T -> bool) a b, weak_order dom lt -> dom a -> dom b ->
  lt a b = true -> lt b a = false.
Proof.
  intros T dom lt a b (Irr & Tr & NT) Da Db H. destruct (lt b a) eqn:E; [|reflexivity].
  rewrite <- (Irr a Da). symmetry. apply (Tr a b a); auto.
Qed.

Lemma weak_lt_le : forall {T} dom (lt : T -> T -> bool) a b c, weak_order dom lt -> dom a -> dom b -> dom c ->
  lt a b = true -> lt c b = false -> lt a c = true.
Proof.
  intros T dom lt a b c (Irr & Tr & NT) Da Db Dc H1 H2. destruct (lt a c) eqn:E; [reflexivity|].
  rewrite (NT a c b) in H1 by auto. discriminate.
Qed.

Lemma weak_le_lt : forall {T} dom (lt : T -> T -> bool) a b c, weak_order dom lt -> dom a -> dom b -> dom c ->
  lt b a = false -> lt b c = true -> lt a c = true.
Proof.
  intros T dom lt a b c (Irr & Tr & NT) Da Db Dc H1 H2. destruct (lt a c) eqn:E; [reflexivity|].
  rewrite (NT b a c) in H2 by auto. discriminate.
Qed.

Lemma max_pooled : forall {T} (sc : scalar T) dom lowest l, weak_order dom (sltb sc) -> l <> [] ->
  dom lowest -> (forall x, In x l -> dom x /\ (sltb sc lowest x = true \/ x = lowest)) ->
  exists v, pooled (max_acc sc lowest) l = Ret v /\ greatest (sltb sc) l v.
Proof.
  intros T sc dom lowest l WO Hl Dl Hlow. unfold pooled; cbn [acc_get acc_step acc0 max_acc].
  set (f := fun val x => if sltb sc val x then x else val).
  assert (G : forall l v0, dom v0 -> (forall x, In x l -> dom x) ->
     (fold_left f l v0 = v0 \/ In (fold_left f l v0) l) /\
     sltb sc (fold_left f l v0) v0 = false /\
     forall x, In x l -> sltb sc (fold_left f l v0) x = false).
  { clear l Hl Hlow. induction l as [|x l IH]; intros v0 D0 Dx; cbn [fold_left].
    - repeat split; auto; [apply WO; auto|]. intros x [].
    - assert (Dxx : dom x) by (apply Dx; left; auto).
      assert (Df : dom (f v0 x)) by (unfold f; destruct (sltb sc v0 x); auto).
      destruct (IH (f v0 x) Df) as (I1 & I2 & I3); [intros; apply Dx; right; auto|].
      assert (M : sltb sc (f v0 x) v0 = false /\ sltb sc (f v0 x) x = false).
      { unfold f. destruct (sltb sc v0 x) eqn:E; [|split; auto; apply WO; auto].
        split; [eapply weak_asym; eauto|apply WO; auto]. }
      assert (Dr : dom (fold_left f l (f v0 x))).
      { destruct I1 as [->|I1]; [exact Df|apply Dx; right; auto]. }
      split; [|split].
      + destruct I1 as [I1|I1]; [|right; right; exact I1]. rewrite I1. unfold f.
        destruct (sltb sc v0 x); [right; left; reflexivity|left; reflexivity].
      + eapply WO; [| | |exact I2|apply M]; auto.
      + intros y [<-|Hy]; [eapply WO; [| | |exact I2|apply M]; auto|apply I3; auto]. }
  destruct (G l lowest Dl) as (G1 & G2 & G3); [intros x Hx; apply Hlow; auto|].
  eexists. split; [reflexivity|]. split; [|exact G3].
  destruct G1 as [G1|G1]; [|exact G1].
  destruct l as [|x l]; [congruence|]. destruct (Hlow x (or_introl eq_refl)) as (_ & [L|L]).
  - pose proof (G3 x (or_introl eq_refl)) as Q. rewrite G1 in Q. congruence.
  - left. transitivity lowest; [exact L|symmetry; exact G1].
Qed.

Lemma mean_pooled : forall {T} (sc : scalar T) div_n l, Z.of_nat (length l) < 2 ^ 32 ->
  pooled (mean_acc sc div_n) l = div_n (sum_over sc l (fun x => x)) (Z.of_nat (length l)).
Proof.
  intros T sc div_n l Hl. unfold pooled; cbn [acc_get acc_step acc0 mean_acc].
  assert (G : forall l t n, 0 <= n -> n + Z.of_nat (length l) < 2 ^ 32 ->
    fold_left (fun (a : T * Z) x => (sadd sc (fst a) x, to_u32 (snd a + 1))) l (t, n)
    = (fold_left (fun acc a => sadd sc acc a) l t, n + Z.of_nat (length l))).
  { clear l Hl. induction l as [|x l IH]; intros t n Hn Hl; cbn [fold_left length fst snd] in *.
    - f_equal. lia.
    - unfold to_u32. rewrite Z.mod_small by lia. rewrite IH by lia. f_equal. lia. }
  rewrite G by lia. cbn [fst snd]. reflexivity.
Qed.

Lemma window_length : forall H W h w i j, 0 <= ksize (sfilter H) -> 0 <= ksize (sfilter W) ->
  Z.of_nat (length (window H W h w i j)) <= ksize (sfilter H) * ksize (sfilter W).
Proof.
  intros H W h w i j Hh Hw. unfold window.
  assert (F : forall {C} (p : C -> bool) l, (length (List.filter p l) <= length l)%nat).
  { intros C p l. induction l as [|c l IH]; cbn; [lia|]. destruct (p c); cbn; lia. }
  pose proof (F _ (fun p => inb h (fst p) && inb w (snd p))
    (map (arg2 (fun u v => (wpos H i u, wpos W j v))) (indices [ksize (sfilter H); ksize (sfilter W)]))) as L.
  rewrite map_length in L.
  pose proof (length_indices [ksize (sfilter H); ksize (sfilter W)] ltac:(repeat constructor; auto)) as E.
  cbn [prod] in E. lia.
Qed.

(** ** Windows that contain a pixel *)

(** One axis: window [i] shows some pixel. *)
Lemma axis_hit : forall k s pl pr n m i,
  axis_ok (mksample (mkfilter k s 1) (mkpadding pl pr)) n m -> 1 <= n -> pl < k -> pr < k -> 0 <= i < m ->
  exists u, 0 <= u < k /\ 0 <= wpos (mksample (mkfilter k s 1) (mkpadding pl pr)) i u < n.
Proof.
  intros k s pl pr n m i Hx Hn Hl Hr Hi. unfold axis_ok, valid_config, span in Hx; cbn [sfilter spadding ksize stride rate left_ right_] in Hx.
  unfold wpos, tap; cbn [sfilter spadding ksize stride rate left_ right_]. exists (Z.max 0 (pl - i * s)).
  assert (0 <= i * s) by nia. assert (i * s <= s * (m - 1)) by nia. lia.
Qed.

Lemma axis_miss_left : forall k s pl pr n u,
  axis_ok (mksample (mkfilter k s 1) (mkpadding pl pr)) n u -> k <= pl ->
  forall u, 0 <= u < k -> ~ 0 <= wpos (mksample (mkfilter k s 1) (mkpadding pl pr)) 0 u < n.
Proof. intros k s pl pr n m Hx Hl u Hu. unfold wpos, tap; cbn [sfilter spadding ksize stride rate left_ right_]. lia. Qed.

Lemma axis_miss_right : forall k s pl pr n m,
  axis_ok (mksample (mkfilter k s 1) (mkpadding pl pr)) n m -> k <= pr ->
  forall u, 0 <= u < k -> ~ 0 <= wpos (mksample (mkfilter k s 1) (mkpadding pl pr)) (m - 1) u < n.
Proof.
  intros k s pl pr n m Hx Hl u Hu. unfold axis_ok, valid_config, span in Hx; cbn [sfilter spadding ksize stride rate left_ right_] in Hx.
  unfold wpos, tap; cbn [sfilter spadding ksize stride rate left_ right_]. nia.
Qed.

Lemma window_nonempty : forall H W h w i j,
  (exists u, 0 <= u < ksize (sfilter H) /\ 0 <= wpos H i u < h) ->
  (exists v, 0 <= v < ksize (sfilter W) /\ 0 <= wpos W j v < w) ->
  window H W h w i j <> [].
Proof.
  intros H W h w i j (u & Hu & Hi) (v & Hv & Hj) E.
  assert (I : In (wpos H i u, wpos W j v) (window H W h w i j)).
  { apply filter_In. split; [|unfold inb; cbn; lia].
    apply in_map_iff. exists [u; v]. split; [reflexivity|]. apply in_indices. cbn. auto. }
  rewrite E in I. destruct I.
Qed.

Lemma window_empty : forall H W h w i j,
  (forall u, 0 <= u < ksize (sfilter H) -> ~ 0 <= wpos H i u < h) \/
  (forall v, 0 <= v < ksize (sfilter W) -> ~ 0 <= wpos W j v < w) ->
  window H W h w i j = [].
Proof.
  intros H W h w i j Hx. destruct (window H W h w i j) as [|p l] eqn:E; [reflexivity|].
  assert (I : In p (window H W h w i j)) by (rewrite E; left; auto).
  apply filter_In in I. destruct I as [I1 I2]. apply in_map_iff in I1. destruct I1 as (ix & <- & I1).
  apply in_indices, valid_2 in I1. destruct I1 as (u & v & -> & Hu & Hv).
  unfold arg2, inb in I2; cbn in I2. destruct Hx as [Hx|Hx]; [destruct (Hx u Hu)|destruct (Hx v Hv)]; lia.
Qed.

(** ** Integer division by a count *)

Lemma div_i32_spec : forall a n, - 2 ^ 31 <= a < 2 ^ 31 -> 1 <= n <= 2 ^ 31 ->
  (div_i32 a n = Ret (Z.quot a n) <-> 0 <= a \/ n = 1).
Proof.
  intros a n Ha Hn. unfold div_i32, to_i32, to_u32. replace (n =? 0) with false by lia.
  destruct (Z.leb_spec 0 a) as [P|P].
  - rewrite (Z.mod_small a) by lia. pose proof (Z.div_le_upper_bound a n a ltac:(lia) ltac:(nia)).
    pose proof (Z.div_pos a n ltac:(lia) ltac:(lia)). rewrite Z.mod_small by lia.
    rewrite Z.quot_div_nonneg by lia. split; [auto|intros _; f_equal; lia].
  - replace (a mod 2 ^ 32) with (a + 2 ^ 32) by (rewrite <- (Z.mod_add a 1) by lia; rewrite Z.mod_small; lia).
    destruct (Z.eq_dec n 1) as [->|N].
    + rewrite Z.div_1_r, Z.quot_1_r. split; [auto|intros _]. f_equal.
      replace (a + 2 ^ 32 + 2 ^ 31) with (a + 2 ^ 31 + 1 * 2 ^ 32) by lia.
      rewrite Z.mod_add by lia. rewrite Z.mod_small by lia. lia.
    + assert (B1 : 1 <= (a + 2 ^ 32) / n) by (apply Z.div_le_lower_bound; lia).
      assert (B2 : (a + 2 ^ 32) / n < 2 ^ 31) by (apply Z.div_lt_upper_bound; nia).
      rewrite Z.mod_small by lia. split; [|lia]. intros E. exfalso.
      assert (E' : (a + 2 ^ 32) / n = Z.quot a n) by (inversion E; lia).
      assert (Z.quot a n <= 0) by (rewrite <- (Z.opp_involutive a), Z.quot_opp_l by lia;
        pose proof (Z.quot_pos (- a) n ltac:(lia) ltac:(lia)); lia). lia.
Qed.

(** ** From constructor and shape function to axes *)

Lemma pool_axes : forall kh kw ph pw sh sw P h w ds,
  pool_args kh kw ph pw h w -> new_pool_kps kh kw ph pw sh sw = Ret P -> pool_shape2 P [h; w] = Ret ds ->
  P = mkpool (mksample (mkfilter kh sh 1) ph) (mksample (mkfilter kw sw 1) pw) /\
  exists h' w', ds = [h'; w'] /\ axis_ok (h_sample P) h h' /\ axis_ok (w_sample P) w w'.
Proof.
  intros kh kw [plh prh] [plw prw] sh sw P h w ds G EP ES. unfold pool_args in G; cbn in G.
  assert (K : 1 <= kh /\ 1 <= kw /\ 1 <= sh /\ 1 <= sw).
  { destruct (Z.ltb_spec kh 1); [|destruct (Z.ltb_spec kw 1); [|destruct (Z.ltb_spec sh 1); [|
      destruct (Z.ltb_spec sw 1); [|lia]]]];
    rewrite new_pool_kps_throws in EP by lia; discriminate. }
  destruct K as (K1 & K2 & K3 & K4).
  assert (E : P = mkpool (mksample (mkfilter kh sh 1) (mkpadding plh prh)) (mksample (mkfilter kw sw 1) (mkpadding plw prw))).
  { rewrite new_pool_kps_iff in EP by auto. congruence. }
  split; [exact E|]. subst P. unfold pool_shape2 in ES; cbn [nth h_sample w_sample] in ES.
  destruct (sample_len U32 _ h) as [h'| |] eqn:E1 in ES; cbn [obind] in ES; try discriminate.
  destruct (sample_len U32 _ w) as [w'| |] eqn:E2 in ES; cbn [obind] in ES; try discriminate.
  inversion ES; subst ds. exists h', w'. split; [reflexivity|]. cbn [h_sample w_sample].
  split; apply len_axis; auto; unfold span; lia.
Qed.

(** ** Undefined behaviour in a loop *)

Lemma for_ub : forall {V A} (l : list A) (f : A -> M V unit) (I : st V -> Prop) s a,
  I s -> In a l ->
  (forall b s', In b l -> I s' -> f b s' = UB \/ exists s'', f b s' = Ok tt s'' /\ I s'') ->
  (forall s', I s' -> f a s' = UB) ->
  for_ l f s = UB.
Proof.
  intros V A l f I s a. revert s. induction l as [|b l IH]; intros s Is Ia Hs Ha; [destruct Ia|].
  cbn [for_]. unfold bind. destruct (Hs b s) as [E|(s'' & E & I2)]; auto; [left; auto|rewrite E; reflexivity|].
  rewrite E. destruct Ia as [->|Ia]; [rewrite Ha in E by auto; discriminate|].
  apply IH; auto. intros c s' Hc. apply Hs. right; auto.
Qed.

(** An accumulation without a result makes the whole call undefined. *)
Lemma pool_hw_undef : forall {V T} (dt : dtype V T) (A : accumulator T) H W y x h w h' w' X s i j,
  axis_fits H h h' -> axis_fits W w w' -> 0 <= i < h' -> 0 <= j < w' ->
  tdims x = [h; w] -> tdims y = [h'; w'] -> holds dt s x X -> mapped s y -> disjoint y x ->
  (forall l, pooled A l = Undef \/ exists v, pooled A l = Ret v) ->
  pooled A (map (fun p => X [fst p; snd p]) (window H W h w i j)) = Undef ->
  pool_hw dt A H W y x s = UB.
Proof.
  intros V T dt A H W y x h w h' w' X s i j AH AW Hi Hj Ex Ey HX HY D HA HP.
  unfold pool_hw, nth_dim. rewrite Ex, Ey. cbn [nth]. rewrite for_nest2.
  set (body := arg2 _).
  assert (B : forall i j s', 0 <= i < h' -> 0 <= j < w' -> holds dt s' x X ->
    body [i; j] s' = match pooled A (map (fun p => X [fst p; snd p]) (window H W h w i j)) with
                     | Ret v => set_ dt y [i; j] v s' | Exn e => Throw e s' | Undef => UB end).
  { intros a b s' Ha Hb HX'. unfold body, arg2; cbn [nth].
    erewrite bind_ok; [|apply (acc_loop A H W h w h' w' a b (fun i j => at_ dt x [i; j]) (fun i j => X [i; j]) s');
      auto; intros; apply at_ok; auto; rewrite Ex; simpl; tauto].
    cbv beta. unfold pooled. clear HP.
    destruct (acc_get A (fold_left (acc_step A) (map (fun p => X [fst p; snd p]) (window H W h w a b)) (acc0 A)));
      reflexivity. }
  apply (for_ub _ _ (fun s' => holds dt s' x X /\ mapped s' y) s [i; j]).
  - auto.
  - apply in_indices. cbn. auto.
  - intros ix s' Hix (I1 & I2). apply in_indices, valid_2 in Hix. destruct Hix as (a & b & -> & Ha & Hb).
    rewrite B by auto. destruct (HA (map (fun p => X [fst p; snd p]) (window H W h w a b))) as [E|(v & E)]; rewrite E; [auto|].
    right. eexists. split; [apply set_ok; apply mapped_addr; auto; rewrite Ey; cbn; auto|]. split.
    + eapply (holds_frame_disj dt s' _ x y X); eauto.
      intros p Hp. apply cells_upd_other. intros ->. apply Hp. apply addr_foot. rewrite Ey; cbn; auto.
    + intros p Hp. destruct (loc_eqb_spec p (addr y [a; b])) as [->|N].
      * rewrite cells_upd_same. discriminate.
      * rewrite cells_upd_other by auto. apply I2; auto.
  - intros s' (I1 & _). rewrite B by auto. rewrite HP. reflexivity.
Qed.
