(** Property C86: no operator mixes the images of a batch.

    Each theorem gives one function of a single image that depends on the
    weights and the geometry alone, and shows that for every batch, of any size,
    the operator writes that function of each image. *)
From Coq Require Import ZArith List Bool Lia Reals Lra String.
From Verif Require Import Base BaseFacts TensorFacts Traits TraitsSpec TraitsFacts Scalar RealScalar LinAlg LinAlgFacts
  Elem ElemSpec ElemFacts Conv ConvSpec ConvFacts Pool PoolSpec PoolFacts Activation ActivationSpec ActivationFacts
  RowFacts Utility UtilityFacts SumFacts Layers LayersSpec Vgg VggSpec VggFacts BatchSpec FloatNan
  PropsElem PropsConv PropsPool PropsNorm PropsSoftmax PropsUtility PropsVgg Demo.
Import ListNotations.
Open Scope Z_scope.
Open Scope model_scope.

Section Ops.
  Context {V T : Type} (dt : dtype V T) (di : dtype V Z) (sc : scalar T).

  (** *** C86: convolutions. *)
  Theorem C86_conv_nhwc : forall C h w c r s d h' w' Y,
    let H := axis_of (h_trait C) r in let W := axis_of (w_trait C) s in
    axis_ok H h h' -> axis_ok W w w' -> 0 <= c -> 0 <= d -> h * w * c <= 2 ^ 31 ->
    exists f, image_map [h; w; c] [h'; w'; d] f /\
      forall e n z x y X st, 0 <= n -> engine_ok sc e [n; c; d] ->
        tdims x = [n; h; w; c] -> tdims y = [r; s; c; d] -> tdims z = [n; h'; w'; d] ->
        fresh_ok st -> holds dt st x X -> holds dt st y Y -> mapped st z -> disjoint z x -> disjoint z y ->
        writes dt (conv_nhwc dt di sc e C z x y) st z (each f X).
  Proof.
    intros C h w c r s d h' w' Y H W AH AW Hc Hd Hsz.
    exists (fun A => arg3 (fun i j t =>
         sum_over sc (indices [r; s; c]) (arg3 (fun u v k =>
           smul sc (zpad (s0 sc) h w (fun p q => A [p; q; k]) (wpos H i u) (wpos W j v)) (Y [u; v; k; t]))))). split.
    - intros A B E ix Hix. unfold arg3 at 1 3. apply sum_over_ext. intros u Hu. apply in_indices in Hu.
      destruct u as [|u [|v [|k [|? ?]]]]; cbn [valid] in Hu; try tauto. unfold arg3; cbn [nth]. f_equal.
      unfold zpad. destruct (inb h _ && inb w _) eqn:Q; [|reflexivity]. apply E. apply andb_true_iff in Q. unfold inb in Q.
      cbn [valid]. lia.
    - intros e n z x y X st Hn He Ex Ey Ez Hf HX HY HZ D1 D2.
      eapply writes_ext; [reflexivity| |apply (C16_conv_nhwc dt di sc e C z x y n h w c r s d h' w' X Y st); auto].
      intros ix Hix. rewrite Ez in Hix. destruct ix as [|l [|i [|j [|t [|? ?]]]]]; cbn [valid] in Hix; first [tauto | reflexivity].
  Qed.

  Theorem C86_conv_nchw : forall C h w c r s d h' w' Y,
    let H := axis_of (h_trait C) r in let W := axis_of (w_trait C) s in
    axis_ok H h h' -> axis_ok W w w' -> 0 <= c -> 0 <= d ->
    exists f, image_map [c; h; w] [d; h'; w'] f /\
      forall e n z x y X st, 0 <= n -> engine_ok sc e [c; d] ->
        tdims x = [n; c; h; w] -> tdims y = [d; c; r; s] -> tdims z = [n; d; h'; w'] ->
        fresh_ok st -> holds dt st x X -> holds dt st y Y -> mapped st z -> disjoint z x -> disjoint z y ->
        writes dt (conv_nchw dt sc e C z x y) st z (each f X).
  Proof.
    intros C h w c r s d h' w' Y H W AH AW Hc Hd.
    exists (fun A => arg3 (fun t i j =>
         sum_over sc (indices [c; r; s]) (arg3 (fun k u v =>
           smul sc (Y [t; k; u; v]) (zpad (s0 sc) h w (fun p q => A [k; p; q]) (wpos H i u) (wpos W j v)))))). split.
    - intros A B E ix Hix. unfold arg3 at 1 3. apply sum_over_ext. intros u Hu. apply in_indices in Hu.
      destruct u as [|k [|u [|v [|? ?]]]]; cbn [valid] in Hu; try tauto. unfold arg3; cbn [nth]. f_equal.
      unfold zpad. destruct (inb h _ && inb w _) eqn:Q; [|reflexivity]. apply E. apply andb_true_iff in Q. unfold inb in Q.
      cbn [valid]. lia.
    - intros e n z x y X st Hn He Ex Ey Ez Hf HX HY HZ D1 D2.
      eapply writes_ext; [reflexivity| |apply (C17_conv_nchw dt sc e C z x y n h w c r s d h' w' X Y st); auto].
      intros ix Hix. rewrite Ez in Hix. destruct ix as [|l [|t [|i [|j [|? ?]]]]]; cbn [valid] in Hix; first [tauto | reflexivity].
  Qed.

  (** Pooling, for accumulators that always give a value (maximum and
      floating point mean do). *)
  Theorem C86_pool_nhwc : forall A kh kw ph pw sh sw P h w c h' w',
    (forall l, exists v, pooled A l = Ret v) ->
    pool_args kh kw ph pw h w -> new_pool_kps kh kw ph pw sh sw = Ret P -> pool_shape2 P [h; w] = Ret [h'; w'] -> 0 <= c ->
    exists f, image_map [h; w; c] [h'; w'; c] f /\
      forall n y x X s, 0 <= n -> tdims x = [n; h; w; c] -> tdims y = [n; h'; w'; c] ->
        holds dt s x X -> mapped s y -> disjoint y x ->
        writes dt (op_pool_nhwc dt A P y x) s y (each f X).
  Proof.
    intros A kh kw ph pw sh sw P h w c h' w' Tot G EP ES Hc.
    destruct (pool_axes _ _ _ _ _ _ _ _ _ _ G EP ES) as (E & h2 & w2 & E2 & AH & AW). inversion E2; subst h2 w2; clear E2.
    apply axis_ok_fits in AH. apply axis_ok_fits in AW.
    assert (Ks : 1 <= kh /\ 1 <= kw /\ 1 <= sh /\ 1 <= sw) by (unfold axis_fits in *; subst P; cbn in *; lia).
    destruct (new_pool_ks kh kw sh sw) as [P0| |] eqn:EP0;
      [|unfold new_pool_ks in EP0; rewrite new_pool_kps_iff in EP0 by apply Ks; discriminate..].
    set (seen := fun (a : list Z -> T) i j k => map (fun p => a [fst p; snd p; k]) (window (h_sample P0) (w_sample P0) h w i j)).
    exists (fun a => arg3 (fun i j k => match pooled A (seen a i j k) with Ret v => v | _ => a [] end)). split.
    - intros a b E0 ix Hix. unfold arg3.
      assert (Q : seen a (nth 0 ix 0) (nth 1 ix 0) (nth 2 ix 0) = seen b (nth 0 ix 0) (nth 1 ix 0) (nth 2 ix 0)).
      { unfold seen. apply map_ext_in. intros p Hp. apply window_in in Hp. apply E0.
        destruct ix as [|i [|j [|k [|? ?]]]]; cbn [valid] in Hix; try tauto. cbn [valid nth]. tauto. }
      rewrite Q. destruct (Tot (seen b (nth 0 ix 0) (nth 1 ix 0) (nth 2 ix 0))) as [v ->]. reflexivity.
    - intros n y x X s Hn Ex Ey HX HY D.
      apply (C38_nhwc dt A kh kw ph pw sh sw P P0 n h w c h' w' y x X); auto.
      + apply C38_shape. eauto.
      + intros l i j k Hv. unfold each, arg3, image. cbn [tl nth].
        destruct (Tot (seen (image X l) i j k)) as [v Ev]. unfold seen, image in Ev |- *. rewrite Ev. reflexivity.
  Qed.

  Theorem C86_pool_nchw : forall A kh kw ph pw sh sw P h w c h' w',
    (forall l, exists v, pooled A l = Ret v) ->
    pool_args kh kw ph pw h w -> new_pool_kps kh kw ph pw sh sw = Ret P -> pool_shape2 P [h; w] = Ret [h'; w'] -> 0 <= c ->
    exists f, image_map [c; h; w] [c; h'; w'] f /\
      forall n y x X s, 0 <= n -> tdims x = [n; c; h; w] -> tdims y = [n; c; h'; w'] ->
        holds dt s x X -> mapped s y -> disjoint y x ->
        writes dt (op_pool_nchw dt A P y x) s y (each f X).
  Proof.
    intros A kh kw ph pw sh sw P h w c h' w' Tot G EP ES Hc.
    destruct (pool_axes _ _ _ _ _ _ _ _ _ _ G EP ES) as (E & h2 & w2 & E2 & AH & AW). inversion E2; subst h2 w2; clear E2.
    apply axis_ok_fits in AH. apply axis_ok_fits in AW.
    assert (Ks : 1 <= kh /\ 1 <= kw /\ 1 <= sh /\ 1 <= sw) by (unfold axis_fits in *; subst P; cbn in *; lia).
    destruct (new_pool_ks kh kw sh sw) as [P0| |] eqn:EP0;
      [|unfold new_pool_ks in EP0; rewrite new_pool_kps_iff in EP0 by apply Ks; discriminate..].
    set (seen := fun (a : list Z -> T) k i j => map (fun p => a [k; fst p; snd p]) (window (h_sample P0) (w_sample P0) h w i j)).
    exists (fun a => arg3 (fun k i j => match pooled A (seen a k i j) with Ret v => v | _ => a [] end)). split.
    - intros a b E0 ix Hix. unfold arg3.
      assert (Q : seen a (nth 0 ix 0) (nth 1 ix 0) (nth 2 ix 0) = seen b (nth 0 ix 0) (nth 1 ix 0) (nth 2 ix 0)).
      { unfold seen. apply map_ext_in. intros p Hp. apply window_in in Hp. apply E0.
        destruct ix as [|k [|i [|j [|? ?]]]]; cbn [valid] in Hix; try tauto. cbn [valid nth]. tauto. }
      rewrite Q. destruct (Tot (seen b (nth 0 ix 0) (nth 1 ix 0) (nth 2 ix 0))) as [v ->]. reflexivity.
    - intros n y x X s Hn Ex Ey HX HY D.
      apply (C38_nchw dt A kh kw ph pw sh sw P P0 n h w c h' w' y x X); auto.
      + apply C38_shape. eauto.
      + intros l k i j Hv. unfold each, arg3, image. cbn [tl nth].
        destruct (Tot (seen (image X l) k i j)) as [v Ev]. unfold seen, image in Ev |- *. rewrite Ev. reflexivity.
  Qed.

  (** Dense layers: one row of the product, one row of the sum. *)
  Theorem C86_matmul : forall l d Y, 0 <= l -> 0 <= d ->
    exists f, image_map [l] [d] f /\
      forall e n z x y X s, 0 <= n -> engine_ok sc e [n; l; d] ->
        tdims x = [n; l] -> tdims y = [l; d] -> tdims z = [n; d] ->
        holds dt s x X -> holds dt s y Y -> mapped s z -> disjoint z x -> disjoint z y ->
        writes dt (op_matmul dt sc e z x y) s z (each f X).
  Proof.
    intros l d Y Hl Hd. exists (fun A => arg1 (fun j => sum_over sc (zrange l) (fun k => smul sc (A [k]) (Y [k; j])))). split.
    - intros A B E ix Hix. unfold arg1. apply sum_over_ext. intros k Hk. apply in_zrange in Hk. f_equal. apply E. cbn. auto.
    - intros e n z x y X s Hn He Ex Ey Ez HX HY HZ D1 D2.
      eapply writes_ext; [reflexivity| |apply (C26_matmul dt sc e z x y n l d X Y s); auto].
      intros ix Hix. rewrite Ez in Hix. destruct ix as [|i [|j [|? ?]]]; cbn [valid] in Hix; first [tauto | reflexivity].
  Qed.

  (** Biases of matrices and image batches, also in place. *)
  Theorem C86_add_bias : forall o rank p ds c B, bias_layout o (S rank) (S p) -> nonneg ds -> List.length ds = rank -> nth p ds 0 = c ->
    exists f, image_map ds ds f /\
      forall n z x b X s, 0 <= n -> tdims z = n :: ds -> tdims x = n :: ds -> tdims b = [c] ->
        holds dt s x X -> holds dt s b B -> mapped s z -> safe z x -> disjoint z b ->
        writes dt (op_bias dt o (f_add sc) z x b) s z (each f X).
  Proof.
    intros o rank p ds c B L Nn Hl Ec. exists (fun A ix => sadd sc (A ix) (B [nth p ix 0])). split.
    - intros X Y E ix Hix. cbv beta. rewrite (E ix Hix). reflexivity.
    - intros n z x b X s Hn Ez Ex Eb HX HB HZ S D.
      eapply writes_ext; [reflexivity| |apply (C30_add_bias dt sc o (Datatypes.S rank) (Datatypes.S p) z x b c X B s L); auto].
      + intros ix Hix. rewrite Ez in Hix. destruct ix as [|l ix]; cbn [valid] in Hix; [tauto|]. reflexivity.
      + unfold dims_ok. rewrite Ez. constructor; auto.
      + rewrite Ez. cbn. congruence.
      + congruence.
      + rewrite Ez. exact Ec.
  Qed.

  (** Batch normalisation (with given mean and variance). *)
  Theorem C86_bn : forall o p ds c norm Mu Va, bn_axis o (S p) -> nonneg ds -> List.length ds = 3%nat -> nth p ds 0 = c ->
    (forall k, 0 <= k < c -> forall x, exists r, norm x (Mu [k]) (Va [k]) = Ret r) ->
    exists f, image_map ds ds f /\
      forall n y x m v X s, 0 <= n -> tdims y = n :: ds -> tdims x = n :: ds -> tdims m = [c] -> tdims v = [c] ->
        holds dt s x X -> holds dt s m Mu -> holds dt s v Va -> mapped s y -> safe y x -> disjoint y m -> disjoint y v ->
        writes dt (op_bn dt o norm y x m v) s y (each f X).
  Proof.
    intros o p ds c norm Mu Va L Nn Hl Ec Tot.
    exists (fun A ix => match norm (A ix) (Mu [nth p ix 0]) (Va [nth p ix 0]) with Ret r => r | _ => A ix end). split.
    - intros X Y E ix Hix. cbv beta. rewrite (E ix Hix). reflexivity.
    - intros n y x m v X s Hn Ey Ex Em Ev HX HM HV HY S D1 D2.
      apply (C32_bn dt o (Datatypes.S p) norm y x m v c X Mu Va); auto; try (rewrite Ex; cbn; auto; congruence); try congruence.
      + unfold dims_ok. rewrite Ex. constructor; auto.
      + intros ix Hix. rewrite Ex in Hix. destruct ix as [|l ix]; cbn [valid] in Hix; [tauto|].
        unfold each, image. cbn [nth tl]. destruct (Tot (nth p ix 0)) with (x := X (l :: ix)) as [r Er].
        { destruct ds as [|a [|b [|d [|? ?]]]]; cbn in Hl; try discriminate.
          destruct ix as [|i [|j [|q [|? ?]]]]; cbn [valid] in Hix; try tauto. subst c.
          destruct L as [[_ L]|[_ L]]; inversion L; subst p; cbn [nth]; lia. }
        cbn [nth]. rewrite Er. reflexivity.
  Qed.

  (** Classification: softmax and argmax of each row. *)
  Theorem C86_argmax : forall N k, 0 < it_bits N -> k - 1 <= it_max N -> 1 <= k ->
    exists f, image_map [k] [] f /\
      forall (dn : dtype V Z) n y x X s, tdims y = [n] -> tdims x = [n; k] -> 0 <= n ->
        holds dt s x X -> mapped s y -> disjoint y x ->
        writes dn (op_argmax dn N dt sc 1 y x) s y (each f X).
  Proof.
    intros N k Hb HN Hk. exists (fun A _ => scan sc k (fun j => A [j])). split.
    - intros A B E ix _. unfold scan.
      assert (Q : forall l b, (forall i, In i l -> 0 <= i < k - 1) ->
        fold_left (fun (b : Z * T) i => if sltb sc (snd b) (A [(i + 1)%Z]) then ((i + 1)%Z, A [(i + 1)%Z]) else b) l b =
        fold_left (fun (b : Z * T) i => if sltb sc (snd b) (B [(i + 1)%Z]) then ((i + 1)%Z, B [(i + 1)%Z]) else b) l b).
      { induction l as [|i l IH]; intros b Hl; [reflexivity|]. cbn [fold_left].
        rewrite (E [i + 1]) by (cbn; specialize (Hl i (or_introl eq_refl)); lia). apply IH. intros; apply Hl; right; auto. }
      rewrite (E [0]) by (cbn; lia). rewrite Q; [reflexivity|]. intros i Hi. apply in_zrange in Hi. exact Hi.
    - intros dn n y x X s Ey Ex Hn HX HY D.
      eapply writes_ext; [reflexivity| |apply (op_argmax_writes dn N dt sc y x [n] k X s); auto].
      + intros ix Hix. rewrite Ey in Hix. destruct ix as [|l [|? ?]]; cbn [valid] in Hix; first [tauto | reflexivity].
      + unfold dims_ok. rewrite Ex. repeat constructor; lia.
  Qed.
End Ops.

Theorem C86_softmax : forall eps k, 0 <= k ->
  exists f, image_map [k] [k] f /\
    forall V (dt : dtype V R) n y x X s, tdims y = [n; k] -> tdims x = [n; k] -> 0 <= n ->
      holds dt s x X -> mapped s y -> disjoint y x ->
      writes dt (op_softmax dt Rsc exp 2 eps y x) s y (each f X).
Proof.
  intros eps k Hk. exists (fun A ix => softmax_fn eps k (fun j => A [j]) (nth 0 ix 0)). split.
  - intros A B E ix Hix. destruct ix as [|i [|? ?]]; cbn [valid] in Hix; try tauto. cbn [nth]. unfold softmax_fn.
    rewrite (E [i]) by (cbn; auto). do 2 f_equal. unfold rsum. apply sum_over_ext.
    intros j Hj. apply in_zrange in Hj. rewrite (E [j]) by (cbn; auto). reflexivity.
  - intros V dt n y x X s Ey Ex Hn HX HY D.
    eapply writes_ext; [reflexivity| |apply (C33_value dt eps y x [n] k X s); auto].
    + intros ix Hix. rewrite Ey in Hix. destruct ix as [|l [|i [|? ?]]]; cbn [valid] in Hix; first [tauto | reflexivity].
    + unfold dims_ok. rewrite Ex. repeat constructor; lia.
Qed.

(** *** C86: the VGG networks. *)
Section Net.
  Context (W B : string -> list Z -> R).

  Lemma conv3_image : forall h w c U b X l X' l' d, same_image [h; w; c] X l X' l' ->
    same_image [h; w; d] (conv3 h w c U b X) l (conv3 h w c U b X') l'.
  Proof using.
    intros h w c U b X l X' l' d S ix Hix. destruct ix as [|i [|j [|t [|? ?]]]]; cbn [valid] in Hix; try tauto.
    unfold conv3, arg4. cbn [nth]. do 2 f_equal. apply sum_over_ext. intros u Hu. apply in_indices in Hu.
    destruct u as [|u [|v [|k [|? ?]]]]; cbn [valid] in Hu; try tauto. unfold arg3; cbn [nth]. f_equal.
    unfold zpad. destruct (inb h _ && inb w _) eqn:Q; [|reflexivity]. apply S. apply andb_true_iff in Q. unfold inb in Q.
    cbn [valid]. lia.
  Qed.

  Lemma convs_image : forall h w b c X l X' l', same_image [h; w; c] X l X' l' ->
    same_image [h; w; fst (convs W B h w c b X)] (snd (convs W B h w c b X)) l (snd (convs W B h w c b X')) l'.
  Proof using.
    intros h w b. induction b as [|[d nm] b IH]; intros c X l X' l' S; cbn [convs fst snd]; [exact S|].
    apply IH. apply conv3_image. exact S.
  Qed.

  Lemma blocks_image : forall bs h w c X l X' l', same_image [h; w; c] X l X' l' ->
    let '(a, b, d, Y) := blocks W B h w c bs X in let '(a', b', d', Y') := blocks W B h w c bs X' in
    a' = a /\ b' = b /\ d' = d /\ same_image [a; b; d] Y l Y' l'.
  Proof using.
    intros bs. induction bs as [|b bs IH]; intros h w c X l X' l' S; cbn [blocks]; [auto|].
    pose proof (convs_image h w b c X l X' l' S) as Q.
    assert (Ec : fst (convs W B h w c b X') = fst (convs W B h w c b X)) by (rewrite !convs_chan; reflexivity).
    destruct (convs W B h w c b X) as [d Y]. destruct (convs W B h w c b X') as [d' Y']. cbn [fst snd] in Q, Ec. subst d'.
    apply IH. intros ix Hix. destruct ix as [|i [|j [|k [|? ?]]]]; cbn [valid] in Hix; try tauto.
    pose proof (Z.mul_div_le h 2). pose proof (Z.mul_div_le w 2).
    unfold pool2, arg4; cbn [nth]. rewrite !Q by (cbn [valid]; lia). reflexivity.
  Qed.

  Lemma affine_image : forall n d U b X l X' l', same_image [n] X l X' l' ->
    same_image [d] (affine n U b X) l (affine n U b X') l'.
  Proof using.
    intros n d U b X l X' l' S ix Hix. destruct ix as [|j [|? ?]]; cbn [valid] in Hix; try tauto.
    unfold affine, arg2; cbn [nth]. f_equal. apply sum_over_ext. intros k Hk. apply in_zrange in Hk. rewrite S by (cbn; auto). reflexivity.
  Qed.

  Lemma hidden_image : forall hs n X l X' l', same_image [n] X l X' l' ->
    let '(a, Y) := hidden W B n hs X in let '(a', Y') := hidden W B n hs X' in a' = a /\ same_image [a] Y l Y' l'.
  Proof using.
    intros hs. induction hs as [|[d nm] hs IH]; intros n X l X' l' S; cbn [hidden]; [auto|].
    apply IH. intros ix Hix. unfold rectified. rewrite (affine_image n d (W nm) (B nm) X l X' l' S ix Hix). reflexivity.
  Qed.

  Lemma flattened_image : forall h w c X l X' l', 0 <= h -> 0 <= w -> 0 <= c -> same_image [h; w; c] X l X' l' ->
    same_image [h * w * c] (flattened h w c X) l (flattened h w c X') l'.
  Proof using.
    intros h w c X l X' l' Hh Hw Hc S ix Hix. destruct ix as [|a [|? ?]]; cbn [valid] in Hix; try tauto.
    unfold flattened, arg2; cbn [nth]. apply S. cbn [valid].
    assert (0 < c) by nia. assert (0 < w) by nia.
    repeat split; try apply Z.mod_pos_bound; try lia.
    - apply Z.div_pos; nia.
    - apply Z.div_lt_upper_bound; nia.
  Qed.

  (** The scores of an image are a function of that image. *)
  Theorem C86_scores : forall h w c bs hs k X l X' l' j, 0 <= h -> 0 <= w -> 0 <= c -> nonneg (map fst (List.concat bs)) ->
    same_image [h; w; c] X l X' l' -> 0 <= j < fst k ->
    scores W B h w c bs hs k X [l; j] = scores W B h w c bs hs k X' [l'; j].
  Proof using.
    intros h w c bs hs k X l X' l' j Hh Hw Hc Hd S Hj. unfold scores.
    pose proof (blocks_image bs h w c X l X' l' S) as Q.
    assert (Nn : let '(a, b, d, _) := blocks W B h w c bs X in 0 <= a /\ 0 <= b /\ 0 <= d).
    { clear - Hh Hw Hc Hd. revert h w c X Hh Hw Hc Hd. induction bs as [|b bs IH]; intros h w c X Hh Hw Hc Hd; cbn [blocks]; [auto|].
      cbn [List.concat] in Hd. rewrite map_app in Hd. apply Forall_app in Hd. destruct Hd as [Hb Hd].
      pose proof (convs_chan W B h w b c X) as Ec. destruct (convs W B h w c b X) as [d Y]. cbn [fst] in Ec.
      apply IH; auto; try (apply Z.div_pos; lia). subst d. clear - Hb Hc. unfold chan. revert c Hc. induction b as [|u b IH]; intros c Hc; [exact Hc|].
      cbn [fold_left]. cbn [map] in Hb. apply Forall_cons_iff in Hb. destruct Hb as [Hu Hb]. apply IH; auto. }
    destruct (blocks W B h w c bs X) as [[[a b] d] Y]. destruct (blocks W B h w c bs X') as [[[a' b'] d'] Y'].
    destruct Q as (-> & -> & -> & Q). destruct Nn as (Ha & Hb & Hdd).
    pose proof (hidden_image hs (a * b * d) _ l _ l' (flattened_image a b d Y l Y' l' Ha Hb Hdd Q)) as Q2.
    destruct (hidden W B (a * b * d) hs (flattened a b d Y)) as [n Z1]. destruct (hidden W B (a * b * d) hs (flattened a b d Y')) as [n' Z2].
    destruct Q2 as [-> Q2]. apply (affine_image n (fst k) _ _ Z1 l Z2 l' Q2 [j]). cbn. auto.
  Qed.
End Net.

(** There is one list of the [m] largest entries. *)
Lemma lists_top_ext : forall n P Q L, (forall i, 0 <= i < n -> P i = Q i) -> lists_top n P L -> lists_top n Q L.
Proof.
  intros n P Q L E (N & I & S & T). split; [exact N|]. split; [exact I|]. split.
  - intros p q i j H Hi Hj. rewrite <- !E by (apply I; eapply nth_error_In; eauto). apply (S p q); auto.
  - intros i j Hi Hj NI. rewrite <- !E by auto. apply T; auto.
Qed.

Lemma lists_top_unique : forall n P L L', lists_top n P L -> lists_top n P L' -> List.length L = List.length L' -> L = L'.
Proof.
  intros n P L L' H H' Hl.
  assert (G : forall L L' k, lists_top n P L -> lists_top n P L' -> List.length L = List.length L' ->
    (forall q, (q < k)%nat -> nth_error L q = nth_error L' q) -> forall i j, nth_error L k = Some i -> nth_error L' k = Some j ->
    i = j \/ ((P j < P i)%R \/ P i = P j /\ j < i)).
  { clear. intros L L' k (N & I & S & T) (N' & I' & S' & T') Hl Pre i j Hi Hj.
    destruct (Z.eq_dec i j) as [->|Ne]; [auto|right].
    destruct (in_dec Z.eq_dec j L) as [Hin|Hni].
    - apply In_nth_error in Hin. destruct Hin as [q Hq]. destruct (lt_eq_lt_dec q k) as [[Lt|Eq]|Gt].
      + exfalso. assert (nth_error L' q = Some j) by (rewrite <- Pre by exact Lt; exact Hq).
        assert (q = k); [|lia]. apply (proj1 (NoDup_nth_error L') N' q k); [apply nth_error_Some; congruence|congruence].
      + congruence.
      + apply (S k q); auto.
    - apply T; auto. eapply nth_error_In; eauto. apply I'. eapply nth_error_In; eauto. }
  assert (Q : forall k q, (q < k)%nat -> nth_error L q = nth_error L' q).
  { induction k as [|k IH]; intros q Hq; [lia|]. destruct (Nat.eq_dec q k) as [->|]; [|apply IH; lia].
    destruct (nth_error L k) as [i|] eqn:Ei.
    - destruct (nth_error L' k) as [j|] eqn:Ej.
      + destruct (G L L' k H H' Hl IH i j Ei Ej) as [->|A]; [reflexivity|].
        destruct (G L' L k H' H (eq_sym Hl) (fun q Hq => eq_sym (IH q Hq)) j i Ej Ei) as [->|A']; [reflexivity|].
        exfalso. destruct A as [A|[A A1]], A' as [A'|[A' A2]]; try lra; lia.
      + apply nth_error_None in Ej. assert (k < List.length L)%nat by (apply nth_error_Some; congruence). lia.
    - apply nth_error_None in Ei. symmetry. apply nth_error_None. lia. }
  clear - Q. revert L' Q. induction L as [|a L IH]; intros L' Q.
  - specialize (Q 1%nat 0%nat ltac:(lia)). destruct L'; [reflexivity|discriminate].
  - pose proof (Q 1%nat 0%nat ltac:(lia)) as Q0. destruct L' as [|a' L']; [discriminate|]. cbn in Q0. inversion Q0; subst a'. f_equal.
    apply IH. intros k q Hq. apply (Q (S k) (S q)). lia.
Qed.

(** The network program answers for the first image, whatever else is in the
    batch and however large the batch is. *)
Section Program.
  Context {V : Type} (dt : dtype V R) (di : dtype V Z) (eps lowest : R) (e : engine)
    (p : string -> tensor -> M V unit) (W B : string -> list Z -> R).
  Context (Lo : (lowest <= 0)%R).

  (** Two results show the same [k] values and classes. *)
  Definition same_answer (k : Z) (yz : tensor * tensor) (s : st V) (yz' : tensor * tensor) (s' : st V) : Prop :=
    forall q, 0 <= q < k -> exists v i,
      cells s (addr (fst yz) [q]) = Init (emb dt v) /\ cells s' (addr (fst yz') [q]) = Init (emb dt v) /\
      cells s (addr (snd yz) [q]) = Init (emb di i) /\ cells s' (addr (snd yz') [q]) = Init (emb di i).

  Theorem C86_network : forall bs hs k m n n' h w c s s' x x' X X',
    1 <= n -> 1 <= n' -> 1 <= h -> h + 3 < 2 ^ 32 -> 1 <= w -> w + 3 < 2 ^ 32 -> 1 <= c -> 0 <= m < 2 ^ 31 ->
    (2 ^ Z.of_nat (List.length bs) | h) -> (2 ^ Z.of_nat (List.length bs) | w) ->
    blocks_ok dt p W B h w c bs ->
    (let '(h', w', c', _) := blocks W B h w c bs X in
     hidden_ok dt p W B (h' * w' * c') hs /\
     param_ok dt p W B (snd k) [chan (h' * w' * c') hs; fst k] (fst k)) ->
    input dt s x ([n; h; w; c], X) -> input dt s' x' ([n'; h; w; c], X') ->
    same_image [h; w; c] X 0 X' 0 ->
    exists yz yz' s1 s1',
      vgg_model dt di Rsc exp eps lowest e p bs hs k m x s = Ok yz s1 /\
      vgg_model dt di Rsc exp eps lowest e p bs hs k m x' s' = Ok yz' s1' /\
      same_answer (Z.min (fst k) m) yz s1 yz' s1'.
  Proof using Lo.
    intros bs hs k m n n' h w c s s' x x' X X' Hn Hn' Hh Fh Hw Fw Hc Hm Dh Dw HB HH I I' Same.
    assert (HH' : let '(h', w', c', _) := blocks W B h w c bs X' in
      hidden_ok dt p W B (h' * w' * c') hs /\ param_ok dt p W B (snd k) [chan (h' * w' * c') hs; fst k] (fst k)).
    { pose proof (blocks_image W B bs h w c X 0 X' 0 Same) as Q.
      destruct (blocks W B h w c bs X) as [[[a b] d] Y]. destruct (blocks W B h w c bs X') as [[[a' b'] d'] Y'].
      destruct Q as (-> & -> & -> & _). exact HH. }
    destruct (C80_network dt di eps lowest e p W B Lo bs hs k m n h w c s x X Hn Hh Fh Hw Fw Hc Hm Dh Dw HB HH I)
      as (y & z & s1 & L & R1 & _ & _ & _ & Ln & T1 & C1).
    destruct (C80_network dt di eps lowest e p W B Lo bs hs k m n' h w c s' x' X' Hn' Hh Fh Hw Fw Hc Hm Dh Dw HB HH' I')
      as (y' & z' & s1' & L' & R2 & _ & _ & _ & Ln' & T2 & C2).
    exists (y, z), (y', z'), s1, s1'. split; [exact R1|]. split; [exact R2|].
    set (P := softmax_fn eps (fst k) (fun j => scores W B h w c bs hs k X [0; j])) in *.
    set (P' := softmax_fn eps (fst k) (fun j => scores W B h w c bs hs k X' [0; j])) in *.
    assert (Nn : nonneg (map fst (List.concat bs))).
    { clear - HB. revert h w c HB. induction bs as [|b bs IH]; intros h w c HB; cbn [List.concat]; [constructor|].
      rewrite map_app. apply Forall_app. destruct HB as (_ & Hb & HB). split; [|eapply IH; eauto].
      clear - Hb. revert c Hb. induction b as [|[d nm] b IH]; intros c Hb; cbn [map fst]; [constructor|].
      destruct Hb as (_ & (Hd & _) & Hb). constructor; [lia|eapply IH; eauto]. }
    assert (E : forall i, 0 <= i < fst k -> P' i = P i).
    { intros i Hi. unfold P, P', softmax_fn. rewrite (C86_scores W B h w c bs hs k X 0 X' 0 i); auto; try lia.
      do 2 f_equal. unfold rsum. apply sum_over_ext. intros j Hj. apply in_zrange in Hj. f_equal. symmetry.
      apply (C86_scores W B h w c bs hs k X 0 X' 0 j); auto; lia. }
    assert (EL : L' = L).
    { apply (lists_top_unique (fst k) P); auto; [|lia]. apply (lists_top_ext (fst k) P'); auto. }
    subst L'. intros q Hq. destruct (nth_error L (Z.to_nat q)) as [i|] eqn:Ei; [|apply nth_error_None in Ei; lia].
    destruct (C1 _ _ Ei) as [A1 A2]. destruct (C2 _ _ Ei) as [A3 A4]. rewrite Z2Nat.id in A1, A2, A3, A4 by lia.
    exists (P i), i. rewrite E in A3 by (destruct T1 as (_ & In1 & _); apply In1; eapply nth_error_In; eauto). auto.
  Qed.

  Theorem C86_vgg16 : forall m n n' h w s s' x x' X X',
    1 <= n -> 1 <= n' -> 1 <= h -> 1 <= w -> (32 | h) -> (32 | w) -> h * w * 64 <= 2 ^ 31 -> 0 <= m < 2 ^ 31 ->
    (forall name c d, In (name, c, d) vgg16_table ->
       fills dt (p (name ++ "_W")%string) [3; 3; c; d] (W name) /\ fills dt (p (name ++ "_b")%string) [d] (B name)) ->
    (forall name l d, In (name, l, d) [("fc6", h / 32 * (w / 32) * 512, 4096); ("fc7", 4096, 4096); ("fc8", 4096, 1000)]%string ->
       fills dt (p (name ++ "_W")%string) [l; d] (W name) /\ fills dt (p (name ++ "_b")%string) [d] (B name)) ->
    input dt s x ([n; h; w; 3], X) -> input dt s' x' ([n'; h; w; 3], X') ->
    same_image [h; w; 3] X 0 X' 0 ->
    exists yz yz' s1 s1',
      vgg16_model dt di Rsc exp eps lowest e p m x s = Ok yz s1 /\
      vgg16_model dt di Rsc exp eps lowest e p m x' s' = Ok yz' s1' /\
      same_answer (Z.min 1000 m) yz s1 yz' s1'.
  Proof using Lo.
    intros m n n' h w s s' x x' X X' Hn Hn' Hh Hw Dh Dw Hs Hm HC HF I I' Same.
    assert (Bh : h + 3 < 2 ^ 32) by nia. assert (Bw : w + 3 < 2 ^ 32) by nia.
    apply (C86_network vgg16_blocks vgg16_hidden vgg16_classes m n n' h w 3 s s' x x' X X'); auto; try lia.
    - apply vgg16_blocks_ok; auto.
    - assert (EB : exists Y, blocks W B h w 3 vgg16_blocks X = (h / 32, w / 32, 512, Y)).
      { eexists. cbn [blocks vgg16_blocks convs]. rewrite !Zdiv_Zdiv by lia. reflexivity. }
      destruct EB as (Y & ->). cbn [hidden_ok vgg16_hidden vgg16_classes chan fold_left fst snd]. unfold param_ok.
      pose proof (HF "fc6"%string _ _ (or_introl eq_refl)). pose proof (HF "fc7"%string _ _ (or_intror (or_introl eq_refl))).
      pose proof (HF "fc8"%string _ _ (or_intror (or_intror (or_introl eq_refl)))).
      repeat split; try lia; tauto.
  Qed.
End Program.

(** The image of [C16_case] as second image of a batch; the values are those of
    [C16_case]. *)
Example C86_case_conv :
  run (conv_nhwc zt zt Zsc Builtin exC (T_ 2 [2; 2; 2; 2]) (T_ 0 [2; 3; 3; 2]) (T_ 1 [2; 2; 2; 2]))
      (demo [repeat 7 18 ++ x_nhwc; y_rscd; blank 16]) (mktensor 2 8 [8]) = Some (inits [21; 30; 39; 30; 137; 240; 123; 150]).
Proof. vm_compute. reflexivity. Qed.
Example C86_case_rows :
  run (op_matmul zt Zsc Builtin (T_ 2 [1; 2]) (T_ 0 [1; 2]) (T_ 1 [2; 2])) (demo [[3; 4]; [1; 2; 5; 6]; blank 2]) (T_ 2 [2])
    = Some (inits [23; 30]) /\
  run (op_matmul zt Zsc Builtin (T_ 2 [3; 2]) (T_ 0 [3; 2]) (T_ 1 [2; 2]))
      (demo [[9; 9; 3; 4; 8; 1]; [1; 2; 5; 6]; blank 6]) (mktensor 2 2 [2]) = Some (inits [23; 30]).
Proof. vm_compute. auto. Qed.
(** A network whose two convolved channels are pooled and added up, on two
    batches with the same first image. *)
Example C86_case_scores :
  let X ix := IZR (match ix with [l; i; j; k] => if l =? 0 then 2 * i + j else 100 | _ => 0 end) in
  let X' ix := IZR (match ix with [l; i; j; k] => 2 * i + j | _ => 0 end) in
  forall W B j, 0 <= j < 3 ->
    scores W B 2 2 1 [[(2, "a"%string)]] [(4, "b"%string)] (3, "c"%string) X [0; j] =
    scores W B 2 2 1 [[(2, "a"%string)]] [(4, "b"%string)] (3, "c"%string) X' [0; j].
Proof.
  intros X X' W B j Hj. apply C86_scores; try lia; auto.
  - repeat constructor; cbn; lia.
  - intros [|i [|k [|c [|? ?]]]] H; cbn [valid] in H; first [tauto | reflexivity].
Qed.

Print Assumptions C86_conv_nhwc.
Print Assumptions C86_conv_nchw.
Print Assumptions C86_pool_nhwc.
Print Assumptions C86_pool_nchw.
Print Assumptions C86_matmul.
Print Assumptions C86_add_bias.
Print Assumptions C86_bn.
Print Assumptions C86_argmax.
Print Assumptions C86_softmax.
Print Assumptions C86_scores.
Print Assumptions C86_network.
Print Assumptions C86_vgg16.
