(** Properties C11-C20: im2col, col2im and 2-D convolution. *)
From Coq Require Import ZArith List Bool Lia ZifyBool.
From Verif Require Import Base BaseFacts TensorFacts Traits TraitsSpec TraitsFacts Scalar LinAlg LinAlgFacts
  SumFacts GradSpec Conv ConvSpec ConvFacts ConvGradFacts Demo.
Import ListNotations.
Open Scope Z_scope.

Section Props.
  Context {V T : Type} (dt : dtype V T) (di : dtype V Z) (sc : scalar T).
  Notation zero := (s0 sc).

  (** *** C11: the three layouts of im2col.  [zpad] is the image extended by
      zeros, [wpos] the coordinate i*s + u*r - pl; [writes] says normal
      termination (hence no access out of bounds), every cell of [y] written,
      nothing else changed. *)
  Theorem C11_hwrs : forall H W y x h w h' w' X s,
    axis_ok H h h' -> axis_ok W w w' ->
    tdims x = [h; w] -> tdims y = [h'; w'; ksize (sfilter H); ksize (sfilter W)] ->
    holds dt s x X -> mapped s y -> disjoint y x ->
    writes dt (im2col_hwrs dt sc H W y x) s y
      (arg4 (fun i j u v => zpad zero h w (fun p q => X [p; q]) (wpos H i u) (wpos W j v))).
  Proof. exact (im2col_hwrs_writes dt sc). Qed.

  Theorem C11_rshw : forall H W y x h w h' w' X s,
    axis_ok H h h' -> axis_ok W w w' ->
    tdims x = [h; w] -> tdims y = [ksize (sfilter H); ksize (sfilter W); h'; w'] ->
    holds dt s x X -> mapped s y -> disjoint y x ->
    writes dt (im2col_rshw dt sc H W y x) s y
      (arg4 (fun u v i j => zpad zero h w (fun p q => X [p; q]) (wpos H i u) (wpos W j v))).
  Proof. exact (im2col_rshw_writes dt sc). Qed.

  Theorem C11_hwrsc : forall H W y x h w c h' w' X s,
    axis_ok H h h' -> axis_ok W w w' -> 0 <= c ->
    tdims x = [h; w; c] -> tdims y = [h'; w'; ksize (sfilter H); ksize (sfilter W); c] ->
    holds dt s x X -> mapped s y -> disjoint y x ->
    writes dt (im2col_hwrsc dt sc H W y x) s y
      (arg5 (fun i j u v k => zpad zero h w (fun p q => X [p; q; k]) (wpos H i u) (wpos W j v))).
  Proof. exact (im2col_hwrsc_writes dt sc). Qed.

  (** The shapes above are the ones computed by the shape functions. *)
  Theorem C11_shapes : forall H W h w c h' w',
    axis_ok H h h' -> axis_ok W w w' ->
    let r := ksize (sfilter H) in let s := ksize (sfilter W) in
    im2col_hwrs_shape H W [h; w] = Ret [h'; w'; r; s] /\
    im2col_rshw_shape H W [h; w] = Ret [r; s; h'; w'] /\
    im2col_hwrsc_shape H W [h; w; c] = Ret [h'; w'; r; s; c].
  Proof.
    intros H W h w c h' w' AH AW r s. unfold im2col_hwrs_shape, im2col_rshw_shape, im2col_hwrsc_shape.
    cbn [multi_shape nth]. rewrite (axis_len _ _ _ AH), (axis_len _ _ _ AW). repeat split.
  Qed.

  (** *** C12: the batched im2col through the int table produces the column
      tensor [Y]; image [l] of it is what the direct im2col writes for image [l]. *)
  Theorem C12_idx_map : forall H W y x n h w c h' w' X s,
    axis_ok H h h' -> axis_ok W w w' -> 0 <= n -> 0 <= c -> h * w * c <= 2 ^ 31 ->
    tdims x = [n; h; w; c] -> tdims y = [n; h'; w'; ksize (sfilter H); ksize (sfilter W); c] ->
    fresh_ok s -> holds dt s x X -> mapped s y -> disjoint y x ->
    exists Y,
      writes dt (im2col_nhwc dt di sc H W y x) s y Y /\
      forall l, 0 <= l < n -> writes dt (im2col_hwrsc dt sc H W (sub y l) (sub x l)) s (sub y l) (fun ix => Y (l :: ix)).
  Proof.
    intros H W y x n h w c h' w' X s AH AW Hn Hc Hsz Ex Ey Hf HX HY D.
    exists (arg6 (fun l i j u v k => zpad zero h w (fun p q => X [l; p; q; k]) (wpos H i u) (wpos W j v))).
    pose proof (axis_m _ _ _ AH). pose proof (axis_m _ _ _ AW).
    pose proof (axis_k _ _ _ AH). pose proof (axis_k _ _ _ AW).
    pose proof (axis_n _ _ _ AH). pose proof (axis_n _ _ _ AW).
    assert (Dx : dims_ok x) by (unfold dims_ok; rewrite Ex; repeat constructor; lia).
    assert (Dy : dims_ok y) by (unfold dims_ok; rewrite Ey; repeat constructor; lia).
    split.
    - eapply writes_ext; [reflexivity| |eapply (im2col_nhwc_writes dt di sc H W y x n h w c h' w'); eauto; lia].
      intros ix Hix. rewrite Ey in Hix. eapply gather_spec_n_small; eauto.
    - intros l Hl.
      eapply writes_ext; [reflexivity| |eapply (im2col_hwrsc_writes dt sc H W (sub y l) (sub x l) h w c h' w'
         (fun ix => X (l :: ix))); eauto using tdims_sub].
      + intros ix Hix. rewrite (tdims_sub _ _ _ _ Ey) in Hix. apply valid_5 in Hix.
        destruct Hix as (i & j & u & v & k & -> & _). reflexivity.
      + eapply holds_sub; eauto.
      + eapply mapped_sub; eauto.
      + eapply disjoint_sub_l; eauto. eapply disjoint_sub_r; eauto.
  Qed.

  (** *** C13: col2im sums, for each pixel, the column cells that sample it. *)
  Theorem C13_col2im : forall H W y x h w c h' w' X s,
    axis_ok H h h' -> axis_ok W w w' -> 0 <= c ->
    let r := ksize (sfilter H) in let q := ksize (sfilter W) in
    tdims x = [h'; w'; r; q; c] -> tdims y = [h; w; c] ->
    holds dt s x X -> mapped s y -> disjoint y x ->
    writes dt (col2im dt sc H W y x) s y
      (arg3 (fun a b k =>
         sum_over sc (List.filter (arg4 (fun i j u v => (wpos H i u =? a) && (wpos W j v =? b)))
                                  (indices [h'; w'; r; q]))
                  (arg4 (fun i j u v => X [i; j; u; v; k])))).
  Proof. exact (col2im_writes dt sc). Qed.

  (** *** C14: the two kernels are adjoint. *)
  Theorem C14_adjoint : ring_laws sc -> forall H W x cx c y h w n h' w' X C s,
    axis_ok H h h' -> axis_ok W w w' -> 0 <= n ->
    let cols := [h'; w'; ksize (sfilter H); ksize (sfilter W); n] in
    tdims x = [h; w; n] -> tdims cx = cols -> tdims c = cols -> tdims y = [h; w; n] ->
    holds dt s x X -> holds dt s c C -> mapped s cx -> mapped s y -> disjoint cx x -> disjoint y c ->
    exists CX Y,
      writes dt (im2col_hwrsc dt sc H W cx x) s cx CX /\
      writes dt (col2im dt sc H W y c) s y Y /\
      inner sc cols CX C = inner sc [h; w; n] X Y.
  Proof.
    intros laws H W x cx c y h w n h' w' X C s AH AW Hn cols Ex Ecx Ec Ey HX HC Mcx My D1 D2.
    eexists _, _. split; [eapply im2col_hwrsc_writes; eauto|]. split; [eapply col2im_writes; eauto|].
    apply (im2col_adjoint sc laws).
  Qed.

  (** *** C15: the shape of col2im inverts the shape of im2col. *)
  Theorem C15_shape_inverse : forall H W h w c cols,
    0 <= left_ (spadding H) -> 0 <= right_ (spadding H) -> 0 <= left_ (spadding W) -> 0 <= right_ (spadding W) ->
    1 <= ksize (sfilter H) -> 1 <= stride (sfilter H) -> 1 <= rate (sfilter H) ->
    1 <= ksize (sfilter W) -> 1 <= stride (sfilter W) -> 1 <= rate (sfilter W) ->
    0 <= h -> 0 <= w ->
    left_ (spadding H) + h + right_ (spadding H) < 2 ^ 32 -> span (ksize (sfilter H)) (rate (sfilter H)) < 2 ^ 32 ->
    left_ (spadding W) + w + right_ (spadding W) < 2 ^ 32 -> span (ksize (sfilter W)) (rate (sfilter W)) < 2 ^ 32 ->
    im2col_hwrsc_shape H W [h; w; c] = Ret cols -> col2im_shape H W cols = Ret [h; w; c].
  Proof.
    intros [[kh sh rh] [plh prh]] [[kw sw rw] [plw prw]] h w c cols;
      cbn [sfilter spadding ksize stride rate left_ right_]. intros.
    match goal with E : im2col_hwrsc_shape _ _ _ = _ |- _ => revert E end.
    unfold im2col_hwrsc_shape; cbn [nth multi_shape].
    destruct (sample_len U32 _ h) as [h'|e|] eqn:Eh; cbn [obind]; try discriminate.
    destruct (sample_len U32 _ w) as [w'|e|] eqn:Ew; cbn [obind]; try discriminate.
    intros Q. injection Q as <-. apply (col2im_shape_ok (mksample (mkfilter kh sh rh) (mkpadding plh prh))
      (mksample (mkfilter kw sw rw) (mkpadding plw prw)) h w c h' w'); apply len_axis; auto.
  Qed.

  (** *** C16: convolution, channels last.  The sum runs over (u, v, k) in
      row-major order; no law on the scalars (builtin engine). *)
  Theorem C16_conv_nhwc : forall e C z x y n h w c r s d h' w' X Y st,
    let H := axis_of (h_trait C) r in let W := axis_of (w_trait C) s in
    axis_ok H h h' -> axis_ok W w w' -> 0 <= n -> 0 <= c -> 0 <= d -> h * w * c <= 2 ^ 31 ->
    engine_ok sc e [n; c; d] ->
    tdims x = [n; h; w; c] -> tdims y = [r; s; c; d] -> tdims z = [n; h'; w'; d] ->
    fresh_ok st -> holds dt st x X -> holds dt st y Y -> mapped st z -> disjoint z x -> disjoint z y ->
    writes dt (conv_nhwc dt di sc e C z x y) st z
      (arg4 (fun l i j t =>
         sum_over sc (indices [r; s; c]) (arg3 (fun u v k =>
           smul sc (zpad zero h w (fun p q => X [l; p; q; k]) (wpos H i u) (wpos W j v))
                   (Y [u; v; k; t]))))).
  Proof. exact (conv_nhwc_writes dt di sc). Qed.

  (** *** C17: convolution, channels first. *)
  Theorem C17_conv_nchw : forall e C z x y n h w c r s d h' w' X Y st,
    let H := axis_of (h_trait C) r in let W := axis_of (w_trait C) s in
    axis_ok H h h' -> axis_ok W w w' -> 0 <= n -> 0 <= c -> 0 <= d ->
    engine_ok sc e [c; d] ->
    tdims x = [n; c; h; w] -> tdims y = [d; c; r; s] -> tdims z = [n; d; h'; w'] ->
    fresh_ok st -> holds dt st x X -> holds dt st y Y -> mapped st z -> disjoint z x -> disjoint z y ->
    writes dt (conv_nchw dt sc e C z x y) st z
      (arg4 (fun l t i j =>
         sum_over sc (indices [c; r; s]) (arg3 (fun k u v =>
           smul sc (Y [t; k; u; v])
                   (zpad zero h w (fun p q => X [l; k; p; q]) (wpos H i u) (wpos W j v)))))).
  Proof. exact (conv_nchw_writes dt sc). Qed.

  (** *** C18: on transposed images and filters the two layouts give transposed
      results. *)
  Theorem C18_layouts : ring_laws sc -> forall e e' C z x y z' x' y' n h w c r s d h' w' X Y st,
    axis_ok (axis_of (h_trait C) r) h h' -> axis_ok (axis_of (w_trait C) s) w w' ->
    0 <= n -> 0 <= c -> 0 <= d -> h * w * c <= 2 ^ 31 -> engine_ok sc e [n; c; d] -> engine_ok sc e' [n; c; d] ->
    tdims x = [n; h; w; c] -> tdims y = [r; s; c; d] -> tdims z = [n; h'; w'; d] ->
    tdims x' = [n; c; h; w] -> tdims y' = [d; c; r; s] -> tdims z' = [n; d; h'; w'] ->
    fresh_ok st -> holds dt st x X -> holds dt st y Y ->
    holds dt st x' (arg4 (fun l k p q => X [l; p; q; k])) ->
    holds dt st y' (arg4 (fun t k u v => Y [u; v; k; t])) ->
    mapped st z -> disjoint z x -> disjoint z y -> mapped st z' -> disjoint z' x' -> disjoint z' y' ->
    exists Z,
      writes dt (conv_nhwc dt di sc e C z x y) st z Z /\
      writes dt (conv_nchw dt sc e' C z' x' y') st z' (arg4 (fun l t i j => Z [l; i; j; t])).
  Proof.
    intros laws e e' C z x y z' x' y' n h w c r s d h' w' X Y st AH AW Hn Hc Hd Hsz He He'
      Ex Ey Ez Ex' Ey' Ez' Hf HX HY HX' HY' Mz Dx Dy Mz' Dx' Dy'.
    eexists. split.
    - eapply (conv_nhwc_writes dt di sc e C z x y n h w c r s d h' w'); eauto.
    - eapply writes_ext; [reflexivity| |eapply (conv_nchw_writes dt sc e' C z' x' y' n h w c r s d h' w'); eauto].
      + intros ix Hix. rewrite Ez' in Hix. apply valid_4 in Hix.
        destruct Hix as (l & t & i & j & -> & _). unfold arg4 at 3; cbn [nth].
        apply (conv_layouts sc laws).
      + eapply engine_ok_weaken; eauto. intros Q. inversion Q; auto.
  Qed.

  (** *** C19: shape inference.  [nhwc] is used with [rscd] and [nchw] with [dcrs]. *)
  Definition fo_of (io : order) : filter_order := match io with nchw => dcrs | _ => rscd end.

  Theorem C19_infer : forall C io n h w c c' r s d,
    io = nhwc \/ io = nchw ->
    axis_fits (h_trait C) h r -> axis_fits (w_trait C) w s ->
    let x := batched_image_shape io n [h; w] c in
    let y := conv_filter_shape (fo_of io) c' [r; s] d in
    (forall z, conv_infer C io (fo_of io) x y = Ret z <->
       c = c' /\ exists h' w', axis_ok (axis_of (h_trait C) r) h h' /\ axis_ok (axis_of (w_trait C) s) w w' /\
         z = batched_image_shape io n [h'; w'] d) /\
    (c <> c' -> conv_infer C io (fo_of io) x y = Exn RuntimeError) /\
    (c = c' -> ((forall h', ~ axis_ok (axis_of (h_trait C) r) h h') \/
                (forall w', ~ axis_ok (axis_of (w_trait C) s) w w')) ->
     conv_infer C io (fo_of io) x y = Exn InvalidArgument).
  Proof.
    intros C io n h w c c' r s d Hio FH FW x y.
    destruct (lconv_len_iff _ _ _ FH) as [H1 H2]. destruct (lconv_len_iff _ _ _ FW) as [W1 W2].
    assert (E : conv_infer C io (fo_of io) x y =
      obind (ocontract (c' =? c)) (fun _ => obind (lconv_len (h_trait C) h r) (fun h' =>
        obind (lconv_len (w_trait C) w s) (fun w' => Ret (batched_image_shape io n [h'; w'] d))))).
    { destruct Hio as [-> | ->]; reflexivity. }
    rewrite E. clear E. destruct (Z.eqb_spec c' c) as [->|Ne]; cbn [ocontract obind].
    - split; [|split; [congruence|]].
      + intros z. split.
        * destruct (lconv_len (h_trait C) h r) as [h'|?|] eqn:Eh; cbn [obind]; try discriminate.
          destruct (lconv_len (w_trait C) w s) as [w'|?|] eqn:Ew; cbn [obind]; try discriminate.
          intros Q. injection Q as <-. split; auto. exists h', w'.
          split; [apply H1; auto|]. split; [apply W1; auto|]. reflexivity.
        * intros [_ (h' & w' & A & B & ->)]. apply H1 in A. apply W1 in B. rewrite A. cbn [obind].
          rewrite B. reflexivity.
      + intros _ [N|N].
        * rewrite (H2 N). reflexivity.
        * destruct (lconv_len_total _ _ _ FH) as [[h' Eh]|Eh]; rewrite Eh; cbn [obind]; [|reflexivity].
          rewrite (W2 N). reflexivity.
    - split; [|split; [reflexivity|congruence]].
      intros z. split; [discriminate|]. intros [-> _]. congruence.
  Qed.

  (** The kernels accept exactly the inferred shapes: they terminate normally and
      write only [z]. *)
  Theorem C19_kernels_total : forall C n h w c r s d zs X Y st z x y,
    axis_fits (h_trait C) h r -> axis_fits (w_trait C) w s ->
    0 <= n -> 0 <= c -> 0 <= d ->
    fresh_ok st -> holds dt st x X -> holds dt st y Y -> mapped st z -> disjoint z x -> disjoint z y ->
    (h * w * c <= 2 ^ 31 -> tdims x = [n; h; w; c] -> tdims y = [r; s; c; d] ->
     conv_infer C nhwc rscd (tdims x) (tdims y) = Ret zs -> tdims z = zs ->
     exists Z, writes dt (conv_nhwc dt di sc Builtin C z x y) st z Z) /\
    (tdims x = [n; c; h; w] -> tdims y = [d; c; r; s] ->
     conv_infer C nchw dcrs (tdims x) (tdims y) = Ret zs -> tdims z = zs ->
     exists Z, writes dt (conv_nchw dt sc Builtin C z x y) st z Z).
  Proof.
    intros C n h w c r s d zs X Y st z x y FH FW Hn Hc Hd Hf HX HY Mz Dx Dy. split.
    - intros Hsz Ex Ey I Ez. rewrite Ex, Ey in I.
      apply (proj1 (C19_infer C nhwc n h w c c r s d (or_introl eq_refl) FH FW)) in I.
      destruct I as [_ (h' & w' & AH & AW & ->)].
      eexists. eapply (conv_nhwc_writes dt di sc Builtin C z x y n h w c r s d h' w'); eauto; exact I.
    - intros Ex Ey I Ez. rewrite Ex, Ey in I.
      apply (proj1 (C19_infer C nchw n h w c c r s d (or_intror eq_refl) FH FW)) in I.
      destruct I as [_ (h' & w' & AH & AW & ->)].
      eexists. eapply (conv_nchw_writes dt sc Builtin C z x y n h w c r s d h' w'); eauto; exact I.
  Qed.

  (** *** C20: the gradient kernels write the vector-Jacobian products. *)
  Theorem C20_grad_x : ring_laws sc -> forall e C gx gz y n h w c r s d h' w' GZ Y st,
    let H := axis_of (h_trait C) r in let W := axis_of (w_trait C) s in
    axis_ok H h h' -> axis_ok W w w' -> 0 <= n -> 0 <= c -> 0 <= d ->
    engine_ok sc e [n; c; d] ->
    tdims gx = [n; h; w; c] -> tdims y = [r; s; c; d] -> tdims gz = [n; h'; w'; d] ->
    fresh_ok st -> holds dt st gz GZ -> holds dt st y Y -> mapped st gx -> disjoint gx gz -> disjoint gx y ->
    exists GX, writes dt (conv_grad_x dt sc e C gx gz y) st gx GX /\
      is_vjp sc [n; h'; w'; d] [n; h; w; c] (fun X => conv_spec_nhwc sc H W h w r s c X Y) GZ GX.
  Proof.
    intros laws e C gx gz y n h w c r s d h' w' GZ Y st H W AH AW Hn Hc Hd He Ex Ey Ez Hf HZ HY HX D1 D2.
    eexists. split; [eapply (conv_grad_x_writes dt sc e C gx gz y n h w c r s d h' w'); eauto|].
    apply (conv_gx_vjp sc laws).
  Qed.

  Theorem C20_grad_y : ring_laws sc -> forall e C gy gz x n h w c r s d h' w' GZ X st,
    let H := axis_of (h_trait C) r in let W := axis_of (w_trait C) s in
    axis_ok H h h' -> axis_ok W w w' -> 0 <= n -> 0 <= c -> 0 <= d ->
    engine_ok sc e [n; c; d] ->
    tdims x = [n; h; w; c] -> tdims gy = [r; s; c; d] -> tdims gz = [n; h'; w'; d] ->
    fresh_ok st -> holds dt st gz GZ -> holds dt st x X -> mapped st gy -> disjoint gy gz -> disjoint gy x ->
    exists GY, writes dt (conv_grad_y dt sc e C gy gz x) st gy GY /\
      is_vjp sc [n; h'; w'; d] [r; s; c; d] (fun Y => conv_spec_nhwc sc H W h w r s c X Y) GZ GY.
  Proof.
    intros laws e C gy gz x n h w c r s d h' w' GZ X st H W AH AW Hn Hc Hd He Ex Ey Ez Hf HZ HX HY D1 D2.
    eexists. split; [eapply (conv_grad_y_writes dt sc e C gy gz x n h w c r s d h' w'); eauto|].
    apply (conv_gy_vjp sc laws).
  Qed.
End Props.

(** *** The bound of C12 is needed: with more than 2^31 elements per image the
    table stores negative ints, and those cells come out as 0.  Exact statement,
    then a witness (1 x 1 image with 2^31 + 1 channels, all ones). *)
Theorem C12_beyond_int : forall {V T} (dt : dtype V T) (di : dtype V Z) (sc : scalar T)
    H W y x n h w c h' w' X s,
  axis_ok H h h' -> axis_ok W w w' -> 0 <= n -> 0 <= c -> h * w * c <= 2 ^ 32 ->
  tdims x = [n; h; w; c] -> tdims y = [n; h'; w'; ksize (sfilter H); ksize (sfilter W); c] ->
  fresh_ok s -> holds dt s x X -> mapped s y -> disjoint y x ->
  writes dt (im2col_nhwc dt di sc H W y x) s y
    (arg6 (fun l i j u v k => zpad (s0 sc) h w
       (fun p q => if (p * w + q) * c + k <? 2 ^ 31 then X [l; p; q; k] else s0 sc) (wpos H i u) (wpos W j v))).
Proof.
  intros. eapply writes_ext; [reflexivity| |apply (im2col_nhwc_writes dt di sc H W y x n h w c h' w' X s); auto].
  intros ix Hix. unfold gather_spec_n, arg6, zpad.
  destruct (inb _ _ && inb _ _); auto. cbn [offset prod].
  match goal with |- (if ?a <? _ then _ else _) = (if ?b <? _ then _ else _) =>
    replace a with b by ring end. reflexivity.
Qed.

Definition ones_mem : st Z := mkst (fun p => if (0 <=? fst p) && (fst p <? 2) then Init 1 else Unmapped) 2.
Definition one_tap : sample := mksample (mkfilter 1 1 1) (mkpadding 0 0).

Theorem C12_beyond_int_refuted : exists (x y : tensor) n h w c h' w' s,
  axis_ok one_tap h h' /\ axis_ok one_tap w w' /\ 1 <= n /\ 1 <= c /\
  tdims x = [n; h; w; c] /\ tdims y = [n; h'; w'; 1; 1; c] /\
  fresh_ok s /\ holds zt s x (fun _ => 1) /\ mapped s y /\ disjoint y x /\
  exists s1 s2 ix, valid (tl (tdims y)) ix /\
    im2col_nhwc zt zt Zsc one_tap one_tap y x s = Ok tt s1 /\
    im2col_hwrsc zt Zsc one_tap one_tap (sub y 0) (sub x 0) s = Ok tt s2 /\
    cells s1 (addr y (0 :: ix)) = Init 0 /\ cells s2 (addr y (0 :: ix)) = Init 1.
Proof.
  set (c := 2 ^ 31 + 1).
  assert (A : axis_ok one_tap 1 1) by (unfold axis_ok, valid_config, span; cbn; lia).
  exists (T_ 0 [1; 1; 1; c]), (T_ 1 [1; 1; 1; 1; 1; c]), 1, 1, 1, c, 1, 1, ones_mem.
  assert (F : fresh_ok ones_mem).
  { intros [b o] Hb. unfold ones_mem in *; cbn in *. replace (b <? 2) with false by lia.
    rewrite andb_false_r. reflexivity. }
  assert (HX : holds zt ones_mem (T_ 0 [1; 1; 1; c]) (fun _ => 1)) by (intros ix _; reflexivity).
  assert (HY : mapped ones_mem (T_ 1 [1; 1; 1; 1; 1; c])).
  { intros p [o [_ ->]]. cbn. congruence. }
  assert (D : disjoint (T_ 1 [1; 1; 1; 1; 1; c]) (T_ 0 [1; 1; 1; c])).
  { intros p [o [_ ->]] [o' [_ E]]. discriminate. }
  assert (Cc : 0 <= c) by (unfold c; lia).
  repeat (split; [auto; unfold c; lia|]). 
  destruct (C12_beyond_int zt zt Zsc one_tap one_tap (T_ 1 [1; 1; 1; 1; 1; c]) (T_ 0 [1; 1; 1; c])
    1 1 1 c 1 1 (fun _ => 1) ones_mem) as (s1 & E1 & H1 & _); auto; try (unfold c; lia).
  destruct (im2col_hwrsc_writes zt Zsc one_tap one_tap (sub (T_ 1 [1; 1; 1; 1; 1; c]) 0) (sub (T_ 0 [1; 1; 1; c]) 0)
    1 1 c 1 1 (fun _ => 1) ones_mem) as (s2 & E2 & H2 & _); auto.
  { intros ix _. reflexivity. }
  exists s1, s2, [0; 0; 0; 0; 2 ^ 31].
  assert (Vx : valid [1; 1; 1; 1; c] [0; 0; 0; 0; 2 ^ 31]) by (cbn [valid]; unfold c; lia).
  split; [exact Vx|]. split; [exact E1|]. split; [exact E2|]. split.
  - rewrite (H1 (0 :: [0; 0; 0; 0; 2 ^ 31])); [|split; [lia|exact Vx]]. reflexivity.
  - specialize (H2 [0; 0; 0; 0; 2 ^ 31] Vx). rewrite (addr_sub (T_ 1 [1; 1; 1; 1; 1; c]) 0 1 [1; 1; 1; 1; c]) in H2 by reflexivity.
    rewrite H2. reflexivity.
Qed.

(** *** Concrete cases.  A 3 x 3 image, kernel 2 x 2, stride 2, padding (1, 0) and (0, 1). *)
Definition exH : sample := mksample (mkfilter 2 2 1) (mkpadding 1 0).
Definition exW : sample := mksample (mkfilter 2 2 1) (mkpadding 0 1).
Definition ex_img : list Z := [1; 2; 3; 4; 5; 6; 7; 8; 9].
Definition blank (n : nat) : list Z := repeat 0 n.

Example Conv_axes : axis_ok exH 3 2 /\ axis_ok exW 3 2.
Proof. unfold axis_ok, valid_config, span; cbn. lia. Qed.

Example C11_case :
  run (im2col_hwrs zt Zsc exH exW (T_ 1 [2; 2; 2; 2]) (T_ 0 [3; 3])) (demo [ex_img; blank 16]) (T_ 1 [2; 2; 2; 2])
  = Some (inits [0; 0; 1; 2;  0; 0; 3; 0;  4; 5; 7; 8;  6; 0; 9; 0]) /\
  run (im2col_rshw zt Zsc exH exW (T_ 1 [2; 2; 2; 2]) (T_ 0 [3; 3])) (demo [ex_img; blank 16]) (T_ 1 [2; 2; 2; 2])
  = Some (inits [0; 0; 4; 6;  0; 0; 5; 0;  1; 3; 7; 9;  2; 0; 8; 0]) /\
  run (im2col_hwrsc zt Zsc exH exW (T_ 1 [2; 2; 2; 2; 1]) (T_ 0 [3; 3; 1])) (demo [ex_img; blank 16]) (T_ 1 [2; 2; 2; 2; 1])
  = Some (inits [0; 0; 1; 2;  0; 0; 3; 0;  4; 5; 7; 8;  6; 0; 9; 0]).
Proof. vm_compute. auto. Qed.

Example C12_case :
  run (im2col_nhwc zt zt Zsc exH exW (T_ 1 [1; 2; 2; 2; 2; 1]) (T_ 0 [1; 3; 3; 1])) (demo [ex_img; blank 16]) (T_ 1 [16])
  = Some (inits [0; 0; 1; 2;  0; 0; 3; 0;  4; 5; 7; 8;  6; 0; 9; 0]).
Proof. vm_compute. auto. Qed.

(** Overlapping windows: stride 1. *)
Definition exS : sample := mksample (mkfilter 2 1 1) (mkpadding 0 0).
Example C13_case :
  run (col2im zt Zsc exS exS (T_ 1 [3; 3; 1]) (T_ 0 [2; 2; 2; 2; 1])) (demo [repeat 1 16; blank 9]) (T_ 1 [3; 3; 1])
  = Some (inits [1; 2; 1; 2; 4; 2; 1; 2; 1]) /\ axis_ok exS 3 2.
Proof. split; [vm_compute; reflexivity|]. unfold axis_ok, valid_config, span; cbn. lia. Qed.

Example C15_case : im2col_hwrsc_shape exH exW [3; 3; 4] = Ret [2; 2; 2; 2; 4]
  /\ col2im_shape exH exW [2; 2; 2; 2; 4] = Ret [3; 3; 4].
Proof. vm_compute. auto. Qed.

(** Two channels in, two out: [ex_c2] and its transposed filter. *)
Definition exC : conv_trait := new_conv_ps (mkpadding 1 0) (mkpadding 0 1) 2 2.
Definition x_nhwc : list Z := [1; 10; 2; 20; 3; 30; 4; 40; 5; 50; 6; 60; 7; 70; 8; 80; 9; 90].
Definition x_nchw : list Z := [1; 2; 3; 4; 5; 6; 7; 8; 9; 10; 20; 30; 40; 50; 60; 70; 80; 90].
Definition y_rscd : list Z := [1; 0; 0; 1;  2; 0; 0; 1;  3; 0; 1; 1;  4; 0; 0; 1].
Definition y_dcrs : list Z := [1; 2; 3; 4;  0; 0; 1; 0;  0; 0; 0; 0;  1; 1; 1; 1].
Example C16_case :
  run (conv_nhwc zt zt Zsc Builtin exC (T_ 2 [1; 2; 2; 2]) (T_ 0 [1; 3; 3; 2]) (T_ 1 [2; 2; 2; 2]))
      (demo [x_nhwc; y_rscd; blank 8]) (T_ 2 [8]) = Some (inits [21; 30; 39; 30; 137; 240; 123; 150]).
Proof. vm_compute. reflexivity. Qed.
Example C17_case :
  run (conv_nchw zt Zsc Cblas exC (T_ 2 [1; 2; 2; 2]) (T_ 0 [1; 2; 3; 3]) (T_ 1 [2; 2; 2; 2]))
      (demo [x_nchw; y_dcrs; blank 8]) (T_ 2 [8]) = Some (inits [21; 39; 137; 123; 30; 30; 240; 150]).
Proof. vm_compute. reflexivity. Qed.
Example C19_case : conv_infer exC nhwc rscd [1; 3; 3; 2] [2; 2; 2; 2] = Ret [1; 2; 2; 2]
  /\ conv_infer exC nchw dcrs [1; 2; 3; 3] [5; 2; 2; 2] = Ret [1; 5; 2; 2]
  /\ conv_infer exC nhwc rscd [1; 3; 3; 2] [2; 2; 3; 2] = Exn RuntimeError
  /\ conv_infer exC nhwc rscd [1; 4; 3; 2] [2; 2; 2; 2] = Exn InvalidArgument.
Proof. vm_compute. auto. Qed.
Example C20_case :
  run (conv_grad_x zt Zsc Builtin exC (T_ 2 [1; 3; 3; 2]) (T_ 0 [1; 2; 2; 2]) (T_ 1 [2; 2; 2; 2]))
      (demo [[1; 2; 3; 4; 5; 6; 7; 8]; y_rscd; blank 18]) (T_ 2 [18])
    = Some (inits [3; 3; 4; 2; 9; 7; 5; 6; 10; 6; 7; 8; 15; 11; 20; 6; 21; 15]) /\
  run (conv_grad_y zt Zsc Builtin exC (T_ 2 [2; 2; 2; 2]) (T_ 0 [1; 2; 2; 2]) (T_ 1 [1; 3; 3; 2]))
      (demo [[1; 2; 3; 4; 5; 6; 7; 8]; x_nhwc; blank 16]) (T_ 2 [16])
    = Some (inits [62; 72; 620; 720; 25; 30; 250; 300; 108; 128; 1080; 1280; 42; 52; 420; 520]).
Proof. vm_compute. auto. Qed.

Print Assumptions C11_hwrs.
Print Assumptions C11_rshw.
Print Assumptions C11_hwrsc.
Print Assumptions C11_shapes.
Print Assumptions C12_idx_map.
Print Assumptions C12_beyond_int.
Print Assumptions C12_beyond_int_refuted.
Print Assumptions C13_col2im.
Print Assumptions C14_adjoint.
Print Assumptions C15_shape_inverse.
Print Assumptions C16_conv_nhwc.
Print Assumptions C17_conv_nchw.
Print Assumptions C18_layouts.
Print Assumptions C19_infer.
Print Assumptions C19_kernels_total.
Print Assumptions C20_grad_x.
Print Assumptions C20_grad_y.
