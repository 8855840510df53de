(** Property C96: the example programs. *)
From Coq Require Import ZArith List Bool Lia String ZifyBool.
From Flocq Require Import BinarySingleNaN.
From Verif Require Import Base BaseFacts TensorFacts Traits TraitsSpec TraitsFacts Shapes Scalar LinAlg Conv ConvSpec ConvFacts PropsConv PropsSummary PoolFacts
  Conv1d Conv1dSpec PropsConv1d Elem ElemSpec PropsElem Activation ActivationSpec ActivationFacts RowFacts RealScalar Float FloatNan
  Pool PoolSpec PropsPool PropsDefaults Reshape Layers LayersSpec LayersFacts LayerCalls PropsLayers PropsLayers2
  Programs ProgramsSpec ProgramsFacts ProgramSteps ProgramsRaw Conv1dFacts Demo ConvGradFacts PropsTraits.
Import ListNotations.
Open Scope Z_scope.
Open Scope model_scope.

Section Programs.
  Context {V T : Type} (dt : dtype V T) (di : dtype V Z) (sc : scalar T) (e : engine)
    (init : string -> tensor -> M V unit) (X : string -> list Z -> T) (lowest : T).

  Local Notation filled := (filled dt init X).

  Theorem C96_add : forall n c h w s, 0 <= n -> 0 <= c -> 0 <= h -> 0 <= w -> fresh_ok s ->
    filled [("x", [n; h; w; c]); ("y", [n; h; w; c])]%string ->
    ends (example_add dt sc init n c h w) s (Ret tt).
  Proof using.
    intros n c h w s Hn Hc Hh Hw F I. unfold ProgramsSpec.filled in I. rewrite !Forall_cons_iff in I. cbn [fst snd] in I. destruct I as (Fx & Fy & _).
    unfold example_add.
    eapply (ends_local dt); [apply nn4; lia|exact F|exact Fx|]. intros s1 x Ix E1.
    eapply (ends_local dt); [apply nn4; lia|apply Ix|exact Fy|]. intros s2 y Iy E2.
    pose proof Iy as (F2 & N2 & Ey & HY). apply (input_extends dt s1 s2) in Ix; auto.
    pose proof (input_mapped dt s2 x _ Ix) as Mx. pose proof (input_mapped dt s2 y _ Iy) as My.
    destruct Ix as (_ & N & Ex & HX). cbn [fst snd] in *.
    eapply (ends_result dt _ [n; h; w; c] _ (fun ix => sadd sc (X "x"%string ix) (X "y"%string ix))); [|exact N|exact F2| |].
    - unfold binary_endofunction, shape_eqb. rewrite Ex, Ey. destruct (list_eq_dec _ _ _); [reflexivity|congruence].
    - intros s3 z F3 E3 Dz Mz Dis. apply C27_add; try congruence.
      + unfold dims_ok. rewrite Dz. exact N.
      + eapply extends_holds; eauto.
      + eapply extends_holds; eauto.
      + exact Mz.
      + left. auto.
      + left. auto.
    - intros s3 z Iz E3. apply ends_ret. apply Iz.
  Qed.

  (** *** A convolution of an image of [h] x [w] with a filter of [r] x [u]. *)
  Theorem C96_conv : forall n c h w r u d s, 0 <= n -> 0 <= c -> 0 <= d -> 1 <= r <= h -> 1 <= u <= w ->
    h + 4 < 2 ^ 32 -> w + 4 < 2 ^ 32 -> h * w * c <= 2 ^ 31 -> engine_ok sc e [n; c; d] -> fresh_ok s ->
    filled [("x", [n; h; w; c]); ("y", [r; u; c; d]); ("y2", [4; 4; c; d])]%string ->
    ends (example_conv dt di sc e init n c h w r u d) s
      (if (h mod 4 =? 0) && (w mod 4 =? 0)
       then Ret [[n; h - r + 1; w - u + 1; d]; [n; h - r + 3; w - u + 3; d]; [n; h / 4 + 1; w / 4 + 1; d]]
       else Exn InvalidArgument).
  Proof using.
    intros n c h w r u d s Hn Hc Hd Hr Hu Bh Bw Hsz He F I. unfold ProgramsSpec.filled in I. rewrite !Forall_cons_iff in I. cbn [fst snd] in I.
    destruct I as (Fx & Fy & Fy2 & _). unfold example_conv.
    eapply (ends_local dt); [apply nn4; lia|exact F|exact Fx|]. intros s1 x Ix E1.
    eapply (ends_local dt); [apply nn4; lia|apply Ix|exact Fy|]. intros s2 y Iy E2.
    pose proof Iy as (F2 & _). apply (input_extends dt s1 s2) in Ix; auto.
    eapply (ends_bind _ _ _ [n; h - r + 1; w - u + 1; d]).
    { eapply (ends_conv dt di sc e new_conv x y n h w c r u d (h - r + 1) (w - u + 1)); eauto;
        try (unfold axis_ok, axis_of, new_conv, new_conv_p, new_conv_ps, new_conv_psr, valid_config, span; cbn [sfilter ksize stride rate spadding left_ right_ h_trait w_trait lpad lstride lrate]; lia).
      intros s3 z Z Iz _. destruct Iz as (F3 & _ & Ez & _). cbn [fst] in Ez. rewrite Ez. apply ends_ret. exact F3. }
    intros s3 F3 E3. apply (input_extends dt s2 s3) in Ix; auto. apply (input_extends dt s2 s3) in Iy; auto.
    eapply (ends_bind _ _ _ [n; h - r + 3; w - u + 3; d]).
    { eapply (ends_conv dt di sc e (new_conv_p (mkpadding 1 1) (mkpadding 1 1)) x y n h w c r u d (h - r + 3) (w - u + 3)); eauto;
        try (unfold axis_ok, axis_of, new_conv, new_conv_p, new_conv_ps, new_conv_psr, valid_config, span; cbn [sfilter ksize stride rate spadding left_ right_ h_trait w_trait lpad lstride lrate]; lia).
      intros s4 z Z Iz _. destruct Iz as (F4 & _ & Ez & _). cbn [fst] in Ez. rewrite Ez. apply ends_ret. exact F4. }
    intros s4 F4 E4. apply (input_extends dt s3 s4) in Ix; auto.
    set (C := new_conv_ps (mkpadding 2 2) (mkpadding 2 2) 4 4).
    pose proof (Z.div_mod h 4 ltac:(lia)). pose proof (Z.mod_pos_bound h 4 ltac:(lia)).
    pose proof (Z.div_mod w 4 ltac:(lia)). pose proof (Z.mod_pos_bound w 4 ltac:(lia)).
    destruct ((h mod 4 =? 0) && (w mod 4 =? 0)) eqn:B.
    - eapply (ends_bind _ _ _ [n; h / 4 + 1; w / 4 + 1; d]).
      { eapply (ends_local dt); [apply nn4; lia|exact F4|exact Fy2|]. intros s5 y2 Iy2 E5.
        pose proof Iy2 as (F5 & _). apply (input_extends dt s4 s5) in Ix; auto.
        eapply (ends_conv dt di sc e C x y2 n h w c 4 4 d (h / 4 + 1) (w / 4 + 1)); eauto;
          try (unfold axis_ok, axis_of, C, new_conv_ps, new_conv_psr, valid_config, span; cbn [sfilter ksize stride rate spadding left_ right_ h_trait w_trait lpad lstride lrate]; lia).
        intros s6 z Z Iz _. destruct Iz as (F6 & _ & Ez & _). cbn [fst] in Ez. rewrite Ez. apply ends_ret. exact F6. }
      intros s5 F5 E5. apply ends_ret. exact F5.
    - assert (Q : ends (local init "y2" [4; 4; c; d] (fun y2 => conv_block dt di sc e C x y2)) s4 (Exn InvalidArgument)).
      { eapply (ends_local dt); [apply nn4; lia|exact F4|exact Fy2|]. intros s5 y2 Iy2 E5.
        pose proof Iy2 as (F5 & _). apply (input_extends dt s4 s5) in Ix; auto.
        eapply (ends_conv_exn dt di sc e C x y2 n h w c 4 4 d); eauto;
          unfold axis_fits, axis_ok, axis_of, C, new_conv_ps, new_conv_psr, valid_config, span; cbn [sfilter ksize stride rate spadding left_ right_ h_trait w_trait lpad lstride lrate]; [lia|lia|].
        destruct (Z.eq_dec (h mod 4) 0); [right; intros w'; lia|left; intros h'; lia]. }
      destruct Q as (s5 & EQ & R). exists s5. split; [|exact R]. unfold bind at 1. rewrite EQ. reflexivity.
  Qed.

  Theorem C96_pool : forall n c h w s, 0 <= n -> 0 <= c -> 1 <= h < 2 ^ 32 -> 1 <= w < 2 ^ 32 -> fresh_ok s ->
    filled [("x", [n; h; w; c])]%string ->
    ends (example_pool dt sc init lowest n c h w) s
      (if (h mod 2 =? 0) && (w mod 2 =? 0) then Ret [n; h / 2; w / 2; c] else Exn InvalidArgument).
  Proof using.
    intros n c h w s Hn Hc Hh Hw F I. unfold ProgramsSpec.filled in I. rewrite !Forall_cons_iff in I. cbn [fst snd] in I. destruct I as (Fx & _).
    unfold example_pool. destruct default_pool as (P & EP & _). rewrite EP. apply ends_lift.
    eapply (ends_local dt); [apply nn4; lia|exact F|exact Fx|]. intros s1 x Ix E1.
    destruct ((h mod 2 =? 0) && (w mod 2 =? 0)) eqn:B.
    - eapply (ends_pool dt sc lowest P x n h w c); eauto; try lia.
      intros s6 z Z Iz _. destruct Iz as (F6 & _ & Ez & _). cbn [fst] in Ez. rewrite Ez. apply ends_ret. exact F6.
    - eapply (ends_pool_exn dt sc lowest P x n h w c); eauto; lia.
  Qed.

  Theorem C96_conv1d : forall n k s, 0 <= n < 2 ^ 31 -> 1 <= k < 2 ^ 31 -> fresh_ok s ->
    filled [("x", [n]); ("y", [k])]%string ->
    ends (example_conv1d dt sc init n k) s (if k <=? n then Ret [n - k + 1] else Exn InvalidArgument).
  Proof using.
    intros n k s Hn Hk F I. unfold ProgramsSpec.filled in I. rewrite !Forall_cons_iff in I. cbn [fst snd] in I. destruct I as (Fx & Fy & _).
    unfold example_conv1d. cbv zeta.
    eapply (ends_local dt); [repeat constructor; lia|exact F|exact Fx|]. intros s1 x Ix E1.
    eapply (ends_local dt); [repeat constructor; lia|apply Ix|exact Fy|]. intros s2 y Iy E2.
    pose proof Iy as (F2 & N2 & Ey & HY). apply (input_extends dt s1 s2) in Ix; auto.
    pose proof (input_mapped dt s2 x _ Ix) as Mx. pose proof (input_mapped dt s2 y _ Iy) as My.
    destruct Ix as (_ & N & Ex & HX). cbn [fst snd] in *.
    destruct (C21_shape (mkconv1d 1 1 (mkpadding 0 0)) n k ltac:(lia) ltac:(cbn; lia) ltac:(cbn; lia) ltac:(cbn; unfold span; lia) ltac:(cbn; lia)) as [Q1 Q2].
    unfold valid_config, span in Q1, Q2. cbn [cstride crate cpad left_ right_] in Q1, Q2.
    destruct (Z.leb_spec k n).
    - eapply (ends_result dt _ [n - k + 1]); [|repeat constructor; lia|exact F2| |].
      + rewrite Ex, Ey. apply Q1. lia.
      + intros s3 z F3 E3 Dz Mz Dis.
        apply (C21_conv1d dt sc (mkconv1d 1 1 (mkpadding 0 0)) z x y n k (n - k + 1) (X "x"%string) (X "y"%string)); auto.
        * unfold axis32_ok, valid_config, span. cbn [sfilter ksize stride rate spadding left_ right_ cpad cstride crate]. lia.
        * eapply extends_holds; eauto.
        * eapply extends_holds; eauto.
      + intros s3 z Iz E3. destruct Iz as (F6 & _ & Ez & _). cbn [fst] in Ez. rewrite Ez. apply ends_ret. exact F6.
    - unfold result. rewrite Ex, Ey, Q2 by (intros m; lia). apply ends_lift_exn. exact F2.
  Qed.

  Context (ts : list Z -> string).

  (** *** Two convolutions and two pools on images of [h] x [w]. *)
  Theorem C96_mlp : forall n h w c d1 d2 s, 0 <= n -> 0 <= c -> 0 <= d1 -> 0 <= d2 -> 1 <= h -> 1 <= w ->
    h + 2 < 2 ^ 32 -> w + 2 < 2 ^ 32 -> h * w * c <= 2 ^ 31 -> h * w * d1 <= 2 ^ 31 ->
    engine_ok sc e [n; c; d1] -> engine_ok sc e [n; d1; d2] -> fresh_ok s ->
    filled [("x", [n; h; w; c]); ("w1", [3; 3; c; d1]); ("w2", [3; 3; d1; d2])]%string ->
    ends (example_mlp dt di sc e init lowest ts n h w c d1 d2) s
      (if (h mod 4 =? 0) && (w mod 4 =? 0)
       then Ret [ ts [n; h; w; d1] ++ " <- " ++ ts [n; h; w; c] ++ ", " ++ ts [3; 3; c; d1];
                  ts [n; h; w; d2] ++ " <- " ++ ts [n; h; w; d1] ++ ", " ++ ts [3; 3; d1; d2];
                  ts [n; h / 2; w / 2; d2] ++ " <- " ++ ts [n; h; w; d2];
                  ts [n; h / 4; w / 4; d2] ++ " <- " ++ ts [n; h / 2; w / 2; d2] ]%string
       else Exn InvalidArgument).
  Proof using.
    intros n h w c d1 d2 s Hn Hc H1 H2 Hh Hw Bh Bw Z1 Z2 He1 He2 F I.
    unfold ProgramsSpec.filled in I. rewrite !Forall_cons_iff in I. cbn [fst snd] in I. destruct I as (Fx & Fw1 & Fw2 & _).
    unfold example_mlp. cbv zeta. destruct default_pool as (P & EP & _). rewrite EP. apply ends_lift.
    set (C := new_conv_p (mkpadding 1 1) (mkpadding 1 1)).
    assert (AX : forall z, 1 <= z -> z + 2 < 2 ^ 32 -> axis_ok (axis_of (h_trait C) 3) z z /\ axis_ok (axis_of (w_trait C) 3) z z).
    { intros z Hz Bz. unfold axis_ok, axis_of, C, new_conv_p, new_conv_ps, new_conv_psr, valid_config, span.
      cbn [sfilter ksize stride rate spadding left_ right_ h_trait w_trait lpad lstride lrate]. lia. }
    assert (S3 : span 3 (lrate (h_trait C)) < 2 ^ 32 /\ span 3 (lrate (w_trait C)) < 2 ^ 32) by (unfold span; cbn; lia).
    eapply (ends_local dt); [apply nn4; lia|exact F|exact Fx|]. intros s1 x Ix _.
    eapply (ends_local dt); [apply nn4; lia|apply Ix|exact Fw1|]. intros s2 w1 Iw1 E2.
    pose proof Iw1 as (F2 & _). apply (input_extends dt s1 s2) in Ix; auto.
    eapply (ends_conv dt di sc e C x w1 n h w c 3 3 d1 h w); eauto; try apply AX; try lia; try apply S3.
    intros s3 l1 L1 I1 E3.
    eapply (ends_local dt); [apply nn4; lia|apply I1|exact Fw2|]. intros s4 w2 Iw2 E4.
    pose proof Iw2 as (F4 & _). pose proof (input_extends dt s3 s4 _ _ I1 E4 F4) as I1'.
    eapply (ends_conv dt di sc e C l1 w2 n h w d1 3 3 d2 h w); eauto; try apply AX; try lia; try apply S3.
    intros s5 l2 L2 I2 E5.
    pose proof (Z.div_mod h 4 ltac:(lia)). pose proof (Z.mod_pos_bound h 4 ltac:(lia)).
    pose proof (Z.div_mod w 4 ltac:(lia)). pose proof (Z.mod_pos_bound w 4 ltac:(lia)).
    pose proof (Z.div_mod h 2 ltac:(lia)). pose proof (Z.mod_pos_bound h 2 ltac:(lia)).
    pose proof (Z.div_mod w 2 ltac:(lia)). pose proof (Z.mod_pos_bound w 2 ltac:(lia)).
    pose proof (Z.div_mod (h / 2) 2 ltac:(lia)). pose proof (Z.mod_pos_bound (h / 2) 2 ltac:(lia)).
    pose proof (Z.div_mod (w / 2) 2 ltac:(lia)). pose proof (Z.mod_pos_bound (w / 2) 2 ltac:(lia)).
    destruct (Z.eq_dec (h mod 2) 0); [destruct (Z.eq_dec (w mod 2) 0)|].
    2,3: replace ((h mod 4 =? 0) && (w mod 4 =? 0)) with false by lia; eapply (ends_pool_exn dt sc lowest P l2 n h w d2); eauto; lia.
    eapply (ends_pool dt sc lowest P l2 n h w d2); eauto; try lia. intros s6 l3 L3 I3 E6.
    destruct (Z.eq_dec (h / 2 mod 2) 0); [destruct (Z.eq_dec (w / 2 mod 2) 0)|].
    2,3: replace ((h mod 4 =? 0) && (w mod 4 =? 0)) with false by lia; eapply (ends_pool_exn dt sc lowest P l3 n (h / 2) (w / 2) d2); eauto; lia.
    replace ((h mod 4 =? 0) && (w mod 4 =? 0)) with true by lia.
    eapply (ends_pool dt sc lowest P l3 n (h / 2) (w / 2) d2); eauto; try lia. intros s7 l4 L4 I4 E7.
    destruct Ix as (_ & _ & Dx & _). destruct Iw1 as (_ & _ & Dw1 & _). destruct Iw2 as (_ & _ & Dw2 & _).
    destruct I1 as (_ & _ & D1 & _). destruct I2 as (_ & _ & D2 & _). destruct I3 as (_ & _ & D3 & _). destruct I4 as (F7 & _ & D4 & _).
    cbn [fst] in *. rewrite Dx, Dw1, Dw2, D1, D2, D3, D4.
    replace (h / 2 / 2) with (h / 4) by lia. replace (w / 2 / 2) with (w / 4) by lia.
    apply ends_ret. exact F7.
  Qed.

  Context (exp_ : T -> T) (eps : T) (Q : T -> T) (HQ : forall t, sdiv sc (s1 sc) t = Ret (Q t)).

  Lemma same4 : forall n, 0 <= n -> n + 8 < 2 ^ 32 ->
    padding_same U32 4 4 1 n = if n mod 4 =? 0 then Ret (mkpadding 0 0) else Exn RuntimeError.
  Proof using.
    intros n Hn B. pose proof (Z.mod_pos_bound n 4 ltac:(lia)). unfold padding_same.
    rewrite same_padding_val by (cbn [fits]; unfold span; lia). cbv zeta. unfold span.
    destruct (Z.eqb_spec (n mod 4) 0) as [E|E]; [rewrite E; reflexivity|].
    replace (1 * (4 - 1) + 1 <? 4 + n mod 4) with true by lia. reflexivity.
  Qed.

  (** *** Two convolutions, a pool, a dense layer and a softmax; the images lose
      4 rows and columns, and the pool takes tiles of 4 x 4. *)
  Theorem C96_layer_mlp : forall n h w c d1 d2 k s, 0 <= n -> 0 <= c -> 0 <= d1 < 2 ^ 32 -> 0 <= d2 < 2 ^ 32 -> 0 <= k < 2 ^ 32 ->
    5 <= h -> 5 <= w -> h + 8 < 2 ^ 32 -> w + 8 < 2 ^ 32 -> h * w * c <= 2 ^ 31 -> (h - 2) * (w - 2) * d1 <= 2 ^ 31 ->
    let m := (h / 4 - 1) * (w / 4 - 1) * d2 in
    engine_ok sc e [n; c; d1] -> engine_ok sc e [n; d1; d2] -> engine_ok sc e [n; m; k] -> fresh_ok s ->
    filled [("x", [n; h; w; c]); ("l1.0", [3; 3; c; d1]); ("l1.1", [d1]); ("l2.0", [3; 3; d1; d2]); ("l2.1", [d2]);
            ("l4.0", [m; k]); ("l4.1", [k]); ("y_", [n; k])]%string ->
    ends (example_layer_mlp dt di sc e init lowest ts exp_ eps n h w c d1 d2 k) s
      (if (h mod 4 =? 0) && (w mod 4 =? 0)
       then Ret [ ts [n; h - 2; w - 2; d1] ++ " <- " ++ ts [n; h; w; c] ++ ", " ++ ts [3; 3; c; d1] ++ ", " ++ ts [d1];
                  ts [n; h - 4; w - 4; d2] ++ " <- " ++ ts [n; h - 2; w - 2; d1] ++ ", " ++ ts [3; 3; d1; d2] ++ ", " ++ ts [d2];
                  ts [n; h / 4 - 1; w / 4 - 1; d2] ++ " <- " ++ ts [n; h - 4; w - 4; d2];
                  ts [n; m] ++ " <- " ++ ts [n; h / 4 - 1; w / 4 - 1; d2];
                  ts [n; k] ++ " <- " ++ ts [n; m] ++ ", " ++ ts [m; k] ++ ", " ++ ts [k];
                  ts [n; k] ++ " <- " ++ ts [n; k];
                  ts [n] ++ " <- " ++ ts [n; k] ++ ", " ++ ts [n; k] ]%string
       else Exn RuntimeError).
  Proof using HQ.
    intros n h w c d1 d2 k s Hn Hc H1 H2 Hk Hh Hw Bh Bw Z1 Z2 m He1 He2 He4 F I.
    unfold ProgramsSpec.filled in I. rewrite !Forall_cons_iff in I. cbn [fst snd] in I. destruct I as (Fx & F10 & F11 & F20 & F21 & F40 & F41 & Fy & _).
    pose proof (Z.div_mod h 4 ltac:(lia)). pose proof (Z.mod_pos_bound h 4 ltac:(lia)).
    pose proof (Z.div_mod w 4 ltac:(lia)). pose proof (Z.mod_pos_bound w 4 ltac:(lia)).
    assert (VP : forall z, 3 <= z -> z + 8 < 2 ^ 32 -> padding_valid U32 3 1 1 z = Ret (mkpadding 0 0)).
    { intros z Hz Bz. destruct (C04_valid_padding U32 3 1 1 z ltac:(lia) ltac:(lia) ltac:(lia) ltac:(lia) ltac:(cbn [fits]; unfold span; lia) ltac:(cbn [fits]; lia))
        as (p & pl & pr & E & Ep & B1 & B2 & B3 & _). unfold padding_valid. rewrite E. f_equal. f_equal; lia. }
    assert (AX : forall z, 3 <= z -> z + 8 < 2 ^ 32 -> axis_ok (mksample (mkfilter 3 1 1) (mkpadding 0 0)) z (z - 2)).
    { intros z Hz Bz. unfold axis_ok, valid_config, span. cbn [sfilter ksize stride rate spadding left_ right_]. lia. }
    assert (CL : forall d nm nm2 hh ww cc s0 t X0, 0 <= d < 2 ^ 32 -> 0 <= cc -> 3 <= hh -> hh + 8 < 2 ^ 32 -> 3 <= ww -> ww + 8 < 2 ^ 32 ->
      hh * ww * cc <= 2 ^ 31 -> engine_ok sc e [n; cc; d] -> fills dt (init nm) [3; 3; cc; d] (X nm) -> fills dt (init nm2) [d] (X nm2) ->
      input dt s0 t ([n; hh; ww; cc], X0) ->
      exists Y, creates dt (conv_bias_layer dt di sc e nhwc noop2 (new_conf_k d 3 3) (init nm) (init nm2) t) s0
        ([n; hh - 2; ww - 2; d], Y) [([3; 3; cc; d], X nm); ([d], X nm2)]).
    { intros d nm nm2 hh ww cc s0 t X0 Hd Hcc Hhh Bhh Hww Bww Hsz He Fw Fb It.
      unfold new_conf_k, new_conf. rewrite (to_u32_id d) by lia. change (to_u32 3) with 3. change (to_u32 1) with 1.
      set (cf := mkconf d 3 3 (padding_valid U32) 1 1 1 1).
      destruct (C62_conv_nhwc dt di sc e cf noop2 (init nm) (init nm2) n hh ww cc (hh - 2) (ww - 2)
        (mkpadding 0 0) (mkpadding 0 0) (X nm) (X nm2) (fun Y => Y) (VP hh Hhh Bhh) (VP ww Hww Bww) (AX hh Hhh Bhh) (AX ww Hww Bww)
        ltac:(lia) ltac:(lia) ltac:(cbn; lia) He s0 t X0 Hsz Fw (acts_noop dt _) It) as [_ R].
      eexists. exact (R Fb). }
    unfold example_layer_mlp.
    eapply (ends_local dt); [apply nn4; lia|exact F|exact Fx|]. intros s1 x Ix _.
    destruct (CL d1 "l1.0"%string "l1.1"%string h w c s1 x _ H1 Hc ltac:(lia) ltac:(lia) ltac:(lia) ltac:(lia) Z1 He1 F10 F11 Ix) as [Y1 C1].
    eapply (ends_layer dt); [exact C1|apply Ix|apply nn4; lia|]. intros l1 s2 I1 W1 _.
    destruct (CL d2 "l2.0"%string "l2.1"%string (h - 2) (w - 2) d1 s2 (output l1) _ H2 ltac:(lia) ltac:(lia) ltac:(lia) ltac:(lia) ltac:(lia) Z2 He2 F20 F21 I1) as [Y2 C2].
    replace (h - 2 - 2) with (h - 4) in C2 by lia. replace (w - 2 - 2) with (w - 4) in C2 by lia.
    eapply (ends_layer dt); [exact C2|apply I1|apply nn4; lia|]. intros l2 s3 I2 W2 _.
    assert (M4 : (h - 4) mod 4 = h mod 4 /\ (w - 4) mod 4 = w mod 4) by (clear; split; [replace (h - 4) with (h + (-1) * 4) by lia|replace (w - 4) with (w + (-1) * 4) by lia]; apply Z.mod_add; lia).
    destruct M4 as [M4h M4w].
    destruct ((h mod 4 =? 0) && (w mod 4 =? 0)) eqn:B.
    2: { assert (L : leaks (pool_layer dt (max_acc sc lowest) nhwc (new_pconf 4 4 (padding_same U32) 4 4) (output l2)) s3 RuntimeError []).
         { apply (C63_pool_shape dt _ nhwc _ _ s3 (output l2) _ RuntimeError I2). left.
           unfold pconf_trait, new_pconf. change (to_u32 4) with 4. cbn [p_pad p_kh p_kw p_sh p_sw image_shape height_position width_position nth].
           rewrite !same4 by lia. destruct (Z.eqb_spec ((h - 4) mod 4) 0); cbn [obind]; [|reflexivity].
           destruct (Z.eqb_spec ((w - 4) mod 4) 0); cbn [obind]; [lia|reflexivity]. }
         destruct L as (tl & s4 & E4 & G4 & Et). destruct tl; [|discriminate]. destruct G4 as (F4 & N4 & _ & _ & K4).
         exists s4. split; [unfold with_layer; rewrite E4; reflexivity|]. split; [exact F4|]. split; [exact N4|]. intros p. apply K4. cbn. tauto. }
    set (P := mkpool (mksample (mkfilter 4 4 1) (mkpadding 0 0)) (mksample (mkfilter 4 4 1) (mkpadding 0 0))).
    set (Y3 := arg4 (fun l i j c0 => match pooled (max_acc sc lowest)
      (map (fun p => Y2 [l; fst p; snd p; c0]) (window (h_sample P) (w_sample P) (h - 4) (w - 4) i j)) with Ret v => v | _ => lowest end)).
    assert (C3 : creates dt (pool_layer dt (max_acc sc lowest) nhwc (new_pconf 4 4 (padding_same U32) 4 4) (output l2)) s3
      ([n; h / 4 - 1; w / 4 - 1; d2], Y3) []).
    { unfold new_pconf. change (to_u32 4) with 4.
      apply (C72_pool_nhwc dt (max_acc sc lowest) (mkpconf 4 4 (padding_same U32) 4 4) (mkpadding 0 0) (mkpadding 0 0) P P
             n (h - 4) (w - 4) d2 (h / 4 - 1) (w / 4 - 1) Y3 s3 (output l2) Y2); cbn [p_pad p_kh p_kw p_sh p_sw].
      - rewrite same4 by lia. replace ((h - 4) mod 4 =? 0) with true by lia. reflexivity.
      - rewrite same4 by lia. replace ((w - 4) mod 4 =? 0) with true by lia. reflexivity.
      - unfold pool_args. cbn [left_ right_]. lia.
      - apply new_pool_kps_iff; lia.
      - apply new_pool_kps_iff; lia.
      - apply C38_shape. exists (h / 4 - 1), (w / 4 - 1). split; [|reflexivity].
        apply (C79_pool_k_shape 4 4 P (h - 4) (w - 4)); try lia. apply new_pool_kps_iff; lia.
      - lia.
      - lia.
      - exact I2.
      - intros l i j c0 _. reflexivity. }
    eapply (ends_layer dt); [exact C3|apply I2|apply nn4; lia|]. intros l3 s4 I3 _ _.
    assert (I3f : exists Y, input dt s4 (as_matrix 1 (output l3)) ([n; m], Y)).
    { destruct I3 as (F4 & N4 & D3 & HO3). cbn [fst snd] in *. eexists. split; [exact F4|]. split; [apply nonneg2; [lia|subst m; apply Z.mul_nonneg_nonneg; [apply Z.mul_nonneg_nonneg|]; lia]|].
      split; [|cbn [snd]; apply holds_as_matrix; [unfold dims_ok; rewrite D3; exact N4|exact HO3]].
      cbn [fst]. rewrite tdims_as_matrix, D3. cbn [firstn skipn prod]. subst m. f_equal; [lia|]. f_equal. lia. }
    destruct I3f as [Y3f I3f].
    pose proof (C62_dense dt sc e noop2 k (init "l4.0"%string) (init "l4.1"%string) n m _ _ (fun Y => Y) s4 (as_matrix 1 (output l3)) Y3f
      Hk He4 F40 F41 (acts_noop dt _) I3f) as C4.
    cbv zeta. eapply (ends_layer dt); [exact C4|apply I3f|apply nonneg2; lia|]. intros l4 s5 I4 W4 _.
    match type of I4 with input _ _ _ (_, ?Y) => set (Y4 := Y) in * end.
    pose proof (C72_activation dt (op_softmax dt sc exp_ 2 eps) [n; k]
        (fun ix => smax sc eps (Q (soft_tot sc exp_ k (row Y4 (removelast ix)) (last ix 0)))) s5 (output l4) Y4 I4) as C5.
    assert (C5' : creates dt (activation (op_softmax dt sc exp_ 2 eps) (output l4)) s5 ([n; k],
        (fun ix => smax sc eps (Q (soft_tot sc exp_ k (row Y4 (removelast ix)) (last ix 0))))) []).
    { apply C5. intros s6 y F6 HO6 D6 M6 Dis. apply (op_softmax_writes dt sc exp_ eps y (output l4) [n] k Y4 Q s6); auto.
      - apply I4.
      - unfold dims_ok. destruct I4 as (_ & N4 & D4 & _). cbn [fst] in D4. rewrite D4. exact N4. }
    eapply (ends_layer dt); [exact C5'|apply I4|apply nonneg2; lia|]. intros l5 s6 I5 _ _.
    assert (D5 : tdims (output l5) = [n; k]) by apply I5. rewrite D5.
    eapply (ends_local dt); [apply nonneg2; lia|apply I5|exact Fy|]. intros s7 y_ Iy _.
    assert (Dy : tdims y_ = [n; k]) by apply Iy. rewrite Dy.
    assert (ER : binary_reduce_function [n; k] [n; k] = Ret [n]).
    { unfold binary_reduce_function, shape_eqb. destruct (list_eq_dec _ _ _); [reflexivity|congruence]. }
    rewrite ER. apply ends_lift.
    destruct I1 as (_ & _ & D1 & _). destruct I2 as (_ & _ & D2 & _). destruct I3 as (_ & _ & D3 & _). destruct I4 as (_ & _ & D4 & _).
    destruct I3f as (_ & _ & D3f & _). destruct Ix as (_ & _ & Dx & _). cbn [fst] in *.
    assert (AR : forall l a b, map tdims (weights l) = [a; b] -> arg_dims l 0 = a /\ arg_dims l 1 = b).
    { clear. intros [o ws] a b E. cbn [weights] in E. destruct ws as [|t0 [|t1 [|]]]; try discriminate. injection E as <- <-. auto. }
    cbn [map fst] in W1, W2, W4.
    destruct (AR l1 _ _ W1) as (A10 & A11). destruct (AR l2 _ _ W2) as (A20 & A21). destruct (AR l4 _ _ W4) as (A40 & A41).
    eapply ends_uninit; [repeat constructor; lia|apply Iy|]. intros s8 l F8 Dl. rewrite D1, D2, D3, D3f, D4, Dx, Dl, A10, A11, A20, A21, A40, A41.
    apply ends_ret. exact F8.
  Qed.
End Programs.

(** The programs as written, with any float contents for their tensors. *)
Section Mains.
  Context {V : Type} (dt : dtype V float) (di : dtype V Z) (init : string -> tensor -> M V unit)
    (X : string -> list Z -> float) (lowest eps : float) (exp_ : float -> float) (ts : list Z -> string).

  Theorem C96_programs : forall s, fresh_ok s ->
    (forall name ds, fills dt (init name) ds (X name)) ->
    ends (example_add dt F32 init 10 3 512 512) s (Ret tt) /\
    ends (example_conv dt di F32 Builtin init 10 3 512 512 3 3 32) s
      (Ret [[10; 510; 510; 32]; [10; 512; 512; 32]; [10; 129; 129; 32]]) /\
    ends (example_pool dt F32 init lowest 10 3 512 512) s (Ret [10; 256; 256; 3]) /\
    ends (example_conv1d dt F32 init 10 3) s (Ret [8]) /\
    ends (example_mlp dt di F32 Builtin init lowest ts 10 28 28 3 32 64) s (Ret
      [ ts [10; 28; 28; 32] ++ " <- " ++ ts [10; 28; 28; 3] ++ ", " ++ ts [3; 3; 3; 32];
        ts [10; 28; 28; 64] ++ " <- " ++ ts [10; 28; 28; 32] ++ ", " ++ ts [3; 3; 32; 64];
        ts [10; 14; 14; 64] ++ " <- " ++ ts [10; 28; 28; 64];
        ts [10; 7; 7; 64] ++ " <- " ++ ts [10; 14; 14; 64] ]%string) /\
    ends (example_layer_mlp dt di F32 Builtin init lowest ts exp_ eps 10 32 32 3 32 64 1000) s (Ret
      [ ts [10; 30; 30; 32] ++ " <- " ++ ts [10; 32; 32; 3] ++ ", " ++ ts [3; 3; 3; 32] ++ ", " ++ ts [32];
        ts [10; 28; 28; 64] ++ " <- " ++ ts [10; 30; 30; 32] ++ ", " ++ ts [3; 3; 32; 64] ++ ", " ++ ts [64];
        ts [10; 7; 7; 64] ++ " <- " ++ ts [10; 28; 28; 64];
        ts [10; 3136] ++ " <- " ++ ts [10; 7; 7; 64];
        ts [10; 1000] ++ " <- " ++ ts [10; 3136] ++ ", " ++ ts [3136; 1000] ++ ", " ++ ts [1000];
        ts [10; 1000] ++ " <- " ++ ts [10; 1000];
        ts [10] ++ " <- " ++ ts [10; 1000] ++ ", " ++ ts [10; 1000] ]%string).
  Proof using.
    intros s F I.
    assert (FI : forall l, filled dt init X l) by (intros l; apply Forall_forall; intros p _; apply I).
    split; [apply (C96_add dt F32 init X); auto; lia|].
    split; [apply (C96_conv dt di F32 Builtin init X 10 3 512 512 3 3 32); auto; try lia; exact Logic.I|].
    split; [apply (C96_pool dt F32 init X lowest 10 3 512 512); auto; lia|].
    split; [apply (C96_conv1d dt F32 init X 10 3); auto; lia|].
    split; [apply (C96_mlp dt di F32 Builtin init X lowest ts 10 28 28 3 32 64); auto; try lia; exact Logic.I|].
    apply (C96_layer_mlp dt di F32 Builtin init X lowest ts exp_ eps (Bdiv mode_NE Bone) (fun t => eq_refl) 10 32 32 3 32 64 1000);
      auto; try lia; exact Logic.I.
  Qed.
End Mains.

(** As written nothing is put into the tensors: whatever the memory, and for any
    sizes for which there is something to compute, each program reads a value
    that was never stored. *)
Section Unwritten.
  Context {V T : Type} (dt : dtype V T) (di : dtype V Z) (sc : scalar T) (e : engine) (lowest eps : T) (exp_ : T -> T) (ts : list Z -> string).
  Local Notation nothing := (fun _ : string => noop1).

  Ltac axis := unfold axis_ok, axis_of, new_conv, new_conv_p, new_conv_ps, new_conv_psr, valid_config, span, inb, wpos, tap;
    cbn [sfilter ksize stride rate spadding left_ right_ h_trait w_trait lpad lstride lrate]; lia.

  Theorem C96_uninitialised : forall s n c h w r u d d2 k, fresh_ok s -> 1 <= n -> 1 <= c -> 0 <= d < 2 ^ 32 -> 2 <= h -> 2 <= w ->
    h + 8 < 2 ^ 32 -> w + 8 < 2 ^ 32 -> h * w * c <= 2 ^ 31 ->
    example_add dt sc nothing n c h w s = UB /\
    (1 <= r <= h -> 1 <= u <= w -> example_conv dt di sc e nothing n c h w r u d s = UB) /\
    (h mod 2 = 0 -> w mod 2 = 0 -> example_pool dt sc nothing lowest n c h w s = UB) /\
    (1 <= k <= n -> n < 2 ^ 31 -> example_conv1d dt sc nothing n k s = UB) /\
    example_mlp dt di sc e nothing lowest ts n h w c d d2 s = UB /\
    (3 <= h -> 3 <= w -> example_layer_mlp dt di sc e nothing lowest ts exp_ eps n h w c d d2 k s = UB).
  Proof using.
    intros s n c h w r u d d2 k F Hn Hc Hd Hh Hw Bh Bw Hsz.
    split; [|split; [|split; [|split; [|split]]]].
    - unfold example_add. apply local_ub; auto. intros x s1 Ex Bx F1 E1. apply local_ub; auto. intros y s2 Ey By F2 E2.
      assert (EB : binary_endofunction (tdims x) (tdims y) = Ret [n; h; w; c]).
      { unfold binary_endofunction, shape_eqb. rewrite Ex, Ey. destruct (list_eq_dec _ _ _); [reflexivity|congruence]. }
      rewrite EB. apply result_ub; auto. intros z s3 Ez Bz F3 _ E3.
      apply add_ub; unfold size; rewrite ?Ex, ?Ey, ?Ez; auto.
      + cbn [prod]. assert (1 <= h * w) by nia. assert (1 <= n * (h * w * c)) by (assert (1 <= h * w * c) by nia; nia). lia.
      + eapply blank_extends; [|exact E3]. eapply blank_extends; eauto.
    - intros Hr Hu. unfold example_conv. apply local_ub; auto. intros x s1 Ex Bx F1 E1. apply local_ub; auto. intros y s2 Ey By F2 E2.
      apply bind_ub. eapply (result_conv_ub dt di sc e new_conv x y n h w c r u d (h - r + 1) (w - u + 1) 0 0); eauto; try axis.
      eapply blank_extends; eauto.
    - intros Mh Mw. unfold example_pool. destruct default_pool as (P & EP & _). rewrite EP. unfold lift at 1. rewrite bind_ret_l.
      apply local_ub; auto. intros x s1 Ex Bx F1 E1.
      assert (ES : pooled_shape nhwc P [n; h; w; c] = Ret [n; h / 2; w / 2; c]).
      { pose proof (Z.div_mod h 2 ltac:(lia)). pose proof (Z.div_mod w 2 ltac:(lia)).
        apply C38_shape. exists (h / 2), (w / 2). split; [|reflexivity].
        apply (C79_pool_k_shape 2 2 P h w (h / 2) (w / 2)); try lia. exact EP. }
      rewrite Ex, ES. apply result_ub; auto. intros y s2 Ey By F2 _ E2.
      eapply (pool_ub dt sc lowest P y x n h w c); eauto; [lia|lia|]. eapply blank_extends; eauto.
    - intros Hk Bn. unfold example_conv1d. cbv zeta. apply local_ub; auto. intros x s1 Ex Bx F1 E1. apply local_ub; auto. intros y s2 Ey By F2 E2.
      destruct (C21_shape (mkconv1d 1 1 (mkpadding 0 0)) n k ltac:(lia) ltac:(cbn; lia) ltac:(cbn; lia) ltac:(cbn; unfold span; lia) ltac:(cbn; lia)) as [Q1 _].
      assert (ES : conv1d_shape (mkconv1d 1 1 (mkpadding 0 0)) [n] [k] = Ret [n - k + 1]).
      { apply Q1. unfold valid_config, span. cbn [cstride crate cpad left_ right_]. lia. }
      rewrite Ex, Ey, ES.
      apply result_ub; auto. intros z s3 Ez Bz F3 _ E3.
      set (sp := mksample (mkfilter k 1 1) (mkpadding 0 0)).
      assert (AX : axis32_ok sp n (n - k + 1)).
      { unfold axis32_ok, valid_config, span, sp. cbn [sfilter ksize stride rate spadding left_ right_]. lia. }
      unfold conv1d, nth_dim. rewrite Ex, Ey, Ez. cbn [nth cstride crate cpad].
      assert (EF : new_filter (to_i32 k) 1 1 = Ret (sfilter sp)).
      { unfold to_i32. rewrite Z.mod_small by lia. unfold new_filter, sp. replace (k + 2 ^ 31 - 2 ^ 31) with k by lia.
        replace (k <? 1) with false by lia. reflexivity. }
      rewrite EF. unfold lift at 1. rewrite bind_ret_l. cbv zeta.
      destruct (zrange_pos (n - k + 1) ltac:(lia)) as (l & ->). destruct (zrange_pos k ltac:(lia)) as (lk & ->).
      cbn [for_ foldM]. do 3 apply bind_ub.
      change (mkpadding 0 0) with (spadding sp). rewrite (source1_mixed_ok sp n (n - k + 1) 0 0 AX) by (cbn; lia).
      change (wpos sp 0 0) with 0. replace (inb n 0) with true by (unfold inb; lia).
      unfold lift. rewrite bind_ret_l. apply bind_ub. apply load_uninit.
      apply (blank_extends s2 s3 y); auto. apply daddr_foot. unfold size. rewrite Ey. cbn [prod]. lia.
    - unfold example_mlp. cbv zeta. destruct default_pool as (P & EP & _). rewrite EP. unfold lift at 1. rewrite bind_ret_l.
      apply local_ub; auto. intros x s1 Ex Bx F1 E1. apply local_ub; auto. intros y s2 Ey By F2 E2.
      eapply (result_conv_ub dt di sc e (new_conv_p (mkpadding 1 1) (mkpadding 1 1)) x y n h w c 3 3 d h w 1 1); eauto; try axis.
      eapply blank_extends; eauto.
    - intros Hh3 Hw3. unfold example_layer_mlp. apply local_ub; auto. intros x s1 Ex Bx F1 E1.
      unfold with_layer. assert (Q : conv_bias_layer dt di sc e nhwc noop2 (new_conf_k d 3 3) noop1 noop1 x s1 = UB); [|rewrite Q; reflexivity].
      unfold new_conf_k, new_conf. rewrite (to_u32_id d) by lia. change (to_u32 3) with 3. change (to_u32 1) with 1.
      unfold conv_bias_layer, conv_start. apply bind_ub. cbn [c_kh c_kw c_filters filter_of]. rewrite Ex.
      change (conv_filter_shape rscd (channel_size nhwc [n; h; w; c]) [3; 3] d) with [3; 3; c; d].
      destruct (new_tensor_born s1 [3; 3; c; d] F1) as (wt & s2 & E2 & Bw2).
      assert (EP : new_parameter [3; 3; c; d] noop1 s1 = Ok wt s2) by (unfold new_parameter; rewrite (bind_ok _ _ _ _ _ E2); reflexivity).
      rewrite (bind_ok _ _ _ _ _ EP).
      assert (VP : forall z, 3 <= z -> z + 8 < 2 ^ 32 -> padding_valid U32 3 1 1 z = Ret (mkpadding 0 0)).
      { intros z Hz Bz. destruct (C04_valid_padding U32 3 1 1 z ltac:(lia) ltac:(lia) ltac:(lia) ltac:(lia) ltac:(cbn [fits]; unfold span; lia) ltac:(cbn [fits]; lia))
          as (p & pl & pr & E & Ep & B1 & B2 & B3 & _). unfold padding_valid. rewrite E. f_equal. f_equal; lia. }
      unfold conf_trait. cbn [c_pad c_kh c_kw c_sh c_sw c_rh c_rw image_shape height_position width_position nth].
      rewrite !VP by lia. cbn [obind]. unfold lift at 1. rewrite bind_ret_l.
      set (C := new_conv_psr (mkpadding 0 0) (mkpadding 0 0) 1 1 1 1).
      assert (AX : forall z, 3 <= z -> z + 8 < 2 ^ 32 -> axis_ok (axis_of (h_trait C) 3) z (z - 2) /\ axis_ok (axis_of (w_trait C) 3) z (z - 2)).
      { intros z Hz Bz. unfold C. axis. }
      assert (S3 : span 3 (lrate (h_trait C)) < 2 ^ 32 /\ span 3 (lrate (w_trait C)) < 2 ^ 32) by (unfold span; cbn; lia).
      assert (EI : conv_infer C nhwc rscd [n; h; w; c] [3; 3; c; d] = Ret [n; h - 2; w - 2; d]).
      { destruct (AX h Hh3 Bh) as [AH _]. destruct (AX w Hw3 Bw) as [_ AW].
        apply (proj1 (C19_infer C nhwc n h w c c 3 3 d (or_introl eq_refl)
          ltac:(unfold axis_fits; cbn; unfold span; lia) ltac:(unfold axis_fits; cbn; unfold span; lia))).
        split; [reflexivity|]. exists (h - 2), (w - 2). auto. }
      apply bind_ub. unfold new_result. rewrite EI. unfold lift at 1. rewrite bind_ret_l.
      destruct Bw2 as (W1 & W2 & W3 & W4 & W5 & W6 & W7 & W8).
      destruct (new_tensor_born s2 [n; h - 2; w - 2; d] W6) as (y & s3 & E3 & Y1 & Y2 & Y3 & Y4 & Y5 & Y6 & Y7 & Y8).
      rewrite (bind_ok _ _ _ _ _ E3). apply bind_ub. cbn [op_conv].
      eapply (conv_ub dt di sc e C y x wt n h w c 3 3 d (h - 2) (w - 2) 0 0); eauto; try lia; try (apply AX; lia); try reflexivity;
        try (unfold C; axis).
      intros p Hp. rewrite Y7, W7; [auto| |]; intros Q; assert (B : fst p < nextb s1)
        by (apply (foot_fresh x s1); auto; apply blank_mapped; auto); lia.
  Qed.
End Unwritten.

(** The programs with the sizes of their main functions. *)
Theorem C96_uninitialised_refuted : forall {V T} (dt : dtype V T) (di : dtype V Z) (sc : scalar T) e lowest eps exp_ ts (s : st V),
  fresh_ok s ->
  let nothing := fun _ : string => noop1 in
  example_add dt sc nothing 10 3 512 512 s = UB /\
  example_conv dt di sc e nothing 10 3 512 512 3 3 32 s = UB /\
  example_pool dt sc nothing lowest 10 3 512 512 s = UB /\
  example_conv1d dt sc nothing 10 3 s = UB /\
  example_mlp dt di sc e nothing lowest ts 10 28 28 3 32 64 s = UB /\
  example_layer_mlp dt di sc e nothing lowest ts exp_ eps 10 32 32 3 32 64 1000 s = UB.
Proof.
  intros V T dt di sc e lowest eps exp_ ts s F nothing.
  pose proof (C96_uninitialised dt di sc e lowest eps exp_ ts s 10 3 512 512 3 3 32 0 3 F
    ltac:(lia) ltac:(lia) ltac:(lia) ltac:(lia) ltac:(lia) ltac:(lia) ltac:(lia) ltac:(lia)) as (Q1 & Q2 & Q3 & Q4 & _ & _).
  pose proof (C96_uninitialised dt di sc e lowest eps exp_ ts s 10 3 28 28 3 3 32 64 3 F
    ltac:(lia) ltac:(lia) ltac:(lia) ltac:(lia) ltac:(lia) ltac:(lia) ltac:(lia) ltac:(lia)) as (_ & _ & _ & _ & Q5 & _).
  pose proof (C96_uninitialised dt di sc e lowest eps exp_ ts s 10 3 32 32 3 3 32 64 1000 F
    ltac:(lia) ltac:(lia) ltac:(lia) ltac:(lia) ltac:(lia) ltac:(lia) ltac:(lia) ltac:(lia)) as (_ & _ & _ & _ & _ & Q6).
  repeat split; [exact Q1|apply Q2; lia|apply Q3; reflexivity|apply Q4; lia|exact Q5|apply Q6; lia].
Qed.

(** Small runs over integers, beside a block holding 7; a shape is printed as its digits. *)
Definition digit (n : Z) : string := nth (Z.to_nat n) ["0"; "1"; "2"; "3"; "4"; "5"; "6"; "7"; "8"; "9"]%string "?"%string.
Definition ts_demo (ds : list Z) : string := String.concat "x" (map digit ds).
Definition answer {A} (m : M Z A) : option (outcome A * Z) :=
  match m (demo [[7]]) with
  | Ok a s => match cells s (0, 0) with Init v => Some (Ret a, v) | _ => None end
  | Throw x s => match cells s (0, 0) with Init v => Some (Exn x, v) | _ => None end
  | UB => None
  end.

Example C96_example :
  let some := fun _ : string => init_with (fun i => i) in
  answer (example_conv zt zt Zsc Builtin some 1 1 4 8 3 3 2) = Some (Ret [[1; 2; 6; 2]; [1; 4; 8; 2]; [1; 2; 3; 2]], 7) /\
  answer (example_conv zt zt Zsc Builtin some 1 1 4 7 3 3 2) = Some (Exn InvalidArgument, 7) /\
  answer (example_conv1d zt Zsc some 5 3) = Some (Ret [3], 7) /\
  answer (example_mlp zt zt Zsc Builtin some 0 ts_demo 1 4 8 1 2 1) = Some (Ret
    ["1x4x8x2 <- 1x4x8x1, 3x3x1x2"; "1x4x8x1 <- 1x4x8x2, 3x3x2x1"; "1x2x4x1 <- 1x4x8x1"; "1x1x2x1 <- 1x2x4x1"]%string, 7) /\
  answer (example_layer_mlp zt zt Zsc Builtin some 0 ts_demo (fun x => x * x + 1) 0 1 8 8 1 2 1 3) = Some (Ret
    ["1x6x6x2 <- 1x8x8x1, 3x3x1x2, 2"; "1x4x4x1 <- 1x6x6x2, 3x3x2x1, 1"; "1x1x1x1 <- 1x4x4x1"; "1x1 <- 1x1x1x1";
     "1x3 <- 1x1, 1x3, 3"; "1x3 <- 1x3"; "1 <- 1x3, 1x3"]%string, 7) /\
  answer (example_layer_mlp zt zt Zsc Builtin some 0 ts_demo (fun x => x * x + 1) 0 1 9 8 1 2 1 3) = Some (Exn RuntimeError, 7) /\
  answer (example_mlp zt zt Zsc Builtin (fun _ => noop1) 0 ts_demo 1 4 8 1 2 1) = None.
Proof. vm_compute. repeat split; reflexivity. Qed.

Print Assumptions C96_add.
Print Assumptions C96_conv.
Print Assumptions C96_pool.
Print Assumptions C96_conv1d.
Print Assumptions C96_mlp.
Print Assumptions C96_layer_mlp.
Print Assumptions C96_programs.
Print Assumptions C96_uninitialised.
Print Assumptions C96_uninitialised_refuted.
