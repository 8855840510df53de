(** The steps of the example programs. *)
From Coq Require Import ZArith List Bool Lia String ZifyBool.
From Verif Require Import Base BaseFacts TensorFacts Traits TraitsSpec TraitsFacts Shapes Scalar LinAlg Conv ConvSpec ConvFacts PropsConv PropsSummary PoolFacts
  Pool PoolSpec PropsPool PropsDefaults Reshape Layers LayersSpec LayersFacts LayerCalls PropsLayers PropsLayers2
  Programs ProgramsSpec ProgramsFacts ConvGradFacts PropsTraits.
Import ListNotations.
Open Scope Z_scope.
Open Scope model_scope.

Section Steps.
  Context {V T : Type} (dt : dtype V T) (di : dtype V Z) (sc : scalar T).

  Lemma input_extends : forall s s2 x (X : content T), input dt s x X -> extends s s2 -> fresh_ok s2 -> input dt s2 x X.
  Proof using.
    intros s s2 x X (_ & N & D & H) E F. split; [exact F|]. split; [exact N|]. split; [exact D|]. eapply extends_holds; eauto.
  Qed.

  Lemma nn4 : forall a b c d, 0 <= a -> 0 <= b -> 0 <= c -> 0 <= d -> Forall (fun d => 0 <= d) [a; b; c; d].
  Proof. intros. repeat (constructor; [assumption|]). constructor. Qed.

  Lemma nn4_inv : forall a b c d, Forall (fun d => 0 <= d) [a; b; c; d] -> 0 <= a /\ 0 <= b /\ 0 <= c /\ 0 <= d.
  Proof. intros a b c d H. rewrite !Forall_cons_iff in H. tauto. Qed.

  Lemma ends_conv : forall {A} e C x y n h w c r u d h' w' X Y (k : tensor -> M V A) s o,
    axis_ok (axis_of (h_trait C) r) h h' -> axis_ok (axis_of (w_trait C) u) w w' ->
    0 <= r -> span r (lrate (h_trait C)) < 2 ^ 32 -> span u (lrate (w_trait C)) < 2 ^ 32 ->
    h * w * c <= 2 ^ 31 -> engine_ok sc e [n; c; d] ->
    input dt s x ([n; h; w; c], X) -> input dt s y ([r; u; c; d], Y) ->
    (forall s2 t Z, input dt s2 t ([n; h'; w'; d], Z) -> extends s s2 -> ends (k t) s2 o) ->
    ends (result (conv_infer C nhwc rscd (tdims x) (tdims y)) (fun z => conv_nhwc dt di sc e C z x y) k) s o.
  Proof using.
    intros A e C x y n h w c r u d h' w' X Y k s o AH AW Hr Sh Sw Hsz He Ix Iy K.
    pose proof (input_mapped dt s x _ Ix) as Mx. pose proof (input_mapped dt s y _ Iy) as My.
    destruct Ix as (F & N & Ex & HX). destruct Iy as (_ & N2 & Ey & HY). cbn [fst snd] in *.
    apply nn4_inv in N. apply nn4_inv in N2.
    pose proof (axis_m _ _ _ AH). pose proof (axis_m _ _ _ AW).
    eapply (ends_result dt _ [n; h'; w'; d] _ _ k s o); [| |exact F| |intros s2 t I E; eapply K; eauto].
    - rewrite Ex, Ey.
      apply (proj1 (C19_infer C nhwc n h w c c r u d (or_introl eq_refl)
        ltac:(unfold axis_ok in AH; cbn in AH; unfold axis_fits; tauto) ltac:(unfold axis_ok in AW; cbn in AW; unfold axis_fits; tauto))).
      split; [reflexivity|]. exists h', w'. auto.
    - apply nn4; lia.
    - intros s1 t F1 E1 Dt Mt Dis.
      apply (C16_conv_nhwc dt di sc e C t x y n h w c r u d h' w' X Y s1); auto; try tauto;
        eapply extends_holds; eauto.
  Qed.

  Lemma ends_conv_exn : forall {A} e C x y n h w c r u d X Y (k : tensor -> M V A) s,
    axis_fits (h_trait C) h r -> axis_fits (w_trait C) w u ->
    ((forall h', ~ axis_ok (axis_of (h_trait C) r) h h') \/ (forall w', ~ axis_ok (axis_of (w_trait C) u) w w')) ->
    input dt s x ([n; h; w; c], X) -> input dt s y ([r; u; c; d], Y) ->
    ends (result (conv_infer C nhwc rscd (tdims x) (tdims y)) (fun z => conv_nhwc dt di sc e C z x y) k) s (Exn InvalidArgument).
  Proof using.
    intros A e C x y n h w c r u d X Y k s FH FW No Ix Iy.
    destruct Ix as (F & N & Ex & HX). destruct Iy as (_ & N2 & Ey & HY). cbn [fst snd] in *.
    unfold result. rewrite Ex, Ey.
    destruct (C19_infer C nhwc n h w c c r u d (or_introl eq_refl) FH FW) as (_ & _ & Q).
    change (conv_infer C nhwc rscd [n; h; w; c] [r; u; c; d]) with
      (conv_infer C nhwc (fo_of nhwc) (batched_image_shape nhwc n [h; w] c) (conv_filter_shape (fo_of nhwc) c [r; u] d)).
    rewrite Q by auto. apply ends_lift_exn. exact F.
  Qed.

  Lemma max_pooled : forall lowest l, exists v, pooled (max_acc sc lowest) l = Ret v.
  Proof. intros lowest l. eexists. reflexivity. Qed.

  Lemma default_pool : exists P, new_pool = Ret P /\ new_pool_kps 2 2 (mkpadding 0 0) (mkpadding 0 0) 2 2 = Ret P.
  Proof. eexists. split; reflexivity. Qed.

  Lemma ends_pool : forall {A} lowest P x n h w c X (k : tensor -> M V A) s o,
    new_pool = Ret P -> 1 <= h < 2 ^ 32 -> 1 <= w < 2 ^ 32 -> h mod 2 = 0 -> w mod 2 = 0 ->
    input dt s x ([n; h; w; c], X) ->
    (forall s2 t Z, input dt s2 t ([n; h / 2; w / 2; c], Z) -> extends s s2 -> ends (k t) s2 o) ->
    ends (result (pooled_shape nhwc P (tdims x)) (fun y => op_pool_nhwc dt (max_acc sc lowest) P y x) k) s o.
  Proof using.
    intros A lowest P x n h w c X k s o EP Hh Hw Eh Ew Ix K.
    pose proof (input_mapped dt s x _ Ix) as Mx. destruct Ix as (F & N & Ex & HX). cbn [fst snd] in *. apply nn4_inv in N.
    pose proof (Z.div_mod h 2 ltac:(lia)). pose proof (Z.div_mod w 2 ltac:(lia)).
    assert (ES : pooled_shape nhwc P [n; h; w; c] = Ret [n; h / 2; w / 2; c]).
    { apply C38_shape. exists (h / 2), (w / 2). split; [|reflexivity].
      apply (C79_pool_k_shape 2 2 P h w (h / 2) (w / 2)); try lia. exact EP. }
    set (Y := arg4 (fun l i j k => match pooled (max_acc sc lowest)
      (map (fun p => X [l; fst p; snd p; k]) (window (h_sample P) (w_sample P) h w i j)) with Ret v => v | _ => lowest end)).
    eapply (ends_result dt _ [n; h / 2; w / 2; c] _ Y k s o); [| |exact F| |intros s2 t I E; eapply K; eauto].
    - rewrite Ex. exact ES.
    - apply nn4; lia.
    - intros s1 t F1 E1 Dt Mt Dis.
      apply (C38_nhwc dt (max_acc sc lowest) 2 2 (mkpadding 0 0) (mkpadding 0 0) 2 2 P P n h w c (h / 2) (w / 2) t x X Y s1);
        auto; try tauto; try exact EP.
      + unfold pool_args. cbn [left_ right_]. lia.
      + eapply extends_holds; eauto.
  Qed.

  Lemma ends_pool_exn : forall {A} lowest P x n h w c X (k : tensor -> M V A) s,
    new_pool = Ret P -> 1 <= h < 2 ^ 32 -> 1 <= w < 2 ^ 32 -> ~ (h mod 2 = 0 /\ w mod 2 = 0) ->
    input dt s x ([n; h; w; c], X) ->
    ends (result (pooled_shape nhwc P (tdims x)) (fun y => op_pool_nhwc dt (max_acc sc lowest) P y x) k) s (Exn InvalidArgument).
  Proof using.
    intros A lowest P x n h w c X k s EP Hh Hw No (F & _ & Ex & _). cbn [fst] in Ex. unfold result. rewrite Ex.
    assert (EN : pooled_shape nhwc P [n; h; w; c] = Exn InvalidArgument).
    { unfold new_pool, new_pool_k, new_pool_ks in EP. rewrite new_pool_kps_iff in EP by lia. injection EP as <-.
      unfold pooled_shape, image_shape, pool_shape2. cbn [nth height_position width_position h_sample w_sample].
      assert (S2 : forall n, 1 <= n < 2 ^ 32 -> sample_len U32 (mksample (mkfilter 2 2 1) (mkpadding 0 0)) n
                 = if n mod 2 =? 0 then Ret (n / 2) else Exn InvalidArgument).
      { clear. intros n Hn. pose proof (Z.div_mod n 2 ltac:(lia)). pose proof (Z.mod_pos_bound n 2 ltac:(lia)).
        destruct (C01_sample_length U32 2 2 1 0 0 n ltac:(lia) ltac:(lia) ltac:(lia) ltac:(lia) ltac:(lia) ltac:(lia)
          ltac:(unfold fits; lia) ltac:(unfold fits, span; lia) (mksample (mkfilter 2 2 1) (mkpadding 0 0))
          ltac:(apply new_sample_iff; repeat split; lia)) as [Q1 Q2].
        unfold valid_config, span in Q1, Q2. destruct (Z.eqb_spec (n mod 2) 0).
        - apply Q1. lia.
        - apply Q2. intros m. lia. }
      rewrite !S2 by lia. destruct (Z.eqb_spec (h mod 2) 0); cbn [obind]; [|reflexivity].
      destruct (Z.eqb_spec (w mod 2) 0); cbn [obind]; [tauto|reflexivity]. }
    rewrite EN. apply ends_lift_exn. exact F.
  Qed.
End Steps.
