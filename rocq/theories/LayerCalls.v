(** Proofs about the calls of the individual layers and of compositions. *)
From Coq Require Import ZArith List Bool Lia Permutation.
From Verif Require Import Base BaseFacts TensorFacts ActivationFacts Traits TraitsSpec Scalar LinAlg Conv ConvSpec ConvFacts PropsConv
  Elem ElemSpec ElemFacts PropsElem Pool Layers LayersSpec LayersFacts.
Import ListNotations.
Open Scope Z_scope.
Open Scope model_scope.

Section LayerCalls.
  Context {V T : Type} (dt : dtype V T) (di : dtype V Z) (sc : scalar T).

  Definition wd_of (io : order) (c : conv_conf) (xd : list Z) : list Z :=
    conv_filter_shape (filter_of io) (channel_size io xd) [c_kh c; c_kw c] (c_filters c).

  Lemma conv_start_ok : forall e io c C w_init ds W Y s x X xd,
    input dt s x (xd, X) -> let wd := wd_of io c xd in
    Forall (fun d => 0 <= d) wd -> Forall (fun d => 0 <= d) ds ->
    conf_trait c (image_shape io xd) = Ret C -> conv_infer C io (filter_of io) xd wd = Ret ds ->
    fills dt w_init wd W ->
    (forall s2 w y, fresh_ok s2 -> holds dt s2 x X -> holds dt s2 w W -> tdims w = wd -> tdims y = ds -> mapped s2 y ->
       disjoint y x -> disjoint y w -> writes dt (op_conv dt di sc io e C y x w) s2 y Y) ->
    exists w y s2, conv_start dt di sc e io c w_init x s = Ok (w, y) s2 /\ grown s s2 [y; w] /\
      tdims w = wd /\ tdims y = ds /\ holds dt s2 w W /\ holds dt s2 y Y.
  Proof using.
    intros e io c C w_init ds W Y s x X xd I wd Nw Nd EC EI HW Hop.
    pose proof (input_mapped dt s x _ I) as Mx. destruct I as (Fr & N & Ex & HX). cbn [fst snd] in *.
    destruct (param dt s s [] wd W w_init) as (w & s1 & E1 & G1 & Dw & Hw & Bw & C1); [apply grown_nil; auto|auto|auto|].
    destruct (new_then dt s s1 [w] ds Y (fun y => op_conv dt di sc io e C y x w))
      as (y & s2 & E2 & G2 & Dy & Hy & By & C2); [auto|auto| |].
    { intros s2 y Bn. pose proof (grown_born s s1 s2 [w] y _ G1 Bn) as G.
      destruct Bn as (B1 & B2 & B3 & B4 & B5 & B6 & B7 & _). apply Hop; auto.
      - apply (grown_holds dt s s2 [y; w] x X); auto.
      - apply (keep dt s s1 s2 [w] w W); auto. left; auto.
      - apply (grown_disjoint s s2 [y; w] x y); auto. left; auto.
      - apply blk_disjoint. apply (later s s1 [w] w y); auto. left; auto. }
    exists w, y, s2. split; [|split; [exact G2|]; split; [exact Dw|]; split; [exact Dy|]; split; [|exact Hy]].
    - unfold conv_start. cbv zeta. rewrite Ex. fold (wd_of io c xd). fold wd.
      rewrite (bind_ok _ _ _ _ _ E1), EC. cbn [lift]. rewrite bind_ret_l. rewrite EI.
      unfold new_result. cbn [lift]. rewrite (bind_ok _ _ s1 y s2); [reflexivity|]. rewrite bind_ret_l. exact E2.
    - apply (keep dt s s1 s2 [w] w W); auto. left; auto.
  Qed.

  Lemma conv_layer_creates : forall e io act c C w_init ds W Y F s x X xd,
    input dt s x (xd, X) -> let wd := wd_of io c xd in
    Forall (fun d => 0 <= d) wd -> Forall (fun d => 0 <= d) ds ->
    conf_trait c (image_shape io xd) = Ret C -> conv_infer C io (filter_of io) xd wd = Ret ds ->
    fills dt w_init wd W -> acts dt act ds F ->
    (forall s2 w y, fresh_ok s2 -> holds dt s2 x X -> holds dt s2 w W -> tdims w = wd -> tdims y = ds -> mapped s2 y ->
       disjoint y x -> disjoint y w -> writes dt (op_conv dt di sc io e C y x w) s2 y Y) ->
    creates dt (conv_layer dt di sc e io act c w_init x) s (ds, F Y) [(wd, W)].
  Proof using.
    intros e io act c C w_init ds W Y F s x X xd I wd Nw Nd EC EI HW HF Hop.
    destruct (conv_start_ok e io c C w_init ds W Y s x X xd I Nw Nd EC EI HW Hop)
      as (w & y & s2 & E2 & G2 & Dw & Dy & Hw & Hy).
    assert (Nyw : tblk y <> tblk w).
    { destruct G2 as (_ & _ & D & _). cbn [map] in D. inversion D as [|? ? Q _]. intros E. apply Q. left; auto. }
    destruct (grown_writes dt s s2 [y; w] y (F Y) (act y y)) as (s5 & E5 & G5 & H5 & C5); auto;
      [left; auto|rewrite Dy; auto|apply HF; auto; apply G2|].
    exists (mklayer y [w]), s5. split; [|split; [exact G5|split]].
    - unfold conv_layer. rewrite (bind_ok _ _ _ _ _ E2), (bind_ok _ _ _ _ _ E5). reflexivity.
    - split; auto.
    - constructor; [|constructor]. split; [exact Dw|]. eapply holds_off; [|exact C5|exact Hw]. auto.
  Qed.

  Lemma conv_bias_layer_creates : forall e io p act c C w_init b_init ds W B Y F s x X xd,
    bias_layout io 4 p -> length ds = 4%nat -> nth p ds 0 = c_filters c -> 0 <= c_filters c ->
    input dt s x (xd, X) -> let wd := wd_of io c xd in
    Forall (fun d => 0 <= d) wd -> Forall (fun d => 0 <= d) ds ->
    conf_trait c (image_shape io xd) = Ret C -> conv_infer C io (filter_of io) xd wd = Ret ds ->
    fills dt w_init wd W -> fills dt b_init [c_filters c] B -> acts dt act ds F ->
    (forall s2 w y, fresh_ok s2 -> holds dt s2 x X -> holds dt s2 w W -> tdims w = wd -> tdims y = ds -> mapped s2 y ->
       disjoint y x -> disjoint y w -> writes dt (op_conv dt di sc io e C y x w) s2 y Y) ->
    creates dt (conv_bias_layer dt di sc e io act c w_init b_init x) s
      (ds, F (fun ix => sadd sc (Y ix) (B [nth p ix 0]))) [(wd, W); ([c_filters c], B)].
  Proof using.
    intros e io p act c C w_init b_init ds W B Y F s x X xd L Len Ep Hf I wd Nw Nd EC EI HW HB HF Hop.
    destruct (conv_start_ok e io c C w_init ds W Y s x X xd I Nw Nd EC EI HW Hop)
      as (w & y & s2 & E2 & G2 & Dw & Dy & Hw & Hy).
    assert (Nyw : tblk y <> tblk w).
    { destruct G2 as (_ & _ & D & _). cbn [map] in D. inversion D as [|? ? Q _]. intros E. apply Q. left; auto. }
    destruct (param dt s s2 [y; w] [c_filters c] B b_init) as (b & s3 & E3 & G3 & Db & Hb & Bb & C3);
      [auto|repeat constructor; lia|auto|].
    assert (Hw3 : holds dt s3 w W) by (apply (keep dt s s2 s3 [y; w] w W); auto; right; left; auto).
    assert (Hy3 : holds dt s3 y Y) by (apply (keep dt s s2 s3 [y; w] y); auto; left; auto).
    assert (Nyb : tblk b <> tblk y) by (apply (later s s2 [y; w] y b); auto; left; auto).
    assert (Nwb : tblk b <> tblk w) by (apply (later s s2 [y; w] w b); auto; right; left; auto).
    assert (Ny : Forall (fun d => 0 <= d) (tdims y)) by (rewrite Dy; auto).
    destruct (grown_writes dt s s3 [b; y; w] y (fun ix => sadd sc (Y ix) (B [nth p ix 0]))
                (op_bias dt io (f_add sc) y y b)) as (s4 & E4 & G4 & H4 & C4); auto; [right; left; auto| |].
    { apply (C30_add_bias dt sc io 4 p y y b (c_filters c) _ B s3); auto.
      - rewrite Dy. exact Len.
      - rewrite Dy. exact Ep.
      - eapply holds_mapped; eauto.
      - apply safe_refl.
      - apply blk_disjoint. auto. }
    destruct (grown_writes dt s s4 [b; y; w] y (F (fun ix => sadd sc (Y ix) (B [nth p ix 0])))
                (act y y)) as (s5 & E5 & G5 & H5 & C5); auto; [right; left; auto|apply HF; auto; apply G4|].
    exists (mklayer y [w; b]), s5. split; [|split; [|split]].
    - unfold conv_bias_layer.
      rewrite (bind_ok _ _ _ _ _ E2), (bind_ok _ _ _ _ _ E3), (bind_ok _ _ _ _ _ E4), (bind_ok _ _ _ _ _ E5). reflexivity.
    - eapply grown_perm; [|exact G5]. unfold owned. cbn [output weights]. apply Permutation_sym.
      apply (Permutation_cons_app [b] [w] y). apply perm_swap.
    - split; auto.
    - assert (K : forall t Q, tblk t <> tblk y -> holds dt s3 t Q -> holds dt s5 t Q).
      { intros t Q Nt Ht. eapply holds_off; [exact Nt|exact C5|]. eapply holds_off; [exact Nt|exact C4|exact Ht]. }
      constructor; [split; [exact Dw|apply K; auto]|]. constructor; [split; [exact Db|apply K; auto]|constructor].
  Qed.

  (** A layer that is just new_result. *)
  Lemma result_creates : forall sh ds op Y s x X xd,
    input dt s x (xd, X) -> sh = Ret ds -> Forall (fun d => 0 <= d) ds ->
    (forall s2 y, fresh_ok s2 -> holds dt s2 x X -> tdims y = ds -> mapped s2 y -> disjoint y x -> writes dt (op y) s2 y Y) ->
    creates dt (y <- new_result sh op ;; ret (mklayer y [])) s (ds, Y) [].
  Proof using.
    intros sh ds op Y s x X xd I -> Nd Hop.
    pose proof (input_mapped dt s x _ I) as Mx. destruct I as (Fr & N & Ex & HX). cbn [fst snd] in *.
    destruct (new_then dt s s [] ds Y op) as (y & s2 & E2 & G2 & Dy & Hy & By & C2); [apply grown_nil; auto|auto| |].
    { intros s2 y Bn. pose proof (grown_born s s s2 [] y _ (grown_nil s Fr) Bn) as G.
      destruct Bn as (B1 & B2 & B3 & B4 & B5 & B6 & B7 & _). apply Hop; auto.
      - apply (grown_holds dt s s2 [y] x X); auto.
      - apply (grown_disjoint s s2 [y] x y); auto. left; auto. }
    exists (mklayer y []), s2. split; [|split; [exact G2|split; [split; auto|constructor]]].
    unfold new_result. cbn [lift]. rewrite (bind_ok _ _ s y s2); [reflexivity|]. rewrite bind_ret_l. exact E2.
  Qed.

  (** Composition. *)
  Lemma composed_creates : forall f g s x Y Ws Z Us, fresh_ok s -> Forall (fun d => 0 <= d) (fst Y) ->
    creates dt (f x) s Y Ws ->
    (forall s' y, input dt s' y Y -> creates dt (g y) s' Z Us) ->
    creates dt (composed f g x) s Z Us.
  Proof using.
    intros f g s x Y Ws Z Us F N (l & s1 & E1 & G1 & H1 & W1) Hg.
    destruct (Hg s1 (output l)) as (k & s2 & E2 & G2 & H2 & W2); [split; [apply G1|split; auto]|].
    exists k, (release (owned l) s2). split; [|split; [|split]].
    - unfold composed, with_layer. rewrite E1, E2. reflexivity.
    - apply (grown_release s s1 s2); auto.
    - apply (release_has dt s s1 s2 (owned l) (owned k)); auto. left; auto.
    - assert (K : forall u, In u (weights k) -> In u (owned k)) by (intros u Iu; right; auto). revert K. clear Hg.
      revert W2. generalize (weights k). intros us WF K. induction WF as [|u U us Us' Hu WF IH]; constructor.
      + apply (release_has dt s s1 s2 (owned l) (owned k)); auto. apply K. left; auto.
      + apply IH. intros v Iv. apply K. right; auto.
  Qed.

  Lemma composed_leaks_second : forall f g s x Y Ws e sh, fresh_ok s -> Forall (fun d => 0 <= d) (fst Y) ->
    creates dt (f x) s Y Ws ->
    (forall s' y, input dt s' y Y -> leaks (g y) s' e sh) ->
    leaks (composed f g x) s e sh.
  Proof using.
    intros f g s x Y Ws e sh F N (l & s1 & E1 & G1 & H1 & W1) Hg.
    destruct (Hg s1 (output l)) as (ts & s2 & E2 & G2 & H2); [split; [apply G1|split; auto]|].
    exists ts, (release (owned l) s2). split; [|split; [|exact H2]].
    - unfold composed, with_layer. rewrite E1, E2. reflexivity.
    - apply (grown_release s s1 s2); auto.
  Qed.

  Lemma composed_leaks_first : forall (f g : tensor -> M V layer) s x e sh, leaks (f x) s e sh -> leaks (composed f g x) s e sh.
  Proof using.
    intros f g s x e sh (ts & s1 & E1 & G1 & H1). exists ts, s1. split; [|auto]. unfold composed, with_layer. rewrite E1. reflexivity.
  Qed.
End LayerCalls.
