(** Property C10: layout transposition. *)
From Coq Require Import ZArith List Bool Lia.
From Verif Require Import Base BaseFacts TensorFacts Transpose Demo.
Import ListNotations.
Open Scope Z_scope.
Open Scope model_scope.

Section Props.
  Context {V R S_ : Type} (dr : dtype V R) (ds : dtype V S_) (f : S_ -> R).

  (** *** C10: every element is moved and nothing else changes. *)
  Theorem C10_to_first : forall y x n h w c X s,
    tdims x = [n; h; w; c] -> tdims y = to_first_shape (tdims x) -> dims_ok x ->
    holds ds s x X -> mapped s y -> disjoint y x ->
    writes dr (to_first dr ds f y x) s y (arg4 (fun l k i j => f (X [l; i; j; k]))).
  Proof.
    intros y x n h w c X s Ex Ey Dx HX HY D. rewrite Ex in Ey. unfold to_first_shape in Ey; cbn [nth] in Ey.
    unfold dims_ok in Dx. rewrite Ex, !Forall_cons_iff in Dx.
    assert (Dy : dims_ok y) by (unfold dims_ok; rewrite Ey; repeat constructor; tauto).
    eapply writes_ext; [symmetry|reflexivity|].
    { unfold to_first, nth_dim. rewrite Ex. cbn [nth]. rewrite for_nest4, <- Ey. reflexivity. }
    apply writes_loop; auto. intros ix s' Hix N F O. rewrite Ey in Hix. apply valid_4 in Hix.
    destruct Hix as (l & k & i & j & -> & Hl & Hk & Hi & Hj). unfold arg4; cbn [nth].
    erewrite bind_ok; [|apply (at_frame ds s s' x y X); auto; rewrite Ex; simpl; tauto].
    apply set_ok. rewrite O. apply mapped_addr; auto. rewrite Ey; simpl; tauto.
  Qed.

  Theorem C10_to_last : forall y x n c h w X s,
    tdims x = [n; c; h; w] -> tdims y = to_last_shape (tdims x) -> dims_ok x ->
    holds ds s x X -> mapped s y -> disjoint y x ->
    writes dr (to_last dr ds f y x) s y (arg4 (fun l i j k => f (X [l; k; i; j]))).
  Proof.
    intros y x n c h w X s Ex Ey Dx HX HY D. rewrite Ex in Ey. unfold to_last_shape in Ey; cbn [nth] in Ey.
    unfold dims_ok in Dx. rewrite Ex, !Forall_cons_iff in Dx.
    assert (Dy : dims_ok y) by (unfold dims_ok; rewrite Ey; repeat constructor; tauto).
    eapply writes_ext; [symmetry|reflexivity|].
    { unfold to_last, nth_dim. rewrite Ex. cbn [nth]. rewrite for_nest4, <- Ey. reflexivity. }
    apply writes_loop; auto. intros ix s' Hix N F O. rewrite Ey in Hix. apply valid_4 in Hix.
    destruct Hix as (l & i & j & k & -> & Hl & Hi & Hj & Hk). unfold arg4; cbn [nth].
    erewrite bind_ok; [|apply (at_frame ds s s' x y X); auto; rewrite Ex; simpl; tauto].
    apply set_ok. rewrite O. apply mapped_addr; auto. rewrite Ey; simpl; tauto.
  Qed.
End Props.

(** Shapes come back after both transpositions, in either order. *)
Theorem C10_shapes : forall x, length x = 4%nat ->
  to_last_shape (to_first_shape x) = x /\ to_first_shape (to_last_shape x) = x.
Proof. intros [|a [|b [|c [|d [|]]]]] E; try discriminate. split; reflexivity. Qed.

Section RoundTrip.
  Context {V T : Type} (dt : dtype V T).
  Notation fid := (fun v : T => v).

  (** Round trips with the identity function object: x -> y -> z. *)
  Theorem C10_first_last : forall z y x n h w c X s,
    tdims x = [n; h; w; c] -> tdims y = to_first_shape (tdims x) -> tdims z = tdims x -> dims_ok x ->
    holds dt s x X -> mapped s y -> mapped s z -> disjoint y x -> disjoint z y ->
    exists s', (to_first dt dt fid y x ;;; to_last dt dt fid z y) s = Ok tt s' /\ holds dt s' z X.
  Proof.
    intros z y x n h w c X s Ex Ey Ez Dx HX HY HZ D1 D2.
    destruct (C10_to_first dt dt fid y x n h w c X s) as (s1 & E1 & H1 & N1 & F1); auto.
    rewrite Ex in Ey, Ez. unfold to_first_shape in Ey; cbn [nth] in Ey.
    unfold dims_ok in Dx. rewrite Ex, !Forall_cons_iff in Dx.
    destruct (C10_to_last dt dt fid z y n c h w (arg4 (fun l k i j => X [l; i; j; k])) s1) as (s2 & E2 & H2 & _); auto.
    - rewrite Ey, Ez. reflexivity.
    - unfold dims_ok. rewrite Ey. repeat constructor; tauto.
    - intros p Hp. rewrite F1; [apply HZ; auto|]. intros Q. apply (D2 p); auto.
    - exists s2. rewrite (bind_ok _ _ _ _ _ E1). split; [exact E2|]. intros ix Hix. rewrite H2 by auto.
      rewrite Ez in Hix. apply valid_4 in Hix. destruct Hix as (l & i & j & k & -> & _). reflexivity.
  Qed.

  Theorem C10_last_first : forall z y x n c h w X s,
    tdims x = [n; c; h; w] -> tdims y = to_last_shape (tdims x) -> tdims z = tdims x -> dims_ok x ->
    holds dt s x X -> mapped s y -> mapped s z -> disjoint y x -> disjoint z y ->
    exists s', (to_last dt dt fid y x ;;; to_first dt dt fid z y) s = Ok tt s' /\ holds dt s' z X.
  Proof.
    intros z y x n c h w X s Ex Ey Ez Dx HX HY HZ D1 D2.
    destruct (C10_to_last dt dt fid y x n c h w X s) as (s1 & E1 & H1 & N1 & F1); auto.
    rewrite Ex in Ey, Ez. unfold to_last_shape in Ey; cbn [nth] in Ey.
    unfold dims_ok in Dx. rewrite Ex, !Forall_cons_iff in Dx.
    destruct (C10_to_first dt dt fid z y n h w c (arg4 (fun l i j k => X [l; k; i; j])) s1) as (s2 & E2 & H2 & _); auto.
    - rewrite Ey, Ez. reflexivity.
    - unfold dims_ok. rewrite Ey. repeat constructor; tauto.
    - intros p Hp. rewrite F1; [apply HZ; auto|]. intros Q. apply (D2 p); auto.
    - exists s2. rewrite (bind_ok _ _ _ _ _ E1). split; [exact E2|]. intros ix Hix. rewrite H2 by auto.
      rewrite Ez in Hix. apply valid_4 in Hix. destruct Hix as (l & i & j & k & -> & _). reflexivity.
  Qed.
End RoundTrip.

(** One 2x1 image with 3 channels, to channels first, negating the elements. *)
Example C10_example :
  run (to_first zt zt Z.opp (T_ 1 [1; 3; 2; 1]) (T_ 0 [1; 2; 1; 3])) (demo [[1; 2; 3; 4; 5; 6]; [0; 0; 0; 0; 0; 0]])
      (T_ 1 [1; 3; 2; 1]) = Some (inits [-1; -4; -2; -5; -3; -6]).
Proof. reflexivity. Qed.
Example C10_example_back :
  run (to_last zt zt (fun v => v) (T_ 1 [1; 2; 1; 3]) (T_ 0 [1; 3; 2; 1])) (demo [[1; 4; 2; 5; 3; 6]; [0; 0; 0; 0; 0; 0]])
      (T_ 1 [1; 2; 1; 3]) = Some (inits [1; 2; 3; 4; 5; 6]).
Proof. reflexivity. Qed.

Print Assumptions C10_to_first.
Print Assumptions C10_to_last.
Print Assumptions C10_shapes.
Print Assumptions C10_first_last.
Print Assumptions C10_last_first.
