(** Property C87: invoke, and the concatenation layers. *)
From Coq Require Import ZArith List Bool Lia.
From Verif Require Import Base BaseFacts TensorFacts Traits TraitsFacts Scalar LinAlg LinAlgFacts Elem ElemSpec ElemFacts ConvFacts
  Shapes Layers LayersSpec LayersFacts LayerCalls Examples Invoke PropsElem Demo.
Import ListNotations.
Open Scope Z_scope.
Open Scope model_scope.

Section Invoke.
  Context {V T : Type} (dt : dtype V T).

  (** *** C87: a call creates one tensor with the result, and changes nothing
      else. *)
  Theorem C87_invoke : forall sh ds op Y s, fresh_ok s -> sh = Ret ds -> Forall (fun d => 0 <= d) ds ->
    (forall s1 y, grown s s1 [y] -> tdims y = ds -> writes dt (op y) s1 y Y) ->
    exists y s', invoke sh op s = Ok y s' /\ grown s s' [y] /\ has dt s' y (ds, Y).
  Proof using.
    intros sh ds op Y s F -> Nd Hop.
    destruct (new_then dt s s [] ds Y op (grown_nil s F) Nd) as (y & s2 & E & G & D & H & _ & _).
    { intros s2 y B. apply Hop; [|apply B]. apply (grown_born s s s2 [] y ds (grown_nil s F) B). }
    exists y, s2. split; [|split; [exact G|split; [exact D|exact H]]].
    unfold invoke, moved_out. cbn [lift]. rewrite bind_ret_l. destruct (new_tensor_born s ds F) as (y' & s1 & E1 & B).
    rewrite (bind_ok _ _ _ _ _ E1) in E. rewrite (bind_ok _ _ _ _ _ E1), E. reflexivity.
  Qed.

  (** A shape function that throws: nothing happened. *)
  Theorem C87_invoke_rejects : forall sh op e (s : st V), sh = Exn e -> invoke sh op s = Throw e s.
  Proof using. intros sh op e s ->. reflexivity. Qed.

  (** An operator that throws: memory is as before the call. *)
  Theorem C87_invoke_throws : forall sh ds op e (s : st V), fresh_ok s -> sh = Ret ds -> init_fails op ds e ->
    exists s', invoke sh op s = Throw e s' /\ forall p, cells s' p = cells s p.
  Proof using.
    intros sh ds op e s F -> Hop. destruct (new_tensor_born s ds F) as (y & s1 & E & B).
    pose proof (grown_born s s s1 [] y ds (grown_nil s F) B) as G.
    destruct B as (B1 & B2 & B3 & B4 & B5 & B6 & B7 & _).
    destruct (Hop s1 y B6 B1 B5) as (s3 & E3 & O & M3).
    destruct (grown_change s s1 s3 [y] y G) as [G3 _]; auto; [left; auto|].
    exists (release [y] s3). split; [|apply (grown_release_all s s3 [y]); auto].
    unfold invoke, moved_out. cbn [lift]. rewrite bind_ret_l, (bind_ok _ _ _ _ _ E). unfold bind. rewrite E3. reflexivity.
  Qed.

  (** In contrast, ops::new_result leaves the tensor behind. *)
  Theorem C87_new_result_throws : forall sh ds op e (s : st V), fresh_ok s -> sh = Ret ds -> init_fails op ds e ->
    exists y s', new_result sh op s = Throw e s' /\ grown s s' [y] /\ tdims y = ds.
  Proof using.
    intros sh ds op e s F -> Hop. destruct (new_then_throws s s [] ds e op (grown_nil s F) Hop) as (y & s' & E & G & D).
    exists y, s'. split; [|auto]. unfold new_result. cbn [lift]. rewrite bind_ret_l. exact E.
  Qed.

  (** invoke(add(), x, y) and invoke(matmul(), x, y). *)
  Theorem C87_add : forall sc x y ds X Y s, input dt s x (ds, X) -> input dt s y (ds, Y) ->
    exists z s', invoke (binary_endofunction (tdims x) (tdims y)) (fun z => op_add dt sc z x y) s = Ok z s' /\
      grown s s' [z] /\ has dt s' z (ds, fun ix => sadd sc (X ix) (Y ix)).
  Proof using.
    intros sc x y ds X Y s I J. pose proof (input_mapped dt s x _ I) as Mx. pose proof (input_mapped dt s y _ J) as My.
    destruct I as (F & N & Ex & HX). destruct J as (_ & _ & Ey & HY). cbn [fst snd] in *. apply C87_invoke; auto.
    - unfold binary_endofunction, shape_eqb. rewrite Ex, Ey. destruct (list_eq_dec _ _ _); [reflexivity|congruence].
    - intros s1 z G Dz. apply C27_add; try congruence.
      + unfold dims_ok. rewrite Dz. exact N.
      + apply (grown_holds dt s s1 [z] x X); auto.
      + apply (grown_holds dt s s1 [z] y Y); auto.
      + destruct G as (_ & _ & _ & A & _). rewrite Forall_forall in A. apply (A z). left; auto.
      + left. apply (grown_disjoint s s1 [z] x z); auto. left; auto.
      + left. apply (grown_disjoint s s1 [z] y z); auto. left; auto.
  Qed.

  Theorem C87_matmul : forall sc e x y m k n X Y s, input dt s x ([m; k], X) -> input dt s y ([k; n], Y) ->
    engine_ok sc e [m; k; n] ->
    exists z s', invoke (matmul_shape (tdims x) (tdims y)) (fun z => op_matmul dt sc e z x y) s = Ok z s' /\
      grown s s' [z] /\ has dt s' z ([m; n], matmul_fn sc k X Y).
  Proof using.
    intros sc e x y m k n X Y s I J He. pose proof (input_mapped dt s x _ I) as Mx. pose proof (input_mapped dt s y _ J) as My.
    destruct I as (F & N & Ex & HX). destruct J as (_ & N' & Ey & HY). cbn [fst snd] in *.
    rewrite !Forall_cons_iff in N, N'. apply C87_invoke; auto.
    - rewrite Ex, Ey. unfold matmul_shape. cbn [nth]. rewrite Z.eqb_refl. reflexivity.
    - repeat constructor; tauto.
    - intros s1 z G Dz. apply (C26_matmul dt sc e z x y m k n X Y s1); auto; try tauto.
      + apply (grown_holds dt s s1 [z] x X); auto.
      + apply (grown_holds dt s s1 [z] y Y); auto.
      + destruct G as (_ & _ & _ & A & _). rewrite Forall_forall in A. apply (A z). left; auto.
      + apply (grown_disjoint s s1 [z] x z); auto. left; auto.
      + apply (grown_disjoint s s1 [z] y z); auto. left; auto.
  Qed.

  Theorem C87_matmul_rejects : forall sc e x y m k k' n (s : st V), tdims x = [m; k] -> tdims y = [k'; n] -> k <> k' ->
    invoke (matmul_shape (tdims x) (tdims y)) (fun z => op_matmul dt sc e z x y) s = Throw RuntimeError s.
  Proof using.
    intros sc e x y m k k' n s -> -> N. apply C87_invoke_rejects. unfold matmul_shape. cbn [nth].
    destruct (Z.eqb_spec k k'); [contradiction|reflexivity].
  Qed.
End Invoke.

(** *** C87: the concatenation layers. *)
Section Concat.
  Context {V T : Type} (dt : dtype V T).

  Lemma new_layer : forall sh ds op Y s, fresh_ok s -> sh = Ret ds -> Forall (fun d => 0 <= d) ds ->
    (forall s1 y, grown s s1 [y] -> tdims y = ds -> writes dt (op y) s1 y Y) ->
    creates dt (y <- new_result sh op ;; ret (mklayer y [])) s (ds, Y) [].
  Proof using.
    intros sh ds op Y s F -> Nd Hop.
    destruct (new_then dt s s [] ds Y op (grown_nil s F) Nd) as (y & s2 & E & G & D & H & _ & _).
    { intros s2 y B. apply Hop; [|apply B]. apply (grown_born s s s2 [] y ds (grown_nil s F) B). }
    exists (mklayer y []), s2. split; [|split; [exact G|split; [split; auto|constructor]]].
    unfold new_result. cbn [lift]. rewrite (bind_ok _ _ s y s2); [reflexivity|]. rewrite bind_ret_l. exact E.
  Qed.

  Lemma new_facts : forall s s1 z x xd X, grown s s1 [z] -> input dt s x (xd, X) -> holds dt s1 x X /\ disjoint z x /\ mapped s1 z.
  Proof using.
    intros s s1 z x xd X G I. pose proof (input_mapped dt s x _ I) as Mx. destruct I as (F & N & Ex & HX). cbn [fst snd] in *.
    split; [apply (grown_holds dt s s1 [z] x X); auto|]. split; [apply (grown_disjoint s s1 [z] x z); auto; left; auto|].
    destruct G as (_ & _ & _ & A & _). rewrite Forall_forall in A. apply (A z). left; auto.
  Qed.

  Lemma input_ok : forall s x xd X, input dt s x (xd, X) -> dims_ok x /\ tdims x = xd.
  Proof using. intros s x xd X (F & N & Ex & HX). unfold dims_ok. rewrite Ex. auto. Qed.

  Theorem C87_concat_nchw : forall x y n c1 c2 h w X Y s,
    input dt s x ([n; c1; h; w], X) -> input dt s y ([n; c2; h; w], Y) -> c1 + c2 < 2 ^ 32 ->
    exists F, creates dt (concat_layer_nchw2 dt x y) s ([n; c1 + c2; h; w], F) [] /\
      (forall l k i j, 0 <= k < c1 -> F [l; k; i; j] = X [l; k; i; j]) /\
      (forall l k i j, 0 <= k -> F [l; c1 + k; i; j] = Y [l; k; i; j]).
  Proof using.
    intros x y n c1 c2 h w X Y s I J Hc. exists (arg4 (fun l k i j => if k <? c1 then X [l; k; i; j] else Y [l; k - c1; i; j])).
    destruct (input_ok _ _ _ _ I) as [Dx Ex]. destruct (input_ok _ _ _ _ J) as [Dy Ey].
    assert (Nn : 0 <= n /\ 0 <= c1 /\ 0 <= h /\ 0 <= w /\ 0 <= c2).
    { unfold dims_ok in *. rewrite Ex in Dx. rewrite Ey in Dy. rewrite !Forall_cons_iff in Dx, Dy. tauto. }
    split; [|split; intros l k i j Hk; unfold arg4; cbn [nth]].
    - apply new_layer; [apply I| | |].
      + rewrite Ex, Ey. cbn [concat_shape obind]. unfold concat2shapes. cbn [concat2_from Nat.eqb]. unfold ocontract. rewrite !Z.eqb_refl. cbn [obind].
        unfold iadd. cbn [norm obind]. rewrite Z.mod_small by lia. reflexivity.
      + repeat constructor; lia.
      + intros s2 z G Dz. destruct (new_facts s s2 z x _ X G I) as (HX & D1 & Mz). destruct (new_facts s s2 z y _ Y G J) as (HY & D2 & _).
        apply (concat_nchw2_writes dt z x y n c1 c2 h w X Y); auto.
    - destruct (Z.ltb_spec k c1); [reflexivity|lia].
    - destruct (Z.ltb_spec (c1 + k) c1); [lia|]. do 3 f_equal. lia.
  Qed.

  Theorem C87_concat_nhwc : forall x y z n h w c1 c2 c3 X Y Z_ s,
    input dt s x ([n; h; w; c1], X) -> input dt s y ([n; h; w; c2], Y) -> input dt s z ([n; h; w; c3], Z_) ->
    c1 + (c2 + c3) < 2 ^ 32 ->
    exists F, creates dt (concat_layer_nhwc3 dt x y z) s ([n; h; w; c1 + (c2 + c3)], F) [] /\
      (forall l i j k, 0 <= k < c1 -> F [l; i; j; k] = X [l; i; j; k]) /\
      (forall l i j k, 0 <= k < c2 -> F [l; i; j; c1 + k] = Y [l; i; j; k]) /\
      (forall l i j k, 0 <= k < c3 -> F [l; i; j; c1 + c2 + k] = Z_ [l; i; j; k]).
  Proof using.
    intros x y z n h w c1 c2 c3 X Y Z_ s I J K Hc.
    exists (arg4 (fun l i j k => if k <? c1 then X [l; i; j; k]
                            else if k <? c1 + c2 then Y [l; i; j; k - c1]
                            else Z_ [l; i; j; k - c1 - c2])).
    destruct (input_ok _ _ _ _ I) as [Dx Ex]. destruct (input_ok _ _ _ _ J) as [Dy Ey]. destruct (input_ok _ _ _ _ K) as [Dz Ez].
    assert (Nn : 0 <= n /\ 0 <= c1 /\ 0 <= h /\ 0 <= w /\ 0 <= c2 /\ 0 <= c3).
    { unfold dims_ok in *. rewrite Ex in Dx. rewrite Ey in Dy. rewrite Ez in Dz. rewrite !Forall_cons_iff in Dx, Dy, Dz. tauto. }
    split.
    - apply new_layer; [apply I| | |].
      + rewrite Ex, Ey, Ez. cbn [concat_shape obind]. unfold concat2shapes. cbn [concat2_from Nat.eqb]. unfold ocontract. rewrite !Z.eqb_refl. cbn [obind].
        unfold iadd. cbn [norm obind concat2_from Nat.eqb]. unfold ocontract. rewrite !Z.eqb_refl. cbn [obind]. unfold iadd. cbn [norm obind].
        rewrite (Z.mod_small (c2 + c3)) by lia. rewrite Z.mod_small by lia. reflexivity.
      + repeat constructor; lia.
      + intros s2 t G Dt. destruct (new_facts s s2 t x _ X G I) as (HX & D1 & Mz). destruct (new_facts s s2 t y _ Y G J) as (HY & D2 & _).
        destruct (new_facts s s2 t z _ Z_ G K) as (HZ & D3 & _).
        apply (concat_nhwc3_writes dt t x y z n h w c1 c2 c3 X Y Z_); auto.
    - repeat split; intros l i j k Hk; unfold arg4; cbn [nth].
      + destruct (Z.ltb_spec k c1); [reflexivity|lia].
      + destruct (Z.ltb_spec (c1 + k) c1); [lia|]. destruct (Z.ltb_spec (c1 + k) (c1 + c2)); [|lia]. do 5 f_equal. lia.
      + destruct (Z.ltb_spec (c1 + c2 + k) c1); [lia|]. destruct (Z.ltb_spec (c1 + c2 + k) (c1 + c2)); [lia|]. do 5 f_equal. lia.
  Qed.

  (** Inputs that differ off the channel axis: nothing happened. *)
  Theorem C87_concat_rejects_nchw : forall x y n c1 h w n' c2 h' w' (s : st V),
    tdims x = [n; c1; h; w] -> tdims y = [n'; c2; h'; w'] -> [n; h; w] <> [n'; h'; w'] ->
    concat_layer_nchw2 dt x y s = Throw RuntimeError s.
  Proof using.
    intros x y n c1 h w n' c2 h' w' s Ex Ey N. unfold concat_layer_nchw2, new_result. rewrite Ex, Ey.
    cbn [concat_shape obind]. unfold concat2shapes. cbn [concat2_from Nat.eqb]. unfold ocontract.
    destruct (Z.eqb_spec n n') as [->|]; cbn [obind]; [|reflexivity].
    destruct (Z.eqb_spec h h') as [->|]; cbn [obind]; [|reflexivity].
    destruct (Z.eqb_spec w w') as [->|]; cbn [obind]; [|reflexivity]. contradiction.
  Qed.

  Theorem C87_concat_rejects_nhwc : forall x y z n h w c1 n' h' w' c2 n'' h'' w'' c3 (s : st V),
    tdims x = [n; h; w; c1] -> tdims y = [n'; h'; w'; c2] -> tdims z = [n''; h''; w''; c3] ->
    [n; h; w] <> [n'; h'; w'] \/ [n; h; w] <> [n''; h''; w''] ->
    concat_layer_nhwc3 dt x y z s = Throw RuntimeError s.
  Proof using.
    intros x y z n h w c1 n' h' w' c2 n'' h'' w'' c3 s Ex Ey Ez N. unfold concat_layer_nhwc3, new_result. rewrite Ex, Ey, Ez.
    cbn [concat_shape obind]. unfold concat2shapes. cbn [concat2_from Nat.eqb]. unfold ocontract.
    destruct (Z.eqb_spec n' n'') as [->|]; cbn [obind]; [|reflexivity].
    destruct (Z.eqb_spec h' h'') as [->|]; cbn [obind]; [|reflexivity].
    destruct (Z.eqb_spec w' w'') as [->|]; cbn [obind]; [|reflexivity].
    unfold iadd. cbn [norm obind concat2_from Nat.eqb]. unfold ocontract.
    destruct (Z.eqb_spec n n'') as [->|]; cbn [obind]; [|reflexivity].
    destruct (Z.eqb_spec h h'') as [->|]; cbn [obind]; [|reflexivity].
    destruct (Z.eqb_spec w w'') as [->|]; cbn [obind]; [|reflexivity]. tauto.
  Qed.

  (** Channel counts are added in 32 bits: when the sum does not fit, the layer
      succeeds and returns a part of the first input only. *)
  Theorem C87_concat_wraps_nchw : forall x y n c1 c2 h w X Y s,
    input dt s x ([n; c1; h; w], X) -> input dt s y ([n; c2; h; w], Y) -> c1 < 2 ^ 32 -> c2 < 2 ^ 32 -> 2 ^ 32 <= c1 + c2 ->
    creates dt (concat_layer_nchw2 dt x y) s ([n; c1 + c2 - 2 ^ 32; h; w], X) [].
  Proof using.
    intros x y n c1 c2 h w X Y s I J H1 H2 Hc.
    destruct (input_ok _ _ _ _ I) as [Dx Ex]. destruct (input_ok _ _ _ _ J) as [Dy Ey].
    assert (Nn : 0 <= n /\ 0 <= c1 /\ 0 <= h /\ 0 <= w /\ 0 <= c2).
    { unfold dims_ok in *. rewrite Ex in Dx. rewrite Ey in Dy. rewrite !Forall_cons_iff in Dx, Dy. tauto. }
    apply new_layer; [apply I| | |].
    - rewrite Ex, Ey. cbn [concat_shape obind]. unfold concat2shapes. cbn [concat2_from Nat.eqb]. unfold ocontract. rewrite !Z.eqb_refl. cbn [obind].
      unfold iadd. cbn [norm obind]. replace ((c1 + c2) mod 2 ^ 32) with (c1 + c2 - 2 ^ 32); [reflexivity|].
      symmetry. rewrite <- (Z.mod_small (c1 + c2 - 2 ^ 32) (2 ^ 32)) by lia.
      rewrite <- (Z_mod_plus_full (c1 + c2 - 2 ^ 32) 1). f_equal. lia.
    - repeat constructor; lia.
    - intros s2 z G Dz. destruct (new_facts s s2 z x _ X G I) as (HX & D1 & Mz). destruct (new_facts s s2 z y _ Y G J) as (HY & D2 & _).
      eapply writes_ext; [symmetry|reflexivity|].
      { unfold concat_nchw2, nth_dim. rewrite Ex, Dz. cbn [nth]. rewrite for_nest4, <- Dz. reflexivity. }
      apply writes_loop; auto.
      { unfold dims_ok. rewrite Dz. repeat constructor; lia. }
      intros ix s' Hix N F O. assert (Hix0 := Hix). rewrite Dz in Hix0. apply valid_4 in Hix0.
      destruct Hix0 as (l & k & i & j & -> & Hl & Hk & Hi & Hj). unfold arg4; cbn [nth].
      destruct (Z.ltb_spec k c1) as [Lt|Ge]; [|lia].
      erewrite bind_ok; [|apply (at_frame dt s2 s' x z X); auto; rewrite Ex; simpl; lia].
      apply set_ok. rewrite O. apply mapped_addr; auto.
  Qed.
End Concat.

(** Concrete calls. *)
Example C87_case_invoke :
  match invoke (matmul_shape [2; 2] [2; 1]) (fun z => op_matmul zt Zsc Builtin z (T_ 0 [2; 2]) (T_ 1 [2; 1])) (demo [[1; 2; 3; 4]; [10; 100]]) with
  | Ok y s => tdims y = [2; 1] /\ dump s y = inits [210; 430]
  | _ => False
  end /\
  invoke (matmul_shape [2; 2] [1; 2]) (fun z => op_matmul zt Zsc Builtin z (T_ 0 [2; 2]) (T_ 1 [1; 2])) (demo [[1; 2; 3; 4]; [10; 100]])
    = Throw RuntimeError (demo [[1; 2; 3; 4]; [10; 100]]).
Proof. split; [vm_compute; auto|reflexivity]. Qed.

(** The initialiser of a tensor from a missing file throws after allocation:
    only new_result leaves a block behind. *)
Example C87_case_throws :
  let op := fun y : tensor => @throw Z unit RuntimeError in
  match invoke (Ret [3]) op (demo [[7]]), new_result (Ret [3]) op (demo [[7]]) with
  | Throw _ s, Throw _ s' => cells s (1, 0) = Unmapped /\ cells s' (1, 0) = Uninit
  | _, _ => False
  end.
Proof. vm_compute. auto. Qed.

Example C87_case_concat :
  match concat_layer_nchw2 zt (T_ 0 [1; 1; 1; 2]) (T_ 1 [1; 2; 1; 2]) (demo [[1; 2]; [3; 4; 5; 6]]) with
  | Ok l s => tdims (output l) = [1; 3; 1; 2] /\ dump s (output l) = inits [1; 2; 3; 4; 5; 6]
  | _ => False
  end /\
  match concat_layer_nhwc3 zt (T_ 0 [1; 1; 2; 1]) (T_ 1 [1; 1; 2; 2]) (T_ 0 [1; 1; 2; 1]) (demo [[1; 2]; [3; 4; 5; 6]]) with
  | Ok l s => tdims (output l) = [1; 1; 2; 4] /\ dump s (output l) = inits [1; 3; 4; 1; 2; 5; 6; 2]
  | _ => False
  end.
Proof. vm_compute. auto. Qed.

Print Assumptions C87_invoke.
Print Assumptions C87_invoke_rejects.
Print Assumptions C87_invoke_throws.
Print Assumptions C87_new_result_throws.
Print Assumptions C87_add.
Print Assumptions C87_matmul.
Print Assumptions C87_matmul_rejects.
Print Assumptions C87_concat_nchw.
Print Assumptions C87_concat_nhwc.
Print Assumptions C87_concat_rejects_nchw.
Print Assumptions C87_concat_rejects_nhwc.
Print Assumptions C87_concat_wraps_nchw.
