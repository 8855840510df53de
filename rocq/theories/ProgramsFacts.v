(** Reasoning about programs made of local tensors and layers. *)
From Coq Require Import ZArith List Bool Lia String.
From Verif Require Import Base BaseFacts TensorFacts Scalar LinAlg Layers LayersSpec LayersFacts LayerCalls Programs ProgramsSpec.
Import ListNotations.
Open Scope Z_scope.
Open Scope model_scope.

Section Ends.
  Context {V T : Type} (dt : dtype V T).

  Lemma ends_ret : forall {A} (a : A) (s : st V), fresh_ok s -> ends (ret a) s (Ret a).
  Proof. intros A a s F. exists s. repeat split; auto. lia. Qed.

  Lemma ends_throw : forall {A} x (s : st V), fresh_ok s -> ends (@throw V A x) s (Exn x).
  Proof. intros A a s F. exists s. repeat split; auto. lia. Qed.

  (** Followed by more work. *)
  Lemma ends_bind : forall {A B} (m : M V A) (k : A -> M V B) s a o,
    ends m s (Ret a) -> (forall s1, fresh_ok s1 -> extends s s1 -> ends (k a) s1 o) ->
    ends (bind m k) s o.
  Proof.
    intros A B m k s a o (s1 & E & F & N & C) K.
    destruct (K s1 F) as (s2 & E2 & F2 & N2 & C2). { intros p _. apply C. }
    exists s2. split; [|split; [auto|split; [lia|intros p; rewrite C2; apply C]]].
    unfold bind. rewrite E. exact E2.
  Qed.

  Lemma ends_lift : forall {A B} (a : A) (k : A -> M V B) s o, ends (k a) s o -> ends (bind (lift (Ret a)) k) s o.
  Proof. intros A B a k s o H. exact H. Qed.

  Lemma ends_lift_exn : forall {A B} x (k : A -> M V B) s, fresh_ok s -> ends (bind (lift (Exn x)) k) s (Exn x).
  Proof. intros A B x k s F. exists s. repeat split; auto. lia. Qed.

  (** A local tensor, written by [m], then used by [k]. *)
  Lemma ends_tensor : forall {A} ds (m : tensor -> M V unit) (k : tensor -> M V A) X s o,
    Forall (fun d => 0 <= d) ds -> fresh_ok s ->
    (forall s1 t, fresh_ok s1 -> extends s s1 -> tdims t = ds -> mapped s1 t -> (forall u, mapped s u -> disjoint t u) ->
       writes dt (m t) s1 t X) ->
    (forall s2 t, input dt s2 t (ds, X) -> extends s s2 -> ends (k t) s2 o) ->
    ends (with_tensor ds (fun t => m t ;;; k t)) s o.
  Proof.
    intros A ds m k X s o N F W K.
    destruct (new_tensor_born s ds F) as (y & s1 & E & B).
    pose proof (grown_born s s s1 [] y ds (grown_nil s F) B) as G.
    assert (Ex1 : extends s s1).
    { intros p Hp. destruct G as (_ & _ & _ & A0 & C). apply C. cbn [map In]. intros [Q|[]].
      inversion A0 as [|? ? [Hb _] _]; subst. apply Hp. apply F. lia. }
    assert (Ey : tdims y = ds) by (unfold new_tensor, bind, alloc, ret in E; injection E as <- <-; reflexivity).
    assert (My : mapped s1 y) by (destruct G as (_ & _ & _ & A0 & _); inversion A0; tauto).
    destruct (W s1 y) as (s2 & E2 & N2 & H2 & O2); [apply G|auto|auto|auto| |].
    { intros u Hu. eapply (grown_disjoint s s1 [y]); eauto. left. reflexivity. }
    assert (G2 : grown s s2 [y]).
    { eapply (grown_change s s1 s2 [y] y); eauto; [left; reflexivity|split; auto|]. eapply holds_mapped; eauto. unfold dims_ok. rewrite Ey. exact N. }
    assert (Ex2 : extends s s2).
    { intros p Hp. destruct G2 as (_ & _ & _ & A0 & C). apply C. cbn [map In]. intros [Q|[]].
      inversion A0 as [|? ? [Hb _] _]; subst. apply Hp. apply F. lia. }
    destruct (K s2 y) as (s3 & E3 & F3 & N3 & C3); [split; [apply G2|split; [exact N|split; auto]]|auto|].
    assert (Eb : alloc (prod ds) s = Ok (tblk y) s1 /\ y = mktensor (tblk y) 0 ds).
    { unfold new_tensor, bind, alloc, ret in *. injection E as <- <-. split; reflexivity. }
    destruct Eb as [Eb Ey2].
    exists (dealloc (tblk y) s3).
    assert (R : forall p, cells (release [y] s2) p = cells s p) by (apply (grown_release_all s s2 [y]); auto).
    split; [|split; [|split]].
    - unfold with_tensor, with_temp. rewrite Eb. cbv beta. rewrite <- Ey2. unfold bind. rewrite E2, E3. destruct o; reflexivity.
    - intros p Hp. unfold dealloc. cbn [cells nextb] in *. destruct (Z.eqb_spec (fst p) (tblk y)); auto.
    - unfold dealloc. cbn [nextb]. destruct G2 as (_ & Q & _). lia.
    - intros p. rewrite <- R. unfold release, dealloc. cbn [fold_left cells]. destruct (fst p =? tblk y); auto.
  Qed.

  Lemma ends_local : forall {A} init name ds X (k : tensor -> M V A) s o,
    Forall (fun d => 0 <= d) ds -> fresh_ok s -> fills dt (init name) ds X ->
    (forall s2 t, input dt s2 t (ds, X) -> extends s s2 -> ends (k t) s2 o) ->
    ends (local init name ds k) s o.
  Proof.
    intros A init name ds X k s o N F I K. unfold local. apply (ends_tensor ds (init name) k X); auto.
  Qed.

  Lemma ends_result : forall {A} sh ds op X (k : tensor -> M V A) s o,
    sh = Ret ds -> Forall (fun d => 0 <= d) ds -> fresh_ok s ->
    (forall s1 t, fresh_ok s1 -> extends s s1 -> tdims t = ds -> mapped s1 t -> (forall u, mapped s u -> disjoint t u) ->
       writes dt (op t) s1 t X) ->
    (forall s2 t, input dt s2 t (ds, X) -> extends s s2 -> ends (k t) s2 o) ->
    ends (result sh op k) s o.
  Proof.
    intros A sh ds op X k s o -> N F W K. unfold result. apply ends_lift. apply (ends_tensor ds op k X); auto.
  Qed.

  Lemma ends_layer : forall {A} (m : M V layer) Y Ws (k : layer -> M V A) s o,
    creates dt m s Y Ws -> fresh_ok s -> Forall (fun d => 0 <= d) (fst Y) ->
    (forall l s1, input dt s1 (output l) Y -> map tdims (weights l) = map fst Ws -> extends s s1 -> ends (k l) s1 o) ->
    ends (with_layer m k) s o.
  Proof.
    intros A m Y Ws k s o (l & s1 & E & G & H & HW) F N K.
    assert (Ex : extends s s1).
    { intros p Hp. pose proof G as (_ & _ & _ & A0 & C). apply C. intros J. apply in_map_iff in J. destruct J as (v & Ev & Iv).
      rewrite Forall_forall in A0. specialize (A0 v Iv). apply Hp. apply F. lia. }
    destruct (K l s1) as (s2 & E2 & F2 & N2 & C2); [split; [apply G|split; auto]| |auto|].
    { clear - HW. induction HW as [|a b l1 l2 [Q _] _ IH]; cbn [map]; [reflexivity|]. rewrite Q, IH. reflexivity. }
    exists (destroy l s2). split; [|split; [|split]].
    - unfold with_layer. rewrite E, E2. destruct o; reflexivity.
    - intros p Hp. unfold destroy in *. rewrite release_nextb in Hp. rewrite release_cells.
      destruct (existsb _ _); auto.
    - unfold destroy. rewrite release_nextb. destruct G as (_ & Q & _). lia.
    - intros p. unfold destroy. rewrite <- (grown_release_all s s1 (owned l) F G p). rewrite !release_cells.
      destruct (existsb _ _); auto.
  Qed.

  (** A local tensor that is never written. *)
  Lemma ends_uninit : forall {A} ds (k : tensor -> M V A) s o,
    Forall (fun d => 0 <= d) ds -> fresh_ok s ->
    (forall s1 t, fresh_ok s1 -> tdims t = ds -> ends (k t) s1 o) ->
    ends (with_tensor ds k) s o.
  Proof using.
    intros A ds k s o N F K.
    destruct (new_tensor_born s ds F) as (y & s1 & E & B).
    pose proof (grown_born s s s1 [] y ds (grown_nil s F) B) as G.
    assert (Eb : alloc (prod ds) s = Ok (tblk y) s1 /\ y = mktensor (tblk y) 0 ds).
    { unfold new_tensor, bind, alloc, ret in *. injection E as <- <-. split; reflexivity. }
    destruct Eb as [Eb Ey2].
    destruct (K s1 y) as (s3 & E3 & F3 & N3 & C3); [apply G|rewrite Ey2; reflexivity|].
    exists (dealloc (tblk y) s3).
    assert (R : forall p, cells (release [y] s1) p = cells s p) by (apply (grown_release_all s s1 [y]); auto).
    split; [|split; [|split]].
    - unfold with_tensor, with_temp. rewrite Eb. cbv beta. rewrite <- Ey2. rewrite E3. destruct o; reflexivity.
    - intros p Hp. unfold dealloc. cbn [cells nextb] in *. destruct (Z.eqb_spec (fst p) (tblk y)); auto.
    - unfold dealloc. cbn [nextb]. destruct G as (_ & Q & _). lia.
    - intros p. rewrite <- R. unfold release, dealloc. cbn [fold_left cells]. destruct (fst p =? tblk y); auto.
  Qed.
End Ends.
