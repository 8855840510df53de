(** Reasoning about test programs: local tensors whose contents are tracked. *)
From Coq Require Import ZArith List Bool Lia.
From Verif Require Import Base BaseFacts TensorFacts Scalar Layers LayersSpec LayersFacts ProgramsSpec Tests.
Import ListNotations.
Open Scope Z_scope.
Open Scope model_scope.

Section Logic.
  Context {V T : Type} (dt : dtype V T).

  (** Local tensors, with their contents if they have been written. *)
  Definition locals : Type := list (tensor * option (list Z -> T)).
  Definition blocks (E : locals) : list Z := map (fun e => tblk (fst e)) E.
  Definition known (s : st V) (e : tensor * option (list Z -> T)) : Prop :=
    dims_ok (fst e) /\ tblk (fst e) < nextb s /\ mapped s (fst e) /\ match snd e with Some X => holds dt s (fst e) X | None => True end.
  Definition env (s : st V) (E : locals) : Prop :=
    fresh_ok s /\ NoDup (blocks E) /\ Forall (known s) E.

  (** From any state where the locals are as described, the program ends with
      [o] and changes nothing but the locals. *)
  Definition runs {A} (E : locals) (m : M V A) (o : outcome A) : Prop :=
    forall s, env s E -> exists s',
      m s = match o with Ret a => Ok a s' | Exn e => Throw e s' | Undef => UB end /\
      fresh_ok s' /\ nextb s <= nextb s' /\ forall p, ~ In (fst p) (blocks E) -> cells s' p = cells s p.

  Lemma runs_ends : forall {A} (m : M V A) s o, fresh_ok s -> runs [] m o -> ends m s o.
  Proof using.
    intros A m s o F R. destruct (R s) as (s' & E & F' & N & C); [split; [auto|split; constructor]|].
    exists s'. split; [exact E|]. split; [auto|]. split; [auto|]. intros p. apply C. auto.
  Qed.

  Lemma runs_ret : forall {A} E (a : A), runs E (ret a) (Ret a).
  Proof using. intros A E a s H. exists s. repeat split; auto. apply H. lia. Qed.

  Lemma runs_ret_eq : forall {A} E (a b : A), a = b -> runs E (ret a) (Ret b).
  Proof using. intros A E a b <-. apply runs_ret. Qed.

  (** A step that only looks. *)
  Lemma runs_look : forall {A B} E (m : M V A) (k : A -> M V B) a o,
    (forall s, env s E -> m s = Ok a s) -> runs E (k a) o -> runs E (bind m k) o.
  Proof using. intros A B E m k a o H K s He. unfold bind. rewrite (H s He). apply K. exact He. Qed.

  Lemma runs_last : forall {A} E (m : M V A) a, (forall s, env s E -> m s = Ok a s) -> runs E m (Ret a).
  Proof using. intros A E m a H s He. exists s. split; [auto|]. split; [apply He|]. split; [lia|auto]. Qed.

  Lemma runs_lift : forall {A B} E (a : A) (k : A -> M V B) o, runs E (k a) o -> runs E (bind (lift (Ret a)) k) o.
  Proof using. intros A B E a k o H. exact H. Qed.

  Lemma runs_lift_eq : forall {A B} E c (a : A) (k : A -> M V B) o, c = Ret a -> runs E (k a) o -> runs E (bind (lift c) k) o.
  Proof using. intros A B E c a k o -> H. exact H. Qed.

  (** Looking things up. *)
  Lemma env_at : forall s E i e, env s E -> nth_error E i = Some e -> known s e.
  Proof using. intros s E i e (_ & _ & H) I. apply nth_error_In in I. rewrite Forall_forall in H. auto. Qed.

  Lemma env_holds : forall s E i t X, env s E -> nth_error E i = Some (t, Some X) -> holds dt s t X.
  Proof using. intros s E i t X H I. destruct (env_at s E i _ H I) as (_ & _ & _ & Q). exact Q. Qed.

  Lemma env_mapped : forall s E i t c, env s E -> nth_error E i = Some (t, c) -> mapped s t.
  Proof using. intros s E i t X H I. destruct (env_at s E i _ H I) as (_ & _ & Q & _). exact Q. Qed.

  Lemma env_dims : forall s E i t c, env s E -> nth_error E i = Some (t, c) -> dims_ok t.
  Proof using. intros s E i t X H I. destruct (env_at s E i _ H I) as (Q & _). exact Q. Qed.

  Lemma env_blocks : forall s E i j t c u d, env s E -> nth_error E i = Some (t, c) -> nth_error E j = Some (u, d) -> i <> j ->
    tblk t <> tblk u.
  Proof using.
    intros s E i j t c u d (_ & N & _) I J D Q. apply D.
    apply (proj1 (NoDup_nth_error (blocks E)) N).
    - unfold blocks. rewrite map_length. apply nth_error_Some. congruence.
    - unfold blocks. rewrite !nth_error_map, I, J. cbn [option_map fst]. congruence.
  Qed.

  Lemma env_disjoint : forall s E i j t c u d, env s E -> nth_error E i = Some (t, c) -> nth_error E j = Some (u, d) -> i <> j ->
    disjoint t u.
  Proof using. intros. apply blk_disjoint. eapply env_blocks; eauto. Qed.

  (** A new local tensor. *)
  Lemma runs_tensor : forall {A} E ds (k : tensor -> M V A) o, Forall (fun d => 0 <= d) ds ->
    (forall t, tdims t = ds -> runs ((t, None) :: E) (k t) o) ->
    runs E (with_tensor ds k) o.
  Proof using.
    intros A E ds k o N K s (F & ND & H).
    destruct (new_tensor_born s ds F) as (y & s1 & En & B).
    assert (Eb : alloc (prod ds) s = Ok (tblk y) s1 /\ y = mktensor (tblk y) 0 ds).
    { unfold new_tensor, bind, alloc, ret in *. injection En as <- <-. split; reflexivity. }
    destruct Eb as [Eb Ey2]. destruct B as (B1 & B2 & B3 & B4 & B5 & B6 & B7 & _).
    assert (Lt : forall e, In e E -> tblk (fst e) < nextb s).
    { intros e I. rewrite Forall_forall in H. apply (H e I). }
    destruct (K y B1 s1) as (s2 & E2 & F2 & N2 & C2).
    { split; [exact B6|]. split.
      - cbn [blocks map fst]. constructor; auto. intros I. apply in_map_iff in I. destruct I as (e & Ee & I).
        specialize (Lt e I). lia.
      - constructor.
        + unfold known. cbn [fst snd]. split; [unfold dims_ok; rewrite B1; exact N|]. split; [lia|]. split; [exact B5|exact I].
        + rewrite Forall_forall in H |- *. intros e I. destruct (H e I) as (D & L & M & C).
          assert (Q : forall p, foot (fst e) p -> cells s1 p = cells s p).
          { intros p [q [_ ->]]. apply B7. cbn. specialize (Lt e I). lia. }
          split; [exact D|]. split; [lia|]. split.
          * intros p Hp. rewrite (Q p Hp). apply M, Hp.
          * destruct (snd e); [|exact C]. eapply holds_frame; [exact Q|exact C]. }
    exists (dealloc (tblk y) s2). split; [|split; [|split]].
    - unfold with_tensor, with_temp. rewrite Eb. cbv beta. rewrite <- Ey2. rewrite E2. destruct o; reflexivity.
    - intros p Hp. unfold dealloc in *. cbn [cells nextb] in *. destruct (Z.eqb_spec (fst p) (tblk y)); auto.
    - unfold dealloc. cbn [nextb]. lia.
    - intros p Hp. unfold dealloc. cbn [cells]. destruct (Z.eqb_spec (fst p) (tblk y)) as [Q|Q].
      + symmetry. apply F. lia.
      + rewrite C2; [apply B7; lia|]. cbn [blocks map fst In]. intros [J|J]; [congruence|contradiction].
  Qed.

  (** Overwriting local [i]. *)
  Fixpoint update (E : locals) (i : nat) (X : list Z -> T) : locals :=
    match E, i with
    | [], _ => []
    | (t, _) :: E', O => (t, Some X) :: E'
    | e :: E', S i' => e :: update E' i' X
    end.

  Lemma update_blocks : forall E i X, blocks (update E i X) = blocks E.
  Proof using.
    induction E as [|[t c] E IH]; intros [|i] X; cbn [update blocks map fst]; auto.
    f_equal. apply IH.
  Qed.

  Lemma in_update : forall E i X e t c, nth_error E i = Some (t, c) -> NoDup (blocks E) -> In e (update E i X) ->
    e = (t, Some X) \/ (In e E /\ tblk (fst e) <> tblk t).
  Proof using.
    induction E as [|[u d] E IH]; intros [|i] X e t c Hi N I; cbn [update In nth_error] in *; try discriminate.
    - injection Hi as -> ->. destruct I as [<-|I]; [left; reflexivity|right]. split; [auto|].
      cbn [blocks map fst] in N. inversion N as [|? ? N1 N2]; subst. intros Q. apply N1. rewrite <- Q.
      apply (in_map (fun e => tblk (fst e))). exact I.
    - cbn [blocks map fst] in N. inversion N as [|? ? N1 N2]; subst. destruct I as [<-|I].
      + right. split; [auto|]. cbn [fst]. intros Q. apply N1. rewrite Q.
        change (tblk t) with ((fun e : tensor * option (list Z -> T) => tblk (fst e)) (t, c)). apply in_map. eapply nth_error_In; eauto.
      + destruct (IH i X e t c Hi N2 I) as [Q|[Q1 Q2]]; auto.
  Qed.

  Lemma env_write : forall s s' E i t c X m, env s E -> nth_error E i = Some (t, c) -> writes dt m s t X -> m s = Ok tt s' ->
    env s' (update E i X) /\ nextb s <= nextb s' /\ (forall p, ~ In (fst p) (blocks E) -> cells s' p = cells s p).
  Proof using.
    intros s s' E i t c X m He Hi (s1 & E1 & H1 & N1 & C1) Em. rewrite Em in E1. injection E1 as <-.
    pose proof He as (F & ND & H).
    destruct (env_at s E i _ He Hi) as (Dt & Lt & Mt & _). cbn [fst] in *.
    assert (Off : forall p, fst p <> tblk t -> cells s' p = cells s p).
    { intros p Hp. apply C1. intros [q [_ ->]]. apply Hp. reflexivity. }
    split; [|split; [exact N1|]].
    - split; [|split].
      + intros p Hp. rewrite Off by lia. apply F. lia.
      + rewrite update_blocks. exact ND.
      + rewrite Forall_forall in H |- *. intros e I. destruct (in_update E i X e t c Hi ND I) as [->|[I2 Q]].
        * split; [exact Dt|]. split; [cbn [fst]; lia|]. split; [eapply holds_mapped; eauto|exact H1].
        * destruct (H e I2) as (D & L & M & C). split; [exact D|]. split; [lia|].
          assert (Fr : forall p, foot (fst e) p -> cells s' p = cells s p).
          { intros p [q [_ ->]]. apply Off. exact Q. }
          split; [intros p Hp; rewrite (Fr p Hp); apply M, Hp|].
          destruct (snd e); [|exact C]. eapply holds_frame; [exact Fr|exact C].
    - intros p Hp. apply Off. intros Q. apply Hp. rewrite Q. apply nth_error_In in Hi.
      apply (in_map (fun e => tblk (fst e))) in Hi. exact Hi.
  Qed.

  Lemma runs_write : forall {B} E i t c X (m : M V unit) (k : unit -> M V B) o,
    nth_error E i = Some (t, c) -> (forall s, env s E -> writes dt m s t X) ->
    runs (update E i X) (k tt) o -> runs E (bind m k) o.
  Proof using.
    intros B E i t c X m k o Hi W K s He. pose proof (W s He) as Ws. pose proof Ws as (s1 & E1 & _).
    destruct (env_write s s1 E i t c X m He Hi Ws E1) as (He1 & N1 & C1).
    destruct (K s1 He1) as (s2 & E2 & F2 & N2 & C2). exists s2.
    split; [unfold bind; rewrite E1; exact E2|]. split; [exact F2|]. split; [lia|].
    intros p Hp. rewrite C2; [auto|]. rewrite update_blocks. exact Hp.
  Qed.

  (** A step that writes local [i] and returns a value. *)
  Lemma runs_write_val : forall {A B} E i t c X (a : A) (m : M V A) (k : A -> M V B) o,
    nth_error E i = Some (t, c) ->
    (forall s, env s E -> exists s', m s = Ok a s' /\ holds dt s' t X /\ only_changes t s s') ->
    runs (update E i X) (k a) o -> runs E (bind m k) o.
  Proof using.
    intros A B E i t c X a m k o Hi W K s He. destruct (W s He) as (s1 & E1 & H1 & O1).
    assert (Ws : writes dt (m ;;; ret tt) s t X).
    { exists s1. unfold bind. rewrite E1. split; [reflexivity|]. split; auto. }
    assert (Es : (m ;;; ret tt) s = Ok tt s1) by (unfold bind; rewrite E1; reflexivity).
    destruct (env_write s s1 E i t c X _ He Hi Ws Es) as (He1 & N1 & C1).
    destruct (K s1 He1) as (s2 & E2 & F2 & N2 & C2). exists s2.
    split; [unfold bind; rewrite E1; exact E2|]. split; [exact F2|]. split; [lia|].
    intros p Hp. rewrite C2; [auto|]. rewrite update_blocks. exact Hp.
  Qed.

  (** A finished block leaves the locals as they were. *)
  Lemma runs_block : forall {A B} (m : M V A) (k : A -> M V B) E a o,
    (forall s, env s E -> ends m s (Ret a)) -> runs E (k a) o -> runs E (bind m k) o.
  Proof using.
    intros A B m k E a o W K s He. destruct (W s He) as (s1 & E1 & F1 & N1 & C1).
    destruct (K s1) as (s2 & E2 & F2 & N2 & C2).
    { pose proof He as (F & ND & H). split; [exact F1|]. split; [exact ND|].
      rewrite Forall_forall in H |- *. intros e I. destruct (H e I) as (D & L & M & C).
      split; [exact D|]. split; [lia|]. split; [intros p Hp; rewrite C1; apply M, Hp|].
      destruct (snd e); [|exact C]. eapply holds_frame; [|exact C]. intros p _. apply C1. }
    exists s2. split; [unfold bind; rewrite E1; exact E2|]. split; [exact F2|]. split; [lia|].
    intros p Hp. rewrite C2 by exact Hp. apply C1.
  Qed.
  (** An inner block that only reads the locals around it. *)
  Lemma scope_ends : forall {A} E ds (k : tensor -> M V A) a s, Forall (fun d => 0 <= d) ds -> env s E ->
    (forall t s1, tdims t = ds -> env s1 ((t, None) :: E) -> exists s2, k t s1 = Ok a s2 /\
       fresh_ok s2 /\ nextb s1 <= nextb s2 /\ forall p, fst p <> tblk t -> cells s2 p = cells s1 p) ->
    ends (with_tensor ds k) s (Ret a).
  Proof using.
    intros A E ds k a s N (F & ND & H) K.
    destruct (new_tensor_born s ds F) as (y & s1 & En & B).
    assert (Eb : alloc (prod ds) s = Ok (tblk y) s1 /\ y = mktensor (tblk y) 0 ds).
    { unfold new_tensor, bind, alloc, ret in *. injection En as <- <-. split; reflexivity. }
    destruct Eb as [Eb Ey2]. destruct B as (B1 & B2 & B3 & B4 & B5 & B6 & B7 & _).
    assert (Lt : forall e, In e E -> tblk (fst e) < nextb s).
    { intros e I. rewrite Forall_forall in H. apply (H e I). }
    destruct (K y s1 B1) as (s2 & E2 & F2 & N2 & C2).
    { split; [exact B6|]. split.
      - cbn [blocks map fst]. constructor; auto. intros I. apply in_map_iff in I. destruct I as (e & Ee & I).
        specialize (Lt e I). lia.
      - constructor.
        + unfold known. cbn [fst snd]. split; [unfold dims_ok; rewrite B1; exact N|]. split; [lia|]. split; [exact B5|exact I].
        + rewrite Forall_forall in H |- *. intros e I. destruct (H e I) as (D & L & M & C).
          assert (Q : forall p, foot (fst e) p -> cells s1 p = cells s p).
          { intros p [q [_ ->]]. apply B7. cbn. specialize (Lt e I). lia. }
          split; [exact D|]. split; [lia|]. split.
          * intros p Hp. rewrite (Q p Hp). apply M, Hp.
          * destruct (snd e); [|exact C]. eapply holds_frame; [exact Q|exact C]. }
    exists (dealloc (tblk y) s2). split; [|split; [|split]].
    - unfold with_tensor, with_temp. rewrite Eb. cbv beta. rewrite <- Ey2. rewrite E2. reflexivity.
    - intros p Hp. unfold dealloc in *. cbn [cells nextb] in *. destruct (Z.eqb_spec (fst p) (tblk y)); auto.
    - unfold dealloc. cbn [nextb]. lia.
    - intros p. unfold dealloc. cbn [cells]. destruct (Z.eqb_spec (fst p) (tblk y)) as [Q|Q].
      + symmetry. apply F. lia.
      + rewrite C2 by exact Q. apply B7; lia.
  Qed.

  Lemma runs_ext : forall {A} E (m m' : M V A) o, (forall s, m s = m' s) -> runs E m o -> runs E m' o.
  Proof using. intros A E m m' o Q R s He. rewrite <- Q. apply R, He. Qed.

  Lemma runs_assoc : forall {A B C} E (m : M V A) (f : A -> M V B) (k : B -> M V C) o,
    runs E (bind m (fun a => bind (f a) k)) o -> runs E (bind (bind m f) k) o.
  Proof using. intros A B C E m f k o. apply runs_ext. intros s. symmetry. apply bind_assoc. Qed.

  Lemma runs_ret_bind : forall {A B} E (a : A) (k : A -> M V B) o, runs E (k a) o -> runs E (bind (ret a) k) o.
  Proof using. intros A B E a k o H. exact H. Qed.

  (** Forgetting what the locals hold. *)
  Definition forget (E : locals) : locals := map (fun e => (fst e, None)) E.

  Lemma runs_forget : forall {A} E (m : M V A) o, runs (forget E) m o -> runs E m o.
  Proof using.
    intros A E m o R s (F & ND & H).
    assert (B : blocks (forget E) = blocks E) by (unfold blocks, forget; rewrite map_map; reflexivity).
    rewrite <- B. apply R. split; [exact F|]. split; [rewrite B; exact ND|].
    unfold forget. rewrite Forall_map. eapply Forall_impl; [|exact H]. intros e (D & L & M & C).
    split; [exact D|]. split; [exact L|]. split; [exact M|exact I].
  Qed.
End Logic.
