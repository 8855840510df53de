(** Property C67: copy_flatten. *)
From Coq Require Import ZArith List Bool Lia Permutation.
From Verif Require Import Base BaseFacts TensorFacts Scalar LinAlgFacts SumFacts GradSpec Elem ElemSpec ElemFacts Demo Shapes Reshape PropsShapes.
Import ListNotations.
Open Scope Z_scope.

(** Index tuples of the groups: [ixs] has one tuple per group. *)
Fixpoint valid_groups (rs : list nat) (x : list Z) (ixs : list (list Z)) : Prop :=
  match rs, ixs with
  | [], [] => True
  | r :: rs, ix :: ixs => valid (firstn r x) ix /\ valid_groups rs (skipn r x) ixs
  | _, _ => False
  end.

(** The flat index of every group. *)
Fixpoint group_offsets (rs : list nat) (x : list Z) (ixs : list (list Z)) : list Z :=
  match rs, ixs with
  | r :: rs, ix :: ixs => offset (firstn r x) ix :: group_offsets rs (skipn r x) ixs
  | _, _ => []
  end.

(** The groups cover the axes. *)
Definition covers (rs : list nat) (x : list Z) : Prop := fold_right plus 0%nat rs = length x.

Lemma covers_skip : forall r rs x, covers (r :: rs) x -> covers rs (skipn r x) /\ (r <= length x)%nat.
Proof. unfold covers. cbn. intros r rs x H. rewrite skipn_length. lia. Qed.

Lemma prod_app : forall a b, prod (a ++ b) = prod a * prod b.
Proof. induction a as [|d a IH]; intros b; cbn; [destruct (prod b); reflexivity|]. rewrite IH. ring. Qed.

Theorem C67_size : forall rs x, covers rs x ->
  prod (flatten_shape rs x) = prod x /\ length (flatten_shape rs x) = length rs.
Proof.
  induction rs as [|r rs IH]; intros x C; cbn.
  - unfold covers in C. destruct x; [auto|discriminate].
  - destruct (covers_skip _ _ _ C) as [C' _]. destruct (IH _ C') as [P L]. split; [|lia].
    rewrite P, <- prod_app, firstn_skipn. reflexivity.
Qed.

Lemma valid_length : forall ds ix, valid ds ix -> length ix = length ds.
Proof. induction ds as [|d ds IH]; intros [|i ix] H; cbn in *; try tauto. f_equal. apply IH, H. Qed.

Lemma offset_app : forall a b i j, length i = length a ->
  offset (a ++ b) (i ++ j) = offset a i * prod b + offset b j.
Proof.
  induction a as [|d a IH]; intros b [|x i] j L; try discriminate; cbn [app offset]; [ring|].
  injection L as L. rewrite IH by exact L. rewrite prod_app. ring.
Qed.

Lemma valid_app : forall a b i j, valid a i -> valid b j -> valid (a ++ b) (i ++ j).
Proof. induction a as [|d a IH]; intros b [|x i] j Hi Hj; cbn in *; try tauto. split; [apply Hi|]. apply IH; tauto. Qed.

Lemma group_offset : forall rs x ixs, covers rs x -> valid_groups rs x ixs ->
  offset (flatten_shape rs x) (group_offsets rs x ixs) = offset x (concat ixs) /\
  valid x (concat ixs) /\ (Forall (fun d => 0 <= d) x -> valid (flatten_shape rs x) (group_offsets rs x ixs)).
Proof.
  induction rs as [|r rs IH]; intros x [|ix ixs] C H; cbn in H; try tauto.
  - unfold covers in C. destruct x; [cbn; auto|discriminate].
  - destruct (covers_skip _ _ _ C) as [C' Lr]. destruct H as [H1 H2]. destruct (IH _ _ C' H2) as (E & V' & W).
    destruct (C67_size _ _ C') as [P _]. cbn [flatten_shape group_offsets concat offset].
    split; [|split].
    + rewrite P, E. rewrite <- (firstn_skipn r x) at 4. rewrite offset_app by (apply valid_length, H1). reflexivity.
    + rewrite <- (firstn_skipn r x). apply valid_app; auto.
    + intros N. rewrite <- (firstn_skipn r x), Forall_app in N. cbn [valid]. split; [|apply W; tauto].
      apply offset_bound; tauto.
Qed.

Section Ring.
  Context {T : Type} (sc : scalar T) (laws : ring_laws sc).
  Let rt : ring_theory (s0 sc) (s1 sc) (sadd sc) (smul sc) (ssub sc) (sneg sc) (@eq T) := laws.
  Add Ring Tring : rt.

  Lemma add_sub : forall a b, ssub sc (sadd sc a b) a = b.
  Proof using laws. intros a b. ring. Qed.
End Ring.

Section Copy.
  Context {V T : Type} (dt : dtype V T).

  (** std::copy between tensors with the same number of elements keeps the
      element sequence. *)
  Lemma copy_writes : forall y x X s, dims_ok y -> dims_ok x -> size y = size x ->
    holds dt s x X -> mapped s y -> disjoint y x ->
    writes dt (transform1 dt dt (fun v => v) y x) s y (fun ix => X (expand (tdims x) (offset (tdims y) ix))).
  Proof using.
    intros y x X s Dy Dx E HX HY D. unfold transform1. rewrite <- E.
    apply writes_loop_flat; auto. intros o s' Ho N F O.
    rewrite (offset_expand (tdims y) o Dy Ho).
    assert (HX' : holds dt s' x X) by (apply (holds_frame_disj dt s s' x y X); auto).
    rewrite (bind_ok _ _ _ _ _ (load_ok dt s' (daddr x o) _ (holds_daddr dt s' x X o Dx HX' ltac:(lia)))).
    apply store_ok. rewrite O. eapply mapped_daddr; eauto.
  Qed.

  Theorem C67_value : forall rs y x X s, covers rs (tdims x) -> dims_ok x -> dims_ok y ->
    copy_flatten_shape rs (tdims x) = Ret (tdims y) ->
    holds dt s x X -> mapped s y -> disjoint y x ->
    writes dt (copy_flatten dt y x) s y (fun ix => X (expand (tdims x) (offset (tdims y) ix))).
  Proof using.
    intros rs y x X s C Dx Dy E HX HY D. injection E as E. apply copy_writes; auto.
    destruct (C67_size rs (tdims x) C) as [P _]. rewrite E in P. exact P.
  Qed.

  (** Element (g1 ... gk) of the result, where gi is the flat index of the i-th
      group of coordinates, is the element at those coordinates. *)
  Theorem C67_copy : forall rs y x X s, covers rs (tdims x) -> dims_ok x ->
    copy_flatten_shape rs (tdims x) = Ret (tdims y) ->
    holds dt s x X -> mapped s y -> disjoint y x ->
    exists Y, writes dt (copy_flatten dt y x) s y Y /\
      (forall ixs, valid_groups rs (tdims x) ixs -> Y (group_offsets rs (tdims x) ixs) = X (concat ixs)) /\
      (forall o, 0 <= o < size x -> Y (expand (tdims y) o) = X (expand (tdims x) o)) /\
      size y = size x.
  Proof using.
    intros rs y x X s C Dx E HX HY D. injection E as E.
    destruct (C67_size rs (tdims x) C) as [P _]. rewrite E in P.
    assert (Dy : dims_ok y).
    { unfold dims_ok in *. rewrite <- E. clear - Dx. revert Dx. generalize (tdims x). induction rs as [|r rs IH]; intros l H; cbn; constructor.
      - apply prod_nonneg. rewrite <- (firstn_skipn r l), Forall_app in H. apply H.
      - apply IH. rewrite <- (firstn_skipn r l), Forall_app in H. apply H. }
    exists (fun ix => X (expand (tdims x) (offset (tdims y) ix))). split; [|split; [|split]].
    - apply copy_writes; auto.
    - intros ixs H. destruct (group_offset rs (tdims x) ixs C H) as (Q & W & _). rewrite <- E, Q.
      rewrite expand_offset; auto.
    - intros o Ho. rewrite offset_expand; auto. unfold size in *. lia.
    - exact P.
  Qed.

  (** The gradient copies back: applied to the result it restores the input, in
      general it is the transposed permutation. *)
  Theorem C67_inverse : forall rs x X Y gx gy s, covers rs (tdims x) -> dims_ok x -> dims_ok gy ->
    tdims gx = tdims x -> copy_flatten_shape rs (tdims x) = Ret (tdims gy) ->
    (forall o, 0 <= o < size x -> Y (expand (tdims gy) o) = X (expand (tdims x) o)) ->
    holds dt s gy Y -> mapped s gx -> disjoint gx gy ->
    writes dt (grad_copy_flatten dt gx gy) s gx X.
  Proof using.
    intros rs x X Y gx gy s C Dx Dy E1 E HXY HY HG D. injection E as E.
    destruct (C67_size rs (tdims x) C) as [P _]. rewrite E in P.
    assert (Dg : dims_ok gx) by (unfold dims_ok; rewrite E1; exact Dx).
    unfold grad_copy_flatten. eapply writes_ext; [| |apply (copy_writes gx gy Y s); auto].
    - reflexivity.
    - intros ix Hix. cbn beta. rewrite HXY.
      + rewrite E1 in *. rewrite expand_offset; auto.
      + unfold size. rewrite <- E1. apply offset_bound; auto.
    - unfold size. rewrite E1. symmetry. exact P.
  Qed.

  (** Vector-Jacobian product of the copy. *)
  Theorem C67_grad : forall (sc : scalar T), ring_laws sc ->
    forall rs gx gy x GY s, covers rs (tdims x) -> dims_ok x -> dims_ok gy ->
    tdims gx = tdims x -> copy_flatten_shape rs (tdims x) = Ret (tdims gy) ->
    holds dt s gy GY -> mapped s gx -> disjoint gx gy ->
    exists GX, writes dt (grad_copy_flatten dt gx gy) s gx GX /\
      is_vjp sc (tdims gy) (tdims x) (fun X ix => X (expand (tdims x) (offset (tdims gy) ix))) GY GX.
  Proof using.
    intros sc L rs gx gy x GY s C Dx Dy E1 E HY HG D. injection E as E.
    destruct (C67_size rs (tdims x) C) as [P _]. rewrite E in P.
    assert (Dg : dims_ok gx) by (unfold dims_ok; rewrite E1; exact Dx).
    exists (fun ix => GY (expand (tdims gy) (offset (tdims gx) ix))). split.
    { apply copy_writes; auto. unfold size. rewrite E1. symmetry. exact P. }
    intros X dX. unfold inner, tadd, tsub.
    rewrite (indices_expand (tdims gy)), (indices_expand (tdims x)) by auto. rewrite P.
    rewrite !sum_over_map. apply sum_over_ext. intros o Ho. apply in_zrange in Ho.
    rewrite E1, !offset_expand by (auto; unfold size in *; lia). f_equal.
    apply (add_sub sc L).
  Qed.
End Copy.

Example C67_example :
  let s0 := demo [[1; 2; 3; 4; 5; 6; 7; 8; 9; 10; 11; 12]; [0; 0; 0; 0; 0; 0; 0; 0; 0; 0; 0; 0]; [0; 0; 0; 0; 0; 0; 0; 0; 0; 0; 0; 0]] in
  copy_flatten_shape [1; 2]%nat [2; 3; 2] = Ret [2; 6] /\
  run (copy_flatten zt (T_ 1 [2; 6]) (T_ 0 [2; 3; 2])) s0 (T_ 1 [2; 6]) = Some (inits [1; 2; 3; 4; 5; 6; 7; 8; 9; 10; 11; 12]) /\
  group_offsets [1; 2]%nat [2; 3; 2] [[1]; [2; 1]] = [1; 5] /\
  run (bind (copy_flatten zt (T_ 1 [2; 6]) (T_ 0 [2; 3; 2])) (fun _ => grad_copy_flatten zt (T_ 2 [2; 3; 2]) (T_ 1 [2; 6]))) s0 (T_ 2 [2; 3; 2])
    = Some (inits [1; 2; 3; 4; 5; 6; 7; 8; 9; 10; 11; 12]).
Proof. vm_compute. repeat split. Qed.

Print Assumptions C67_size.
Print Assumptions C67_value.
Print Assumptions C67_copy.
Print Assumptions C67_inverse.
Print Assumptions C67_grad.
