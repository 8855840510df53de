(** Properties C23, C24, C25: the matrix products. *)
From Coq Require Import ZArith List Bool Lia ZifyBool.
From Verif Require Import Base BaseFacts Scalar LinAlg LinAlgFacts Demo.
Import ListNotations.
Open Scope Z_scope.

Section Props.
  Context {V T : Type} (dt : dtype V T) (sc : scalar T).

  (** *** C23: every builtin product writes the product, element by element with
      the sum taken in increasing index order, and changes nothing else.
      All sizes, including 0; no law on the scalars. *)
  Theorem C23_mm : forall a b c m l n A B s,
    tdims a = [m; l] -> tdims b = [l; n] -> tdims c = [m; n] -> 0 <= m -> 0 <= l -> 0 <= n ->
    holds dt s a A -> holds dt s b B -> mapped s c -> disjoint c a -> disjoint c b ->
    writes dt (mm dt sc a b c) s c
      (arg2 (fun i j => sum_over sc (zrange l) (fun k => smul sc (A [i; k]) (B [k; j])))).
  Proof. exact (mm_writes dt sc). Qed.

  Theorem C23_mmt : forall a b c m l n A B s,
    tdims a = [m; l] -> tdims b = [n; l] -> tdims c = [m; n] -> 0 <= m -> 0 <= l -> 0 <= n ->
    holds dt s a A -> holds dt s b B -> mapped s c -> disjoint c a -> disjoint c b ->
    writes dt (mmt dt sc a b c) s c
      (arg2 (fun i j => sum_over sc (zrange l) (fun k => smul sc (A [i; k]) (B [j; k])))).
  Proof. exact (mmt_writes dt sc). Qed.

  Theorem C23_mtm : forall a b c m l n A B s,
    tdims a = [l; m] -> tdims b = [l; n] -> tdims c = [m; n] -> 0 <= m -> 0 <= l -> 0 <= n ->
    holds dt s a A -> holds dt s b B -> mapped s c -> disjoint c a -> disjoint c b ->
    writes dt (mtm dt sc a b c) s c
      (arg2 (fun i j => sum_over sc (zrange l) (fun k => smul sc (A [k; i]) (B [k; j])))).
  Proof. exact (mtm_writes dt sc). Qed.

  Theorem C23_mv : forall a b c m n A B s,
    tdims a = [m; n] -> tdims b = [n] -> tdims c = [m] -> 0 <= m -> 0 <= n ->
    holds dt s a A -> holds dt s b B -> mapped s c -> disjoint c a -> disjoint c b ->
    writes dt (mv dt sc a b c) s c
      (arg1 (fun i => sum_over sc (zrange n) (fun j => smul sc (A [i; j]) (B [j])))).
  Proof. exact (mv_writes dt sc). Qed.

  Theorem C23_vm : forall a b c m n A B s,
    tdims a = [m] -> tdims b = [m; n] -> tdims c = [n] -> 0 <= m -> 0 <= n ->
    holds dt s a A -> holds dt s b B -> mapped s c -> disjoint c a -> disjoint c b ->
    writes dt (vm dt sc a b c) s c
      (arg1 (fun j => sum_over sc (zrange m) (fun i => smul sc (A [i]) (B [i; j])))).
  Proof. exact (vm_writes dt sc). Qed.

  (** *** C24: a product throws exactly when the shapes do not fit, and then
      the exception is runtime_error and no cell has changed.  Any memory. *)
  Definition rejects_unless (ok : Prop) (m : M V unit) (s : st V) : Prop :=
    ((exists e s', m s = Throw e s') <-> ~ ok) /\
    (~ ok -> m s = Throw RuntimeError s).

  Theorem C24_mm : forall a b c m l l' n m' n' s,
    tdims a = [m; l] -> tdims b = [l'; n] -> tdims c = [m'; n'] ->
    rejects_unless (l = l' /\ m = m' /\ n = n') (mm dt sc a b c) s.
  Proof.
    intros a b c m l l' n m' n' s Ea Eb Ec.
    assert (D : ~ (l = l' /\ m = m' /\ n = n') -> mm dt sc a b c s = Throw RuntimeError s).
    { intros H. apply mm_throws. unfold nth_dim. rewrite Ea, Eb, Ec. cbn [nth]. intuition. }
    split; auto. split; [|eauto]. intros [e [s' E]] [-> [-> ->]]. revert E.
    unfold mm, nth_dim. rewrite Ea, Eb, Ec. cbn [nth]. rewrite !Z.eqb_refl.
    rewrite !contract_bind. unfold memset0, at_, set_.
    match goal with |- ?f s = _ -> False => cut (nothrow f); [intros N; apply N|] end. nothrow.
  Qed.

  Theorem C24_mmt : forall a b c m l l' n m' n' s,
    tdims a = [m; l] -> tdims b = [n; l'] -> tdims c = [m'; n'] ->
    rejects_unless (l = l' /\ m = m' /\ n = n') (mmt dt sc a b c) s.
  Proof.
    intros a b c m l l' n m' n' s Ea Eb Ec.
    assert (D : ~ (l = l' /\ m = m' /\ n = n') -> mmt dt sc a b c s = Throw RuntimeError s).
    { intros H. apply mmt_throws. unfold nth_dim. rewrite Ea, Eb, Ec. cbn [nth]. intuition. }
    split; auto. split; [|eauto]. intros [e [s' E]] [-> [-> ->]]. revert E.
    unfold mmt, nth_dim. rewrite Ea, Eb, Ec. cbn [nth]. rewrite !Z.eqb_refl.
    rewrite !contract_bind. unfold at_, set_.
    match goal with |- ?f s = _ -> False => cut (nothrow f); [intros N; apply N|] end. nothrow.
  Qed.

  Theorem C24_mtm : forall a b c m l l' n m' n' s,
    tdims a = [l; m] -> tdims b = [l'; n] -> tdims c = [m'; n'] ->
    rejects_unless (l = l' /\ m = m' /\ n = n') (mtm dt sc a b c) s.
  Proof.
    intros a b c m l l' n m' n' s Ea Eb Ec.
    assert (D : ~ (l = l' /\ m = m' /\ n = n') -> mtm dt sc a b c s = Throw RuntimeError s).
    { intros H. apply mtm_throws. unfold nth_dim. rewrite Ea, Eb, Ec. cbn [nth]. intuition. }
    split; auto. split; [|eauto]. intros [e [s' E]] [-> [-> ->]]. revert E.
    unfold mtm, nth_dim. rewrite Ea, Eb, Ec. cbn [nth]. rewrite !Z.eqb_refl.
    rewrite !contract_bind. unfold at_, set_.
    match goal with |- ?f s = _ -> False => cut (nothrow f); [intros N; apply N|] end. nothrow.
  Qed.

  Theorem C24_mv : forall a b c m n n' m' s,
    tdims a = [m; n] -> tdims b = [n'] -> tdims c = [m'] ->
    rejects_unless (n = n' /\ m = m') (mv dt sc a b c) s.
  Proof.
    intros a b c m n n' m' s Ea Eb Ec.
    assert (D : ~ (n = n' /\ m = m') -> mv dt sc a b c s = Throw RuntimeError s).
    { intros H. apply mv_throws. unfold nth_dim. rewrite Ea, Eb, Ec. cbn [nth]. intuition. }
    split; auto. split; [|eauto]. intros [e [s' E]] [-> ->]. revert E.
    unfold mv, nth_dim. rewrite Ea, Eb, Ec. cbn [nth]. rewrite !Z.eqb_refl.
    rewrite !contract_bind. unfold at_, set_.
    match goal with |- ?f s = _ -> False => cut (nothrow f); [intros N; apply N|] end. nothrow.
  Qed.

  Theorem C24_vm : forall a b c m n n' m' s,
    tdims a = [m] -> tdims b = [m'; n] -> tdims c = [n'] ->
    rejects_unless (m = m' /\ n = n') (vm dt sc a b c) s.
  Proof.
    intros a b c m n n' m' s Ea Eb Ec.
    assert (D : ~ (m = m' /\ n = n') -> vm dt sc a b c s = Throw RuntimeError s).
    { intros H. apply vm_throws. unfold nth_dim. rewrite Ea, Eb, Ec. cbn [nth]. intuition. }
    split; auto. split; [|eauto]. intros [e [s' E]] [-> ->]. revert E.
    unfold vm, nth_dim. rewrite Ea, Eb, Ec. cbn [nth]. rewrite !Z.eqb_refl.
    rewrite !contract_bind. unfold at_, set_.
    match goal with |- ?f s = _ -> False => cut (nothrow f); [intros N; apply N|] end. nothrow.
  Qed.

  (** *** C25: the cblas engine writes the same products, for positive sizes. *)
  Theorem C25_cblas : ring_laws sc -> forall a b c p q r A B s,
    1 <= p -> 1 <= q -> 1 <= r ->
    holds dt s a A -> holds dt s b B -> mapped s c -> disjoint c a -> disjoint c b ->
    (tdims a = [p; q] -> tdims b = [q; r] -> tdims c = [p; r] ->
       exists X, writes dt (mm dt sc a b c) s c X /\ writes dt (cblas_mm dt sc a b c) s c X) /\
    (tdims a = [p; q] -> tdims b = [r; q] -> tdims c = [p; r] ->
       exists X, writes dt (mmt dt sc a b c) s c X /\ writes dt (cblas_mmt dt sc a b c) s c X) /\
    (tdims a = [q; p] -> tdims b = [q; r] -> tdims c = [p; r] ->
       exists X, writes dt (mtm dt sc a b c) s c X /\ writes dt (cblas_mtm dt sc a b c) s c X) /\
    (tdims a = [p; q] -> tdims b = [q] -> tdims c = [p] ->
       exists X, writes dt (mv dt sc a b c) s c X /\ writes dt (cblas_mv dt sc a b c) s c X) /\
    (tdims a = [p] -> tdims b = [p; q] -> tdims c = [q] ->
       exists X, writes dt (vm dt sc a b c) s c X /\ writes dt (cblas_vm dt sc a b c) s c X).
  Proof.
    intros laws a b c p q r A B s Hp Hq Hr HA HB HC Da Db.
    repeat split; intros Ea Eb Ec; eexists; split.
    - eapply mm_writes; eauto; lia.
    - eapply cblas_mm_writes; eauto.
    - eapply mmt_writes; eauto; lia.
    - eapply cblas_mmt_writes; eauto.
    - eapply mtm_writes; eauto; lia.
    - eapply cblas_mtm_writes; eauto.
    - eapply mv_writes; eauto; lia.
    - eapply cblas_mv_writes; eauto.
    - eapply vm_writes; eauto; lia.
    - eapply cblas_vm_writes; eauto.
  Qed.
End Props.

(** Positivity is needed: with an empty inner dimension the builtin engine writes
    zeros, the cblas engine passes an illegal leading dimension. *)
Theorem C25_zero_size_refuted : exists a b c (s : st Z),
  tdims a = [1; 0] /\ tdims b = [0; 1] /\ tdims c = [1; 1] /\
  holds zt s a (fun _ => 0) /\ holds zt s b (fun _ => 0) /\ mapped s c /\
  disjoint c a /\ disjoint c b /\
  run (mm zt Zsc a b c) s c = Some [Init 0] /\ cblas_mm zt Zsc a b c s = UB.
Proof.
  exists (T_ 0 [1; 0]), (T_ 1 [0; 1]), (T_ 2 [1; 1]), (demo [[]; []; [7]]).
  repeat split; try (vm_compute; reflexivity).
  - intros ix H. apply valid_2 in H. destruct H as [i [j [_ H]]]. lia.
  - intros ix H. apply valid_2 in H. destruct H as [i [j [_ H]]]. lia.
  - intros p [o [Ho ->]]. change (size (T_ 2 [1; 1])) with 1 in Ho.
    replace o with 0 by lia. vm_compute. congruence.
  - intros p [o [Ho ->]] [o' [Ho' _]]. change (size (T_ 0 [1; 0])) with 0 in Ho'. lia.
  - intros p [o [Ho ->]] [o' [Ho' _]]. change (size (T_ 1 [0; 1])) with 0 in Ho'. lia.
Qed.

(** (1 2 3; 4 5 6) * (7 8; 9 10; 11 12), all three products and both engines. *)
Definition demo_ab : st Z := demo [[1; 2; 3; 4; 5; 6]; [7; 8; 9; 10; 11; 12]; [0; 0; 0; 0]].
Example C23_case :
  run (mm zt Zsc (T_ 0 [2; 3]) (T_ 1 [3; 2]) (T_ 2 [2; 2])) demo_ab (T_ 2 [2; 2]) = Some (inits [58; 64; 139; 154]) /\
  run (mmt zt Zsc (T_ 0 [2; 3]) (T_ 1 [2; 3]) (T_ 2 [2; 2])) demo_ab (T_ 2 [2; 2]) = Some (inits [50; 68; 122; 167]) /\
  run (mtm zt Zsc (T_ 0 [3; 2]) (T_ 1 [3; 2]) (T_ 2 [2; 2])) demo_ab (T_ 2 [2; 2]) = Some (inits [89; 98; 116; 128]) /\
  run (mv zt Zsc (T_ 0 [2; 3]) (T_ 1 [3]) (T_ 2 [2])) demo_ab (T_ 2 [2]) = Some (inits [50; 122]) /\
  run (vm zt Zsc (T_ 0 [3]) (T_ 1 [3; 2]) (T_ 2 [2])) demo_ab (T_ 2 [2]) = Some (inits [58; 64]).
Proof. vm_compute. auto. Qed.
Example C25_case :
  run (cblas_mm zt Zsc (T_ 0 [2; 3]) (T_ 1 [3; 2]) (T_ 2 [2; 2])) demo_ab (T_ 2 [2; 2]) = Some (inits [58; 64; 139; 154]) /\
  run (cblas_mmt zt Zsc (T_ 0 [2; 3]) (T_ 1 [2; 3]) (T_ 2 [2; 2])) demo_ab (T_ 2 [2; 2]) = Some (inits [50; 68; 122; 167]) /\
  run (cblas_mtm zt Zsc (T_ 0 [3; 2]) (T_ 1 [3; 2]) (T_ 2 [2; 2])) demo_ab (T_ 2 [2; 2]) = Some (inits [89; 98; 116; 128]).
Proof. vm_compute. auto. Qed.
Example C24_case : mm zt Zsc (T_ 0 [2; 3]) (T_ 1 [2; 3]) (T_ 2 [2; 2]) demo_ab = Throw RuntimeError demo_ab.
Proof. vm_compute. reflexivity. Qed.

Print Assumptions C23_mm.
Print Assumptions C23_mmt.
Print Assumptions C23_mtm.
Print Assumptions C23_mv.
Print Assumptions C23_vm.
Print Assumptions C24_mm.
Print Assumptions C24_mmt.
Print Assumptions C24_mtm.
Print Assumptions C24_mv.
Print Assumptions C24_vm.
Print Assumptions C25_cblas.
Print Assumptions C25_zero_size_refuted.
