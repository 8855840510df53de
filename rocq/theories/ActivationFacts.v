(** Correctness of the softmax and cross entropy kernels. *)
From Coq Require Import ZArith List Bool Lia ZifyBool.
From Verif Require Import Base BaseFacts Scalar LinAlg LinAlgFacts TensorFacts SumFacts
  Conv1dFacts Elem ElemSpec ElemFacts Activation.
From Verif Require ActivationSpec.
Import ListNotations.
Open Scope Z_scope.
Open Scope model_scope.

Lemma expand_1 : forall n o, 0 <= o < n -> expand [n] o = [o].
Proof.
  intros n o H. assert (Q : valid [n] [o]) by (cbn; lia).
  rewrite <- (expand_offset _ _ Q). f_equal. cbn. lia.
Qed.

Lemma size_1 : forall t n, tdims t = [n] -> size t = n.
Proof. intros t n E. unfold size. rewrite E. simpl. lia. Qed.

Lemma dims_ok_1 : forall t n, tdims t = [n] -> 0 <= n -> dims_ok t.
Proof. intros t n E H. unfold dims_ok. rewrite E. repeat constructor; auto. Qed.

Lemma addr_1 : forall t n i, tdims t = [n] -> addr t [i] = daddr t i.
Proof. intros t n i E. unfold addr. rewrite E. simpl. f_equal. lia. Qed.

Section Kernels.
  Context {V T : Type} (dt : dtype V T) (sc : scalar T) (exp_ log_ : T -> T).

  Definition soft_tot (n : Z) (X : Z -> T) (i : Z) : T :=
    sum_over sc (zrange n) (fun j => exp_ (ssub sc (X j) (X i))).

  (** One entry, from the current contents [X] of the input. *)
  Lemma soft_entry : forall n x X i s q (k : T -> M V unit), tdims x = [n] -> 0 <= i < n ->
    (forall j, 0 <= j < n -> load dt (daddr x j) s = Ok (X j) s) ->
    sdiv sc (s1 sc) (soft_tot n X i) = Ret q ->
    (xi <- load dt (daddr x i) ;;
     tot <- foldM (zrange (size x)) (fun acc j =>
               xj <- load dt (daddr x j) ;;
               ret (sadd sc acc (exp_ (ssub sc xj xi)))) (s0 sc) ;;
     q <- lift (sdiv sc (s1 sc) tot) ;; k q) s = k q s.
  Proof.
    intros n x X i s q k Ex Hi HL Hq. rewrite (bind_ok _ _ _ _ _ (HL i Hi)). rewrite (size_1 x n Ex).
    erewrite bind_ok.
    2:{ apply foldM_pure. intros b a Ha. apply in_zrange in Ha.
        rewrite (bind_ok _ _ _ _ _ (HL a Ha)). reflexivity. }
    change (fold_left (fun (b : T) (a : Z) => sadd sc b (exp_ (ssub sc (X a) (X i)))) (zrange n) (s0 sc))
      with (soft_tot n X i). rewrite Hq. reflexivity.
  Qed.

  Lemma softmax1_writes : forall eps y x n X Q s,
    tdims x = [n] -> tdims y = [n] -> 0 <= n -> holds dt s x X -> mapped s y -> disjoint y x ->
    (forall i, 0 <= i < n -> sdiv sc (s1 sc) (soft_tot n (fun j => X [j]) i) = Ret (Q i)) ->
    writes dt (softmax1 dt sc exp_ eps y x) s y (arg1 (fun i => smax sc eps (Q i))).
  Proof.
    intros eps y x n X Q s Ex Ey Hn HX HY D HQ. unfold softmax1.
    pose proof (size_1 y n Ey) as Sy.
    replace (zrange (size x)) with (zrange (size y)) at 1 by (rewrite (size_1 x n Ex), Sy; auto).
    apply writes_loop_flat; [eapply dims_ok_1; eauto|]. intros o s' Ho N F O. rewrite Sy in Ho.
    erewrite soft_entry; [|exact Ex|exact Ho| |apply HQ; exact Ho].
    - rewrite store_ok by (rewrite O; apply HY, daddr_foot; lia).
      rewrite Ey, (expand_1 n o Ho). reflexivity.
    - intros j Hj. cbv beta. eapply load_frame1; eauto.
  Qed.

  (** In place. *)
  Definition soft_step (eps : T) (Q : (Z -> T) -> Z -> T) (X : Z -> T) (i : Z) : T := smax sc eps (Q X i).

  Lemma softmax1_inplace : forall eps x n X Q s,
    tdims x = [n] -> 0 <= n -> holds dt s x X ->
    (forall k, 0 <= k < n ->
       let Y := ActivationSpec.overwrite (soft_step eps Q) (Z.to_nat k) (fun j => X [j]) in
       sdiv sc (s1 sc) (soft_tot n Y k) = Ret (Q Y k)) ->
    writes dt (softmax1 dt sc exp_ eps x x) s x
      (arg1 (ActivationSpec.overwrite (soft_step eps Q) (Z.to_nat n) (fun j => X [j]))).
  Proof.
    intros eps x n X Q s Ex Hn HX HQ. unfold softmax1. pose proof (size_1 x n Ex) as Sx.
    set (ov := fun k => ActivationSpec.overwrite (soft_step eps Q) (Z.to_nat k) (fun j => X [j])).
    destruct (for_range_inv n (fun i =>
      xi <- load dt (daddr x i) ;;
      tot <- foldM (zrange (size x)) (fun acc j =>
               xj <- load dt (daddr x j) ;;
               ret (sadd sc acc (exp_ (ssub sc xj xi)))) (s0 sc) ;;
      q <- lift (sdiv sc (s1 sc) tot) ;;
      store dt (daddr x i) (smax sc eps q))
      (fun k s' => nextb s <= nextb s' /\ holds dt s' x (arg1 (ov k)) /\
         (forall p, ~ foot x p -> cells s' p = cells s p)) s) as (s2 & E2 & N2 & H2 & F2); auto.
    - split; [lia|]. split; auto. eapply holds_ext; [|exact HX]. intros ix Hix. rewrite Ex in Hix.
      apply valid_1 in Hix. destruct Hix as (j & -> & _). reflexivity.
    - intros k s' Hk (N & H & F).
      assert (HL : forall j, 0 <= j < n -> load dt (daddr x j) s' = Ok (ov k j) s').
      { intros j Hj. apply load_ok. rewrite <- (addr_1 x n j Ex).
        rewrite (H [j]) by (rewrite Ex; cbn; lia). reflexivity. }
      erewrite soft_entry; [|exact Ex|exact Hk|exact HL|apply (HQ k Hk)].
      cbv zeta. fold (ov k).
      assert (Mk : cells s' (daddr x k) <> Unmapped).
      { rewrite <- (addr_1 x n k Ex). rewrite (H [k]) by (rewrite Ex; cbn; lia). discriminate. }
      eexists. split; [apply store_ok; exact Mk|]. split; [|split].
      + cbn. lia.
      + intros ix Hix. rewrite Ex in Hix. apply valid_1 in Hix. destruct Hix as (j & -> & Hj).
        rewrite (addr_1 x n j Ex). unfold arg1; cbn [nth].
        replace (ov (k + 1) j) with (if j =? k then soft_step eps Q (ov k) j else ov k j).
        * destruct (Z.eqb_spec j k) as [->|Ne].
          -- rewrite cells_upd_same. reflexivity.
          -- rewrite cells_upd_other by (intros E; apply Ne; eapply daddr_inj; eauto).
             rewrite <- (addr_1 x n j Ex). apply (H [j]). rewrite Ex; cbn; lia.
        * unfold ov. replace (Z.to_nat (k + 1)) with (S (Z.to_nat k)) by lia.
          cbn [ActivationSpec.overwrite]. rewrite Z2Nat.id by lia. reflexivity.
      + intros p Hp. rewrite cells_upd_other; auto. intros ->. apply Hp, daddr_foot. lia.
    - exists s2. rewrite Sx. rewrite Sx in E2. split; [exact E2|]. split; [exact H2|]. split; auto.
  Qed.

  (** Rows of matrices. *)
  Lemma softmax2_writes : forall eps y x m n X Q s,
    tdims x = [m; n] -> tdims y = [m; n] -> 0 <= m -> 0 <= n -> holds dt s x X -> mapped s y -> disjoint y x ->
    (forall i j, 0 <= i < m -> 0 <= j < n ->
       sdiv sc (s1 sc) (soft_tot n (fun j => X [i; j]) j) = Ret (Q i j)) ->
    writes dt (softmax2 dt sc exp_ eps y x) s y (arg2 (fun i j => smax sc eps (Q i j))).
  Proof.
    intros eps y x m n X Q s Ex Ey Hm Hn HX HY D HQ. unfold softmax2, nth_dim. rewrite Ex. cbn [nth].
    assert (Dy : dims_ok y) by (eapply dims2; eauto). assert (Dx : dims_ok x) by (eapply dims2; eauto).
    eapply writes_rows; eauto. intros i s' Hi N F O.
    pose proof (tdims_sub y i _ _ Ey) as Eyi. pose proof (tdims_sub x i _ _ Ex) as Exi.
    eapply writes_ext; [reflexivity| |apply (softmax1_writes eps (sub y i) (sub x i) n (fun ix => X (i :: ix)) (Q i))]; auto.
    - eapply holds_sub; eauto. eapply holds_frame_disj; eauto.
    - eapply mapped_frame; [exact O|]. eapply mapped_sub; eauto.
    - eapply disjoint_sub_l; eauto. eapply disjoint_sub_r; eauto.
  Qed.

  Lemma softmax2_inplace : forall eps x m n X Q s,
    tdims x = [m; n] -> 0 <= m -> 0 <= n -> holds dt s x X ->
    (forall i k, 0 <= i < m -> 0 <= k < n ->
       let Y := ActivationSpec.overwrite (soft_step eps Q) (Z.to_nat k) (fun j => X [i; j]) in
       sdiv sc (s1 sc) (soft_tot n Y k) = Ret (Q Y k)) ->
    writes dt (softmax2 dt sc exp_ eps x x) s x
      (arg2 (fun i => ActivationSpec.overwrite (soft_step eps Q) (Z.to_nat n) (fun j => X [i; j]))).
  Proof.
    intros eps x m n X Q s Ex Hm Hn HX HQ. unfold softmax2, nth_dim. rewrite Ex. cbn [nth].
    assert (Dx : dims_ok x) by (eapply dims2; eauto).
    eapply writes_rows; eauto. intros i s' Hi N F O.
    pose proof (tdims_sub x i _ _ Ex) as Exi.
    eapply writes_ext; [reflexivity| |apply (softmax1_inplace eps (sub x i) n (fun ix => X (i :: ix)) Q)]; auto.
    - eapply holds_frame; [exact O|]. eapply holds_sub; eauto.
    - intros k Hk. apply HQ; auto.
  Qed.

  (** ** Cross entropy *)

  Lemma xentropy1_writes : forall z x y n X Y s,
    tdims z = [] -> tdims x = [n] -> tdims y = [n] -> 0 <= n ->
    holds dt s x X -> holds dt s y Y -> mapped s z ->
    writes dt (xentropy1 dt sc log_ z x y) s z
      (fun _ => sneg sc (sum_over sc (zrange n) (fun j => smul sc (X [j]) (log_ (Y [j]))))).
  Proof.
    intros z x y n X Y s Ez Ex Ey Hn HX HY HZ. unfold xentropy1.
    assert (P : 0 <= 0 < size z) by (unfold size; rewrite Ez; simpl; lia).
    exists (upd s (daddr z 0) (emb dt (sneg sc (sum_over sc (zrange n) (fun j => smul sc (X [j]) (log_ (Y [j]))))))).
    split; [|split].
    - rewrite (size_1 x n Ex). erewrite bind_ok.
      2:{ apply foldM_pure with (g := fun acc j => sadd sc acc (smul sc (X [j]) (log_ (Y [j])))).
          intros b a Ha. apply in_zrange in Ha.
          erewrite bind_ok; [|apply load_ok; rewrite <- (addr_1 x n a Ex); apply HX; rewrite Ex; cbn; lia].
          erewrite bind_ok; [|apply load_ok; rewrite <- (addr_1 y n a Ey); apply HY; rewrite Ey; cbn; lia].
          reflexivity. }
      apply store_ok. apply HZ, daddr_foot; auto.
    - intros ix Hix. rewrite Ez in Hix. destruct ix; [|destruct Hix]. unfold addr. rewrite Ez. cbn [offset].
      apply cells_upd_same.
    - split; [cbn; lia|]. intros p Hp. apply cells_upd_other. intros ->. apply Hp, daddr_foot; auto.
  Qed.

  Lemma xentropy2_writes : forall z x y m n X Y s,
    tdims z = [m] -> tdims x = [m; n] -> tdims y = [m; n] -> 0 <= m -> 0 <= n ->
    holds dt s x X -> holds dt s y Y -> mapped s z -> disjoint z x -> disjoint z y ->
    writes dt (xentropy2 dt sc log_ z x y) s z
      (arg1 (fun i => sneg sc (sum_over sc (zrange n) (fun j => smul sc (X [i; j]) (log_ (Y [i; j])))))).
  Proof.
    intros z x y m n X Y s Ez Ex Ey Hm Hn HX HY HZ D1 D2. unfold xentropy2, nth_dim. rewrite Ez. cbn [nth].
    assert (Dz : dims_ok z) by (eapply dims_ok_1; eauto).
    assert (Dx : dims_ok x) by (eapply dims2; eauto). assert (Dy : dims_ok y) by (eapply dims2; eauto).
    eapply writes_rows; eauto. intros i s' Hi N F O.
    pose proof (tdims_sub y i _ _ Ey) as Eyi. pose proof (tdims_sub x i _ _ Ex) as Exi.
    pose proof (tdims_sub z i _ _ Ez) as Ezi.
    eapply writes_ext; [reflexivity| |apply (xentropy1_writes (sub z i) (sub x i) (sub y i) n
      (fun ix => X (i :: ix)) (fun ix => Y (i :: ix)))]; auto.
    - eapply holds_sub; eauto. eapply holds_frame_disj; eauto.
    - eapply holds_sub; eauto. eapply holds_frame_disj; eauto.
    - eapply mapped_frame; [exact O|]. eapply mapped_sub; eauto.
  Qed.

  (** ** Gradients *)

  Definition jac (Y : Z -> T) (i j : Z) : T :=
    if i =? j then smul sc (Y i) (ssub sc (s1 sc) (Y i)) else smul sc (sneg sc (Y i)) (Y j).

  Lemma softmax_grad1_writes : forall gx gy y x n GY Y s,
    tdims gx = [n] -> tdims gy = [n] -> tdims y = [n] -> tdims x = [n] -> 0 <= n -> fresh_ok s ->
    holds dt s gy GY -> holds dt s y Y -> mapped s gx -> disjoint gx gy ->
    writes dt (softmax_grad1 dt sc gx gy y x) s gx
      (arg1 (fun j => sum_over sc (zrange n) (fun i => smul sc (GY [i]) (jac (fun k => Y [k]) i j)))).
  Proof.
    intros gx gy y x n GY Y s Egx Egy Ey Ex Hn Hf HG HY Hx D. unfold softmax_grad1. cbv zeta.
    rewrite (size_1 x n Ex).
    apply with_tensor_writes; auto.
    { repeat constructor; auto. }
    { eapply dims_ok_1; eauto. }
    intros tmp sa Et Dt Mt F1 N1 Dis Ext.
    assert (W : writes dt (for_ (zrange n) (fun i => for_ (zrange n) (fun j =>
        if i =? j then
          v <- at_ dt y [i] ;;
          set_ dt tmp [i; j] (smul sc v (ssub sc (s1 sc) v))
        else
          a <- at_ dt y [i] ;;
          b <- at_ dt y [j] ;;
          set_ dt tmp [i; j] (smul sc (sneg sc a) b)))) sa tmp (arg2 (jac (fun k => Y [k])))).
    { eapply writes_ext; [symmetry|reflexivity|].
      { rewrite for_nest2, <- Et. reflexivity. }
      apply writes_loop; auto. intros ix s' Hix N F O.
      assert (Hix0 := Hix). rewrite Et in Hix0. apply valid_2 in Hix0.
      destruct Hix0 as (i & j & -> & Hi & Hj). unfold arg2; cbn [nth]. unfold jac.
      assert (Dy : disjoint tmp y) by (apply Dis; eapply holds_mapped; eauto; eapply dims_ok_1; eauto).
      assert (HY1 : holds dt sa y Y) by (eapply extends_holds; eauto).
      assert (Mi : cells s' (addr tmp [i; j]) <> Unmapped).
      { rewrite O. apply mapped_addr; auto. }
      destruct (Z.eqb_spec i j) as [E|Ne].
      - erewrite bind_ok; [|apply (at_frame dt sa s' y tmp Y); auto; rewrite Ey; simpl; tauto].
        apply set_ok; auto.
      - erewrite bind_ok; [|apply (at_frame dt sa s' y tmp Y); auto; rewrite Ey; simpl; tauto].
        erewrite bind_ok; [|apply (at_frame dt sa s' y tmp Y); auto; rewrite Ey; simpl; tauto].
        apply set_ok; auto. }
    eapply writes_then; [exact W|]. intros s2 H2 (N2 & F2).
    assert (Dg : disjoint tmp gx) by (apply Dis; auto).
    assert (Dgy : disjoint tmp gy) by (apply Dis; eapply holds_mapped; eauto; eapply dims_ok_1; eauto).
    apply (vm_writes dt sc gy tmp gx n n GY (arg2 (jac (fun k => Y [k])))); auto.
    - eapply holds_frame_disj; [|exact F2|exact Dgy]. eapply extends_holds; eauto.
    - intros p Hp. rewrite F2.
      + rewrite Ext; [apply Hx; exact Hp|apply Hx; exact Hp].
      + intros Q. apply (Dg _ Q Hp).
    - apply disjoint_sym; auto.
  Qed.

  Lemma fresh_ok_frame : forall (s s' : st V) z, fresh_ok s -> mapped s z -> nextb s <= nextb s' ->
    (forall p, ~ foot z p -> cells s' p = cells s p) -> fresh_ok s'.
  Proof.
    intros s s' z Hf Hm N F p Hp. rewrite F; [apply Hf; lia|]. intros Q.
    pose proof (foot_fresh z s p Hf Hm Q). lia.
  Qed.

  Lemma softmax_grad2_writes_over : forall gx gy y x m n GY Y s,
    tdims gx = [m; n] -> tdims gy = [m; n] -> tdims y = [m; n] -> tdims x = [m; n] ->
    0 <= m -> 0 <= n -> fresh_ok s ->
    holds dt s gy GY -> holds dt s y Y -> mapped s gx -> disjoint gx gy -> safe gx y ->
    writes dt (softmax_grad2 dt sc gx gy y x) s gx
      (arg2 (fun r j => sum_over sc (zrange n) (fun i => smul sc (GY [r; i]) (jac (fun k => Y [r; k]) i j)))).
  Proof.
    intros gx gy y x m n GY Y s Egx Egy Ey Ex Hm Hn Hf HG HY Hx D1 D2.
    unfold softmax_grad2, nth_dim. rewrite Ex. cbn [nth].
    assert (Dgx : dims_ok gx) by (eapply dims2; eauto). assert (Dgy : dims_ok gy) by (eapply dims2; eauto).
    assert (Dy : dims_ok y) by (eapply dims2; eauto).
    eapply writes_rows; eauto. intros i s' Hi N F O.
    pose proof (tdims_sub y i _ _ Ey) as Eyi. pose proof (tdims_sub x i _ _ Ex) as Exi.
    pose proof (tdims_sub gx i _ _ Egx) as Egxi. pose proof (tdims_sub gy i _ _ Egy) as Egyi.
    eapply writes_ext; [reflexivity| |apply (softmax_grad1_writes (sub gx i) (sub gy i) (sub y i) (sub x i) n
      (fun ix => GY (i :: ix)) (fun ix => Y (i :: ix)))]; auto.
    - eapply fresh_ok_frame; eauto.
    - eapply holds_sub; eauto. eapply holds_frame_disj; eauto.
    - apply (safe_holds_row dt s s' gx _ _ i m [n]); auto.
    - eapply mapped_frame; [exact O|]. eapply mapped_sub; eauto.
    - eapply disjoint_sub_l; eauto. eapply disjoint_sub_r; eauto.
  Qed.

  Lemma softmax_grad2_writes : forall gx gy y x m n GY Y s,
    tdims gx = [m; n] -> tdims gy = [m; n] -> tdims y = [m; n] -> tdims x = [m; n] ->
    0 <= m -> 0 <= n -> fresh_ok s ->
    holds dt s gy GY -> holds dt s y Y -> mapped s gx -> disjoint gx gy -> disjoint gx y ->
    writes dt (softmax_grad2 dt sc gx gy y x) s gx
      (arg2 (fun r j => sum_over sc (zrange n) (fun i => smul sc (GY [r; i]) (jac (fun k => Y [r; k]) i j)))).
  Proof. intros. eapply softmax_grad2_writes_over; eauto. left; auto. Qed.

  Lemma xentropy_grad1_writes : forall gx gz x y n GZ X Y Q s,
    tdims gx = [n] -> tdims gz = [] -> tdims x = [n] -> tdims y = [n] -> 0 <= n ->
    holds dt s gz GZ -> holds dt s x X -> holds dt s y Y -> mapped s gx ->
    disjoint gx gz -> safe gx x -> safe gx y ->
    (forall i, 0 <= i < n -> sdiv sc (sneg sc (X [i])) (Y [i]) = Ret (Q i)) ->
    writes dt (xentropy_grad1 dt sc gx gz x y) s gx (arg1 (fun i => smul sc (GZ []) (Q i))).
  Proof.
    intros gx gz x y n GZ X Y Q s Egx Egz Ex Ey Hn HG HX HY Hx D1 S2 S3 HQ.
    unfold xentropy_grad1, nth_dim. rewrite Ex. cbn [nth].
    assert (Dgx : dims_ok gx) by (eapply dims_ok_1; eauto).
    pose proof (size_1 gx n Egx) as Sgx. rewrite <- Sgx.
    apply writes_loop_flat; auto. intros o s' Ho N F O.
    assert (Ho' : 0 <= o < n) by lia.
    erewrite bind_ok.
    2:{ apply load_ok. rewrite F.
        - pose proof (HG []) as Qz. unfold addr in Qz. rewrite Egz in Qz. apply Qz. exact I.
        - intros Hp. apply (D1 _ Hp). apply daddr_foot. unfold size. rewrite Egz. simpl. lia. }
    rewrite (bind_ok _ _ _ _ _ (safe_load dt s s' gx x X o Dgx ltac:(congruence) HX S2 Ho F O)).
    rewrite (bind_ok _ _ _ _ _ (safe_load dt s s' gx y Y o Dgx ltac:(congruence) HY S3 Ho F O)).
    rewrite Egx, (expand_1 n o Ho'), (HQ o Ho'). cbn [lift]. rewrite bind_ret_l.
    apply store_ok. rewrite O. apply Hx, daddr_foot; auto.
  Qed.

  Lemma xentropy_grad2_writes : forall gx gz x y m n GZ X Y Q s,
    tdims gx = [m; n] -> tdims gz = [m] -> tdims x = [m; n] -> tdims y = [m; n] -> 0 <= m -> 0 <= n ->
    holds dt s gz GZ -> holds dt s x X -> holds dt s y Y -> mapped s gx ->
    disjoint gx gz -> safe gx x -> safe gx y ->
    (forall i j, 0 <= i < m -> 0 <= j < n -> sdiv sc (sneg sc (X [i; j])) (Y [i; j]) = Ret (Q i j)) ->
    writes dt (xentropy_grad2 dt sc gx gz x y) s gx (arg2 (fun i j => smul sc (GZ [i]) (Q i j))).
  Proof.
    intros gx gz x y m n GZ X Y Q s Egx Egz Ex Ey Hm Hn HG HX HY Hx D1 S2 S3 HQ.
    unfold xentropy_grad2, nth_dim. rewrite Ex. cbn [nth].
    assert (Dgx : dims_ok gx) by (eapply dims2; eauto). assert (Dgz : dims_ok gz) by (eapply dims_ok_1; eauto).
    eapply writes_rows; eauto. intros i s' Hi N F O.
    pose proof (tdims_sub y i _ _ Ey) as Eyi. pose proof (tdims_sub x i _ _ Ex) as Exi.
    pose proof (tdims_sub gx i _ _ Egx) as Egxi. pose proof (tdims_sub gz i _ _ Egz) as Egzi.
    eapply writes_ext; [reflexivity| |apply (xentropy_grad1_writes (sub gx i) (sub gz i) (sub x i) (sub y i) n
      (fun ix => GZ (i :: ix)) (fun ix => X (i :: ix)) (fun ix => Y (i :: ix)) (Q i))]; auto.
    - eapply holds_sub; eauto. eapply holds_frame_disj; eauto.
    - apply (safe_holds_row dt s s' gx _ _ i m [n]); auto.
    - apply (safe_holds_row dt s s' gx _ _ i m [n]); auto.
    - eapply mapped_frame; [exact O|]. eapply mapped_sub; eauto.
    - eapply disjoint_sub_l; eauto. eapply disjoint_sub_r; eauto.
    - eapply safe_sub; eauto.
    - eapply safe_sub; eauto.
  Qed.
End Kernels.
