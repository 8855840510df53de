(** Framing by inspection of the stores. *)
From Coq Require Import ZArith List Bool Lia ZifyBool.
From Verif Require Import Base BaseFacts Traits Scalar LinAlg Init Elem Conv Conv1d Pool Activation Summary Utility
  Transpose Reshape Hash TensorFacts SafeSpec.
Import ListNotations.
Open Scope Z_scope.
Open Scope model_scope.

(** Only cells in [P] change. *)
Definition keeps {V A} (P : loc -> Prop) (m : M V A) : Prop :=
  forall s, fresh_ok s ->
    match m s with
    | Ok _ s' | Throw _ s' => nextb s <= nextb s' /\ fresh_ok s' /\ forall p, ~ P p -> cells s' p = cells s p
    | UB => True
    end.

Section Keeps.
  Context {V : Type}.

  Lemma keeps_stays : forall {A} z (m : M V A), keeps (foot z) m -> stays_in z m.
  Proof using.
    intros A z m K s Hf. specialize (K s Hf). destruct (m s); auto; destruct K as (N & _ & F); split; auto.
  Qed.

  Lemma keeps_weaken : forall {A} (P Q : loc -> Prop) (m : M V A), (forall p, P p -> Q p) -> keeps P m -> keeps Q m.
  Proof using.
    intros A P Q m H K s Hf. specialize (K s Hf). destruct (m s); auto; destruct K as (N & F & C); split; auto; split; auto.
  Qed.

  Lemma keeps_ret : forall {A} P (a : A), keeps P (@ret V A a).
  Proof using. intros A P a s Hf. cbn. split; [lia|]. auto. Qed.
  Lemma keeps_throw : forall {A} P e, keeps P (@throw V A e).
  Proof using. intros A P e s Hf. cbn. split; [lia|]. auto. Qed.
  Lemma keeps_undef : forall {A} P, keeps P (@undef V A).
  Proof using. intros A P s Hf. exact I. Qed.
  Lemma keeps_lift : forall {A} P (o : outcome A), keeps P (@lift V A o).
  Proof using. intros A P o. destruct o; [apply keeps_ret|apply keeps_throw|apply keeps_undef]. Qed.
  Lemma keeps_load : forall {T} P (dt : dtype V T) p, keeps P (load dt p).
  Proof using.
    intros T P dt p s Hf. unfold load. destruct (cells s p); auto. destruct (prj dt v); auto. split; [lia|]. auto.
  Qed.
  Lemma keeps_at : forall {T} P (dt : dtype V T) t ix, keeps P (at_ dt t ix).
  Proof using. intros. apply keeps_load. Qed.

  Lemma keeps_store : forall {T} (P : loc -> Prop) (dt : dtype V T) p x, P p -> keeps P (store dt p x).
  Proof using.
    intros T P dt p x Hp s Hf. unfold store.
    assert (F : cells s p <> Unmapped -> fresh_ok (upd s p (emb dt x))).
    { intros Hm q Hq. cbn in Hq. rewrite cells_upd_other; [apply Hf; auto|]. intros ->. apply Hm, Hf. auto. }
    assert (G : forall q, ~ P q -> cells (upd s p (emb dt x)) q = cells s q).
    { intros q Hq. apply cells_upd_other. intros ->. auto. }
    destruct (cells s p); auto; (split; [cbn; lia|]; split; [apply F; discriminate|exact G]).
  Qed.
  Lemma keeps_set : forall {T} (P : loc -> Prop) (dt : dtype V T) t ix x, P (addr t ix) -> keeps P (set_ dt t ix x).
  Proof using. intros. apply keeps_store. auto. Qed.

  Lemma keeps_bind_out : forall {A B} P (m : M V A) (k : A -> M V B),
    keeps P m -> (forall s a s', m s = Ok a s' -> keeps P (k a)) -> keeps P (bind m k).
  Proof using.
    intros A B P m k Km Kk s Hf. unfold bind. specialize (Km s Hf). destruct (m s) as [a s1|e s1|] eqn:E; auto.
    destruct Km as (N1 & F1 & C1). specialize (Kk _ _ _ E s1 F1).
    destruct (k a s1) as [b s2|e s2|]; auto; destruct Kk as (N2 & F2 & C2); (split; [lia|]; split; [auto|]);
      intros p Hp; rewrite C2, C1; auto.
  Qed.
  Lemma keeps_bind : forall {A B} P (m : M V A) (k : A -> M V B),
    keeps P m -> (forall a, keeps P (k a)) -> keeps P (bind m k).
  Proof using. intros. apply keeps_bind_out; auto. Qed.

  Lemma keeps_contract : forall {B} P b (k : unit -> M V B),
    (b = true -> keeps P (k tt)) -> keeps P (bind (contract b) k).
  Proof using.
    intros B P b k H. apply keeps_bind_out; [destruct b; [apply keeps_ret|apply keeps_throw]|].
    intros s [] s' E. destruct b; [auto|discriminate].
  Qed.
  Lemma keeps_lift_bind : forall {A B} P (o : outcome A) (k : A -> M V B),
    (forall a, o = Ret a -> keeps P (k a)) -> keeps P (bind (lift o) k).
  Proof using.
    intros A B P o k H. apply keeps_bind_out; [apply keeps_lift|].
    intros s a s' E. destruct o; cbn in E; try discriminate. injection E as <- <-. auto.
  Qed.

  Lemma keeps_for : forall {A} P (l : list A) (f : A -> M V unit),
    (forall a, In a l -> keeps P (f a)) -> keeps P (for_ l f).
  Proof using.
    intros A P l f. induction l as [|a l IH]; intros H; cbn [for_]; [apply keeps_ret|].
    apply keeps_bind; [apply H; left; auto|]. intros _. apply IH. intros; apply H; right; auto.
  Qed.
  Lemma keeps_loop : forall P n (f : Z -> M V unit),
    (forall i, 0 <= i < n -> keeps P (f i)) -> keeps P (for_ (zrange n) f).
  Proof using. intros P n f H. apply keeps_for. intros i Hi. apply H. apply in_zrange; auto. Qed.
  Lemma keeps_foldM : forall {A B} P (l : list A) (f : B -> A -> M V B) b,
    (forall b a, keeps P (f b a)) -> keeps P (foldM l f b).
  Proof using.
    intros A B P l f. induction l as [|a l IH]; intros b H; cbn [foldM]; [apply keeps_ret|].
    apply keeps_bind; [apply H|]. intros b'. apply IH. auto.
  Qed.

  (** Temporaries. *)
  Lemma keeps_with : forall {A} (P : loc -> Prop) ds (body : tensor -> M V A),
    (forall b, keeps (fun p => P p \/ fst p = b) (body (mktensor b 0 ds))) -> keeps P (with_tensor ds body).
  Proof using.
    intros A P ds body H s Hf. unfold with_tensor, with_temp, alloc. cbn iota beta.
    set (s1 := mkst _ (nextb s + 1)).
    assert (F1 : fresh_ok s1).
    { intros p Hp. cbn in Hp. unfold s1; cbn. replace (fst p =? nextb s) with false by lia. cbn. apply Hf. lia. }
    specialize (H (nextb s) s1 F1).
    assert (G : forall s2, nextb s1 <= nextb s2 -> fresh_ok s2 ->
      (forall p, ~ (P p \/ fst p = nextb s) -> cells s2 p = cells s1 p) ->
      nextb s <= nextb (dealloc (nextb s) s2) /\ fresh_ok (dealloc (nextb s) s2) /\
      forall p, ~ P p -> cells (dealloc (nextb s) s2) p = cells s p).
    { intros s2 N2 F2 C2. cbn in N2 |- *. split; [lia|]. split.
      - intros p Hp. cbn in Hp |- *. destruct (fst p =? nextb s); auto.
      - intros p Hp. destruct (fst p =? nextb s) eqn:E.
        + symmetry. apply Hf. lia.
        + rewrite C2 by (intros [Q|Q]; [auto|lia]). unfold s1; cbn. rewrite E. reflexivity. }
    destruct (body (mktensor (nextb s) 0 ds) s1) as [a s2|e s2|]; auto; destruct H as (N2 & F2 & C2); apply G; auto.
  Qed.
End Keeps.

Ltac keep := repeat first
  [ apply keeps_loop; intros ? ?
  | apply keeps_contract; intros ?
  | apply keeps_lift_bind; intros ? ?
  | apply keeps_bind; [|intros ?]
  | apply keeps_ret | apply keeps_load | apply keeps_at | apply keeps_lift | apply keeps_undef | apply keeps_throw
  | apply keeps_foldM; intros ? ?
  | apply keeps_set | apply keeps_store
  | match goal with |- keeps _ (match ?q with _ => _ end) => destruct q eqn:? end
  | match goal with |- keeps _ (let '(_, _) := ?q in _) => destruct q eqn:? end ].


(** Elements of tensors of a given rank. *)
Lemma vec_foot : forall t i, length (tdims t) = 1%nat -> 0 <= i < nth_dim t 0 -> foot t (addr t [i]).
Proof.
  intros [b o [|d [|e0 r0]]] i L H; try discriminate L. apply addr_foot. cbn in *. lia.
Qed.
Lemma mat_foot : forall t i j, length (tdims t) = 2%nat -> 0 <= i < nth_dim t 0 -> 0 <= j < nth_dim t 1 ->
  foot t (addr t [i; j]).
Proof.
  intros [b o [|d [|d1 [|e0 r0]]]] i j L H H1; try discriminate L. apply addr_foot. cbn in *. lia.
Qed.
Lemma cube_foot : forall t i j k, length (tdims t) = 3%nat -> 0 <= i < nth_dim t 0 -> 0 <= j < nth_dim t 1 ->
  0 <= k < nth_dim t 2 -> foot t (addr t [i; j; k]).
Proof.
  intros [b o [|d [|d1 [|d2 [|e0 r0]]]]] i j k L H H1 H2; try discriminate L. apply addr_foot. cbn in *. lia.
Qed.
Lemma four_foot : forall t i j k l, length (tdims t) = 4%nat -> 0 <= i < nth_dim t 0 -> 0 <= j < nth_dim t 1 ->
  0 <= k < nth_dim t 2 -> 0 <= l < nth_dim t 3 -> foot t (addr t [i; j; k; l]).
Proof.
  intros [b o [|d [|d1 [|d2 [|d3 [|e0 r0]]]]]] i j k l L H H1 H2 H3; try discriminate L. apply addr_foot. cbn in *. lia.
Qed.
Lemma five_foot : forall t i j k l m, length (tdims t) = 5%nat -> 0 <= i < nth_dim t 0 -> 0 <= j < nth_dim t 1 ->
  0 <= k < nth_dim t 2 -> 0 <= l < nth_dim t 3 -> 0 <= m < nth_dim t 4 -> foot t (addr t [i; j; k; l; m]).
Proof.
  intros [b o [|d [|d1 [|d2 [|d3 [|d4 [|e0 r0]]]]]]] i j k l m L H H1 H2 H3 H4; try discriminate L. apply addr_foot. cbn in *. lia.
Qed.
Lemma vec_size : forall t, length (tdims t) = 1%nat -> size t = nth_dim t 0.
Proof. intros [b o [|d [|e0 r0]]] L; try discriminate L. unfold size. cbn. lia. Qed.
Lemma flat_foot : forall t p, foot (flat t) p -> foot t p.
Proof. intros t p H. apply (proj1 (foot_reshape t [prod (tdims t)] p ltac:(cbn; unfold size; lia))). exact H. Qed.
Lemma size_flat : forall t, size (flat t) = size t.
Proof. intros t. unfold size. cbn. lia. Qed.
Lemma matrix_foot : forall p t q, foot (as_matrix p t) q -> foot t q.
Proof. intros p t q H. apply (proj1 (foot_as_matrix p t q)). exact H. Qed.
Lemma row_foot : forall t i p, dims_ok t -> tdims t <> [] -> 0 <= i < nth_dim t 0 -> foot (sub t i) p -> foot t p.
Proof.
  intros t i p D N Hi H. destruct (tdims t) as [|d ds] eqn:E; [congruence|].
  eapply foot_sub; eauto. unfold nth_dim in Hi. rewrite E in Hi. exact Hi.
Qed.
Lemma length_sub : forall t i n, length (tdims t) = S n -> length (tdims (sub t i)) = n.
Proof. intros t i n H. cbn. destruct (tdims t); cbn in *; lia. Qed.

Section Ops.
  Context {V T : Type} (dt : dtype V T) (sc : scalar T).

  Lemma k_fill : forall (P : loc -> Prop) t (x : T), (forall p, foot t p -> P p) -> keeps P (fill dt t x).
  Proof using. intros P t x H. unfold fill. keep. apply H, daddr_foot. auto. Qed.

  (** Products. *)
  Lemma k_gemm : forall (P : loc -> Prop) x tx y ty z, length (tdims z) = 2%nat -> (forall p, foot z p -> P p) ->
    keeps P (cblas_gemm dt sc x tx y ty z).
  Proof using.
    intros P x tx y ty z L H. unfold cblas_gemm, gemm, len, wid. keep.
    apply H. destruct z as [b o [|m [|n [|e0 r0]]]]; try discriminate L. cbn in *.
    eexists. split; [|unfold elt, daddr; cbn; rewrite <- Z.add_assoc; reflexivity]. unfold size; cbn. nia.
  Qed.
  Lemma k_mm_keeps : forall (P : loc -> Prop) e z x y, length (tdims z) = 2%nat -> (forall p, foot z p -> P p) ->
    keeps P (k_mm dt sc e z x y).
  Proof using.
    intros P e z x y L H. destruct e; [|apply k_gemm; auto]. unfold k_mm, e_mm, mm, memset0. keep.
    - apply H, daddr_foot; auto.
    - apply H, mat_foot; auto; lia.
  Qed.
  Lemma k_mmt_keeps : forall (P : loc -> Prop) e z x y, length (tdims z) = 2%nat -> (forall p, foot z p -> P p) ->
    keeps P (k_mmt dt sc e z x y).
  Proof using.
    intros P e z x y L H. destruct e; [|apply k_gemm; auto]. unfold k_mmt, e_mmt, mmt. keep. apply H, mat_foot; auto; lia.
  Qed.
  Lemma k_mtm_keeps : forall (P : loc -> Prop) e z x y, length (tdims z) = 2%nat -> (forall p, foot z p -> P p) ->
    keeps P (k_mtm dt sc e z x y).
  Proof using.
    intros P e z x y L H. destruct e; [|apply k_gemm; auto]. unfold k_mtm, e_mtm, mtm. keep. apply H, mat_foot; auto; lia.
  Qed.
  Lemma mv_keeps : forall x y z, length (tdims z) = 1%nat -> keeps (foot z) (mv dt sc x y z).
  Proof using. intros x y z L. unfold mv. keep. apply vec_foot; auto; lia. Qed.
  Lemma vm_keeps : forall (P : loc -> Prop) x y z, length (tdims z) = 1%nat -> (forall p, foot z p -> P p) ->
    keeps P (vm dt sc x y z).
  Proof using. intros P x y z L H. unfold vm. keep. apply H, vec_foot; auto; lia. Qed.

  (** Elementwise. *)
  Lemma transform1_keeps : forall {R S_} (dr : dtype V R) (ds : dtype V S_) f z x, size x <= size z ->
    keeps (foot z) (transform1 dr ds f z x).
  Proof using. intros R S_ dr ds f z x H. unfold transform1. keep. apply daddr_foot. lia. Qed.
  Lemma transform2_keeps : forall (P : loc -> Prop) f z x y, size x <= size z -> (forall p, foot z p -> P p) ->
    keeps P (transform2 dt f z x y).
  Proof using. intros P f z x y H Q. unfold transform2. keep. apply Q, daddr_foot. lia. Qed.
  Lemma flat1_keeps : forall {R S_} (dr : dtype V R) (ds : dtype V S_) f z x, size x <= size z ->
    keeps (foot z) (transform1 dr ds f (flat z) (flat x)).
  Proof using.
    intros. apply keeps_weaken with (foot (flat z)); [apply flat_foot|]. apply transform1_keeps. rewrite !size_flat. auto.
  Qed.
  Lemma flat2_keeps : forall f z x y, size x <= size z -> keeps (foot z) (transform2 dt f (flat z) (flat x) (flat y)).
  Proof using. intros. apply transform2_keeps; [rewrite !size_flat; auto|apply flat_foot]. Qed.
  Lemma axpy_keeps : forall z a x y, size x <= size z -> keeps (foot z) (op_axpy dt sc z a x y).
  Proof using. intros. unfold op_axpy. apply keeps_bind; [apply keeps_load|]. intros. apply flat2_keeps. auto. Qed.

  Lemma bias_keeps : forall o f z x y, length (tdims z) = rank_of o -> dims_ok z ->
    (o <> nhwc -> size x <= size z) ->
    (o = nhwc -> nth_dim x 3 <= nth_dim z 3 /\ length (tdims x) = 4%nat) -> keeps (foot z) (op_bias dt o f z x y).
  Proof using.
    assert (G : forall o f z x y, size x <= size z -> keeps (foot z) (bias_generic dt (bias_position o) f z x y)).
    { intros. unfold bias_generic. keep. apply daddr_foot. lia. }
    intros o f z x y L D H H4. destruct o; try (apply G; apply H; discriminate).
    destruct (H4 eq_refl) as (H3 & Lx). cbn [op_bias]. unfold bias_rows. apply keeps_loop. intros i Hi. unfold binary_pointwise. apply transform2_keeps.
    - destruct z as [b o [|z0 [|z1 [|z2 [|z3 [|e0 r0]]]]]]; try discriminate L.
      destruct x as [bx ox [|x0 [|x1 [|x2 [|x3 [|e1 r1]]]]]]; try discriminate Lx.
      unfold size. cbn in *. lia.
    - intros p Q. apply matrix_foot with 3%nat. eapply row_foot; eauto.
      + apply dims_ok_as_matrix. auto.
      + discriminate.
  Qed.

  Lemma bn_keeps : forall o norm z x m v, length (tdims z) = 4%nat ->
    (forall k, (k < 4)%nat -> nth_dim x k <= nth_dim z k) -> keeps (foot z) (op_bn dt o norm z x m v).
  Proof using.
    intros o norm z x m v L H.
    pose proof (H 0%nat ltac:(lia)). pose proof (H 1%nat ltac:(lia)). pose proof (H 2%nat ltac:(lia)). pose proof (H 3%nat ltac:(lia)).
    unfold op_bn, bn_nhwc, bn_nchw. keep; apply four_foot; auto; lia.
  Qed.

  Lemma concat_nchw2_keeps : forall z x y, length (tdims z) = 4%nat -> keeps (foot z) (concat_nchw2 dt z x y).
  Proof using. intros. unfold concat_nchw2. keep; apply four_foot; auto. Qed.
  Lemma concat_nhwc3_keeps : forall t x y z, length (tdims t) = 4%nat -> keeps (foot t) (concat_nhwc3 dt t x y z).
  Proof using. intros. unfold concat_nhwc3. keep; apply four_foot; auto. Qed.

  Lemma inner_keeps : forall y x, nth_dim x 0 <= size y -> keeps (foot y) (inner_contraction dt sc y x).
  Proof using. intros. unfold inner_contraction, vsum. keep. apply daddr_foot. lia. Qed.
  Lemma outter_keeps : forall y x, keeps (foot y) (outter_contraction dt sc y x).
  Proof using.
    intros. unfold outter_contraction. keep; apply daddr_foot; auto.
  Qed.

  (** Sampling. *)
  Lemma source_inside : forall H W h w i_ j_ u v i j, 0 <= left_ (spadding H) -> 0 <= left_ (spadding W) -> 0 <= h -> 0 <= w ->
    source H W h w i_ j_ u v = Ret (Some (i, j)) -> 0 <= i < h /\ 0 <= j < w.
  Proof using.
    intros H W h w i_ j_ u v i j LH LW Hh Hw E. unfold source, sample_pos, filter_pos, sample_inside, pad_inside, sample_unpad,
      pad_unpad, imul, iadd, isub, norm in E. cbn [obind] in E.
    set (a := (_ + _) mod 2 ^ 32) in E. set (b := ((j_ * stride (sfilter W)) mod 2 ^ 32 + _) mod 2 ^ 32) in E.
    assert (Ha : 0 <= a < 2 ^ 32) by (apply Z.mod_pos_bound; lia).
    assert (Hb : 0 <= b < 2 ^ 32) by (apply Z.mod_pos_bound; lia).
    destruct (left_ (spadding H) <=? a) eqn:EH; [|discriminate E]. cbn [obind] in E.
    destruct (a <? (left_ (spadding H) + h) mod 2 ^ 32) eqn:EH'; [|discriminate E].
    destruct (left_ (spadding W) <=? b) eqn:EW; [|discriminate E]. cbn [obind] in E.
    destruct (b <? (left_ (spadding W) + w) mod 2 ^ 32) eqn:EW'; [|discriminate E]. cbn [obind] in E.
    injection E as <- <-.
    rewrite !Z.mod_small by lia.
    pose proof (Z.mod_le (left_ (spadding H) + h) (2 ^ 32)). pose proof (Z.mod_le (left_ (spadding W) + w) (2 ^ 32)). lia.
  Qed.

  Lemma im2col_hwrs_keeps : forall H W y x, length (tdims y) = 4%nat -> keeps (foot y) (im2col_hwrs dt sc H W y x).
  Proof using. intros. unfold im2col_hwrs. keep; apply four_foot; auto. Qed.
  Lemma im2col_rshw_keeps : forall H W y x, length (tdims y) = 4%nat -> keeps (foot y) (im2col_rshw dt sc H W y x).
  Proof using. intros. unfold im2col_rshw. keep; apply four_foot; auto. Qed.
  Lemma im2col_hwrsc_keeps : forall H W y x, length (tdims y) = 5%nat -> keeps (foot y) (im2col_hwrsc dt sc H W y x).
  Proof using. intros. unfold im2col_hwrsc. keep; apply five_foot; auto; lia. Qed.
  Lemma col2im_keeps : forall (P : loc -> Prop) H W y x, length (tdims y) = 3%nat -> dims_ok y ->
    0 <= left_ (spadding H) -> 0 <= left_ (spadding W) -> (forall p, foot y p -> P p) -> keeps P (col2im dt sc H W y x).
  Proof using.
    intros P H W y x L D LH LW Q. unfold col2im. keep; [apply Q, daddr_foot; auto|].
    assert (Dk : forall k, 0 <= nth_dim y k).
    { intros k. unfold nth_dim. destruct (nth_in_or_default k (tdims y) 0) as [J|J]; [|rewrite J; lia].
      unfold dims_ok in D. rewrite Forall_forall in D. apply D. auto. }
    subst. match goal with E : source _ _ _ _ _ _ _ _ = _ |- _ => apply source_inside in E; auto end.
    apply Q, cube_foot; auto; lia.
  Qed.

  Lemma idx_gather_keeps : forall di (P : loc -> Prop) z y x, (forall p, foot z p -> P p) -> keeps P (idx_map_gather dt di sc z y x).
  Proof using. intros di P z y x H. unfold idx_map_gather. keep; apply H, daddr_foot; auto. Qed.

  (** Anything written to block [b]. *)
  Lemma im2col_nhwc_block : forall (P : loc -> Prop) di H W y x, (forall p, fst p = tblk y -> P p) ->
    keeps P (im2col_nhwc dt di sc H W y x).
  Proof using.
    intros P di H W y x Q. unfold im2col_nhwc. apply keeps_with. intros b. unfold idx_map_build. keep.
    all: first [right; reflexivity|left; apply Q; reflexivity].
  Qed.
  Lemma im2col_nhwc_keeps : forall di H W y x, length (tdims y) = 6%nat -> dims_ok y -> nth_dim x 0 <= nth_dim y 0 ->
    keeps (foot y) (im2col_nhwc dt di sc H W y x).
  Proof using.
    intros di H W y x L D Hn. unfold im2col_nhwc. apply keeps_with. intros b. unfold idx_map_build. keep.
    all: try (right; reflexivity). all: left.
    all: eapply row_foot; eauto; [destruct (tdims y); [discriminate L|discriminate]| |apply daddr_foot; eauto]; lia.
  Qed.
  Lemma batched_rshw_block : forall (P : loc -> Prop) H W y x, (forall p, fst p = tblk y -> P p) ->
    keeps P (batched (im2col_rshw dt sc H W) y x).
  Proof using. intros P H W y x Q. unfold batched, im2col_rshw. keep; apply Q; reflexivity. Qed.
  Lemma batched_hwrsc_block : forall (P : loc -> Prop) H W y x, (forall p, fst p = tblk y -> P p) ->
    keeps P (batched (im2col_hwrsc dt sc H W) y x).
  Proof using. intros P H W y x Q. unfold batched, im2col_hwrsc. keep; apply Q; reflexivity. Qed.

  (** Convolution. *)
  Lemma conv_nhwc_keeps : forall di e C z x y, keeps (foot z) (conv_nhwc dt di sc e C z x y).
  Proof using.
    intros di e C z x y. unfold conv_nhwc. do 3 (apply keeps_lift_bind; intros ? ?). apply keeps_with. intros b.
    apply keeps_bind; [apply im2col_nhwc_block; intros p Hp; right; exact Hp|]. intros _.
    apply k_mm_keeps; [reflexivity|]. intros p Hp. left. eapply matrix_foot; eauto.
  Qed.
  Lemma conv_nchw_keeps : forall e C z x y, length (tdims z) = 4%nat -> dims_ok z -> keeps (foot z) (conv_nchw dt sc e C z x y).
  Proof using.
    intros e C z x y L D. unfold conv_nchw. do 3 (apply keeps_lift_bind; intros ? ?). apply keeps_with. intros b.
    apply keeps_loop. intros l Hl. apply keeps_bind; [apply batched_rshw_block; intros p Hp; right; exact Hp|]. intros _.
    apply k_mm_keeps; [reflexivity|]. intros p Hp. left. apply matrix_foot in Hp. eapply row_foot; eauto.
    destruct (tdims z); [discriminate L|discriminate].
  Qed.
  Lemma conv_grad_y_keeps : forall e C gy gz x, keeps (foot gy) (conv_grad_y dt sc e C gy gz x).
  Proof using.
    intros e C gy gz x. unfold conv_grad_y. do 3 (apply keeps_lift_bind; intros ? ?). apply keeps_with. intros b.
    apply keeps_bind; [apply batched_hwrsc_block; intros p Hp; right; exact Hp|]. intros _.
    apply k_mtm_keeps; [reflexivity|]. intros p Hp. left. eapply matrix_foot; eauto.
  Qed.

  Lemma lconv_sample_pad : forall c k H, lconv_sample c k = Ret H -> spadding H = lpad c.
  Proof using.
    intros c k H E. unfold lconv_sample, new_sample, new_filter in E.
    destruct (k <? 1); [discriminate E|]. destruct (lstride c <? 1); [discriminate E|].
    destruct (lrate c <? 1); [discriminate E|]. injection E as <-. destruct (lpad c). reflexivity.
  Qed.
  Lemma conv_grad_x_keeps : forall e C gx gz y, length (tdims gx) = 4%nat -> dims_ok gx ->
    0 <= left_ (lpad (h_trait C)) -> 0 <= left_ (lpad (w_trait C)) -> keeps (foot gx) (conv_grad_x dt sc e C gx gz y).
  Proof using.
    intros e C gx gz y L D LH LW. unfold conv_grad_x. apply keeps_lift_bind; intros H EH. apply keeps_lift_bind; intros W EW.
    apply keeps_lift_bind; intros up Eu. apply lconv_sample_pad in EH, EW. rewrite <- EH in LH. rewrite <- EW in LW.
    assert (U : nth 0 up 0 = nth_dim gx 0).
    { unfold batched_shape in Eu. destruct (im2col_hwrsc_shape H W (tl (tdims gx))); try discriminate Eu.
      injection Eu as <-. reflexivity. }
    apply keeps_with. intros b. apply keeps_bind.
    { apply k_mmt_keeps; [reflexivity|]. intros p (o & _ & ->). right. reflexivity. }
    intros _. unfold batched. apply keeps_loop. intros i Hi. unfold nth_dim in Hi; cbn [tdims] in Hi. rewrite U in Hi.
    apply col2im_keeps; auto.
    - apply length_sub. auto.
    - apply dims_ok_sub. auto.
    - intros p Hp. left. eapply row_foot; eauto. destruct (tdims gx); [discriminate L|discriminate].
  Qed.

  (** One dimension. *)
  Lemma im2col1d_keeps : forall sp y x, length (tdims y) = 2%nat -> keeps (foot y) (im2col1d dt sc sp y x).
  Proof using. intros. unfold im2col1d. keep; apply mat_foot; auto. Qed.
  Lemma source1_inside : forall sp n j k i, 0 <= n -> source1 sp n j k = Ret (Some i) -> 0 <= i < n.
  Proof using.
    intros sp n j k i Hn E. unfold source1 in E. destruct (sample_pos I32 sp (to_i32 j) (to_i32 k)) as [a| |]; try discriminate E.
    cbn [obind] in E. unfold sample_inside, pad_inside, sample_unpad, pad_unpad, iadd, isub, norm in E.
    destruct (left_ (spadding sp) <=? a) eqn:E1; [|discriminate E].
    destruct ((- 2 ^ 31 <=? left_ (spadding sp) + to_i32 n) && (left_ (spadding sp) + to_i32 n <? 2 ^ 31)); [|discriminate E].
    cbn [obind] in E. destruct (a <? left_ (spadding sp) + to_i32 n) eqn:E2; [|discriminate E].
    destruct ((- 2 ^ 31 <=? a - left_ (spadding sp)) && (a - left_ (spadding sp) <? 2 ^ 31)) eqn:E3; [|discriminate E].
    cbn [obind] in E. injection E as <-. unfold to_u32. rewrite Z.mod_small by lia.
    assert (to_i32 n <= n) by (unfold to_i32; pose proof (Z.mod_le (n + 2 ^ 31) (2 ^ 32)); lia). lia.
  Qed.
  Lemma col2im1d_keeps : forall sp y x, length (tdims y) = 1%nat -> dims_ok y -> keeps (foot y) (col2im1d dt sc sp y x).
  Proof using.
    intros sp y x L D. unfold col2im1d. keep; [apply daddr_foot; auto|]. subst.
    match goal with E : source1 _ _ _ _ = _ |- _ => apply source1_inside in E end.
    - apply vec_foot; auto.
    - unfold nth_dim. destruct (tdims y) as [|d ds] eqn:Ed; [discriminate L|]. unfold dims_ok in D. rewrite Ed in D.
      inversion D; subst. cbn. auto.
  Qed.
  Lemma conv1d_keeps : forall c z x y, length (tdims z) = 1%nat -> keeps (foot z) (conv1d dt sc c z x y).
  Proof using. intros. unfold conv1d. keep. apply daddr_foot. rewrite vec_size; auto. Qed.

  (** Pooling. *)
  Lemma pool_hw_keeps : forall (P : loc -> Prop) A H W y x, length (tdims y) = 2%nat -> (forall p, foot y p -> P p) ->
    keeps P (pool_hw dt A H W y x).
  Proof using. intros P A H W y x L Q. unfold pool_hw. keep. apply Q, mat_foot; auto. Qed.
  Lemma pool_hwc_keeps : forall (P : loc -> Prop) A H W y x, length (tdims y) = 3%nat -> (forall p, foot y p -> P p) ->
    keeps P (pool_hwc dt A H W y x).
  Proof using. intros P A H W y x L Q. unfold pool_hwc. keep. apply Q, cube_foot; auto. Qed.
  Lemma nonempty : forall t n, length (tdims t) = S n -> tdims t <> [].
  Proof using. intros t n H E. rewrite E in H. discriminate H. Qed.
  Lemma pool_nhwc_keeps : forall A P y x, length (tdims y) = 4%nat -> dims_ok y -> nth_dim x 0 <= nth_dim y 0 ->
    keeps (foot y) (op_pool_nhwc dt A P y x).
  Proof using.
    intros A P y x L D H. unfold op_pool_nhwc. apply keeps_lift_bind. intros P0 _. apply keeps_loop. intros i Hi.
    apply pool_hwc_keeps; [apply length_sub; auto|]. intros p Hp. eapply row_foot; eauto; [eapply nonempty; eauto|lia].
  Qed.
  Lemma pool_nchw_keeps : forall A P y x, length (tdims y) = 4%nat -> dims_ok y -> nth_dim x 0 <= nth_dim y 0 ->
    nth_dim x 1 <= nth_dim y 1 -> keeps (foot y) (op_pool_nchw dt A P y x).
  Proof using.
    intros A P y x L D H H1. unfold op_pool_nchw. apply keeps_lift_bind. intros P0 _. apply keeps_loop. intros i Hi.
    apply keeps_loop. intros j Hj.
    apply pool_hw_keeps; [apply length_sub, length_sub; auto|]. intros p Hp.
    eapply (row_foot y i); eauto; [eapply nonempty; eauto|lia|].
    eapply (row_foot (sub y i) j); eauto; [apply dims_ok_sub; auto|eapply nonempty; apply length_sub; eauto|].
    replace (nth_dim (sub y i) 0) with (nth_dim y 1); [lia|]. unfold nth_dim. cbn.
    destruct (tdims y) as [|a l]; [discriminate L|reflexivity].
  Qed.

  (** Activations and losses. *)
  Lemma softmax_keeps : forall exp_ eps y x, length (tdims y) = 2%nat -> length (tdims x) = 2%nat -> dims_ok y ->
    nth_dim x 0 <= nth_dim y 0 -> nth_dim x 1 <= nth_dim y 1 -> keeps (foot y) (op_softmax dt sc exp_ 2 eps y x).
  Proof using.
    intros exp_ eps y x L Lx D H0 H1. unfold op_softmax, softmax2. apply keeps_loop. intros i Hi. unfold softmax1. keep.
    apply (matrix_foot 1). destruct y as [b o [|y0 [|y1 [|e0 r0]]]]; try discriminate L.
    destruct x as [bx ox [|x0 [|x1 [|e1 r1]]]]; try discriminate Lx.
    unfold size in *. cbn in *. eapply (row_foot _ i).
    - apply dims_ok_as_matrix. auto.
    - discriminate.
    - cbn. lia.
    - apply daddr_foot. unfold size. cbn. lia.
  Qed.
  Lemma flat_row : forall t i, 0 <= i < size t -> foot t (daddr (sub (flat t) i) 0).
  Proof using.
    intros t i H. exists i. split; auto. unfold daddr. cbn. f_equal. lia.
  Qed.
  Lemma xentropy_keeps : forall log_ r z x y, keeps (foot z) (op_xentropy dt sc log_ r z x y).
  Proof using.
    intros log_ r z x y. unfold op_xentropy, xentropy2, xentropy1. keep. apply flat_row. rewrite <- size_flat, vec_size; auto.
  Qed.
  Lemma softmax_grad1_keeps : forall (P : loc -> Prop) gx gy y x, length (tdims gx) = 1%nat -> (forall p, foot gx p -> P p) ->
    keeps P (softmax_grad1 dt sc gx gy y x).
  Proof using.
    intros P gx gy y x L Q. unfold softmax_grad1. apply keeps_with. intros b. apply keeps_bind.
    - keep; right; reflexivity.
    - intros _. apply vm_keeps; auto.
  Qed.
  Lemma softmax_grad_keeps : forall gx gy y x, length (tdims gx) = 2%nat -> dims_ok gx -> nth_dim x 0 <= nth_dim gx 0 ->
    keeps (foot gx) (softmax_grad2 dt sc gx gy y x).
  Proof using.
    intros gx gy y x L D H. unfold softmax_grad2. apply keeps_loop. intros i Hi. apply softmax_grad1_keeps; [apply length_sub; auto|].
    intros p Hp. eapply row_foot; eauto; [eapply nonempty; eauto|lia].
  Qed.
  Lemma xentropy_grad_keeps : forall gx gz x y, length (tdims gx) = 2%nat -> length (tdims x) = 2%nat -> dims_ok gx ->
    nth_dim x 0 <= nth_dim gx 0 -> nth_dim x 1 <= nth_dim gx 1 -> keeps (foot gx) (xentropy_grad2 dt sc gx gz x y).
  Proof using.
    intros gx gz x y L Lx D H H1. unfold xentropy_grad2. apply keeps_loop. intros i Hi. unfold xentropy_grad1. keep.
    eapply (row_foot gx i); eauto; [eapply nonempty; eauto|lia|]. apply daddr_foot.
    destruct gx as [b o [|y0 [|y1 [|e0 r0]]]]; try discriminate L.
    destruct x as [bx ox [|x0 [|x1 [|e1 r1]]]]; try discriminate Lx. unfold size. cbn in *. lia.
  Qed.

  (** Utilities. *)
  Lemma cast_keeps : forall {R S_} (dr : dtype V R) (ds : dtype V S_) f y x, keeps (foot y) (op_cast dr ds f y x).
  Proof using.
    intros. unfold op_cast. keep. apply flat_foot, daddr_foot. rewrite vec_size; auto.
  Qed.
  Lemma argmax_keeps : forall (dn : dtype V Z) N r y x, keeps (foot y) (op_argmax dn N dt sc r y x).
  Proof using.
    intros. unfold op_argmax, argmax2, argmax1. keep; apply flat_foot, daddr_foot; rewrite vec_size; auto.
  Qed.
  Lemma conv_le : forall N n, 0 < it_bits N -> 0 <= n -> conv N n <= n.
  Proof using.
    intros N n B H. unfold conv. assert (0 < 2 ^ it_bits N) by (apply Z.pow_pos_nonneg; lia).
    assert (0 <= 2 ^ (it_bits N - 1)) by (apply Z.pow_nonneg; lia).
    destruct (it_signed N).
    - pose proof (Z.mod_le (n + 2 ^ (it_bits N - 1)) (2 ^ it_bits N)). lia.
    - apply Z.mod_le; lia.
  Qed.
  Lemma onehot_keeps : forall (dn : dtype V Z) N y x, 0 < it_bits N -> length (tdims y) = 2%nat -> dims_ok y ->
    size x <= nth_dim y 0 -> keeps (foot y) (op_onehot dn N dt sc 1 y x).
  Proof using.
    intros dn N y x B L D H. unfold op_onehot, onehot2. keep.
    - apply (matrix_foot 1), daddr_foot; auto.
    - apply (matrix_foot 1). apply andb_prop in Heqb as [E1 E2]. destruct y as [b o [|y0 [|y1 [|e0 r0]]]]; try discriminate L.
      inversion D as [|? ? ? D1]; subst. inversion D1; subst.
      pose proof (conv_le N y1 B ltac:(auto)). apply addr_foot. unfold nth_dim in *. unfold size in H. cbn in *.
      replace (y1 * 1) with y1 in * by lia. lia.
  Qed.
  Lemma similarity_keeps : forall {R1} (d1 : dtype V R1) neqb z x y, size z = 1 -> keeps (foot z) (op_similarity dt sc d1 neqb z x y).
  Proof using. intros. unfold op_similarity, hamming. keep. apply daddr_foot. lia. Qed.
  Lemma crc_keeps : forall w poly (dn : dtype V Z) rep z x, size z = 1 -> keeps (foot z) (op_crc w poly dn dt rep z x).
  Proof using. intros. unfold op_crc. keep. apply daddr_foot. lia. Qed.
  Lemma mean_keeps : forall div_n y x, length (tdims x) = 2%nat -> nth_dim x 0 <= size y -> keeps (foot y) (op_mean dt sc div_n 1 y x).
  Proof using.
    intros div_n y x L H. unfold op_mean, s_mean, s_sum, accumulate. keep. apply daddr_foot.
    destruct x as [bx ox [|x0 [|x1 [|e1 r1]]]]; try discriminate L. unfold nth_dim in *. cbn in *. lia.
  Qed.
  Lemma to_first_keeps : forall {R S_} (dr : dtype V R) (ds : dtype V S_) f y x, length (tdims y) = 4%nat ->
    nth_dim x 0 <= nth_dim y 0 -> nth_dim x 3 <= nth_dim y 1 -> nth_dim x 1 <= nth_dim y 2 -> nth_dim x 2 <= nth_dim y 3 ->
    keeps (foot y) (to_first dr ds f y x).
  Proof using. intros. unfold to_first. keep. apply four_foot; auto; lia. Qed.
  Lemma to_last_keeps : forall {R S_} (dr : dtype V R) (ds : dtype V S_) f y x, length (tdims y) = 4%nat ->
    nth_dim x 0 <= nth_dim y 0 -> nth_dim x 2 <= nth_dim y 1 -> nth_dim x 3 <= nth_dim y 2 -> nth_dim x 1 <= nth_dim y 3 ->
    keeps (foot y) (to_last dr ds f y x).
  Proof using. intros. unfold to_last. keep. apply four_foot; auto; lia. Qed.

  Lemma read_pairs_keeps : forall P N x l, keeps P (read_pairs dt N x l).
  Proof using.
    intros P N x l. induction l as [|i l IH]; cbn [read_pairs]; [apply keeps_ret|].
    apply keeps_bind; [apply keeps_at|]. intros v. apply keeps_bind; [exact IH|]. intros vs. apply keeps_ret.
  Qed.
  Lemma write_pairs_keeps : forall (dn : dtype V Z) y z l i, length (tdims y) = 1%nat -> length (tdims z) = 1%nat -> 0 <= i ->
    i + Z.of_nat (length l) <= nth_dim y 0 -> i + Z.of_nat (length l) <= nth_dim z 0 ->
    keeps (fun p => foot y p \/ foot z p) (write_pairs dt dn y z i l).
  Proof using.
    intros dn y z l. induction l as [|v l IH]; intros i Ly Lz Hi Hy Hz; cbn [write_pairs]; [apply keeps_ret|].
    cbn [length] in Hy, Hz.
    apply keeps_bind; [apply keeps_set; left; apply vec_foot; auto; lia|]. intros _.
    apply keeps_bind; [apply keeps_set; right; apply vec_foot; auto; lia|]. intros _. apply IH; auto; lia.
  Qed.
  Lemma top_keeps : forall (dn : dtype V Z) N y z x, 0 < it_bits N -> length (tdims y) = 1%nat -> length (tdims z) = 1%nat ->
    dims_ok y -> nth_dim y 0 <= nth_dim z 0 ->
    keeps (fun p => foot y p \/ foot z p) (op_top dt dn N sc y z x).
  Proof using.
    intros dn N y z x B Ly Lz D H. unfold op_top. destruct (conv N (size x) <? 0); [apply keeps_throw|].
    apply keeps_bind; [apply read_pairs_keeps|]. intros v. destruct (Z.min _ _ <? 0) eqn:E; [apply keeps_undef|].
    assert (0 <= nth_dim y 0).
    { destruct y as [b o [|y0 [|e0 r0]]]; try discriminate Ly. inversion D; subst. auto. }
    pose proof (conv_le N (size y) B ltac:(rewrite vec_size; auto)) as Hc. rewrite (vec_size y Ly) in *.
    match goal with |- keeps _ (write_pairs _ _ _ _ _ ?l) =>
      assert (Z.of_nat (length l) <= nth_dim y 0) by (rewrite firstn_length; lia) end.
    apply write_pairs_keeps; auto; lia.
  Qed.
End Ops.

(** ** The bound is needed: memory full of twos *)
From Verif Require Import Demo.

Definition twos (nb : Z) : st Z := mkst (fun p => if fst p <? nb then Init 2 else Unmapped) nb.
Definition at_least (k : Z) (s : st Z) (p : loc) : Prop := exists v, k <= v /\ cells s p = Init v.

Lemma grow_loop : forall (g : Z -> Z -> Z) z x y nb l s,
  (forall a b, 2 <= a -> 2 <= b -> 4 <= g a b) ->
  tblk z < nb -> tblk x < nb -> tblk y < nb ->
  (forall p, fst p < nb -> at_least 2 s p) ->
  exists s', for_ l (fun i => a <- load zt (daddr x i) ;; b <- load zt (daddr y i) ;; v <- lift (Ret (g a b)) ;;
                              store zt (daddr z i) v) s = Ok tt s' /\
    (forall p, fst p < nb -> at_least 2 s' p) /\
    (forall p, (exists i, In i l /\ p = daddr z i) \/ at_least 4 s p -> at_least 4 s' p).
Proof.
  intros g z x y nb l. induction l as [|i l IH]; intros s G Bz Bx By I2.
  - exists s. split; [reflexivity|]. split; auto. intros p [(i & [] & _)|H]; auto.
  - destruct (I2 (daddr x i) Bx) as (a & Ha & Ea). destruct (I2 (daddr y i) By) as (b & Hb & Eb).
    destruct (I2 (daddr z i) Bz) as (c & Hc & Ec). specialize (G a b Ha Hb) as G4.
    set (s1 := upd s (daddr z i) (g a b)).
    assert (Z4 : at_least 4 s1 (daddr z i)) by (exists (g a b); split; [lia|apply cells_upd_same]).
    assert (O : forall p, p <> daddr z i -> cells s1 p = cells s p) by (intros; apply cells_upd_other; auto).
    assert (dec : forall p, p = daddr z i \/ p <> daddr z i).
    { intros p. destruct (loc_eqb_spec p (daddr z i)); auto. }
    destruct (IH s1 G Bz Bx By) as (s' & Er & J2 & J4).
    { intros p Hp. destruct (dec p) as [->|N]; [exists (g a b); split; [lia|apply cells_upd_same]|].
      unfold at_least. rewrite O by auto. exact (I2 p Hp). }
    exists s'. split.
    + cbn [for_]. unfold bind at 1. unfold bind at 1. unfold load at 1. rewrite Ea. cbn [prj zt dt_id].
      unfold bind at 1. unfold load at 1. rewrite Eb. cbn [prj zt dt_id]. unfold lift. cbn [bind ret].
      unfold store. rewrite Ec. exact Er.
    + split; auto. intros p H. apply J4. destruct (dec p) as [->|N]; [right; auto|].
      destruct H as [(k & [->|Hk] & ->)|H]; [congruence| |].
      * left. exists k. split; auto.
      * right. unfold at_least. rewrite O by auto. exact H.
Qed.

Lemma grow_escapes : forall (g : Z -> Z -> Z) z x y, (forall a b, 2 <= a -> 2 <= b -> 4 <= g a b) ->
  dims_ok z -> size z < size x -> escapes z (transform2 zt (fun a b => Ret (g a b)) (flat z) (flat x) (flat y)).
Proof.
  intros g z x y G D H. set (nb := 1 + Z.max (tblk z) (Z.max (tblk x) (tblk y))).
  assert (tblk z < nb /\ tblk x < nb /\ tblk y < nb) as (Bz & Bx & By) by (unfold nb; lia). clearbody nb.
  destruct (grow_loop g (flat z) (flat x) (flat y) nb (zrange (size (flat x))) (twos nb) G Bz Bx By) as (s' & Er & _ & J4).
  { intros p Hp. exists 2. split; [lia|]. cbn. replace (fst p <? nb) with true by lia. reflexivity. }
  exists (twos nb), s'. split; [intros p Hp; cbn in *; replace (fst p <? nb) with false by lia; reflexivity|].
  split; [intros p (o & _ & ->); cbn; replace (tblk z <? nb) with true by lia; discriminate|].
  split; [exact Er|]. exists (daddr z (size z)). split.
  - intros (o & Ho & E). apply daddr_inj in E. lia.
  - destruct (J4 (daddr z (size z))) as (v & Hv & Ev).
    + left. exists (size z). split; [|reflexivity]. apply in_zrange. rewrite size_flat.
      split; [|lia]. apply prod_nonneg. exact D.
    + rewrite Ev. cbn. replace (tblk z <? nb) with true by lia. intros E. injection E as ->. lia.
Qed.
