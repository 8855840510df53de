(** The steps of the test programs. *)
From Coq Require Import ZArith List Bool Lia.
From Verif Require Import Base BaseFacts TensorFacts Scalar Elem Tests TestsFacts.
Import ListNotations.
Open Scope Z_scope.
Open Scope model_scope.

Lemma foldM_app : forall {V A B} (l l' : list A) (f : B -> A -> M V B) b s,
  foldM (l ++ l') f b s = bind (foldM l f b) (foldM l' f) s.
Proof.
  intros V A B l l' f. induction l as [|a l IH]; intros b s; cbn [app foldM]; [reflexivity|].
  unfold bind in *. destruct (f b a s); auto.
Qed.

Section Steps.
  Context {V : Type} (dt : dtype V Z).

  Lemma fill_w : forall t x s, dims_ok t -> mapped s t -> writes dt (fill dt t x) s t (fun _ => x).
  Proof using.
    intros t x s D M. destruct (fill_holds dt t x s D M) as (s' & E & N & H & C).
    exists s'. split; [exact E|]. split; [exact H|]. split; [lia|exact C].
  Qed.

  Lemma iota_w : forall t v s, dims_ok t -> mapped s t ->
    writes dt (iota dt t v) s t (fun ix => v + offset (tdims t) ix).
  Proof using.
    intros t v s D M. unfold iota, size. rewrite <- map_offset_indices by exact D.
    eapply writes_ext; [symmetry; apply for_map|reflexivity|]. apply writes_loop; [exact D|]. intros ix s' Hix N F O.
    apply store_ok. fold (addr t ix). rewrite O. apply M. apply daddr_foot. apply offset_bound. exact Hix.
  Qed.

  Lemma load_at : forall s t X o, holds dt s t X -> dims_ok t -> 0 <= o < size t ->
    load dt (daddr t o) s = Ok (X (expand (tdims t) o)) s.
  Proof using.
    intros s t X o H D Ho. apply load_ok. rewrite <- (H (expand (tdims t) o)); [|apply valid_expand; auto].
    unfold addr. rewrite offset_expand; auto.
  Qed.

  Lemma assert_all_true : forall n f (s : st V), (forall i, 0 <= i < n -> f i s = Ok true s) ->
    assert_all n f s = Ok true s.
  Proof using.
    intros n f s H. unfold assert_all.
    rewrite (foldM_pure _ _ (fun b _ => b) s true).
    - f_equal. generalize (zrange n). intros l. induction l; cbn; auto.
    - intros b i Hi. apply in_zrange in Hi. rewrite (bind_ok _ _ _ true s) by (apply H; lia).
      unfold ret. rewrite andb_true_r. reflexivity.
  Qed.

  Lemma assert_data_true : forall t want X s, holds dt s t X -> dims_ok t ->
    (forall o, 0 <= o < size t -> X (expand (tdims t) o) = want o) ->
    assert_data dt t want s = Ok true s.
  Proof using.
    intros t want X s H D W. apply assert_all_true. intros i Hi.
    rewrite (bind_ok _ _ _ _ _ (load_at s t X i H D Hi)). unfold ret. rewrite W by exact Hi. rewrite Z.eqb_refl. reflexivity.
  Qed.

  Lemma assert_map_true : forall n f x y X Y s, holds dt s x X -> holds dt s y Y -> dims_ok x -> dims_ok y ->
    n <= size x -> n <= size y ->
    (forall o, 0 <= o < n -> f (X (expand (tdims x) o)) = Y (expand (tdims y) o)) ->
    assert_map dt n f x y s = Ok true s.
  Proof using.
    intros n f x y X Y s HX HY Dx Dy Lx Ly W. apply assert_all_true. intros i Hi.
    rewrite (bind_ok _ _ _ _ _ (load_at s x X i HX Dx ltac:(lia))).
    rewrite (bind_ok _ _ _ _ _ (load_at s y Y i HY Dy ltac:(lia))). unfold ret.
    rewrite W by exact Hi. rewrite Z.eqb_refl. reflexivity.
  Qed.

  (** Values that are distinct and in range pass the permutation check. *)
  Lemma perm_true : forall x X s, holds dt s x X -> dims_ok x ->
    (forall o, 0 <= o < size x -> 0 <= X (expand (tdims x) o) < size x) ->
    (forall o q, 0 <= o < size x -> 0 <= q < size x -> X (expand (tdims x) o) = X (expand (tdims x) q) -> o = q) ->
    fast_is_permutation dt x s = Ok true s.
  Proof using.
    intros x X s H D B Inj. unfold fast_is_permutation. set (n := size x) in *.
    set (v := fun o => X (expand (tdims x) o)) in *.
    assert (G : forall m, 0 <= m -> m <= n -> exists f, foldM (zrange m) (fun b i =>
           match b with
           | None => ret None
           | Some f =>
             j <- load dt (daddr x i) ;;
             ret (if (j <? 0) || (n <=? j) || f j then None
                  else Some (fun q => if q =? j then true else f q))
           end) (Some (fun _ => false)) s = Ok (Some f) s /\
           forall q, f q = true -> exists o, 0 <= o < m /\ v o = q).
    { refine (Z_nonneg_ind _ _ _).
      - intros _. eexists. split; [reflexivity|]. intros q Q. discriminate.
      - intros m Hm IH Hn. destruct IH as (f & E & Q); [lia|].
        rewrite zrange_succ by lia. rewrite foldM_app, (bind_ok _ _ _ _ _ E). cbn [foldM].
        assert (L : load dt (daddr x m) s = Ok (v m) s) by (apply load_at; auto; unfold n in *; lia).
        assert (Nf : f (v m) = false).
        { destruct (f (v m)) eqn:Ef; [|reflexivity]. destruct (Q _ Ef) as (o & Ho & Eo).
          apply Inj in Eo; lia. }
        pose proof (B m ltac:(lia)) as Bm.
        unfold bind. rewrite L. unfold ret. fold (v m) in Bm.
        replace (v m <? 0) with false by (symmetry; apply Z.ltb_ge; lia).
        replace (n <=? v m) with false by (symmetry; apply Z.leb_gt; lia).
        rewrite Nf. cbn [orb]. eexists. split; [reflexivity|]. cbn beta.
        intros q Hq. destruct (Z.eqb_spec q (v m)) as [Eq|]; [exists m; split; [lia|auto]|].
        destruct (Q q Hq) as (o & Ho & Eo). exists o. split; [lia|exact Eo]. }
    assert (Hs : 0 <= n) by (apply prod_nonneg; exact D).
    destruct (G n Hs ltac:(lia)) as (f & E & _). rewrite (bind_ok _ _ _ _ _ E). reflexivity.
  Qed.

  (** gen_test_tensor. *)
  Definition next_seed (s : Z) : Z := Z.rem (s + 7) 10.
  Definition nth_seed (s : Z) (n : Z) : Z := Nat.iter (Z.to_nat n) next_seed s.

  Lemma gen_w : forall t seed s, dims_ok t -> mapped s t ->
    exists s', gen_test_tensor dt t seed s = Ok (nth_seed seed (size t)) s' /\
      holds dt s' t (fun ix => nth_seed seed (offset (tdims t) ix + 1)) /\ only_changes t s s'.
  Proof using.
    intros t seed s D M. unfold gen_test_tensor.
    assert (G : forall n, 0 <= n -> n <= size t -> exists s',
      foldM (zrange n) (fun s i => let s' := Z.rem (s + 7) 10 in store dt (daddr t i) s' ;;; ret s') seed s
        = Ok (nth_seed seed n) s' /\ nextb s' = nextb s /\
      (forall o, 0 <= o < n -> cells s' (daddr t o) = Init (emb dt (nth_seed seed (o + 1)))) /\
      (forall p, (forall o, 0 <= o < n -> p <> daddr t o) -> cells s' p = cells s p)).
    { refine (Z_nonneg_ind _ _ _).
      - intros _. exists s. repeat split; auto. intros; lia.
      - intros n Hn IH Hs. destruct IH as [s1 [E1 [N1 [C1 F1]]]]; [lia|].
        rewrite zrange_succ by lia. rewrite foldM_app, (bind_ok _ _ _ _ _ E1). cbn [foldM]. cbv zeta.
        assert (Hc : cells s1 (daddr t n) <> Unmapped).
        { rewrite F1. { apply M. apply daddr_foot. lia. } intros o Ho E. apply daddr_inj in E. lia. }
        assert (Sn : Z.rem (nth_seed seed n + 7) 10 = nth_seed seed (n + 1)).
        { unfold nth_seed. replace (Z.to_nat (n + 1)) with (S (Z.to_nat n)) by lia. reflexivity. }
        rewrite Sn. unfold bind. rewrite store_ok by exact Hc. unfold ret.
        exists (upd s1 (daddr t n) (emb dt (nth_seed seed (n + 1)))). repeat split; auto.
        + intros o Ho. destruct (Z.eq_dec o n) as [->|]; [apply cells_upd_same|].
          rewrite cells_upd_other. { apply C1; lia. } intros E. apply daddr_inj in E. lia.
        + intros p Hp. rewrite cells_upd_other. { apply F1. intros; apply Hp; lia. } apply Hp. lia. }
    assert (Hs : 0 <= size t) by (apply prod_nonneg; exact D).
    destruct (G (size t) Hs ltac:(lia)) as (s' & E & N & C & F). exists s'. split; [exact E|]. split; [|split; [lia|]].
    - intros ix Hix. apply C. apply offset_bound; auto.
    - intros p Hp. apply F. intros o Ho ->. apply Hp. apply daddr_foot; auto.
  Qed.
End Steps.
