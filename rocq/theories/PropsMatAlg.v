(** Property C95: the algebra of matrix products and of dense layers. *)
From Coq Require Import ZArith List Bool Lia ZifyBool Permutation.
From Verif Require Import Base BaseFacts TensorFacts Traits Scalar LinAlg LinAlgFacts SumFacts Elem ElemSpec ElemFacts
  Conv ConvSpec ConvFacts ConvGradFacts PoolAlgSpec PoolAlgFacts Utility Layers LayersSpec PropsElem PropsUtility LayerCalls PropsLayers
  MatAlgSpec Float PropsFloat PropsLayers2 Demo.
From Flocq Require Import BinarySingleNaN.
Import ListNotations.
Open Scope Z_scope.
Open Scope model_scope.

Section Any.
  Context {V T : Type} (dt : dtype V T) (sc : scalar T).
  Notation times := (op_product dt sc).

  Definition product_fn (p : product) (l : Z) (X Y : list Z -> T) : list Z -> T :=
    arg2 (fun i j => sum_over sc (zrange l) (fun k => smul sc (X (lcell p i k)) (Y (rcell p k j)))).

  Lemma product_writes : forall p e m l n s z x y X Y, mcalled dt sc p e m l n s z x y X Y ->
    writes dt (times p e z x y) s z (product_fn p l X Y).
  Proof using.
    intros p e m l n s z x y X Y (He & Hm & Hl & Hn & Ex & Ey & Ez & HX & HY & HZ & D1 & D2).
    destruct p; cbn [op_product lcell rcell] in *; unfold k_mm, k_mmt, k_mtm.
    - eapply e_mm_writes; eauto.
    - eapply e_mmt_writes; eauto.
    - eapply e_mtm_writes; eauto.
  Qed.

  (** The three products, on either engine, compute the same numbers in the same
      order when the factors are the same up to transposition.  No law on the
      scalars: with the builtin engine this is equality of floats, bit by bit. *)
  Theorem C95_orientation : forall p p2 e e2 m l n s s2 z z2 x x2 y y2 X X2 Y Y2,
    mcalled dt sc p e m l n s z x y X Y -> mcalled dt sc p2 e2 m l n s2 z2 x2 y2 X2 Y2 ->
    (forall i k, 0 <= i < m -> 0 <= k < l -> X (lcell p i k) = X2 (lcell p2 i k)) ->
    (forall k j, 0 <= k < l -> 0 <= j < n -> Y (rcell p k j) = Y2 (rcell p2 k j)) ->
    exists Z, writes dt (times p e z x y) s z Z /\ writes dt (times p2 e2 z2 x2 y2) s2 z2 Z.
  Proof using.
    intros p p2 e e2 m l n s s2 z z2 x x2 y y2 X X2 Y Y2 K K2 EX EY.
    exists (product_fn p l X Y). split; [eapply product_writes; eauto|].
    eapply writes_ext; [reflexivity| |eapply product_writes; eauto].
    intros ix Hix. destruct K2 as (_ & _ & _ & _ & _ & _ & Ez & _). rewrite Ez in Hix.
    apply valid_2 in Hix. destruct Hix as (i & j & -> & Hi & Hj). unfold product_fn, arg2. cbn [nth].
    apply sum_over_ext. intros k Hk. apply in_zrange in Hk. rewrite EX, EY by lia. reflexivity.
  Qed.

  (** Selecting or repeating rows of the left factor and columns of the right
      factor selects rows and columns of the product. *)
  Theorem C95_select : forall p e e2 m m2 l n n2 s s2 z z2 x x2 y y2 X X2 Y Y2 f g,
    mcalled dt sc p e m l n s z x y X Y -> mcalled dt sc p e2 m2 l n2 s2 z2 x2 y2 X2 Y2 ->
    (forall i, 0 <= i < m2 -> 0 <= f i < m) -> (forall j, 0 <= j < n2 -> 0 <= g j < n) ->
    (forall i k, 0 <= i < m2 -> 0 <= k < l -> X2 (lcell p i k) = X (lcell p (f i) k)) ->
    (forall k j, 0 <= k < l -> 0 <= j < n2 -> Y2 (rcell p k j) = Y (rcell p k (g j))) ->
    exists Z, writes dt (times p e z x y) s z Z /\
      writes dt (times p e2 z2 x2 y2) s2 z2 (arg2 (fun i j => Z [f i; g j])).
  Proof using.
    intros p e e2 m m2 l n n2 s s2 z z2 x x2 y y2 X X2 Y Y2 f g K K2 Hf Hg EX EY.
    exists (product_fn p l X Y). split; [eapply product_writes; eauto|].
    eapply writes_ext; [reflexivity| |eapply product_writes; eauto].
    intros ix Hix. destruct K2 as (_ & _ & _ & _ & _ & _ & Ez & _). rewrite Ez in Hix.
    apply valid_2 in Hix. destruct Hix as (i & j & -> & Hi & Hj). unfold product_fn, arg2. cbn [nth].
    apply sum_over_ext. intros k Hk. apply in_zrange in Hk. rewrite EX, EY by lia. reflexivity.
  Qed.

  (** A matrix times a vector is the product with a one-column matrix over the
      same memory, a vector times a matrix that with a one-row matrix. *)
  Theorem C95_vector : forall m n s a b c A B,
    tdims a = [m; n] -> 0 <= m -> 0 <= n -> holds dt s a A -> holds dt s b B -> mapped s c -> disjoint c a -> disjoint c b ->
    (tdims b = [n] -> tdims c = [m] -> exists C, writes dt (mv dt sc a b c) s c C /\
       writes dt (mm dt sc a (mktensor (tblk b) (tbase b) [n; 1]) (mktensor (tblk c) (tbase c) [m; 1])) s
         (mktensor (tblk c) (tbase c) [m; 1]) (arg2 (fun i _ => C [i]))) /\
    (tdims b = [m] -> tdims c = [n] -> exists C, writes dt (vm dt sc b a c) s c C /\
       writes dt (mm dt sc (mktensor (tblk b) (tbase b) [1; m]) a (mktensor (tblk c) (tbase c) [1; n])) s
         (mktensor (tblk c) (tbase c) [1; n]) (arg2 (fun _ j => C [j]))).
  Proof using.
    intros m n s a b c A B Ea Hm Hn HA HB HC D1 D2.
    assert (FF : forall t d d2, tdims t = [d] -> prod d2 = d -> forall q, foot (mktensor (tblk t) (tbase t) d2) q <-> foot t q).
    { intros t d d2 Et Hd q. unfold foot, size, daddr. cbn [tdims tblk tbase]. rewrite Et, Hd. cbn [prod].
      rewrite Z.mul_1_r. tauto. }
    assert (PR : forall d, prod [d; 1] = d /\ prod [1; d] = d) by (intros d; cbn [prod]; lia).
    split; intros Eb Ec.
    - eexists. split; [eapply mv_writes; eauto|].
      eapply writes_ext; [reflexivity| |eapply (mm_writes dt sc a _ _ m n 1 A (arg2 (fun k _ => B [k])))]; cbn [tdims]; auto; try lia.
      + intros ix Hix. cbn [tdims] in Hix. apply valid_2 in Hix. destruct Hix as (i & j & -> & Hi & Hj).
        replace j with 0 by lia. unfold arg2. cbn [nth].
        rewrite <- (HB [i]) by (rewrite Eb; constructor; [lia|constructor]).
        f_equal. unfold addr, daddr. cbn [tdims tblk tbase]. rewrite Eb. cbn [offset prod]. f_equal; lia.
      + intros q Hq. apply HC. apply (FF c m [m; 1]) in Hq; auto. apply PR.
      + intros q Hq. apply D1. apply (FF c m [m; 1]) in Hq; auto. apply PR.
      + intros q Hq Hq2. apply (D2 q). apply (FF c m [m; 1]) in Hq; auto. apply PR. apply (FF b n [n; 1]) in Hq2; auto. apply PR.
    - eexists. split; [eapply vm_writes; eauto|].
      eapply writes_ext; [reflexivity| |eapply (mm_writes dt sc _ a _ 1 m n (arg2 (fun _ k => B [k])) A)]; cbn [tdims]; auto; try lia.
      + intros ix Hix. cbn [tdims] in Hix. apply valid_2 in Hix. destruct Hix as (i & j & -> & Hi & Hj).
        replace i with 0 by lia. unfold arg2. cbn [nth].
        rewrite <- (HB [j]) by (rewrite Eb; constructor; [lia|constructor]).
        f_equal. unfold addr, daddr. cbn [tdims tblk tbase]. rewrite Eb. cbn [offset prod]. f_equal; lia.
      + intros q Hq. apply HC. apply (FF c n [1; n]) in Hq; auto. apply PR.
      + intros q Hq Hq2. apply (D2 q). apply (FF c n [1; n]) in Hq; auto. apply PR. apply (FF b m [1; m]) in Hq2; auto. apply PR.
      + intros q Hq. apply D1. apply (FF c n [1; n]) in Hq; auto. apply PR.
  Qed.
End Any.

Lemma NoDup_map_in : forall {A B} (f : A -> B) l,
  (forall a b, In a l -> In b l -> f a = f b -> a = b) -> NoDup l -> NoDup (map f l).
Proof.
  intros A B f l. induction l as [|a l IH]; intros H N; cbn [map]; constructor; inversion N; subst.
  - intros Q. apply in_map_iff in Q. destruct Q as (b & E & Hb). apply H in E; [congruence|right; auto|left; auto].
  - apply IH; auto. intros x y Hx Hy. apply H; right; auto.
Qed.

Section Ring.
  Context {V T : Type} (dt : dtype V T) (sc : scalar T) (laws : ring_laws sc).
  Let rt : Ring_theory.ring_theory (s0 sc) (s1 sc) (sadd sc) (smul sc) (ssub sc) (sneg sc) (@eq T) := laws.
  Add Ring sc_ring_ma : rt.
  Notation times := (op_product dt sc).
  Notation "a [+] b" := (sadd sc a b) (at level 50, left associativity).
  Notation "a [*] b" := (smul sc a b) (at level 40, left associativity).
  Notation matmul := (op_matmul dt sc).

  (** The product is linear in either factor. *)
  Theorem C95_linear : forall p e m l n s s2 s3 z x y X X2 X3 Y Y2 Y3 a b,
    mcalled dt sc p e m l n s z x y X Y -> mcalled dt sc p e m l n s2 z x y X2 Y2 -> mcalled dt sc p e m l n s3 z x y X3 Y3 ->
    ((forall ix, valid (tdims y) ix -> Y ix = Y2 ix /\ Y3 ix = Y2 ix) /\
     (forall ix, valid (tdims x) ix -> X3 ix = a [*] X ix [+] b [*] X2 ix) \/
     (forall ix, valid (tdims x) ix -> X ix = X2 ix /\ X3 ix = X2 ix) /\
     (forall ix, valid (tdims y) ix -> Y3 ix = a [*] Y ix [+] b [*] Y2 ix)) ->
    exists Z Z2, writes dt (times p e z x y) s z Z /\ writes dt (times p e z x y) s2 z Z2 /\
      writes dt (times p e z x y) s3 z (fun ix => a [*] Z ix [+] b [*] Z2 ix).
  Proof using laws.
    intros p e m l n s s2 s3 z x y X X2 X3 Y Y2 Y3 a b K K2 K3 E.
    exists (product_fn sc p l X Y), (product_fn sc p l X2 Y2).
    split; [eapply product_writes; eauto|]. split; [eapply product_writes; eauto|].
    eapply writes_ext; [reflexivity| |eapply product_writes; eauto].
    intros ix Hix. destruct K3 as (_ & Hm & Hl & Hn & Ex & Ey & Ez & _). rewrite Ez in Hix.
    apply valid_2 in Hix. destruct Hix as (i & j & -> & Hi & Hj). unfold product_fn, arg2. cbn [nth].
    rewrite <- !(sum_scale_l sc laws), <- (sum_add sc laws). apply sum_over_ext. intros k Hk. apply in_zrange in Hk.
    assert (V1 : valid (tdims x) (lcell p i k)) by (rewrite Ex; destruct p; cbn; lia).
    assert (V2 : valid (tdims y) (rcell p k j)) by (rewrite Ey; destruct p; cbn; lia).
    destruct E as [[E E2]|[E E2]].
    - destruct (E _ V2) as [-> ->]. rewrite (E2 _ V1). ring.
    - destruct (E _ V1) as [-> ->]. rewrite (E2 _ V2). ring.
  Qed.

  (** Transposing a product exchanges and transposes the factors. *)
  Theorem C95_transpose : forall p p2 e e2 m l n s s2 z z2 x x2 y y2 X X2 Y Y2,
    mcalled dt sc p e m l n s z x y X Y -> mcalled dt sc p2 e2 n l m s2 z2 x2 y2 X2 Y2 ->
    (forall j k, 0 <= j < n -> 0 <= k < l -> X2 (lcell p2 j k) = Y (rcell p k j)) ->
    (forall k i, 0 <= k < l -> 0 <= i < m -> Y2 (rcell p2 k i) = X (lcell p i k)) ->
    exists Z, writes dt (times p e z x y) s z Z /\ writes dt (times p2 e2 z2 x2 y2) s2 z2 (arg2 (fun j i => Z [i; j])).
  Proof using laws.
    intros p p2 e e2 m l n s s2 z z2 x x2 y y2 X X2 Y Y2 K K2 EX EY.
    exists (product_fn sc p l X Y). split; [eapply product_writes; eauto|].
    eapply writes_ext; [reflexivity| |eapply product_writes; eauto].
    intros ix Hix. destruct K2 as (_ & _ & _ & _ & _ & _ & Ez & _). rewrite Ez in Hix.
    apply valid_2 in Hix. destruct Hix as (j & i & -> & Hj & Hi). unfold product_fn, arg2. cbn [nth].
    apply sum_over_ext. intros k Hk. apply in_zrange in Hk. rewrite EX, EY by lia. ring.
  Qed.

  (** The unit matrix, on the right and on the left. *)
  Theorem C95_identity : forall p e m l n s z x y X Y, mcalled dt sc p e m l n s z x y X Y ->
    (l = n -> (forall k j, 0 <= k < l -> 0 <= j < n -> Y (rcell p k j) = if k =? j then s1 sc else s0 sc) ->
     writes dt (times p e z x y) s z (arg2 (fun i j => X (lcell p i j)))) /\
    (l = m -> (forall i k, 0 <= i < m -> 0 <= k < l -> X (lcell p i k) = if i =? k then s1 sc else s0 sc) ->
     writes dt (times p e z x y) s z (arg2 (fun i j => Y (rcell p i j)))).
  Proof using laws.
    intros p e m l n s z x y X Y K. pose proof K as (_ & Hm & Hl & Hn & Ex & Ey & Ez & _).
    split; intros El EI; (eapply writes_ext; [reflexivity| |eapply product_writes; eauto]);
      intros ix Hix; rewrite Ez in Hix; apply valid_2 in Hix; destruct Hix as (i & j & -> & Hi & Hj);
      unfold product_fn, arg2; cbn [nth].
    - rewrite (sum_over_ext sc _ _ (fun k => if j =? k then X (lcell p i k) else s0 sc)).
      + rewrite (sum_pick sc laws). destruct ((0 <=? j) && (j <? l)) eqn:B; [reflexivity|lia].
      + intros k Hk. apply in_zrange in Hk. rewrite EI by lia. rewrite (Z.eqb_sym k j). destruct (j =? k); ring.
    - rewrite (sum_over_ext sc _ _ (fun k => if i =? k then Y (rcell p k j) else s0 sc)).
      + rewrite (sum_pick sc laws). destruct ((0 <=? i) && (i <? l)) eqn:B; [reflexivity|lia].
      + intros k Hk. apply in_zrange in Hk. rewrite EI by lia. destruct (i =? k); ring.
  Qed.

  (** Factors glued along the inner dimension: the products are added. *)
  Theorem C95_blocks : forall p e e2 e3 m l l2 n s s2 s3 z z2 z3 x x2 x3 y y2 y3 X X2 X3 Y Y2 Y3,
    mcalled dt sc p e m l n s z x y X Y -> mcalled dt sc p e2 m l2 n s2 z2 x2 y2 X2 Y2 ->
    mcalled dt sc p e3 m (l + l2) n s3 z3 x3 y3 X3 Y3 ->
    (forall i k, 0 <= i < m -> 0 <= k < l + l2 -> X3 (lcell p i k) = if k <? l then X (lcell p i k) else X2 (lcell p i (k - l))) ->
    (forall k j, 0 <= k < l + l2 -> 0 <= j < n -> Y3 (rcell p k j) = if k <? l then Y (rcell p k j) else Y2 (rcell p (k - l) j)) ->
    exists Z Z2, writes dt (times p e z x y) s z Z /\ writes dt (times p e2 z2 x2 y2) s2 z2 Z2 /\
      writes dt (times p e3 z3 x3 y3) s3 z3 (fun ix => Z ix [+] Z2 ix).
  Proof using laws.
    intros p e e2 e3 m l l2 n s s2 s3 z z2 z3 x x2 x3 y y2 y3 X X2 X3 Y Y2 Y3 K K2 K3 EX EY.
    exists (product_fn sc p l X Y), (product_fn sc p l2 X2 Y2).
    split; [eapply product_writes; eauto|]. split; [eapply product_writes; eauto|].
    eapply writes_ext; [reflexivity| |eapply product_writes; eauto].
    intros ix Hix. destruct K3 as (_ & _ & _ & _ & _ & _ & Ez & _). rewrite Ez in Hix.
    destruct K as (_ & _ & Hl & _). destruct K2 as (_ & _ & Hl2 & _).
    apply valid_2 in Hix. destruct Hix as (i & j & -> & Hi & Hj). unfold product_fn, arg2. cbn [nth].
    rewrite zrange_app by lia. rewrite (sum_app sc laws), sum_over_map. f_equal.
    - apply sum_over_ext. intros k Hk. apply in_zrange in Hk. rewrite EX, EY by lia.
      destruct (k <? l) eqn:B; [reflexivity|lia].
    - apply sum_over_ext. intros k Hk. apply in_zrange in Hk. rewrite EX, EY by lia.
      destruct (l + k <? l) eqn:B; [lia|]. replace (l + k - l) with k by lia. reflexivity.
  Qed.

  (** Reordering the inner dimension of both factors alike changes nothing. *)
  Theorem C95_shuffle : forall p e e2 m l n s s2 z z2 x x2 y y2 X X2 Y Y2 f,
    mcalled dt sc p e m l n s z x y X Y -> mcalled dt sc p e2 m l n s2 z2 x2 y2 X2 Y2 ->
    (forall k, 0 <= k < l -> 0 <= f k < l) ->
    (forall k k2, 0 <= k < l -> 0 <= k2 < l -> f k = f k2 -> k = k2) ->
    (forall i k, 0 <= i < m -> 0 <= k < l -> X2 (lcell p i k) = X (lcell p i (f k))) ->
    (forall k j, 0 <= k < l -> 0 <= j < n -> Y2 (rcell p k j) = Y (rcell p (f k) j)) ->
    exists Z, writes dt (times p e z x y) s z Z /\ writes dt (times p e2 z2 x2 y2) s2 z2 Z.
  Proof using laws.
    intros p e e2 m l n s s2 z z2 x x2 y y2 X X2 Y Y2 f K K2 Hf Hinj EX EY.
    exists (product_fn sc p l X Y). split; [eapply product_writes; eauto|].
    eapply writes_ext; [reflexivity| |eapply product_writes; eauto].
    intros ix Hix. destruct K2 as (_ & _ & _ & _ & _ & _ & Ez & _). rewrite Ez in Hix.
    apply valid_2 in Hix. destruct Hix as (i & j & -> & Hi & Hj). unfold product_fn, arg2. cbn [nth].
    rewrite (sum_perm sc laws (zrange l) (map f (zrange l)) (fun k => X (lcell p i k) [*] Y (rcell p k j))).
    - rewrite sum_over_map. apply sum_over_ext. intros k Hk. apply in_zrange in Hk. rewrite EX, EY by lia. reflexivity.
    - assert (N : NoDup (map f (zrange l))).
      { apply NoDup_map_in; [|apply NoDup_zrange]. intros a b Ha Hb. apply in_zrange in Ha, Hb. apply Hinj; auto. }
      apply Permutation_sym. apply NoDup_Permutation_bis; auto.
      + rewrite map_length. auto.
      + intros k Hk. apply in_map_iff in Hk. destruct Hk as (q & <- & Hq). apply in_zrange in Hq. apply in_zrange. auto.
  Qed.

  (** Two products in a row may be taken in either grouping, on any engines. *)
  Theorem C95_associative : forall e1 e2 e3 e4 m l p n s x y w t u z X Y W,
    engine_ok sc e1 [m; l; p] -> engine_ok sc e2 [m; p; n] -> engine_ok sc e3 [l; p; n] -> engine_ok sc e4 [m; l; n] ->
    0 <= m -> 0 <= l -> 0 <= p -> 0 <= n ->
    tdims x = [m; l] -> tdims y = [l; p] -> tdims w = [p; n] -> tdims t = [m; p] -> tdims u = [l; n] -> tdims z = [m; n] ->
    holds dt s x X -> holds dt s y Y -> holds dt s w W -> mapped s t -> mapped s u -> mapped s z ->
    separate [t; u; z] [x; y; w] ->
    exists Z, leaves dt (matmul e1 t x y ;;; matmul e2 z t w) s z Z /\
      leaves dt (matmul e3 u y w ;;; matmul e4 z x u) s z Z.
  Proof using laws.
    intros e1 e2 e3 e4 m l p n s x y w t u z X Y W H1 H2 H3 H4 Hm Hl Hp Hn Ex Ey Ew Et Eu Ez HX HY HW Mt Mu Mz [Sep1 Sep2].
    rewrite !Forall_cons_iff in Sep2. destruct Sep2 as (St & Su & Sz & _).
    inversion Sep1 as [|? ? Stz Sep3]; subst. inversion Sep3 as [|? ? Suz _]; subst. do 2 rewrite Forall_cons_iff in Stz. rewrite Forall_cons_iff in Suz.
    assert (sym : forall a b, disjoint a b -> disjoint b a) by (unfold disjoint; firstorder).
    assert (keep : forall a b (s s' : st V) A, disjoint a b -> dims_ok b -> holds dt s b A -> only_changes a s s' -> holds dt s' b A).
    { intros a b s0 s1 A D Db H O ix Hix. destruct O as [_ O]. rewrite O; [apply H; auto|].
      intros Q. apply (D _ Q). apply addr_foot; auto. }
    assert (dx : dims_ok x) by (eapply dims2; eauto). assert (dw : dims_ok w) by (eapply dims2; eauto).
    exists (matmul_fn sc l X (matmul_fn sc p Y W)). split.
    - eapply leaves_ext; [|eapply (then_leaves dt dt _ _ s t z (matmul_fn sc l X Y) (matmul_fn sc p (matmul_fn sc l X Y) W))].
      + intros ix Hix. rewrite Ez in Hix. apply valid_2 in Hix. destruct Hix as (i & j & -> & Hi & Hj).
        unfold matmul_fn, arg2. cbn [nth].
        rewrite (sum_over_ext sc _ _ (fun k => sum_over sc (zrange l) (fun h => X [i; h] [*] Y [h; k] [*] W [k; j]))).
        2:{ intros k Hk. rewrite (sum_scale_r sc laws). reflexivity. }
        rewrite (sum_swap sc laws). apply sum_over_ext. intros h Hh. rewrite <- (sum_scale_l sc laws).
        apply sum_over_ext. intros k Hk. ring.
      + apply C26_matmul with (m := m) (n := p); tauto.
      + apply sym. tauto.
      + auto.
      + intros s' Ht O Mz'. apply C26_matmul with (m := m) (n := n); auto; try tauto.
        * apply (keep t w s s'); tauto.
        * apply sym. tauto.
    - eapply (then_leaves dt dt _ _ s u z (matmul_fn sc p Y W)).
      + apply C26_matmul with (m := l) (n := n); tauto.
      + apply sym. tauto.
      + auto.
      + intros s' Ht O Mz'. apply C26_matmul with (m := m) (n := n); auto; try tauto.
        * apply (keep u x s s'); tauto.
        * apply sym. tauto.
  Qed.

  (** Multiplying one-hot labels with a matrix looks up its rows; a label
      outside the classes gives a zero row. *)
  Theorem C95_lookup : forall (dn : dtype V Z) N e m k n s x t w z X W,
    engine_ok sc e [m; k; n] -> 0 < it_bits N -> k <= it_max N -> 0 <= m -> 0 <= k -> 0 <= n ->
    tdims x = [m] -> tdims t = [m; k] -> tdims w = [k; n] -> tdims z = [m; n] ->
    holds dn s x X -> holds dt s w W -> mapped s t -> mapped s z -> separate [t; z] [x; w] ->
    leaves dt (op_onehot dn N dt sc 1 t x ;;; matmul e z t w) s z
      (arg2 (fun i j => if (0 <=? X [i]) && (X [i] <? k) then W [X [i]; j] else s0 sc)).
  Proof using laws.
    intros dn N e m k n s x t w z X W He Hb Hk Hm Hk0 Hn Ex Et Ew Ez HX HW Mt Mz [Sep1 Sep2].
    rewrite !Forall_cons_iff in Sep2. destruct Sep2 as (St & Sz & _).
    inversion Sep1 as [|? ? Stz Sep3]; subst. rewrite !Forall_cons_iff in Stz.
    assert (Dtz : disjoint z t) by (unfold disjoint in *; firstorder).
    set (O1 := fun ix : list Z => if Z.eq_dec (last ix 0) (X (removelast ix)) then s1 sc else s0 sc).
    eapply leaves_ext; [|eapply (then_leaves dt dt _ _ s t z O1 (matmul_fn sc k O1 W))].
    - intros ix Hix. rewrite Ez in Hix. apply valid_2 in Hix. destruct Hix as (i & j & -> & Hi & Hj).
      unfold matmul_fn, arg2. cbn [nth]. rewrite <- (sum_pick sc laws k (X [i]) (fun q => W [q; j])).
      apply sum_over_ext. intros q Hq. unfold O1. cbn [last removelast].
      destruct (Z.eq_dec q (X [i])) as [->|Ne]; [rewrite Z.eqb_refl; ring|].
      destruct (X [i] =? q) eqn:B; [lia|ring].
    - apply (C45_onehot V T dn N dt sc t x [m] k X s); auto; try tauto. eapply dims2; eauto.
    - exact Dtz.
    - auto.
    - intros s' Ht O Mz'. apply C26_matmul with (m := m) (n := n); auto; try tauto.
      intros ix Hix. destruct O as [_ O]. rewrite O; [apply HW; auto|]. intros Q.
      assert (D : disjoint t w) by tauto. apply (D _ Q). apply addr_foot; auto.
  Qed.

  (** Two dense layers without activation between them are one dense layer
      with weights W1 W2 and bias B1 W2 + B2. *)
  Theorem C95_dense : forall e1 e2 e act m l n1 n2 w1 b1 w2 b2 w b W1 B1 W2 B2 W B F s x X,
    0 <= n1 < 2 ^ 32 -> 0 <= n2 < 2 ^ 32 ->
    engine_ok sc e1 [m; l; n1] -> engine_ok sc e2 [m; n1; n2] -> engine_ok sc e [m; l; n2] ->
    fills dt w1 [l; n1] W1 -> fills dt b1 [n1] B1 -> fills dt w2 [n1; n2] W2 -> fills dt b2 [n2] B2 ->
    fills dt w [l; n2] W -> fills dt b [n2] B -> acts dt act [m; n2] F ->
    (forall k j, 0 <= k < l -> 0 <= j < n2 -> W [k; j] = sum_over sc (zrange n1) (fun h => W1 [k; h] [*] W2 [h; j])) ->
    (forall j, 0 <= j < n2 -> B [j] = sum_over sc (zrange n1) (fun h => B1 [h] [*] W2 [h; j]) [+] B2 [j]) ->
    (forall Y Y2, (forall ix, valid [m; n2] ix -> Y ix = Y2 ix) -> forall ix, valid [m; n2] ix -> F Y ix = F Y2 ix) ->
    input dt s x ([m; l], X) ->
    exists Y,
      creates dt (sequential (dense dt sc e1 noop2 n1 w1 b1) [dense dt sc e2 act n2 w2 b2] x) s ([m; n2], Y)
        [([n1; n2], W2); ([n2], B2)] /\
      creates dt (dense dt sc e act n2 w b x) s ([m; n2], Y) [([l; n2], W); ([n2], B)].
  Proof using laws.
    intros e1 e2 e act m l n1 n2 w1 b1 w2 b2 w b W1 B1 W2 B2 W B F s x X
      Hn1 Hn2 H1 H2 H3 Fw1 Fb1 Fw2 Fb2 Fw Fb HF EW EB HE I.
    pose proof (C62_dense dt sc e1 noop2 n1 w1 b1 m l W1 B1 (fun Y => Y) s x X Hn1 H1 Fw1 Fb1 (acts_noop dt _) I) as C1.
    pose proof (C62_dense dt sc e act n2 w b m l W B F s x X Hn2 H3 Fw Fb HF I) as C3.
    destruct I as (I1 & I2 & I3). cbn [fst] in I2. rewrite !Forall_cons_iff in I2.
    eexists. split; [|exact C3]. unfold sequential. cbn [fold_left].
    set (Y1 := arg2 (fun i j => sum_over sc (zrange l) (fun k => X [i; k] [*] W1 [k; j]) [+] B1 [j])) in *.
    eapply composed_creates; [exact I1| |exact C1|].
    - repeat constructor; lia.
    - intros s' y I'. pose proof (C62_dense dt sc e2 act n2 w2 b2 m n1 W2 B2 F s' y Y1 Hn2 H2 Fw2 Fb2 HF I') as C2.
      destruct C2 as (la & s1 & E1 & G & [Q1 Q2] & Q3). exists la, s1. split; [exact E1|]. split; [exact G|].
      split; [|exact Q3]. split; [exact Q1|]. cbn [fst snd] in *. intros ix Hix. rewrite (Q2 ix Hix). rewrite Q1 in Hix.
      f_equal. f_equal. apply HE; auto. clear - rt laws EW EB. intros ix Hix. apply valid_2 in Hix.
      destruct Hix as (i & j & -> & Hi & Hj). unfold Y1, arg2. cbn [nth]. rewrite EB by auto.
      rewrite (sum_over_ext sc (zrange n1) _
        (fun h => sum_over sc (zrange l) (fun k => X [i; k] [*] W1 [k; h] [*] W2 [h; j]) [+] B1 [h] [*] W2 [h; j])).
      2:{ intros h Hh. rewrite (sum_scale_r sc laws). ring. }
      rewrite (sum_add sc laws), (sum_swap sc laws).
      rewrite (sum_over_ext sc (zrange l) (fun k => X [i; k] [*] W [k; j])
        (fun k => sum_over sc (zrange n1) (fun h => X [i; k] [*] W1 [k; h] [*] W2 [h; j]))).
      2:{ intros k Hk. apply in_zrange in Hk. rewrite EW by auto. rewrite <- (sum_scale_l sc laws). apply sum_over_ext. intros. ring. }
      ring.
  Qed.
End Ring.

(** In floating point neither the grouping nor the order of the inner dimension
    is free: 2^24 + 1 - 2^24 in two orders, (1 1) ((2^24 1); (-2^24 0)) (1; 1) in
    two groupings. *)
Theorem C95_float_refuted :
  let row := demo [[f32 1 24; f32 1 0; f32 (-1) 24]; [f32 1 0; f32 1 0; f32 1 0]; [f32 9 0]] in
  let row2 := demo [[f32 1 24; f32 (-1) 24; f32 1 0]; [f32 1 0; f32 1 0; f32 1 0]; [f32 9 0]] in
  let s := demo [[f32 1 0; f32 1 0]; [f32 1 24; f32 1 0; f32 (-1) 24; f32 0 0]; [f32 1 0; f32 1 0]; repeat (f32 9 0) 2; [f32 9 0]] in
  shown (run (op_matmul ft F32 Builtin (T_ 2 [1; 1]) (T_ 0 [1; 3]) (T_ 1 [3; 1])) row (T_ 2 [1])) = floats [f32 0 0] /\
  shown (run (op_matmul ft F32 Builtin (T_ 2 [1; 1]) (T_ 0 [1; 3]) (T_ 1 [3; 1])) row2 (T_ 2 [1])) = floats [f32 1 0] /\
  shown (run (op_matmul ft F32 Builtin (T_ 3 [1; 2]) (T_ 0 [1; 2]) (T_ 1 [2; 2]) ;;;
              op_matmul ft F32 Builtin (T_ 4 [1; 1]) (T_ 3 [1; 2]) (T_ 2 [2; 1])) s (T_ 4 [1])) = floats [f32 1 0] /\
  shown (run (op_matmul ft F32 Builtin (T_ 3 [2; 1]) (T_ 1 [2; 2]) (T_ 2 [2; 1]) ;;;
              op_matmul ft F32 Builtin (T_ 4 [1; 1]) (T_ 0 [1; 2]) (T_ 3 [2; 1])) s (T_ 4 [1])) = floats [f32 0 0].
Proof. vm_compute. repeat split; reflexivity. Qed.

(** One-hot rows do not look up a row of floats when another row holds an
    infinity: 0 * infinity is NaN. *)
Theorem C95_lookup_refuted :
  let s := demo (map (map inl) [[B754_infinity false; f32 5 0]] ++ [[inr 1]] ++ map (map inl) [[f32 9 0; f32 9 0]; [f32 9 0]]) in
  shown1 (run (op_onehot (dt_inr float Z) int8 (dt_inl float Z) F32 1 (T_ 2 [1; 2]) (T_ 1 [1]) ;;;
               op_matmul (dt_inl float Z) F32 Builtin (T_ 3 [1; 1]) (T_ 2 [1; 2]) (T_ 0 [2; 1])) s (T_ 3 [1]))
  = floats [B754_nan].
Proof. vm_compute. reflexivity. Qed.

(** With relu between them two dense layers are in general not one: no weights
    and bias whatsoever give 0 0 1 on -1 0 1. *)
Theorem C95_relu_refuted :
  let s := demo [[-1; 0; 1]] in let x := T_ 0 [3; 1] in
  let one := init_with (fun _ => 1) in let zero := init_with (fun _ => 0) in
  show (sequential (dense zt Zsc Builtin (op_relu zt Zsc) 1 one zero) [dense zt Zsc Builtin noop2 1 one zero] x s)
    (fun l => [output l]) = Some [([3; 1], inits [0; 0; 1])] /\
  forall w b W B, fills zt w [1; 1] W -> fills zt b [1] B ->
    show (dense zt Zsc Builtin noop2 1 w b x s) (fun l => [output l]) <> Some [([3; 1], inits [0; 0; 1])].
Proof.
  split; [vm_compute; reflexivity|]. intros w b W B Fw Fb H.
  set (X := arg2 (fun i _ => i - 1) : list Z -> Z).
  destruct (C62_dense zt Zsc Builtin noop2 1 w b 3 1 W B (fun Y => Y) (demo [[-1; 0; 1]]) (T_ 0 [3; 1]) X)
    as (l & s' & E & _ & [D HY] & _); auto; [lia|exact I|apply acts_noop| |].
  - split; [apply demo_fresh|]. split; [repeat constructor; cbn; lia|]. split; [reflexivity|].
    intros ix Hix. apply valid_2 in Hix. destruct Hix as (i & j & -> & Hi & Hj). replace j with 0 by lia.
    assert (C : i = 0 \/ i = 1 \/ i = 2) by lia. destruct C as [-> | [-> | ->]]; reflexivity.
  - rewrite E in H. cbn [show map] in H. cbn [fst snd] in D, HY. rewrite D in H.
    assert (S0 : size (output l) = 3) by (unfold size; rewrite D; reflexivity). rewrite S0 in H.
    injection H as H0 H1 H2.
    assert (G : forall i, 0 <= i < 3 -> cells s' (daddr (output l) i) = Init (X [i; 0] * W [0; 0] + B [0])).
    { intros i Hi. specialize (HY [i; 0]). rewrite D in HY. cbn [valid] in HY.
      unfold addr in HY. rewrite D in HY. cbn [offset prod] in HY.
      replace (i * (1 * 1) + (0 * 1 + 0)) with i in HY by lia. rewrite HY by lia. reflexivity. }
    rewrite G in H0, H1, H2 by lia. unfold X, arg2 in *. cbn [nth] in *. 
    assert (P : forall a b : Z, @Init Z a = Init b -> a = b) by (intros a c Q; congruence).
    apply P in H0, H1, H2. lia.
Qed.

(** (1 2; 3 4), (0 1; 1 1), (2; 3): both groupings; the transposed products;
    rows 2, 0 and none of (1 2; 3 4; 5 6); two dense layers and the one equal
    to them. *)
Example C95_example :
  let s := demo [[1; 2; 3; 4]; [0; 1; 1; 1]; [2; 3]; [9; 9; 9; 9]; [9; 9]; [9; 9]] in
  let mul := op_product zt Zsc in
  run (mul Plain Builtin (T_ 3 [2; 2]) (T_ 0 [2; 2]) (T_ 1 [2; 2]) ;;;
       mul Plain Builtin (T_ 5 [2; 1]) (T_ 3 [2; 2]) (T_ 2 [2; 1])) s (T_ 5 [2]) = Some (inits [13; 29]) /\
  run (mul Plain Builtin (T_ 4 [2; 1]) (T_ 1 [2; 2]) (T_ 2 [2; 1]) ;;;
       mul Plain Cblas (T_ 5 [2; 1]) (T_ 0 [2; 2]) (T_ 4 [2; 1])) s (T_ 5 [2]) = Some (inits [13; 29]) /\
  run (mul RightT Builtin (T_ 3 [2; 2]) (T_ 0 [2; 2]) (T_ 1 [2; 2])) s (T_ 3 [4]) = Some (inits [2; 3; 4; 7]) /\
  run (mul RightT Builtin (T_ 3 [2; 2]) (T_ 1 [2; 2]) (T_ 0 [2; 2])) s (T_ 3 [4]) = Some (inits [2; 4; 3; 7]) /\
  run (mul LeftT Builtin (T_ 3 [2; 2]) (T_ 0 [2; 2]) (T_ 1 [2; 2])) s (T_ 3 [4]) = Some (inits [3; 4; 4; 6]) /\
  run (op_onehot zt int8 zt Zsc 1 (T_ 1 [3; 3]) (T_ 0 [3]) ;;; mul Plain Builtin (T_ 3 [3; 2]) (T_ 1 [3; 3]) (T_ 2 [3; 2]))
    (demo [[2; 0; 7]; repeat 9 9; [1; 2; 3; 4; 5; 6]; repeat 9 6]) (T_ 3 [6]) = Some (inits [5; 6; 1; 2; 0; 0]) /\
  show (sequential (dense zt Zsc Builtin noop2 2 (init_with (fun i => i)) (init_with (fun i => i + 1)))
          [dense zt Zsc Builtin noop2 1 (init_with (fun i => i + 1)) (init_with (fun _ => -5))]
          (T_ 0 [2; 2]) (demo [[1; 2; 3; 4]])) (fun l => [output l]) = Some [([2; 1], inits [18; 38])] /\
  show (dense zt Zsc Builtin noop2 1 (init_with (fun i => 2 + 6 * i)) (init_with (fun _ => 0))
          (T_ 0 [2; 2]) (demo [[1; 2; 3; 4]])) (fun l => [output l]) = Some [([2; 1], inits [18; 38])].
Proof. vm_compute. repeat split. Qed.

Print Assumptions C95_orientation.
Print Assumptions C95_select.
Print Assumptions C95_vector.
Print Assumptions C95_linear.
Print Assumptions C95_transpose.
Print Assumptions C95_identity.
Print Assumptions C95_blocks.
Print Assumptions C95_shuffle.
Print Assumptions C95_associative.
Print Assumptions C95_lookup.
Print Assumptions C95_dense.
Print Assumptions C95_float_refuted.
Print Assumptions C95_lookup_refuted.
Print Assumptions C95_relu_refuted.
