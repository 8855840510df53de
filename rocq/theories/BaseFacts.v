(** Lemmas about index arithmetic, memory and loops. *)
From Coq Require Import ZArith List Bool Lia ZifyBool FinFun.
From Verif Require Import Base.
Import ListNotations.
Open Scope Z_scope.
Open Scope model_scope.

(** ** Ranges *)

Lemma in_zrange : forall n i, In i (zrange n) <-> 0 <= i < n.
Proof.
  intros n i. unfold zrange. rewrite in_map_iff. split.
  - intros [k [<- Hk]]. apply in_seq in Hk. lia.
  - intros H. exists (Z.to_nat i). split; [lia|]. apply in_seq. lia.
Qed.

Lemma NoDup_zrange : forall n, NoDup (zrange n).
Proof.
  intros n. unfold zrange. apply Injective_map_NoDup.
  - intros x y H. lia.
  - apply seq_NoDup.
Qed.

Lemma zrange_nonpos : forall n, n <= 0 -> zrange n = [].
Proof. intros n H. unfold zrange. replace (Z.to_nat n) with 0%nat by lia. reflexivity. Qed.

Lemma zrange_0 : zrange 0 = [].
Proof. reflexivity. Qed.

Lemma length_zrange : forall n, length (zrange n) = Z.to_nat n.
Proof. intros. unfold zrange. rewrite map_length, seq_length. reflexivity. Qed.

Lemma zrange_app : forall a b, 0 <= a -> 0 <= b ->
  zrange (a + b) = zrange a ++ map (fun i => a + i) (zrange b).
Proof.
  intros a b Ha Hb. unfold zrange.
  rewrite Z2Nat.inj_add by lia. rewrite seq_app, map_app. f_equal.
  rewrite map_map. simpl.
  replace (seq (Z.to_nat a) (Z.to_nat b)) with (map (fun i => (Z.to_nat a + i)%nat) (seq 0 (Z.to_nat b))).
  - rewrite map_map. apply map_ext. intros x. lia.
  - clear Hb. generalize (Z.to_nat b) as n. generalize (Z.to_nat a) as m. intros m n.
    assert (H: forall k, map (fun i => (m + i)%nat) (seq k n) = seq (m + k) n).
    { induction n as [|n IH]; intros k; simpl; [reflexivity|].
      rewrite IH. f_equal. f_equal. lia. }
    rewrite H. f_equal. lia.
Qed.

Lemma zrange_1 : zrange 1 = [0].
Proof. reflexivity. Qed.

Lemma zrange_succ : forall n, 0 <= n -> zrange (n + 1) = zrange n ++ [n].
Proof.
  intros n H. rewrite zrange_app by lia. rewrite zrange_1. simpl. f_equal. f_equal. lia.
Qed.

Lemma zrange_succ_l : forall n, 0 <= n -> zrange (1 + n) = 0 :: map (fun i => 1 + i) (zrange n).
Proof. intros n H. rewrite zrange_app by lia. reflexivity. Qed.

(** Induction over a nonnegative bound. *)
Lemma Z_nonneg_ind : forall P : Z -> Prop,
  P 0 -> (forall n, 0 <= n -> P n -> P (n + 1)) -> forall n, 0 <= n -> P n.
Proof.
  intros P H0 HS n Hn. pattern n. apply natlike_ind; auto.
Qed.

Lemma flat_map_nil : forall {A B} (f : A -> list B) l,
  (forall a, In a l -> f a = []) -> flat_map f l = [].
Proof.
  intros A B f l H. induction l as [|a l IH]; simpl; [reflexivity|].
  rewrite H by (simpl; auto). apply IH. intros; apply H; simpl; auto.
Qed.

Lemma flat_map_zrange_single : forall {B} (f : Z -> list B) n i,
  0 <= i < n -> (forall j, 0 <= j < n -> j <> i -> f j = []) ->
  flat_map f (zrange n) = f i.
Proof.
  intros B f n i Hi Hf.
  assert (G: forall l, NoDup l -> In i l -> (forall j, In j l -> j <> i -> f j = []) ->
             flat_map f l = f i).
  { induction l as [|a l IH]; intros Hn Hin Hz; [destruct Hin|].
    inversion Hn as [|? ? Hna Hnl]; subst. simpl.
    destruct (Z.eq_dec a i) as [->|Hai].
    - assert (E: flat_map f l = []).
      { apply flat_map_nil. intros j Hj. apply Hz; [simpl; auto|]. intros ->. auto. }
      rewrite E. apply app_nil_r.
    - rewrite (Hz a); [|simpl; auto|exact Hai]. simpl.
      apply IH; auto.
      + destruct Hin; [congruence|auto].
      + intros; apply Hz; simpl; auto. }
  apply G.
  - apply NoDup_zrange.
  - apply in_zrange; auto.
  - intros j Hj Hji. apply Hf; auto. apply in_zrange; auto.
Qed.

Lemma filter_flat_map : forall {A B} (p : B -> bool) (f : A -> list B) l,
  filter p (flat_map f l) = flat_map (fun a => filter p (f a)) l.
Proof.
  intros A B p f l. induction l as [|a l IH]; simpl; [reflexivity|].
  rewrite filter_app, IH. reflexivity.
Qed.

Lemma filter_map : forall {A B} (p : B -> bool) (f : A -> B) l,
  filter p (map f l) = map f (filter (fun a => p (f a)) l).
Proof.
  intros A B p f l. induction l as [|a l IH]; simpl; [reflexivity|].
  rewrite IH. destruct (p (f a)); reflexivity.
Qed.

Lemma flat_map_map : forall {A B C} (f : B -> list C) (g : A -> B) l,
  flat_map f (map g l) = flat_map (fun a => f (g a)) l.
Proof. intros. induction l as [|a l IH]; simpl; [reflexivity|]. rewrite IH. reflexivity. Qed.

Lemma map_flat_map : forall {A B C} (f : B -> C) (g : A -> list B) l,
  map f (flat_map g l) = flat_map (fun a => map f (g a)) l.
Proof. intros. induction l as [|a l IH]; simpl; [reflexivity|]. rewrite map_app, IH. reflexivity. Qed.

Lemma flat_map_ext_in : forall {A B} (f g : A -> list B) l,
  (forall a, In a l -> f a = g a) -> flat_map f l = flat_map g l.
Proof.
  intros A B f g l H. induction l as [|a l IH]; simpl; [reflexivity|].
  rewrite H by (simpl; auto). rewrite IH; [reflexivity|]. intros; apply H; simpl; auto.
Qed.

Lemma flat_map_singleton : forall {A B} (f : A -> B) l,
  flat_map (fun a => [f a]) l = map f l.
Proof. intros. induction l; simpl; congruence. Qed.

Lemma filter_true : forall {A} (p : A -> bool) l,
  (forall a, In a l -> p a = true) -> filter p l = l.
Proof.
  intros A p l H. induction l as [|a l IH]; simpl; [reflexivity|].
  rewrite H by (simpl; auto). rewrite IH; auto. intros; apply H; simpl; auto.
Qed.

Lemma filter_false : forall {A} (p : A -> bool) l,
  (forall a, In a l -> p a = false) -> filter p l = [].
Proof.
  intros A p l H. induction l as [|a l IH]; simpl; [reflexivity|].
  rewrite H by (simpl; auto). apply IH. intros; apply H; simpl; auto.
Qed.

Lemma filter_eqb_zrange : forall n i, 0 <= i < n -> filter (fun j => j =? i) (zrange n) = [i].
Proof.
  intros n i Hi.
  replace (zrange n) with (flat_map (fun a => [a]) (zrange n)) by (rewrite flat_map_singleton, map_id; reflexivity).
  rewrite filter_flat_map. rewrite flat_map_zrange_single with (i := i); auto.
  - simpl. rewrite Z.eqb_refl. reflexivity.
  - intros j _ Hj. simpl. replace (j =? i) with false by lia. reflexivity.
Qed.

Lemma fold_left_map : forall {A B C} (f : C -> B -> C) (g : A -> B) l c,
  fold_left f (map g l) c = fold_left (fun c a => f c (g a)) l c.
Proof. intros A B C f g l. induction l; intros; simpl; auto. Qed.

Lemma fold_left_flat_map : forall {A B C} (f : C -> B -> C) (g : A -> list B) l c,
  fold_left f (flat_map g l) c = fold_left (fun c a => fold_left f (g a) c) l c.
Proof.
  intros A B C f g l. induction l as [|a l IH]; intros c; simpl; [reflexivity|].
  rewrite fold_left_app. apply IH.
Qed.

Lemma fold_left_ext_in : forall {A B} (f g : B -> A -> B) l b,
  (forall c a, In a l -> f c a = g c a) -> fold_left f l b = fold_left g l b.
Proof.
  intros A B f g l. induction l as [|a l IH]; intros b H; simpl; [reflexivity|].
  rewrite H by (simpl; auto). apply IH. intros; apply H; simpl; auto.
Qed.

(** ** Shapes *)

Definition nonneg (ds : list Z) : Prop := Forall (fun d => 0 <= d) ds.

Lemma prod_nonneg : forall ds, nonneg ds -> 0 <= prod ds.
Proof. induction 1; simpl; [lia|]. apply Z.mul_nonneg_nonneg; auto. Qed.

Lemma prod_app : forall a b, prod (a ++ b) = prod a * prod b.
Proof. induction a as [|x a IH]; intros b; cbn [prod app]; [lia|]. rewrite IH. ring. Qed.

Lemma nonneg_app : forall a b, nonneg (a ++ b) <-> nonneg a /\ nonneg b.
Proof. intros. apply Forall_app. Qed.

Lemma prod_firstn_skipn : forall k ds, prod (firstn k ds) * prod (skipn k ds) = prod ds.
Proof. intros. rewrite <- prod_app, firstn_skipn. reflexivity. Qed.

Lemma nonneg_firstn : forall k ds, nonneg ds -> nonneg (firstn k ds).
Proof. intros k ds H. rewrite <- (firstn_skipn k ds) in H. apply nonneg_app in H. tauto. Qed.

Lemma nonneg_skipn : forall k ds, nonneg ds -> nonneg (skipn k ds).
Proof. intros k ds H. rewrite <- (firstn_skipn k ds) in H. apply nonneg_app in H. tauto. Qed.

Lemma in_indices : forall ds ix, In ix (indices ds) <-> valid ds ix.
Proof.
  induction ds as [|d ds IH]; intros ix; simpl.
  - destruct ix; simpl; [split; auto|]. split; [intros [H|[]]; congruence|intros []].
  - rewrite in_flat_map. split.
    + intros [i [Hi H]]. apply in_map_iff in H. destruct H as [is [<- His]].
      simpl. rewrite <- IH. rewrite in_zrange in Hi. auto.
    + destruct ix as [|i is]; simpl; [intros []|]. intros [Hi His].
      exists i. rewrite in_zrange. split; [lia|]. apply in_map. apply IH; auto.
Qed.

Lemma offset_bound : forall ds ix, valid ds ix -> 0 <= offset ds ix < prod ds.
Proof.
  induction ds as [|d ds IH]; intros [|i is]; simpl; intros H; try contradiction; [lia|].
  destruct H as [Hi His]. specialize (IH _ His). nia.
Qed.

Lemma valid_nonneg_prod : forall ds ix, valid ds ix -> 0 < prod ds.
Proof. intros ds ix H. apply offset_bound in H. lia. Qed.

Lemma offset_inj : forall ds ix iy, valid ds ix -> valid ds iy ->
  offset ds ix = offset ds iy -> ix = iy.
Proof.
  induction ds as [|d ds IH]; intros [|i is] [|j js]; simpl; intros H1 H2 E; try contradiction; auto.
  destruct H1 as [Hi His], H2 as [Hj Hjs].
  pose proof (offset_bound _ _ His) as B1. pose proof (offset_bound _ _ Hjs) as B2.
  assert (i = j) by nia. subst j. f_equal. apply IH; auto. lia.
Qed.

Lemma expand_offset : forall ds ix, valid ds ix -> expand ds (offset ds ix) = ix.
Proof.
  induction ds as [|d ds IH]; intros [|i is]; simpl; intros H; try contradiction; auto.
  destruct H as [Hi His]. pose proof (offset_bound _ _ His) as B.
  rewrite Z.add_comm, Z.div_add, Z.mod_add by lia.
  rewrite Z.div_small, Z.mod_small by lia. rewrite IH by auto. reflexivity.
Qed.

Lemma valid_expand : forall ds o, nonneg ds -> 0 <= o < prod ds -> valid ds (expand ds o).
Proof.
  induction ds as [|d ds IH]; intros o Hn Ho; simpl; auto.
  inversion Hn as [|? ? Hd Hds]; subst. cbn [prod] in Ho.
  pose proof (prod_nonneg _ Hds) as Hp.
  assert (0 < prod ds) by nia. split.
  - split; [apply Z.div_pos; lia|]. apply Z.div_lt_upper_bound; lia.
  - apply IH; auto. apply Z.mod_pos_bound; lia.
Qed.

Lemma offset_expand : forall ds o, nonneg ds -> 0 <= o < prod ds -> offset ds (expand ds o) = o.
Proof.
  induction ds as [|d ds IH]; intros o Hn Ho; cbn [prod] in *; simpl; [lia|].
  inversion Hn as [|? ? Hd Hds]; subst.
  pose proof (prod_nonneg _ Hds) as Hp.
  assert (0 < prod ds) by nia.
  rewrite IH; auto; [|apply Z.mod_pos_bound; lia].
  rewrite Z.mul_comm. symmetry. apply Z.div_mod. lia.
Qed.

Lemma offset_app : forall a b i j, length i = length a ->
  offset (a ++ b) (i ++ j) = offset a i * prod b + offset b j.
Proof.
  induction a as [|d a IH]; intros b [|x i] j H; simpl in *; try discriminate; [lia|].
  rewrite IH by lia. rewrite prod_app. ring.
Qed.

Lemma valid_length : forall ds ix, valid ds ix -> length ix = length ds.
Proof.
  induction ds as [|d ds IH]; intros [|i is]; simpl; intros H; try contradiction; auto.
  f_equal. apply IH. tauto.
Qed.

Lemma valid_app : forall a b i j, length i = length a ->
  (valid (a ++ b) (i ++ j) <-> valid a i /\ valid b j).
Proof.
  induction a as [|d a IH]; intros b [|x i] j H; simpl in *; try discriminate; [tauto|].
  rewrite IH by lia. tauto.
Qed.

(** Row-major enumeration of the indices is the enumeration of the offsets. *)
Lemma map_offset_indices : forall ds, nonneg ds ->
  map (offset ds) (indices ds) = zrange (prod ds).
Proof.
  induction ds as [|d ds IH]; intros H; [reflexivity|].
  inversion H as [|? ? Hd Hds]; subst. specialize (IH Hds).
  pose proof (prod_nonneg _ Hds) as Hp.
  cbn [indices prod]. rewrite map_flat_map.
  assert (E: forall i, map (offset (d :: ds)) (map (cons i) (indices ds))
             = map (fun o => i * prod ds + o) (zrange (prod ds))).
  { intros i. rewrite <- IH, !map_map. apply map_ext. reflexivity. }
  rewrite (flat_map_ext _ _ E). clear E IH H.
  revert d Hd. apply Z_nonneg_ind; [reflexivity|].
  intros n Hn IH. rewrite zrange_succ by lia. rewrite flat_map_app, IH. simpl.
  rewrite app_nil_r, Z.mul_add_distr_r, Z.mul_1_l.
  rewrite zrange_app by lia. reflexivity.
Qed.

Lemma NoDup_indices : forall ds, nonneg ds -> NoDup (indices ds).
Proof.
  intros ds H. apply NoDup_map_inv with (f := offset ds).
  rewrite map_offset_indices by auto. apply NoDup_zrange.
Qed.

Lemma indices_expand : forall ds, nonneg ds -> indices ds = map (expand ds) (zrange (prod ds)).
Proof.
  intros ds H. rewrite <- map_offset_indices by auto. rewrite map_map.
  rewrite <- (map_id (indices ds)) at 1. apply map_ext_in.
  intros ix Hix. symmetry. apply expand_offset. apply in_indices; auto.
Qed.

Lemma indices_app : forall a b,
  indices (a ++ b) = flat_map (fun i => map (app i) (indices b)) (indices a).
Proof.
  induction a as [|d a IH]; intros b; simpl.
  - rewrite app_nil_r. symmetry. apply map_id.
  - rewrite IH. induction (zrange d) as [|x l IHl]; simpl; [reflexivity|].
    rewrite flat_map_app, <- IHl. f_equal.
    rewrite map_flat_map, flat_map_map. apply flat_map_ext.
    intros i. rewrite map_map. reflexivity.
Qed.

Lemma indices_1 : forall n, indices [n] = map (fun i => [i]) (zrange n).
Proof. intros. simpl. apply flat_map_singleton. Qed.

Lemma length_indices : forall ds, nonneg ds -> Z.of_nat (length (indices ds)) = prod ds.
Proof.
  intros ds H. rewrite <- (map_length (offset ds)), map_offset_indices by auto.
  rewrite length_zrange. pose proof (prod_nonneg _ H). lia.
Qed.

(** ** Locations and cells *)

Lemma loc_eqb_spec : forall p q, reflect (p = q) (loc_eqb p q).
Proof.
  intros [a b] [c d]. unfold loc_eqb; simpl.
  destruct (Z.eqb_spec a c), (Z.eqb_spec b d); simpl; constructor; congruence.
Qed.

Lemma loc_eqb_refl : forall p, loc_eqb p p = true.
Proof. intros. destruct (loc_eqb_spec p p); congruence. Qed.

Lemma cells_upd_same : forall {V} (s : st V) p v, cells (upd s p v) p = Init v.
Proof. intros. simpl. rewrite loc_eqb_refl. reflexivity. Qed.

Lemma cells_upd_other : forall {V} (s : st V) p q v, q <> p -> cells (upd s p v) q = cells s q.
Proof. intros. simpl. destruct (loc_eqb_spec q p); congruence. Qed.

Lemma nextb_upd : forall {V} (s : st V) p v, nextb (upd s p v) = nextb s.
Proof. reflexivity. Qed.

Lemma load_ok : forall {V T} (dt : dtype V T) s p x,
  cells s p = Init (emb dt x) -> load dt p s = Ok x s.
Proof. intros V T dt s p x H. unfold load. rewrite H, prj_emb. reflexivity. Qed.

Lemma store_ok : forall {V T} (dt : dtype V T) s p x,
  cells s p <> Unmapped -> store dt p x s = Ok tt (upd s p (emb dt x)).
Proof. intros V T dt s p x H. unfold store. destruct (cells s p); congruence. Qed.

Lemma emb_inj : forall {V T} (dt : dtype V T) x y, emb dt x = emb dt y -> x = y.
Proof. intros V T dt x y H. pose proof (prj_emb dt x). rewrite H, prj_emb in H0. congruence. Qed.

Lemma bind_ok : forall {V A B} (m : M V A) (k : A -> M V B) s a s',
  m s = Ok a s' -> bind m k s = k a s'.
Proof. intros. unfold bind. rewrite H. reflexivity. Qed.

Lemma bind_throw : forall {V A B} (m : M V A) (k : A -> M V B) s e s',
  m s = Throw e s' -> bind m k s = Throw e s'.
Proof. intros. unfold bind. rewrite H. reflexivity. Qed.

Lemma bind_assoc : forall {V A B C} (m : M V A) (k : A -> M V B) (h : B -> M V C) s,
  bind (bind m k) h s = bind m (fun a => bind (k a) h) s.
Proof. intros. unfold bind. destruct (m s); reflexivity. Qed.

Lemma bind_ret_l : forall {V A B} (a : A) (k : A -> M V B) s, bind (ret a) k s = k a s.
Proof. reflexivity. Qed.

Lemma bind_ret_r : forall {V A} (m : M V A) s, bind m ret s = m s.
Proof. intros. unfold bind, ret. destruct (m s); reflexivity. Qed.

Lemma contract_true : forall {V} b (s : st V), b = true -> contract b s = Ok tt s.
Proof. intros V b s ->. reflexivity. Qed.

(** ** Tensor facts *)

Lemma addr_foot : forall t ix, valid (tdims t) ix -> foot t (addr t ix).
Proof. intros t ix H. exists (offset (tdims t) ix). split; [apply offset_bound; auto|reflexivity]. Qed.

Lemma foot_addr : forall t p, dims_ok t -> foot t p -> exists ix, valid (tdims t) ix /\ p = addr t ix.
Proof.
  intros t p Hd [o [Ho ->]]. exists (expand (tdims t) o). split.
  - apply valid_expand; auto.
  - unfold addr. rewrite offset_expand; auto.
Qed.

Lemma addr_inj : forall t ix iy, valid (tdims t) ix -> valid (tdims t) iy ->
  addr t ix = addr t iy -> ix = iy.
Proof.
  intros t ix iy H1 H2 E. unfold addr, daddr in E. injection E as E.
  eapply offset_inj; eauto. lia.
Qed.

Lemma daddr_foot : forall t o, 0 <= o < size t -> foot t (daddr t o).
Proof. intros t o H. exists o; auto. Qed.

Lemma daddr_inj : forall t a b, daddr t a = daddr t b -> a = b.
Proof. intros t a b E. unfold daddr in E. injection E as E. lia. Qed.

Lemma disjoint_sym : forall t u, disjoint t u -> disjoint u t.
Proof. unfold disjoint. eauto. Qed.

Lemma holds_daddr : forall {V T} (dt : dtype V T) s t X o,
  dims_ok t -> holds dt s t X -> 0 <= o < size t ->
  cells s (daddr t o) = Init (emb dt (X (expand (tdims t) o))).
Proof.
  intros V T dt s t X o Hd H Ho.
  rewrite <- (H (expand (tdims t) o)) by (apply valid_expand; auto).
  unfold addr. rewrite offset_expand; auto.
Qed.

Lemma holds_mapped : forall {V T} (dt : dtype V T) s t X,
  dims_ok t -> holds dt s t X -> mapped s t.
Proof.
  intros V T dt s t X Hd H p Hp. apply foot_addr in Hp; auto.
  destruct Hp as [ix [Hix ->]]. rewrite H by auto. congruence.
Qed.

Lemma holds_ext : forall {V T} (dt : dtype V T) s t X Y,
  (forall ix, valid (tdims t) ix -> X ix = Y ix) -> holds dt s t X -> holds dt s t Y.
Proof. intros V T dt s t X Y E H ix Hix. rewrite <- E by auto. apply H; auto. Qed.

Lemma holds_frame : forall {V T} (dt : dtype V T) s s' t X,
  (forall p, foot t p -> cells s' p = cells s p) -> holds dt s t X -> holds dt s' t X.
Proof. intros V T dt s s' t X E H ix Hix. rewrite E; auto. apply addr_foot; auto. Qed.

Lemma mapped_frame : forall {V} (s s' : st V) t,
  (forall p, foot t p -> cells s' p = cells s p) -> mapped s t -> mapped s' t.
Proof. intros V s s' t E H p Hp. rewrite E; auto. Qed.

Lemma only_changes_refl : forall {V} t (s : st V), only_changes t s s.
Proof. split; auto. lia. Qed.

Lemma only_changes_trans : forall {V} t (s1 s2 s3 : st V),
  only_changes t s1 s2 -> only_changes t s2 s3 -> only_changes t s1 s3.
Proof.
  intros V t s1 s2 s3 [N1 H1] [N2 H2]. split; [lia|].
  intros p Hp. rewrite H2, H1; auto.
Qed.

Lemma fresh_ok_only_changes : forall {V} t (s s' : st V),
  fresh_ok s -> mapped s t -> only_changes t s s' -> fresh_ok s'.
Proof.
  intros V t s s' Hf Hm [Hn Hc] p Hp.
  assert (U: cells s p = Unmapped) by (apply Hf; lia).
  rewrite Hc; auto. intros F. apply (Hm p F). auto.
Qed.

Lemma foot_fresh : forall {V} t (s : st V) p, fresh_ok s -> mapped s t -> foot t p -> fst p < nextb s.
Proof.
  intros V t s p Hf Hm Hp. destruct (Z_lt_dec (fst p) (nextb s)); auto.
  exfalso. apply (Hm p Hp). apply Hf. lia.
Qed.

(** Sub-tensors. *)

Lemma tdims_sub : forall t i d ds, tdims t = d :: ds -> tdims (sub t i) = ds.
Proof. intros t i d ds H. simpl. rewrite H. reflexivity. Qed.

Lemma addr_sub : forall t i d ds ix, tdims t = d :: ds -> addr (sub t i) ix = addr t (i :: ix).
Proof.
  intros t i d ds ix H. unfold addr, daddr, sub; simpl. rewrite H. simpl. f_equal. lia.
Qed.

Lemma dims_ok_sub : forall t i, dims_ok t -> dims_ok (sub t i).
Proof. unfold dims_ok. intros t i H. simpl. destruct H; simpl; auto. Qed.

Lemma foot_sub : forall t i d ds p, dims_ok t -> tdims t = d :: ds -> 0 <= i < d ->
  foot (sub t i) p -> foot t p.
Proof.
  intros t i d ds p Hd E Hi Hp. apply foot_addr in Hp; [|apply dims_ok_sub; auto].
  destruct Hp as [ix [Hix ->]]. rewrite (addr_sub _ _ _ _ _ E).
  apply addr_foot. rewrite E. simpl. rewrite (tdims_sub _ _ _ _ E) in Hix. auto.
Qed.

Lemma foot_sub_inj : forall t i j d ds p, dims_ok t -> tdims t = d :: ds -> 0 <= i < d -> 0 <= j < d ->
  foot (sub t i) p -> foot (sub t j) p -> i = j.
Proof.
  intros t i j d ds p Hd E Hi Hj H1 H2.
  apply foot_addr in H1; [|apply dims_ok_sub; auto].
  apply foot_addr in H2; [|apply dims_ok_sub; auto].
  destruct H1 as [ix [Hix ->]], H2 as [iy [Hiy E2]].
  rewrite !(addr_sub _ _ _ _ _ E) in E2.
  rewrite (tdims_sub _ _ _ _ E) in Hix. rewrite (tdims_sub _ _ _ _ E) in Hiy.
  apply addr_inj in E2; [congruence| |]; rewrite E; simpl; auto.
Qed.

Lemma foot_sub_ex : forall t d ds p, dims_ok t -> tdims t = d :: ds ->
  foot t p -> exists i, 0 <= i < d /\ foot (sub t i) p.
Proof.
  intros t d ds p Hd E Hp. apply foot_addr in Hp; auto.
  destruct Hp as [ix [Hix ->]]. rewrite E in Hix. destruct ix as [|i ix]; [destruct Hix|].
  destruct Hix as [Hi Hix]. exists i. split; auto.
  rewrite <- (addr_sub _ _ _ _ _ E). apply addr_foot. rewrite (tdims_sub _ _ _ _ E). auto.
Qed.

Lemma holds_sub : forall {V T} (dt : dtype V T) s t X i d ds, tdims t = d :: ds -> 0 <= i < d ->
  holds dt s t X -> holds dt s (sub t i) (fun ix => X (i :: ix)).
Proof.
  intros V T dt s t X i d ds E Hi H ix Hix. rewrite (addr_sub _ _ _ _ _ E).
  apply H. rewrite E. simpl. rewrite (tdims_sub _ _ _ _ E) in Hix. auto.
Qed.

(** Reshaping. *)

Lemma foot_reshape : forall t ds p, prod ds = size t -> (foot (reshape t ds) p <-> foot t p).
Proof. intros t ds p E. unfold foot, size, daddr; simpl. rewrite E. reflexivity. Qed.

Lemma holds_reshape : forall {V T} (dt : dtype V T) s t X ds,
  dims_ok t -> prod ds = size t -> holds dt s t X ->
  holds dt s (reshape t ds) (fun ix => X (expand (tdims t) (offset ds ix))).
Proof.
  intros V T dt s t X ds Hd E H ix Hix. cbn [tdims reshape] in Hix.
  pose proof (offset_bound _ _ Hix) as B.
  unfold addr, daddr; simpl. rewrite <- (holds_daddr dt s t X (offset ds ix)); auto. lia.
Qed.

Lemma mapped_reshape : forall {V} (s : st V) t ds, prod ds = size t -> mapped s t -> mapped s (reshape t ds).
Proof. intros V s t ds E H p Hp. apply H. apply (foot_reshape t ds p E); auto. Qed.

(** ** Loops *)

Lemma for_app : forall {V A} (l1 l2 : list A) (f : A -> M V unit) s,
  for_ (l1 ++ l2) f s = (for_ l1 f ;;; for_ l2 f) s.
Proof.
  intros V A l1 l2 f. induction l1 as [|a l1 IH]; intros s; simpl; [reflexivity|].
  rewrite bind_assoc. unfold bind at 1 2. destruct (f a s) as [u s'|e s'|]; auto.
Qed.

Lemma for_map : forall {V A B} (g : A -> B) (l : list A) (f : B -> M V unit) s,
  for_ (map g l) f s = for_ l (fun a => f (g a)) s.
Proof.
  intros V A B g l f. induction l as [|a l IH]; intros s; simpl; [reflexivity|].
  unfold bind. destruct (f (g a) s); auto.
Qed.

Lemma for_ext : forall {V A} (l : list A) (f g : A -> M V unit) s,
  (forall a s, In a l -> f a s = g a s) -> for_ l f s = for_ l g s.
Proof.
  intros V A l f g. induction l as [|a l IH]; intros s H; simpl; [reflexivity|].
  unfold bind. rewrite H by (simpl; auto). destruct (g a s); auto.
  apply IH. intros; apply H; simpl; auto.
Qed.

Lemma for_flat_map : forall {V A B} (g : A -> list B) (l : list A) (f : B -> M V unit) s,
  for_ (flat_map g l) f s = for_ l (fun a => for_ (g a) f) s.
Proof.
  intros V A B g l f. induction l as [|a l IH]; intros s; simpl; [reflexivity|].
  rewrite for_app. unfold bind. destruct (for_ (g a) f s); auto.
Qed.

(** Nested loops over a shape are one loop over its indices. *)
Lemma for_indices_cons : forall {V} d ds (f : list Z -> M V unit) s,
  for_ (indices (d :: ds)) f s
  = for_ (zrange d) (fun i => for_ (indices ds) (fun ix => f (i :: ix))) s.
Proof.
  intros V d ds f s. cbn [indices]. rewrite for_flat_map. apply for_ext.
  intros i s' _. apply for_map.
Qed.

Lemma for_indices_nil : forall {V} (f : list Z -> M V unit) s,
  for_ (indices []) f s = f [] s.
Proof.
  intros. cbn. unfold bind, ret. destruct (f [] s) as [[] ?| |]; reflexivity.
Qed.

Lemma for_nest1 : forall {V} a (f : Z -> M V unit) s,
  for_ (zrange a) f s = for_ (indices [a]) (arg1 f) s.
Proof.
  intros. rewrite for_indices_cons. apply for_ext. intros i s' _.
  rewrite for_indices_nil. reflexivity.
Qed.

Lemma for_nest2 : forall {V} a b (f : Z -> Z -> M V unit) s,
  for_ (zrange a) (fun i => for_ (zrange b) (f i)) s = for_ (indices [a; b]) (arg2 f) s.
Proof.
  intros. rewrite for_indices_cons. apply for_ext. intros i s' _.
  rewrite for_nest1. reflexivity.
Qed.

Lemma for_nest3 : forall {V} a b c (f : Z -> Z -> Z -> M V unit) s,
  for_ (zrange a) (fun i => for_ (zrange b) (fun j => for_ (zrange c) (f i j))) s
  = for_ (indices [a; b; c]) (arg3 f) s.
Proof.
  intros. rewrite for_indices_cons. apply for_ext. intros i s' _.
  rewrite for_nest2. reflexivity.
Qed.

Lemma for_nest4 : forall {V} a b c d (f : Z -> Z -> Z -> Z -> M V unit) s,
  for_ (zrange a) (fun i => for_ (zrange b) (fun j => for_ (zrange c) (fun k => for_ (zrange d) (f i j k)))) s
  = for_ (indices [a; b; c; d]) (arg4 f) s.
Proof.
  intros. rewrite for_indices_cons. apply for_ext. intros i s' _.
  rewrite for_nest3. reflexivity.
Qed.

Lemma for_nest5 : forall {V} a b c d e (f : Z -> Z -> Z -> Z -> Z -> M V unit) s,
  for_ (zrange a) (fun i => for_ (zrange b) (fun j => for_ (zrange c) (fun k =>
    for_ (zrange d) (fun l => for_ (zrange e) (f i j k l))))) s
  = for_ (indices [a; b; c; d; e]) (arg5 f) s.
Proof.
  intros. rewrite for_indices_cons. apply for_ext. intros i s' _.
  rewrite for_nest4. reflexivity.
Qed.

(** Master lemma: every iteration fills its own region, regions are disjoint,
    and an iteration may rely on all cells outside the other regions. *)
Lemma for_blocks : forall {V A} (l : list A) (f : A -> M V unit)
    (W : A -> loc -> Prop) (Q : A -> (loc -> cell V) -> Prop) (s : st V),
  NoDup l ->
  (forall a b p, In a l -> In b l -> W a p -> W b p -> a = b) ->
  (forall a c1 c2, In a l -> (forall p, W a p -> c1 p = c2 p) -> Q a c1 -> Q a c2) ->
  (forall a s', In a l -> nextb s <= nextb s' ->
     (forall p, (forall b, In b l -> ~ W b p) -> cells s' p = cells s p) ->
     (forall p, W a p -> cells s' p = cells s p) ->
     exists s'', f a s' = Ok tt s'' /\ nextb s' <= nextb s'' /\ Q a (cells s'') /\
                 (forall p, ~ W a p -> cells s'' p = cells s' p)) ->
  exists s', for_ l f s = Ok tt s' /\ nextb s <= nextb s' /\
     (forall a, In a l -> Q a (cells s')) /\
     (forall p, (forall a, In a l -> ~ W a p) -> cells s' p = cells s p).
Proof.
  intros V A l f W Q s Hnd Hdis HQ Hstep.
  assert (G: forall l1 l2 s1, l = l1 ++ l2 -> nextb s <= nextb s1 ->
    (forall p, (forall b, In b l -> ~ W b p) -> cells s1 p = cells s p) ->
    (forall a p, In a l2 -> W a p -> cells s1 p = cells s p) ->
    (forall a, In a l1 -> Q a (cells s1)) ->
    exists s', for_ l2 f s1 = Ok tt s' /\ nextb s <= nextb s' /\
     (forall a, In a l -> Q a (cells s')) /\
     (forall p, (forall a, In a l -> ~ W a p) -> cells s' p = cells s p)).
  { intros l1 l2. revert l1. induction l2 as [|a l2 IH]; intros l1 s1 El Hn Hout Hin HQ1.
    - exists s1. rewrite app_nil_r in El. subst l1. repeat split; auto.
    - assert (Ia: In a l) by (rewrite El; apply in_or_app; simpl; auto).
      destruct (Hstep a s1) as [s2 [E2 [N2 [Q2 F2]]]]; auto.
      { intros p Hp. apply (Hin a); simpl; auto. }
      simpl. rewrite (bind_ok _ _ _ _ _ E2).
      apply (IH (l1 ++ [a])).
      + rewrite <- app_assoc. exact El.
      + lia.
      + intros p Hp. rewrite F2; auto.
      + intros b p Hb Wb. rewrite F2.
        * apply (Hin b); simpl; auto.
        * intros Wa. assert (Ib: In b l) by (rewrite El; apply in_or_app; simpl; auto).
          assert (a = b) by eauto. subst b.
          rewrite El in Hnd. apply NoDup_remove_2 in Hnd. apply Hnd. apply in_or_app; auto.
      + intros b Hb. apply in_app_or in Hb. destruct Hb as [Hb|[<-|[]]]; auto.
        assert (Ib: In b l) by (rewrite El; apply in_or_app; simpl; auto).
        apply (HQ b (cells s1)); auto. intros p Wb. symmetry. apply F2. intros Wa.
        assert (a = b) by eauto. subst b.
        rewrite El in Hnd. apply NoDup_remove_2 in Hnd. apply Hnd. apply in_or_app; auto. }
  apply (G [] l s); auto.
  - lia.
  - intros a [].
Qed.

(** One store per iteration, at distinct addresses. *)
Lemma for_assign : forall {V A} (l : list A) (f : A -> M V unit) (ad : A -> loc) (g : A -> V) (s : st V),
  NoDup l ->
  (forall a b, In a l -> In b l -> ad a = ad b -> a = b) ->
  (forall a s', In a l -> nextb s <= nextb s' ->
     (forall p, (forall b, In b l -> p <> ad b) -> cells s' p = cells s p) ->
     cells s' (ad a) = cells s (ad a) ->
     f a s' = Ok tt (upd s' (ad a) (g a))) ->
  exists s', for_ l f s = Ok tt s' /\ nextb s <= nextb s' /\
     (forall a, In a l -> cells s' (ad a) = Init (g a)) /\
     (forall p, (forall a, In a l -> p <> ad a) -> cells s' p = cells s p).
Proof.
  intros V A l f ad g s Hnd Hinj Hstep.
  destruct (for_blocks l f (fun a p => p = ad a) (fun a c => c (ad a) = Init (g a)) s)
    as [s' [E [N [Q F]]]]; auto.
  - intros a b p Ha Hb -> E. auto.
  - intros a c1 c2 Ha E Q. rewrite <- E; auto.
  - intros a s' Ha Hn Hout Hin. exists (upd s' (ad a) (g a)). repeat split.
    + apply Hstep; auto.
    + simpl; lia.
    + apply cells_upd_same.
    + intros p Hp. apply cells_upd_other; auto.
  - exists s'. repeat split; auto.
Qed.

Definition opt_loc_is (o : option loc) (p : loc) : bool :=
  match o with Some q => loc_eqb q p | None => false end.

(** Read-modify-write loops: each iteration updates at most one cell from its
    current value. *)
Lemma for_accum : forall {V T A} (dt : dtype V T) (l : list A) (f : A -> M V unit)
    (ad : A -> option loc) (h : A -> T -> T) (v0 : loc -> T) (s : st V),
  (forall a p, In a l -> ad a = Some p -> cells s p = Init (emb dt (v0 p))) ->
  (forall a s', In a l -> nextb s' = nextb s ->
     (forall p, (forall b, In b l -> ad b <> Some p) -> cells s' p = cells s p) ->
     match ad a with
     | None => f a s' = Ok tt s'
     | Some p => forall v, cells s' p = Init (emb dt v) ->
                 f a s' = Ok tt (upd s' p (emb dt (h a v)))
     end) ->
  exists s', for_ l f s = Ok tt s' /\ nextb s' = nextb s /\
     (forall a p, In a l -> ad a = Some p ->
        cells s' p = Init (emb dt (fold_left (fun v b => h b v)
                             (filter (fun b => opt_loc_is (ad b) p) l) (v0 p)))) /\
     (forall p, (forall a, In a l -> ad a <> Some p) -> cells s' p = cells s p).
Proof.
  intros V T A dt l f ad h v0 s Hinit Hstep.
  assert (G: forall l1 l2 s1, l = l1 ++ l2 -> nextb s1 = nextb s ->
    (forall p, (forall b, In b l -> ad b <> Some p) -> cells s1 p = cells s p) ->
    (forall a p, In a l -> ad a = Some p ->
        cells s1 p = Init (emb dt (fold_left (fun v b => h b v)
                             (filter (fun b => opt_loc_is (ad b) p) l1) (v0 p)))) ->
    exists s', for_ l2 f s1 = Ok tt s' /\ nextb s' = nextb s /\
     (forall a p, In a l -> ad a = Some p ->
        cells s' p = Init (emb dt (fold_left (fun v b => h b v)
                             (filter (fun b => opt_loc_is (ad b) p) l) (v0 p)))) /\
     (forall p, (forall a, In a l -> ad a <> Some p) -> cells s' p = cells s p)).
  { intros l1 l2. revert l1. induction l2 as [|a l2 IH]; intros l1 s1 El Hn Hout Hin.
    - exists s1. rewrite app_nil_r in El. subst l1. repeat split; auto.
    - assert (Ia: In a l) by (rewrite El; apply in_or_app; simpl; auto).
      pose proof (Hstep a s1 Ia Hn Hout) as St.
      destruct (ad a) as [p|] eqn:Ea.
      + pose proof (Hin a p Ia Ea) as Hv. specialize (St _ Hv).
        simpl. rewrite (bind_ok _ _ _ _ _ St). apply (IH (l1 ++ [a])).
        * rewrite <- app_assoc. exact El.
        * simpl; auto.
        * intros q Hq. rewrite cells_upd_other; auto. intros ->. apply (Hq a); auto.
        * intros b q Ib Eb. rewrite filter_app, fold_left_app. cbn [filter]. rewrite Ea. cbn [opt_loc_is].
          destruct (loc_eqb_spec p q) as [->|Hpq].
          -- rewrite cells_upd_same. simpl. reflexivity.
          -- rewrite cells_upd_other by auto. simpl. eauto.
      + simpl. rewrite (bind_ok _ _ _ _ _ St). apply (IH (l1 ++ [a])); auto.
        * rewrite <- app_assoc. exact El.
        * intros b q Ib Eb. rewrite filter_app, fold_left_app. cbn [filter]. rewrite Ea. simpl. eauto. }
  apply (G [] l s); auto.
Qed.

(** A loop that only reads. *)
Lemma foldM_pure : forall {V A B} (l : list A) (f : B -> A -> M V B) (g : B -> A -> B) (s : st V) b,
  (forall b a, In a l -> f b a s = Ok (g b a) s) ->
  foldM l f b s = Ok (fold_left g l b) s.
Proof.
  intros V A B l f g s. induction l as [|a l IH]; intros b H; simpl; [reflexivity|].
  rewrite (bind_ok _ _ _ (g b a) s) by (apply H; simpl; auto).
  apply IH. intros; apply H; simpl; auto.
Qed.

(** The first iteration that throws decides. *)
Lemma for_unit_ret : forall {V A} (l : list A) (f : A -> M V unit) s,
  (forall a s, In a l -> f a s = Ok tt s) -> for_ l f s = Ok tt s.
Proof.
  intros V A l f s H. induction l as [|a l IH]; simpl; [reflexivity|].
  rewrite (bind_ok _ _ _ tt s) by (apply H; simpl; auto).
  apply IH. intros; apply H; simpl; auto.
Qed.

(** [ttl::fill]. *)
Lemma fill_writes : forall {V T} (dt : dtype V T) t x s,
  mapped s t -> 
  exists s', fill dt t x s = Ok tt s' /\ nextb s' = nextb s /\
    (forall o, 0 <= o < size t -> cells s' (daddr t o) = Init (emb dt x)) /\
    (forall p, ~ foot t p -> cells s' p = cells s p).
Proof.
  intros V T dt t x s Hm. unfold fill.
  assert (G : forall n, 0 <= n -> n <= size t -> exists s', for_ (zrange n) (fun i => store dt (daddr t i) x) s = Ok tt s'
    /\ nextb s' = nextb s /\
    (forall o, 0 <= o < n -> cells s' (daddr t o) = Init (emb dt x)) /\
    (forall p, (forall o, 0 <= o < n -> p <> daddr t o) -> cells s' p = cells s p)).
  { refine (Z_nonneg_ind _ _ _).
    - intros _. exists s. repeat split; auto. intros; lia.
    - intros n Hn IH Hs. destruct IH as [s1 [E1 [N1 [C1 F1]]]]; [lia|].
      rewrite zrange_succ by lia. rewrite for_app, (bind_ok _ _ _ _ _ E1). simpl.
      assert (Hc : cells s1 (daddr t n) <> Unmapped).
      { rewrite F1. { apply Hm. apply daddr_foot. lia. }
        intros o Ho E. apply daddr_inj in E. lia. }
      rewrite (bind_ok _ _ _ _ _ (store_ok dt s1 _ x Hc)).
      exists (upd s1 (daddr t n) (emb dt x)). repeat split; auto.
      + intros o Ho. destruct (Z.eq_dec o n) as [->|].
        * apply cells_upd_same.
        * rewrite cells_upd_other. { apply C1; lia. } intros E. apply daddr_inj in E. lia.
      + intros p Hp. rewrite cells_upd_other. { apply F1. intros; apply Hp; lia. }
        apply Hp. lia. }
  destruct (Z_le_dec 0 (size t)) as [Hs|Hs].
  - destruct (G (size t)) as [s' [E [N [C F]]]]; [lia|lia|].
    exists s'. repeat split; auto. intros p Hp. apply F. intros o Ho ->. apply Hp. apply daddr_foot; auto.
  - exists s. rewrite zrange_nonpos by lia. repeat split; auto. intros; lia.
Qed.

Lemma fill_holds : forall {V T} (dt : dtype V T) t x s,
  dims_ok t -> mapped s t -> 
  exists s', fill dt t x s = Ok tt s' /\ nextb s' = nextb s /\
    holds dt s' t (fun _ => x) /\ (forall p, ~ foot t p -> cells s' p = cells s p).
Proof.
  intros V T dt t x s Hd Hm. destruct (fill_writes dt t x s Hm) as [s' [E [N [C F]]]].
  exists s'. repeat split; auto. intros ix Hix. apply C. apply offset_bound; auto.
Qed.

(** Temporaries. *)
Lemma with_tensor_ok : forall {V A} (ds : list Z) (body : tensor -> M V A) (s : st V) (a : A)
   (R : st V -> Prop) (t : tensor),
  nonneg ds -> fresh_ok s -> mapped s t ->
  (forall b s1, b = nextb s -> nextb s1 = nextb s + 1 -> fresh_ok s1 ->
     (forall p, fst p <> b -> cells s1 p = cells s p) ->
     mapped s1 (mktensor b 0 ds) ->
     exists s2, body (mktensor b 0 ds) s1 = Ok a s2 /\ nextb s1 <= nextb s2 /\
        (forall p, fst p <> b -> ~ foot t p -> cells s2 p = cells s1 p) /\ 
        (forall s3, (forall p, fst p <> b -> cells s3 p = cells s2 p) -> R s3)) ->
  exists s', with_tensor ds body s = Ok a s' /\ R s' /\ only_changes t s s'.
Proof.
  intros V A ds body s a R t Hds Hf Hm Hb.
  set (s1 := mkst (fun q => if (fst q =? nextb s) && (0 <=? snd q) && (snd q <? prod ds)
                            then Uninit else cells s q) (nextb s + 1)).
  assert (F1: fresh_ok s1).
  { intros p Hp. subst s1. simpl in *. replace (fst p =? nextb s) with false by lia. simpl.
    apply Hf. lia. }
  destruct (Hb (nextb s) s1) as [s2 [E2 [N2 [C2 R2]]]]; auto.
  { intros p Hp. subst s1. simpl. replace (fst p =? nextb s) with false by lia. reflexivity. }
  { intros p [o [Ho ->]]. subst s1. unfold size in Ho. simpl in *.
    replace ((nextb s =? nextb s) && (0 <=? o) && (o <? prod ds)) with true by lia. congruence. }
  exists (dealloc (nextb s) s2). unfold with_tensor, with_temp, alloc. fold s1. rewrite E2.
  split; [reflexivity|]. split.
  - apply R2. intros p Hp. simpl. replace (fst p =? nextb s) with false by lia. reflexivity.
  - split; [subst s1; simpl in *; lia|]. intros p Hp. simpl.
    destruct (Z.eqb_spec (fst p) (nextb s)) as [E|E].
    + symmetry. apply Hf. lia.
    + rewrite C2 by auto. subst s1. simpl. replace (fst p =? nextb s) with false by lia. reflexivity.
Qed.

Definition dt_id (T : Type) : dtype T T := mkdtype T T (fun x => x) Some (fun _ => eq_refl).
Definition dt_inl (A B : Type) : dtype (A + B) A :=
  mkdtype (A + B) A inl (fun v => match v with inl a => Some a | _ => None end) (fun _ => eq_refl).
Definition dt_inr (A B : Type) : dtype (A + B) B :=
  mkdtype (A + B) B inr (fun v => match v with inr b => Some b | _ => None end) (fun _ => eq_refl).

(** ** Loops that fill a tensor *)

(** The iteration space [l] is in bijection with the indices of [z] via [pi]. *)
Lemma writes_loop_perm : forall {V T A} (dt : dtype V T) (z : tensor) (l : list A) (pi : A -> list Z)
    (f : A -> M V unit) (X : list Z -> T) (s : st V),
  dims_ok z -> NoDup l ->
  (forall a, In a l -> valid (tdims z) (pi a)) ->
  (forall a b, In a l -> In b l -> pi a = pi b -> a = b) ->
  (forall ix, valid (tdims z) ix -> exists a, In a l /\ pi a = ix) ->
  (forall a s', In a l -> nextb s <= nextb s' ->
     (forall p, ~ foot z p -> cells s' p = cells s p) ->
     cells s' (addr z (pi a)) = cells s (addr z (pi a)) ->
     f a s' = Ok tt (upd s' (addr z (pi a)) (emb dt (X (pi a))))) ->
  writes dt (for_ l f) s z X.
Proof.
  intros V T A dt z l pi f X s Hd Hnd Hval Hinj Hsur Hstep.
  destruct (for_assign l f (fun a => addr z (pi a)) (fun a => emb dt (X (pi a))) s)
    as [s' [E [N [C F]]]]; auto.
  - intros a b Ha Hb E. apply Hinj; auto. apply addr_inj with (t := z); auto.
  - intros a s' Ha Hn Hout Hown. apply Hstep; auto.
    intros p Hp. apply Hout. intros b Hb ->. apply Hp. apply addr_foot. auto.
  - exists s'. split; [exact E|]. split; [|split; [exact N|]].
    + intros ix Hix. destruct (Hsur ix Hix) as [a [Ha <-]]. apply C; auto.
    + intros p Hp. apply F. intros a Ha ->. apply Hp. apply addr_foot. auto.
Qed.

Lemma writes_loop : forall {V T} (dt : dtype V T) (z : tensor) (f : list Z -> M V unit)
    (X : list Z -> T) (s : st V),
  dims_ok z ->
  (forall ix s', valid (tdims z) ix -> nextb s <= nextb s' ->
     (forall p, ~ foot z p -> cells s' p = cells s p) ->
     cells s' (addr z ix) = cells s (addr z ix) ->
     f ix s' = Ok tt (upd s' (addr z ix) (emb dt (X ix)))) ->
  writes dt (for_ (indices (tdims z)) f) s z X.
Proof.
  intros V T dt z f X s Hd Hstep.
  apply writes_loop_perm with (pi := fun ix => ix); auto.
  - apply NoDup_indices; auto.
  - intros a Ha. apply in_indices; auto.
  - intros ix Hix. exists ix. rewrite in_indices. auto.
  - intros a s' Ha. apply Hstep. apply in_indices; auto.
Qed.

(** A loop over flat offsets. *)
Lemma writes_loop_flat : forall {V T} (dt : dtype V T) (z : tensor) (f : Z -> M V unit)
    (X : list Z -> T) (s : st V),
  dims_ok z ->
  (forall o s', 0 <= o < size z -> nextb s <= nextb s' ->
     (forall p, ~ foot z p -> cells s' p = cells s p) ->
     cells s' (daddr z o) = cells s (daddr z o) ->
     f o s' = Ok tt (upd s' (daddr z o) (emb dt (X (expand (tdims z) o))))) ->
  writes dt (for_ (zrange (size z)) f) s z X.
Proof.
  intros V T dt z f X s Hd Hstep.
  apply writes_loop_perm with (pi := expand (tdims z)); auto.
  - apply NoDup_zrange.
  - intros a Ha. apply in_zrange in Ha. apply valid_expand; auto.
  - intros a b Ha Hb E. apply in_zrange in Ha. apply in_zrange in Hb.
    rewrite <- (offset_expand (tdims z) a), <- (offset_expand (tdims z) b) by auto. congruence.
  - intros ix Hix. exists (offset (tdims z) ix). split; [|apply expand_offset; auto].
    apply in_zrange. apply offset_bound; auto.
  - intros a s' Ha Hn Hout Hown. apply in_zrange in Ha.
    unfold addr in *. rewrite offset_expand in * by auto. apply Hstep; auto.
Qed.

(** One sub-tensor per iteration. *)
Lemma writes_rows : forall {V T} (dt : dtype V T) (z : tensor) d ds (f : Z -> M V unit)
    (X : list Z -> T) (s : st V),
  dims_ok z -> tdims z = d :: ds ->
  (forall i s', 0 <= i < d -> nextb s <= nextb s' ->
     (forall p, ~ foot z p -> cells s' p = cells s p) ->
     (forall p, foot (sub z i) p -> cells s' p = cells s p) ->
     writes dt (f i) s' (sub z i) (fun ix => X (i :: ix))) ->
  writes dt (for_ (zrange d) f) s z X.
Proof.
  intros V T dt z d ds f X s Hd Ed Hstep.
  destruct (for_blocks (zrange d) f (fun i p => foot (sub z i) p)
     (fun i c => forall ix, valid ds ix -> c (addr (sub z i) ix) = Init (emb dt (X (i :: ix)))) s)
    as [s' [E [N [C F]]]].
  - apply NoDup_zrange.
  - intros a b p Ha Hb. apply in_zrange in Ha. apply in_zrange in Hb.
    apply foot_sub_inj with (d := d) (ds := ds); auto.
  - intros a c1 c2 Ha E Q ix Hix. rewrite <- E; auto. apply addr_foot.
    rewrite (tdims_sub _ _ _ _ Ed). auto.
  - intros a s' Ha Hn Hout Hown. apply in_zrange in Ha.
    destruct (Hstep a s') as [s2 [E2 [H2 [N2 F2]]]]; auto.
    + intros p Hp. apply Hout. intros b Hb Hp2. apply in_zrange in Hb. apply Hp.
      eapply foot_sub; eauto.
    + exists s2. repeat split; auto. intros ix Hix. apply H2.
      rewrite (tdims_sub _ _ _ _ Ed). auto.
  - exists s'. split; [exact E|]. split; [|split; [exact N|]].
    + intros ix Hix. rewrite Ed in Hix. destruct ix as [|i ix]; [destruct Hix|]. destruct Hix as [Hi Hix].
      rewrite <- (addr_sub _ _ _ _ _ Ed). apply C; auto. apply in_zrange; auto.
    + intros p Hp. apply F. intros i Hi Hf. apply in_zrange in Hi. apply Hp.
      eapply foot_sub; eauto.
Qed.

Lemma writes_ext : forall {V T} (dt : dtype V T) m m' s z (X Y : list Z -> T),
  (m s = m' s) -> (forall ix, valid (tdims z) ix -> X ix = Y ix) ->
  writes dt m s z X -> writes dt m' s z Y.
Proof.
  intros V T dt m m' s z X Y Em EX [s' [E [H O]]]. exists s'. rewrite <- Em.
  split; [exact E|]. split; [|exact O]. eapply holds_ext; eauto.
Qed.

(** Writing through a reshaped reference. *)
Lemma writes_reshape : forall {V T} (dt : dtype V T) m s z ds (X Y : list Z -> T),
  dims_ok z -> prod ds = size z ->
  (forall ix, valid (tdims z) ix -> Y ix = X (expand ds (offset (tdims z) ix))) ->
  nonneg ds ->
  writes dt m s (reshape z ds) X -> writes dt m s z Y.
Proof.
  intros V T dt m s z ds X Y Hd Ep EY Hn [s' [E [H [N F]]]]. exists s'.
  split; [exact E|]. split; [|split; [exact N|]].
  - intros ix Hix. rewrite EY by auto. 
    pose proof (offset_bound _ _ Hix) as B. fold (size z) in B. rewrite <- Ep in B.
    rewrite <- (H (expand ds (offset (tdims z) ix))) by (apply valid_expand; auto).
    unfold addr, daddr; simpl. rewrite offset_expand by auto. reflexivity.
  - intros p Hp. apply F. intros Hp2. apply Hp. apply (foot_reshape z ds p Ep); auto.
Qed.

(** Inversion of index tuples of known length. *)
Lemma valid_1 : forall a ix, valid [a] ix -> exists i, ix = [i] /\ 0 <= i < a.
Proof. intros a [|i [|]] H; simpl in H; try tauto. exists i. tauto. Qed.
Lemma valid_2 : forall a b ix, valid [a; b] ix -> exists i j, ix = [i; j] /\ 0 <= i < a /\ 0 <= j < b.
Proof. intros a b [|i [|j [|]]] H; simpl in H; try tauto. exists i, j. tauto. Qed.
Lemma valid_3 : forall a b c ix, valid [a; b; c] ix ->
  exists i j k, ix = [i; j; k] /\ 0 <= i < a /\ 0 <= j < b /\ 0 <= k < c.
Proof. intros a b c [|i [|j [|k [|]]]] H; simpl in H; try tauto. exists i, j, k. tauto. Qed.
Lemma valid_4 : forall a b c d ix, valid [a; b; c; d] ix ->
  exists i j k l, ix = [i; j; k; l] /\ 0 <= i < a /\ 0 <= j < b /\ 0 <= k < c /\ 0 <= l < d.
Proof. intros a b c d [|i [|j [|k [|l [|]]]]] H; simpl in H; try tauto. exists i, j, k, l. tauto. Qed.
Lemma valid_5 : forall a b c d e ix, valid [a; b; c; d; e] ix ->
  exists i j k l m, ix = [i; j; k; l; m] /\ 0 <= i < a /\ 0 <= j < b /\ 0 <= k < c /\ 0 <= l < d /\ 0 <= m < e.
Proof. intros a b c d e [|i [|j [|k [|l [|m [|]]]]]] H; simpl in H; try tauto. exists i, j, k, l, m. tauto. Qed.
Lemma valid_6 : forall a b c d e f ix, valid [a; b; c; d; e; f] ix ->
  exists i j k l m n, ix = [i; j; k; l; m; n] /\ 0 <= i < a /\ 0 <= j < b /\ 0 <= k < c /\ 0 <= l < d /\ 0 <= m < e /\ 0 <= n < f.
Proof. intros a b c d e f [|i [|j [|k [|l [|m [|n [|]]]]]]] H; simpl in H; try tauto. exists i, j, k, l, m, n. tauto. Qed.

(** Invariant rule for counted loops. *)
Lemma for_range_inv : forall {V} n (f : Z -> M V unit) (I : Z -> st V -> Prop) s,
  0 <= n -> I 0 s ->
  (forall k s', 0 <= k < n -> I k s' -> exists s'', f k s' = Ok tt s'' /\ I (k + 1) s'') ->
  exists s', for_ (zrange n) f s = Ok tt s' /\ I n s'.
Proof.
  intros V n f I s Hn H0 Hstep.
  assert (G : forall m, 0 <= m -> m <= n -> exists s', for_ (zrange m) f s = Ok tt s' /\ I m s').
  { refine (Z_nonneg_ind _ _ _).
    - intros _. exists s. auto.
    - intros m Hm IH Hmn. destruct IH as [s1 [E1 I1]]; [lia|].
      destruct (Hstep m s1) as [s2 [E2 I2]]; [lia|auto|].
      exists s2. split; auto. rewrite zrange_succ by lia. rewrite for_app, (bind_ok _ _ _ _ _ E1).
      cbn [for_]. rewrite (bind_ok _ _ _ _ _ E2). reflexivity. }
  apply G; lia.
Qed.

Lemma at_ok : forall {V T} (dt : dtype V T) s t X ix,
  holds dt s t X -> valid (tdims t) ix -> at_ dt t ix s = Ok (X ix) s.
Proof. intros V T dt s t X ix H Hix. apply load_ok. apply H; auto. Qed.

Lemma at_frame : forall {V T} (dt : dtype V T) s s' t z X ix,
  holds dt s t X -> (forall p, ~ foot z p -> cells s' p = cells s p) -> disjoint z t ->
  valid (tdims t) ix -> at_ dt t ix s' = Ok (X ix) s'.
Proof.
  intros V T dt s s' t z X ix H F D Hix. apply load_ok. rewrite F.
  - apply H; auto.
  - intros Hz. apply (D _ Hz). apply addr_foot; auto.
Qed.

Lemma holds_frame_disj : forall {V T} (dt : dtype V T) s s' t z (X : list Z -> T),
  holds dt s t X -> (forall p, ~ foot z p -> cells s' p = cells s p) -> disjoint z t ->
  holds dt s' t X.
Proof.
  intros V T dt s s' t z X H F D. eapply holds_frame; [|exact H].
  intros p Hp. apply F. intros Hz. exact (D _ Hz Hp).
Qed.

Lemma set_ok : forall {V T} (dt : dtype V T) s t ix x,
  cells s (addr t ix) <> Unmapped -> set_ dt t ix x s = Ok tt (upd s (addr t ix) (emb dt x)).
Proof. intros. apply store_ok. auto. Qed.

Lemma mapped_addr : forall {V} (s : st V) t ix,
  mapped s t -> valid (tdims t) ix -> cells s (addr t ix) <> Unmapped.
Proof. intros V s t ix H Hix. apply H. apply addr_foot. auto. Qed.

Lemma writes_seq_fill : forall {V T} (dt : dtype V T) z x (m : M V unit) (X : list Z -> T) s,
  dims_ok z -> mapped s z ->
  (forall s', nextb s <= nextb s' -> holds dt s' z (fun _ => x) ->
     (forall p, ~ foot z p -> cells s' p = cells s p) -> writes dt m s' z X) ->
  writes dt (fill dt z x ;;; m) s z X.
Proof.
  intros V T dt z x m X s Hd Hm H.
  destruct (fill_holds dt z x s Hd Hm) as [s1 [E1 [N1 [H1 F1]]]].
  destruct (H s1) as [s2 [E2 [H2 [N2 F2]]]]; auto; [lia|].
  exists s2. rewrite (bind_ok _ _ _ _ _ E1). split; [exact E2|]. split; [exact H2|].
  split; [lia|]. intros p Hp. rewrite F2, F1; auto.
Qed.

(** Computations that never throw. *)
Definition nothrow {V A} (m : M V A) : Prop := forall s e s', m s <> Throw e s'.

Lemma nothrow_ret : forall {V A} (a : A), nothrow (V := V) (ret a).
Proof. unfold nothrow, ret. congruence. Qed.
Lemma nothrow_load : forall {V T} (dt : dtype V T) p, nothrow (load dt p).
Proof. intros V T dt p s e s'. unfold load. destruct (cells s p); try congruence. destruct (prj dt v); congruence. Qed.
Lemma nothrow_store : forall {V T} (dt : dtype V T) p x, nothrow (store dt p x).
Proof. intros V T dt p x s e s'. unfold store. destruct (cells s p); congruence. Qed.
Lemma nothrow_bind : forall {V A B} (m : M V A) (k : A -> M V B),
  nothrow m -> (forall a, nothrow (k a)) -> nothrow (bind m k).
Proof.
  intros V A B m k H1 H2 s e s'. unfold bind. destruct (m s) eqn:E; try congruence; [apply H2|].
  exfalso; eapply H1; eauto.
Qed.
Lemma nothrow_for : forall {V A} (l : list A) (f : A -> M V unit),
  (forall a, nothrow (f a)) -> nothrow (for_ l f).
Proof.
  intros V A l f H. induction l; simpl; [apply nothrow_ret|]. apply nothrow_bind; auto.
Qed.
Lemma nothrow_foldM : forall {V A B} (l : list A) (f : B -> A -> M V B) b,
  (forall b a, nothrow (f b a)) -> nothrow (foldM l f b).
Proof.
  intros V A B l f b H. revert b. induction l; intros b; simpl; [apply nothrow_ret|]. apply nothrow_bind; auto.
Qed.
Lemma nothrow_fill : forall {V T} (dt : dtype V T) t x, nothrow (fill dt t x).
Proof. intros. apply nothrow_for. intros. apply nothrow_store. Qed.

Ltac nothrow := repeat first
  [ apply nothrow_fill | apply nothrow_load | apply nothrow_store | apply nothrow_ret
  | apply nothrow_bind; [|intros ?] | apply nothrow_for; intros ? | apply nothrow_foldM; intros ? ? ].
