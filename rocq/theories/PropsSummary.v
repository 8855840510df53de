(** Properties C42 (mean), C43, C44: reductions and summaries. *)
From Coq Require Import ZArith List Bool Lia ZifyBool Reals Lra.
From Verif Require Import Base BaseFacts TensorFacts Traits Scalar RealScalar LinAlgFacts SumFacts Pool PoolSpec PoolFacts
  ActivationSpec SoftmaxFacts Summary SummaryFacts Demo.
Import ListNotations.
Open Scope Z_scope.
Open Scope model_scope.

(** *** C42: mean over the last axis, tensors of any rank. *)
Theorem C42_mean : forall V T (dt : dtype V T) sc div_n y x ds n X Q s,
  tdims x = ds ++ [n] -> tdims y = ds -> dims_ok x ->
  holds dt s x X -> mapped s y -> disjoint y x ->
  (forall ix, valid ds ix -> div_n (sum_over sc (zrange n) (row X ix)) n = Ret (Q ix)) ->
  writes dt (op_mean dt sc div_n (length ds) y x) s y Q.
Proof. intros V T dt sc div_n y x ds n X Q s. intros. eapply op_mean_writes; eauto. Qed.

Theorem C42_mean_real : forall V (dt : dtype V R) y x ds n X s,
  tdims x = ds ++ [n] -> tdims y = ds -> dims_ok x -> 1 <= n ->
  holds dt s x X -> mapped s y -> disjoint y x ->
  writes dt (op_mean dt Rsc (div_float Rsc) (length ds) y x) s y (fun ix => rsum n (row X ix) / IZR n)%R.
Proof.
  intros V dt y x ds n X s. intros. eapply C42_mean; eauto. intros ix Hv. apply Rdiv_ok. cbn.
  apply not_0_IZR. lia.
Qed.

Example C42_mean_example :
  run (op_mean zt Zsc div_i32 2 (T_ 1 [2; 1]) (T_ 0 [2; 1; 3])) (demo [[1; 2; 6; 10; 20; 30]; [0; 0]]) (T_ 1 [2])
    = Some (inits [3; 20]).
Proof. reflexivity. Qed.

(** *** C43: summaries. *)

Lemma in_elems : forall T t (X : list Z -> T) v, dims_ok t ->
  (In v (elems t X) <-> exists ix, valid (tdims t) ix /\ v = X ix).
Proof.
  intros T t X v D. unfold elems. rewrite in_map_iff. split.
  - intros (ix & <- & I). apply in_indices in I. eauto.
  - intros (ix & I & ->). exists ix. split; auto. apply in_indices; auto.
Qed.

Lemma greatest_elems : forall T t (X : list Z -> T) lt v, dims_ok t -> greatest lt (elems t X) v ->
  (exists ix, valid (tdims t) ix /\ v = X ix) /\ forall ix, valid (tdims t) ix -> lt v (X ix) = false.
Proof.
  intros T t X lt v D (I & G). split; [apply in_elems; auto|].
  intros ix Hix. apply G. apply in_elems; eauto.
Qed.

(** min and max: an element that no element is below / above. *)
Theorem C43_min : forall V T (dt : dtype V T) sc dom x X s,
  dims_ok x -> 1 <= size x -> holds dt s x X -> weak_order dom (sltb sc) ->
  (forall ix, valid (tdims x) ix -> dom (X ix)) ->
  exists v, s_min dt sc x s = Ok v s /\
    (exists ix, valid (tdims x) ix /\ v = X ix) /\ (forall ix, valid (tdims x) ix -> sltb sc (X ix) v = false).
Proof.
  intros V T dt sc dom x X s D Hn H SO HD. destruct (s_min_ok dt sc dom x X s D H Hn SO HD) as (v & E & G).
  exists v. split; auto. exact (greatest_elems _ _ _ _ _ D G).
Qed.

Theorem C43_max : forall V T (dt : dtype V T) sc dom x X s,
  dims_ok x -> 1 <= size x -> holds dt s x X -> weak_order dom (sltb sc) ->
  (forall ix, valid (tdims x) ix -> dom (X ix)) ->
  exists v, s_max dt sc x s = Ok v s /\
    (exists ix, valid (tdims x) ix /\ v = X ix) /\ (forall ix, valid (tdims x) ix -> sltb sc v (X ix) = false).
Proof.
  intros V T dt sc dom x X s D Hn H SO HD. destruct (s_max_ok dt sc dom x X s D H Hn SO HD) as (v & E & G).
  exists v. split; auto. exact (greatest_elems _ _ _ _ _ D G).
Qed.

(** span: a greatest element minus a least element; when no two different
    elements are equivalent, max minus min. *)
Theorem C43_span : forall V T (dt : dtype V T) sc dom x X s,
  dims_ok x -> 1 <= size x -> holds dt s x X -> weak_order dom (sltb sc) ->
  (forall ix, valid (tdims x) ix -> dom (X ix)) ->
  exists a b, valid (tdims x) a /\ valid (tdims x) b /\ s_span dt sc x s = Ok (ssub sc (X b) (X a)) s /\
    (forall ix, valid (tdims x) ix -> sltb sc (X ix) (X a) = false /\ sltb sc (X b) (X ix) = false) /\
    ((forall u v, dom u -> dom v -> sltb sc u v = false -> sltb sc v u = false -> u = v) ->
     s_min dt sc x s = Ok (X a) s /\ s_max dt sc x s = Ok (X b) s).
Proof.
  intros V T dt sc dom x X s D Hn H SO HD.
  destruct (s_span_ok dt sc dom x X s D H Hn SO HD) as (a & b & E & Ga & Gb).
  destruct (greatest_elems _ _ _ _ _ D Ga) as ((ia & Va & ->) & La).
  destruct (greatest_elems _ _ _ _ _ D Gb) as ((ib & Vb & ->) & Lb).
  exists ia, ib. split; [auto|]. split; [auto|]. split; [exact E|]. split; [intros ix Hix; split; [apply La|apply Lb]; auto|].
  intros Tot.
  destruct (s_min_ok dt sc dom x X s D H Hn SO HD) as (a' & Ea & Ga').
  destruct (s_max_ok dt sc dom x X s D H Hn SO HD) as (b' & Eb & Gb').
  destruct (greatest_elems _ _ _ _ _ D Ga') as ((ia' & Va' & ->) & La').
  destruct (greatest_elems _ _ _ _ _ D Gb') as ((ib' & Vb' & ->) & Lb').
  rewrite Ea, Eb. split.
  - rewrite (Tot (X ia') (X ia)); auto; [apply La; auto|apply La'; auto].
  - rewrite (Tot (X ib') (X ib)); auto.
Qed.

Lemma Rltb_order : weak_order (fun _ => True) Rltb.
Proof.
  unfold Rltb. repeat split.
  - intros a _. destruct (Rlt_dec a a); [lra|reflexivity].
  - intros a b c _ _ _. destruct (Rlt_dec a b), (Rlt_dec b c), (Rlt_dec a c); try discriminate; try reflexivity. lra.
  - intros a b c _ _ _. destruct (Rlt_dec a b), (Rlt_dec b c), (Rlt_dec a c); try discriminate; try reflexivity. lra.
Qed.

Lemma Rltb_false : forall a b, Rltb a b = false -> (b <= a)%R.
Proof. intros a b. unfold Rltb. destruct (Rlt_dec a b); [discriminate|lra]. Qed.

(** span bounds the distance of any two elements, and some two attain it. *)
Theorem C43_span_real : forall V (dt : dtype V R) x X s,
  dims_ok x -> 1 <= size x -> holds dt s x X ->
  exists d, s_span dt Rsc x s = Ok d s /\ (0 <= d)%R /\
    (forall ix jx, valid (tdims x) ix -> valid (tdims x) jx -> (X ix - X jx <= d)%R) /\
    exists ix jx, valid (tdims x) ix /\ valid (tdims x) jx /\ d = (X ix - X jx)%R.
Proof.
  intros V dt x X s D Hn H.
  destruct (s_span_ok dt Rsc _ x X s D H Hn Rltb_order (fun _ _ => I)) as (a & b & E & Ga & Gb).
  destruct (greatest_elems _ _ _ _ _ D Ga) as ((ia & Va & ->) & La).
  destruct (greatest_elems _ _ _ _ _ D Gb) as ((ib & Vb & ->) & Lb).
  eexists. split; [exact E|]. cbn [ssub Rsc].
  assert (LA : forall ix, valid (tdims x) ix -> (X ia <= X ix)%R) by (intros ix Hix; apply Rltb_false, La; auto).
  assert (LB : forall ix, valid (tdims x) ix -> (X ix <= X ib)%R) by (intros ix Hix; apply Rltb_false, Lb; auto).
  split; [|split].
  - pose proof (LB ia Va). lra.
  - intros ix jx H1 H2. pose proof (LB ix H1). pose proof (LA jx H2). lra.
  - eauto 8.
Qed.

Theorem C43_sum : forall V T (dt : dtype V T) sc x X s, dims_ok x -> holds dt s x X ->
  s_sum dt sc x s = Ok (sum_over sc (indices (tdims x)) X) s.
Proof. intros. apply s_sum_ok; auto. Qed.

Definition total {V} (x : tensor) (X : list Z -> V) (f : V -> R) : R :=
  sum_over Rsc (indices (tdims x)) (fun ix => f (X ix)).

Lemma div_real : forall a n, 1 <= n -> div_float Rsc a n = Ret (a / IZR n)%R.
Proof. intros a n H. apply Rdiv_ok. cbn. apply not_0_IZR. lia. Qed.

(** The mean times the size is the sum. *)
Theorem C43_mean_real : forall V (dt : dtype V R) x X s,
  dims_ok x -> 1 <= size x -> holds dt s x X ->
  exists m, s_mean dt Rsc (div_float Rsc) x s = Ok m s /\ (m * IZR (size x) = total x X (fun v => v))%R.
Proof.
  intros V dt x X s D Hn H. eexists. split.
  - eapply s_mean_ok; eauto. apply div_real; auto.
  - unfold total. change (fun ix => X ix) with X. field. apply not_0_IZR. lia.
Qed.

Lemma total_const : forall x, dims_ok x -> forall c, sum_over Rsc (indices (tdims x)) (fun _ => c) = (IZR (size x) * c)%R.
Proof.
  intros x D c. rewrite list_sum_const, INR_IZR_INZ, length_indices by auto. reflexivity.
Qed.

Theorem C43_variance_real : forall V (dt : dtype V R) x X s,
  dims_ok x -> 1 <= size x -> holds dt s x X ->
  exists m v, s_mean dt Rsc (div_float Rsc) x s = Ok m s /\
    s_var dt Rsc (div_float Rsc) x s = Ok v s /\
    (v * IZR (size x) = total x X (fun a => (a - m) * (a - m)))%R /\
    (v = total x X (fun a => a * a) / IZR (size x) - m * m)%R /\
    (0 <= v)%R /\
    ((forall ix, valid (tdims x) ix -> X ix = m) <-> v = 0%R).
Proof.
  intros V dt x X s D Hn H. set (n := IZR (size x)).
  assert (Hz : (0 < n)%R) by (apply (IZR_lt 0); lia).
  set (m := (sum_over Rsc (indices (tdims x)) X / n)%R).
  set (q := total x X (fun a => (a - m) * (a - m))%R).
  exists m, (q / n)%R.
  assert (Q : (0 <= q)%R).
  { unfold q, total. rewrite <- (Rmult_0_r n). unfold n. rewrite <- (total_const x D 0%R).
    apply list_sum_le. intros a _. apply (Rle_0_sqr (X a - m)). }
  split; [|split; [|split; [|split; [|split]]]].
  - eapply s_mean_ok; eauto. apply div_real; auto.
  - eapply s_var_ok; eauto; apply div_real; auto.
  - change (q / n * n = q)%R. field. lra.
  - assert (E : q = (total x X (fun a => a * a) - n * (m * m))%R).
    { unfold q, total.
      rewrite (sum_over_ext Rsc (indices (tdims x)) (fun ix => (X ix - m) * (X ix - m))%R
        (fun ix => sadd Rsc (ssub Rsc (X ix * X ix)%R (smul Rsc (2 * m)%R (X ix))) (m * m)%R)) by (intros; cbn; ring).
      rewrite (sum_add Rsc Rsc_laws), (sum_sub Rsc Rsc_laws), (sum_scale_l Rsc Rsc_laws), (total_const x D).
      cbn [sadd ssub smul Rsc]. fold n.
      assert (Em : sum_over Rsc (indices (tdims x)) X = (m * n)%R) by (unfold m; field; lra).
      rewrite Em. ring. }
    rewrite E. field. lra.
  - apply Rmult_le_pos; [exact Q|]. apply Rlt_le, Rinv_0_lt_compat; auto.
  - split; intros C.
    + replace q with 0%R; [unfold Rdiv; ring|]. symmetry. unfold q, total.
      rewrite (sum_over_ext Rsc _ _ (fun _ => 0%R)); [rewrite total_const by auto; ring|].
      intros ix Hix. rewrite C by (apply in_indices; auto). ring.
    + assert (q = 0)%R by (replace q with (q / n * n)%R by (field; lra); rewrite C; ring).
      intros ix Hix. apply in_indices in Hix.
      assert (P : forall l : list (list Z), In ix l ->
        ((X ix - m) * (X ix - m) <= sum_over Rsc l (fun jx => (X jx - m) * (X jx - m)))%R).
      { assert (NN : forall l : list (list Z), (0 <= sum_over Rsc l (fun jx => (X jx - m) * (X jx - m)))%R).
        { intros l. induction l as [|a l IH]; [cbn; lra|]. rewrite list_sum_cons.
          pose proof (Rle_0_sqr (X a - m)) as Qa. unfold Rsqr in Qa. lra. }
        intros l. induction l as [|a l IH]; intros I; [destruct I|]. rewrite list_sum_cons.
        destruct I as [->|I]; [pose proof (NN l); lra|]. specialize (IH I).
        pose proof (Rle_0_sqr (X a - m)) as Qa. unfold Rsqr in Qa. lra. }
      specialize (P _ Hix). fold (total x X (fun a => (a - m) * (a - m))%R) in P. fold q in P. nra.
Qed.

Theorem C43_std_real : forall V (dt : dtype V R) x X s,
  dims_ok x -> 1 <= size x -> holds dt s x X ->
  exists v d, s_var dt Rsc (div_float Rsc) x s = Ok v s /\
    s_std dt Rsc (div_float Rsc) sqrt x s = Ok d s /\ (0 <= d)%R /\ (d * d = v)%R.
Proof.
  intros V dt x X s D Hn H. destruct (C43_variance_real V dt x X s D Hn H) as (m & v & _ & E & _ & _ & P & _).
  exists v, (sqrt v). split; [exact E|]. split; [|split; [apply sqrt_pos|apply sqrt_sqrt; auto]].
  unfold s_std. rewrite (bind_ok _ _ _ _ _ E). reflexivity.
Qed.

(** Sum of absolute differences of neighbours in storage order. *)
Theorem C43_adj_diff : forall V T (dt : dtype V T) sc abs_ x X s,
  dims_ok x -> 1 <= size x -> holds dt s x X ->
  s_adj dt sc abs_ x s = Ok (sum_over sc (zrange (size x - 1)) (fun o =>
    abs_ (ssub sc (X (expand (tdims x) (o + 1))) (X (expand (tdims x) o))))) s.
Proof. intros. apply s_adj_ok; auto. Qed.

Theorem C43_adj_diff_zero : forall V (dt : dtype V R) x X s,
  dims_ok x -> 1 <= size x -> holds dt s x X ->
  exists v, s_adj dt Rsc Rabs x s = Ok v s /\ (0 <= v)%R /\
    (v = 0%R <-> forall ix jx, valid (tdims x) ix -> valid (tdims x) jx -> X ix = X jx).
Proof.
  intros V dt x X s D Hn H. eexists. split; [apply s_adj_ok; eauto|].
  set (F := fun o => X (expand (tdims x) o)).
  change (sum_over Rsc _ _) with (rsum (size x - 1) (fun o => Rabs (F (o + 1)%Z - F o))%R).
  assert (NN : (0 <= rsum (size x - 1) (fun o => Rabs (F (o + 1)%Z - F o)))%R).
  { rewrite <- (Rmult_0_r (IZR (size x - 1))), <- rsum_const by lia. apply rsum_le. intros. apply Rabs_pos. }
  split; [exact NN|]. split.
  - intros E.
    assert (St : forall o, 0 <= o < size x - 1 -> F (o + 1)%Z = F o).
    { intros o Ho. pose proof (rsum_ge_one (size x - 1) o (fun o => Rabs (F (o + 1)%Z - F o))%R Ho
        (fun j _ => Rabs_pos _)) as Q. cbn beta in Q. rewrite E in Q.
      destruct (Req_dec (F (o + 1)%Z - F o) 0) as [Z0|NZ]; [lra|]. pose proof (Rabs_pos_lt _ NZ). lra. }
    assert (C : forall k : nat, Z.of_nat k < size x -> F (Z.of_nat k) = F 0).
    { intros k. induction k as [|k IH]; intros Hk; [reflexivity|].
      rewrite Nat2Z.inj_succ, <- Z.add_1_r, St by lia. apply IH. lia. }
    assert (C' : forall ix, valid (tdims x) ix -> X ix = F 0).
    { intros ix Hix. pose proof (offset_bound _ _ Hix) as B.
      rewrite <- (expand_offset (tdims x) ix Hix). change (F (offset (tdims x) ix) = F 0).
      rewrite <- (C (Z.to_nat (offset (tdims x) ix))); [f_equal; lia|]. unfold size. lia. }
    intros ix jx H1 H2. rewrite (C' ix H1), (C' jx H2). reflexivity.
  - intros E. rewrite (rsum_ext _ _ (fun _ => 0%R)); [rewrite rsum_const by lia; ring|].
    intros o Ho. unfold F. rewrite (E _ (expand (tdims x) o));
      [|apply valid_expand; auto; unfold size in *; lia|apply valid_expand; auto; unfold size in *; lia].
    rewrite Rminus_diag_eq by reflexivity. apply Rabs_R0.
Qed.

(** Negating every element does not change it. *)
Theorem C43_adj_diff_neg : forall V (dt : dtype V R) x x' X s v,
  dims_ok x -> 1 <= size x -> tdims x' = tdims x -> holds dt s x X -> holds dt s x' (fun ix => - X ix)%R ->
  s_adj dt Rsc Rabs x s = Ok v s -> s_adj dt Rsc Rabs x' s = Ok v s.
Proof.
  intros V dt x x' X s v D Hn E H H' Ev. assert (D' : dims_ok x') by (unfold dims_ok in *; congruence).
  assert (Hn' : 1 <= size x') by (unfold size in *; rewrite E; auto).
  rewrite (s_adj_ok dt Rsc Rabs x X s D H Hn) in Ev. rewrite (s_adj_ok dt Rsc Rabs x' _ s D' H' Hn').
  rewrite <- Ev. f_equal. unfold size. rewrite E. apply sum_over_ext. intros o _. cbn.
  rewrite <- Rabs_Ropp. f_equal. ring.
Qed.

(** Empty tensors: min, max, span and adj_diff_sum read past the end. *)
Theorem C43_empty : forall V T (dt : dtype V T) sc abs_ x s, size x = 0 ->
  s_min dt sc x s = UB /\ s_max dt sc x s = UB /\ s_span dt sc x s = UB /\ s_adj dt sc abs_ x s = UB /\
  s_sum dt sc x s = Ok (s0 sc) s.
Proof.
  intros V T dt sc abs_ x s E. unfold s_min, s_max, s_span, s_adj, s_sum, accumulate. rewrite E. repeat split; reflexivity.
Qed.

(** scalar_summaries writes the listed summaries in the order listed; they are
    all taken before the first is stored. *)
Theorem C43_scalar_summaries : forall V T (dt : dtype V T) fs y x vs s d,
  tdims y = scalar_summaries_shape fs -> mapped s y -> Forall2 (fun f v => f x s = Ok v s) fs vs ->
  writes dt (scalar_summaries dt fs y x) s y (fun ix => nth (Z.to_nat (nth 0 ix 0)) vs d).
Proof.
  intros V T dt fs y x vs s d E Hm H. unfold scalar_summaries.
  eapply writes_ext; [symmetry; apply (bind_ok _ _ _ _ _ (evals_ok fs x vs s H))|reflexivity|].
  apply copy_list_writes; auto. rewrite E. unfold scalar_summaries_shape.
  f_equal. f_equal. clear - H. induction H; cbn [length]; congruence.
Qed.

Example C43_example :
  run (scalar_summaries zt [s_min zt Zsc; s_max zt Zsc; s_span zt Zsc; s_sum zt Zsc; s_mean zt Zsc div_i32;
      s_var zt Zsc div_i32; s_adj zt Zsc Z.abs] (T_ 1 [7]) (T_ 0 [2; 3]))
    (demo [[4; 1; 6; 1; 5; 7]; [0; 0; 0; 0; 0; 0; 0]]) (T_ 1 [7])
    = Some (inits [1; 7; 6; 24; 4; 5; 19]).
Proof. reflexivity. Qed.

(** *** C44: mean over int32_t. *)

Theorem C44_summary : forall V (dt : dtype V Z) x X s,
  dims_ok x -> holds dt s x X -> 1 <= size x <= 2 ^ 31 ->
  let t := sum_over Zsc (indices (tdims x)) X in
  - 2 ^ 31 <= t < 2 ^ 31 ->
  (s_mean dt Zsc div_i32 x s = Ok (Z.quot t (size x)) s <-> 0 <= t \/ size x = 1).
Proof.
  intros V dt x X s D H Hn t Ht. rewrite <- (div_i32_spec t (size x)) by lia.
  assert (E : div_i32 t (size x) = Ret (to_i32 (to_u32 t / size x))).
  { unfold div_i32. replace (size x =? 0) with false by lia. reflexivity. }
  rewrite (s_mean_ok dt Zsc div_i32 x X s _ D H E). rewrite E. split; congruence.
Qed.

Theorem C44_reduce : forall V (dt : dtype V Z) y x ds n X s,
  tdims x = ds ++ [n] -> tdims y = ds -> dims_ok x -> 1 <= n <= 2 ^ 31 ->
  holds dt s x X -> mapped s y -> disjoint y x ->
  exists Y, writes dt (op_mean dt Zsc div_i32 (length ds) y x) s y Y /\
    forall ix, valid ds ix -> let t := sum_over Zsc (zrange n) (row X ix) in
      - 2 ^ 31 <= t < 2 ^ 31 -> (Y ix = Z.quot t n <-> 0 <= t \/ n = 1).
Proof.
  intros V dt y x ds n X s Ex Ey D Hn HX HY Dj.
  assert (E : forall t, div_i32 t n = Ret (to_i32 (to_u32 t / n))).
  { intros t. unfold div_i32. replace (n =? 0) with false by lia. reflexivity. }
  exists (fun ix => to_i32 (to_u32 (sum_over Zsc (zrange n) (row X ix)) / n)). split.
  - eapply C42_mean; eauto.
  - intros ix Hv t Ht. rewrite <- (div_i32_spec t n) by lia. rewrite E. fold t. split; congruence.
Qed.

(** A negative sum gives a mean above every element. *)
Theorem C44_refuted : exists (s : st Z) x,
  run (ret tt) s x = Some (inits [-2; -4]) /\ s_mean zt Zsc div_i32 x s = Ok (2 ^ 31 - 3) s.
Proof. exists (demo [[-2; -4]]), (T_ 0 [2]). vm_compute. auto. Qed.

Example C44_example : s_mean zt Zsc div_i32 (T_ 0 [2]) (demo [[-2; 7]]) = Ok 2 (demo [[-2; 7]]).
Proof. reflexivity. Qed.

Print Assumptions C42_mean.
Print Assumptions C42_mean_real.
Print Assumptions C43_min.
Print Assumptions C43_max.
Print Assumptions C43_span.
Print Assumptions C43_span_real.
Print Assumptions C43_sum.
Print Assumptions C43_mean_real.
Print Assumptions C43_variance_real.
Print Assumptions C43_std_real.
Print Assumptions C43_adj_diff.
Print Assumptions C43_adj_diff_zero.
Print Assumptions C43_adj_diff_neg.
Print Assumptions C43_empty.
Print Assumptions C43_scalar_summaries.
Print Assumptions C44_summary.
Print Assumptions C44_reduce.
Print Assumptions C44_refuted.
