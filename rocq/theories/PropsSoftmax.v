(** Properties C33 - C36: softmax, in-place activations, cross entropy.

    Floating point is replaced by exact real arithmetic; std::exp, std::log are
    the real exponential and logarithm. *)
From Coq Require Import ZArith List Bool Lia Reals Lra QArith_base Qreduction Qpower Qround.
From Coquelicot Require Import Coquelicot.
From Verif Require Import Base BaseFacts TensorFacts Scalar SumFacts RealScalar LinAlgFacts Elem ElemSpec ElemFacts
  Activation ActivationSpec ActivationFacts RowFacts SoftmaxFacts Demo.
Import ListNotations.
Open Scope Z_scope.
Open Scope model_scope.

Lemma rsum_2 : forall f, rsum 2 f = (f 0%Z + f 1%Z)%R.
Proof.
  intros f. unfold rsum. change (zrange 2) with [0; 1]. rewrite !list_sum_cons.
  change (sum_over Rsc [] f) with 0%R. ring.
Qed.

(** *** C33: softmax, any rank: the last axis is normalised. *)
Section Softmax.
  Context {V : Type} (dt : dtype V R).

  Theorem C33_value : forall eps y x ds n X s,
    tdims x = ds ++ [n] -> tdims y = ds ++ [n] -> dims_ok x ->
    holds dt s x X -> mapped s y -> disjoint y x ->
    writes dt (op_softmax dt Rsc exp (length ds + 1) eps y x) s y
      (fun ix => softmax_fn eps n (row X (removelast ix)) (last ix 0)).
  Proof using.
    intros eps y x ds n X s Ex Ey Dx HX HY D.
    assert (Dy : dims_ok y) by (unfold dims_ok in *; congruence).
    destruct (nonneg_snoc x ds n Ex Dx) as (Hds & Hn & Hp).
    unfold op_softmax. replace (length ds + 1 - 1)%nat with (length ds) by lia.
    set (F := fun a b => softmax_fn eps n (fun j => X (expand ds a ++ [j])) b).
    apply (writes_as_rows dt _ s y ds n F (fun i j => softmax_fn eps n (row X i) j)); auto.
    - intros i j Hi Hj. unfold F. rewrite (expand_offset ds i Hi). reflexivity.
    - eapply writes_ext; [reflexivity| |
        eapply (softmax2_writes dt Rsc exp eps _ _ (prod ds) n
          (arg2 (fun a b => X (expand ds a ++ [b])))
          (fun a b => exp (X (expand ds a ++ [b])) / rsum n (fun j => exp (X (expand ds a ++ [j]))))%R)].
      + intros ix _. unfold arg2. rewrite smax_Rmax. reflexivity.
      + apply dims_as_rows; auto.
      + apply dims_as_rows; auto.
      + exact Hp.
      + exact Hn.
      + apply (holds_as_rows dt s x ds n X); auto.
      + apply mapped_as_matrix; auto.
      + apply disjoint_as_matrix; auto.
      + intros i j Hi Hj. unfold arg2; cbn [nth].
        apply (soft_div n (fun j => X (expand ds i ++ [j])) j). lia.
  Qed.
End Softmax.

(** Range of every output. *)
Theorem C33_range : forall eps n X i, 0 <= i < n ->
  (eps <= softmax_fn eps n X i <= Rmax eps 1)%R /\ (0 < softmax_fn eps n X i)%R.
Proof.
  intros eps n X i Hi. unfold softmax_fn. pose proof (soft_le1 n X i Hi). pose proof (soft_pos n X i Hi).
  pose proof (Rmax_l eps (exp (X i) / rsum n (fun j => exp (X j)))).
  pose proof (Rmax_r eps (exp (X i) / rsum n (fun j => exp (X j)))).
  split; [split; [auto|]|lra]. apply Rmax_lub; [apply Rmax_l|].
  eapply Rle_trans; [exact H|apply Rmax_r].
Qed.

(** The outputs of a row sum to at least 1 and at most 1 + n eps. *)
Theorem C33_sum : forall eps n X, 0 < n -> (0 <= eps)%R ->
  (1 <= rsum n (softmax_fn eps n X) <= 1 + IZR n * eps)%R.
Proof.
  intros eps n X Hn He. rewrite <- (soft_sum1 n X Hn). split.
  - apply rsum_le. intros i Hi. apply Rmax_r.
  - rewrite <- (rsum_const n eps), <- rsum_plus by lia. apply rsum_le. intros i Hi. unfold softmax_fn.
    pose proof (soft_pos n X i Hi). apply Rmax_lub; lra.
Qed.

(** Exactly 1 when nothing is clamped. *)
Theorem C33_sum_unclamped : forall eps n X, 0 < n -> unclamped eps n X -> rsum n (softmax_fn eps n X) = 1%R.
Proof.
  intros eps n X Hn Hu. rewrite <- (soft_sum1 n X Hn). apply rsum_ext. intros i Hi.
  apply Rmax_right. left. apply Hu; auto.
Qed.

(** Adding the same number to a whole row changes nothing. *)
Theorem C33_shift : forall eps n X c i, 0 <= i < n ->
  softmax_fn eps n (fun j => X j + c)%R i = softmax_fn eps n X i.
Proof.
  intros eps n X c i Hi. unfold softmax_fn. f_equal.
  replace (rsum n (fun j => exp (X j + c))) with (rsum n (fun j => exp (X j)) * exp c)%R.
  - rewrite exp_plus. pose proof (sum_exp_pos n X ltac:(lia)). pose proof (exp_pos c). field. lra.
  - rewrite <- rsum_scal_r. apply rsum_ext. intros j Hj. rewrite exp_plus. reflexivity.
Qed.

(** Larger inputs have larger outputs. *)
Theorem C33_monotone : forall eps n X i j, 0 <= i < n -> 0 <= j < n -> (X i <= X j)%R ->
  (softmax_fn eps n X i <= softmax_fn eps n X j)%R.
Proof.
  intros eps n X i j Hi Hj H. unfold softmax_fn. apply Rle_max_compat_l.
  pose proof (sum_exp_pos n X ltac:(lia)) as P. apply Rmult_le_compat_r.
  - left. apply Rinv_0_lt_compat. exact P.
  - destruct H as [H|H]; [left; apply exp_increasing; auto|rewrite H; lra].
Qed.

(** Powers of two in place of exp, over the rationals: rows (0 1 1) and
    (0 0 3); clamping at 1/8. *)
Definition exp2 (q : Q) : Q := Qred (Qpower 2 (Qfloor q)).
Local Open Scope Q_scope.
Example C33_example :
  run (op_softmax qt Qsc exp2 2 (1#8) (T_ 1 [2; 3]%Z) (T_ 0 [2; 3]%Z))
      (demo [[0; 1; 1; 0; 0; 3]; [9; 9; 9; 9; 9; 9]]) (T_ 1 [6%Z])
    = Some (inits [1#5; 2#5; 2#5; 1#8; 1#8; 4#5]).
Proof. reflexivity. Qed.
Local Close Scope Q_scope.

(** *** C34: activations called in place, [Act()(ref(y), view(y))]. *)

(** Elementwise activations (relu, identity, any pointwise operator) give the
    same result in place as into another tensor. *)
Theorem C34_pointwise : forall V T (dt : dtype V T) f y x X s,
  dims_ok x -> tdims y = tdims x -> holds dt s x X -> mapped s y -> disjoint y x ->
  exists Y, writes dt (op_pointwise dt f y x) s y Y /\ writes dt (op_pointwise dt f x x) s x Y.
Proof.
  intros V T dt f y x X s Dx E HX HY D. exists (fun ix => f (X ix)). unfold op_pointwise.
  rewrite !transform1_flat. split; apply transform1_writes; auto.
  - unfold dims_ok in *; congruence.
  - left; auto.
  - eapply holds_mapped; eauto.
  - apply safe_refl.
Qed.

Theorem C34_relu : forall V T (dt : dtype V T) sc y x X s,
  dims_ok x -> tdims y = tdims x -> holds dt s x X -> mapped s y -> disjoint y x ->
  exists Y, writes dt (op_relu dt sc y x) s y Y /\ writes dt (op_relu dt sc x x) s x Y.
Proof. intros. eapply C34_pointwise; eauto. Qed.

(** softmax in place: each entry is computed after the entries before it have
    been overwritten. *)
Theorem C34_softmax : forall V (dt : dtype V R) eps x ds n X s,
  tdims x = ds ++ [n] -> dims_ok x -> holds dt s x X ->
  writes dt (op_softmax dt Rsc exp (length ds + 1) eps x x) s x
    (fun ix => overwrite (softmax_fn eps n) (Z.to_nat n) (row X (removelast ix)) (last ix 0)).
Proof.
  intros V dt eps x ds n X s Ex Dx HX.
  destruct (nonneg_snoc x ds n Ex Dx) as (Hds & Hn & Hp).
  unfold op_softmax. replace (length ds + 1 - 1)%nat with (length ds) by lia.
  set (Q := fun (Y : Z -> R) (i : Z) => (exp (Y i) / rsum n (fun j => exp (Y j)))%R).
  assert (E : forall k (Z0 : Z -> R) j, overwrite (soft_step Rsc eps Q) k Z0 j = overwrite (softmax_fn eps n) k Z0 j).
  { induction k as [|k IH]; intros Z0 j; cbn [overwrite]; [reflexivity|].
    rewrite IH. destruct (j =? Z.of_nat k); [|reflexivity].
    unfold soft_step. rewrite smax_Rmax. unfold softmax_fn, Q. f_equal. f_equal; [rewrite IH; reflexivity|].
    apply rsum_ext. intros i _. rewrite IH. reflexivity. }
  apply (writes_as_rows dt _ s x ds n
    (fun a b => overwrite (softmax_fn eps n) (Z.to_nat n) (fun j => X (expand ds a ++ [j])) b)
    (fun i j => overwrite (softmax_fn eps n) (Z.to_nat n) (row X i) j)); auto.
  - intros i j Hi Hj. rewrite (expand_offset ds i Hi). reflexivity.
  - eapply writes_ext; [reflexivity| |
      eapply (softmax2_inplace dt Rsc exp eps _ (prod ds) n (arg2 (fun a b => X (expand ds a ++ [b]))) Q)].
    + intros ix _. unfold arg2; cbn [nth]. apply E.
    + apply dims_as_rows; auto.
    + exact Hp.
    + exact Hn.
    + apply (holds_as_rows dt s x ds n X); auto.
    + intros i k Hi Hk. cbv zeta. apply soft_div. lia.
Qed.

(** So it is not softmax: a row (0 0) must give (1/2 1/2), but in place the
    second entry comes out smaller. *)
Theorem C34_softmax_refuted : forall eps, (eps < 1 / 2)%R ->
  exists n X i, 0 <= i < n /\ softmax_fn eps n X i = (1 / 2)%R /\
    (overwrite (softmax_fn eps n) (Z.to_nat n) X i < 1 / 2)%R.
Proof.
  intros eps He. exists 2, (fun _ => 0%R), 1. split; [lia|].
  assert (E : forall f, rsum 2 f = (f 0%Z + f 1%Z)%R) by (apply rsum_2).
  assert (E0 : softmax_fn eps 2 (fun _ => 0%R) 0 = (1/2)%R).
  { unfold softmax_fn. rewrite E, exp_0, Rmax_right; lra. }
  split; [unfold softmax_fn; rewrite E, exp_0, Rmax_right; lra|].
  change (Z.to_nat 2) with 2%nat. cbn [overwrite]. change (1 =? Z.of_nat 1) with true. cbn iota.
  unfold softmax_fn at 1. rewrite E. change (0 =? Z.of_nat 0) with true. change (1 =? Z.of_nat 0) with false.
  cbn iota. rewrite E0, exp_0.
  pose proof (exp_ineq1 (1/2) ltac:(lra)) as P. apply Rmax_lub_lt; [lra|].
  apply Rmult_lt_reg_r with (exp (1/2) + 1)%R; [lra|]. field_simplify; lra.
Qed.

(** The first entry of a row, hence rows of length 1, are right. *)
Theorem C34_softmax_first : forall eps n X, 0 < n ->
  overwrite (softmax_fn eps n) (Z.to_nat n) X 0 = softmax_fn eps n X 0.
Proof.
  intros eps n X Hn. replace (Z.to_nat n) with (S (Z.to_nat (n - 1))) by lia.
  generalize (Z.to_nat (n - 1)). intros k. induction k as [|k IH].
  - reflexivity.
  - cbn [overwrite] in *. replace (0 =? Z.of_nat (S k)) with false by lia. exact IH.
Qed.

Local Open Scope Q_scope.
(** In place and out of place on (0 0), with 1 + q (1 + 2q for positive q) in
    place of exp. *)
Example C34_example :
  let e (q : Q) := Qred (if Qle_bool q 0 then 1 + q else 1 + q * 2) in
  run (op_softmax qt Qsc e 1 (1#8) (T_ 1 [2%Z]) (T_ 0 [2%Z])) (demo [[0; 0]; [9; 9]]) (T_ 1 [2%Z])
    = Some (inits [1#2; 1#2]) /\
  run (op_softmax qt Qsc e 1 (1#8) (T_ 0 [2%Z]) (T_ 0 [2%Z])) (demo [[0; 0]; [9; 9]]) (T_ 0 [2%Z])
    = Some (inits [1#2; 1#3]).
Proof. split; reflexivity. Qed.
Local Close Scope Q_scope.

(** *** C35: the softmax gradient. *)
Section SoftmaxGrad.
  Context {V : Type} (dt : dtype V R).

  (** Vectors. *)
  Theorem C35_grad1 : forall eps gx gy y x n GY X s,
    tdims gx = [n] -> tdims gy = [n] -> tdims y = [n] -> tdims x = [n] -> 0 <= n -> fresh_ok s ->
    holds dt s gy GY -> holds dt s x X ->
    holds dt s y (fun ix => softmax_fn eps n (fun j => X [j]) (nth 0 ix 0)) ->
    mapped s gx -> disjoint gx gy -> unclamped eps n (fun j => X [j]) ->
    exists GX, writes dt (softmax_grad1 dt Rsc gx gy y x) s gx GX /\
      is_gradient n (fun X => rsum n (fun i => GY [i] * softmax_fn eps n X i)%R)
        (fun j => X [j]) (fun j => GX [j]).
  Proof using.
    intros eps gx gy y x n GY X s Egx Egy Ey Ex Hn Hf HG HX HY Hx D Hu. eexists.
    split; [eapply (softmax_grad1_writes dt Rsc gx gy y x n GY); eauto|].
    exact (softmax_gradient eps n (fun j => X [j]) (fun i => GY [i]) Hu).
  Qed.

  (** Batches of rows. *)
  Theorem C35_grad2 : forall eps gx gy y x m n GY X s,
    tdims gx = [m; n] -> tdims gy = [m; n] -> tdims y = [m; n] -> tdims x = [m; n] ->
    0 <= m -> 0 <= n -> fresh_ok s ->
    holds dt s gy GY -> holds dt s x X ->
    holds dt s y (arg2 (fun r i => softmax_fn eps n (fun j => X [r; j]) i)) ->
    mapped s gx -> disjoint gx gy -> disjoint gx y ->
    (forall r, 0 <= r < m -> unclamped eps n (fun j => X [r; j])) ->
    exists GX, writes dt (softmax_grad2 dt Rsc gx gy y x) s gx GX /\
      forall r, 0 <= r < m ->
        is_gradient n (fun X => rsum n (fun i => GY [r; i] * softmax_fn eps n X i)%R)
          (fun j => X [r; j]) (fun j => GX [r; j]).
  Proof using.
    intros eps gx gy y x m n GY X s Egx Egy Ey Ex Hm Hn Hf HG HX HY Hx D1 D2 Hu. eexists.
    split; [eapply (softmax_grad2_writes dt Rsc gx gy y x m n GY); eauto|].
    intros r Hr. exact (softmax_gradient eps n (fun j => X [r; j]) (fun i => GY [r; i]) (Hu r Hr)).
  Qed.

  (** With a clamped output the value returned is not the gradient: for
      x = (0, ln(1/eps)) the first output is eps in a whole neighbourhood, yet
      the gradient of that output comes out as eps (1 - eps). *)
  Theorem C35_clamped_refuted : forall eps, (0 < eps < 1)%R -> exists X0 GY0 : Z -> R,
    forall gx gy y x s, tdims gx = [2] -> tdims gy = [2] -> tdims y = [2] -> tdims x = [2] -> fresh_ok s ->
    holds dt s gy (arg1 GY0) -> holds dt s x (arg1 X0) ->
    holds dt s y (fun ix => softmax_fn eps 2 X0 (nth 0 ix 0)) ->
    mapped s gx -> disjoint gx gy ->
    exists GX, writes dt (softmax_grad1 dt Rsc gx gy y x) s gx GX /\
      ~ is_gradient 2 (fun X => rsum 2 (fun i => GY0 i * softmax_fn eps 2 X i)%R) X0 (fun j => GX [j]).
  Proof using.
    intros eps He. exists (fun j => if j =? 1 then ln (/ eps) else 0%R), (fun j => if j =? 0 then 1%R else 0%R).
    intros gx gy y x s Egx Egy Ey Ex Hf HG HX HY Hx D. eexists.
    split; [eapply (softmax_grad1_writes dt Rsc gx gy y x 2); eauto; lia|].
    intros G. specialize (G (fun j => if j =? 0 then 1%R else 0%R)).
    assert (E : forall f, rsum 2 f = (f 0%Z + f 1%Z)%R) by (apply rsum_2).
    assert (P : (0 < / eps)%R) by (apply Rinv_0_lt_compat; lra).
    assert (Z0 : is_derive (fun t : R => rsum 2 (fun i => (if i =? 0 then 1 else 0) * softmax_fn eps 2
        (fun j => (if j =? 1 then ln (/ eps) else 0) + t * (if j =? 0 then 1 else 0)) i))%R 0%R 0%R).
    { apply (is_derive_ext_loc (fun _ => eps)); [|exact (is_derive_const eps 0%R)].
      assert (Pd : (0 < eps / 2)%R) by lra.
      assert (C : continuous (fun t => exp t / (exp t + / eps))%R 0%R).
      { apply (@ex_derive_continuous R_AbsRing R_NormedModule). auto_derive. pose proof (exp_pos 0). lra. }
      assert (V0 : (exp 0 / (exp 0 + / eps) < eps)%R).
      { rewrite exp_0. apply Rmult_lt_reg_r with (1 + / eps)%R; [lra|].
        unfold Rdiv. rewrite Rmult_assoc, Rinv_l by lra.
        rewrite Rmult_plus_distr_l, Rinv_r by lra. lra. }
      pose proof (C _ (open_lt eps _ V0)) as L. unfold filtermap in L.
      eapply filter_imp; [|exact L]. cbv beta. change (forall t : R, exp t / (exp t + / eps) < eps ->
        eps = rsum 2 (fun i => (if i =? 0 then 1 else 0) * softmax_fn eps 2
          (fun j => (if j =? 1 then ln (/ eps) else 0) + t * (if j =? 0 then 1 else 0)) i))%R.
      intros t Ht. rewrite E. cbn [Z.eqb Pos.eqb].
      unfold softmax_fn at 1. rewrite E. cbn [Z.eqb Pos.eqb].
      replace (0 + t * 1)%R with t by ring. replace (ln (/ eps) + t * 0)%R with (ln (/ eps)) by ring.
      rewrite exp_ln by exact P. rewrite Rmax_left by lra. ring. }
    cbv beta in G.
    pose proof (is_derive_unique _ _ _ G) as U1. pose proof (is_derive_unique _ _ _ Z0) as U2.
    rewrite U2 in U1. unfold arg1 in U1; cbn [nth] in U1. rewrite E in U1.
    change (sum_over Rsc (zrange 2)) with (rsum 2) in U1. rewrite !E in U1. unfold jac in U1; cbn in U1.
    assert (S0 : softmax_fn eps 2 (fun j => if j =? 1 then ln (/ eps) else 0%R) 0 = eps).
    { unfold softmax_fn. rewrite E. cbn [Z.eqb Pos.eqb]. rewrite exp_ln by exact P. rewrite exp_0.
      apply Rmax_left. apply Rmult_le_reg_r with (1 + / eps)%R; [lra|].
      unfold Rdiv. rewrite Rmult_assoc, Rinv_l by lra. rewrite Rmult_plus_distr_l, Rinv_r by lra. lra. }
    rewrite S0 in U1. nra.
  Qed.
End SoftmaxGrad.

Local Open Scope Q_scope.
Example C35_example :
  run (softmax_grad1 qt Qsc (T_ 0 [3%Z]) (T_ 1 [3%Z]) (T_ 2 [3%Z]) (T_ 3 [3%Z]))
      (demo [[9; 9; 9]; [1; 0; 0]; [1#5; 2#5; 2#5]; [0; 1; 1]]) (T_ 0 [3%Z])
    = Some (inits [4#25; -2#25; -2#25]) /\
  run (softmax_grad2 qt Qsc (T_ 0 [1; 3]%Z) (T_ 1 [1; 3]%Z) (T_ 2 [1; 3]%Z) (T_ 3 [1; 3]%Z))
      (demo [[9; 9; 9]; [1; 1; 1]; [1#5; 2#5; 2#5]; [0; 1; 1]]) (T_ 0 [3%Z])
    = Some (inits [0; 0; 0]).
Proof. split; reflexivity. Qed.
Local Close Scope Q_scope.

(** A reachable, unclamped row: two equal inputs. *)
Example C35_example_unclamped : unclamped (1 / 1000000) 2 (fun _ => 0%R).
Proof.
  intros i Hi. replace (rsum 2 (fun _ => exp 0)) with 2%R; [rewrite exp_0; lra|].
  rewrite rsum_2, exp_0. ring.
Qed.

(** *** C36: cross entropy. *)
Section Xentropy.
  Context {V : Type} (dt : dtype V R).

  (** Any rank: reduction along the last axis. *)
  Theorem C36_value : forall z x y ds n X Y s,
    tdims x = ds ++ [n] -> tdims y = ds ++ [n] -> tdims z = ds -> dims_ok x ->
    holds dt s x X -> holds dt s y Y -> mapped s z -> disjoint z x -> disjoint z y ->
    writes dt (op_xentropy dt Rsc ln (length ds + 1) z x y) s z
      (fun ix => xent_fn n (row X ix) (row Y ix)).
  Proof using.
    intros z x y ds n X Y s Ex Ey Ez Dx HX HY HZ D1 D2.
    destruct (nonneg_snoc x ds n Ex Dx) as (Hds & Hn & Hp).
    assert (Dy : dims_ok y) by (unfold dims_ok in *; congruence).
    assert (Dz : dims_ok z) by (unfold dims_ok; rewrite Ez; exact Hds).
    unfold op_xentropy. replace (length ds + 1 - 1)%nat with (length ds) by lia.
    assert (Fz : forall p, foot (flat z) p -> foot z p).
    { intros p Hpz. refine (proj1 (foot_reshape z [prod (tdims z)] p _) Hpz). unfold size; cbn; lia. }
    assert (W : writes dt (xentropy2 dt Rsc ln (flat z) (as_matrix (length ds) x) (as_matrix (length ds) y)) s
      (flat z) (arg1 (fun a => xent_fn n (fun j => X (expand ds a ++ [j])) (fun j => Y (expand ds a ++ [j]))))).
    { eapply (xentropy2_writes dt Rsc ln (flat z) (as_matrix (length ds) x) (as_matrix (length ds) y) (prod ds) n
        (arg2 (fun a b => X (expand ds a ++ [b]))) (arg2 (fun a b => Y (expand ds a ++ [b])))); auto.
      - unfold flat, reshape; cbn. rewrite Ez. reflexivity.
      - apply dims_as_rows; auto.
      - apply dims_as_rows; auto.
      - apply (holds_as_rows dt s x ds n X); auto.
      - apply (holds_as_rows dt s y ds n Y); auto.
      - intros p Hpz. apply HZ; auto.
      - intros p Hpz Hq. apply (D1 p); auto. exact (proj1 (foot_as_matrix _ x p) Hq).
      - intros p Hpz Hq. apply (D2 p); auto. exact (proj1 (foot_as_matrix _ y p) Hq). }
    eapply (writes_reshape dt _ s z [prod (tdims z)]); [exact Dz| | | |exact W].
    - unfold size; cbn; lia.
    - intros ix Hix. rewrite Ez in *. rewrite expand_1 by (apply offset_bound; auto).
      unfold arg1; cbn [nth]. rewrite expand_offset by auto. reflexivity.
    - rewrite Ez. repeat constructor. exact Hp.
  Qed.

  (** Gradient with respect to the prediction, vectors and batches; in place
      use is covered. *)
  Theorem C36_grad1 : forall gx gz x y n GZ X Y s,
    tdims gx = [n] -> tdims gz = [] -> tdims x = [n] -> tdims y = [n] -> 0 <= n ->
    holds dt s gz GZ -> holds dt s x X -> holds dt s y Y -> mapped s gx ->
    disjoint gx gz -> safe gx x -> safe gx y ->
    (forall i, 0 <= i < n -> (0 < Y [i])%R) ->
    exists GY, writes dt (xentropy_grad1 dt Rsc gx gz x y) s gx GY /\
      is_gradient n (fun Y => GZ [] * xent_fn n (fun j => X [j]) Y)%R (fun j => Y [j]) (fun j => GY [j]).
  Proof using.
    intros gx gz x y n GZ X Y s Egx Egz Ex Ey Hn HG HX HY Hx D1 S2 S3 HP. eexists. split.
    - eapply (xentropy_grad1_writes dt Rsc gx gz x y n GZ X Y (fun i => - X [i] / Y [i])%R); eauto.
      intros i Hi. apply Rdiv_ok. pose proof (HP i Hi). lra.
    - intros D. pose proof (xent_gradient n (fun j => X [j]) (fun j => Y [j]) HP D) as Q.
      apply (is_derive_scal _ _ (GZ []) _) in Q.
      unfold arg1; cbn [nth]. eapply eq_ind; [exact Q|]. cbn. unfold mult; cbn.
      rewrite <- rsum_scal_l. apply rsum_ext. intros i Hi. ring.
  Qed.

  Theorem C36_grad2 : forall gx gz x y m n GZ X Y s,
    tdims gx = [m; n] -> tdims gz = [m] -> tdims x = [m; n] -> tdims y = [m; n] -> 0 <= m -> 0 <= n ->
    holds dt s gz GZ -> holds dt s x X -> holds dt s y Y -> mapped s gx ->
    disjoint gx gz -> safe gx x -> safe gx y ->
    (forall r i, 0 <= r < m -> 0 <= i < n -> (0 < Y [r; i])%R) ->
    exists GY, writes dt (xentropy_grad2 dt Rsc gx gz x y) s gx GY /\
      forall r, 0 <= r < m ->
        is_gradient n (fun Y => GZ [r] * xent_fn n (fun j => X [r; j]) Y)%R (fun j => Y [r; j]) (fun j => GY [r; j]).
  Proof using.
    intros gx gz x y m n GZ X Y s Egx Egz Ex Ey Hm Hn HG HX HY Hx D1 S2 S3 HP. eexists. split.
    - eapply (xentropy_grad2_writes dt Rsc gx gz x y m n GZ X Y (fun r i => - X [r; i] / Y [r; i])%R); eauto.
      intros r i Hr Hi. apply Rdiv_ok. pose proof (HP r i Hr Hi). lra.
    - intros r Hr D. pose proof (xent_gradient n (fun j => X [r; j]) (fun j => Y [r; j]) (fun i => HP r i Hr) D) as Q.
      apply (is_derive_scal _ _ (GZ [r]) _) in Q.
      unfold arg2; cbn [nth]. eapply eq_ind; [exact Q|]. cbn. unfold mult; cbn.
      rewrite <- rsum_scal_l. apply rsum_ext. intros i Hi. ring.
  Qed.

  (** Chained with the softmax gradient: softmax(l) - x, scaled by gz. *)
  Theorem C36_softmax_xentropy : forall eps gl gy gz x y l n GZ X L s,
    tdims gl = [n] -> tdims gy = [n] -> tdims gz = [] -> tdims x = [n] -> tdims y = [n] -> tdims l = [n] ->
    0 <= n -> (0 <= eps)%R -> fresh_ok s ->
    holds dt s gz GZ -> holds dt s x X -> holds dt s l L ->
    holds dt s y (fun ix => softmax_fn eps n (fun j => L [j]) (nth 0 ix 0)) ->
    mapped s gy -> mapped s gl ->
    disjoint gy gz -> disjoint gy x -> disjoint gy y -> disjoint gl gy ->
    unclamped eps n (fun j => L [j]) -> rsum n (fun j => X [j]) = 1%R ->
    exists s', (xentropy_grad1 dt Rsc gy gz x y ;;; softmax_grad1 dt Rsc gl gy y l) s = Ok tt s' /\
      holds dt s' gl (arg1 (fun j => GZ [] * (softmax_fn eps n (fun j => L [j]) j - X [j]))%R).
  Proof using.
    intros eps gl gy gz x y l n GZ X L s Egl Egy Egz Ex Ey El Hn He Hf HG HX HL HY Mgy Mgl D1 D2 D3 D4 Hu HS.
    set (Y := softmax_fn eps n (fun j => L [j])) in *.
    assert (PY : forall i, 0 <= i < n -> (0 < Y i)%R) by (intros i Hi; apply C33_range; auto).
    assert (W1 : writes dt (xentropy_grad1 dt Rsc gy gz x y) s gy (arg1 (fun i => GZ [] * (- X [i] / Y i))%R)).
    { eapply (xentropy_grad1_writes dt Rsc gy gz x y n GZ X (fun ix => Y (nth 0 ix 0)) (fun i => - X [i] / Y i)%R); eauto.
      - left; auto.
      - left; auto.
      - intros i Hi. cbn [nth]. apply Rdiv_ok. pose proof (PY i Hi). lra. }
    destruct W1 as (sa & E1 & H1 & N1 & F1). rewrite (bind_ok _ _ _ _ _ E1).
    assert (Ml : mapped sa gl).
    { intros p Hp. rewrite F1; [apply Mgl; auto|]. intros Q. apply (D4 p); auto. }
    assert (W2 : writes dt (softmax_grad1 dt Rsc gl gy y l) sa gl
      (arg1 (fun j => sum_over Rsc (zrange n) (fun i => (GZ [] * (- X [i] / Y i)) * jac Rsc (fun k => Y k) i j))%R)).
    { eapply (softmax_grad1_writes dt Rsc gl gy y l n (arg1 (fun i => GZ [] * (- X [i] / Y i))%R) (fun ix => Y (nth 0 ix 0)) sa); eauto.
      - eapply fresh_ok_frame; [exact Hf|exact Mgy|exact N1|exact F1].
      - eapply holds_frame_disj; eauto. }
    destruct W2 as (sb & E2 & H2 & _). exists sb. split; [exact E2|].
    eapply holds_ext; [|exact H2]. intros ix Hix. rewrite Egl in Hix. apply valid_1 in Hix.
    destruct Hix as (j & -> & Hj). unfold arg1; cbn [nth].
    change (sum_over Rsc (zrange n)) with (rsum n).
    transitivity (rsum n (fun i => GZ [] * (Y j * X [i] - (if j =? i then X [i] else 0))))%R.
    - apply rsum_ext. intros i Hi. pose proof (PY i Hi). unfold jac; cbn. rewrite (Z.eqb_sym j i).
      destruct (Z.eqb_spec i j) as [->|]; field; lra.
    - rewrite rsum_scal_l, rsum_minus, rsum_scal_l, HS.
      pose proof (sum_pick Rsc Rsc_laws n j (fun i => X [i])) as P. cbn in P.
      replace ((0 <=? j) && (j <? n)) with true in P by lia.
      change (rsum n (fun q => if j =? q then X [q] else 0%R) = X [j]) in P. rewrite P. ring.
  Qed.
End Xentropy.

Local Open Scope Q_scope.
(** With log y := y - 1 the loss of x = (0 1), y = (1/4 3/4) is 1/4; the
    gradient with respect to y is -2 x / y. *)
Example C36_example :
  run (op_xentropy qt Qsc (fun q => Qred (q - 1)) 2 (T_ 2 [1%Z]) (T_ 0 [1; 2]%Z) (T_ 1 [1; 2]%Z))
      (demo [[0; 1]; [1#4; 3#4]; [9]]) (T_ 2 [1%Z]) = Some (inits [1#4]) /\
  run (xentropy_grad1 qt Qsc (T_ 3 [2%Z]) (T_ 2 []) (T_ 0 [2%Z]) (T_ 1 [2%Z]))
      (demo [[0; 1]; [1#4; 3#4]; [2]; [9; 9]]) (T_ 3 [2%Z]) = Some (inits [0; -8#3]) /\
  run (xentropy_grad1 qt Qsc (T_ 3 [2%Z]) (T_ 2 []) (T_ 0 [2%Z]) (T_ 1 [2%Z]) ;;;
       softmax_grad1 qt Qsc (T_ 4 [2%Z]) (T_ 3 [2%Z]) (T_ 1 [2%Z]) (T_ 5 [2%Z]))
      (demo [[0; 1]; [1#4; 3#4]; [2]; [9; 9]; [9; 9]; [0; 0]]) (T_ 4 [2%Z]) = Some (inits [1#2; -1#2]).
Proof. repeat split; reflexivity. Qed.
Local Close Scope Q_scope.

Print Assumptions C33_value.
Print Assumptions C33_range.
Print Assumptions C33_sum.
Print Assumptions C33_sum_unclamped.
Print Assumptions C33_shift.
Print Assumptions C33_monotone.
Print Assumptions C34_pointwise.
Print Assumptions C34_relu.
Print Assumptions C34_softmax.
Print Assumptions C34_softmax_refuted.
Print Assumptions C34_softmax_first.
Print Assumptions C35_grad1.
Print Assumptions C35_grad2.
Print Assumptions C35_clamped_refuted.
Print Assumptions C36_value.
Print Assumptions C36_grad1.
Print Assumptions C36_grad2.
Print Assumptions C36_softmax_xentropy.
