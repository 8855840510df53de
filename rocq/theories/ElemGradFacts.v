(** Vector-Jacobian products of the elementwise operators, matmul and bias. *)
From Coq Require Import ZArith List Bool Lia ZifyBool Ring_theory Ring.
From Verif Require Import Base BaseFacts Scalar LinAlg LinAlgFacts TensorFacts SumFacts
  GradSpec ConvGradFacts ElemSpec.
Import ListNotations.
Open Scope Z_scope.

Section Vjp.
  Context {T : Type} (sc : scalar T) (laws : ring_laws sc).
  Let rt : ring_theory (s0 sc) (s1 sc) (sadd sc) (smul sc) (ssub sc) (sneg sc) (@eq T) := laws.
  Add Ring sc_ring : rt.

  Lemma add_vjp : forall ds K GZ, is_vjp sc ds ds (fun X ix => sadd sc (X ix) (K ix)) GZ GZ.
  Proof.
    intros ds K GZ X dX. apply (inner_ext sc); auto. intros ix _. unfold tsub, tadd. ring.
  Qed.

  Lemma add_vjp_r : forall ds K GZ, is_vjp sc ds ds (fun X ix => sadd sc (K ix) (X ix)) GZ GZ.
  Proof.
    intros ds K GZ X dX. apply (inner_ext sc); auto. intros ix _. unfold tsub, tadd. ring.
  Qed.

  Lemma mul_vjp : forall ds Y GZ,
    is_vjp sc ds ds (fun X ix => smul sc (X ix) (Y ix)) GZ (fun ix => smul sc (GZ ix) (Y ix)).
  Proof.
    intros ds Y GZ X dX. unfold inner. apply sum_over_ext. intros ix _. unfold tsub, tadd. ring.
  Qed.

  Lemma mul_vjp_r : forall ds Y GZ,
    is_vjp sc ds ds (fun X ix => smul sc (Y ix) (X ix)) GZ (fun ix => smul sc (GZ ix) (Y ix)).
  Proof.
    intros ds Y GZ X dX. unfold inner. apply sum_over_ext. intros ix _. unfold tsub, tadd. ring.
  Qed.

  Lemma sum_indices_2 : forall m n (f : Z -> Z -> T),
    sum_over sc (indices [m; n]) (arg2 f) = sum_over sc (zrange m) (fun i => sum_over sc (zrange n) (f i)).
  Proof.
    intros m n f. rewrite (sum_indices_cons sc laws). apply sum_over_ext. intros i _.
    rewrite indices_1, sum_over_map. reflexivity.
  Qed.

  Lemma inner_2 : forall m n X Y, inner sc [m; n] X Y =
    sum_over sc (zrange m) (fun i => sum_over sc (zrange n) (fun j => smul sc (X [i; j]) (Y [i; j]))).
  Proof.
    intros m n X Y. rewrite <- sum_indices_2. unfold inner. apply sum_over_ext. intros ix Hix.
    apply in_indices, valid_2 in Hix. destruct Hix as (i & j & -> & _). reflexivity.
  Qed.

  Lemma inner_1 : forall n X Y, inner sc [n] X Y =
    sum_over sc (zrange n) (fun i => smul sc (X [i]) (Y [i])).
  Proof. intros n X Y. unfold inner. rewrite indices_1, sum_over_map. reflexivity. Qed.

  Lemma matmul_vjp0 : forall m l n Y GZ,
    is_vjp sc [m; n] [m; l] (fun X => matmul_fn sc l X Y) GZ
      (arg2 (fun i k => sum_over sc (zrange n) (fun j => smul sc (GZ [i; j]) (Y [k; j])))).
  Proof.
    intros m l n Y GZ. apply (linear_vjp sc laws).
    - intros X dX ix Hix. apply valid_2 in Hix. destruct Hix as (i & j & -> & _).
      unfold matmul_fn, arg2, tadd; cbn [nth]. rewrite <- (sum_add sc laws). apply sum_over_ext.
      intros k _. ring.
    - intros dX. rewrite !inner_2. apply sum_over_ext. intros i _.
      transitivity (sum_over sc (zrange n) (fun j => sum_over sc (zrange l) (fun k =>
        smul sc (smul sc (GZ [i; j]) (Y [k; j])) (dX [i; k])))).
      + apply sum_over_ext. intros j _. unfold matmul_fn, arg2; cbn [nth].
        rewrite <- (sum_scale_l sc laws). apply sum_over_ext. intros k _. ring.
      + rewrite (sum_swap sc laws (zrange n)). apply sum_over_ext. intros k _.
        rewrite (sum_scale_r sc laws). reflexivity.
  Qed.

  Lemma matmul_vjp1 : forall m l n X GZ,
    is_vjp sc [m; n] [l; n] (fun Y => matmul_fn sc l X Y) GZ
      (arg2 (fun k j => sum_over sc (zrange m) (fun i => smul sc (X [i; k]) (GZ [i; j])))).
  Proof.
    intros m l n X GZ. apply (linear_vjp sc laws).
    - intros Y dY ix Hix. apply valid_2 in Hix. destruct Hix as (i & j & -> & _).
      unfold matmul_fn, arg2, tadd; cbn [nth]. rewrite <- (sum_add sc laws). apply sum_over_ext.
      intros k _. ring.
    - intros dY. rewrite !inner_2.
      transitivity (sum_over sc (zrange m) (fun i => sum_over sc (zrange l) (fun k =>
        sum_over sc (zrange n) (fun j => smul sc (smul sc (X [i; k]) (GZ [i; j])) (dY [k; j]))))).
      + apply sum_over_ext. intros i _. rewrite (sum_swap sc laws (zrange l)). apply sum_over_ext. intros j _.
        unfold matmul_fn, arg2; cbn [nth]. rewrite <- (sum_scale_l sc laws). apply sum_over_ext. intros k _. ring.
      + rewrite (sum_swap sc laws (zrange m)). apply sum_over_ext. intros k _.
        rewrite (sum_swap sc laws (zrange m)). apply sum_over_ext. intros j _.
        rewrite (sum_scale_r sc laws). reflexivity.
  Qed.

  (** Bias along the last axis, the leading axes being [ds]. *)
  Lemma bias_vjp_last : forall ds n K GZ, nonneg ds ->
    is_vjp sc (ds ++ [n]) [n] (fun B ix => sadd sc (K ix) (B [nth (length ds) ix 0])) GZ
      (fun ix => sum_over sc (zrange (prod ds)) (fun r => GZ (expand ds r ++ ix))).
  Proof.
    intros ds n K GZ Hds B dB.
    transitivity (sum_over sc (indices (ds ++ [n])) (fun ix => smul sc (GZ ix) (dB [nth (length ds) ix 0]))).
    { unfold inner. apply sum_over_ext. intros ix _. unfold tsub, tadd. ring. }
    rewrite (sum_indices_app sc laws). unfold inner at 1. rewrite (sum_swap sc laws).
    apply sum_over_ext. intros ix Hix. apply in_indices, valid_1 in Hix. destruct Hix as (j & -> & _).
    transitivity (sum_over sc (indices ds) (fun a => smul sc (GZ (a ++ [j])) (dB [j]))).
    { apply sum_over_ext. intros a Ha. apply in_indices, valid_length in Ha.
      rewrite app_nth2, Ha, Nat.sub_diag by lia. reflexivity. }
    rewrite (sum_scale_r sc laws). f_equal.
    rewrite indices_expand, sum_over_map by auto. reflexivity.
  Qed.
End Vjp.
