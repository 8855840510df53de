(** Property C107: rounding in networks of any depth.

    The multiplication is the one built in; std::exp is any function with a
    given relative accuracy. *)
From Coq Require Import ZArith List Bool Lia Reals Lra SpecFloat.
From Coquelicot Require Import Coquelicot.
From Flocq Require Import Core BinarySingleNaN.
From Verif Require Import Base BaseFacts Traits TraitsSpec Scalar RealScalar SumFacts TensorFacts LinAlg Shapes Conv
  ConvSpec Elem ElemSpec Activation ActivationSpec Utility Backprop BackpropSpec BackpropFacts BackpropRun Demo
  Float FloatSpec FloatFacts FloatNan FloatSumSpec FloatSoftSpec FloatSoftFacts PredictSpec PredictFacts
  PropsFloat PropsFloatSum StableSpec StableFacts PropsStable NetFloatSpec NetFloatFacts.
Import ListNotations.
Open Scope Z_scope.
Open Scope model_scope.

Section NetFloat.
  Context {V : Type} (prec emax : Z) {Hprec : Prec_gt_0 prec} {Hmax : Prec_lt_emax prec emax}.
  Context (dt : dtype V (binary_float prec emax)) (di : dtype V Z).
  Notation sc := (Fsc prec emax).
  Notation flt := (binary_float prec emax).
  Context (exp_ : flt -> flt) (eps : flt).

  (** *** The results.  [x] are the exact inputs; those of the program differ by
      at most [e]. *)
  Theorem C107_network : forall d net d0 E P X x A B m e s, net_ok d0 net -> List.Forall builtin net ->
    nodes_ok (infer_nodes d0 net) E -> nodes_mapped (infer_nodes d0 net) E s ->
    holds dt s (E (Out 0)) X -> params_held dt E s 0 net P ->
    is_finite eps = true -> (B2R eps <= 1)%R -> (0 <= m)%R -> (0 <= e)%R ->
    finite_on prec emax d0 X -> bounded d0 m (reals prec emax X) -> close d0 e (reals prec emax X) x ->
    all_weights_ok prec emax 0 net P B -> gains 0 net (fun i => reals prec emax (P i)) A ->
    net_room prec emax d exp_ 0 net A B m ->
    exists t Z, forward_from dt di sc exp_ eps E 0 net s = Ok tt t /\ holds dt t (E (Out (length net))) Z /\
      finite_on prec emax (net_out d0 net) Z /\
      close (net_out d0 net) (net_error prec emax d 0 net A B m e) (reals prec emax Z)
        (net_fn (B2R eps) 0 net (fun i => reals prec emax (P i)) x).
  Proof using Hprec Hmax.
    intros d net d0 E P X x A B m e s H HL OK HM HX HP Fe Le Hm He FX BX CX HW HG HR.
    destruct (forward_run dt di sc exp_ eps (layer_float prec emax exp_ eps) builtin (forward_float prec emax exp_ eps dt di) E net 0 d0 P X s
      H HL OK HM HX HP) as (t & E1 & W & _).
    exists t. eexists. split; [exact E1|]. split; [exact W|]. apply net_rounding; auto.
  Qed.

  (** *** The predictions: where the exact result leads by more than twice the
      bound, the program finds the class of the exact network. *)
  Theorem C107_prediction : forall (dn : dtype V Z) N d net d0 E P X x A B m e n k c s, net_ok d0 net -> List.Forall builtin net ->
    net_out d0 net = [n; k] -> 0 < it_bits N -> k - 1 <= it_max N -> 1 <= k ->
    nodes_ok (infer_nodes d0 net) E -> nodes_mapped (infer_nodes d0 net) E s ->
    holds dt s (E (Out 0)) X -> params_held dt E s 0 net P ->
    is_finite eps = true -> (B2R eps <= 1)%R -> (0 <= m)%R -> (0 <= e)%R ->
    finite_on prec emax d0 X -> bounded d0 m (reals prec emax X) -> close d0 e (reals prec emax X) x ->
    all_weights_ok prec emax 0 net P B -> gains 0 net (fun i => reals prec emax (P i)) A ->
    net_room prec emax d exp_ 0 net A B m ->
    tdims c = [n] -> mapped s c -> (forall i, disjoint c (E (Out i))) ->
    exists t J,
      (forward_from dt di sc exp_ eps E 0 net ;;; op_argmax dn N dt sc 1 c (E (Out (length net)))) s = Ok tt t /\
      holds dn t c J /\
      forall i j, 0 <= i < n ->
        leads k (fun q => net_fn (B2R eps) 0 net (fun i => reals prec emax (P i)) x [i; q])
          (2 * net_error prec emax d 0 net A B m e) j ->
        J [i] = j.
  Proof using Hprec Hmax.
    intros dn N d net d0 E P X x A B m e n k c s H HL Eo Hb HN Hk OK HM HX HP Fe Le Hm He FX BX CX HW HG HR Ec Mc Dc.
    assert (Nn : 0 <= n).
    { pose proof (net_nodes_nonneg net 0 d0 (Out (length net)) [n; k] H) as Q. rewrite <- Eo in Q.
      specialize (Q (used_last net 0 d0)). rewrite Eo in Q. inversion Q; auto. }
    destruct (predict_run dt di sc exp_ eps (layer_float prec emax exp_ eps) builtin (forward_float prec emax exp_ eps dt di) E dn N net d0
      P X n k c s H HL Eo Hb HN Hk Nn OK HM HX HP Ec Mc Dc) as (t & E1 & W1).
    exists t. eexists. split; [exact E1|]. split; [exact W1|]. intros i j Hi L. cbv beta.
    destruct (net_rounding prec emax exp_ eps d net 0 d0 P X x A B m e) as (F & C); auto. rewrite Eo in F, C.
    rewrite (scan_float prec emax) by (auto; intros q Hq; apply F; cbn; lia).
    apply (first_unique k (fun q => B2R (row (net_run (layer_float prec emax exp_ eps) 0 net P X) [i] q))); [apply scan_first; exact Hk|].
    apply leads_first. set (err := net_error prec emax d 0 net A B m e) in *.
    apply (leads_weaken k _ (2 * err - 2 * err) 0 j); [lra|].
    eapply leads_close; [|exact L]. intros q Hq. rewrite Rabs_minus_sym. apply (C [i; q]). cbn; lia.
  Qed.
End NetFloat.

(** *** Two formats: a network with the same parameters and inputs in both, e.g.
    float and double.  If one of them sees a lead of more than twice the sum of
    the two bounds, so that in particular it predicts that class, the other
    predicts it, too. *)
Section Formats.
  Context {V W : Type} (p1 e1 p2 e2 : Z) {Hp1 : Prec_gt_0 p1} {Hm1 : Prec_lt_emax p1 e1} {Hp2 : Prec_gt_0 p2} {Hm2 : Prec_lt_emax p2 e2}.
  Context (dt : dtype V (binary_float p1 e1)) (di : dtype V Z) (du : dtype W (binary_float p2 e2)) (dj : dtype W Z).
  Context (exp1 : binary_float p1 e1 -> binary_float p1 e1) (exp2 : binary_float p2 e2 -> binary_float p2 e2).

  Theorem C107_formats : forall (dn : dtype W Z) N d d' net d0 E E' P P' X X' eps eps' A B m n k c s s',
    net_ok d0 net -> List.Forall builtin net ->
    net_out d0 net = [n; k] -> 0 < it_bits N -> k - 1 <= it_max N -> 1 <= k ->
    nodes_ok (infer_nodes d0 net) E -> nodes_mapped (infer_nodes d0 net) E s ->
    holds dt s (E (Out 0)) X -> params_held dt E s 0 net P ->
    nodes_ok (infer_nodes d0 net) E' -> nodes_mapped (infer_nodes d0 net) E' s' ->
    holds du s' (E' (Out 0)) X' -> params_held du E' s' 0 net P' ->
    (forall ix, B2R (X ix) = B2R (X' ix)) -> (forall i ix, B2R (P i ix) = B2R (P' i ix)) -> B2R eps = B2R eps' ->
    is_finite eps = true -> is_finite eps' = true -> (B2R eps <= 1)%R -> (0 <= m)%R ->
    finite_on p1 e1 d0 X -> finite_on p2 e2 d0 X' -> bounded d0 m (reals p1 e1 X) ->
    all_weights_ok p1 e1 0 net P B -> all_weights_ok p2 e2 0 net P' B -> gains 0 net (fun i => reals p1 e1 (P i)) A ->
    net_room p1 e1 d exp1 0 net A B m -> net_room p2 e2 d' exp2 0 net A B m ->
    tdims c = [n] -> mapped s' c -> (forall i, disjoint c (E' (Out i))) ->
    let b := (net_error p1 e1 d 0 net A B m 0 + net_error p2 e2 d' 0 net A B m 0)%R in
    exists t t' t'' Z Z' J,
      forward_from dt di (Fsc p1 e1) exp1 eps E 0 net s = Ok tt t /\ holds dt t (E (Out (length net))) Z /\
      forward_from du dj (Fsc p2 e2) exp2 eps' E' 0 net s' = Ok tt t' /\ holds du t' (E' (Out (length net))) Z' /\
      close [n; k] b (reals p1 e1 Z) (reals p2 e2 Z') /\
      (forward_from du dj (Fsc p2 e2) exp2 eps' E' 0 net ;;; op_argmax dn N du (Fsc p2 e2) 1 c (E' (Out (length net)))) s' = Ok tt t'' /\
      holds dn t'' c J /\
      forall i j, 0 <= i < n -> leads k (fun q => B2R (Z [i; q])) (2 * b) j -> J [i] = j.
  Proof using All.
    intros dn N d d' net d0 E E' P P' X X' eps eps' A B m n k c s s' H HL Eo Hb HN Hk OK HM HX HP OK' HM' HX' HP'
      EX EP Ee Fe Fe' Le Hm FX FX' BX HW HW' HG HR HR' Ec Mc Dc b.
    assert (Nn : 0 <= n).
    { pose proof (net_nodes_nonneg net 0 d0 (Out (length net)) [n; k] H) as Q. rewrite <- Eo in Q.
      specialize (Q (used_last net 0 d0)). rewrite Eo in Q. inversion Q; auto. }
    assert (GE : forall net k, gains k net (fun i => reals p1 e1 (P i)) A -> gains k net (fun i => reals p2 e2 (P' i)) A).
    { clear - EP. induction net as [|L net IH]; intros k G; [exact I|]. destruct G as [G1 G2]. split; [|apply IH; exact G2].
      assert (Q : forall ix, reals p1 e1 (P k) ix = reals p2 e2 (P' k) ix) by (intros; apply EP).
      destruct L; cbn [gain] in *; auto.
      - destruct G1 as [Ha G1]. split; [exact Ha|]. intros ix Hv. rewrite <- Q. auto.
      - destruct G1 as [Ha G1]. split; [exact Ha|]. intros j Hj. eapply Rle_trans; [|apply (G1 j Hj)]. apply Req_le.
        apply LinAlgFacts.sum_over_ext. intros i _. rewrite Q. reflexivity.
      - destruct G1 as [Ha G1]. split; [exact Ha|]. intros j Hj. eapply Rle_trans; [|apply (G1 j Hj)]. apply Req_le.
        apply LinAlgFacts.sum_over_ext. intros i _. unfold arg3. rewrite Q. reflexivity. }
    assert (NE : forall eps net k X X', (forall ix, X ix = X' ix) -> net_ok d0 net -> forall ix, valid (net_out d0 net) ix ->
      net_fn eps k net (fun i => reals p1 e1 (P i)) X ix = net_fn eps k net (fun i => reals p2 e2 (P' i)) X' ix).
    { clear - EP. intros eps net. revert d0. induction net as [|L net IH]; intros d0 k X X' EX H ix Hv; cbn [net_fn]; [apply EX|].
      destruct H as (H1 & H2 & H3). apply (IH (out_shape L) (S k)); auto. intros iy.
      assert (Q : forall ix, reals p1 e1 (P k) ix = reals p2 e2 (P' k) ix) by (intros; apply EP).
      destruct L; cbn [layer_fn]; unfold conv_spec_nhwc, softmax_fn, rsum, arg2, arg3, arg4; rewrite ?EX, ?Q; auto.
      - apply LinAlgFacts.sum_over_ext. intros a _. rewrite EX, Q. reflexivity.
      - apply LinAlgFacts.sum_over_ext. intros a _. unfold zpad. rewrite EX, Q. reflexivity.
      - f_equal. f_equal. apply LinAlgFacts.sum_over_ext. intros a _. rewrite EX. reflexivity. }
    assert (BX' : bounded d0 m (reals p2 e2 X')) by (intros ix Hv; unfold reals; rewrite <- EX; apply BX; auto).
    destruct (C107_network p1 e1 dt di exp1 eps d net d0 E P X (reals p1 e1 X) A B m 0 s) as (t & Z & E1 & W1 & F1 & C1); auto; try lra.
    { apply close_refl. }
    destruct (C107_network p2 e2 du dj exp2 eps' d' net d0 E' P' X' (reals p2 e2 X') A B m 0 s') as (t' & Z' & E2 & W2 & F2 & C2); auto; try lra.
    { apply close_refl. }
    destruct (C107_prediction p2 e2 du dj exp2 eps' dn N d' net d0 E' P' X' (reals p2 e2 X') A B m 0 n k c s') as (t'' & J & E3 & W3 & L3); auto; try lra.
    { apply close_refl. }
    exists t, t', t'', Z, Z', J. repeat (split; [eassumption|]).
    assert (NQ : forall ix, valid [n; k] ix -> net_fn (B2R eps) 0 net (fun i => reals p1 e1 (P i)) (reals p1 e1 X) ix
      = net_fn (B2R eps') 0 net (fun i => reals p2 e2 (P' i)) (reals p2 e2 X') ix).
    { intros ix Hv. rewrite Ee. apply NE; auto. rewrite Eo. exact Hv. }
    rewrite Eo in C1, C2. split.
    - intros ix Hv. specialize (C1 ix Hv). specialize (C2 ix Hv). rewrite (NQ ix Hv) in C1.
      apply Rabs_le_2 in C1. apply Rabs_le_2 in C2. apply Rabs_le_2. unfold b. lra.
    - split; [exact E3|]. split; [exact W3|]. intros i j Hi L. apply L3; auto.
      apply (leads_weaken k _ (2 * b - 2 * net_error p1 e1 d 0 net A B m 0) _ j); [unfold b; lra|].
      eapply leads_close; [|exact L]. intros q Hq. cbv beta. rewrite <- NQ by (cbn; lia). apply (C1 [i; q]). cbn; lia.
  Qed.
End Formats.

(** *** Examples *)

(** The network of C106_run_example in float, for all inputs between -1 and 1:
    no result is off by more than 20 / 2^24. *)
Definition pair_weights (i : nat) : list Z -> float :=
  match i with
  | 0%nat => fun ix => match ix with
                       | [0; 0] => f32 2 0 | [0; 1] => f32 1 0 | [1; 0] => f32 (-1) 0 | [1; 1] => f32 3 0 | _ => f32 0 0 end
  | 1%nat => fun ix => match ix with [0] => f32 5 0 | [1] => f32 7 0 | _ => f32 0 0 end
  | _ => fun _ => f32 0 0
  end.

Lemma pair_values :
  B2R (f32 2 0) = 2%R /\ B2R (f32 1 0) = 1%R /\ B2R (f32 (-1) 0) = (-1)%R /\ B2R (f32 3 0) = 3%R /\ B2R (f32 5 0) = 5%R /\
  B2R (f32 7 0) = 7%R.
Proof. repeat split; cbn; unfold F2R; cbn; lra. Qed.

Lemma pair_conditions :
  let A := fun i => nth i [4; 1; 1]%R 1%R in let B := fun i => nth i [0; 7; 0]%R 0%R in
  all_weights_ok 24 128 0 pair_net pair_weights B /\ gains 0 pair_net (fun i => reals 24 128 (pair_weights i)) A /\
  net_room 24 128 0 (fun x => x) 0 pair_net A B 1 /\ (net_error 24 128 0 0 pair_net A B 1 0 <= 20 / 2 ^ 24)%R.
Proof.
  intros A B. destruct pair_values as (V2 & V1 & Vn & V3 & V5 & V7).
  assert (U : (unit_roundoff 24 = / 16777216)%R) by (unfold unit_roundoff; simpl; lra).
  assert (T : (0 < half_tiny 24 128 <= / 2 ^ 60)%R).
  { unfold half_tiny. pose proof (bpow_gt_0 radix2 (3 - 128 - 24)) as Q. split; [lra|].
    assert (Q2 : (bpow radix2 (3 - 128 - 24) <= bpow radix2 (-60))%R) by (apply bpow_le; lia).
    change (bpow radix2 (-60)) with (/ 1152921504606846976)%R in Q2. lra. }
  assert (M : (1048576 <= bpow radix2 128)%R) by (change 1048576%R with (bpow radix2 20); apply bpow_le; lia).
  split; [|split].
  - cbn [all_weights_ok pair_net]. unfold weights_ok, B; cbn [par_shape nth]. repeat split; auto; try lra.
    + intros ix Hv. apply valid_2 in Hv. destruct Hv as (i & j & -> & Hi & Hj).
      assert (Ei : i = 0 \/ i = 1) by lia. assert (Ej : j = 0 \/ j = 1) by lia.
      destruct Ei as [->| ->], Ej as [->| ->]; reflexivity.
    + intros ix Hv. apply valid_1 in Hv. destruct Hv as (i & -> & Hi).
      assert (Ei : i = 0 \/ i = 1) by lia. destruct Ei as [->| ->]; reflexivity.
    + intros ix Hv. apply valid_1 in Hv. destruct Hv as (i & -> & Hi). unfold reals.
      assert (Ei : i = 0 \/ i = 1) by lia. destruct Ei as [->| ->]; cbn [pair_weights]; rewrite ?V5, ?V7, Rabs_pos_eq; lra.
  - cbn [gains pair_net gain]. unfold A; cbn [nth]. repeat split; try lra. intros j Hj. unfold rsum, reals.
    change (zrange 2) with [0; 1]. cbn [sum_over fold_left sadd s0 Rsc].
    assert (Ej : j = 0 \/ j = 1) by lia. destruct Ej as [->| ->]; cbn [pair_weights]; rewrite ?V2, ?V1, ?Vn, ?V3; unfold Rabs; repeat destruct Rcase_abs; lra.
  - cbn [net_room net_error pair_net]. unfold room; cbn [reach rounding]. unfold dot_bound. change (Z.to_nat 2) with 2%nat.
    unfold A, B; cbn [nth]. rewrite U. cbn [pow INR]. cbn [pow] in T.
    repeat split; lra.
Qed.

Example C107_example : forall V (dt : dtype V float) (di : dtype V Z) E X s,
  nodes_ok (infer_nodes [1; 2] pair_net) E -> nodes_mapped (infer_nodes [1; 2] pair_net) E s ->
  holds dt s (E (Out 0)) X -> params_held dt E s 0 pair_net pair_weights ->
  finite_on 24 128 [1; 2] X -> bounded [1; 2] 1 (reals 24 128 X) ->
  exists t Z, forward_from dt di F32 (fun x => x) (f32 0 0) E 0 pair_net s = Ok tt t /\ holds dt t (E (Out 3)) Z /\
    let x0 := B2R (X [0; 0]) in let x1 := B2R (X [0; 1]) in
    (Rabs (B2R (Z [0%Z; 0%Z]) - Rmax (2 * x0 - x1 + 5) 0) <= 20 / 2 ^ 24 /\
     Rabs (B2R (Z [0%Z; 1%Z]) - Rmax (x0 + 3 * x1 + 7) 0) <= 20 / 2 ^ 24)%R.
Proof.
  intros V dt di E X s OK HM HX HP FX BX.
  destruct pair_conditions as (K1 & K2 & K3 & K4). destruct pair_values as (V2 & V1 & Vn & V3 & V5 & V7).
  destruct (C107_network 24 128 dt di (fun x => x) (f32 0 0) 0 pair_net [1; 2] E pair_weights X (reals 24 128 X)
    (fun i => nth i [4; 1; 1]%R 1%R) (fun i => nth i [0; 7; 0]%R 0%R) 1 0 s) as (t & Z & E1 & W & F & C); auto; try (cbn; lra).
  - cbn; repeat split; repeat constructor; lia.
  - repeat constructor.
  - apply close_refl.
  - exists t, Z. split; [exact E1|]. split; [exact W|]. intros x0 x1.
    pose proof (C [0; 0] ltac:(cbn; lia)) as C0. pose proof (C [0; 1] ltac:(cbn; lia)) as C1.
    cbn [net_fn pair_net layer_fn arg2 nth] in C0, C1. unfold arg2, rsum, reals in C0, C1. change (zrange 2) with [0; 1] in C0, C1.
    cbn [nth sum_over fold_left sadd s0 Rsc pair_weights] in C0, C1.
    rewrite V2, Vn, V5 in C0. rewrite V1, V3, V7 in C1. fold x0 x1 in C0, C1.
    replace (2 * x0 - x1 + 5)%R with (0 + x0 * 2 + x1 * -1 + 5)%R by ring.
    replace (x0 + 3 * x1 + 7)%R with (0 + x0 * 1 + x1 * 3 + 7)%R by ring.
    split; eapply Rle_trans; [exact C0|exact K4|exact C1|exact K4].
Qed.

(** Its run on 0.1 and 0.2, rounded to float: 5 and 7.6999998. *)
Example C107_run_example :
  shown1 (run (forward_from (dt_inl float Z) (dt_inr float Z) F32 (fun x => x) (f32 0 0)
      (fun c => match c with Out 0 => T_ 0 [1; 2] | Out 1 => T_ 1 [1; 2] | Out 2 => T_ 2 [1; 2]
                | Out _ => T_ 3 [1; 2] | Par 0 => T_ 4 [2; 2] | Par 1 => T_ 5 [2] | _ => T_ 6 [0] end) 0 pair_net)
    (demo (map (map inl) [[f32 13421773 (-27); f32 13421773 (-26)]; [f32 9 0; f32 9 0]; [f32 9 0; f32 9 0]; [f32 9 0; f32 9 0];
      [f32 2 0; f32 1 0; f32 (-1) 0; f32 3 0]; [f32 5 0; f32 7 0]; []])) (T_ 3 [1; 2]))
  = floats [f32 5 0; f32 16148070 (-21)].
Proof. vm_compute. reflexivity. Qed.

(** softmax of two numbers between -1 and 1 with a correctly rounded exponential
    function: off by at most 15 / 2^24. *)
Example C107_softmax_example :
  let exp_ := fun x : float => of_real 24 128 (exp (B2R x)) in let u := unit_roundoff 24 in
  room 24 128 u exp_ (LSoftmax 1 2) (/ 2) 0 1 /\ (rounding 24 128 u (LSoftmax 1 2) (/ 2) 0 1 <= 15 / 2 ^ 24)%R.
Proof.
  intros exp_ u.
  assert (U : (u = / 16777216)%R) by (unfold u, unit_roundoff; simpl; lra).
  assert (T : (0 < half_tiny 24 128 <= / 2 ^ 60)%R).
  { unfold half_tiny. pose proof (bpow_gt_0 radix2 (3 - 128 - 24)) as Q. split; [lra|].
    assert (Q2 : (bpow radix2 (3 - 128 - 24) <= bpow radix2 (-60))%R) by (apply bpow_le; lia).
    change (bpow radix2 (-60)) with (/ 1152921504606846976)%R in Q2. lra. }
  assert (M : (1048576 <= bpow radix2 128)%R) by (change 1048576%R with (bpow radix2 20); apply bpow_le; lia).
  assert (X1 : (1 - 2 * u <= exp (- (u * (2 * 1))))%R) by (pose proof (exp_ineq1_le (- (u * (2 * 1)))); lra).
  assert (X2 : (exp (u * (2 * 1)) <= / (1 - 2 * u))%R).
  { replace (exp (u * (2 * 1))) with (/ exp (- (u * (2 * 1))))%R by (rewrite exp_Ropp, Rinv_inv; reflexivity).
    apply Rinv_le_contravar; [lra|exact X1]. }
  assert (X3 : (/ (1 - 2 * u) <= 1 + 3 * u)%R).
  { apply Rmult_le_reg_l with (1 - 2 * u)%R; [lra|]. rewrite Rinv_r by lra. nra. }
  assert (X4 : (exp (- (u * (2 * 1))) <= exp 0)%R) by (apply exp_le; lra). rewrite exp_0 in X4.
  assert (X5 : (exp 0 <= exp (u * (2 * 1)))%R) by (apply exp_le; lra). rewrite exp_0 in X5.
  set (hi := soft_hi 24 u (2 * 1) (Z.to_nat 2)). set (lo := soft_lo 24 u (2 * 1) (Z.to_nat 2)).
  assert (Bl : (1 - 5 * u <= lo <= 1)%R).
  { unfold lo, soft_lo. change (Nat.pred (Z.to_nat 2)) with 1%nat. rewrite pow_1. fold u. set (v := exp (- (u * (2 * 1)))) in *.
    assert (Y1 : ((1 - u) * (1 - 2 * u) <= (1 - u) * v)%R) by (apply Rmult_le_compat_l; lra).
    assert (Y2 : ((1 - u) * v <= 1)%R) by nra. rewrite U in *. split; nra. }
  assert (Bh : (1 <= hi <= 1 + 6 * u)%R).
  { unfold hi, soft_hi. change (Nat.pred (Z.to_nat 2)) with 1%nat. rewrite pow_1. fold u. set (v := exp (u * (2 * 1))) in *. split; [nra|].
    assert (Y1 : ((1 + u) * v <= (1 + u) * (1 + 3 * u))%R) by (apply Rmult_le_compat_l; lra). rewrite U in *. nra. }
  assert (I1 : ((1 + u) / lo <= (1 + 7 * u))%R) by (apply Rle_div_l; [lra|]; nra).
  assert (I2 : (1 - 7 * u <= (1 - u) / hi)%R) by (apply Rle_div_r; [lra|]; nra).
  assert (R1 : (rounding 24 128 u (LSoftmax 1 2) (/ 2) 0 1 <= 15 * u)%R).
  { cbn [rounding]. fold u lo hi. lra. }
  split; [|eapply Rle_trans; [exact R1|]; lra]. unfold room. split; [cbn [reach]; lra|]. cbv zeta. fold u lo hi.
  assert (E2 : (exp (2 * 1) <= 9)%R).
  { replace (2 * 1)%R with (1 + 1)%R by ring. rewrite exp_plus. pose proof exp_le_3. pose proof (exp_pos 1). nra. }
  assert (E0 := exp_pos (2 * 1)).
  split; [lra|]. split; [|split; [|split; [|split]]].
  - intros x Fx Hx. apply C101_example; auto. change (unit_roundoff 24) with u in Hx. lra.
  - unfold in_range. rewrite (Rabs_pos_eq (2 * 1)) by lra. change (unit_roundoff 24) with u. lra.
  - change (Nat.pred (Z.to_nat 2)) with 1%nat. rewrite pow_1. lra.
  - assert (hi * (IZR 2 * exp (2 * 1)) <= 2 * (2 * 9))%R by (apply Rmult_le_compat; lra). lra.
  - lra.
Qed.

(** Where the lead is small, rounding can change the prediction: 2^24 + 1 against
    2^24 is a tie in float, and argmax takes the first. *)
Theorem C107_margin_refuted :
  let net := [LMatmul Builtin 1 2 2] in let s := demo (map (map inl)
    [[f32 1 24; f32 1 0]; [f32 9 0; f32 9 0]; [f32 1 0; f32 1 0; f32 0 0; f32 1 0]; [f32 9 0]]) in
  let E := fun c => match c with Out 0 => T_ 0 [1; 2] | Out _ => T_ 1 [1; 2] | _ => T_ 2 [2; 2] end in
  match (forward_from (dt_inl float Z) (dt_inr float Z) F32 (fun x => x) (f32 0 0) E 0 net ;;;
         op_argmax (dt_inr float Z) (mkitype false 8) (dt_inl float Z) F32 1 (T_ 3 [1]) (T_ 1 [1; 2])) s with
  | Ok _ t => dump t (T_ 3 [1]) = [Init (inr 0)] /\ shown1 (Some (dump t (T_ 1 [2]))) = floats [f32 1 24; f32 1 24]
  | _ => False
  end /\
  (forall X P : tens, X [0; 0] = (2 ^ 24)%R -> X [0; 1] = 1%R ->
     P [0; 0] = 1%R -> P [0; 1] = 1%R -> P [1; 0] = 0%R -> P [1; 1] = 1%R ->
     first_greatest 2 (fun q => net_fn 0 0 net (fun _ => P) X [0; q]) 1).
Proof.
  intros net s E. split; [vm_compute; split; reflexivity|].
  intros X P X0 X1 P0 P1 P2 P3.
  assert (Q : forall q, net_fn 0 0 net (fun _ => P) X [0; q] = (0 + X [0%Z; 0%Z] * P [0%Z; q] + X [0%Z; 1%Z] * P [1%Z; q])%R) by reflexivity.
  split; [lia|]. split.
  - intros k Hk. assert (Ek : k = 0 \/ k = 1) by lia. destruct Ek as [->| ->]; rewrite !Q, ?X0, ?X1, ?P0, ?P1, ?P2, ?P3; lra.
  - intros k Hk. assert (Ek : k = 0) by lia. subst k. rewrite !Q, ?X0, ?X1, ?P0, ?P1, ?P2, ?P3; lra.
Qed.

Print Assumptions C107_network.
Print Assumptions C107_prediction.
Print Assumptions C107_formats.
Print Assumptions C107_margin_refuted.
