(** Property C112: how far rounding can move a reported accuracy.

    The multiplication is the one built in. *)
From Coq Require Import ZArith List Bool Lia Reals Lra SpecFloat String.
From Coquelicot Require Import Coquelicot.
From Flocq Require Import Core BinarySingleNaN.
From Verif Require Import Base BaseFacts Scalar RealScalar SumFacts TensorFacts LinAlg LinAlgFacts Pool
  Demo ActivationSpec Float FloatSpec FloatFacts FloatNan FloatSumSpec FloatSumFacts FloatGradFacts ActivationFacts SoftmaxFacts FloatSoftSpec FloatSoftFacts
  StableSpec StableFacts PropsFloat PropsFloatSum NetFloatFacts
  PredictSpec PredictFacts Mixed PropsMixed
  Train TrainSpec TrainEpoch TrainTest PropsTrain TrainFloatSpec TrainFloatFacts PropsTrainFloat TrainMain TrainMainFacts PropsTrainMain.
Import ListNotations.
Open Scope Z_scope.
Open Scope model_scope.

(** ** Counting *)

Lemma count_differ : forall n p q c, (forall i, 0 <= i < n -> c i = false -> p i = q i) ->
  (Rabs (IZR (count n p) - IZR (count n q)) <= IZR (count n c))%R.
Proof.
  intros n p q c H.
  assert (G : forall l, (forall i, In i l -> c i = false -> p i = q i) ->
    Z.abs (Z.of_nat (List.length (List.filter p l)) - Z.of_nat (List.length (List.filter q l))) <= Z.of_nat (List.length (List.filter c l))).
  { induction l as [|i l IH]; intros K; [cbn; lia|]. specialize (IH (fun j Hj => K j (or_intror Hj))). specialize (K i (or_introl eq_refl)).
    cbn [List.filter]. destruct (c i).
    - destruct (p i), (q i); cbn [List.length]; lia.
    - rewrite (K eq_refl). destruct (q i); cbn [List.length]; lia. }
  rewrite <- minus_IZR, <- abs_IZR. apply IZR_le. apply G. intros i Hi. apply in_zrange in Hi. apply H; auto.
Qed.

Section Accuracy.
  Context (prec emax : Z) {Hprec : Prec_gt_0 prec} {Hmax : Prec_lt_emax prec emax}.
  Notation sc := (Fsc prec emax).
  Notation flt := (binary_float prec emax).

  (** Every pixel is finite, at most 1, and within [g] of its exact value [fr]. *)
  Definition pixels_close (N h w : Z) (f : Z -> flt) (fr : Z -> R) (g : R) (I_ : Z -> Z -> Z -> Z) : Prop :=
    forall i y x, 0 <= i < N -> 0 <= y < h -> 0 <= x < w ->
      is_finite (f (I_ i y x)) = true /\ (Rabs (B2R (f (I_ i y x))) <= 1)%R /\ (Rabs (B2R (f (I_ i y x)) - fr (I_ i y x)) <= g)%R.

  (** Distance of a computed score from the exact one: the error [e] of the
      parameters (at most [m]), the roundings, the error of the pixels. *)
  Definition score_error (d : Z) (m e g : R) : R :=
    ((IZR d + 1) * e + score_rounding prec emax d (IZR d) m + g * (IZR d * (m + e)))%R.

  (** Score of class [j] for image [i] in exact arithmetic. *)
  Definition exact_score (h w : Z) (fr : Z -> R) (I_ : Z -> Z -> Z -> Z) (q : (Z -> Z -> R) * (Z -> R)) (i j : Z) : R :=
    (rsum (h * w)%Z (fun a => fr (I_ i (a / w)%Z (a mod w)%Z) * fst q a j) + snd q j)%R.

  Lemma score_near : forall N h w k f fr g I_ p q m e i j, 0 <= h -> 0 <= w -> (0 <= m)%R -> (0 <= e)%R -> (0 <= g)%R ->
    pixels_close N h w f fr g I_ -> params_within prec emax (h * w) k m p -> params_close prec emax (h * w) k e p q ->
    (score_size prec emax (h * w)%Z (IZR (h * w)) m + half_tiny prec emax < bpow radix2 emax)%R -> 0 <= i < N -> 0 <= j < k ->
    let x := g_score sc (h * w) (fun i a => f (I_ i (a / w) (a mod w))) (fst p) (snd p) i j in
    is_finite x = true /\ (Rabs (B2R x - exact_score h w fr I_ q i j) <= score_error (h * w)%Z m e g)%R.
  Proof using.
    intros N h w k f fr g I_ p q m e i j Hh Hw Hm He Hg HX HP HC HR Hi Hj x.
    set (d := h * w) in *. assert (Hd : 0 <= d) by (unfold d; nia).
    assert (PX : forall i a, 0 <= i < N -> 0 <= a < d ->
      is_finite (f (I_ i (a / w) (a mod w))) = true /\ (Rabs (B2R (f (I_ i (a / w)%Z (a mod w)%Z))) <= 1)%R /\
      (Rabs (B2R (f (I_ i (a / w)%Z (a mod w)%Z)) - fr (I_ i (a / w)%Z (a mod w)%Z)) <= g)%R).
    { intros i0 a H0 Ha. assert (0 < w) by (unfold d in Ha; nia). apply HX; auto.
      - split; [apply Z.div_pos; lia|]. apply Z.div_lt_upper_bound; [lia|]. unfold d in Ha. lia.
      - apply Z.mod_pos_bound; lia. }
    assert (SD : forall c, sum_over Rsc (zrange d) (fun _ => c) = (IZR d * c)%R).
    { intros c. rewrite sumR_const, length_zrange, INR_IZR_INZ, Z2Nat.id by lia. reflexivity. }
    assert (D0 : (0 <= IZR d)%R) by (apply IZR_le; lia).
    pose proof (score_close prec emax N d k (IZR d) (fun i a => f (I_ i (a / w) (a mod w))) p q m e i j Hm D0) as Q. cbv zeta in Q.
    destruct Q as (F & _ & Q); auto.
    { intros i0 H0. unfold rsum. eapply Rle_trans; [apply sumR_le with (g := fun _ => 1%R)|rewrite SD; lra].
      intros a Ha. apply in_zrange in Ha. apply PX; auto. }
    { intros a Ha. apply PX; auto. }
    split; [exact F|]. fold x in Q. unfold exact_score, scores in *. fold d.
    set (A := rsum d (fun a => B2R (f (I_ i (a / w)%Z (a mod w)%Z)) * fst q a j)%R) in *.
    set (A' := rsum d (fun a => fr (I_ i (a / w)%Z (a mod w)%Z) * fst q a j)%R).
    assert (DA : (Rabs (A - A') <= g * (IZR d * (m + e)))%R).
    { unfold A, A', rsum. apply Rle_trans with (sum_over Rsc (zrange d) (fun _ => g * (m + e))%R).
      - apply sumR_dist. intros a Ha. apply in_zrange in Ha. destruct (PX i a Hi Ha) as (_ & _ & G).
        replace (B2R (f (I_ i (a / w)%Z (a mod w)%Z)) * fst q a j - fr (I_ i (a / w)%Z (a mod w)%Z) * fst q a j)%R
          with ((B2R (f (I_ i (a / w)%Z (a mod w)%Z)) - fr (I_ i (a / w)%Z (a mod w)%Z)) * fst q a j)%R by ring.
        rewrite Rabs_mult. apply Rmult_le_compat; try apply Rabs_pos; [exact G|].
        destruct HP as (HP & _), HC as (HC & _). specialize (HC a j Ha Hj). destruct (HP a j Ha Hj) as (_ & HM).
        apply Rabs_le_2 in HC. apply Rabs_le_2 in HM. apply Rabs_le_2. lra.
      - rewrite SD. lra. }
    unfold score_error. apply Rabs_le_2 in Q. apply Rabs_le_2 in DA. apply Rabs_le_2. lra.
  Qed.

  (** *** Two runs of test_slp_model (examples/example_train_mnist_slp.cpp:153-168),
      one in floating point, one in exact arithmetic.  [close] marks at least the
      images whose exact scores have no leader by more than twice the error. *)
  Theorem C112_accuracy : forall V (dt : dtype V flt) (du dn : dtype V Z) (df : dtype V float)
      V' (dt' : dtype V' R) (du' dn' : dtype V' Z) (df' : dtype V' R)
      N h w k f fr g I_ L p q m e close images labels wt b s images' labels' wt' b' s',
    1 <= N <= 16777216 -> 0 <= h -> 0 <= w -> 1 <= k <= 255 -> (0 <= m)%R -> (0 <= e)%R -> (0 <= g)%R ->
    tdims images = [N; h; w] -> tdims labels = [N] -> tdims wt = [h * w; k] -> tdims b = [k] -> fresh_ok s ->
    holds du s images (arg3 I_) -> holds du s labels (arg1 L) -> holds dt s wt (arg2 (fst p)) -> holds dt s b (arg1 (snd p)) ->
    tdims images' = [N; h; w] -> tdims labels' = [N] -> tdims wt' = [h * w; k] -> tdims b' = [k] -> fresh_ok s' ->
    holds du' s' images' (arg3 I_) -> holds du' s' labels' (arg1 L) -> holds dt' s' wt' (arg2 (fst q)) -> holds dt' s' b' (arg1 (snd q)) ->
    (forall i, 0 <= i < N -> 0 <= L i < k) ->
    pixels_close N h w f fr g I_ -> params_within prec emax (h * w) k m p -> params_close prec emax (h * w) k e p q ->
    (score_size prec emax (h * w)%Z (IZR (h * w)) m + half_tiny prec emax < bpow radix2 emax)%R ->
    (forall i, 0 <= i < N -> close i = false -> exists j, leads k (exact_score h w fr I_ q i) (2 * score_error (h * w)%Z m e g) j) ->
    exists a A t t', test_slp_model dt du dn sc Builtin df F32 f k images labels wt b s = Ok a t /\
      test_slp_model dt' du' dn' Rsc Builtin df' Rsc fr k images' labels' wt' b' s' = Ok A t' /\
      is_finite a = true /\ (Rabs (B2R a - A) <= IZR (count N close) / IZR N + 3 / 2 ^ 24)%R.
  Proof using.
    intros V dt du dn df V' dt' du' dn' df' N h w k f fr g I_ L p q m e close images labels wt b s images' labels' wt' b' s'
      HN Hh Hw Hk Hm He Hg Ei El Ew Eb Hf HI HL HW HB Ei' El' Ew' Eb' Hf' HI' HL' HW' HB' Lk HX HP HC HR Hc.
    destruct (C78_test V' dt' du' dn' df' Builtin fr N h w k images' labels' wt' b' I_ L (fst q) (snd q) s') as (t' & J & R' & J1 & _);
      auto; try lia; try exact I.
    assert (C4 : sltb sc (s0 sc) (s1 sc) = true /\ sltb sc (s0 sc) (s0 sc) = false /\ sltb sc (s1 sc) (s0 sc) = false /\ sltb sc (s1 sc) (s1 sc) = false).
    { assert (V1 : B2R (@Bone prec emax _ _) = 1%R) by apply Bone_correct.
      assert (F1 : is_finite (@Bone prec emax _ _) = true) by apply is_finite_Bone.
      cbn [sltb s0 s1 Fsc]. rewrite !Bltb_correct by (auto; reflexivity). rewrite V1. cbn [B2R].
      repeat split; [apply Rlt_bool_true|apply Rlt_bool_false|apply Rlt_bool_false|apply Rlt_bool_false]; lra. }
    destruct C4 as (Q1 & Q2 & Q3 & Q4).
    destruct (g_test_ok dt du dn df sc F32 (Bdiv mode_NE) (fun a b => eq_refl) Q1 Q2 Q3 Q4 Builtin f N h w k images labels wt b I_ L (fst p) (snd p) s)
      as (t & R1 & _); auto; try lia; try exact I.
    set (x := g_score sc (h * w) (fun i a => f (I_ i (a / w) (a mod w))) (fst p) (snd p)) in *.
    set (P := fun i => scan sc k (x i) =? L i).
    assert (EW : g_wrong sc f N h w k I_ L (fst p) (snd p) = count N (fun i => negb (P i))) by reflexivity.
    rewrite EW in R1.
    destruct (accuracy_rounded N (count N P) (count N (fun i => negb (P i))) HN) as (F & D);
      [unfold count; lia|unfold count; lia|apply count_compl; lia|].
    eexists _, _, t, t'. split; [exact R1|]. split; [exact R'|]. split; [exact F|].
    assert (N0 : (1 <= IZR N)%R) by (apply IZR_le; lia).
    pose proof (count_differ N P (fun i => J i =? L i) close) as CD.
    assert (CD' : (Rabs (IZR (count N P) - IZR (count N (fun i => J i =? L i))) <= IZR (count N close))%R).
    { apply CD. intros i Hi Ci. unfold P. f_equal. destruct (Hc i Hi Ci) as (j & Lj).
      assert (SN : forall l, 0 <= l < k -> is_finite (x i l) = true /\ (Rabs (B2R (x i l) - exact_score h w fr I_ q i l) <= score_error (h * w)%Z m e g)%R).
      { intros l Hl. apply (score_near N h w k f fr g I_ p q m e i l); auto. }
      assert (S0 : (0 <= score_error (h * w)%Z m e g)%R) by (eapply Rle_trans; [apply Rabs_pos|apply (SN j); apply Lj]).
      assert (E1 : J i = j).
      { apply (first_unique k (exact_score h w fr I_ q i)); [exact (J1 i Hi)|]. apply leads_first. eapply leads_weaken; [|exact Lj]. lra. }
      rewrite E1. rewrite (scan_float prec emax) by (try lia; intros l Hl; apply SN; exact Hl).
      apply (first_unique k (fun l => B2R (x i l))); [apply scan_first; lia|]. apply leads_first.
      set (err := score_error (h * w) m e g) in *. apply (leads_weaken k _ (2 * err - 2 * err) 0 j); [lra|].
      eapply leads_close; [|exact Lj]. intros l Hl. rewrite Rabs_minus_sym. apply SN; exact Hl. }
    assert (I0 : (0 < / IZR N)%R) by (apply Rinv_0_lt_compat; lra).
    assert (Q : (Rabs (IZR (count N P) / IZR N - IZR (count N (fun i => J i =? L i)) / IZR N) <= IZR (count N close) / IZR N)%R).
    { unfold Rdiv. rewrite <- Rmult_minus_distr_r, Rabs_mult, (Rabs_pos_eq (/ IZR N)) by lra. apply Rmult_le_compat_r; [lra|exact CD']. }
    apply Rabs_le_2 in Q. apply Rabs_le_2 in D. apply Rabs_le_2. lra.
  Qed.
End Accuracy.

(** ** The accuracies printed by the training program (C111) *)

Definition byte_value (p : Z) : R := (IZR p / 255)%R.
Definition real_params (W : Z -> Z -> float) (B : Z -> float) : (Z -> Z -> R) * (Z -> R) := (fun a j => B2R (W a j), fun j => B2R (B j)).

Lemma bytes_close : forall n I_, byte_pixels n I_ -> pixels_close 24 128 n 28 28 pixel_float byte_value (2 / 2 ^ 24) I_.
Proof.
  intros n I_ HI i y x Hi Hy Hx. pose proof (HI i y x Hi Hy Hx) as Hp. set (p := I_ i y x) in *.
  destruct (C104_pixel p Hp) as (_ & _ & F & E & R1 & _). split; [exact F|]. split; [rewrite Rabs_pos_eq; lra|].
  rewrite E. pose proof (rnd_err 24 128 (IZR p / 255)) as Q. rewrite u24 in Q. pose proof eta24 as T.
  assert (P0 : (0 <= IZR p)%R) by (apply IZR_le; lia). assert (P1 : (IZR p <= 255)%R) by (apply IZR_le; lia).
  unfold byte_value. rewrite (Rabs_pos_eq (IZR p / 255)) in Q by lra.
  eapply Rle_trans; [exact Q|]. lra.
Qed.

Lemma score_error28 : forall m, (/ 1000000 <= m <= 1000000)%R ->
  (2 * score_error 24 128 784 m 0 (2 / 2 ^ 24) <= m / 6)%R /\
  (score_size 24 128 784 784 m + half_tiny 24 128 < bpow radix2 128)%R.
Proof.
  intros m Hm. unfold score_error, score_size, score_rounding, dot_bound. cbv zeta. rewrite u24. change (Z.to_nat 784) with 784%nat.
  pose proof pow784 as P. pose proof eta24 as E. pose proof big24 as M. rewrite INR_IZR_INZ. change (Z.of_nat 784) with 784.
  set (p := ((1 + / 16777216) ^ 784)%R) in *. set (z := half_tiny 24 128) in *.
  assert (A : (0 <= (p - 1) * (784 * m) <= / 10000 * (784 * m))%R).
  { split; [apply Rmult_le_pos; lra|apply Rmult_le_compat_r; lra]. }
  assert (Bz : (0 <= 784 * z * p <= / 1000000000000)%R).
  { split; [apply Rmult_le_pos; lra|]. assert (784 * z * p <= 784 * / 1152921504606846976 * 2)%R by (apply Rmult_le_compat; lra). lra. }
  set (r1 := ((p - 1) * (784 * m))%R) in *. set (r2 := (784 * z * p)%R) in *. split; lra.
Qed.

(** Parameters at most [m]: only images without a lead of more than m / 6 can make
    the reported number differ from the exact accuracy of these parameters on
    the exact pixels p / 255. *)
Theorem C112_program : forall n I_ L W B a m close J, reports n I_ L W B a -> 1 <= n -> byte_pixels n I_ ->
  params_at_most m W B -> (/ 1000000 <= m <= 1000000)%R ->
  let exact := exact_score 28 28 byte_value I_ (real_params W B) in
  (forall i, 0 <= i < n -> close i = false -> exists j, leads 10 (exact i) (m / 6) j) ->
  (forall i, 0 <= i < n -> first_max 10 (exact i) (J i)) ->
  (Rabs (B2R a - IZR (count n (fun i => J i =? L i)) / IZR n) <= IZR (count n close) / IZR n + 3 / 2 ^ 24)%R.
Proof.
  intros n I_ L W B a m close J (J' & H1 & _ & D) Hn HI HP Hm exact Hc HJ.
  destruct (score_error28 m Hm) as (SE & SS).
  assert (SN : forall i j, 0 <= i < n -> 0 <= j < 10 -> (Rabs (B2R (score I_ W B i j) - exact i j) <= score_error 24 128 784 m 0 (2 / 2 ^ 24))%R).
  { intros i j Hi Hj.
    pose proof (score_near 24 128 n 28 28 10 pixel_float byte_value (2 / 2 ^ 24) I_ (W, B) (real_params W B) m 0 i j
      ltac:(lia) ltac:(lia) ltac:(lra) ltac:(lra) ltac:(lra) (bytes_close n I_ HI)) as Q.
    change (28 * 28) with 784 in Q. cbn [fst snd] in Q. rewrite <- score_is in Q.
    refine (proj2 (Q HP _ SS Hi Hj)). split; cbn [fst snd real_params]; intros; rewrite Rminus_diag_eq, Rabs_R0 by reflexivity; lra. }
  assert (CD : (Rabs (IZR (count n (fun i => J' i =? L i)) - IZR (count n (fun i => J i =? L i))) <= IZR (count n close))%R).
  { apply count_differ. intros i Hi Ci. f_equal. destruct (Hc i Hi Ci) as (j & Lj).
    assert (E1 : J i = j).
    { apply (first_unique 10 (exact i)); [exact (HJ i Hi)|]. apply leads_first. eapply leads_weaken; [|exact Lj]. lra. }
    rewrite E1. apply (first_unique 10 (fun l => B2R (score I_ W B i l))); [exact (H1 i Hi)|]. apply leads_first.
    set (err := score_error 24 128 784 m 0 (2 / 2 ^ 24)) in *.
    apply (leads_weaken 10 _ (m / 6 - 2 * err) 0 j); [lra|].
    eapply leads_close; [|exact Lj]. intros l Hl. rewrite Rabs_minus_sym. apply SN; auto. }
  assert (N0 : (1 <= IZR n)%R) by (apply IZR_le; lia).
  assert (I0 : (0 < / IZR n)%R) by (apply Rinv_0_lt_compat; lra).
  assert (Q : (Rabs (IZR (count n (fun i => J' i =? L i)) / IZR n - IZR (count n (fun i => J i =? L i)) / IZR n) <= IZR (count n close) / IZR n)%R).
  { unfold Rdiv. rewrite <- Rmult_minus_distr_r, Rabs_mult, (Rabs_pos_eq (/ IZR n)) by lra. apply Rmult_le_compat_r; [lra|exact CD]. }
  apply Rabs_le_2 in Q. apply Rabs_le_2 in D. apply Rabs_le_2. lra.
Qed.

(** ** Examples *)

Definition demo_test (B : list float) (images labels : list Z) : option spec_float :=
  let n := Z.of_nat (List.length images) in
  match test_slp_model (dt_inl float Z) (dt_inr float Z) (dt_inr float Z) F32 Builtin (dt_inl float Z) F32 pixel_float 2
      (T_ 0 [n; 1; 1]) (T_ 1 [n]) (T_ 2 [1; 2]) (T_ 3 [2])
      (demo [map inr images; map inr labels; map inl [hd (f32 0 0) B; nth 1 B (f32 0 0)]; map inl (skipn 2 B)]) with
  | Ok a _ => Some (B2SF a)
  | _ => None
  end.

(** Weights 1 and 0, biases -1/2 and 0, pixels 255 and 51, labels 0 and 1: both
    images have a lead of more than twice the error, and the accuracy is 1. *)
Definition two_pixels (i y x : Z) : Z := if i =? 0 then 255 else 51.
Example C112_example :
  demo_test [f32 1 0; f32 0 0; f32 (-1) (-1); f32 0 0] [255; 51] [0; 1] = Some (B2SF (f32 1 0)) /\
  forall i, 0 <= i < 2 ->
    leads 2 (exact_score 1 1 byte_value two_pixels (fun a j => if j =? 0 then 1 else 0, fun j => if j =? 0 then - / 2 else 0)%R i)
      (2 * score_error 24 128 1 1 0 (2 / 2 ^ 24)) i.
Proof.
  split; [vm_compute; reflexivity|]. intros i Hi.
  assert (SE : (2 * score_error 24 128 1 1 0 (2 / 2 ^ 24) <= / 10)%R).
  { unfold score_error, score_rounding, dot_bound. cbv zeta. rewrite u24. change (Z.to_nat 1) with 1%nat. rewrite pow_1. cbn [INR].
    pose proof eta24 as E. set (z := half_tiny 24 128) in *. lra. }
  split; [exact Hi|]. intros j Hj Ne.
  assert (K : i = 0 /\ j = 1 \/ i = 1 /\ j = 0) by lia.
  unfold exact_score, rsum, sum_over, byte_value, two_pixels. cbn [fst snd].
  change (zrange (1 * 1)) with [0]. cbn [fold_left Rsc sadd s0].
  destruct K as [[-> ->]|[-> ->]]; cbn [Z.eqb]; lra.
Qed.

(** Without a lead: the exact scores of the image are 2^24 and 2^24 + 1, the exact
    accuracy is 1, the reported one 0. *)
Theorem C112_close_refuted :
  demo_test [f32 16777216 0; f32 16777216 0; f32 0 0; f32 1 0] [255] [1] = Some (B2SF (f32 0 0)) /\
  first_max 2 (exact_score 1 1 byte_value (fun _ _ _ => 255) (fun _ _ => 16777216, fun j => if (j =? 0)%Z then 0 else 1)%R 0) 1.
Proof.
  split; [vm_compute; reflexivity|].
  assert (E : forall j, exact_score 1 1 byte_value (fun _ _ _ => 255) (fun _ _ => 16777216, fun j => if (j =? 0)%Z then 0 else 1)%R 0 j
    = (16777216 + if j =? 0 then 0 else 1)%R).
  { intros j. unfold exact_score, rsum, sum_over, byte_value. cbn [fst snd]. change (zrange (1 * 1)) with [0]. cbn [fold_left Rsc sadd s0].
    destruct (j =? 0); lra. }
  split; [lia|]. split; intros i Hi; rewrite !E.
  - destruct (i =? 0); cbn [Z.eqb]; lra.
  - replace i with 0 by lia. cbn [Z.eqb]. lra.
Qed.

Print Assumptions C112_accuracy.
Print Assumptions C112_program.
Print Assumptions C112_close_refuted.
