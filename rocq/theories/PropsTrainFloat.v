(** Property C110: training in floating point.

    The multiplication is the one built in; std::log is any function, std::exp
    any function with the special cases of the C standard and, where a distance
    is claimed, a given relative accuracy. *)
From Coq Require Import ZArith List Bool Lia Reals Lra SpecFloat.
From Coquelicot Require Import Coquelicot.
From Flocq Require Import Core BinarySingleNaN.
From Verif Require Import Base BaseFacts Scalar RealScalar SumFacts TensorFacts LinAlg ActivationSpec ActivationFacts SoftmaxFacts Pool
  Demo Backprop Float FloatSpec FloatFacts FloatNan FloatSumSpec FloatSumFacts FloatSoftSpec FloatSoftFacts FloatGradSpec FloatGradFacts
  PropsFloat PropsFloatSum StableFacts NetFloatSpec NetFloatFacts Mixed PropsMixed
  Train TrainSpec TrainEpoch TrainFloatSpec TrainFloatFacts.
Import ListNotations.
Open Scope Z_scope.
Open Scope model_scope.

Section TrainFloat.
  Context {V : Type} (prec emax : Z) {Hprec : Prec_gt_0 prec} {Hmax : Prec_lt_emax prec emax}.
  Context (dt : dtype V (binary_float prec emax)) (du : dtype V Z).
  Notation sc := (Fsc prec emax).
  Notation flt := (binary_float prec emax).
  Context (exp_ log_ : flt -> flt) (eps : flt) (f : Z -> flt) (half c : flt).
  Context (N h w n k : Z) (peak omega : R).
  Notation train_size := (train_size prec emax n k peak omega (B2R eps)).
  Notation F := (g_descend sc (Bdiv mode_NE) exp_ eps c n (h * w) k).

  (** The memory: [N] images and labels, weights [W] and biases [B]. *)
  Definition given (images labels wt b : tensor) (I_ : Z -> Z -> Z -> Z) (L : Z -> Z) (W : Z -> Z -> flt) (B : Z -> flt) (s : st V) : Prop :=
    tdims images = [N; h; w] /\ tdims labels = [N] /\ tdims wt = [h * w; k] /\ tdims b = [k] /\ fresh_ok s /\
    holds du s images (arg3 I_) /\ holds du s labels (arg1 L) /\ holds dt s wt (arg2 W) /\ holds dt s b (arg1 B) /\
    disjoint wt b /\ disjoint wt images /\ disjoint wt labels /\ disjoint b images /\ disjoint b labels.

  (** Sizes, and what is asked of the constants and of the pixels. *)
  Definition sane (I_ : Z -> Z -> Z -> Z) : Prop :=
    1 <= n < 2 ^ 32 /\ 0 <= N < 2 ^ 32 /\ 0 <= h /\ 0 <= w /\ 0 <= k <= 255 /\
    exp_ok prec emax exp_ /\ is_finite eps = true /\ (0 < B2R eps <= 1)%R /\ (1 <= peak)%R /\ (0 <= omega)%R /\
    rate_ok prec emax n omega c /\
    (forall i y x, 0 <= i < N -> 0 <= y < h -> 0 <= x < w ->
       is_finite (f (I_ i y x)) = true /\ (Rabs (B2R (f (I_ i y x))) <= peak)%R) /\
    ratio_room prec emax n omega (B2R eps).

  Lemma run_ok : forall images labels wt b I_ L W B s, given images labels wt b I_ L W B s -> sane I_ ->
    let P := steps_of sc n w f I_ L F (N / n) (W, B) in
    exists s', train_slp_model dt du sc exp_ log_ eps (div_float sc) Builtin f half c k images labels wt b n s = Ok tt s' /\
      holds dt s' wt (arg2 (fst P)) /\ holds dt s' b (arg1 (snd P)) /\
      nextb s <= nextb s' /\ (forall p, ~ foot wt p -> ~ foot b p -> cells s' p = cells s p).
  Proof using.
    intros images labels wt b I_ L W B s (Ei & El & Ew & Eb & Hf & HI & HL & HW & HB & D1 & D2 & D3 & D4 & D5)
      (Hn & HN & Hh & Hw & Hk & _) P.
    pose proof (train_run dt sc du exp_ log_ eps (div_float sc) Builtin c F f half N h w n k
      images labels wt b I_ L W B s Hn HN Hh Hw Hk) as Q. apply Q; auto.
    intros E X Y W0 B0 A s0 OK I0 AX AY AW AB AG.
    apply (g_step_ok dt sc (Bdiv mode_NE) (fun a b => eq_refl)); auto; nia.
  Qed.

  Lemma batch_index : forall o i a, 1 <= n -> 0 <= N -> 0 <= h -> 0 <= w -> 0 <= o < N / n -> 0 <= i < n -> 0 <= a < h * w ->
    0 <= o * n + i < N /\ 0 <= a / w < h /\ 0 <= a mod w < w.
  Proof using.
    intros o i a Hn HN Hh Hw Ho Hi Ha. pose proof (Z.mul_div_le N n ltac:(lia)). assert (0 < w) by nia. split; [nia|].
    split; [|apply Z.mod_pos_bound; lia]. split; [apply Z.div_pos; lia|]. apply Z.div_lt_upper_bound; nia.
  Qed.

  Lemma batches : forall I_ L o, sane I_ -> 0 <= o < N / n ->
    examples prec emax n (h * w) k peak (pixels n w f I_ o) (onehots sc n L o).
  Proof using.
    intros I_ L o (Hn & HN & Hh & Hw & Hk & _ & _ & _ & Hp & _ & _ & HI & _) Ho i Hi.
    assert (E1 : B2R (@Bone prec emax _ _) = 1%R) by apply Bone_correct.
    split; [|split].
    - intros a Ha. destruct (batch_index o i a) as (A1 & A2 & A3); auto; try lia. apply HI; auto.
    - intros j Hj. unfold onehots. cbn [s0 s1 Fsc]. destruct (L (o * n + i) =? j).
      + split; [apply is_finite_Bone|rewrite E1; lra].
      + split; [reflexivity|cbn; lra].
    - unfold rsum. rewrite (sumR_ext (zrange k) _ (fun j => if L (o * n + i)%Z =? j then 1 else 0)%R).
      + pose proof (sum_pick Rsc Rsc_laws k (L (o * n + i)) (fun _ => 1%R)) as Q. cbn [s0 Rsc] in Q. rewrite Q.
        destruct ((0 <=? _) && _); lra.
      + intros j _. unfold onehots. cbn [s0 s1 Fsc]. destruct (L (o * n + i) =? j); [exact E1|reflexivity].
  Qed.

  Lemma run_within : forall I_ L W B m, sane I_ -> (0 <= m)%R -> params_within prec emax (h * w) k m (W, B) ->
    (forall t, (t < Z.to_nat (N / n))%nat -> step_room prec emax n k peak omega (B2R eps) (train_size t m)) ->
    params_within prec emax (h * w) k (train_size (Z.to_nat (N / n)) m) (steps_of sc n w f I_ L F (N / n) (W, B)).
  Proof using.
    intros I_ L W B m HS Hm HP HR.
    pose proof HS as (Hn & HN & Hh & Hw & Hk & Ex & Fe & He & Hp & Ho & Hc & HI & RR).
    assert (G : forall t, (t <= Z.to_nat (N / n))%nat ->
      (0 <= train_size t m)%R /\ params_within prec emax (h * w) k (train_size t m) (steps_of sc n w f I_ L F (Z.of_nat t) (W, B))).
    { induction t as [|t IH]; intros Ht; [split; [exact Hm|exact HP]|].
      destruct IH as (I1 & I2); [lia|]. pose proof (HR t ltac:(lia)) as Rt. split.
      - destruct (sizes_pos prec emax eps n k peak omega ltac:(lia) He Hp Ho) as (S0 & S1 & _ & S3).
        pose proof (u_pos prec). cbn [TrainFloatSpec.train_size]. unfold step_size. apply Rmult_le_pos; lra.
      - rewrite Nat2Z.inj_succ, <- Z.add_1_r, steps_succ by lia. cbn [TrainFloatSpec.train_size].
        apply (step_finite prec emax exp_ eps c n (h * w) k 0 peak omega); auto; try lia.
        apply batches; [exact HS|lia]. }
    specialize (G (Z.to_nat (N / n)) ltac:(lia)). rewrite Z2Nat.id in G; [apply G|]. apply Z.div_pos; lia.
  Qed.

  (** *** Training never produces a NaN or an infinity, whatever the scores are:
      softmax keeps every probability above [eps] and below 1, so a step moves a
      parameter by a bounded amount. *)
  Theorem C110_finite : forall images labels wt b I_ L W B m s, given images labels wt b I_ L W B s -> sane I_ ->
    (0 <= m)%R -> params_within prec emax (h * w) k m (W, B) ->
    (forall t, (t < Z.to_nat (N / n))%nat -> step_room prec emax n k peak omega (B2R eps) (train_size t m)) ->
    exists s' W' B', train_slp_model dt du sc exp_ log_ eps (div_float sc) Builtin f half c k images labels wt b n s = Ok tt s' /\
      holds dt s' wt (arg2 W') /\ holds dt s' b (arg1 B') /\
      params_within prec emax (h * w) k (train_size (Z.to_nat (N / n)) m) (W', B') /\
      (forall p, ~ foot wt p -> ~ foot b p -> cells s' p = cells s p).
  Proof using.
    intros images labels wt b I_ L W B m s HG HS Hm HP HR.
    destruct (run_ok images labels wt b I_ L W B s HG HS) as (s' & E' & HW' & HB' & _ & F').
    eexists s', _, _. split; [exact E'|]. split; [exact HW'|]. split; [exact HB'|]. split; [|exact F'].
    rewrite <- surjective_pairing. apply run_within; auto.
  Qed.

  (** *** The distance from exact gradient descent on the same pixels, from the
      parameters [q] that differ by at most [e]. *)
  Theorem C110_train : forall acc l1 images labels wt b I_ L W B m e q s, given images labels wt b I_ L W B s -> sane I_ ->
    (0 <= m)%R -> params_within prec emax (h * w) k m (W, B) -> params_close prec emax (h * w) k e (W, B) q ->
    (0 <= l1)%R -> (forall i, 0 <= i < N -> (rsum (h * w) (fun a => Rabs (B2R (f (I_ i (a / w)%Z (a mod w)%Z)))) <= l1)%R) ->
    (forall t, (t < Z.to_nat (N / n))%nat ->
       step_room prec emax n k peak omega (B2R eps) (train_size t m) /\
       score_room prec emax (h * w) k l1 acc exp_ (train_size t m)) ->
    exists s' W' B', train_slp_model dt du sc exp_ log_ eps (div_float sc) Builtin f half c k images labels wt b n s = Ok tt s' /\
      holds dt s' wt (arg2 W') /\ holds dt s' b (arg1 B') /\
      params_close prec emax (h * w) k (train_error prec emax n (h * w) k l1 peak omega (B2R eps) acc (Z.to_nat (N / n)) m e) (W', B')
        (epoch (B2R eps) n (h * w) k (batch_x (fun v => B2R (f v)) w n I_) (batch_y n L) (N / n) q).
  Proof using.
    intros acc l1 images labels wt b I_ L W B m e q s HG HS Hm HP HC H1 HL HR.
    destruct (run_ok images labels wt b I_ L W B s HG HS) as (s' & E' & HW' & HB' & _ & F').
    eexists s', _, _. split; [exact E'|]. split; [exact HW'|]. split; [exact HB'|].
    rewrite <- surjective_pairing.
    pose proof HS as (Hn & HN & Hh & Hw & Hk & Ex & Fe & He & Hp & Ho & Hc & HI & RR).
    assert (E1 : B2R (@Bone prec emax _ _) = 1%R) by apply Bone_correct.
    set (Q := fun t => epoch (B2R eps) n (h * w) k (batch_x (fun v => B2R (f v)) w n I_) (batch_y n L) (Z.of_nat t) q).
    assert (G : forall t, (t <= Z.to_nat (N / n))%nat ->
      (0 <= train_size t m)%R /\ params_within prec emax (h * w) k (train_size t m) (steps_of sc n w f I_ L F (Z.of_nat t) (W, B)) /\
      params_close prec emax (h * w) k (train_error prec emax n (h * w) k l1 peak omega (B2R eps) acc t m e)
        (steps_of sc n w f I_ L F (Z.of_nat t) (W, B)) (Q t)).
    { induction t as [|t IH]; intros Ht; [split; [exact Hm|split; [exact HP|exact HC]]|].
      destruct IH as (I1 & I2 & I3); [lia|]. destruct (HR t ltac:(lia)) as (Rt & St). 
      assert (HB : examples prec emax n (h * w) k peak (pixels n w f I_ (Z.of_nat t)) (onehots sc n L (Z.of_nat t))) by (apply batches; [exact HS|lia]).
      assert (EQ : Q (S t) = descend (B2R eps) n (h * w) k (fun i a => B2R (pixels n w f I_ (Z.of_nat t) i a))
                      (fun i j => if L (Z.of_nat t * n + i) =? j then 1%R else 0%R) (Q t)).
      { unfold Q, epoch. rewrite Nat2Z.inj_succ, <- Z.add_1_r, zrange_succ, fold_left_app by lia. reflexivity. }
      split; [|split].
      - destruct (sizes_pos prec emax eps n k peak omega ltac:(lia) He Hp Ho) as (S0 & S1 & _ & S3).
        pose proof (u_pos prec). cbn [TrainFloatSpec.train_size]. unfold step_size. apply Rmult_le_pos; lra.
      - rewrite Nat2Z.inj_succ, <- Z.add_1_r, steps_succ by lia. cbn [TrainFloatSpec.train_size].
        apply (step_finite prec emax exp_ eps c n (h * w) k 0 peak omega); auto; lia.
      - rewrite EQ, Nat2Z.inj_succ, <- Z.add_1_r, steps_succ by lia. cbn [train_error].
        assert (SC := step_close prec emax exp_ eps c n (h * w) k l1 peak omega ltac:(lia) ltac:(lia) Fe He Hp Ho Hc acc
          (pixels n w f I_ (Z.of_nat t)) (onehots sc n L (Z.of_nat t)) (steps_of sc n w f I_ L F (Z.of_nat t) (W, B)) (Q t)
          (train_size t m) (train_error prec emax n (h * w) k l1 peak omega (B2R eps) acc t m e) Ex I1 H1 HB).
        assert (EY : (fun i j => B2R (onehots sc n L (Z.of_nat t) i j)) =
                     (fun i j => if L (Z.of_nat t * n + i) =? j then 1%R else 0%R)).
        { apply FunctionalExtensionality.functional_extensionality. intros i.
          apply FunctionalExtensionality.functional_extensionality. intros j.
          unfold onehots. cbn [s0 s1 Fsc]. destruct (_ =? _); [exact E1|reflexivity]. }
        rewrite EY in SC. apply SC; auto.
        intros i Hi. apply HL. pose proof (Z.mul_div_le N n ltac:(lia)). nia. }
    specialize (G (Z.to_nat (N / n)) ltac:(lia)). unfold Q in G. rewrite Z2Nat.id in G; [apply G|]. apply Z.div_pos; lia.
  Qed.
End TrainFloat.

(** *** The example program: float, images of 28 x 28 pixels, 10 classes, batches
    of 100, all weights .5 and all biases 0 at the start *)

(** static_cast<float>(1.0 / batch_size) (examples/example_train_mnist_slp.cpp:116). *)
Definition rate100 : float := narrow (Bdiv mode_NE (double_of_int 1) (double_of_int 100)).

Lemma sf_value : forall (x : float) m e, B2SF x = S754_finite false m e -> (B2R x = IZR (Zpos m) * bpow radix2 e)%R.
Proof. intros x m e E. rewrite <- SF2R_B2SF, E. reflexivity. Qed.

Lemma pow_le : forall v t, (0 <= v)%R -> (2 * INR t * v <= 1)%R -> (1 <= (1 + v) ^ t <= 1 + 2 * INR t * v)%R.
Proof.
  intros v t Hv. induction t as [|t IH]; intros Ht; [cbn; lra|]. rewrite S_INR in Ht |- *. cbn [pow].
  assert (0 <= INR t)%R by apply pos_INR. assert (0 <= INR t * v)%R by (apply Rmult_le_pos; lra).
  destruct IH as (I1 & I2); [lra|]. set (P := ((1 + v) ^ t)%R) in *. split; [nra|].
  assert ((1 + v) * P <= (1 + v) * (1 + 2 * INR t * v))%R by (apply Rmult_le_compat_l; lra).
  assert (v * (2 * INR t * v) <= v * 1)%R by (apply Rmult_le_compat_l; lra). lra.
Qed.

Lemma u24 : unit_roundoff 24 = (/ 16777216)%R.
Proof. unfold unit_roundoff. simpl. lra. Qed.
Lemma eta24 : (0 < half_tiny 24 128 <= / 1152921504606846976)%R.
Proof.
  unfold half_tiny. pose proof (bpow_gt_0 radix2 (3 - 128 - 24)) as Q. split; [lra|].
  assert (Q2 : (bpow radix2 (3 - 128 - 24) <= bpow radix2 (-60))%R) by (apply bpow_le; lia).
  change (bpow radix2 (-60)) with (/ 1152921504606846976)%R in Q2. lra.
Qed.
Lemma big24 : (1099511627776 <= bpow radix2 128)%R.
Proof. change 1099511627776%R with (bpow radix2 40). apply bpow_le. lia. Qed.

Lemma eps32_value : is_finite eps32 = true /\ (/ 1000001 <= B2R eps32 <= / 1000000)%R.
Proof.
  split; [vm_compute; reflexivity|]. rewrite (sf_value eps32 8796093 (-43)) by (vm_compute; reflexivity).
  change (bpow radix2 (-43)) with (/ 8796093022208)%R. lra.
Qed.

Lemma rate100_ok : rate_ok 24 128 100 (/ 1000000) rate100.
Proof.
  unfold rate_ok. split; [vm_compute; reflexivity|].
  rewrite (sf_value rate100 10737418 (-30)) by (vm_compute; reflexivity). change (bpow radix2 (-30)) with (/ 1073741824)%R.
  split; [lra|]. apply Rabs_le. lra.
Qed.

Lemma mnist_sizes : let w := weight 100 (/ 1000000) in let e := B2R eps32 in
  ratio_room 24 128 100 (/ 1000000) e /\
  forall m, (0 <= m <= 1000)%R -> (m <= step_size 24 128 100 10 1 (/ 1000000) e m <= m + 1001 / 1000)%R.
Proof.
  intros w e. destruct eps32_value as (_ & E). fold e in E. pose proof eta24 as T. pose proof big24 as M.
  assert (Ie : (0 < / e <= 1000001)%R).
  { split; [apply Rinv_0_lt_compat; lra|]. rewrite <- (Rinv_inv 1000001). apply Rinv_le_contravar; lra. }
  assert (Ew : (w = 1000001 / 100000000)%R) by (unfold w, weight; lra).
  assert (We : (0 <= w / e <= 10001)%R) by (rewrite Ew; unfold Rdiv at 1 2; split; [|]; unfold Rdiv; lra).
  split.
  - unfold ratio_room, in_range. fold w. rewrite (Rabs_pos_eq (/ e)) by lra. rewrite u24. set (q := (w / e)%R) in *.
    set (z := half_tiny 24 128) in *. rewrite Ew. split; lra.
  - intros m Hm. unfold step_size, grad_rounding, grad_size, delta_size, delta_rounding, soft_grad_bound, dot_bound. fold w.
    rewrite u24. set (q := (w / e)%R) in *. set (z := half_tiny 24 128) in *.
    assert (Bt : (0 <= delta_tiny 24 128 100 10 (/ 1000000) <= / 1000000000000)%R).
    { unfold delta_tiny. fold w z. rewrite u24, Ew. change (INR (Z.to_nat 10)) with (INR 10). rewrite INR_IZR_INZ. cbn [Z.of_nat Pos.of_succ_nat Pos.succ].
      lra. }
    set (dt := delta_tiny 24 128 100 10 (/ 1000000)) in *.
    assert (EN : forall p, INR (Pos.to_nat p) = IZR (Zpos p)) by (intros; rewrite INR_IZR_INZ, positive_nat_Z; reflexivity).
    set (v := (/ 16777216)%R).
    assert (PP : forall p r, (0 <= 2 * IZR (Zpos p) <= r)%R -> (r <= 1000)%R -> (1 <= (1 + v) ^ (Z.to_nat (Zpos p)) <= 1 + r * v)%R).
    { intros p r Hp Hq. cbn [Z.to_nat]. pose proof (pow_le v (Pos.to_nat p)) as Q. rewrite EN in Q.
      assert (2 * IZR (Zpos p) * v <= r * v)%R by (apply Rmult_le_compat_r; unfold v; lra).
      destruct Q; unfold v in *; lra. }
    assert (P10 := PP 10%positive 20%R ltac:(lra) ltac:(lra)). assert (P12 := PP 12%positive 24%R ltac:(lra) ltac:(lra)).
    assert (P100 := PP 100%positive 200%R ltac:(lra) ltac:(lra)). change (Z.to_nat 12) with (Z.to_nat 10 + 2)%nat in P12.
    set (a := ((1 + v) ^ Z.to_nat 10)%R) in *. set (b := ((1 + v) ^ (Z.to_nat 10 + 2))%R) in *. set (c := ((1 + v) ^ Z.to_nat 100)%R) in *.
    cbn [Z.to_nat]. rewrite !EN.
    assert (Ev : ((1 + v) ^ 2 <= 1 + 3 * v)%R) by (unfold v; cbn [pow]; lra).
    assert (Ev1 : (1 <= (1 + v) ^ 2)%R) by (unfold v; cbn [pow]; lra).
    set (sq := ((1 + v) ^ 2)%R) in *.
    assert (S1 : (0 <= sq * w + dt <= 11 / 1000)%R) by (rewrite Ew; unfold v in *; lra).
    assert (S2 : (0 <= sq * q + dt <= 10003)%R).
    { split; [assert (0 <= sq * q)%R by (apply Rmult_le_pos; lra); lra|].
      assert (sq * q <= (1 + 3 * v) * 10001)%R by (apply Rmult_le_compat; lra). unfold v in *; lra. }
    set (G := (sq * w + dt)%R) in *. set (G2 := (sq * q + dt)%R) in *.
    assert (S3 : (0 <= (b - 1) * G <= / 10000000)%R).
    { split; [apply Rmult_le_pos; lra|]. assert ((b - 1) * G <= 24 * v * (11 / 1000))%R by (apply Rmult_le_compat; lra). unfold v in *; lra. }
    assert (S4 : (0 <= a * (10 + G2) * z <= / 10000000)%R).
    { assert (0 <= a * (10 + G2) <= 2 * 10013)%R.
      { split; [apply Rmult_le_pos; lra|]. apply Rmult_le_compat; unfold v in *; lra. }
      split; [apply Rmult_le_pos; lra|]. assert (a * (10 + G2) * z <= 2 * 10013 * / 1152921504606846976)%R by (apply Rmult_le_compat; lra). lra. }
    assert (S5 : (0 <= (sq - 1) * w + dt <= / 10000000)%R) by (rewrite Ew; unfold v in *; lra).
    set (D := (w + ((b - 1) * G + a * (10 + G2) * z + ((sq - 1) * w + dt)))%R).
    assert (BD : (0 <= D <= 1000031 / 100000000)%R) by (unfold D; rewrite Ew at 1 3; lra).
    assert (S6 : (0 <= (c - 1) * (100 * 1 * D) <= / 50000)%R).
    { split; [apply Rmult_le_pos; lra|]. assert ((c - 1) * (100 * 1 * D) <= 200 * v * (101 / 100))%R by (apply Rmult_le_compat; lra). unfold v in *; lra. }
    assert (S7 : (0 <= 100 * z * c <= / 10000000)%R).
    { split; [apply Rmult_le_pos; lra|]. assert (100 * z * c <= 100 * / 1152921504606846976 * 2)%R by (apply Rmult_le_compat; unfold v in *; lra). lra. }
    unfold v in *. lra.
Qed.

(** What [N] images make of the parameters. *)
Definition mnist_trained (exp_ : float -> float) (N : Z) (I_ : Z -> Z -> Z -> Z) (L : Z -> Z) : (Z -> Z -> float) * (Z -> float) :=
  steps_of F32 100 28 pixel_float I_ L (g_descend F32 (Bdiv mode_NE) exp_ eps32 rate100 100 784 10) (N / 100)
    (fun _ _ => f32 1 (-1), fun _ => f32 0 0).

Definition byte_pixels (N : Z) (I_ : Z -> Z -> Z -> Z) : Prop :=
  forall i y x, 0 <= i < N -> 0 <= y < 28 -> 0 <= x < 28 -> 0 <= I_ i y x <= 255.

Lemma mnist_sane : forall exp_ N I_, exp_ok 24 128 exp_ -> 0 <= N <= 60000 -> byte_pixels N I_ ->
  sane 24 128 exp_ eps32 pixel_float rate100 N 28 28 100 10 1 (/ 1000000) I_.
Proof.
  intros exp_ N I_ Ex HN HI. destruct mnist_sizes as (RR & _). destruct eps32_value as (Fe & He).
  unfold sane. repeat (split; [first [lia | lra | assumption | apply rate100_ok]|]). split; [|exact RR].
  intros i y x Hi Hy Hx. destruct (C104_pixel (I_ i y x) (HI i y x Hi Hy Hx)) as (_ & _ & F1 & _ & F2 & _). split; [exact F1|].
  rewrite Rabs_pos_eq; lra.
Qed.

Lemma mnist_within : forall exp_ N I_ L, exp_ok 24 128 exp_ -> 0 <= N <= 60000 -> byte_pixels N I_ ->
  params_within 24 128 784 10 602 (mnist_trained exp_ N I_ L).
Proof.
  intros exp_ N I_ L Ex HN HI.
  destruct mnist_sizes as (RR & ST). destruct eps32_value as (Fe & He).
  assert (HQ : 0 <= N / 100 <= 600) by (split; [apply Z.div_pos; lia|apply Z.div_le_upper_bound; lia]).
  assert (TS : forall t, (t <= 600)%nat ->
    (/ 2 <= train_size 24 128 100 10 1 (/ 1000000) (B2R eps32) t (/ 2) <= / 2 + 1001 / 1000 * INR t)%R).
  { induction t as [|t IH]; intros Ht; [cbn; lra|]. specialize (IH ltac:(lia)). rewrite S_INR. cbn [train_size].
    assert (INR t <= 600)%R by (rewrite INR_IZR_INZ; apply IZR_le; lia). assert (0 <= INR t)%R by apply pos_INR.
    specialize (ST (train_size 24 128 100 10 1 (/ 1000000) (B2R eps32) t (/ 2)) ltac:(lra)). lra. }
  assert (VH : B2R (f32 1 (-1)) = (/ 2)%R) by (cbn; unfold F2R; cbn; lra).
  assert (V0 : B2R (f32 0 0) = 0%R) by reflexivity.
  pose proof (run_within 24 128 exp_ eps32 pixel_float rate100 N 28 28 100 10 1 (/ 1000000)
    I_ L (fun _ _ => f32 1 (-1)) (fun _ => f32 0 0) (/ 2) (mnist_sane exp_ N I_ Ex HN HI)) as PW.
  change (28 * 28) with 784 in PW. fold F32 in PW. fold (mnist_trained exp_ N I_ L) in PW.
  assert (BQ : (train_size 24 128 100 10 1 (/ 1000000) (B2R eps32) (Z.to_nat (N / 100)) (/ 2) <= 602)%R).
  { specialize (TS (Z.to_nat (N / 100)) ltac:(lia)). assert (INR (Z.to_nat (N / 100)) <= 600)%R by (rewrite INR_IZR_INZ; apply IZR_le; lia). lra. }
  destruct PW as (P1 & P2).
  - lra.
  - split; cbn [fst snd]; intros; rewrite ?VH, ?V0; (split; [reflexivity|]); rewrite ?Rabs_R0, ?Rabs_pos_eq; lra.
  - intros t Ht. assert (Ht' : (t < 600)%nat) by lia. unfold step_room. pose proof (TS t ltac:(lia)) as Q.
    assert (INR t <= 600)%R by (rewrite INR_IZR_INZ; apply IZR_le; lia).
    specialize (ST (train_size 24 128 100 10 1 (/ 1000000) (B2R eps32) t (/ 2)) ltac:(lra)).
    pose proof eta24. pose proof big24. lra.
  - split.
    + intros a j Ha Hj. destruct (P1 a j Ha Hj) as (Q1 & Q2). split; [assumption|exact (Rle_trans _ _ _ Q2 BQ)].
    + intros j Hj. destruct (P2 j Hj) as (Q1 & Q2). split; [assumption|exact (Rle_trans _ _ _ Q2 BQ)].
Qed.

Theorem C110_mnist : forall {V} (dt : dtype V float) (du : dtype V Z) exp_ log_ N images labels wt b I_ L s,
  exp_ok 24 128 exp_ -> 0 <= N <= 60000 -> byte_pixels N I_ ->
  given 24 128 dt du N 28 28 10 images labels wt b I_ L (fun _ _ => f32 1 (-1)) (fun _ => f32 0 0) s ->
  exists s' W' B',
    train_slp_model dt du F32 exp_ log_ eps32 (div_float F32) Builtin pixel_float (f32 1 (-1)) rate100 10 images labels wt b 100 s = Ok tt s' /\
    holds dt s' wt (arg2 W') /\ holds dt s' b (arg1 B') /\
    (forall a j, 0 <= a < 784 -> 0 <= j < 10 -> is_finite (W' a j) = true /\ (Rabs (B2R (W' a j)) <= 602)%R) /\
    (forall j, 0 <= j < 10 -> is_finite (B' j) = true /\ (Rabs (B2R (B' j)) <= 602)%R) /\
    (forall p, ~ foot wt p -> ~ foot b p -> cells s' p = cells s p).
Proof.
  intros V dt du exp_ log_ N images labels wt b I_ L s Ex HN HI HG.
  destruct (run_ok 24 128 dt du exp_ log_ eps32 pixel_float (f32 1 (-1)) rate100 N 28 28 100 10 1 (/ 1000000)
    images labels wt b I_ L _ _ s HG (mnist_sane exp_ N I_ Ex HN HI)) as (s' & E & HW & HB & _ & FR).
  change (28 * 28) with 784 in HW, HB. fold F32 in HW, HB. fold (mnist_trained exp_ N I_ L) in HW, HB.
  destruct (mnist_within exp_ N I_ L Ex HN HI) as (P1 & P2).
  eexists s', _, _. split; [exact E|]. split; [exact HW|]. split; [exact HB|]. auto.
Qed.

(** *** What rounding can do *)

(** One image of one pixel (255, that is 1), label 0, two classes. *)
Definition tiny_run (exp_ : float -> float) (eps : float) (W B : list float) : option (list (option spec_float)) * option (list (option spec_float)) :=
  let m := train_slp_model (dt_inl float Z) (dt_inr float Z) F32 exp_ (fun x => x) eps (div_float F32) Builtin pixel_float (f32 1 (-1)) (f32 1 0) 2
             (T_ 0 [1; 1; 1]) (T_ 1 [1]) (T_ 2 [1; 2]) (T_ 3 [2]) 1 in
  let s := demo [[inr 255]; [inr 0]; map inl W; map inl B] in
  (shown1 (run m s (T_ 2 [1; 2])), shown1 (run m s (T_ 3 [2]))).

(** From weights 1/4 and biases 0 the parameters of class 0 grow by 1/2, those of
    class 1 shrink by 1/2. *)
Example C110_example :
  tiny_run exp_toy eps32 [f32 1 (-2); f32 1 (-2)] [f32 0 0; f32 0 0] =
    (floats [f32 3 (-2); f32 (-1) (-2)], floats [f32 1 (-1); f32 (-1) (-1)]).
Proof. vm_compute. reflexivity. Qed.

(** Large parameters do not move at all, although exact gradient descent moves
    them by 1/2. *)
Theorem C110_stalled_refuted :
  let v := f32 1 26 in
  tiny_run exp_toy eps32 [v; v] [v; v] = (floats [v; v], floats [v; v]) /\
  let q := epoch (B2R eps32) 1 1 2 (batch_x (fun z => B2R (pixel_float z)) 1 1 (fun _ _ _ => 255)) (batch_y 1 (fun _ => 0)) 1
             (fun _ _ => B2R v, fun _ => B2R v) in
  (fst q 0%Z 0%Z = B2R v + / 2 /\ fst q 0%Z 1%Z = B2R v - / 2 /\ snd q 0%Z = B2R v + / 2 /\ snd q 1%Z = B2R v - / 2)%R.
Proof.
  intros v. split; [vm_compute; reflexivity|]. intros q.
  assert (Pr : forall j, predict (B2R eps32) 1 2 (fun _ _ => 1%R) (fun _ _ => B2R v) (fun _ => B2R v) 0 j = (/ 2)%R).
  { intros j. unfold predict, softmax_fn. destruct eps32_value as (_ & He).
    assert (Es : forall j, scores 1 (fun _ _ => 1%R) (fun _ _ => B2R v) (fun _ => B2R v) 0 j = (B2R v + B2R v)%R).
    { intros i. unfold scores, rsum. change (zrange 1) with [0]. cbn [sum_over fold_left sadd s0 Rsc]. ring. }
    unfold rsum. change (zrange 2) with [0; 1]. cbn [sum_over fold_left sadd s0 Rsc]. rewrite !Es.
    set (x := exp (B2R v + B2R v)). assert (0 < x)%R by apply exp_pos.
    replace (x / (0 + x + x))%R with (/ 2)%R by (field; lra). apply Rmax_right. lra. }
  assert (E1 : B2R (pixel_float 255) = 1%R).
  { rewrite (proj1 (proj2 (proj2 C104_pixel_order))). apply Bone_correct. }
  assert (D : forall j, slp_delta (B2R eps32) 1 1 2 (fun _ _ => 1%R) (fun _ j => if 0 =? j then 1%R else 0%R) (fun _ _ => B2R v) (fun _ => B2R v) 0 j
                 = (/ 2 - if (0 =? j)%Z then 1 else 0)%R).
  { intros j. unfold slp_delta. rewrite Pr. unfold rsum. change (zrange 2) with [0; 1]. cbn [sum_over fold_left sadd s0 Rsc Z.eqb].
    unfold Rdiv. rewrite Rinv_1. destruct (0 =? j); ring. }
  assert (D' : forall j, slp_delta (B2R eps32) 1 1 2 (fun _ _ => B2R (pixel_float 255)) (fun _ j => if 0 =? j then 1%R else 0%R)
                  (fun _ _ => B2R v) (fun _ => B2R v) 0 j = (/ 2 - if (0 =? j)%Z then 1 else 0)%R) by (rewrite E1; exact D).
  assert (Q1 : forall j, fst q 0 j = (B2R v - (0 + B2R (pixel_float 255) * (/ 2 - if (0 =? j)%Z then 1 else 0)))%R).
  { intros j. rewrite <- D'. reflexivity. }
  assert (Q2 : forall j, snd q j = (B2R v - (0 + (/ 2 - if (0 =? j)%Z then 1 else 0)))%R).
  { intros j. rewrite <- D'. reflexivity. }
  rewrite !Q1, !Q2, E1. cbn [Z.eqb]. lra.
Qed.

(** The lower bound of softmax must be positive: with 0 in its place, a class
    whose probability underflows turns the parameters into NaN. *)
Definition exp_step (x : float) : float :=
  match x with
  | B754_nan => B754_nan
  | B754_infinity false => B754_infinity false
  | B754_infinity true => B754_zero false
  | B754_finite false _ _ _ => if Bltb (f32 100 0) x then B754_infinity false else f32 1 0
  | _ => f32 1 0
  end.
Lemma exp_step_ok : exp_ok 24 128 exp_step.
Proof.
  assert (E1 : f32 1 0 = Bone) by (apply B2SF_inj; vm_compute; reflexivity).
  repeat split.
  - intros [?|?| |? ? ? ?]; try discriminate. reflexivity.
  - destruct x as [?|[]| |[] ? ? ?]; try discriminate; cbn [exp_step]; try destruct (Bltb (f32 100 0) _); vm_compute; reflexivity.
  - destruct x as [?|[]| |[] ? ? ?]; try discriminate; cbn [exp_step]; try destruct (Bltb (f32 100 0) _); vm_compute; reflexivity.
  - intros s. cbn [exp_step]. rewrite E1. apply Bone_correct.
Qed.

Theorem C110_zero_eps_refuted :
  exp_ok 24 128 exp_step /\
  tiny_run exp_step (f32 0 0) [f32 0 0; f32 200 0] [f32 0 0; f32 0 0] = (floats [nan; nan], floats [nan; nan]) /\
  exists W B, tiny_run exp_step eps32 [f32 0 0; f32 200 0] [f32 0 0; f32 0 0] = (floats W, floats B) /\
    forallb (fun x => is_finite x) (W ++ B) = true.
Proof.
  split; [exact exp_step_ok|]. split; [vm_compute; reflexivity|].
  exists [f32 16777199 (-24); f32 399 (-1)], [f32 16777199 (-24); f32 (-1) (-1)]. split; vm_compute; reflexivity.
Qed.

(** *** A bound in numbers *)

(** An exponential function that is correctly rounded between -10 and 10. *)
Definition exp_near (x : float) : float :=
  match x with
  | B754_nan => B754_nan
  | B754_infinity false => B754_infinity false
  | B754_infinity true => B754_zero false
  | B754_zero _ => f32 1 0
  | B754_finite _ _ _ _ => if Bltb (f32 10 0) (Babs x) then f32 1 0 else of_real 24 128 (exp (B2R x))
  end.

Lemma exp_near_acc : exp_acc 24 128 (unit_roundoff 24) 10 exp_near.
Proof.
  intros x Fx Hx. assert (u24 := u24). pose proof (C101_example x Fx Hx) as Q.
  destruct x as [s|s| |s m e B]; try discriminate.
  - cbn [exp_near B2R] in *. rewrite exp_0 in *. unfold within. split; [reflexivity|].
    assert (E1 : B2R (f32 1 0) = 1%R) by (cbn; unfold F2R; cbn; lra). rewrite E1. rewrite Rminus_diag_eq, Rabs_R0 by reflexivity. lra.
  - unfold exp_near. rewrite Bltb_correct; [|reflexivity|rewrite is_finite_Babs; reflexivity].
    rewrite B2R_Babs. assert (E10 : B2R (f32 10 0) = 10%R) by (cbn; unfold F2R; cbn; lra). rewrite E10.
    rewrite Rlt_bool_false by exact Hx. exact Q.
Qed.

Lemma exp_near_ok : exp_ok 24 128 exp_near.
Proof.
  assert (E1 : f32 1 0 = Bone) by (apply B2SF_inj; vm_compute; reflexivity).
  assert (G : forall x : float, is_nan x = false -> is_nan (exp_near x) = false /\ Bltb (exp_near x) (B754_zero false) = false).
  { intros x Nx. destruct x as [s|[]| |s m e B]; try discriminate; [split; vm_compute; reflexivity| | |]; try (split; reflexivity).
    destruct (Rle_dec (Rabs (B2R (B754_finite s m e B : float))) 10) as [H|H].
    - destruct (exp_near_acc (B754_finite s m e B) eq_refl H) as (F & W). set (y := exp_near (B754_finite s m e B)) in *.
      split; [destruct y; try discriminate; reflexivity|].
      rewrite Bltb_correct by (exact F || reflexivity). apply Rlt_bool_false. cbn [B2R]. rewrite u24 in W. apply Rabs_le_inv in W.
      pose proof (exp_pos (B2R (B754_finite s m e B : float))). cbn [B2R] in *. lra.
    - unfold exp_near. rewrite Bltb_correct; [|reflexivity|rewrite is_finite_Babs; reflexivity].
      rewrite B2R_Babs. assert (E10 : B2R (f32 10 0) = 10%R) by (cbn; unfold F2R; cbn; lra). rewrite E10.
      rewrite Rlt_bool_true by lra. split; vm_compute; reflexivity. }
  split; [|split; [exact G|split]].
  - intros [?|?| |? ? ? ?]; try discriminate. reflexivity.
  - intros s. cbn [exp_near]. rewrite E1. apply Bone_correct.
  - reflexivity.
Qed.

Lemma soft_room : forall a, (0 <= a <= 1)%R -> let u := unit_roundoff 24 in
  room 24 128 u exp_near (LSoftmax 1 2) (/ 2) 0 a /\ (rounding 24 128 u (LSoftmax 1 2) (/ 2) 0 a <= 15 * u)%R.
Proof.
  intros a Ha u. assert (U : (u = / 16777216)%R) by exact u24. pose proof eta24 as T. pose proof big24 as M.
  assert (A0 : (0 <= u * (2 * a) <= 2 * u)%R) by (rewrite U; lra).
  assert (X1 : (1 - 2 * u <= exp (- (u * (2 * a))))%R) by (pose proof (exp_ineq1_le (- (u * (2 * a)))); lra).
  assert (X2 : (exp (u * (2 * a)) <= / (1 - 2 * u))%R).
  { replace (exp (u * (2 * a))) with (/ exp (- (u * (2 * a))))%R by (rewrite exp_Ropp, Rinv_inv; reflexivity).
    apply Rinv_le_contravar; [lra|exact X1]. }
  assert (X3 : (/ (1 - 2 * u) <= 1 + 3 * u)%R).
  { apply Rmult_le_reg_l with (1 - 2 * u)%R; [lra|]. rewrite Rinv_r by lra. nra. }
  assert (X4 : (exp (- (u * (2 * a))) <= exp 0)%R) by (apply exp_le; lra). rewrite exp_0 in X4.
  assert (X5 : (exp 0 <= exp (u * (2 * a)))%R) by (apply exp_le; lra). rewrite exp_0 in X5.
  set (hi := soft_hi 24 u (2 * a) (Z.to_nat 2)). set (lo := soft_lo 24 u (2 * a) (Z.to_nat 2)).
  assert (Bl : (1 - 5 * u <= lo <= 1)%R).
  { unfold lo, soft_lo. change (Nat.pred (Z.to_nat 2)) with 1%nat. rewrite pow_1. fold u. set (v := exp (- (u * (2 * a)))) in *.
    assert (Y1 : ((1 - u) * (1 - 2 * u) <= (1 - u) * v)%R) by (apply Rmult_le_compat_l; lra).
    assert (Y2 : ((1 - u) * v <= 1)%R) by nra. rewrite U in *. split; nra. }
  assert (Bh : (1 <= hi <= 1 + 6 * u)%R).
  { unfold hi, soft_hi. change (Nat.pred (Z.to_nat 2)) with 1%nat. rewrite pow_1. fold u. set (v := exp (u * (2 * a))) in *. split; [nra|].
    assert (Y1 : ((1 + u) * v <= (1 + u) * (1 + 3 * u))%R) by (apply Rmult_le_compat_l; lra). rewrite U in *. nra. }
  assert (I1 : ((1 + u) / lo <= (1 + 7 * u))%R) by (apply Rle_div_l; [lra|]; nra).
  assert (I2 : (1 - 7 * u <= (1 - u) / hi)%R) by (apply Rle_div_r; [lra|]; nra).
  assert (R1 : (rounding 24 128 u (LSoftmax 1 2) (/ 2) 0 a <= 15 * u)%R).
  { cbn [rounding]. fold u lo hi. lra. }
  split; [|exact R1]. unfold room. split; [cbn [reach]; lra|]. cbv zeta. fold u lo hi.
  assert (E2 : (exp (2 * a) <= 9)%R).
  { apply Rle_trans with (exp (1 + 1)); [apply exp_le; lra|]. rewrite exp_plus. pose proof exp_le_3. pose proof (exp_pos 1). nra. }
  assert (E0 := exp_pos (2 * a)).
  split; [lra|]. split; [|split; [|split; [|split]]].
  - intros x Fx Hx. apply exp_near_acc; auto. change (unit_roundoff 24) with u in Hx. nra.
  - unfold in_range. rewrite (Rabs_pos_eq (2 * a)) by lra. change (unit_roundoff 24) with u. nra.
  - change (Nat.pred (Z.to_nat 2)) with 1%nat. rewrite pow_1. lra.
  - assert (hi * (IZR 2 * exp (2 * a)) <= 2 * (2 * 9))%R by (apply Rmult_le_compat; lra). lra.
  - lra.
Qed.

Lemma tiny_sizes : let e := B2R eps32 in
  ratio_room 24 128 1 0 e /\ step_room 24 128 1 2 1 0 e (/ 4) /\ score_room 24 128 1 2 1 (unit_roundoff 24) exp_near (/ 4) /\
  (step_error 24 128 1 1 2 1 1 0 e (unit_roundoff 24) (/ 4) 0 <= 30 / 2 ^ 24)%R.
Proof.
  intros e. destruct eps32_value as (_ & E). fold e in E. pose proof eta24 as T. pose proof big24 as M. pose proof u24 as U.
  assert (Ie : (0 < / e <= 1000001)%R).
  { split; [apply Rinv_0_lt_compat; lra|]. rewrite <- (Rinv_inv 1000001). apply Rinv_le_contravar; lra. }
  assert (Ew : weight 1 0 = 1%R) by (unfold weight; lra).
  assert (SS : (0 <= score_size 24 128 1 1 (/ 4) <= 1)%R /\ (0 <= score_rounding 24 128 1 1 (/ 4) <= / 16777216)%R).
  { unfold score_size, score_rounding, dot_bound. rewrite U. change (Z.to_nat 1) with 1%nat. cbn [pow INR]. lra. }
  destruct SS as (SS & SR). destruct (soft_room _ SS) as (R1 & R2).
  set (z := half_tiny 24 128) in *.
  assert (Dt : delta_tiny 24 128 1 2 0 = (2 * (((1 + / 16777216) * 1 + 1) * z))%R).
  { unfold delta_tiny. rewrite U, Ew. change (Z.to_nat 2) with 2%nat. cbn [INR]. unfold z. ring. }
  assert (DR : (0 <= delta_rounding 24 128 1 2 0 e <= 7 / 16777216)%R).
  { unfold delta_rounding, soft_grad_bound. rewrite Dt, Ew, U. change (Z.to_nat 2) with 2%nat. change (2 + 2)%nat with 4%nat. fold z.
    cbn [pow INR]. replace (1 / e)%R with (/ e)%R by lra. set (q := (/ e)%R) in *.
    assert (0 <= q * z <= 1000001 * / 1152921504606846976)%R by (split; [apply Rmult_le_pos|apply Rmult_le_compat]; lra).
    assert (0 <= z * z <= / 1152921504606846976 * / 1152921504606846976)%R by (split; [apply Rmult_le_pos|apply Rmult_le_compat]; lra).
    split; lra. }
  assert (GS : (0 <= grad_size 24 128 1 2 1 0 e <= 2)%R) by (unfold grad_size, delta_size; rewrite Ew; lra).
  assert (GS2 : (grad_size 24 128 1 2 1 0 e <= 1 + 7 / 16777216)%R) by (unfold grad_size, delta_size; rewrite Ew; lra).
  assert (GR : (0 <= grad_rounding 24 128 1 2 1 0 e <= 2 / 16777216)%R).
  { unfold grad_rounding, dot_bound. rewrite U. change (Z.to_nat 1) with 1%nat. fold z. cbn [pow INR]. lra. }
  split; [|split; [|split]].
  - unfold ratio_room, in_range. rewrite Ew, U, (Rabs_pos_eq (/ e)) by lra. fold z. cbn [pow]. replace (1 / e)%R with (/ e)%R by lra. lra.
  - unfold step_room, step_size. rewrite U. fold z. lra.
  - split; [fold z; lra|exact R1].
  - unfold step_error, prob_error. rewrite Ew, U in *. lra.
Qed.

(** One step on one image of one pixel, from weights and biases between -1/4 and
    1/4, with this exponential function: no parameter is off by more than 30 / 2^24. *)
Example C110_train_example : forall {V} (dt : dtype V float) (du : dtype V Z) log_ images labels wt b I_ L W B s,
  given 24 128 dt du 1 1 1 2 images labels wt b I_ L W B s -> 0 <= I_ 0 0 0 <= 255 ->
  params_within 24 128 1 2 (/ 4) (W, B) ->
  exists s' W' B',
    train_slp_model dt du F32 exp_near log_ eps32 (div_float F32) Builtin pixel_float (f32 1 (-1)) (f32 1 0) 2 images labels wt b 1 s = Ok tt s' /\
    holds dt s' wt (arg2 W') /\ holds dt s' b (arg1 B') /\
    params_close 24 128 1 2 (30 / 2 ^ 24) (W', B')
      (descend (B2R eps32) 1 1 2 (fun _ _ => B2R (pixel_float (I_ 0 0 0))) (fun _ j => if L 0 =? j then 1%R else 0%R)
         (fun a j => B2R (W a j), fun j => B2R (B j))).
Proof.
  intros V dt du log_ images labels wt b I_ L W B s HG HI HP.
  destruct tiny_sizes as (T1 & T2 & T3 & T4). destruct eps32_value as (Fe & He).
  destruct (C104_pixel (I_ 0 0 0) HI) as (_ & _ & F1 & _ & F2 & _).
  assert (E1 : B2R (f32 1 0) = 1%R) by (cbn; unfold F2R; cbn; lra).
  assert (IX : forall i y x, 0 <= i < 1 -> 0 <= y < 1 -> 0 <= x < 1 -> I_ i y x = I_ 0 0 0).
  { intros. replace i with 0 by lia. replace y with 0 by lia. replace x with 0 by lia. reflexivity. }
  destruct (C110_train 24 128 dt du exp_near log_ eps32 pixel_float (f32 1 (-1)) (f32 1 0) 1 1 1 1 2 1 0 (unit_roundoff 24) 1
    images labels wt b I_ L W B (/ 4) 0 (fun a j => B2R (W a j), fun j => B2R (B j)) s HG) as (s' & W' & B' & E & HW & HB & C).
  - unfold sane, rate_ok. repeat (split; [first [lia | lra | assumption | exact exp_near_ok]|]).
    split; [split; [reflexivity|rewrite E1; split; [lra|apply Rabs_le; lra]]|]. split; [|exact T1].
    intros i y x Hi Hy Hx. rewrite IX by lia. split; [exact F1|]. rewrite Rabs_pos_eq; lra.
  - lra.
  - exact HP.
  - split; cbn [fst snd]; intros; rewrite Rminus_diag_eq, Rabs_R0 by reflexivity; lra.
  - lra.
  - intros i Hi. replace i with 0 by lia. change (1 * 1) with 1. unfold rsum. change (zrange 1) with [0].
    cbn [sum_over fold_left sadd s0 Rsc]. change (0 / 1) with 0. change (0 mod 1) with 0. rewrite Rabs_pos_eq; lra.
  - change (Z.to_nat (1 / 1)) with 1%nat. intros t Ht. replace t with 0%nat by lia. cbn [train_size]. split; [exact T2|exact T3].
  - exists s', W', B'. split; [exact E|]. split; [exact HW|]. split; [exact HB|].
    change (Z.to_nat (1 / 1)) with 1%nat in C. change (1 / 1) with 1 in C. change (1 * 1) with 1 in C. cbn [train_error train_size] in C.
    set (q := (fun a j => B2R (W a j), fun j => B2R (B j))) in *.
    assert (Q1 : forall a j, 0 <= a < 1 -> fst (epoch (B2R eps32) 1 1 2 (batch_x (fun v => B2R (pixel_float v)) 1 1 I_) (batch_y 1 L) 1 q) a j =
      fst (descend (B2R eps32) 1 1 2 (fun _ _ => B2R (pixel_float (I_ 0 0 0))) (fun _ j => if L 0 =? j then 1%R else 0%R) q) a j).
    { intros a j Ha. replace a with 0 by lia. reflexivity. }
    assert (Q2 : forall j, snd (epoch (B2R eps32) 1 1 2 (batch_x (fun v => B2R (pixel_float v)) 1 1 I_) (batch_y 1 L) 1 q) j =
      snd (descend (B2R eps32) 1 1 2 (fun _ _ => B2R (pixel_float (I_ 0 0 0))) (fun _ j => if L 0 =? j then 1%R else 0%R) q) j).
    { intros j. reflexivity. }
    destruct C as (C1 & C2). split; intros.
    + rewrite <- Q1 by assumption. eapply Rle_trans; [apply C1; assumption|exact T4].
    + rewrite <- Q2. eapply Rle_trans; [apply C2; assumption|exact T4].
Qed.

Print Assumptions C110_finite.
Print Assumptions C110_train.
Print Assumptions C110_mnist.
Print Assumptions C110_stalled_refuted.
Print Assumptions C110_zero_eps_refuted.
