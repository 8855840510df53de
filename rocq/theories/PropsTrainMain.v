(** Property C111: the training program as a whole, in float.

    The multiplication is the one built in; std::log is any function, std::exp
    any function with the special cases of the C standard.  What tar makes of the
    files is a parameter. *)
From Coq Require Import ZArith List Bool Lia Reals Lra SpecFloat String.
From Coquelicot Require Import Coquelicot.
From Flocq Require Import Core BinarySingleNaN.
From Verif Require Import Base BaseFacts Scalar RealScalar SumFacts TensorFacts LinAlg LinAlgFacts Pool
  Demo ActivationSpec Float FloatSpec FloatFacts FloatNan FloatSumSpec FloatSumFacts ActivationFacts SoftmaxFacts FloatSoftSpec FloatSoftFacts StableFacts PropsFloat PropsFloatSum NetFloatFacts
  PredictFacts Mixed PropsMixed Io IoSpec IoFacts PropsIo Layers LayersSpec LayersFacts Examples ExamplesSpec PropsData
  Train TrainSpec TrainEpoch TrainTest TrainFloatSpec TrainFloatFacts PropsTrainFloat TrainMain TrainMainFacts.
Import ListNotations.
Open Scope Z_scope.
Open Scope model_scope.

(** ** What is reported *)

(** Score of class [j] for image [i]: the sum over the pixels, then the bias, every
    operation rounded. *)
Definition score (I_ : Z -> Z -> Z -> Z) (W : Z -> Z -> float) (B : Z -> float) (i j : Z) : float :=
  Bplus mode_NE (sum_over F32 (zrange 784) (fun a => Bmult mode_NE (pixel_float (I_ i (a / 28) (a mod 28))) (W a j))) (B j).

(** [a] is the share of the [n] images whose greatest score (the first, if several
    are equal) belongs to the label, up to the rounding of two operations. *)
Definition reports (n : Z) (I_ : Z -> Z -> Z -> Z) (L : Z -> Z) (W : Z -> Z -> float) (B : Z -> float) (a : float) : Prop :=
  exists J, (forall i, 0 <= i < n -> first_max 10 (fun j => B2R (score I_ W B i j)) (J i)) /\
    is_finite a = true /\ (Rabs (B2R a - IZR (count n (fun i => J i =? L i)) / IZR n) <= 3 / 2 ^ 24)%R.

Definition params_at_most (m : R) (W : Z -> Z -> float) (B : Z -> float) : Prop :=
  (forall a j, 0 <= a < 784 -> 0 <= j < 10 -> is_finite (W a j) = true /\ (Rabs (B2R (W a j)) <= m)%R) /\
  (forall j, 0 <= j < 10 -> is_finite (B j) = true /\ (Rabs (B2R (B j)) <= m)%R).

Lemma pow784 : (1 <= (1 + / 16777216) ^ 784 <= 1 + / 10000)%R.
Proof.
  pose proof (pow_le (/ 16777216) 784) as Q. rewrite INR_IZR_INZ in Q. change (Z.of_nat 784) with 784 in Q.
  destruct Q; lra.
Qed.

Lemma score_any : forall d (X : Z -> Z -> float) (W : Z -> Z -> float) (B : Z -> float) i j,
  Bplus mode_NE (sum_over F32 (zrange d) (fun a => Bmult mode_NE (X i a) (W a j))) (B j) = g_score F32 d X W B i j.
Proof. reflexivity. Qed.

Lemma score_is : forall I_ W B i j, score I_ W B i j = g_score F32 784 (fun i a => pixel_float (I_ i (a / 28) (a mod 28))) W B i j.
Proof. intros. unfold score. apply (score_any 784 (fun i a => pixel_float (I_ i (a / 28) (a mod 28)))). Qed.

Lemma score_finite : forall n I_ W B i j, byte_pixels n I_ -> params_at_most 1000000 W B -> 0 <= i < n -> 0 <= j < 10 ->
  is_finite (score I_ W B i j) = true.
Proof.
  intros n I_ W B i j HI HP Hi Hj.
  assert (PX : forall i a, 0 <= i < n -> 0 <= a < 784 ->
    is_finite (pixel_float (I_ i (a / 28) (a mod 28))) = true /\ (Rabs (B2R (pixel_float (I_ i (a / 28)%Z (a mod 28)%Z))) <= 1)%R).
  { intros i0 a H0 Ha. assert (B1 : 0 <= a / 28 < 28) by (split; [apply Z.div_pos; lia|apply Z.div_lt_upper_bound; lia]).
    assert (B2 : 0 <= a mod 28 < 28) by (apply Z.mod_pos_bound; lia).
    destruct (C104_pixel _ (HI i0 (a / 28) (a mod 28) H0 B1 B2)) as (_ & _ & F1 & _ & F2 & _). split; [exact F1|].
    rewrite Rabs_pos_eq; lra. }
  pose proof (score_close 24 128 n 784 10 784 (fun i a => pixel_float (I_ i (a / 28) (a mod 28))) (W, B)
    (fun a j => B2R (W a j), fun j => B2R (B j)) 1000000 0 i j) as Q. cbv zeta in Q. cbn [fst snd] in Q.
  rewrite score_is. refine (proj1 (Q _ _ _ _ HP _ _ Hi Hj)); [lra|lra| | | |].
  - intros i0 H0. unfold rsum. apply Rle_trans with (sum_over Rsc (zrange 784) (fun _ => 1%R)).
    + apply sumR_le. intros a Ha. apply in_zrange in Ha. apply PX; auto.
    + rewrite sumR_const, length_zrange. change (Z.to_nat 784) with 784%nat. rewrite INR_IZR_INZ. change (Z.of_nat 784) with 784. lra.
  - intros a Ha. apply PX; auto.
  - split; cbn [fst snd]; intros; rewrite Rminus_diag_eq, Rabs_R0 by reflexivity; lra.
  - unfold score_size, score_rounding, dot_bound. rewrite u24. change (Z.to_nat 784) with 784%nat.
    pose proof pow784 as P. pose proof eta24 as E. pose proof big24 as M. rewrite INR_IZR_INZ. change (Z.of_nat 784) with 784.
    set (p := ((1 + / 16777216) ^ 784)%R) in *. set (z := half_tiny 24 128) in *.
    assert ((p - 1) * (784 * 1000000) <= / 10000 * (784 * 1000000))%R by (apply Rmult_le_compat_r; lra).
    assert (0 <= 784 * z * p <= 1)%R.
    { split; [apply Rmult_le_pos; lra|]. assert (784 * z * p <= 784 * / 1152921504606846976 * 2)%R by (apply Rmult_le_compat; lra). lra. }
    lra.
Qed.

Lemma count_ext : forall n p q, (forall i, p i = q i) -> count n p = count n q.
Proof. intros n p q H. unfold count. rewrite (filter_ext p q H). reflexivity. Qed.

Lemma wrong_is : forall n I_ L W B,
  g_wrong F32 pixel_float n 28 28 10 I_ L W B = count n (fun i => negb (scan F32 10 (score I_ W B i) =? L i)).
Proof.
  intros n I_ L W B. unfold g_wrong. change (28 * 28) with 784. apply count_ext. intros i.
  assert (E : g_score F32 784 (fun i a => pixel_float (I_ i (a / 28) (a mod 28))) W B i = score I_ W B i).
  { apply FunctionalExtensionality.functional_extensionality. intros j. symmetry. apply score_is. }
  rewrite E. reflexivity.
Qed.

Lemma accuracy_rounded : forall n g b, 1 <= n <= 16777216 -> 0 <= g -> 0 <= b -> g + b = n ->
  let a := g_accuracy F32 (Bdiv mode_NE) n b in
  is_finite a = true /\ (Rabs (B2R a - IZR g / IZR n) <= 3 / 2 ^ 24)%R.
Proof.
  intros n g b Hn C0 C1 Q. cbv zeta.
  assert (EB : integral 24 128 (sofZ F32 b) b) by (apply fofZ_ok; change (2 ^ 24) with 16777216; lia).
  assert (EN : integral 24 128 (sofZ F32 n) n) by (apply fofZ_ok; change (2 ^ 24) with 16777216; lia).
  destruct EB as (FB & VB), EN as (FN & VN).
  assert (N0 : (1 <= IZR n)%R) by (apply IZR_le; lia).
  assert (B0 : (0 <= IZR b)%R) by (apply IZR_le; lia). assert (B1 : (IZR b <= IZR n)%R) by (apply IZR_le; lia).
  assert (V1 : B2R (@Bone 24 128 _ _) = 1%R) by apply Bone_correct.
  assert (F1 : is_finite (@Bone 24 128 _ _) = true) by apply is_finite_Bone.
  pose proof eta24 as E. pose proof big24 as M. set (z := half_tiny 24 128) in *.
  set (r := (IZR b / IZR n)%R).
  assert (R0 : (0 <= r <= 1)%R).
  { unfold r. split; [apply Rmult_le_pos; [lra|left; apply Rinv_0_lt_compat; lra]|]. apply Rmult_le_reg_r with (IZR n); [lra|].
    unfold Rdiv. rewrite Rmult_assoc, Rinv_l; lra. }
  assert (ER : (IZR g / IZR n = 1 - r)%R).
  { unfold r. apply (f_equal IZR) in Q. rewrite plus_IZR in Q. rewrite <- Q. field. lra. }
  destruct (div_within 24 128 (sofZ F32 b) (sofZ F32 n)) as (FQ & VQ); auto.
  { rewrite VN. lra. }
  { rewrite VN, VB. fold r. unfold in_range. rewrite u24, Rabs_pos_eq by lra. fold z. lra. }
  rewrite VN, VB in VQ. fold r in VQ. rewrite u24, (Rabs_pos_eq r) in VQ by lra. fold z in VQ.
  set (q := Bdiv mode_NE (sofZ F32 b) (sofZ F32 n)) in *. apply Rabs_le_2 in VQ.
  destruct (sub_within 24 128 Bone q F1 FQ) as (FA & VA).
  { rewrite V1. unfold in_range. fold z. rewrite u24. assert (Rabs (1 - B2R q) <= 2)%R by (apply Rabs_le; lra). lra. }
  rewrite V1, u24 in VA.
  assert (VC : (Rabs (1 - B2R q) <= 1 + / 8000000)%R) by (apply Rabs_le; lra).
  apply Rabs_le_2 in VA. unfold g_accuracy. fold q. change (s1 F32) with (@Bone 24 128 _ _). change (ssub F32) with (@Bminus 24 128 _ _ mode_NE).
  split; [exact FA|]. rewrite ER. apply Rabs_le. lra.
Qed.

Lemma reports_ok : forall n I_ L W B, 1 <= n <= 16777216 -> byte_pixels n I_ -> params_at_most 1000000 W B ->
  reports n I_ L W B (g_accuracy F32 (Bdiv mode_NE) n (g_wrong F32 pixel_float n 28 28 10 I_ L W B)).
Proof.
  intros n I_ L W B Hn HI HP. exists (fun i => scan F32 10 (score I_ W B i)).
  split.
  { intros i Hi. cbv beta. assert (Q : scan F32 10 (score I_ W B i) = scan Rsc 10 (fun j => B2R (score I_ W B i j))).
    { apply (scan_float 24 128); [lia|]. intros j Hj. eapply score_finite; eauto. }
    rewrite Q.
    exact (scan_first 10 (fun j => B2R (score I_ W B i j)) ltac:(lia)). }
  set (P := fun i => scan F32 10 (score I_ W B i) =? L i).
  rewrite wrong_is. change (count n (fun i => negb (scan F32 10 (score I_ W B i) =? L i))) with (count n (fun i => negb (P i))).
  pose proof (count_compl n P ltac:(lia)) as Q.
  assert (C0 : 0 <= count n P) by (unfold count; lia). assert (C1 : 0 <= count n (fun i => negb (P i))) by (unfold count; lia).
  set (g := count n P) in *. set (b := count n (fun i => negb (P i))) in *.
  exact (accuracy_rounded n g b Hn C0 C1 Q).
Qed.

Section Program.
  Context {V : Type} (dt : dtype V float) (du dn : dtype V Z) (exp_ log_ : float -> float).
  Context (cu : codec Z) (cd : codec float) (ucode code : Z) (can_open : list Z -> bool) (system : filesystem -> filesystem) (fuel : nat).
  (** The program in float with the constants of the text. *)
  Definition train_main : filesystem -> option (list Z) -> M V (list float * filesystem) :=
    slp_main dt du dn dt F32 F32 exp_ log_ eps32 (div_float F32) Builtin pixel_float (f32 1 (-1)) rate100
      cu cd ucode code can_open system fuel 28 28 10 100.

  Definition mnist_dir (home : list Z) : list Z := home ++ str "/var/data/mnist".

  (** The files of a data set are there. *)
  Definition has_set (fs : filesystem) (home name : list Z) (n : Z) (I_ : Z -> Z -> Z -> Z) (L : Z -> Z) : Prop :=
    exists ib lb, fs (images_file (mnist_dir home) name) = Some ib /\ stores cu ucode [n; 28; 28] ib (arg3 I_) /\
      fs (labels_file (mnist_dir home) name) = Some lb /\ stores cu ucode [n] lb (arg1 L).

  (** One of them is missing or has another header. *)
  Definition lacks_set (fs : filesystem) (home name : list Z) (n : Z) : Prop :=
    unreadable fs ucode [n; 28; 28] (images_file (mnist_dir home) name) \/
    (exists id, fs (images_file (mnist_dir home) name) = Some (idx_header ucode [n; 28; 28] ++ id)) /\
    unreadable fs ucode [n] (labels_file (mnist_dir home) name).

  (** The files [g] after training. *)
  Definition saved (fs g : filesystem) (W : Z -> Z -> float) (B : Z -> float) : Prop :=
    g (str "w.idx") = Some (idx_file cd code [784; 10] (arg2 W)) /\ g (str "b.idx") = Some (idx_file cd code [10] (arg1 B)) /\
    forall name, name <> str "w.idx" -> name <> str "b.idx" -> g name = fs name.

  (** The archive in [g] holds these parameters, in its last members of those names. *)
  Definition archives (g : filesystem) (W : Z -> Z -> float) (B : Z -> float) : Prop :=
    exists ms n, g (str "params.idx.tar") = Some (archive ms n) /\ List.Forall member_ok ms /\ (List.length ms < fuel)%nat /\
      (exists l m r, ms = l ++ m :: r /\ m_name m = str "w.idx" /\ ~ In (str "w.idx") (map m_name r) /\ m_data m = idx_file cd code [784; 10] (arg2 W)) /\
      (exists l m r, ms = l ++ m :: r /\ m_name m = str "b.idx" /\ ~ In (str "b.idx") (map m_name r) /\ m_data m = idx_file cd code [10] (arg1 B)).

  (** tar: the archive has the contents of the two files, nothing else changes. *)
  Definition tar_works : Prop := forall g wb bb, g (str "w.idx") = Some wb -> g (str "b.idx") = Some bb ->
    Z.of_nat (List.length wb) <= size_limit -> Z.of_nat (List.length bb) <= size_limit ->
    (exists mid1 tail1 mid2 tail2 n,
       List.length mid1 = 24%nat /\ List.length mid2 = 24%nat /\ List.length tail1 = 376%nat /\ List.length tail2 = 376%nat /\
       system g (str "params.idx.tar") = Some (archive [mkmember (str "w.idx") mid1 tail1 wb; mkmember (str "b.idx") mid2 tail2 bb] n)) /\
    forall name, name <> str "params.idx.tar" -> system g name = g name.

  Context (fs : filesystem) (home : list Z) (I1 I2 : Z -> Z -> Z -> Z) (L1 L2 : Z -> Z).

  (** What is asked of the world. *)
  Definition ready : Prop :=
    exp_ok 24 128 exp_ /\ (1 <= csize cu)%nat /\ has_set fs home (str "train") 60000 I1 L1 /\ has_set fs home (str "t10k") 10000 I2 L2 /\
    byte_pixels 60000 I1 /\ byte_pixels 10000 I2 /\ (forall i, 0 <= i < 10000 -> 0 <= L2 i < 10).

  Notation load_set name := (load_mnist_data du cu ucode fs (mnist_dir home) (str name)).

  Lemma set_loads : forall name n I_ L, (1 <= csize cu)%nat -> mnist_set name n -> has_set fs home name n I_ L ->
    loads du 28 28 (load_mnist_data du cu ucode fs (mnist_dir home) name) n I_ L.
  Proof using.
    intros name n I_ L C HN (ib & lb & Fi & Si & Fl & Sl) s Hf.
    destruct (C81_load du cu ucode fs C (mnist_dir home) name n ib lb (arg3 I_) (arg1 L) s HN Hf Fi Si Fl Sl)
      as (im & lbl & s' & E & G & (D1 & H1) & (D2 & H2)).
    exists (im, lbl), s'. split; [exact E|]. split; [exact G|]. unfold data_at. cbn [fst snd] in *. auto.
  Qed.

  Lemma set_fails : forall name n, (1 <= csize cu)%nat -> mnist_set name n -> lacks_set fs home name n ->
    loads_fail (load_mnist_data du cu ucode fs (mnist_dir home) name).
  Proof using. intros name n C HN H s Hf. eapply C81_fails; eauto. Qed.

  Lemma main_trains : exp_ok 24 128 exp_ -> byte_pixels 60000 I1 ->
    trains dt du F32 exp_ log_ eps32 (div_float F32) Builtin pixel_float (f32 1 (-1)) rate100 28 28 10 100 60000 I1 L1
      (fst (mnist_trained exp_ 60000 I1 L1)) (snd (mnist_trained exp_ 60000 I1 L1)).
  Proof using.
    intros Ex HI im lb wt b s (D1 & D2 & H1 & H2) Ew Eb Hf HW HB J1 J2 J3 J4 J5. cbn [fst snd] in *.
    destruct (run_ok 24 128 dt du exp_ log_ eps32 pixel_float (f32 1 (-1)) rate100 60000 28 28 100 10 1 (/ 1000000)
      im lb wt b I1 L1 (fun _ _ => f32 1 (-1)) (fun _ => f32 0 0) s) as (s' & E & HW' & HB' & Nb & FR).
    { unfold given. auto 20. }
    { apply mnist_sane; auto; lia. }
    exists s'. auto.
  Qed.

  Lemma small : codec_ok cd -> forall (W : Z -> Z -> float) (B : Z -> float), csize cd = 4%nat ->
    Z.of_nat (List.length (idx_file cd code [784; 10] (arg2 W))) <= size_limit /\
    Z.of_nat (List.length (idx_file cd code [10] (arg1 B))) <= size_limit.
  Proof using.
    intros C W B S4. rewrite !C53_length, S4 by (auto; repeat constructor; lia). unfold size_limit. cbn. lia.
  Qed.

  Notation W := (fst (mnist_trained exp_ 60000 I1 L1)).
  Notation B := (snd (mnist_trained exp_ 60000 I1 L1)).
  Notation files := (put (put fs (str "w.idx") (idx_file cd code [784; 10] (arg2 W))) (str "b.idx") (idx_file cd code [10] (arg1 B))).
  Notation acc W B := (g_accuracy F32 (Bdiv mode_NE) 10000 (g_wrong F32 pixel_float 10000 28 28 10 I2 L2 W B)).

  Lemma names_differ : str "w.idx" <> str "b.idx" /\ str "w.idx" <> str "params.idx.tar" /\ str "b.idx" <> str "params.idx.tar".
  Proof using. repeat split; intros H; vm_compute in H; discriminate. Qed.

  Lemma files_saved : saved fs files W B.
  Proof using.
    destruct names_differ as (Nw & _). unfold saved, put. split; [|split].
    - destruct (list_eq_dec Z.eq_dec (str "w.idx") (str "b.idx")); [contradiction|].
      destruct (list_eq_dec Z.eq_dec (str "w.idx") (str "w.idx")); [reflexivity|contradiction].
    - destruct (list_eq_dec Z.eq_dec (str "b.idx") (str "b.idx")); [reflexivity|contradiction].
    - intros name N1 N2. destruct (list_eq_dec Z.eq_dec name (str "b.idx")); [contradiction|].
      destruct (list_eq_dec Z.eq_dec name (str "w.idx")); [contradiction|reflexivity].
  Qed.

  Lemma float_constants : sltb F32 (s0 F32) (s1 F32) = true /\ sltb F32 (s0 F32) (s0 F32) = false /\
    sltb F32 (s1 F32) (s0 F32) = false /\ sltb F32 (s1 F32) (s1 F32) = false.
  Proof using. vm_compute. auto. Qed.

  Lemma trained_at_most : ready -> params_at_most 602 W B.
  Proof using. intros (Ex & _ & _ & _ & HI & _). apply (mnist_within exp_ 60000 I1 L1 Ex ltac:(lia) HI). Qed.

  Lemma at_most_weaken : forall m W3 B3, (m <= 1000000)%R -> params_at_most m W3 B3 -> params_at_most 1000000 W3 B3.
  Proof using. intros m W3 B3 Hm (H1 & H2). split; intros; [destruct (H1 a j)|destruct (H2 j)]; auto; split; auto; lra. Qed.

  Lemma main_run : forall s o, ready -> fresh_ok s -> can_open (str "w.idx") = true -> can_open (str "b.idx") = true ->
    (forall test s', fresh_ok s' -> data_at du 28 28 10000 s' test I2 L2 ->
       ends (test_block dt du dn dt F32 F32 Builtin pixel_float cd code fuel 28 28 10 (system files) test) s' o) ->
    ends (train_main fs (Some home)) s
      (match o with inl a3 => inl ([acc W B; acc W B; a3], system files) | inr ex => inr ex end).
  Proof using.
    intros s o (Ex & Cu & S1 & S2 & P1 & P2 & HL) Hf O1 O2 H. destruct float_constants as (Q1 & Q2 & Q3 & Q4).
    apply (program_run dt du dn dt F32 F32 exp_ log_ eps32 (div_float F32) Builtin pixel_float (f32 1 (-1)) rate100 cd code can_open system fuel
      28 28 10 100 60000 10000 (Bdiv mode_NE) (fun a b => eq_refl) Q1 Q2 Q3 Q4 ltac:(lia) ltac:(lia) ltac:(lia) ltac:(lia) ltac:(lia) ltac:(lia)
      I I2 L2 HL fs _ _ I1 L1 W B s o Hf); auto.
    - apply set_loads; auto. left; auto.
    - apply set_loads; auto. right; auto.
    - apply main_trains; auto.
  Qed.

  (** *** The whole run *)
  (** The third accuracy is that of the parameters in the archive, whatever tar has
      done. *)
  Theorem C111_archive : ready -> codec_ok cd -> can_open (str "w.idx") = true -> can_open (str "b.idx") = true ->
    exists g, saved fs g W B /\
    forall W3 B3 s, params_at_most 1000000 W3 B3 -> archives (system g) W3 B3 -> fresh_ok s ->
    exists a a3 s', train_main fs (Some home) s = Ok ([a; a; a3], system g) s' /\
      reports 10000 I2 L2 W B a /\ reports 10000 I2 L2 W3 B3 a3 /\ (forall p, cells s' p = cells s p).
  Proof using.
    intros HR C O1 O2. exists files. split; [exact files_saved|].
    intros W3 B3 s P3 (ms & n & Fa & Ok & Fu & A1 & A2) Hf.
    pose proof HR as (Ex & Cu & S1 & S2 & P1 & P2 & HL). destruct float_constants as (Q1 & Q2 & Q3 & Q4).
    destruct (main_run s (inl (acc W3 B3)) HR Hf O1 O2) as (s' & E & _ & K).
    { intros test s2 F2 D2.
      apply (test_block_run dt du dn dt F32 F32 Builtin pixel_float cd code fuel
        28 28 10 10000 (Bdiv mode_NE) (fun a b => eq_refl) Q1 Q2 Q3 Q4 ltac:(lia) ltac:(lia) ltac:(lia) ltac:(lia) ltac:(lia)
        I I2 L2 HL (system files) test ms n W3 B3 s2); auto. }
    eexists _, _, s'. split; [exact E|]. split; [|split; [|exact K]].
    - apply reports_ok; [lia|exact P2|]. eapply at_most_weaken; [|apply trained_at_most; exact HR]. lra.
    - apply reports_ok; [lia|exact P2|exact P3].
  Qed.

  (** If tar works, all three accuracies are the same number, that of the trained
      parameters, and the archive holds these. *)
  Theorem C111_main : forall s, ready -> codec_ok cd -> csize cd = 4%nat -> can_open (str "w.idx") = true -> can_open (str "b.idx") = true ->
    tar_works -> (2 < fuel)%nat -> fresh_ok s ->
    exists a fs' s', train_main fs (Some home) s = Ok ([a; a; a], fs') s' /\
      reports 10000 I2 L2 W B a /\ params_at_most 602 W B /\ archives fs' W B /\
      (exists g, saved fs g W B /\ forall name, name <> str "params.idx.tar" -> fs' name = g name) /\
      (forall p, cells s' p = cells s p).
  Proof using.
    intros s HR C S4 O1 O2 TW Fu Hf.
    pose proof HR as (Ex & Cu & S1 & S2 & P1 & P2 & HL). destruct float_constants as (Q1 & Q2 & Q3 & Q4).
    destruct files_saved as (Sw & Sb & So). destruct (small C W B S4) as (Zw & Zb).
    destruct (TW files _ _ Sw Sb Zw Zb) as ((mid1 & tl1 & mid2 & tl2 & n & M1 & M2 & T1 & T2 & Fa) & Oth).
    destruct names_differ as (Nw & _).
    assert (AR : archives (system files) W B).
    { eexists _, n. split; [exact Fa|]. split; [|split; [exact Fu|split]].
      - repeat constructor; cbn [m_name m_mid m_tail m_data]; auto; try (vm_compute; intuition discriminate); vm_compute; lia.
      - eexists [], _, _. split; [reflexivity|]. cbn [m_name m_data map In]. split; [reflexivity|]. split; [|reflexivity].
        intros [H|[]]. congruence.
      - eexists [_], _, []. split; [reflexivity|]. cbn [m_name m_data map In]. split; [reflexivity|]. split; [|reflexivity]. intros []. }
    destruct AR as (ms & n' & Fa' & Ok & Fu' & A1 & A2).
    destruct (main_run s (inl (acc W B)) HR Hf O1 O2) as (s' & E & _ & K).
    { intros test s2 F2 D2.
      apply (test_block_run dt du dn dt F32 F32 Builtin pixel_float cd code fuel
        28 28 10 10000 (Bdiv mode_NE) (fun a b => eq_refl) Q1 Q2 Q3 Q4 ltac:(lia) ltac:(lia) ltac:(lia) ltac:(lia) ltac:(lia)
        I I2 L2 HL (system files) test ms n' W B s2); auto. }
    eexists _, _, s'. split; [exact E|]. split; [|split; [exact (trained_at_most HR)|split; [|split; [|exact K]]]].
    - apply reports_ok; [lia|exact P2|]. eapply at_most_weaken; [|apply trained_at_most; exact HR]. lra.
    - exists ms, n'. auto.
    - exists files. split; [exact files_saved|exact Oth].
  Qed.

  (** *** Failures: std::runtime_error, and nothing is left in memory *)
  Theorem C111_no_archive : ready -> can_open (str "w.idx") = true -> can_open (str "b.idx") = true ->
    exists g, saved fs g W B /\
    forall s, (system g (str "params.idx.tar") = None \/
               exists c, system g (str "params.idx.tar") = Some c /\ Z.of_nat (List.length c) mod 512 <> 0) -> fresh_ok s ->
    exists s', train_main fs (Some home) s = Throw RuntimeError s' /\ (forall p, cells s' p = cells s p).
  Proof using.
    intros HR O1 O2. exists files. split; [exact files_saved|]. intros s Hn Hf.
    destruct (main_run s (inr RuntimeError) HR Hf O1 O2) as (s' & E & _ & K); [|exists s'; auto].
    intros test s2 F2 D2. apply test_block_missing; auto; lia.
  Qed.

  Theorem C111_unwritable : forall s, ready -> can_open (str "w.idx") = false \/ can_open (str "b.idx") = false -> fresh_ok s ->
    exists s', train_main fs (Some home) s = Throw RuntimeError s' /\ (forall p, cells s' p = cells s p).
  Proof using.
    intros s (Ex & Cu & S1 & S2 & P1 & P2 & HL) O Hf. destruct float_constants as (Q1 & Q2 & Q3 & Q4).
    destruct (program_unwritable dt du dn dt F32 F32 exp_ log_ eps32 (div_float F32) Builtin pixel_float (f32 1 (-1)) rate100 cd code can_open system fuel
      28 28 10 100 60000 10000 (Bdiv mode_NE) (fun a b => eq_refl) Q1 Q2 Q3 Q4 ltac:(lia) ltac:(lia) ltac:(lia) ltac:(lia) ltac:(lia) ltac:(lia)
      I I2 L2 HL fs (load_set "train") (load_set "t10k") I1 L1 W B s Hf) as (s' & E & _ & K); auto.
    - apply set_loads; auto. left; auto.
    - apply set_loads; auto. right; auto.
    - apply main_trains; auto.
    - exists s'. auto.
  Qed.

  Theorem C111_data : forall s, (1 <= csize cu)%nat -> fresh_ok s ->
    lacks_set fs home (str "train") 60000 \/ has_set fs home (str "train") 60000 I1 L1 /\ lacks_set fs home (str "t10k") 10000 ->
    exists s', train_main fs (Some home) s = Throw RuntimeError s' /\ (forall p, cells s' p = cells s p).
  Proof using.
    intros s Cu Hf H.
    destruct (program_unloaded dt du dn dt F32 F32 exp_ log_ eps32 (div_float F32) Builtin pixel_float (f32 1 (-1)) rate100 cd code can_open system fuel
      28 28 10 100 60000 ltac:(lia) fs (load_set "train") (load_set "t10k") I1 L1 s Hf) as (s' & E & _ & K); [|exists s'; auto].
    destruct H as [H|(H1 & H2)]; [left|right; split].
    - eapply set_fails; eauto. left; auto.
    - apply set_loads; auto. left; auto.
    - eapply set_fails; eauto. right; auto.
  Qed.

  (** Without HOME the program has no defined behaviour. *)
  Theorem C111_no_home_refuted : forall s, train_main fs None s = UB.
  Proof using. reflexivity. Qed.
End Program.

(** ** Examples *)

(** One byte per number: multiples of 1/64 between -2 and 2. *)
Definition byte_float : codec float :=
  mkcodec 1 (fun x => match B2SF x with
                      | S754_finite b m e => [128 + Z.shiftl (if b then Zneg m else Zpos m) (e + 6)]
                      | _ => [128]
                      end)
            (fun l => f32 (nth 0 l 128 - 128) (-6)).
Definition byte_u8 : codec Z := mkcodec 1 (fun v => [v]) (fun l => nth 0 l 0).

Fixpoint lookup (l : list (string * list Z)) (name : list Z) : option (list Z) :=
  match l with
  | [] => None
  | (n, c) :: l => if list_eq_dec Z.eq_dec name (str n) then Some c else lookup l name
  end.

(** One training image of one pixel (255) with label 0; two test images, pixels
    255 and 51, with labels 0 and 1. *)
Definition tiny_disk : list (string * list Z) :=
  [("train-images-idx3-ubyte"%string, [0; 0; 8; 3; 0; 0; 0; 1; 0; 0; 0; 1; 0; 0; 0; 1] ++ [255]);
   ("train-labels-idx1-ubyte"%string, [0; 0; 8; 1; 0; 0; 0; 1] ++ [0]);
   ("t10k-images-idx3-ubyte"%string, [0; 0; 8; 3; 0; 0; 0; 2; 0; 0; 0; 1; 0; 0; 0; 1] ++ [255; 51]);
   ("t10k-labels-idx1-ubyte"%string, [0; 0; 8; 1; 0; 0; 0; 2] ++ [0; 1])].

(** An archive of weights 1 and 0 and biases -1/2 and 0, from an earlier run. *)
Definition old_archive : list Z :=
  archive [demo_member (str "w.idx") ([0; 0; 13; 2; 0; 0; 0; 1; 0; 0; 0; 2] ++ [192; 128]);
           demo_member (str "b.idx") ([0; 0; 13; 1; 0; 0; 0; 2] ++ [96; 128])] 2.

Definition tar_demo (g : filesystem) : filesystem := fun name =>
  if list_eq_dec Z.eq_dec name (str "params.idx.tar")
  then match g (str "w.idx"), g (str "b.idx") with
       | Some wb, Some bb => Some (archive [demo_member (str "w.idx") wb; demo_member (str "b.idx") bb] 2)
       | _, _ => None
       end
  else g name.

(** The program on images of one pixel, two classes, batches of one. *)
Definition tiny_main (can_open : list Z -> bool) (system : filesystem -> filesystem) (disk : list (string * list Z)) :=
  let fs := lookup disk in
  let dt := dt_inl float Z in let dz := dt_inr float Z in
  slp_program dt dz dz dt F32 F32 exp_toy (fun x => x) eps32 (div_float F32) Builtin pixel_float (f32 1 (-1)) (f32 1 0)
    byte_float 13 can_open system 9 1 1 2 1 fs
    (load_pair dz byte_u8 8 fs 1 1 1 (str "train")) (load_pair dz byte_u8 8 fs 2 1 1 (str "t10k")) (demo [[inr 7]]).

(** Weights 1 and 0 and biases 1/2 and -1/2 are learnt and saved; class 0 is
    predicted for both test images. *)
Example C111_example :
  match tiny_main (fun _ => true) tar_demo tiny_disk with
  | Ok (l, g) s => map B2SF l = map B2SF [f32 1 (-1); f32 1 (-1); f32 1 (-1)] /\
      g (str "w.idx") = Some [0; 0; 13; 2; 0; 0; 0; 1; 0; 0; 0; 2; 192; 128] /\
      g (str "b.idx") = Some [0; 0; 13; 1; 0; 0; 0; 2; 160; 96] /\
      dump s (T_ 0 [1]) = inits [inr 7] /\ map (fun b => cells s (b, 0)) [1; 2; 3; 4; 5; 6] = repeat Unmapped 6
  | _ => False
  end.
Proof. vm_compute. auto 10. Qed.

Definition left_clean (o : res (float + Z) (list float * filesystem)) : Prop :=
  match o with
  | Throw RuntimeError s => dump s (T_ 0 [1]) = inits [inr 7] /\ map (fun b => cells s (b, 0)) [1; 2; 3; 4; 5; 6] = repeat Unmapped 6
  | _ => False
  end.

(** The files cannot be written; tar fails; no data. *)
Example C111_fails_example :
  left_clean (tiny_main (fun _ => false) tar_demo tiny_disk) /\
  left_clean (tiny_main (fun _ => true) (fun g => g) tiny_disk) /\
  left_clean (tiny_main (fun _ => true) tar_demo []).
Proof. vm_compute. auto 10. Qed.

(** When tar fails and an earlier archive is there, the program ends normally and
    its last line is about the earlier parameters. *)
Theorem C111_stale_refuted :
  match tiny_main (fun _ => true) (fun g => g) (("params.idx.tar"%string, old_archive) :: tiny_disk) with
  | Ok (l, _) _ => map B2SF l = map B2SF [f32 1 (-1); f32 1 (-1); f32 1 0]
  | _ => False
  end.
Proof. vm_compute. auto. Qed.

Print Assumptions C111_archive.
Print Assumptions C111_main.
Print Assumptions C111_no_archive.
Print Assumptions C111_unwritable.
Print Assumptions C111_data.
Print Assumptions C111_no_home_refuted.
Print Assumptions C111_stale_refuted.
