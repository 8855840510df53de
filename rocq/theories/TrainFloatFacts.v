(** Proofs about rounding in the training example. *)
From Coq Require Import ZArith List Bool Lia Reals Lra.
From Coquelicot Require Import Coquelicot.
From Flocq Require Import Core BinarySingleNaN.
From Verif Require Import Base BaseFacts Traits Scalar RealScalar SumFacts TensorFacts LinAlg LinAlgFacts ConvFacts
  Elem ElemSpec ElemFacts PropsElem Activation ActivationSpec ActivationFacts SoftmaxFacts
  PropsSoftmax Pool Summary PropsSummary Utility PropsUtility Backprop Float FloatSpec FloatFacts FloatNan FloatSumSpec FloatSumFacts
  FloatSoftSpec FloatSoftFacts FloatGradSpec FloatGradFacts FloatNormFacts PredictFacts ConvGradFacts StableFacts
  NetFloatSpec NetFloatFacts Train TrainSpec TrainFacts TrainEpoch TrainFloatSpec.
Import ListNotations.
Open Scope Z_scope.
Open Scope model_scope.

(** ** What a step computes, for any number type with a total division *)

Section Step.
  Context {V T : Type} (dt : dtype V T) (sc : scalar T) (quo : T -> T -> T) (Hq : forall a b, sdiv sc a b = Ret (quo a b)).
  Context (exp_ log_ : T -> T) (eps c : T) (n d k : Z).
  Notation matrix := (Z -> Z -> T).
  Notation vector := (Z -> T).

  Definition g_score (X W : matrix) (B : vector) (i : Z) : vector :=
    fun j => sadd sc (sum_over sc (zrange d) (fun a => smul sc (X i a) (W a j))) (B j).
  Definition g_prob (X W : matrix) (B : vector) (i : Z) : vector :=
    fun j => smax sc eps (quo (s1 sc) (soft_tot sc exp_ k (g_score X W B i) j)).
  Definition g_delta (y Y : vector) (j : Z) : T :=
    sum_over sc (zrange k) (fun l => smul sc (smul sc c (quo (sneg sc (Y l)) (y l))) (jac sc y l j)).
  Definition g_deltas (X Y W : matrix) (B : vector) : matrix := fun i => g_delta (g_prob X W B i) (Y i).
  Definition g_descend (X Y : matrix) (p : matrix * vector) : matrix * vector :=
    (fun a j => ssub sc (fst p a j) (sum_over sc (zrange n) (fun i => smul sc (X i a) (g_deltas X Y (fst p) (snd p) i j))),
     fun j => ssub sc (snd p j) (sum_over sc (zrange n) (fun i => g_deltas X Y (fst p) (snd p) i j))).

  Lemma g_step_ok : forall E X Y W B A s, 1 <= n -> 0 <= d -> 0 <= k -> env_ok n d k E ->
    inv dt E A s -> A XS = Some (arg2 X) -> A Y_S = Some (arg2 Y) -> A W_ = Some (arg2 W) -> A B_ = Some (arg1 B) ->
    A G_LS = Some (fun _ => c) ->
    exists s' A', train_step dt sc exp_ log_ eps (div_float sc) Builtin E s = Ok tt s' /\
      inv dt E A' s' /\ only_vars (fun v => ~ is_input v) E s s' /\
      A' W_ = Some (arg2 (fst (g_descend X Y (W, B)))) /\ A' B_ = Some (arg1 (snd (g_descend X Y (W, B)))) /\
      (forall v, is_input v -> A' v = A v).
  Proof using Hq.
    intros E X Y W B A s Hn Hd Hk OK HI AX AY AW AB AG.
    pose proof (proj1 OK) as Ed.
    set (P := fun v => ~ is_input v).
    assert (DK := env_dims_ok n d k E Hn Hd Hk OK). assert (DJ := env_disj n d k E OK).
    Ltac vars Ed DK DJ I :=
      lazymatch goal with
      | |- tdims (?F ?v) = tdims (?F ?u) => exact (eq_trans (Ed v) (eq_sym (Ed u)))
      | |- tdims (?F ?v) = _ => exact (Ed v)
      | |- dims_ok _ => apply DK
      | |- disjoint _ _ => apply DJ; reflexivity
      | |- mapped _ _ => apply I
      | |- holds _ _ _ _ => apply (proj2 (proj2 I)); cbn; first [eassumption | reflexivity]
      | |- (_ <= _)%Z => lia
      | |- safe (?F ?u) (?F ?u) => right; repeat split
      | |- safe _ _ => left; apply DJ; reflexivity
      | |- fresh_ok _ => apply I
      | |- engine_ok _ _ _ => exact Logic.I
      | |- ~ is_input _ => unfold is_input; intuition discriminate
      | _ => idtac
      end.
    unfold train_step, slp, slp_grad.
    (* matmul *)
    destruct (inv_step dt n d k E Hn Hd Hk OK A s (op_matmul dt sc Builtin (E ZS) (E XS) (E W_)) ZS
      (arg2 (fun i j => sum_over sc (zrange d) (fun a => smul sc (X i a) (W a j)))) P HI) as (sa & E1 & I1 & O1).
    { unfold P; vars Ed DK DJ I1. }
    { eapply (C26_matmul dt sc Builtin _ _ _ n d k (arg2 X) (arg2 W)); vars Ed DK DJ HI. }
    rewrite bind_assoc. rewrite (bind_ok _ _ _ _ _ E1).
    (* bias *)
    destruct (inv_step dt n d k E Hn Hd Hk OK _ sa (op_bias dt hw (f_add sc) (E ZS) (E ZS) (E B_)) ZS
      (arg2 (fun i j => g_score X W B i j)) P I1) as (s2 & E2 & I2 & O2).
    { unfold P; vars Ed DK DJ I1. }
    { eapply writes_ext; [reflexivity| |eapply (C30_add_bias dt sc hw 2 1 (E ZS) (E ZS) (E B_) k
        (arg2 (fun i j => sum_over sc (zrange d) (fun a => smul sc (X i a) (W a j)))) (arg1 B))].
      - intros ix Hix. rewrite Ed in Hix. apply valid_2 in Hix. destruct Hix as (i & j & -> & Hi & Hj). reflexivity.
      - left; auto.
      - apply DK.
      - rewrite Ed; reflexivity.
      - reflexivity.
      - rewrite Ed; reflexivity.
      - vars Ed DK DJ I1.
      - vars Ed DK DJ I1.
      - vars Ed DK DJ I1.
      - vars Ed DK DJ I1.
      - vars Ed DK DJ I1.
      - vars Ed DK DJ I1. }
    rewrite (bind_ok _ _ _ _ _ E2).
    (* softmax *)
    destruct (inv_step dt n d k E Hn Hd Hk OK _ s2 (op_softmax dt sc exp_ 2 eps (E YS) (E ZS)) YS
      (arg2 (fun i j => g_prob X W B i j)) P I2) as (s3 & E3 & I3 & O3).
    { unfold P; vars Ed DK DJ I1. }
    { eapply writes_ext; [reflexivity| |eapply (op_softmax_writes dt sc exp_ eps (E YS) (E ZS) [n] k
        (arg2 (fun i j => g_score X W B i j)) (quo (s1 sc))); vars Ed DK DJ I2].
      - intros ix Hix. rewrite Ed in Hix. apply valid_2 in Hix. destruct Hix as (i & j & -> & Hi & Hj). reflexivity.
      - intros t. apply Hq. }
    rewrite (bind_ok _ _ _ _ _ E3).
    (* cross entropy *)
    destruct (inv_step dt n d k E Hn Hd Hk OK _ s3 (op_xentropy dt sc log_ 2 (E LS) (E Y_S) (E YS)) LS
      (arg1 (fun i => sneg sc (sum_over sc (zrange k) (fun j => smul sc (Y i j) (log_ (g_prob X W B i j)))))) P I3) as (s4 & E4 & I4 & O4).
    { unfold P; vars Ed DK DJ I1. }
    { eapply writes_ext; [reflexivity| |eapply (op_xentropy_writes dt sc log_ (E LS) (E Y_S) (E YS) [n] k (arg2 Y)
        (arg2 (fun i j => g_prob X W B i j))); vars Ed DK DJ I3].
      - intros ix Hix. rewrite Ed in Hix. apply valid_1 in Hix. destruct Hix as (i & -> & Hi). reflexivity.
      }
    rewrite (bind_ok _ _ _ _ _ E4).
    (* mean *)
    destruct (inv_step dt n d k E Hn Hd Hk OK _ s4 (op_mean dt sc (div_float sc) 0 (E L_) (E LS)) L_
      (fun ix => quo (sum_over sc (zrange n) (row (arg1 (fun i => sneg sc (sum_over sc (zrange k)
         (fun j => smul sc (Y i j) (log_ (g_prob X W B i j)))))) ix)) (sofZ sc n)) P I4) as (s5 & E5 & I5 & O5).
    { unfold P; vars Ed DK DJ I1. }
    { eapply (C42_mean V T dt sc (div_float sc) (E L_) (E LS) [] n); vars Ed DK DJ I4.
      intros ix _. apply Hq. }
    rewrite (bind_ok _ _ _ _ _ E5).
    (* gradient of the cross entropy *)
    destruct (inv_step dt n d k E Hn Hd Hk OK _ s5 (xentropy_grad2 dt sc (E G_YS) (E G_LS) (E Y_S) (E YS)) G_YS
      (arg2 (fun i j => smul sc c (quo (sneg sc (Y i j)) (g_prob X W B i j)))) P I5) as (s6 & E6 & I6 & O6).
    { unfold P; vars Ed DK DJ I1. }
    { eapply (xentropy_grad2_writes dt sc (E G_YS) (E G_LS) (E Y_S) (E YS) n k (fun _ => c) (arg2 Y)
        (arg2 (fun i j => g_prob X W B i j))
        (fun i j => quo (sneg sc (Y i j)) (g_prob X W B i j))); vars Ed DK DJ I5.
      - intros i j Hi Hj. apply Hq. }
    rewrite (bind_ok _ _ _ _ _ E6).
    (* gradient of softmax *)
    destruct (inv_step dt n d k E Hn Hd Hk OK _ s6 (softmax_grad2 dt sc (E G_ZS) (E G_YS) (E YS) (E ZS)) G_ZS
      (arg2 (g_deltas X Y W B)) P I6) as (s7 & E7 & I7 & O7).
    { unfold P; vars Ed DK DJ I1. }
    { eapply writes_ext; [reflexivity| |eapply (softmax_grad2_writes dt sc (E G_ZS) (E G_YS) (E YS) (E ZS) n k
        (arg2 (fun i j => smul sc c (quo (sneg sc (Y i j)) (g_prob X W B i j))))
        (arg2 (fun i j => g_prob X W B i j))); vars Ed DK DJ I6].
      intros ix Hix. rewrite Ed in Hix. apply valid_2 in Hix. destruct Hix as (i & j & -> & Hi & Hj). reflexivity. }
    rewrite (bind_ok _ _ _ _ _ E7).
    (* gradients of the parameters *)
    destruct (inv_step dt n d k E Hn Hd Hk OK _ s7 _ G_B _ P I7 ltac:(unfold P; vars Ed DK DJ I7)
      (col_sums dt n d k E Hn Hd Hk OK sc (arg2 (g_deltas X Y W B)) s7 (proj2 (proj2 I7) G_ZS _ eq_refl) (proj1 (proj2 I7) G_B)))
      as (s8 & E8 & I8 & O8).
    rewrite bind_assoc. rewrite (bind_ok _ _ _ _ _ E8).
    destruct (inv_step dt n d k E Hn Hd Hk OK _ s8 (e_mtm dt sc Builtin (E XS) (E G_ZS) (E G_W)) G_W
      (arg2 (fun a j => sum_over sc (zrange n) (fun i => smul sc (X i a) (g_deltas X Y W B i j)))) P I8)
      as (s9 & E9 & I9 & O9).
    { unfold P; vars Ed DK DJ I1. }
    { eapply (e_mtm_writes dt sc Builtin (E XS) (E G_ZS) (E G_W) d n k (arg2 X) (arg2 (g_deltas X Y W B)));
        vars Ed DK DJ I8. }
    rewrite (bind_ok _ _ _ _ _ E9).
    (* update *)
    destruct (inv_step dt n d k E Hn Hd Hk OK _ s9 (op_sub dt sc (E W_) (E W_) (E G_W)) W_
      (arg2 (fst (g_descend X Y (W, B)))) P I9) as (s10 & E10 & I10 & O10).
    { unfold P; vars Ed DK DJ I1. }
    { eapply writes_ext; [reflexivity| |eapply (C27_sub dt sc (E W_) (E W_) (E G_W) (arg2 W)); vars Ed DK DJ I9].
      intros ix Hix. reflexivity. }
    rewrite (bind_ok _ _ _ _ _ E10).
    destruct (inv_step dt n d k E Hn Hd Hk OK _ s10 (op_sub dt sc (E B_) (E B_) (E G_B)) B_
      (arg1 (snd (g_descend X Y (W, B)))) P I10) as (s11 & E11 & I11 & O11).
    { unfold P; vars Ed DK DJ I1. }
    { eapply writes_ext; [reflexivity| |eapply (C27_sub dt sc (E B_) (E B_) (E G_B) (arg1 B)); vars Ed DK DJ I10].
      intros ix Hix. reflexivity. }
    rewrite E11. eexists _, _. split; [reflexivity|]. split; [exact I11|].
    split; [|repeat split].
    { repeat (eapply only_vars_trans; [eassumption|]). apply only_vars_refl. }
    intros v [->|[->|[->| ->]]]; reflexivity.
  Qed.
End Step.

(** ** Bounds *)

Section Bounds.
  Context (prec emax : Z) {Hprec : Prec_gt_0 prec} {Hmax : Prec_lt_emax prec emax}.
  Notation sc := (Fsc prec emax).
  Notation flt := (binary_float prec emax).
  Notation u := (unit_roundoff prec).
  Notation eta := (half_tiny prec emax).
  Notation quo := (Bdiv mode_NE).
  Local Open Scope R_scope.
  Context (exp_ : flt -> flt) (eps c : flt) (n d k : Z) (l1 peak omega : R).
  Context (Hn : (1 <= n)%Z) (Hk : (0 <= k)%Z) (Fe : is_finite eps = true) (He : 0 < B2R eps <= 1)
          (Hp : 1 <= peak) (Hw : 0 <= omega) (Hc : rate_ok prec emax n omega c).
  Notation weight := (weight n omega).
  Notation tiny := (delta_tiny prec emax n k omega).
  Notation delta_rounding := (delta_rounding prec emax n k omega (B2R eps)).
  Notation delta_size := (delta_size prec emax n k omega (B2R eps)).
  Notation grad_size := (grad_size prec emax n k peak omega (B2R eps)).
  Notation grad_rounding := (grad_rounding prec emax n k peak omega (B2R eps)).
  Notation step_size := (step_size prec emax n k peak omega (B2R eps)).
  Notation step_room := (step_room prec emax n k peak omega (B2R eps)).
  Notation ratio_room := (ratio_room prec emax n omega (B2R eps)).

  Lemma IZR_n : 1 <= IZR n.
  Proof using Hn. apply IZR_le. exact Hn. Qed.

  Lemma rate_bounds : 0 <= B2R c <= weight.
  Proof using Hn Hc.
    destruct Hc as (_ & P & S). split; [exact P|]. apply Rabs_le_2 in S. unfold TrainFloatSpec.weight.
    unfold Rdiv in *. rewrite Rmult_plus_distr_r. lra.
  Qed.

  Lemma prob_range : forall X W B i j, exp_ok prec emax exp_ -> (0 <= j < k)%Z ->
    let y := g_prob sc quo exp_ eps d k X W B i j in is_finite y = true /\ B2R eps <= B2R y <= 1.
  Proof using Fe He.
    intros X W B i j Ex Hj y. unfold y, g_prob. set (x := g_score sc d X W B i).
    change (s1 sc) with (@Bone prec emax _ _).
    destruct (smax_cases prec emax eps (Bdiv mode_NE Bone (soft_tot sc exp_ k x j)) Fe) as (C1 & C2).
    destruct (soft_cases prec emax exp_ k x j Ex Hj) as [N|(F & R)].
    - rewrite (C1 N). split; [exact Fe|lra].
    - destruct (C2 F) as (F' & E'). split; [exact F'|]. rewrite E'. split; [apply Rmax_l|]. apply Rmax_lub; lra.
  Qed.

  Lemma soft_jac_le : forall (y : Z -> R) i j, 0 <= y i <= 1 -> 0 <= y j <= 1 -> Rabs (soft_jac y i j) <= y i.
  Proof using.
    intros y i j Hi Hj. unfold soft_jac. destruct (Z.eqb i j); apply Rabs_le_2.
    - assert (0 <= y i * y i) by nra. assert (y i * y i <= y i) by nra. lra.
    - assert (0 <= y i * y j) by nra. assert (y i * y j <= y i) by nra. lra.
  Qed.

  Lemma soft_grad_mono : forall m T G T' G', 0 <= T <= T' -> 0 <= G <= G' ->
    soft_grad_bound prec emax m T G <= soft_grad_bound prec emax m T' G'.
  Proof using.
    intros m T G T' G' HT HG. unfold soft_grad_bound.
    pose proof (pow_ge1 prec (m + 2)) as P1. pose proof (pow_ge1 prec m) as P2. pose proof (eta_pos prec emax) as Pe.
    assert (((1 + u) ^ (m + 2) - 1) * T <= ((1 + u) ^ (m + 2) - 1) * T') by (apply Rmult_le_compat_l; lra).
    assert ((1 + u) ^ m * (INR m + G) * eta <= (1 + u) ^ m * (INR m + G') * eta).
    { apply Rmult_le_compat_r; [lra|]. apply Rmult_le_compat_l; lra. }
    lra.
  Qed.

  Lemma tiny_pos : 0 <= ((1 + u) * weight + 1) * eta.
  Proof using Hn Hw.
    pose proof (u_pos prec). pose proof (eta_pos prec emax). pose proof IZR_n.
    assert (0 <= weight) by (unfold TrainFloatSpec.weight; apply Rdiv_le_0_compat; lra).
    apply Rmult_le_pos; [|lra]. assert (0 <= (1 + u) * weight) by (apply Rmult_le_pos; lra). lra.
  Qed.

  Lemma weight_pos : 0 <= weight.
  Proof using Hn Hw. pose proof IZR_n. unfold TrainFloatSpec.weight. apply Rdiv_le_0_compat; lra. Qed.

  Lemma delta_split : delta_size =
    ((1 + u) ^ 2 * weight + tiny) +
    soft_grad_bound prec emax (Z.to_nat k) ((1 + u) ^ 2 * weight + tiny) ((1 + u) ^ 2 * (weight / B2R eps) + tiny).
  Proof using. unfold TrainFloatSpec.delta_size, TrainFloatSpec.delta_rounding. ring. Qed.

  (** The gradient with respect to the scores of one example. *)
  Lemma delta_row : forall y Y j, (0 <= j < k)%Z -> ratio_room -> delta_size < bpow radix2 emax ->
    (forall l, (0 <= l < k)%Z -> is_finite (y l) = true /\ B2R eps <= B2R (y l) <= 1) ->
    (forall l, (0 <= l < k)%Z -> is_finite (Y l) = true /\ 0 <= B2R (Y l)) ->
    rsum k (fun l => B2R (Y l)) <= 1 ->
    let r := B2R (y j) * rsum k (fun l => B2R (Y l)) - B2R (Y j) in
    within prec emax delta_rounding (r * B2R c) (g_delta sc quo c k y Y j) /\ Rabs r <= 1 /\
    Rabs (B2R (g_delta sc quo c k y Y j)) <= delta_size.
  Proof using Hn Hk Fe He Hw Hc.
    intros y Y j Hj (R1 & R2) HS Hy HY HT r.
    pose proof (u_pos prec) as Pu. pose proof (eta_pos prec emax) as Pe. pose proof rate_bounds as (C0 & C1).
    pose proof weight_pos as Pw. pose proof tiny_pos as Pt. set (t := ((1 + u) * weight + 1) * eta) in *.
    assert (HYl : forall l, (0 <= l < k)%Z -> B2R (Y l) <= rsum k (fun l => B2R (Y l))).
    { intros l Hl. apply (sumR_pick (zrange k) (fun l => B2R (Y l)) l); [apply in_zrange; auto|].
      intros b Hb. apply in_zrange in Hb. apply HY; auto. }
    assert (Q : forall l, (0 <= l < k)%Z -> let q := - B2R (Y l) / B2R (y l) in
      Rabs q = B2R (Y l) / B2R (y l) /\ Rabs q * B2R (y l) = B2R (Y l) /\ Rabs q <= B2R (Y l) / B2R eps /\
      within prec emax (((1 + u) ^ 2 - 1) * (B2R c * Rabs q) + t) (B2R c * q) (smul sc c (quo (sneg sc (Y l)) (y l)))).
    { intros l Hl q. destruct (Hy l Hl) as (F1 & B1). destruct (HY l Hl) as (F2 & B2).
      assert (Eq : Rabs q = B2R (Y l) / B2R (y l)).
      { unfold q, Rdiv. rewrite Ropp_mult_distr_l_reverse, Rabs_Ropp. apply Rabs_pos_eq.
        apply Rmult_le_pos; [lra|]. apply Rlt_le, Rinv_0_lt_compat; lra. }
      assert (Eq2 : Rabs q * B2R (y l) = B2R (Y l)) by (rewrite Eq; field; lra).
      assert (Eq3 : Rabs q <= B2R (Y l) / B2R eps).
      { rewrite Eq. unfold Rdiv. apply Rmult_le_compat_l; [lra|]. apply Rinv_le_contravar; lra. }
      split; [exact Eq|]. split; [exact Eq2|]. split; [exact Eq3|].
      assert (I1 : 0 < / B2R eps) by (apply Rinv_0_lt_compat; lra).
      assert (Eq4 : Rabs q <= / B2R eps).
      { eapply Rle_trans; [exact Eq3|]. unfold Rdiv. pose proof (HYl l Hl). rewrite <- (Rmult_1_l (/ B2R eps)) at 2.
        apply Rmult_le_compat_r; lra. }
      assert (Ec : Rabs (B2R c * q) = B2R c * Rabs q) by (rewrite Rabs_mult, (Rabs_pos_eq (B2R c)) by lra; reflexivity).
      assert (LB : xent_grad_bound prec emax (B2R c) q <= ((1 + u) ^ 2 - 1) * (B2R c * Rabs q) + t).
      { unfold xent_grad_bound. rewrite Ec, (Rabs_pos_eq (B2R c)) by lra. apply Rplus_le_compat_l. unfold t.
        apply Rmult_le_compat_r; [lra|]. apply Rplus_le_compat_r, Rmult_le_compat_l; lra. }
      assert (K : (1 + u) ^ 2 * (B2R c * Rabs q) <= (1 + u) ^ 2 * (weight / B2R eps)).
      { pose proof (pow_ge1 prec 2). apply Rmult_le_compat_l; [lra|]. unfold Rdiv.
        apply Rmult_le_compat; try lra. apply Rabs_pos. }
      destruct (xent_grad_within prec emax c (Y l) (y l)) as (F & S); auto; try lra.
      - apply Hc.
      - unfold in_range in *. fold q. eapply Rle_lt_trans; [|exact R1]. apply Rplus_le_compat_r, Rmult_le_compat_l; [lra|].
        rewrite (Rabs_pos_eq (/ B2R eps)); lra.
      - fold q. eapply Rle_lt_trans; [|exact R2]. fold t. rewrite Ec. lra.
      - split; [exact F|]. fold q in S. eapply Rle_trans; [exact S|exact LB]. }
    set (gy := fun l => smul sc c (quo (sneg sc (Y l)) (y l))) in *.
    set (q := fun l => - B2R (Y l) / B2R (y l)) in *.
    assert (Ek : INR (length (zrange k)) = INR (Z.to_nat k)) by (rewrite length_zrange; reflexivity).
    assert (D1 := pow_ge1 prec 2).
    assert (Gy : forall l, (0 <= l < k)%Z -> Rabs (B2R (gy l)) <= (1 + u) ^ 2 * (B2R c * Rabs (q l)) + t).
    { intros l Hl. destruct (Q l Hl) as (_ & _ & _ & _ & S). cbv zeta in S. fold (gy l) (q l) in S.
      replace (B2R (gy l)) with ((B2R (gy l) - B2R c * q l) + B2R c * q l) by ring.
      eapply Rle_trans; [apply Rabs_triang|]. rewrite (Rabs_mult (B2R c)), (Rabs_pos_eq (B2R c)) by lra. lra. }
    assert (Jl : forall l, (0 <= l < k)%Z -> Rabs (soft_jac (fun a => B2R (y a)) l j) <= B2R (y l)).
    { intros l Hl. destruct (Hy l Hl) as (_ & B1). destruct (Hy j Hj) as (_ & B2). apply soft_jac_le; lra. }
    assert (Yc : forall K, 0 <= K -> sum_over Rsc (zrange k) (fun l => K * B2R (Y l) + t) <= K + tiny).
    { intros K PK. rewrite sumR_plus, sumR_scale, sumR_const, Ek. unfold delta_tiny. fold t.
      apply Rplus_le_compat_r. rewrite <- (Rmult_1_r K) at 2. apply Rmult_le_compat_l; [exact PK|]. exact HT. }
    set (T := sum_over Rsc (zrange k) (fun l => Rabs (B2R (gy l) * soft_jac (fun a => B2R (y a)) l j))).
    set (G := sum_over Rsc (zrange k) (fun l => Rabs (B2R (gy l)))).
    assert (T0 : 0 <= T) by (apply sumR_nonneg; intros; apply Rabs_pos).
    assert (G0 : 0 <= G) by (apply sumR_nonneg; intros; apply Rabs_pos).
    assert (TB : T <= (1 + u) ^ 2 * weight + tiny).
    { eapply Rle_trans; [|apply (Yc ((1 + u) ^ 2 * weight))].
      - apply sumR_le. intros l Hl. apply in_zrange in Hl. destruct (Q l Hl) as (_ & Eq2 & _ & _). fold (q l) in Eq2.
        destruct (Hy l Hl) as (_ & B1). destruct (HY l Hl) as (_ & B2). rewrite Rabs_mult.
        eapply Rle_trans; [apply Rmult_le_compat; [apply Rabs_pos|apply Rabs_pos|apply Gy; auto|apply Jl; auto]|].
        rewrite Rmult_plus_distr_r.
        replace ((1 + u) ^ 2 * (B2R c * Rabs (q l)) * B2R (y l)) with ((1 + u) ^ 2 * B2R c * (Rabs (q l) * B2R (y l))) by ring.
        rewrite Eq2. apply Rplus_le_compat.
        + apply Rmult_le_compat_r; [lra|]. apply Rmult_le_compat_l; lra.
        + rewrite <- (Rmult_1_r t) at 2. apply Rmult_le_compat_l; lra.
      - apply Rmult_le_pos; lra. }
    assert (I1 : 0 < / B2R eps) by (apply Rinv_0_lt_compat; lra).
    assert (GB : G <= (1 + u) ^ 2 * (weight / B2R eps) + tiny).
    { eapply Rle_trans; [|apply (Yc ((1 + u) ^ 2 * (weight / B2R eps)))].
      - apply sumR_le. intros l Hl. apply in_zrange in Hl. destruct (Q l Hl) as (_ & _ & Eq3 & _). fold (q l) in Eq3.
        destruct (HY l Hl) as (_ & B2).
        eapply Rle_trans; [apply Gy; auto|]. apply Rplus_le_compat_r. rewrite Rmult_assoc.
        apply Rmult_le_compat_l; [lra|]. replace (weight / B2R eps * B2R (Y l)) with (weight * (B2R (Y l) / B2R eps)) by (unfold Rdiv; ring).
        apply Rmult_le_compat; try lra. apply Rabs_pos.
      - apply Rmult_le_pos; [lra|]. apply Rmult_le_pos; lra. }
    set (T' := (1 + u) ^ 2 * weight + tiny) in *. set (G' := (1 + u) ^ 2 * (weight / B2R eps) + tiny) in *.
    assert (SB := soft_grad_mono (Z.to_nat k) T G T' G' (conj T0 TB) (conj G0 GB)).
    assert (Sr : sum_over Rsc (zrange k) (fun l => B2R c * q l * soft_jac (fun a => B2R (y a)) l j) = r * B2R c).
    { unfold r. rewrite <- (delta_sum k (B2R c) (fun l => B2R (Y l)) (fun a => B2R (y a)) j Hj).
      - reflexivity.
      - intros l Hl. destruct (Hy l Hl) as (_ & B1). lra. }
    destruct (soft_grad_within prec emax k gy y j) as (F & S); auto.
    - intros l Hl. destruct (Hy l Hl) as (F1 & B1). destruct (Q l Hl) as (_ & _ & _ & F2 & _). repeat split; auto; lra.
    - fold T G. rewrite delta_split in HS. fold T' G' in HS. lra.
    - fold T G in S.
      assert (W : within prec emax delta_rounding (r * B2R c) (g_delta sc quo c k y Y j)).
      { split; [exact F|]. rewrite <- Sr.
        change (g_delta sc quo c k y Y j) with (sum_over sc (zrange k) (fun i => smul sc (gy i) (fjac prec emax y i j))).
        set (v := B2R (sum_over sc (zrange k) (fun i => smul sc (gy i) (fjac prec emax y i j)))) in *.
        match goal with |- Rabs ?e <= _ => replace e with ((v - sum_over Rsc (zrange k) (fun i => B2R (gy i) * soft_jac (fun a => B2R (y a)) i j)) +
          (sum_over Rsc (zrange k) (fun i => B2R (gy i) * soft_jac (fun a => B2R (y a)) i j) -
           sum_over Rsc (zrange k) (fun l => B2R c * q l * soft_jac (fun a => B2R (y a)) l j))) by ring end.
        eapply Rle_trans; [apply Rabs_triang|]. unfold TrainFloatSpec.delta_rounding. fold T' G'. apply Rplus_le_compat; [lra|].
        eapply Rle_trans; [apply (sumR_dist _ _ _ (fun l => ((1 + u) ^ 2 - 1) * weight * B2R (Y l) + t))|].
        - intros l Hl. apply in_zrange in Hl. destruct (Q l Hl) as (_ & Eq2 & _ & _ & S2). cbv zeta in S2. fold (q l) in Eq2, S2. fold (gy l) in S2.
          destruct (Hy l Hl) as (_ & B1). destruct (HY l Hl) as (_ & B2).
          rewrite <- Rmult_minus_distr_r, Rabs_mult.
          eapply Rle_trans; [apply Rmult_le_compat; [apply Rabs_pos|apply Rabs_pos|exact S2|apply Jl; auto]|].
          rewrite Rmult_plus_distr_r.
          replace (((1 + u) ^ 2 - 1) * (B2R c * Rabs (q l)) * B2R (y l)) with (((1 + u) ^ 2 - 1) * B2R c * (Rabs (q l) * B2R (y l))) by ring.
          rewrite Eq2. apply Rplus_le_compat.
          + apply Rmult_le_compat_r; [lra|]. apply Rmult_le_compat_l; lra.
          + rewrite <- (Rmult_1_r t) at 2. apply Rmult_le_compat_l; lra.
        - apply Yc. apply Rmult_le_pos; lra. }
      assert (Rr : Rabs r <= 1).
      { unfold r. set (S0 := rsum k (fun l => B2R (Y l))) in *. pose proof (HYl j Hj). destruct (HY j Hj) as (_ & B2).
        destruct (Hy j Hj) as (_ & B1). assert (0 <= B2R (y j) * S0) by (apply Rmult_le_pos; lra).
        assert (B2R (y j) * S0 <= 1 * 1) by (apply Rmult_le_compat; lra). apply Rabs_le_2. lra. }
      split; [exact W|]. split; [exact Rr|]. destruct W as (_ & W).
      replace (B2R (g_delta sc quo c k y Y j)) with ((B2R (g_delta sc quo c k y Y j) - r * B2R c) + r * B2R c) by ring.
      eapply Rle_trans; [apply Rabs_triang|]. rewrite (Rabs_mult r), (Rabs_pos_eq (B2R c)) by lra.
      unfold TrainFloatSpec.delta_size. assert (Rabs r * B2R c <= 1 * weight) by (apply Rmult_le_compat; try lra; apply Rabs_pos). lra.
  Qed.

  Lemma sizes_pos : 0 <= delta_size /\ delta_size <= grad_size /\ IZR n * delta_size <= grad_size /\ 0 <= grad_rounding.
  Proof using Hn Hp Hw He.
    pose proof (u_pos prec) as Pu. pose proof (eta_pos prec emax) as Pe. pose proof weight_pos as Pw. pose proof tiny_pos as Pt.
    pose proof IZR_n as N1. pose proof (pow_ge1 prec 2) as D2. pose proof (pos_INR (Z.to_nat k)) as Pk.
    assert (Ti : 0 <= tiny) by (unfold delta_tiny; apply Rmult_le_pos; lra).
    assert (I1 : 0 < / B2R eps) by (apply Rinv_0_lt_compat; lra).
    assert (S0 : 0 <= delta_size).
    { rewrite delta_split. assert (0 <= (1 + u) ^ 2 * weight) by (apply Rmult_le_pos; lra).
      assert (0 <= (1 + u) ^ 2 * (weight / B2R eps)) by (apply Rmult_le_pos; [lra|apply Rmult_le_pos; lra]).
      unfold soft_grad_bound. pose proof (pow_ge1 prec (Z.to_nat k + 2)) as P1. pose proof (pow_ge1 prec (Z.to_nat k)) as P2.
      assert (0 <= ((1 + u) ^ (Z.to_nat k + 2) - 1) * ((1 + u) ^ 2 * weight + tiny)) by (apply Rmult_le_pos; lra).
      assert (0 <= (1 + u) ^ Z.to_nat k * (INR (Z.to_nat k) + ((1 + u) ^ 2 * (weight / B2R eps) + tiny)) * eta).
      { apply Rmult_le_pos; [|lra]. apply Rmult_le_pos; lra. }
      lra. }
    assert (S1 : IZR n * delta_size <= grad_size).
    { unfold TrainFloatSpec.grad_size. apply Rmult_le_compat_r; [exact S0|].
      rewrite <- (Rmult_1_r (IZR n)) at 1. apply Rmult_le_compat_l; lra. }
    assert (S2 : delta_size <= IZR n * delta_size).
    { rewrite <- (Rmult_1_l delta_size) at 1. apply Rmult_le_compat_r; lra. }
    repeat split; try lra. unfold TrainFloatSpec.grad_rounding, dot_bound.
    pose proof (pow_ge1 prec (Z.to_nat n)) as P1. pose proof (pos_INR (Z.to_nat n)) as Pn.
    assert (0 <= ((1 + u) ^ Z.to_nat n - 1) * grad_size) by (apply Rmult_le_pos; lra).
    assert (0 <= INR (Z.to_nat n) * eta * (1 + u) ^ Z.to_nat n) by (apply Rmult_le_pos; [apply Rmult_le_pos|]; lra). lra.
  Qed.

  Lemma IZR_INR_n : INR (length (zrange n)) = IZR n.
  Proof using Hn. rewrite length_zrange, INR_IZR_INZ, Z2Nat.id; [reflexivity|apply Z.le_trans with 1%Z; [discriminate|exact Hn]]. Qed.

  (** Sums over the examples. *)
  Lemma grad_dot : forall f g : Z -> flt, grad_size + grad_rounding < bpow radix2 emax ->
    (forall i, (0 <= i < n)%Z -> is_finite (f i) = true /\ Rabs (B2R (f i)) <= peak) ->
    (forall i, (0 <= i < n)%Z -> is_finite (g i) = true /\ Rabs (B2R (g i)) <= delta_size) ->
    let r := rsum n (fun i => B2R (f i) * B2R (g i)) in
    within prec emax grad_rounding r (sum_over sc (zrange n) (fun i => smul sc (f i) (g i))) /\ Rabs r <= grad_size.
  Proof using Hn Hp Hw He.
    intros f g HO Hf Hg r. destruct sizes_pos as (S0 & _ & _ & _).
    set (T := sum_over Rsc (zrange n) (fun i => Rabs (B2R (f i) * B2R (g i)))).
    assert (T0 : 0 <= T) by (apply sumR_nonneg; intros; apply Rabs_pos).
    assert (TB : T <= grad_size).
    { eapply Rle_trans; [apply (sumR_le _ _ (fun _ => peak * delta_size))|].
      - intros i Hi. apply in_zrange in Hi. rewrite Rabs_mult. destruct (Hf i Hi), (Hg i Hi).
        apply Rmult_le_compat; auto; apply Rabs_pos.
      - rewrite sumR_const, IZR_INR_n. unfold TrainFloatSpec.grad_size. lra. }
    assert (DB : dot_bound prec emax (Z.to_nat n) T <= grad_rounding) by (apply bound_le; lra).
    destruct (dot_approx prec emax (zrange n) f g) as (F & S).
    - intros i Hi. apply in_zrange in Hi. split; [apply Hf|apply Hg]; auto.
    - unfold no_overflow. rewrite length_zrange. fold T. lra.
    - rewrite length_zrange in S. fold T in S. split; [split; [exact F|]|].
      + eapply Rle_trans; [exact S|exact DB].
      + eapply Rle_trans; [apply sumR_abs|exact TB].
  Qed.

  Lemma grad_sum : forall g : Z -> flt, grad_size + grad_rounding < bpow radix2 emax ->
    (forall i, (0 <= i < n)%Z -> is_finite (g i) = true /\ Rabs (B2R (g i)) <= delta_size) ->
    let r := rsum n (fun i => B2R (g i)) in
    within prec emax grad_rounding r (sum_over sc (zrange n) g) /\ Rabs r <= grad_size.
  Proof using Hn Hp Hw He.
    intros g HO Hg r. destruct sizes_pos as (S0 & _ & S1 & _).
    pose proof (u_pos prec) as Pu. pose proof (eta_pos prec emax) as Pe.
    set (T := sum_over Rsc (zrange n) (fun i => Rabs (B2R (g i)))).
    assert (T0 : 0 <= T) by (apply sumR_nonneg; intros; apply Rabs_pos).
    assert (TB : T <= grad_size).
    { eapply Rle_trans; [apply (sumR_le _ _ (fun _ => delta_size))|].
      - intros i Hi. apply in_zrange in Hi. apply Hg; auto.
      - rewrite sumR_const, IZR_INR_n. lra. }
    assert (DB : dot_bound prec emax (Z.to_nat n) T <= grad_rounding) by (apply bound_le; lra).
    assert (PL : (1 + u) ^ Nat.pred (Z.to_nat n) <= (1 + u) ^ Z.to_nat n) by (apply Rle_pow; [lra|apply Nat.le_pred_l]).
    assert (KB : (1 + u) ^ Nat.pred (Z.to_nat n) * T - T <= dot_bound prec emax (Z.to_nat n) T).
    { unfold dot_bound. assert ((1 + u) ^ Nat.pred (Z.to_nat n) * T <= (1 + u) ^ Z.to_nat n * T) by (apply Rmult_le_compat_r; lra).
      pose proof (pow_ge1 prec (Z.to_nat n)) as P1. pose proof (pos_INR (Z.to_nat n)) as Pn.
      assert (0 <= INR (Z.to_nat n) * eta * (1 + u) ^ Z.to_nat n) by (apply Rmult_le_pos; [apply Rmult_le_pos|]; lra). lra. }
    destruct (sum_approx prec emax (zrange n) g) as (F & S).
    - intros i Hi. apply in_zrange in Hi. apply Hg; auto.
    - unfold sum_fits. rewrite length_zrange. fold T. lra.
    - unfold sum_bound in S. rewrite length_zrange in S. fold T in S. split; [split; [exact F|]|].
      + eapply Rle_trans; [exact S|]. lra.
      + eapply Rle_trans; [apply sumR_abs|exact TB].
  Qed.

  (** The update of a parameter. *)
  Lemma update : forall (w g : flt) r m, step_room m -> is_finite w = true -> Rabs (B2R w) <= m ->
    within prec emax grad_rounding r g -> Rabs r <= grad_size ->
    within prec emax (grad_rounding + u * (m + grad_size + grad_rounding)) (B2R w - r) (Bminus mode_NE w g) /\
    Rabs (B2R (Bminus mode_NE w g)) <= step_size m.
  Proof using.
    intros w g r m HR Fw Bw (Fg & Sg) Br. unfold TrainFloatSpec.step_room in HR. pose proof (u_pos prec) as Pu.
    apply Rabs_le_2 in Bw. apply Rabs_le_2 in Br. apply Rabs_le_2 in Sg.
    assert (BD : Rabs (B2R w - B2R g) <= m + grad_size + grad_rounding) by (apply Rabs_le_2; lra).
    assert (BU : u * Rabs (B2R w - B2R g) <= u * (m + grad_size + grad_rounding)) by (apply Rmult_le_compat_l; lra).
    destruct (sub_within prec emax w g Fw Fg) as (F & S).
    - unfold in_range. eapply Rle_lt_trans; [|exact HR]. unfold TrainFloatSpec.step_size. lra.
    - apply Rabs_le_2 in S. apply Rabs_le_2 in BD. split; [split; [exact F|]|]; apply Rabs_le_2; unfold TrainFloatSpec.step_size; lra.
  Qed.

  Notation descends := (g_descend sc quo exp_ eps c n d k).

  Lemma room_gives : forall m, 0 <= m -> step_room m ->
    delta_size < bpow radix2 emax /\ grad_size + grad_rounding < bpow radix2 emax.
  Proof using Hn Hp Hw He.
    intros m Hm HR. unfold TrainFloatSpec.step_room, TrainFloatSpec.step_size in HR. destruct sizes_pos as (S0 & S1 & _ & S3).
    pose proof (u_pos prec) as Pu. pose proof (eta_pos prec emax) as Pe.
    assert (0 <= u * (m + grad_size + grad_rounding)) by (apply Rmult_le_pos; lra). lra.
  Qed.

  Lemma deltas_fine : forall X Y p m i j, exp_ok prec emax exp_ -> examples prec emax n d k peak X Y -> ratio_room -> 0 <= m -> step_room m ->
    (0 <= i < n)%Z -> (0 <= j < k)%Z ->
    let D := g_deltas sc quo exp_ eps c d k X Y (fst p) (snd p) i j in
    is_finite D = true /\ Rabs (B2R D) <= delta_size.
  Proof using All.
    intros X Y p m i j Ex HXY RR Hm HR Hi Hj D. destruct (room_gives m Hm HR) as (R1 & R2).
    destruct (HXY i Hi) as (_ & HY & HT).
    destruct (delta_row (g_prob sc quo exp_ eps d k X (fst p) (snd p) i) (Y i) j Hj RR R1) as ((F & _) & _ & B); auto.
    intros l Hl. apply prob_range; auto.
  Qed.

  Lemma step_finite : forall X Y p m, exp_ok prec emax exp_ -> examples prec emax n d k peak X Y -> ratio_room -> 0 <= m -> step_room m ->
    params_within prec emax d k m p -> params_within prec emax d k (step_size m) (descends X Y p).
  Proof using All.
    intros X Y p m Ex HXY RR Hm HR (HW & HB). destruct (room_gives m Hm HR) as (R1 & R2). split.
    - intros a j Ha Hj. destruct (HW a j Ha Hj) as (F & B).
      destruct (grad_dot (fun i => X i a) (fun i => g_deltas sc quo exp_ eps c d k X Y (fst p) (snd p) i j) R2) as (W1 & W2).
      + intros i Hi. apply HXY; auto.
      + intros i Hi. apply (deltas_fine X Y p m); auto.
      + destruct (update (fst p a j) _ _ m HR F B W1 W2) as ((F' & _) & B'). split; auto.
    - intros j Hj. destruct (HB j Hj) as (F & B).
      destruct (grad_sum (fun i => g_deltas sc quo exp_ eps c d k X Y (fst p) (snd p) i j) R2) as (W1 & W2).
      + intros i Hi. apply (deltas_fine X Y p m); auto.
      + destruct (update (snd p j) _ _ m HR F B W1 W2) as ((F' & _) & B'). split; auto.
  Qed.

  (** *** Distance from the exact step *)
  Notation score_rounding := (score_rounding prec emax d l1).
  Notation score_size := (score_size prec emax d l1).
  Notation prob_error := (prob_error prec emax d k l1).
  Notation step_error := (step_error prec emax n d k l1 peak omega (B2R eps)).

  Lemma score_close : forall X p q m e i j, 0 <= m -> 0 <= l1 -> light prec emax n d l1 X ->
    (forall a, (0 <= a < d)%Z -> is_finite (X i a) = true) ->
    params_within prec emax d k m p -> params_close prec emax d k e p q -> score_size m + eta < bpow radix2 emax ->
    (0 <= i < n)%Z -> (0 <= j < k)%Z ->
    let x := g_score sc d X (fst p) (snd p) i j in
    is_finite x = true /\ Rabs (B2R x) <= score_size m /\
    Rabs (B2R x - scores d (fun i a => B2R (X i a)) (fst q) (snd q) i j) <= (l1 + 1) * e + score_rounding m.
  Proof using.
    intros X p q m e i j Hm H1 HL HX (HW & HB) (CW & CB) HR Hi Hj x.
    pose proof (u_pos prec) as Pu. pose proof (eta_pos prec emax) as Pe.
    set (W := fst p) in *. set (B := snd p) in *.
    set (T := sum_over Rsc (zrange d) (fun a => Rabs (B2R (X i a) * B2R (W a j)))).
    assert (T0 : 0 <= T) by (apply sumR_nonneg; intros; apply Rabs_pos).
    assert (TB : T <= l1 * m).
    { apply Rle_trans with (m * rsum d (fun a => Rabs (B2R (X i a)))).
      - unfold rsum. rewrite <- sumR_scale. apply sumR_le. intros a Ha. apply in_zrange in Ha. rewrite Rabs_mult, Rmult_comm.
        apply Rmult_le_compat_r; [apply Rabs_pos|]. apply HW; auto.
      - rewrite (Rmult_comm l1). apply Rmult_le_compat_l; auto. }
    assert (L0 : 0 <= l1 * m) by (apply Rmult_le_pos; auto).
    set (rr := dot_bound prec emax (Z.to_nat d) (l1 * m)).
    assert (DB : dot_bound prec emax (Z.to_nat d) T <= rr) by (apply bound_le; lra).
    assert (R0 : 0 <= rr).
    { unfold rr, dot_bound. pose proof (pow_ge1 prec (Z.to_nat d)) as P1. pose proof (pos_INR (Z.to_nat d)) as Pn.
      assert (0 <= ((1 + u) ^ Z.to_nat d - 1) * (l1 * m)) by (apply Rmult_le_pos; lra).
      assert (0 <= INR (Z.to_nat d) * eta * (1 + u) ^ Z.to_nat d) by (apply Rmult_le_pos; [apply Rmult_le_pos|]; lra). lra. }
    unfold TrainFloatSpec.score_size, TrainFloatSpec.score_rounding in *. cbv zeta in *. fold rr in HR |- *.
    assert (U0 : 0 <= u * (l1 * m + rr + m)) by (apply Rmult_le_pos; lra).
    destruct (dot_approx prec emax (zrange d) (fun a => X i a) (fun a => W a j)) as (F & S).
    - intros a Ha. apply in_zrange in Ha. split; [apply HX; auto|apply HW; auto].
    - unfold no_overflow. rewrite length_zrange. fold T. lra.
    - rewrite length_zrange in S. fold T in S.
      set (v := sum_over sc (zrange d) (fun a => smul sc (X i a) (W a j))) in *.
      set (r := sum_over Rsc (zrange d) (fun a => B2R (X i a) * B2R (W a j))) in *.
      assert (Br : Rabs r <= l1 * m) by (eapply Rle_trans; [apply sumR_abs|exact TB]).
      assert (Sr : Rabs (B2R v - r) <= rr) by lra.
      destruct (HB j Hj) as (FB & BB). fold B in FB, BB.
      apply Rabs_le_2 in Br. apply Rabs_le_2 in Sr. apply Rabs_le_2 in BB.
      assert (BS : Rabs (B2R v + B2R (B j)) <= l1 * m + rr + m) by (apply Rabs_le_2; lra).
      assert (BU : u * Rabs (B2R v + B2R (B j)) <= u * (l1 * m + rr + m)) by (apply Rmult_le_compat_l; lra).
      destruct (add_within prec emax v (B j) F FB) as (F2 & S2).
      { unfold in_range. eapply Rle_lt_trans; [|exact HR]. lra. }
      change (Bplus mode_NE v (B j)) with x in F2, S2. apply Rabs_le_2 in BS. apply Rabs_le_2 in S2.
      assert (Cr : Rabs (r - rsum d (fun a => B2R (X i a) * fst q a j)) <= l1 * e).
      { unfold r, rsum. eapply Rle_trans; [apply (sumR_dist _ _ _ (fun a => e * Rabs (B2R (X i a))))|].
        - intros a Ha. apply in_zrange in Ha. rewrite <- Rmult_minus_distr_l, Rabs_mult, Rmult_comm.
          apply Rmult_le_compat_r; [apply Rabs_pos|]. apply CW; auto.
        - rewrite sumR_scale, (Rmult_comm l1). apply Rmult_le_compat_l; [|apply HL; auto].
          eapply Rle_trans; [apply Rabs_pos|apply (CB j Hj)]. }
      apply Rabs_le_2 in Cr. pose proof (CB j Hj) as CBj. apply Rabs_le_2 in CBj. fold B in CBj.
      split; [exact F2|]. split; apply Rabs_le_2; [lra|]. unfold scores. lra.
  Qed.

  Lemma prob_close : forall acc X p q m e i j, 0 <= m -> 0 <= l1 -> light prec emax n d l1 X ->
    (forall a, (0 <= a < d)%Z -> is_finite (X i a) = true) ->
    params_within prec emax d k m p -> params_close prec emax d k e p q -> score_room prec emax d k l1 acc exp_ m ->
    (0 <= i < n)%Z -> (0 <= j < k)%Z ->
    Rabs (B2R (g_prob sc quo exp_ eps d k X (fst p) (snd p) i j) -
          predict (B2R eps) d k (fun i a => B2R (X i a)) (fst q) (snd q) i j) <= prob_error acc m e.
  Proof using Fe.
    intros acc X p q m e i j Hm H1 HL HX HP HC (HR & HS) Hi Hj.
    assert (SC := fun l Hl => score_close X p q m e i l Hm H1 HL HX HP HC HR Hi Hl). cbv zeta in SC.
    set (x := g_score sc d X (fst p) (snd p) i) in *.
    set (z := scores d (fun i a => B2R (X i a)) (fst q) (snd q) i) in *.
    assert (S0 : 0 <= score_size m) by (eapply Rle_trans; [apply Rabs_pos|apply (SC j Hj)]).
    destruct HS as (_ & A1 & A2 & A3 & A4 & A5 & A6).
    destruct (soft_entry_float prec emax exp_ eps acc k x (score_size m) j) as (_ & S & _); auto.
    { intros l Hl. split; apply SC; auto. }
    assert (C : Rabs (softmax_fn (B2R eps) k (fun l => B2R (x l)) j - softmax_fn (B2R eps) k z j)
                  <= / 2 * ((l1 + 1) * e + score_rounding m)).
    { unfold softmax_fn. eapply Rle_trans; [apply Rmax_close|]. apply (soft_close k (fun l => B2R (x l)) z j); [exact Hj|]. intros l Hl. apply (SC l Hl). }
    unfold predict, g_prob. fold x z. change (s1 sc) with (@Bone prec emax _ _).
    unfold TrainFloatSpec.prob_error, rounding. cbv zeta in S.
    apply Rabs_le_2 in S. apply Rabs_le_2 in C. apply Rabs_le_2. lra.
  Qed.

  Lemma delta_close : forall acc X Y p q m e i j, exp_ok prec emax exp_ -> 0 <= m -> 0 <= l1 ->
    examples prec emax n d k peak X Y -> light prec emax n d l1 X -> ratio_room -> step_room m -> score_room prec emax d k l1 acc exp_ m ->
    params_within prec emax d k m p -> params_close prec emax d k e p q ->
    (0 <= i < n)%Z -> (0 <= j < k)%Z ->
    Rabs (B2R (g_deltas sc quo exp_ eps c d k X Y (fst p) (snd p) i j) -
          slp_delta (B2R eps) n d k (fun i a => B2R (X i a)) (fun i j => B2R (Y i j)) (fst q) (snd q) i j)
      <= weight * prob_error acc m e + omega / IZR n + delta_rounding.
  Proof using All.
    intros acc X Y p q m e i j Ex Hm H1 HXY HL RR HR HS HP HC Hi Hj.
    destruct (room_gives m Hm HR) as (R1 & R2). destruct (HXY i Hi) as (HX & HY & HT).
    destruct (delta_row (g_prob sc quo exp_ eps d k X (fst p) (snd p) i) (Y i) j Hj RR R1) as ((F & S) & _ & _); auto.
    { intros l Hl. apply prob_range; auto. }
    assert (PC := prob_close acc X p q m e i j Hm H1 HL (fun a Ha => proj1 (HX a Ha)) HP HC HS Hi Hj).
    unfold g_deltas. set (D := B2R (g_delta _ _ _ _ _ _ _)) in *. unfold slp_delta.
    set (y := B2R (g_prob sc quo exp_ eps d k X (fst p) (snd p) i j)) in *.
    set (P := predict _ _ _ _ _ _ _ _) in *.
    set (S0 := rsum k (fun l => B2R (Y i l))) in *. set (Yj := B2R (Y i j)) in *.
    assert (Yl : 0 <= Yj <= S0).
    { split; [apply HY; auto|]. apply (sumR_pick (zrange k) (fun l => B2R (Y i l)) j); [apply in_zrange; auto|].
      intros b Hb. apply in_zrange in Hb. apply HY; auto. }
    assert (Pr : 0 <= P <= 1).
    { unfold P, predict, softmax_fn. set (z := scores _ _ _ _ _). 
      assert (Q : 0 < exp (z j) / rsum k (fun l => exp (z l)) <= 1).
      { assert (Pz : exp (z j) <= rsum k (fun l => exp (z l))).
        { apply (sumR_pick (zrange k) (fun l => exp (z l)) j); [apply in_zrange; auto|]. intros. apply Rlt_le, exp_pos. }
        pose proof (exp_pos (z j)). split; [apply Rdiv_lt_0_compat; lra|].
        apply (Rle_div_l (exp (z j)) 1 (rsum k (fun l => exp (z l)))); lra. }
      split; [eapply Rle_trans; [|apply Rmax_r]; lra|apply Rmax_lub; lra]. }
    destruct Hc as (_ & C0 & Cn). pose proof rate_bounds as (_ & CW). pose proof IZR_n as N1.
    replace (D - (P * S0 - Yj) / IZR n) with
      ((D - (y * S0 - Yj) * B2R c) + ((y - P) * (S0 * B2R c) + (P * S0 - Yj) * (B2R c - / IZR n))) by (field; lra).
    eapply Rle_trans; [apply Rabs_triang|].
    assert (K1 : Rabs ((y - P) * (S0 * B2R c)) <= prob_error acc m e * weight).
    { rewrite Rabs_mult. apply Rmult_le_compat; try apply Rabs_pos; auto.
      rewrite Rabs_pos_eq by (apply Rmult_le_pos; lra).
      rewrite <- (Rmult_1_l weight). apply Rmult_le_compat; lra. }
    assert (K2 : Rabs ((P * S0 - Yj) * (B2R c - / IZR n)) <= 1 * (omega / IZR n)).
    { rewrite Rabs_mult. apply Rmult_le_compat; try apply Rabs_pos; auto.
      assert (0 <= P * S0) by (apply Rmult_le_pos; lra). assert (P * S0 <= 1 * 1) by (apply Rmult_le_compat; lra).
      apply Rabs_le_2. lra. }
    assert (K3 := Rabs_triang ((y - P) * (S0 * B2R c)) ((P * S0 - Yj) * (B2R c - / IZR n))).
    lra.
  Qed.

  Lemma three : forall w' w g g' q x y z, Rabs (w' - (w - g)) <= x -> Rabs (g - g') <= y -> Rabs (w - q) <= z ->
    Rabs (w' - (q - g')) <= z + y + x.
  Proof using.
    intros w' w g g' q x y z A B C. apply Rabs_le_2 in A. apply Rabs_le_2 in B. apply Rabs_le_2 in C. apply Rabs_le_2. lra.
  Qed.

  Lemma step_close : forall acc X Y p q m e, exp_ok prec emax exp_ -> 0 <= m -> 0 <= l1 ->
    examples prec emax n d k peak X Y -> light prec emax n d l1 X -> ratio_room -> step_room m -> score_room prec emax d k l1 acc exp_ m ->
    params_within prec emax d k m p -> params_close prec emax d k e p q ->
    params_close prec emax d k (step_error acc m e) (descends X Y p)
      (descend (B2R eps) n d k (fun i a => B2R (X i a)) (fun i j => B2R (Y i j)) q).
  Proof using All.
    intros acc X Y p q m e Ex Hm H1 HXY HL RR HR HS HP HC.
    destruct (room_gives m Hm HR) as (R1 & R2). pose proof IZR_n as N1.
    set (De := weight * prob_error acc m e + omega / IZR n + delta_rounding).
    assert (DC : forall i j, (0 <= i < n)%Z -> (0 <= j < k)%Z ->
      Rabs (B2R (g_deltas sc quo exp_ eps c d k X Y (fst p) (snd p) i j) -
          slp_delta (B2R eps) n d k (fun i a => B2R (X i a)) (fun i j => B2R (Y i j)) (fst q) (snd q) i j) <= De).
    { intros. apply delta_close; auto. }
    destruct HP as (HW & HB). pose proof HC as (CW & CB). split.
    - intros a j Ha Hj. destruct (HW a j Ha Hj) as (F & B).
      destruct (grad_dot (fun i => X i a) (fun i => g_deltas sc quo exp_ eps c d k X Y (fst p) (snd p) i j) R2) as (W1 & W2).
      + intros i Hi. apply HXY; auto.
      + intros i Hi. apply (deltas_fine X Y p m); auto.
      + destruct (update (fst p a j) _ _ m HR F B W1 W2) as ((F' & B') & _).
        unfold descend, slp_gw. cbn [fst snd].
        assert (K : Rabs (rsum n (fun i => B2R (X i a) * B2R (g_deltas sc quo exp_ eps c d k X Y (fst p) (snd p) i j)) -
          rsum n (fun i => B2R (X i a) * slp_delta (B2R eps) n d k (fun i a => B2R (X i a)) (fun i j => B2R (Y i j)) (fst q) (snd q) i j))
          <= IZR n * peak * De).
        { unfold rsum. eapply Rle_trans; [apply (sumR_dist _ _ _ (fun _ => peak * De))|].
          - intros i Hi. apply in_zrange in Hi. rewrite <- Rmult_minus_distr_l, Rabs_mult.
            apply Rmult_le_compat; try apply Rabs_pos; [apply HXY; auto|apply DC; auto].
          - rewrite sumR_const, IZR_INR_n. lra. }
        change (step_error acc m e) with (e + IZR n * peak * De + grad_rounding + u * (m + grad_size + grad_rounding)).
        rewrite (Rplus_assoc (e + IZR n * peak * De)). eapply three; [exact B'|exact K|exact (CW a j Ha Hj)].
    - intros j Hj. destruct (HB j Hj) as (F & B).
      destruct (grad_sum (fun i => g_deltas sc quo exp_ eps c d k X Y (fst p) (snd p) i j) R2) as (W1 & W2).
      + intros i Hi. apply (deltas_fine X Y p m); auto.
      + destruct (update (snd p j) _ _ m HR F B W1 W2) as ((F' & B') & _).
        unfold descend, slp_gb. cbn [fst snd].
        assert (De0 : 0 <= De) by (eapply Rle_trans; [apply Rabs_pos|apply (DC 0%Z j); [split; [reflexivity|]|exact Hj]]; apply Z.lt_le_trans with 1%Z; [reflexivity|exact Hn]).
        assert (K : Rabs (rsum n (fun i => B2R (g_deltas sc quo exp_ eps c d k X Y (fst p) (snd p) i j)) -
          rsum n (fun i => slp_delta (B2R eps) n d k (fun i a => B2R (X i a)) (fun i j => B2R (Y i j)) (fst q) (snd q) i j))
          <= IZR n * peak * De).
        { unfold rsum. eapply Rle_trans; [apply (sumR_dist _ _ _ (fun _ => De))|].
          - intros i Hi. apply in_zrange in Hi. apply DC; auto.
          - rewrite sumR_const, IZR_INR_n. apply Rmult_le_compat_r; [exact De0|].
            rewrite <- (Rmult_1_r (IZR n)) at 1. apply Rmult_le_compat_l; lra. }
        change (step_error acc m e) with (e + IZR n * peak * De + grad_rounding + u * (m + grad_size + grad_rounding)).
        rewrite (Rplus_assoc (e + IZR n * peak * De)). eapply three; [exact B'|exact K|exact (CB j Hj)].
  Qed.
End Bounds.
