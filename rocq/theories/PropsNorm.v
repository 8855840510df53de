(** Properties C28 (relu) and C32 (batch normalisation). *)
From Coq Require Import ZArith List Bool Lia Reals Lra.
From Coquelicot Require Import Coquelicot.
From Verif Require Import Base BaseFacts TensorFacts Traits Scalar RealScalar Elem ElemSpec ElemFacts Demo.
Import ListNotations.
Open Scope Z_scope.
Open Scope model_scope.

(** *** C28: relu. *)
Section Relu.
  Context {V T : Type} (dt : dtype V T) (sc : scalar T).

  Theorem C28_relu : forall y x X s,
    dims_ok y -> tdims x = tdims y -> holds dt s x X -> mapped s y -> safe y x ->
    writes dt (op_relu dt sc y x) s y (fun ix => if sltb sc (s0 sc) (X ix) then X ix else s0 sc).
  Proof using.
    intros. unfold op_relu, op_pointwise. rewrite transform1_flat.
    apply (transform1_writes dt dt (relu1 sc)); auto.
  Qed.

  (** Applying it again, in place, changes nothing. *)
  Theorem C28_idempotent : forall y x X s,
    dims_ok y -> tdims x = tdims y -> holds dt s x X -> mapped s y -> safe y x ->
    exists Y, writes dt (op_relu dt sc y x) s y Y /\
              writes dt (op_relu dt sc y x ;;; op_relu dt sc y y) s y Y.
  Proof using.
    intros y x X s Hd E HX HY S. eexists. split; [eapply (C28_relu y x X); eauto|].
    eapply writes_bind; [eapply (C28_relu y x X); eauto|]. intros s' H' O'. cbv beta in H'.
    eapply writes_ext; [reflexivity| |eapply (C28_relu y y); [exact Hd|reflexivity|exact H'|eapply holds_mapped; eauto|apply safe_refl]].
    intros ix _. cbv beta. destruct (sltb sc (s0 sc) (X ix)) eqn:E1.
    - rewrite E1. reflexivity.
    - destruct (sltb sc (s0 sc) (s0 sc)); reflexivity.
  Qed.

  (** The gradient passes the incoming gradient exactly where x > 0. *)
  Theorem C28_grad : forall gx gy x GY X s,
    dims_ok gx -> tdims gy = tdims gx -> tdims x = tdims gx ->
    holds dt s gy GY -> holds dt s x X -> mapped s gx -> safe gx gy -> safe gx x ->
    writes dt (op_relu_grad dt sc gx gy x) s gx
      (fun ix => if sltb sc (s0 sc) (X ix) then GY ix else s0 sc).
  Proof using.
    intros. unfold op_relu_grad, binary_pointwise. rewrite transform2_flat.
    apply (transform2_writes dt _ gx gy x GY X); auto.
  Qed.
End Relu.

(** relu is max(x, 0), over the integers and over the reals. *)
Theorem C28_max_Z : forall x, relu1 Zsc x = Z.max x 0.
Proof. intros x. unfold relu1. cbn. destruct (Z.ltb_spec 0 x); lia. Qed.

Theorem C28_max_R : forall x, relu1 Rsc x = Rmax x 0.
Proof.
  intros x. unfold relu1; cbn. unfold Rltb. destruct (Rlt_dec 0 x).
  - rewrite Rmax_left; lra.
  - rewrite Rmax_right; lra.
Qed.

(** Its gradient is the chain rule with the derivative of max(x, 0), wherever
    that derivative exists. *)
Theorem C28_derivative : forall (gy x : R), (x <> 0)%R ->
  exists d, is_derive (fun t => Rmax t 0) x d /\ relu_grad1 Rsc gy x = (gy * d)%R.
Proof.
  intros gy x Hx. unfold relu_grad1; cbn. unfold Rltb. destruct (Rlt_dec 0 x) as [P|N].
  - exists 1%R. split; [|ring].
    apply (is_derive_ext_loc (fun t => t)); [|auto_derive; [exact I|ring]].
    exists (mkposreal x P). intros t Ht. unfold ball in Ht; cbn in Ht.
    unfold AbsRing_ball, abs, minus, plus, opp in Ht; cbn in Ht.
    apply Rabs_def2 in Ht. rewrite Rmax_left; lra.
  - assert (P : (0 < - x)%R) by lra. exists 0%R. split; [|ring].
    apply (is_derive_ext_loc (fun _ => 0%R)); [|auto_derive; [exact I|ring]].
    exists (mkposreal (- x) P). intros t Ht. unfold ball in Ht; cbn in Ht.
    unfold AbsRing_ball, abs, minus, plus, opp in Ht; cbn in Ht.
    apply Rabs_def2 in Ht. rewrite Rmax_right; lra.
Qed.

(** At 0 max(x, 0) has no derivative; the code returns 0 there. *)
Theorem C28_at_zero : forall gy : R, relu_grad1 Rsc gy 0%R = 0%R /\ ~ ex_derive (fun t => Rmax t 0) 0%R.
Proof.
  intros gy. split.
  - unfold relu_grad1; cbn. unfold Rltb. destruct (Rlt_dec 0 0); lra.
  - intros Hd. apply ex_derive_Reals_0 in Hd.
    destruct Hd as [l H]. unfold derivable_pt_abs, derivable_pt_lim in H.
    destruct (H (1/2)%R ltac:(lra)) as [d Hd]. destruct d as [d Pd]; cbn in Hd.
    pose proof (Hd (d/2)%R ltac:(lra) ltac:(rewrite Rabs_pos_eq; lra)) as H1.
    pose proof (Hd (-(d/2))%R ltac:(lra) ltac:(rewrite Rabs_Ropp, Rabs_pos_eq; lra)) as H2.
    rewrite Rplus_0_l in H1, H2. rewrite (Rmax_right 0 0) in H1, H2 by lra.
    rewrite Rmax_left in H1 by lra. rewrite Rmax_right in H2 by lra.
    replace ((d / 2 - 0) / (d / 2))%R with 1%R in H1 by (field; lra).
    replace ((0 - 0) / - (d / 2))%R with 0%R in H2 by (field; lra).
    apply Rabs_def2 in H1. apply Rabs_def2 in H2. lra.
Qed.

Example C28_example :
  let s := demo [[-3; 0; 5; -1]; [10; 20; 30; 40]; [9; 9; 9; 9]] in
  run (op_relu zt Zsc (T_ 0 [2; 2]) (T_ 0 [2; 2])) s (T_ 0 [4]) = Some (inits [0; 0; 5; 0]) /\
  run (op_relu_grad zt Zsc (T_ 2 [2; 2]) (T_ 1 [2; 2]) (T_ 0 [2; 2])) s (T_ 2 [4]) = Some (inits [0; 0; 30; 0]).
Proof. split; reflexivity. Qed.

(** *** C32: batch normalisation. *)
Section BatchNorm.
  Context {V T : Type} (dt : dtype V T) (sc : scalar T).

  (** The channel axis is the last one for nhwc and the second one for nchw. *)
  Definition bn_axis (o : order) (p : nat) : Prop := (o = nhwc /\ p = 3%nat) \/ (o = nchw /\ p = 1%nat).

  (** For any normalising function [norm x mean var] that is defined on the
      data.  In place use is covered. *)
  Theorem C32_bn : forall o p norm y x m v c X Mu Va Y s, bn_axis o p ->
    length (tdims x) = 4%nat -> dims_ok x -> tdims y = tdims x -> nth p (tdims x) 0 = c ->
    tdims m = [c] -> tdims v = [c] ->
    holds dt s x X -> holds dt s m Mu -> holds dt s v Va ->
    mapped s y -> safe y x -> disjoint y m -> disjoint y v ->
    (forall ix, valid (tdims x) ix -> norm (X ix) (Mu [nth p ix 0]) (Va [nth p ix 0]) = Ret (Y ix)) ->
    writes dt (op_bn dt o norm y x m v) s y Y.
  Proof using.
    intros o p norm y x m v c X Mu Va Y s A Hl Dx Ey Ec Em Ev HX HM HV HY S Dm Dv Hn.
    destruct (tdims x) as [|a [|b [|d [|e [|? ?]]]]] eqn:Ex; try (cbn in Hl; discriminate).
    destruct A as [[-> ->] | [-> ->]]; cbn [op_bn]; cbn in Ec; subst c.
    - eapply (bn_nhwc_writes dt norm y x m v a b d e X Mu Va); eauto.
      intros l i j k Hv. exact (Hn _ Hv).
    - eapply (bn_nchw_writes dt norm y x m v a d e b X Mu Va); eauto.
      intros l k i j Hv. exact (Hn _ Hv).
  Qed.

  (** With scale and shift. *)
  Theorem C32_bn_bias : forall o p norm y x m v beta gamma c X Mu Va Be Ga Y s, bn_axis o p ->
    length (tdims x) = 4%nat -> dims_ok x -> tdims y = tdims x -> nth p (tdims x) 0 = c ->
    tdims m = [c] -> tdims v = [c] -> tdims beta = [c] -> tdims gamma = [c] ->
    holds dt s x X -> holds dt s m Mu -> holds dt s v Va -> holds dt s beta Be -> holds dt s gamma Ga ->
    mapped s y -> safe y x -> disjoint y m -> disjoint y v -> disjoint y beta -> disjoint y gamma ->
    (forall ix, valid (tdims x) ix -> norm (X ix) (Mu [nth p ix 0]) (Va [nth p ix 0]) = Ret (Y ix)) ->
    writes dt (op_bn_bias dt sc o norm y x m v beta gamma) s y
      (fun ix => sadd sc (smul sc (Y ix) (Ga [nth p ix 0])) (Be [nth p ix 0])).
  Proof using.
    intros o p norm y x m v beta gamma c X Mu Va Be Ga Y s A Hl Dx Ey Ec Em Ev Eb Eg
      HX HM HV HB HG HY S Dm Dv Db Dg Hn.
    assert (P : p = channel_position o) by (destruct A as [[-> ->] | [-> ->]]; reflexivity).
    subst p. eapply (op_bn_bias_writes dt sc o norm y x m v beta gamma c X Mu Va); eauto.
    destruct A as [[-> _] | [-> _]]; auto.
  Qed.

  (** The two layouts agree under transposition: [x'] is the nchw version of
      the nhwc tensor [x]. *)
  Theorem C32_layouts : forall norm y x y' x' m v n h w c X Mu Va Y s,
    tdims x = [n; h; w; c] -> tdims y = [n; h; w; c] ->
    tdims x' = [n; c; h; w] -> tdims y' = [n; c; h; w] ->
    tdims m = [c] -> tdims v = [c] -> dims_ok x ->
    holds dt s x X -> holds dt s x' (to_nchw X) -> holds dt s m Mu -> holds dt s v Va ->
    mapped s y -> mapped s y' -> safe y x -> safe y' x' ->
    disjoint y m -> disjoint y v -> disjoint y' m -> disjoint y' v ->
    (forall l i j k, valid [n; h; w; c] [l; i; j; k] ->
       norm (X [l; i; j; k]) (Mu [k]) (Va [k]) = Ret (Y [l; i; j; k])) ->
    writes dt (op_bn dt nhwc norm y x m v) s y Y /\
    writes dt (op_bn dt nchw norm y' x' m v) s y' (to_nchw Y).
  Proof using.
    intros norm y x y' x' m v n h w c X Mu Va Y s Ex Ey Ex' Ey' Em Ev Dx HX HX' HM HV HY HY' S S'
      D1 D2 D3 D4 Hn. split; cbn [op_bn].
    - eapply (bn_nhwc_writes dt norm y x m v n h w c X Mu Va); eauto.
    - eapply (bn_nchw_writes dt norm y' x' m v n h w c (to_nchw X) Mu Va); eauto.
      + unfold dims_ok in *. rewrite Ex in Dx. rewrite Ex'. rewrite !Forall_cons_iff in *. tauto.
      + intros l k i j Hv. unfold to_nchw, arg4; cbn [nth]. apply Hn. cbn in *. tauto.
  Qed.

  (** Shape inference. *)
  Theorem C32_shape : forall o p x cm cv cb cg, bn_axis o p -> length x = 4%nat ->
    (bn_shape o x [cm] [cv] =
       if (nth p x 0 =? cm) && (nth p x 0 =? cv) then Ret x else Exn RuntimeError) /\
    (bn_bias_shape o x [cm] [cv] [cb] [cg] =
       if (nth p x 0 =? cm) && (nth p x 0 =? cv) && (nth p x 0 =? cb) && (nth p x 0 =? cg)
       then Ret x else Exn RuntimeError).
  Proof using.
    intros o p x cm cv cb cg A Hl. unfold bn_shape, bn_bias_shape, channel_size.
    replace (channel_position o) with p by (destruct A as [[-> ->] | [-> ->]]; reflexivity).
    cbn [nth]. destruct (nth p x 0 =? cm), (nth p x 0 =? cv), (nth p x 0 =? cb), (nth p x 0 =? cg);
      split; reflexivity.
  Qed.
End BatchNorm.

(** The formula of the library over the reals, for every data: with eps > 0
    the quotient is always defined (also for negative variance, where the
    real square root is 0). *)
Theorem C32_formula : forall eps x mean var, (0 < eps)%R ->
  normalize Rsc sqrt eps x mean var = Ret ((x - mean) / (sqrt var + eps))%R.
Proof.
  intros eps x mean var He. unfold normalize. apply Rdiv_ok. cbn.
  pose proof (sqrt_pos var). lra.
Qed.

Theorem C32_bn_real : forall V (dt : dtype V R) o p eps y x m v c X Mu Va s, bn_axis o p -> (0 < eps)%R ->
  length (tdims x) = 4%nat -> dims_ok x -> tdims y = tdims x -> nth p (tdims x) 0 = c ->
  tdims m = [c] -> tdims v = [c] ->
  holds dt s x X -> holds dt s m Mu -> holds dt s v Va ->
  mapped s y -> safe y x -> disjoint y m -> disjoint y v ->
  writes dt (op_bn dt o (normalize Rsc sqrt eps) y x m v) s y
    (fun ix => (X ix - Mu [nth p ix 0%Z]) / (sqrt (Va [nth p ix 0%Z]) + eps))%R.
Proof.
  intros V dt o p eps y x m v c X Mu Va s A He Hl Dx Ey Ec Em Ev HX HM HV HY S Dm Dv.
  eapply (C32_bn dt o p (normalize Rsc sqrt eps) y x m v c X Mu Va); eauto.
  intros ix Hix. apply C32_formula; auto.
Qed.

(** Integers with norm x m v = (x - m) * v, in place for nchw. *)
Example C32_example :
  let s := demo [[1; 2; 3; 4; 5; 6; 7; 8]; [1; 2]; [1; 10]; repeat 0 8; [100; 200]; [1; 2]] in
  let norm x m v := Ret ((x - m) * v) in
  run (op_bn zt nhwc norm (T_ 3 [2; 1; 2; 2]) (T_ 0 [2; 1; 2; 2]) (T_ 1 [2]) (T_ 2 [2])) s (T_ 3 [8])
    = Some (inits [0; 0; 2; 20; 4; 40; 6; 60]) /\
  run (op_bn zt nchw norm (T_ 0 [2; 2; 1; 2]) (T_ 0 [2; 2; 1; 2]) (T_ 1 [2]) (T_ 2 [2])) s (T_ 0 [8])
    = Some (inits [0; 1; 10; 20; 4; 5; 50; 60]) /\
  run (op_bn_bias zt Zsc nhwc norm (T_ 3 [2; 1; 2; 2]) (T_ 0 [2; 1; 2; 2]) (T_ 1 [2]) (T_ 2 [2]) (T_ 4 [2]) (T_ 5 [2]))
    s (T_ 3 [8]) = Some (inits [100; 200; 102; 240; 104; 280; 106; 320]) /\
  bn_shape nhwc [2; 1; 2; 2] [2] [3] = Exn RuntimeError.
Proof. repeat split; reflexivity. Qed.

Print Assumptions C28_relu.
Print Assumptions C28_idempotent.
Print Assumptions C28_grad.
Print Assumptions C28_max_Z.
Print Assumptions C28_max_R.
Print Assumptions C28_derivative.
Print Assumptions C28_at_zero.
Print Assumptions C32_bn.
Print Assumptions C32_bn_bias.
Print Assumptions C32_layouts.
Print Assumptions C32_shape.
Print Assumptions C32_formula.
Print Assumptions C32_bn_real.
