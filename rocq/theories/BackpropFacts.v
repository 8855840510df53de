(** Proofs about backpropagation. *)
From Coq Require Import ZArith List Bool Lia Reals Lra.
From Coquelicot Require Import Coquelicot.
From Verif Require Import Base BaseFacts Traits Scalar RealScalar SumFacts TensorFacts LinAlg LinAlgFacts Shapes Conv
  ConvSpec ConvFacts GradSpec Elem ElemSpec ElemFacts ElemGradFacts PropsElem Activation ActivationSpec ActivationFacts SoftmaxFacts
  PropsSoftmax PropsNorm Pool Summary PropsSummary Reshape PropsReshape PropsConv Backprop BackpropSpec ConvGradFacts.
Import ListNotations.
Open Scope Z_scope.
Open Scope model_scope.

(** ** Curves *)

Definition moves (ds : list Z) (c : R -> tens) (X D : tens) : Prop :=
  forall ix, valid ds ix -> c 0%R ix = X ix /\ is_derive (fun t => c t ix) 0%R (D ix).

Lemma along_moves : forall ds X D, moves ds (along X D) X D.
Proof.
  intros ds X D ix _. unfold along. split; [ring|]. auto_derive; [exact I|ring].
Qed.

Lemma inner_plus : forall ds (G A B : tens),
  (inner Rsc ds G (tadd Rsc A B) = inner Rsc ds G A + inner Rsc ds G B)%R.
Proof.
  intros ds G A B. unfold inner. pose proof (sum_add Rsc Rsc_laws (indices ds)) as Q. cbn in Q. rewrite <- Q.
  apply sum_over_ext. intros ix _. unfold tadd; cbn. ring.
Qed.

Lemma inner_moves : forall ds G c X D, moves ds c X D ->
  is_derive (fun t => inner Rsc ds G (c t)) 0%R (inner Rsc ds G D).
Proof.
  intros ds G c X D H. unfold inner.
  apply (is_derive_sum (indices ds) (fun ix t => smul Rsc (G ix) (c t ix)) (fun ix => smul Rsc (G ix) (D ix))).
  intros ix Hix. apply in_indices in Hix. cbn. apply is_derive_scal. apply (H ix Hix).
Qed.

Lemma moves_ext : forall ds c c' X X' D, (forall t ix, valid ds ix -> c t ix = c' t ix) ->
  (forall ix, valid ds ix -> X ix = X' ix) -> moves ds c X D -> moves ds c' X' D.
Proof.
  intros ds c c' X X' D Hc HX H ix Hix. destruct (H ix Hix) as [E Q]. split.
  - rewrite <- Hc, <- HX by auto. exact E.
  - eapply is_derive_ext; [|exact Q]. intros t. cbn beta. auto.
Qed.

(** ** One layer *)

Definition layer_vjp (eps : R) (L : layer) (P X GZ GP GX : tens) : Prop :=
  forall cp cx dP dX, moves (par_shape L) cp P dP -> moves (in_shape L) cx X dX ->
  exists dZ, moves (out_shape L) (fun t => layer_fn eps L (cp t) (cx t)) (layer_fn eps L P X) dZ /\
    (inner Rsc (out_shape L) GZ dZ = inner Rsc (par_shape L) GP dP + inner Rsc (in_shape L) GX dX)%R.

(** Layers that are linear in the parameter and in the input. *)
Lemma bil_vjp : forall (A : Type) eps L (l : list Z -> list A) (w : list Z -> A -> R) (f g : list Z -> A -> list Z)
    P X GZ GP GX,
  (forall P X ix, valid (out_shape L) ix ->
     layer_fn eps L P X ix = sum_over Rsc (l ix) (fun a => w ix a * X (f ix a) * P (g ix a))%R) ->
  (forall ix a, valid (out_shape L) ix -> In a (l ix) ->
     w ix a = 0%R \/ (valid (in_shape L) (f ix a) /\ valid (par_shape L) (g ix a))) ->
  is_vjp Rsc (out_shape L) (in_shape L) (fun X => layer_fn eps L P X) GZ GX ->
  is_vjp Rsc (out_shape L) (par_shape L) (fun P => layer_fn eps L P X) GZ GP ->
  layer_vjp eps L P X GZ GP GX.
Proof.
  intros A eps L l w f g P X GZ GP GX HF HV VX VP cp cx dP dX Mp Mx.
  exists (tadd Rsc (tsub Rsc (layer_fn eps L P (tadd Rsc X dX)) (layer_fn eps L P X))
                   (tsub Rsc (layer_fn eps L (tadd Rsc P dP) X) (layer_fn eps L P X))).
  split.
  2:{ rewrite inner_plus. rewrite (VX X dX), (VP P dP). ring. }
  intros ix Hix. split.
  - rewrite !HF by auto. apply sum_over_ext. intros a Ha. destruct (HV ix a Hix Ha) as [->|[V1 V2]]; [ring|].
    rewrite (proj1 (Mx _ V1)), (proj1 (Mp _ V2)). reflexivity.
  - eapply is_derive_ext; [intros t; symmetry; apply HF; auto|].
    replace (tadd Rsc (tsub Rsc (layer_fn eps L P (tadd Rsc X dX)) (layer_fn eps L P X))
                   (tsub Rsc (layer_fn eps L (tadd Rsc P dP) X) (layer_fn eps L P X)) ix)
      with (sum_over Rsc (l ix) (fun a => w ix a * dX (f ix a) * P (g ix a) + w ix a * X (f ix a) * dP (g ix a))%R).
    + apply (is_derive_sum (l ix) (fun a t => w ix a * cx t (f ix a) * cp t (g ix a))%R).
      intros a Ha. destruct (HV ix a Hix Ha) as [->|[V1 V2]].
      * assert (E0 : forall t, 0%R = (0 * cx t (f ix a) * cp t (g ix a))%R) by (intros t; ring).
        apply (is_derive_ext (fun _ : R => 0%R) _ _ _ E0).
        replace (0 * dX (f ix a) * P (g ix a) + 0 * X (f ix a) * dP (g ix a))%R with 0%R by ring.
        apply (is_derive_const 0%R).
      * destruct (Mx _ V1) as [E1 D1]. destruct (Mp _ V2) as [E2 D2].
        pose proof (is_derive_mult _ _ _ _ _ (is_derive_scal _ _ (w ix a) _ D1) D2 Rmult_comm) as Q.
        cbn in Q. rewrite E1, E2 in Q. exact Q.
    + unfold tadd at 1, tsub. rewrite !HF by auto. unfold tadd. cbn [sadd ssub Rsc].
      rewrite <- !(sum_sub Rsc Rsc_laws), <- (sum_add Rsc Rsc_laws). apply sum_over_ext. intros a _. cbn. ring.
Qed.

(** Layers that add a parameter. *)
Lemma shift_vjp : forall eps L (g : list Z -> list Z) P X GZ GP,
  in_shape L = out_shape L ->
  (forall P X ix, valid (out_shape L) ix -> layer_fn eps L P X ix = (X ix + P (g ix))%R) ->
  (forall ix, valid (out_shape L) ix -> valid (par_shape L) (g ix)) ->
  is_vjp Rsc (out_shape L) (par_shape L) (fun P ix => (X ix + P (g ix))%R) GZ GP ->
  layer_vjp eps L P X GZ GP GZ.
Proof.
  intros eps L g P X GZ GP Ei HF HV VP cp cx dP dX Mp Mx. rewrite Ei in *.
  exists (fun ix => dX ix + dP (g ix))%R. split.
  - intros ix Hix. destruct (Mx ix Hix) as [E1 D1]. destruct (Mp _ (HV ix Hix)) as [E2 D2]. split.
    + rewrite !HF by auto. rewrite E1, E2. reflexivity.
    + eapply is_derive_ext; [intros t; symmetry; apply HF; auto|]. apply (is_derive_plus _ _ _ _ _ D1 D2).
  - rewrite <- (VP P dP). rewrite Rplus_comm, <- inner_plus. apply inner_ext; auto.
    intros ix _. unfold tadd, tsub; cbn. ring.
Qed.

(** Softmax along a curve. *)
Lemma soft_curve : forall eps n (c : R -> Z -> R) X D i, 0 <= i < n -> unclamped eps n X ->
  (forall j, 0 <= j < n -> c 0%R j = X j /\ is_derive (fun t => c t j) 0%R (D j)) ->
  let Y := softmax_fn eps n X in
  softmax_fn eps n (c 0%R) i = Y i /\
  is_derive (fun t => softmax_fn eps n (c t) i) 0%R (Y i * (D i - rsum n (fun j => Y j * D j)))%R.
Proof.
  intros eps n c X D i Hi Hu Hc Y.
  set (S_ := rsum n (fun k => exp (X k))).
  assert (P : (0 < S_)%R) by (apply sum_exp_pos; lia).
  assert (EY : forall j, 0 <= j < n -> Y j = (exp (X j) / S_)%R).
  { intros j Hj. unfold Y, softmax_fn. apply Rmax_right. left. apply Hu; auto. }
  assert (E1 : rsum n (fun j => exp (c 0%R j)) = S_).
  { apply rsum_ext. intros j Hj. rewrite (proj1 (Hc j Hj)). reflexivity. }
  assert (De : forall j, 0 <= j < n -> is_derive (fun t => exp (c t j)) 0%R (D j * exp (X j))%R).
  { intros j Hj. destruct (Hc j Hj) as [E0 Dj].
    pose proof (is_derive_comp exp (fun t => c t j) 0%R (exp (c 0%R j)) (D j)) as Q. rewrite E0 in Q.
    apply Q; [|exact Dj]. rewrite <- E0. apply is_derive_Reals, derivable_pt_lim_exp. }
  assert (Ds : is_derive (fun t => rsum n (fun j => exp (c t j))) 0%R (rsum n (fun j => D j * exp (X j)))%R).
  { apply (is_derive_rsum n (fun j t => exp (c t j))). intros j Hj. apply De; auto. }
  pose proof (is_derive_div _ _ _ _ _ (De i Hi) Ds) as Q. cbv beta in Q. rewrite E1 in Q.
  specialize (Q ltac:(lra)). rewrite (proj1 (Hc i Hi)) in Q.
  assert (E2 : (rsum n (fun j => Y j * D j) = rsum n (fun j => D j * exp (X j)) / S_)%R).
  { unfold Rdiv. rewrite <- rsum_scal_r. apply rsum_ext. intros j Hj. rewrite EY by auto. field. lra. }
  replace ((D i * exp (X i) * S_ - exp (X i) * rsum n (fun j => D j * exp (X j))) / S_ ^ 2)%R
    with (Y i * (D i - rsum n (fun j => Y j * D j)))%R in Q.
  2:{ rewrite E2, EY by auto. field. lra. }
  split.
  { unfold softmax_fn. rewrite E1, (proj1 (Hc i Hi)). reflexivity. }
  eapply is_derive_ext_loc; [|exact Q].
  assert (C : continuous (fun t => exp (c t i) / rsum n (fun j => exp (c t j)))%R 0%R).
  { apply (@ex_derive_continuous R_AbsRing R_NormedModule). eexists. exact Q. }
  assert (V0 : (eps < exp (c 0%R i) / rsum n (fun j => exp (c 0%R j)))%R).
  { rewrite E1, (proj1 (Hc i Hi)). apply Hu; auto. }
  pose proof (C _ (open_gt eps _ V0)) as L. unfold filtermap in L.
  eapply filter_imp; [|exact L]. cbv beta. intros t Ht. unfold softmax_fn.
  symmetry. apply Rmax_right. lra.
Qed.

(** Relu along a curve. *)
Lemma relu_curve : forall (c : R -> R) x d, c 0%R = x -> is_derive c 0%R d -> x <> 0%R ->
  is_derive (fun t => Rmax (c t) 0) 0%R (if Rltb 0 x then d else 0)%R.
Proof.
  intros c x d E D N. unfold Rltb. destruct (C28_derivative 1%R x N) as (d' & Q & G).
  unfold relu_grad1 in G; cbn in G. unfold Rltb in G.
  pose proof (is_derive_comp (fun t => Rmax t 0) c 0%R d' d) as P. rewrite E in P. specialize (P Q D).
  cbn in P. replace (if (if Rlt_dec 0 x then true else false) then d else 0)%R with (scal d d'); [exact P|].
  unfold scal; cbn; unfold mult; cbn. destruct (Rlt_dec 0 x); rewrite Rmult_1_l in G; rewrite <- G; ring.
Qed.

(** The gradients computed by the operators. *)
Definition layer_gp (L : layer) (X GZ : tens) : tens :=
  match L with
  | LAdd _ => GZ
  | LMul _ => fun ix => (GZ ix * X ix)%R
  | LMatmul _ m _ _ => arg2 (fun k j => rsum m (fun i => X [i; k] * GZ [i; j])%R)
  | LBias m _ => fun ix => rsum m (fun i => GZ (i :: ix))
  | LBiasImg n h w c => fun ix => rsum (prod [n; h; w]) (fun r => GZ (expand [n; h; w] r ++ ix))
  | LConv _ C n h w _ r s _ h' w' =>
      conv_gy_spec Rsc (axis_of (h_trait C) r) (axis_of (w_trait C) s) n h w h' w' GZ X
  | _ => fun _ => 0%R
  end.

Definition layer_gx (eps : R) (L : layer) (P X GZ : tens) : tens :=
  match L with
  | LAdd _ | LBias _ _ | LBiasImg _ _ _ _ => GZ
  | LMul _ => fun ix => (GZ ix * P ix)%R
  | LMatmul _ _ _ n => arg2 (fun i k => rsum n (fun j => GZ [i; j] * P [k; j])%R)
  | LConv _ C _ _ _ _ r s d h' w' =>
      conv_gx_spec Rsc (axis_of (h_trait C) r) (axis_of (w_trait C) s) h' w' r s d GZ P
  | LRelu _ => fun ix => if Rltb 0 (X ix) then GZ ix else 0%R
  | LSoftmax m n => arg2 (fun r j => rsum n (fun i => GZ [r; i] *
      jac Rsc (fun k => softmax_fn eps n (fun k => X [r; k]) k) i j)%R)
  | LFlatten rs ds => fun ix => GZ (expand (flatten_shape rs ds) (offset ds ix))
  end.

Lemma sizes_pos : forall e l, sizes_ok e l -> nonneg l.
Proof.
  intros e l H. unfold sizes_ok in H. eapply Forall_impl; [|exact H]. intros d; destruct e; lia.
Qed.

Lemma sizes_engine : forall e l l', sizes_ok e l -> incl l' l -> engine_ok Rsc e l'.
Proof.
  intros e l l' H I. destruct e; cbn; [exact Logic.I|]. split; [apply Rsc_laws|].
  unfold sizes_ok in H. rewrite Forall_forall in *. intros d Hd. apply H, I, Hd.
Qed.

Lemma flatten_nonneg : forall rs ds, nonneg ds -> nonneg (flatten_shape rs ds).
Proof.
  induction rs as [|r rs IH]; intros ds H; cbn; [constructor|]. constructor.
  - apply prod_nonneg, nonneg_firstn, H.
  - apply IH, nonneg_skipn, H.
Qed.

Lemma layer_nonneg : forall L, layer_ok L -> nonneg (in_shape L) /\ nonneg (out_shape L) /\ nonneg (par_shape L).
Proof.
  intros [ds|ds|e m l n|m n|n h w c|e C n h w c r s d h' w'|ds|m n|rs ds] H; cbn in H |- *.
  - auto.
  - auto.
  - apply sizes_pos in H. unfold nonneg in *. rewrite !Forall_cons_iff in *. tauto.
  - unfold nonneg. rewrite !Forall_cons_iff. intuition.
  - unfold nonneg. rewrite !Forall_cons_iff. intuition.
  - destruct H as (A1 & A2 & H & _). apply sizes_pos in H. unfold nonneg in *. rewrite !Forall_cons_iff in *.
    pose proof (axis_m _ _ _ A1). pose proof (axis_m _ _ _ A2).
    assert (K1 := axis_k _ _ _ A1 : 1 <= r). assert (K2 := axis_k _ _ _ A2 : 1 <= s).
    pose proof (axis_n _ _ _ A1). pose proof (axis_n _ _ _ A2).
    destruct H as (N1 & N2 & N3 & _). repeat split; solve [lia | constructor].
  - split; [exact H|split; [exact H|]]. repeat constructor; lia.
  - destruct H as [Hm Hn]. split; [|split]; repeat constructor; auto; lia.
  - destruct H as [H _]. split; [exact H|]. split; [apply flatten_nonneg; auto|]. repeat constructor; lia.
Qed.

Lemma inner_empty : forall G D, inner Rsc [0] G D = 0%R.
Proof. intros G D. reflexivity. Qed.

Lemma layer_vjp_ok : forall eps L P X GZ, layer_ok L -> smooth eps L X ->
  layer_vjp eps L P X GZ (layer_gp L X GZ) (layer_gx eps L P X GZ).
Proof.
  intros eps L P X GZ Hok Hs.
  destruct L as [ds|ds|e m l n|m n|n h w c|e C n h w c r s d h' w'|ds|m n|rs ds].
  - (* add *)
    apply (shift_vjp eps (LAdd ds) (fun ix => ix)); auto. cbn. apply (add_vjp_r Rsc Rsc_laws).
  - (* mul *)
    apply (bil_vjp unit eps (LMul ds) (fun _ => [tt]) (fun _ _ => 1%R) (fun ix _ => ix) (fun ix _ => ix)).
    + intros P' X' ix _. cbn. ring.
    + intros ix a H _. right. auto.
    + apply (mul_vjp Rsc Rsc_laws).
    + apply (mul_vjp_r Rsc Rsc_laws).
  - (* matmul *)
    apply (bil_vjp Z eps (LMatmul e m l n) (fun _ => zrange l) (fun _ _ => 1%R)
      (fun ix k => [nth 0 ix 0; k]) (fun ix k => [k; nth 1 ix 0])).
    + intros P' X' ix H. apply valid_2 in H. destruct H as (i & j & -> & _). cbn. apply sum_over_ext.
      intros k _. cbn. ring.
    + intros ix k H Hk. apply valid_2 in H. destruct H as (i & j & -> & Hi & Hj). apply in_zrange in Hk.
      right. cbn. lia.
    + apply (matmul_vjp0 Rsc Rsc_laws).
    + apply (matmul_vjp1 Rsc Rsc_laws).
  - (* bias of a matrix *)
    destruct Hok as [Hm Hn].
    apply (shift_vjp eps (LBias m n) (fun ix => [nth 1 ix 0])); auto.
    + intros P' X' ix H. apply valid_2 in H. destruct H as (i & j & -> & _). reflexivity.
    + intros ix H. apply valid_2 in H. destruct H as (i & j & -> & Hi & Hj). cbn. lia.
    + pose proof (bias_vjp_last Rsc Rsc_laws [m] n X GZ ltac:(repeat constructor; auto)) as Q.
      intros B dB. etransitivity; [exact (Q B dB)|]. apply (inner_ext Rsc); auto. intros ix Hix. cbn [prod layer_gp].
      rewrite Z.mul_1_r. apply sum_over_ext. intros r Hr. apply in_zrange in Hr.
      rewrite (expand_1 m r Hr). reflexivity.
  - (* bias of images *)
    cbn in Hok.
    apply (shift_vjp eps (LBiasImg n h w c) (fun ix => [nth 3 ix 0])); auto.
    + intros P' X' ix H. apply valid_4 in H. destruct H as (i & j & k & t & -> & _). reflexivity.
    + intros ix H. apply valid_4 in H. destruct H as (i & j & k & t & -> & H). cbn. lia.
    + assert (N : nonneg [n; h; w]) by (unfold nonneg; rewrite !Forall_cons_iff; intuition).
      exact (bias_vjp_last Rsc Rsc_laws [n; h; w] c X GZ N).
  - (* convolution *)
    set (H := axis_of (h_trait C) r). set (W := axis_of (w_trait C) s).
    apply (bil_vjp (list Z) eps (LConv e C n h w c r s d h' w') (fun _ => indices [r; s; c])
      (fun ix a => if inb h (wpos H (nth 1 ix 0) (nth 0 a 0)) && inb w (wpos W (nth 2 ix 0) (nth 1 a 0)) then 1%R else 0%R)
      (fun ix a => [nth 0 ix 0; wpos H (nth 1 ix 0) (nth 0 a 0); wpos W (nth 2 ix 0) (nth 1 a 0); nth 2 a 0])
      (fun ix a => [nth 0 a 0; nth 1 a 0; nth 2 a 0; nth 3 ix 0])).
    + intros P' X' ix Hix. apply valid_4 in Hix. destruct Hix as (l & i & j & t & -> & _).
      cbn [layer_fn]. unfold conv_spec_nhwc, arg4; cbn [nth]. apply sum_over_ext. intros a Ha.
      apply in_indices, valid_3 in Ha. destruct Ha as (u & v & k & -> & _).
      unfold arg3, zpad; cbn [nth]. fold H W. destruct (inb h (wpos H i u) && inb w (wpos W j v)); cbn; ring.
    + intros ix a Hix Ha. apply valid_4 in Hix. destruct Hix as (l & i & j & t & -> & Hl & Hi & Hj & Ht).
      apply in_indices, valid_3 in Ha. destruct Ha as (u & v & k & -> & Hu & Hv & Hk). cbn [nth].
      destruct (inb h (wpos H i u) && inb w (wpos W j v)) eqn:B; [right|left; reflexivity].
      unfold inb in B. cbn [in_shape par_shape valid]. lia.
    + apply (conv_gx_vjp Rsc Rsc_laws).
    + apply (conv_gy_vjp Rsc Rsc_laws).
  - (* relu *)
    intros cp cx dP dX Mp Mx. exists (fun ix => if Rltb 0 (X ix) then dX ix else 0%R). split.
    + intros ix Hix. destruct (Mx ix Hix) as [E D]. cbn [layer_fn]. split; [rewrite E; reflexivity|].
      apply relu_curve; auto.
    + cbn [par_shape]. rewrite inner_empty, Rplus_0_l. apply sum_over_ext. intros ix _. cbn.
      destruct (Rltb 0 (X ix)); ring.
  - (* softmax *)
    intros cp cx dP dX Mp Mx. cbn [par_shape in_shape out_shape layer_fn layer_gx] in *. destruct Hok as [Hm Hn].
    set (Y := fun r k => softmax_fn eps n (fun k => X [r; k]) k).
    exists (arg2 (fun r i => Y r i * (dX [r; i] - rsum n (fun j => Y r j * dX [r; j])))%R). split.
    + intros ix Hix. apply valid_2 in Hix. destruct Hix as (r & i & -> & Hr & Hi). unfold arg2; cbn [nth].
      apply (soft_curve eps n (fun t k => cx t [r; k]) (fun k => X [r; k]) (fun k => dX [r; k]) i Hi (Hs r Hr)).
      intros j Hj. apply (Mx [r; j]). cbn. lia.
    + rewrite inner_empty, Rplus_0_l. rewrite !(inner_2 Rsc Rsc_laws). apply sum_over_ext. intros r Hr.
      unfold arg2; cbn [nth smul Rsc]. fold (Y r).
      transitivity (rsum n (fun i => rsum n (fun j => GZ [r; i] * jac Rsc (Y r) i j * dX [r; j])))%R.
      * apply sum_over_ext. intros i Hi. apply in_zrange in Hi.
        rewrite <- (jac_row n (Y r) (fun j => dX [r; j]) i Hi). rewrite <- rsum_scal_l. apply rsum_ext.
        intros j Hj. ring.
      * rewrite rsum_swap. apply sum_over_ext. intros j Hj. rewrite rsum_scal_r. reflexivity.
  - (* reshaping *)
    destruct Hok as [Hd Hc]. destruct (C67_size rs ds Hc) as [Ps _].
    assert (Hf := flatten_nonneg rs ds Hd).
    intros cp cx dP dX Mp Mx. cbn [par_shape in_shape out_shape layer_fn layer_gx] in *.
    exists (fun ix => dX (expand ds (offset (flatten_shape rs ds) ix))). split.
    + intros ix Hix. apply Mx. apply valid_expand; auto. rewrite <- Ps. apply offset_bound; auto.
    + rewrite inner_empty, Rplus_0_l. unfold inner. rewrite !indices_expand, !sum_over_map by auto. rewrite Ps.
      apply sum_over_ext. intros o Ho. apply in_zrange in Ho.
      rewrite !offset_expand by (auto; lia). reflexivity.
Qed.
