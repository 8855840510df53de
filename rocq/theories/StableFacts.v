(** Proofs about the stability of layers and networks. *)
From Coq Require Import ZArith List Bool Lia Reals Lra.
From Coquelicot Require Import Coquelicot.
From Verif Require Import Base BaseFacts Traits Scalar RealScalar SumFacts TensorFacts LinAlg Shapes Conv
  ConvSpec ConvFacts Elem ElemSpec Activation ActivationSpec SoftmaxFacts Pool Reshape PropsReshape Backprop BackpropSpec
  Utility FloatNan PredictSpec ConvGradFacts BackpropFacts BackpropRun StableSpec.
Import ListNotations.
Open Scope Z_scope.
Open Scope model_scope.

(** ** The forward calls, for any element type *)
Section Infer.
  Context {V T : Type} (dt : dtype V T) (di : dtype V Z) (sc : scalar T) (exp_ : T -> T) (eps : T).
  Notation tns := (list Z -> T).
  Context (fn : layer -> tns -> tns -> tns).
  Context (ok : layer -> Prop).
  Context (FW : forall L z x p P X s, layer_ok L -> ok L ->
    tdims z = out_shape L -> tdims x = in_shape L -> tdims p = par_shape L ->
    fresh_ok s -> holds dt s x X -> holds dt s p P -> mapped s z -> disjoint z x -> disjoint z p ->
    writes dt (forward dt di sc exp_ eps L z x p) s z (fn L P X)).
  Context (E : node -> tensor).

  Fixpoint net_run (k : nat) (net : list layer) (P : nat -> tns) (X : tns) : tns :=
    match net with
    | [] => X
    | L :: net => net_run (S k) net P (fn L (P k) X)
    end.

  Definition used (k : nat) (d0 : list Z) (net : list layer) (c : node) : option (list Z) :=
    match c with Out _ | Par _ => net_nodes k d0 net c | _ => None end.

  Lemma used_tail : forall L net k d0 c ds, used (S k) (out_shape L) net c = Some ds -> used k d0 (L :: net) c = Some ds.
  Proof.
    intros L net k d0 c ds H. destruct c; cbn [used] in *; try discriminate; apply net_nodes_tail; exact H.
  Qed.

  Lemma used_first : forall net k d0, used k d0 net (Out k) = Some d0.
  Proof. intros net k d0. cbn [used]. apply net_nodes_first. Qed.

  Lemma used_par : forall L net k d0, used k d0 (L :: net) (Par k) = Some (par_shape L).
  Proof. intros L net k d0. cbn. rewrite Nat.eqb_refl. reflexivity. Qed.

  Lemma used_ge : forall net k d0 i, used (S k) d0 net (Out i) <> None \/ used (S k) d0 net (Par i) <> None -> (k < i)%nat.
  Proof.
    intros net k d0 i [H|H]; cbn [used] in H;
      (destruct (net_nodes (S k) d0 net _) as [ds|] eqn:Q; [apply net_nodes_ge in Q; cbn in Q; lia|congruence]).
  Qed.

  Lemma params_frame : forall net k d0 P z (s s' : st V), params_held dt E s k net P ->
    (forall i, used k d0 net (Par i) <> None -> disjoint z (E (Par i))) -> only_changes z s s' -> params_held dt E s' k net P.
  Proof.
    induction net as [|L net IH]; intros k d0 P z s s' H D O; [exact I|]. destruct H as [H1 H2]. split.
    - eapply only_changes_holds; [exact O| |exact H1]. apply D. rewrite used_par. discriminate.
    - eapply (IH (S k) (out_shape L)); [exact H2| |exact O]. intros i Hi. apply D.
      destruct (used (S k) (out_shape L) net (Par i)) eqn:Q; [|congruence]. rewrite (used_tail L net k d0 _ _ Q). discriminate.
  Qed.

  Lemma forward_run : forall net k d0 P X s, net_ok d0 net -> List.Forall ok net ->
    nodes_ok (used k d0 net) E -> nodes_mapped (used k d0 net) E s ->
    holds dt s (E (Out k)) X -> params_held dt E s k net P ->
    exists s', forward_from dt di sc exp_ eps E k net s = Ok tt s' /\
      holds dt s' (E (Out (k + length net))) (net_run k net P X) /\
      only_nodes (fun c => exists i, (k < i <= k + length net)%nat /\ c = Out i) E s s'.
  Proof using FW.
    induction net as [|L net IH]; intros k d0 P X s H HL OK HM HX HP.
    - exists s. split; [reflexivity|]. cbn [length net_run]. rewrite Nat.add_0_r. split; [exact HX|].
      split; [lia|auto].
    - destruct H as (H1 & H2 & H3). destruct HP as [HP1 HP2]. subst d0. pose proof (Forall_inv HL) as HL1.
      apply Forall_inv_tail in HL. destruct OK as [OD OJ]. destruct HM as [Hf Hm].
      pose proof (used_first (L :: net) k (in_shape L)) as U1. pose proof (used_par L net k (in_shape L)) as U2.
      pose proof (used_tail L net k (in_shape L) _ _ (used_first net (S k) (out_shape L))) as U3.
      assert (N1 : used k (in_shape L) (L :: net) (Out k) <> None) by congruence.
      assert (N2 : used k (in_shape L) (L :: net) (Par k) <> None) by congruence.
      assert (N3 : used k (in_shape L) (L :: net) (Out (S k)) <> None) by congruence.
      assert (NT : forall c, used (S k) (out_shape L) net c <> None -> used k (in_shape L) (L :: net) c <> None).
      { intros c Hc. destruct (used (S k) (out_shape L) net c) eqn:Q; [|congruence].
        rewrite (used_tail L net k (in_shape L) _ _ Q). discriminate. }
      destruct (FW L (E (Out (S k))) (E (Out k)) (E (Par k)) (P k) X s H1 HL1) as (s1 & E1 & W1 & O1); auto.
      { apply OJ; auto. intros Q; injection Q; lia. }
      { apply OJ; auto. discriminate. }
      destruct (IH (S k) (out_shape L) P (fn L (P k) X) s1 H3 HL) as (s2 & E2 & W2 & O2); auto.
      { split.
        - intros c ds Q. apply OD. apply used_tail. exact Q.
        - intros c c' Q Q' Ne. apply OJ; auto. }
      { split; [eapply fresh_ok_only_changes; eauto|]. intros c Hc.
        destruct (node_eq_dec c (Out (S k))) as [->|Ne].
        - eapply holds_mapped; [|exact W1]. unfold dims_ok. rewrite (OD _ _ U3). apply layer_nonneg. exact H1.
        - eapply only_changes_mapped; [exact O1| |apply Hm; auto]. apply OJ; auto. }
      { eapply params_frame; [exact HP2| |exact O1]. intros i Hi. apply OJ; [exact N3|apply NT; exact Hi|discriminate]. }
      exists s2. cbn [forward_from]. rewrite (bind_ok _ _ _ _ _ E1). split; [exact E2|]. split.
      + cbn [length net_run]. rewrite Nat.add_succ_r. exact W2.
      + eapply only_nodes_trans; [|eapply only_nodes_weaken; [|exact O2]].
        * destruct O1 as [Nx F]. split; [exact Nx|]. intros p Hp. apply F, Hp. exists (S k). cbn [length]. split; [lia|reflexivity].
        * intros c (i & Hi & ->). exists i. cbn [length]. split; [lia|reflexivity].
  Qed.

  Lemma used_last : forall net k d0, used k d0 net (Out (k + length net)) = Some (net_out d0 net).
  Proof.
    induction net as [|L net IH]; intros k d0; cbn [length net_out].
    - rewrite Nat.add_0_r. apply used_first.
    - rewrite Nat.add_succ_r. apply used_tail. apply (IH (S k)).
  Qed.

  (** Followed by argmax. *)
  Lemma predict_run : forall (dn : dtype V Z) N net d0 P X n k c s, net_ok d0 net -> List.Forall ok net -> net_out d0 net = [n; k] ->
    0 < it_bits N -> k - 1 <= it_max N -> 1 <= k -> 0 <= n ->
    nodes_ok (used 0 d0 net) E -> nodes_mapped (used 0 d0 net) E s ->
    holds dt s (E (Out 0)) X -> params_held dt E s 0 net P ->
    tdims c = [n] -> mapped s c -> (forall i, disjoint c (E (Out i))) ->
    exists t, (forward_from dt di sc exp_ eps E 0 net ;;; op_argmax dn N dt sc 1 c (E (Out (length net)))) s = Ok tt t /\
      holds dn t c (fun ix => scan sc k (row (net_run 0 net P X) ix)).
  Proof using FW.
    intros dn N net d0 P X n k c s H HL Eo Hb HN Hk Hn OK HM HX HP Ec Mc Dc.
    destruct (forward_run net 0 d0 P X s H HL OK HM HX HP) as (t & E1 & W1 & O1). cbn [Nat.add] in W1.
    assert (El : tdims (E (Out (length net))) = [n] ++ [k]).
    { pose proof (proj1 OK _ _ (used_last net 0 d0)) as Q. cbn [Nat.add] in Q. rewrite Q. exact Eo. }
    destruct (op_argmax_writes dn N dt sc c (E (Out (length net))) [n] k (net_run 0 net P X) t) as (t2 & E2 & W2 & _); auto.
    { unfold dims_ok. rewrite El. repeat constructor; lia. }
    { intros p Hp. destruct O1 as [_ O1]. rewrite O1; [apply Mc; exact Hp|].
      intros q (i & _ & ->) F. exact (Dc i p Hp F). }
    exists t2. rewrite (bind_ok _ _ _ _ _ E1). split; [exact E2|exact W2].
  Qed.
End Infer.

(** Over the reals this is [net_fn]. *)
Lemma net_run_fn : forall eps net k P X, net_run (layer_fn eps) k net P X = net_fn eps k net P X.
Proof. intros eps net. induction net as [|L net IH]; intros; cbn; auto. Qed.

Lemma any_layer : forall net : list layer, List.Forall (fun _ => True) net.
Proof. intros net. apply Forall_forall. auto. Qed.

Lemma used_infer : forall d0 net c, used 0 d0 net c = infer_nodes d0 net c.
Proof. reflexivity. Qed.

(** ** Differences *)

Lemma Rabs_le_2 : forall a b, (Rabs a <= b)%R <-> (- b <= a <= b)%R.
Proof. intros a b. apply Rabs_le_between. Qed.

Lemma list_sum_abs : forall {A} (l : list A) f, (Rabs (sum_over Rsc l f) <= sum_over Rsc l (fun a => Rabs (f a)))%R.
Proof.
  intros A l f. induction l as [|a l IH].
  - cbn. rewrite Rabs_R0. lra.
  - rewrite !list_sum_cons. eapply Rle_trans; [apply Rabs_triang|]. lra.
Qed.

(** A sum of products moves with its factors. *)
Lemma dot_close : forall {A} (l : list A) (f f' g g' : A -> R) d a m e, (0 <= e)%R ->
  (forall k, In k l -> Rabs (f k - f' k) <= d)%R -> (0 <= d)%R -> (sum_over Rsc l (fun k => Rabs (g k)) <= a)%R ->
  (forall k, In k l -> Rabs (f' k) <= m)%R -> (forall k, In k l -> Rabs (g k - g' k) <= e)%R ->
  (Rabs (sum_over Rsc l (fun k => f k * g k) - sum_over Rsc l (fun k => f' k * g' k)) <= a * d + INR (length l) * m * e)%R.
Proof.
  intros A l f f' g g' d a m e He Hf Hd Ha Hm Hg.
  pose proof (sum_sub Rsc Rsc_laws l (fun k => f k * g k)%R (fun k => f' k * g' k)%R) as Q. cbn in Q.
  rewrite <- Q. eapply Rle_trans; [apply list_sum_abs|].
  eapply Rle_trans; [apply (list_sum_le l _ (fun k => Rabs (g k) * d + m * e)%R)|].
  - intros k Hk. replace (f k * g k - f' k * g' k)%R with (g k * (f k - f' k) + f' k * (g k - g' k))%R by ring.
    eapply Rle_trans; [apply Rabs_triang|]. rewrite !Rabs_mult. apply Rplus_le_compat.
    + apply Rmult_le_compat_l; [apply Rabs_pos|auto].
    + apply Rmult_le_compat; auto using Rabs_pos.
  - pose proof (sum_add Rsc Rsc_laws l (fun k => Rabs (g k) * d)%R (fun _ => m * e)%R) as Q2. cbn in Q2. rewrite Q2.
    pose proof (sum_scale_r Rsc Rsc_laws l d (fun k => Rabs (g k))) as Q3. cbn in Q3. rewrite Q3, list_sum_const.
    apply Rplus_le_compat; [apply Rmult_le_compat_r; auto|lra].
Qed.

(** Softmax moves by at most half of what its argument moves. *)
Lemma soft_slope : forall n y D i d, 0 <= i < n -> (forall j, 0 <= j < n -> (0 <= y j)%R) -> rsum n y = 1%R ->
  (forall j, 0 <= j < n -> (Rabs (D j) <= d)%R) ->
  (Rabs (y i * (D i - rsum n (fun j => y j * D j))) <= / 2 * d)%R.
Proof.
  intros n y D i d Hi Hy H1 HD.
  assert (Yi : (0 <= y i <= 1)%R).
  { split; [auto|]. rewrite <- H1. apply (rsum_ge_one n i y); auto. }
  assert (E : (D i - rsum n (fun j => y j * D j) = rsum n (fun j => y j * (D i - D j)))%R).
  { transitivity (rsum n (fun j => y j * D i - y j * D j)%R); [|apply rsum_ext; intros; ring].
    rewrite rsum_minus, rsum_scal_r, H1. ring. }
  assert (B : (Rabs (D i - rsum n (fun j => y j * D j)) <= (1 - y i) * (2 * d))%R).
  { rewrite E. unfold rsum at 1. eapply Rle_trans; [apply list_sum_abs|].
    eapply Rle_trans; [apply (rsum_le n _ (fun j => y j * (2 * d) - (if i =? j then y j * (2 * d) else 0)))%R|].
    - intros j Hj. destruct (Z.eqb_spec i j) as [<-|].
      + replace (D i - D i)%R with 0%R by ring. rewrite Rmult_0_r, Rabs_R0. lra.
      + rewrite Rabs_mult, (Rabs_right (y j)) by (apply Rle_ge; auto).
        pose proof (proj1 (Rabs_le_2 _ _) (HD i Hi)). pose proof (proj1 (Rabs_le_2 _ _) (HD j Hj)).
        rewrite Rminus_0_r. apply Rmult_le_compat_l; [auto|]. apply Rabs_le. lra.
    - rewrite rsum_minus, rsum_scal_r, H1.
      pose proof (sum_pick Rsc Rsc_laws n i (fun j => y j * (2 * d))%R) as P. cbn in P.
      replace ((0 <=? i) && (i <? n)) with true in P by lia.
      change (rsum n (fun q => if i =? q then (y q * (2 * d))%R else 0%R) = (y i * (2 * d))%R) in P. rewrite P. lra. }
  rewrite Rabs_mult, (Rabs_right (y i)) by lra.
  assert (Hd : (0 <= d)%R) by (eapply Rle_trans; [apply Rabs_pos|apply (HD i Hi)]).
  eapply Rle_trans; [apply Rmult_le_compat_l; [lra|exact B]|].
  assert (y i * (1 - y i) <= / 4)%R by (pose proof (Rle_0_sqr (y i - / 2)) as Q; unfold Rsqr in Q; lra).
  nra.
Qed.

Lemma Rmax_close : forall c a b, (Rabs (Rmax c a - Rmax c b) <= Rabs (a - b))%R.
Proof.
  intros c a b. unfold Rmax. destruct (Rle_dec c a), (Rle_dec c b);
    unfold Rabs; repeat destruct (Rcase_abs _); lra.
Qed.

Lemma soft_close : forall n X X' i d, 0 <= i < n -> (forall j, 0 <= j < n -> (Rabs (X j - X' j) <= d)%R) ->
  (Rabs (exp (X i) / rsum n (fun j => exp (X j)) - exp (X' i) / rsum n (fun j => exp (X' j))) <= / 2 * d)%R.
Proof.
  intros n X X' i d Hi H.
  set (D := fun j => (X j - X' j)%R).
  set (f := fun t => (exp (X' i + t * D i) / rsum n (fun j => exp (X' j + t * D j)))%R).
  set (df := fun t => let y := fun j => (exp (X' j + t * D j) / rsum n (fun k => exp (X' k + t * D k)))%R in
    (y i * (D i - rsum n (fun j => y j * D j)))%R).
  assert (DF : forall t : R, is_derive f t (df t)).
  { intros t. pose proof (soft_derive n (fun j => X' j + t * D j)%R D i Hi) as Q. cbv zeta beta in Q.
    set (h := fun u : R => (exp (X' i + t * D i + u * D i) / rsum n (fun j => exp (X' j + t * D j + u * D j)))%R) in Q.
    assert (C : is_derive (fun u => h (u - t)%R) t (df t)).
    { refine (eq_ind _ (fun v : R => is_derive (fun u => h (u - t)%R) t v)
        (is_derive_comp h (fun u : R => (u - t)%R) t (df t) 1%R _ _) _ _).
      - replace (t - t)%R with 0%R by ring. exact Q.
      - auto_derive; [exact I|ring].
      - unfold scal; cbn; unfold mult; cbn. ring. }
    assert (A : forall (u : R) j, (X' j + t * D j + (u - t) * D j = X' j + u * D j)%R) by (intros; ring).
    assert (HE : forall u : R, h (u - t)%R = f u).
    { intros u. unfold h, f. rewrite A. f_equal. apply rsum_ext. intros j _. rewrite A. reflexivity. }
    exact (is_derive_ext _ _ t _ HE C). }
  destruct (MVT_gen f 0 1 df) as (c & Hc & E).
  - intros t _. apply DF.
  - intros t _. apply continuity_pt_filterlim. apply (ex_derive_continuous f t). exists (df t). apply DF.
  - assert (E1 : f 1%R = (exp (X i) / rsum n (fun j => exp (X j)))%R).
    { unfold f. assert (A : forall j, (X' j + 1 * D j = X j)%R) by (intros; unfold D; ring).
      rewrite A. f_equal. apply rsum_ext. intros j _. rewrite A. reflexivity. }
    assert (E0 : f 0%R = (exp (X' i) / rsum n (fun j => exp (X' j)))%R).
    { unfold f. assert (A : forall j, (X' j + 0 * D j = X' j)%R) by (intros; ring).
      rewrite A. f_equal. apply rsum_ext. intros j _. rewrite A. reflexivity. }
    rewrite <- E1, <- E0, E, Rminus_0_r, Rmult_1_r.
    unfold df. apply (soft_slope n (fun j => exp (X' j + c * D j) / rsum n (fun k => exp (X' k + c * D k)))%R); auto.
    + intros j Hj. apply Rlt_le. apply (soft_pos n (fun k => X' k + c * D k)%R j Hj).
    + apply (soft_sum1 n (fun k => X' k + c * D k)%R). lia.
Qed.

Lemma relu_close : forall a b, (Rabs (Rmax a 0 - Rmax b 0) <= Rabs (a - b))%R.
Proof. intros a b. rewrite (Rmax_comm a), (Rmax_comm b). apply Rmax_close. Qed.

Lemma sum_close : forall a b p q d e, (Rabs (a - b) <= d -> Rabs (p - q) <= e -> Rabs (a + p - (b + q)) <= d + e)%R.
Proof.
  intros a b p q d e H1 H2. replace (a + p - (b + q))%R with ((a - b) + (p - q))%R by ring.
  eapply Rle_trans; [apply Rabs_triang|]. lra.
Qed.

Lemma INR_prod : forall r s c, 0 <= r -> 0 <= s -> 0 <= c -> INR (length (indices [r; s; c])) = IZR (r * s * c).
Proof.
  intros r s c Hr Hs Hc. rewrite INR_IZR_INZ, length_indices by (repeat constructor; lia). f_equal. cbn. lia.
Qed.

(** The distance of the results of a layer. *)
Lemma layer_close : forall eps L P P' X X' a m g d, layer_ok L -> gain L P a -> (0 <= d)%R -> (0 <= g)%R -> (0 <= m)%R ->
  close (in_shape L) d X X' -> close (par_shape L) g P P' -> bounded (in_shape L) m X' ->
  close (out_shape L) (a * d + par_gain L m * g)%R (layer_fn eps L P X) (layer_fn eps L P' X').
Proof.
  intros eps L P P' X X' a m g d Hok G Hd Hg Hm CX CP BX ix Hix.
  assert (S1 : (1 <= a -> d + g <= a * d + 1 * g)%R) by (intros; nra).
  assert (S2 : (1 <= a -> d <= a * d + 0 * g)%R) by (intros; nra).
  destruct L as [ds|ds|e M l n|M n|n h w c|e C n h w c r t o h' w'|ds|M n|rs ds];
    cbn [layer_fn out_shape in_shape par_shape layer_ok gain par_gain] in *.
  - eapply Rle_trans; [|apply S1; auto]. apply sum_close; auto.
  - destruct G as [Ga Gb].
    replace (X ix * P ix - X' ix * P' ix)%R with (P ix * (X ix - X' ix) + X' ix * (P ix - P' ix))%R by ring.
    eapply Rle_trans; [apply Rabs_triang|]. rewrite !Rabs_mult.
    apply Rplus_le_compat; apply Rmult_le_compat; auto using Rabs_pos.
  - destruct G as [Ga Gb]. pose proof (sizes3 _ _ _ _ Hok) as (HM & Hl & Hn).
    apply valid_2 in Hix. destruct Hix as (i & j & -> & Hi & Hj). unfold arg2; cbn [nth].
    replace (IZR l) with (INR (length (zrange l))) by (rewrite length_zrange, INR_IZR_INZ, Z2Nat.id; auto).
    unfold rsum. apply (dot_close (zrange l) (fun k => X [i; k]) (fun k => X' [i; k]) (fun k => P [k; j]) (fun k => P' [k; j])); auto.
    + intros k Hk. apply in_zrange in Hk. apply CX. cbn; lia.
    + apply Gb. exact Hj.
    + intros k Hk. apply in_zrange in Hk. apply BX. cbn; lia.
    + intros k Hk. apply in_zrange in Hk. apply CP. cbn; lia.
  - apply valid_2 in Hix. destruct Hix as (i & j & -> & Hi & Hj). unfold arg2; cbn [nth].
    eapply Rle_trans; [|apply S1; auto]. apply sum_close; [apply CX|apply CP]; cbn; lia.
  - apply valid_4 in Hix. destruct Hix as (i & j & k & q & -> & Hi & Hj & Hk & Hq). unfold arg4; cbn [nth].
    eapply Rle_trans; [|apply S1; auto]. apply sum_close; [apply CX|apply CP]; cbn; lia.
  - destruct G as [Ga Gb]. destruct Hok as (A1 & A2 & A3 & A4). pose proof (sizes3 _ _ _ _ A3) as (Hn & Hc & Ho).
    apply valid_4 in Hix. destruct Hix as (b & i & j & q & -> & Hb & Hi & Hj & Hq). unfold conv_spec_nhwc, arg4; cbn [nth].
    set (H := axis_of (h_trait C) r) in *. set (W := axis_of (w_trait C) t) in *.
    assert (Hr : 0 <= r) by (pose proof (axis_k _ _ _ A1); cbn in *; lia).
    assert (Ht : 0 <= t) by (pose proof (axis_k _ _ _ A2); cbn in *; lia).
    rewrite <- INR_prod by auto.
    set (f := fun X : tens => arg3 (fun u v k => zpad (s0 Rsc) h w (fun p q => X [b; p; q; k]) (wpos H i u) (wpos W j v))).
    set (gg := fun P : tens => arg3 (fun u v k => P [u; v; k; q])).
    apply (dot_close (indices [r; t; c]) (f X) (f X') (gg P) (gg P')); auto.
    + intros kx Hk. apply in_indices, valid_3 in Hk. destruct Hk as (u & v & k & -> & Hu & Hv & Hk).
      unfold f, arg3, zpad, inb; cbn [nth].
      destruct (_ && _) eqn:B; [apply CX; cbn; lia|]. cbn. rewrite Rminus_eq_0, Rabs_R0. exact Hd.
    + apply Gb. exact Hq.
    + intros kx Hk. apply in_indices, valid_3 in Hk. destruct Hk as (u & v & k & -> & Hu & Hv & Hk).
      unfold f, arg3, zpad, inb; cbn [nth].
      destruct (_ && _) eqn:B; [apply BX; cbn; lia|]. cbn. rewrite Rabs_R0. exact Hm.
    + intros kx Hk. apply in_indices, valid_3 in Hk. destruct Hk as (u & v & k & -> & Hu & Hv & Hk).
      unfold gg, arg3; cbn [nth]. apply CP. cbn; lia.
  - eapply Rle_trans; [apply relu_close|]. eapply Rle_trans; [|apply S2; auto]. auto.
  - apply valid_2 in Hix. destruct Hix as (i & j & -> & Hi & Hj). unfold arg2, softmax_fn; cbn [nth].
    eapply Rle_trans; [apply Rmax_close|].
    eapply Rle_trans; [apply (soft_close n (fun k => X [i; k]) (fun k => X' [i; k]) j d Hj)|nra].
    intros k Hk. apply CX. cbn; lia.
  - destruct Hok as [Hds Hc]. eapply Rle_trans; [|apply S2; auto]. apply CX.
    pose proof (offset_bound _ _ Hix) as B. apply valid_expand; auto.
    rewrite <- (proj1 (C67_size rs ds Hc)). exact B.
Qed.

Lemma par_gain_pos : forall L m, layer_ok L -> (0 <= m)%R -> (0 <= par_gain L m)%R.
Proof.
  intros L m Hok Hm. destruct L as [ds|ds|e M l n|M n|n h w c|e C n h w c r t o h' w'|ds|M n|rs ds]; cbn [par_gain layer_ok] in *; try lra.
  - pose proof (sizes3 _ _ _ _ Hok) as (HM & Hl & Hn). apply Rmult_le_pos; auto. apply IZR_le. exact Hl.
  - destruct Hok as (A1 & A2 & A3 & A4). pose proof (sizes3 _ _ _ _ A3) as (Hn & Hc & Ho).
    pose proof (axis_k _ _ _ A1). pose proof (axis_k _ _ _ A2). cbn in *.
    apply Rmult_le_pos; auto. apply IZR_le. apply Z.mul_nonneg_nonneg; [|lia]. apply Z.mul_nonneg_nonneg; lia.
Qed.

Lemma gain_pos : forall L P a, gain L P a -> (0 <= a)%R.
Proof. intros L P a H. destruct L; cbn in H; try lra; apply H. Qed.

Lemma net_close : forall eps net k d0 P P' X X' A M G d, net_ok d0 net -> gains k net P A -> pars_close k net P P' G ->
  net_bounded eps k net P' X' M -> (0 <= d)%R -> close d0 d X X' ->
  close (net_out d0 net) (drift k net A M G d) (net_fn eps k net P X) (net_fn eps k net P' X').
Proof.
  intros eps net. induction net as [|L net IH]; intros k d0 P P' X X' A M G d H HA HG HM Hd HX; [exact HX|].
  destruct H as (H1 & H2 & H3). destruct HA as [A1 A2]. destruct HG as (G1 & G2 & G3). destruct HM as (M0 & M1 & M2). subst d0.
  cbn [net_out drift net_fn]. apply IH; auto.
  - pose proof (gain_pos _ _ _ A1). pose proof (par_gain_pos L (M k) H1 M0).
    apply Rplus_le_le_0_compat; apply Rmult_le_pos; auto.
  - apply layer_close; auto.
Qed.

(** Without a change of the parameters the factors multiply. *)
Lemma bounded_exists : forall ds (X : tens), nonneg ds -> exists m, (0 <= m)%R /\ bounded ds m X.
Proof.
  intros ds X Hn. exists (sum_over Rsc (indices ds) (fun ix => Rabs (X ix))).
  assert (Q : forall l : list (list Z), (0 <= sum_over Rsc l (fun ix => Rabs (X ix)))%R /\
    forall ix, In ix l -> (Rabs (X ix) <= sum_over Rsc l (fun ix => Rabs (X ix)))%R).
  { induction l as [|a l [IH0 IH]].
    - split; [cbn; lra|intros ix []].
    - rewrite list_sum_cons. pose proof (Rabs_pos (X a)). split; [lra|].
      intros ix [<-|Hi]; [lra|]. specialize (IH ix Hi). lra. }
  destruct (Q (indices ds)) as [Q0 Q1]. split; [exact Q0|]. intros ix Hix. apply Q1. apply in_indices; auto.
Qed.

Lemma close_refl : forall ds (X : tens), close ds 0 X X.
Proof. intros ds X ix _. rewrite Rminus_eq_0, Rabs_R0. lra. Qed.

Lemma layer_close0 : forall eps L P X X' a d, layer_ok L -> gain L P a -> (0 <= d)%R ->
  close (in_shape L) d X X' -> close (out_shape L) (a * d)%R (layer_fn eps L P X) (layer_fn eps L P X').
Proof.
  intros eps L P X X' a d Hok G Hd C.
  destruct (bounded_exists (in_shape L) X' (proj1 (layer_nonneg L Hok))) as (m & Hm & B).
  replace (a * d)%R with (a * d + par_gain L m * 0)%R by ring.
  apply layer_close; auto using close_refl. lra.
Qed.

Lemma net_close0 : forall eps net k d0 P X X' A d, net_ok d0 net -> gains k net P A -> (0 <= d)%R -> close d0 d X X' ->
  close (net_out d0 net) (net_gain k net A * d) (net_fn eps k net P X) (net_fn eps k net P X').
Proof.
  intros eps net. induction net as [|L net IH]; intros k d0 P X X' A d H HA Hd HX.
  - cbn. rewrite Rmult_1_l. exact HX.
  - destruct H as (H1 & H2 & H3). destruct HA as [A1 A2]. subst d0. cbn [net_out net_gain net_fn].
    replace (A k * net_gain (S k) net A * d)%R with (net_gain (S k) net A * (A k * d))%R by ring.
    apply IH; auto; [|apply layer_close0; auto]. apply Rmult_le_pos; auto. eapply gain_pos; eauto.
Qed.

(** Predictions: an entry that leads by more than twice the distance keeps
    leading. *)
Lemma leads_close : forall n f f' g d j, (forall k, 0 <= k < n -> (Rabs (f k - f' k) <= d)%R) ->
  leads n f g j -> leads n f' (g - 2 * d) j.
Proof.
  intros n f f' g d j H [Hj L]. split; [exact Hj|]. intros k Hk Ne. specialize (L k Hk Ne).
  pose proof (proj1 (Rabs_le_2 _ _) (H k Hk)). pose proof (proj1 (Rabs_le_2 _ _) (H j Hj)). lra.
Qed.

(** The logarithm of softmax moves by at most twice what its argument moves. *)
Lemma soft_ratio : forall eps n X X' i d, 0 <= i < n -> (0 <= eps)%R ->
  (forall j, 0 <= j < n -> (Rabs (X j - X' j) <= d)%R) ->
  (softmax_fn eps n X i <= exp (2 * d) * softmax_fn eps n X' i)%R.
Proof.
  intros eps n X X' i d Hi He H.
  assert (Hd : (0 <= d)%R) by (eapply Rle_trans; [apply Rabs_pos|apply (H i Hi)]).
  assert (E1 : (1 <= exp (2 * d))%R) by (rewrite <- exp_0; destruct (Req_dec d 0) as [->|]; [rewrite Rmult_0_r; lra|apply Rlt_le, exp_increasing; lra]).
  assert (M : forall j, 0 <= j < n -> (exp (X j) <= exp d * exp (X' j))%R /\ (exp (X' j) <= exp d * exp (X j))%R).
  { intros j Hj. pose proof (proj1 (Rabs_le_2 _ _) (H j Hj)) as B.
    assert (ML : forall a b, (a <= b -> exp a <= exp b)%R).
    { intros a b [L|<-]; [apply Rlt_le, exp_increasing; exact L|lra]. }
    rewrite <- !exp_plus. split; apply ML; lra. }
  assert (Hn : 0 < n) by lia.
  set (S1 := rsum n (fun j => exp (X j))). set (S2 := rsum n (fun j => exp (X' j))).
  assert (P1 : (0 < S1)%R) by (apply sum_exp_pos; auto). assert (P2 : (0 < S2)%R) by (apply sum_exp_pos; auto).
  assert (Q : (S2 <= exp d * S1)%R).
  { unfold S1, S2. rewrite <- rsum_scal_l. apply rsum_le. intros j Hj. apply M; auto. }
  assert (R0 : (exp (X i) / S1 <= exp (2 * d) * (exp (X' i) / S2))%R).
  { replace (exp (2 * d)) with (exp d * exp d)%R by (rewrite <- exp_plus; f_equal; ring).
    destruct (M i Hi) as [M1 _]. pose proof (exp_pos d). pose proof (exp_pos (X' i)).
    apply Rmult_le_reg_r with (S1 * S2)%R; [apply Rmult_lt_0_compat; auto|].
    replace (exp (X i) / S1 * (S1 * S2))%R with (exp (X i) * S2)%R by (field; lra).
    replace (exp d * exp d * (exp (X' i) / S2) * (S1 * S2))%R with ((exp d * exp (X' i)) * (exp d * S1))%R by (field; lra).
    apply Rmult_le_compat; auto; [apply Rlt_le, exp_pos|lra]. }
  unfold softmax_fn. fold S1 S2. apply Rmax_lub.
  - eapply Rle_trans; [|apply Rmult_le_compat_l; [lra|apply Rmax_l]]. nra.
  - eapply Rle_trans; [exact R0|]. apply Rmult_le_compat_l; [lra|apply Rmax_r].
Qed.

Lemma soft_fn_pos : forall eps n X i, 0 <= i < n -> (0 < softmax_fn eps n X i)%R.
Proof. intros. unfold softmax_fn. eapply Rlt_le_trans; [apply (soft_pos n X i); auto|apply Rmax_r]. Qed.

Lemma soft_ln_close : forall eps n X X' i d, 0 <= i < n -> (0 <= eps)%R ->
  (forall j, 0 <= j < n -> (Rabs (X j - X' j) <= d)%R) ->
  (Rabs (ln (softmax_fn eps n X i) - ln (softmax_fn eps n X' i)) <= 2 * d)%R.
Proof.
  intros eps n X X' i d Hi He H.
  assert (ML : forall a b, (0 < a -> a <= b -> ln a <= ln b)%R).
  { intros a b Ha [L|<-]; [apply Rlt_le, ln_increasing; auto|lra]. }
  assert (Q : forall Y Y', (forall j, 0 <= j < n -> (Rabs (Y j - Y' j) <= d)%R) ->
    (ln (softmax_fn eps n Y i) <= 2 * d + ln (softmax_fn eps n Y' i))%R).
  { intros Y Y' HY. rewrite <- (ln_exp (2 * d)), <- ln_mult by auto using exp_pos, soft_fn_pos.
    apply ML; [apply soft_fn_pos; auto|apply soft_ratio; auto]. }
  pose proof (Q X X' H). pose proof (Q X' X ltac:(intros j Hj; rewrite Rabs_minus_sym; auto)).
  apply Rabs_le. lra.
Qed.

Lemma loss_close : forall eps n X X' T d, (0 <= eps)%R -> (forall j, 0 <= j < n -> (Rabs (X j - X' j) <= d)%R) ->
  (Rabs (xent_fn n T (softmax_fn eps n X) - xent_fn n T (softmax_fn eps n X')) <= 2 * d * rsum n (fun j => Rabs (T j)))%R.
Proof.
  intros eps n X X' T d He H. unfold xent_fn.
  replace (- rsum n (fun j => T j * ln (softmax_fn eps n X j)) - - rsum n (fun j => T j * ln (softmax_fn eps n X' j)))%R
    with (rsum n (fun j => T j * ln (softmax_fn eps n X' j)) - rsum n (fun j => T j * ln (softmax_fn eps n X j)))%R by ring.
  rewrite <- rsum_minus. eapply Rle_trans; [apply list_sum_abs|].
  change (rsum n (fun j => Rabs (T j * ln (softmax_fn eps n X' j) - T j * ln (softmax_fn eps n X j)))
    <= 2 * d * rsum n (fun j => Rabs (T j)))%R.
  rewrite <- rsum_scal_l. apply rsum_le. intros j Hj.
  replace (T j * ln (softmax_fn eps n X' j) - T j * ln (softmax_fn eps n X j))%R
    with (T j * (ln (softmax_fn eps n X' j) - ln (softmax_fn eps n X j)))%R by ring.
  rewrite Rabs_mult, Rmult_comm. apply Rmult_le_compat_r; [apply Rabs_pos|].
  apply soft_ln_close; auto. intros q Hq. rewrite Rabs_minus_sym. auto.
Qed.

(** Pooling. *)
Lemma greatest_close : forall {A} (l : list A) (f f' : A -> R) v v' d, (forall a, In a l -> (Rabs (f a - f' a) <= d)%R) ->
  (In v (map f l) /\ forall x, In x (map f l) -> (x <= v)%R) -> (In v' (map f' l) /\ forall x, In x (map f' l) -> (x <= v')%R) ->
  (Rabs (v - v') <= d)%R.
Proof.
  intros A l f f' v v' d H [I1 G1] [I2 G2].
  apply in_map_iff in I1. destruct I1 as (a & <- & Ha). apply in_map_iff in I2. destruct I2 as (b & <- & Hb).
  pose proof (G1 (f b) (in_map f l b Hb)). pose proof (G2 (f' a) (in_map f' l a Ha)).
  pose proof (proj1 (Rabs_le_2 _ _) (H a Ha)). pose proof (proj1 (Rabs_le_2 _ _) (H b Hb)). apply Rabs_le. lra.
Qed.

Lemma mean_close : forall {A} (l : list A) (f f' : A -> R) d, l <> [] -> (forall a, In a l -> (Rabs (f a - f' a) <= d)%R) ->
  (Rabs (sum_over Rsc l f / IZR (Z.of_nat (length l)) - sum_over Rsc l f' / IZR (Z.of_nat (length l))) <= d)%R.
Proof.
  intros A l f f' d Hl H.
  assert (P : (0 < IZR (Z.of_nat (length l)))%R) by (apply IZR_lt; destruct l; [congruence|cbn; lia]).
  pose proof (sum_sub Rsc Rsc_laws l f f') as Q. cbn in Q.
  replace (sum_over Rsc l f / IZR (Z.of_nat (length l)) - sum_over Rsc l f' / IZR (Z.of_nat (length l)))%R
    with ((sum_over Rsc l f - sum_over Rsc l f') / IZR (Z.of_nat (length l)))%R by (field; lra).
  rewrite <- Q. unfold Rdiv. rewrite Rabs_mult, (Rabs_right (/ _)) by (apply Rle_ge, Rlt_le, Rinv_0_lt_compat; auto).
  apply Rmult_le_reg_r with (IZR (Z.of_nat (length l))); auto. rewrite Rmult_assoc, Rinv_l, Rmult_1_r by lra.
  eapply Rle_trans; [apply list_sum_abs|]. eapply Rle_trans; [apply (list_sum_le l _ (fun _ => d)); exact H|].
  rewrite list_sum_const, INR_IZR_INZ. lra.
Qed.

Lemma leads_first : forall n f j, leads n f 0 j -> first_greatest n f j.
Proof.
  intros n f j [Hj L]. split; [exact Hj|]. split.
  - intros k Hk. destruct (Z.eq_dec k j) as [->|Ne]; [lra|]. specialize (L k Hk Ne). lra.
  - intros k Hk. specialize (L k ltac:(lia) ltac:(lia)). lra.
Qed.

Lemma leads_weaken : forall n f g g' j, (g' <= g)%R -> leads n f g j -> leads n f g' j.
Proof. intros n f g g' j H [Hj L]. split; [exact Hj|]. intros k Hk Ne. specialize (L k Hk Ne). lra. Qed.
