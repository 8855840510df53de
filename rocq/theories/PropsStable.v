(** Property C106: how far changes of the input and of the parameters move the
    result of a network, its loss and its predictions.

    Floating point is replaced by exact real arithmetic; std::exp, std::log are
    the real exponential and logarithm. *)
From Coq Require Import ZArith List Bool Lia Reals Lra.
From Coquelicot Require Import Coquelicot.
From Verif Require Import Base BaseFacts Traits TraitsSpec Scalar RealScalar SumFacts TensorFacts LinAlg Shapes Conv ConvSpec ConvFacts
  Elem ElemSpec Activation ActivationSpec SoftmaxFacts PropsSoftmax Pool PoolSpec PoolFacts PropsPool PoolAlgFacts Utility FloatNan PredictSpec PredictFacts
  PropsPredict PropsReshape Demo Backprop BackpropSpec BackpropFacts BackpropRun PropsBackprop StableSpec StableFacts.
Import ListNotations.
Open Scope Z_scope.
Open Scope model_scope.

Section Stable.
  Context {V : Type} (dt : dtype V R) (di : dtype V Z) (eps : R).

  (** *** One layer: two calls with inputs that differ by at most [d] and
      parameters that differ by at most [g]. *)
  Theorem C106_layer : forall L z x p P X z' x' p' P' X' s s' a m g d, layer_ok L ->
    tdims z = out_shape L -> tdims x = in_shape L -> tdims p = par_shape L ->
    tdims z' = out_shape L -> tdims x' = in_shape L -> tdims p' = par_shape L ->
    fresh_ok s -> holds dt s x X -> holds dt s p P -> mapped s z -> disjoint z x -> disjoint z p ->
    fresh_ok s' -> holds dt s' x' X' -> holds dt s' p' P' -> mapped s' z' -> disjoint z' x' -> disjoint z' p' ->
    gain L P a -> (0 <= d)%R -> (0 <= g)%R -> (0 <= m)%R ->
    close (in_shape L) d X X' -> close (par_shape L) g P P' -> bounded (in_shape L) m X' ->
    exists Z Z', writes dt (forward dt di Rsc exp eps L z x p) s z Z /\
                 writes dt (forward dt di Rsc exp eps L z' x' p') s' z' Z' /\
                 close (out_shape L) (a * d + par_gain L m * g)%R Z Z'.
  Proof using.
    intros. eexists. eexists. split; [apply forward_writes; eauto|]. split; [apply forward_writes; eauto|].
    apply layer_close; auto.
  Qed.

  (** The forward calls of a network compute [net_fn]. *)
  Lemma infer_ok : forall net d0 E P X s,
    net_ok d0 net -> nodes_ok (infer_nodes d0 net) E -> nodes_mapped (infer_nodes d0 net) E s ->
    holds dt s (E (Out 0)) X -> params_held dt E s 0 net P ->
    exists s', forward_from dt di Rsc exp eps E 0 net s = Ok tt s' /\
      holds dt s' (E (Out (length net))) (net_fn eps 0 net P X) /\
      only_nodes (fun c => exists i, (0 < i <= length net)%nat /\ c = Out i) E s s'.
  Proof using.
    intros net d0 E P X s H OK HM HX HP.
    destruct (forward_run dt di Rsc exp eps (layer_fn eps) (fun _ => True) (fun L z x p P X s H _ => forward_writes dt di eps L z x p P X s H) E net 0 d0 P X s H (any_layer net) OK HM HX HP)
      as (s' & E1 & W & O).
    rewrite net_run_fn in W. eauto.
  Qed.

  (** *** Networks of any depth: the input and every parameter may change. *)
  Theorem C106_network : forall net d0 E E' P P' X X' A M G d s s', net_ok d0 net ->
    nodes_ok (infer_nodes d0 net) E -> nodes_mapped (infer_nodes d0 net) E s ->
    holds dt s (E (Out 0)) X -> params_held dt E s 0 net P ->
    nodes_ok (infer_nodes d0 net) E' -> nodes_mapped (infer_nodes d0 net) E' s' ->
    holds dt s' (E' (Out 0)) X' -> params_held dt E' s' 0 net P' ->
    gains 0 net P A -> pars_close 0 net P P' G -> net_bounded eps 0 net P' X' M -> (0 <= d)%R -> close d0 d X X' ->
    exists t t' Z Z',
      forward_from dt di Rsc exp eps E 0 net s = Ok tt t /\ holds dt t (E (Out (length net))) Z /\
      forward_from dt di Rsc exp eps E' 0 net s' = Ok tt t' /\ holds dt t' (E' (Out (length net))) Z' /\
      close (net_out d0 net) (drift 0 net A M G d) Z Z'.
  Proof using.
    intros net d0 E E' P P' X X' A M G d s s' H OK HM HX HP OK' HM' HX' HP' HA HG HB Hd HC.
    destruct (infer_ok net d0 E P X s H OK HM HX HP) as (t & E1 & W1 & _).
    destruct (infer_ok net d0 E' P' X' s' H OK' HM' HX' HP') as (t' & E2 & W2 & _).
    exists t, t'. eexists. eexists. split; [exact E1|]. split; [exact W1|]. split; [exact E2|]. split; [exact W2|].
    apply net_close; auto.
  Qed.

  (** Only the input changes: the factors of the layers multiply. *)
  Theorem C106_inputs : forall net d0 E E' P X X' A d s s', net_ok d0 net ->
    nodes_ok (infer_nodes d0 net) E -> nodes_mapped (infer_nodes d0 net) E s ->
    holds dt s (E (Out 0)) X -> params_held dt E s 0 net P ->
    nodes_ok (infer_nodes d0 net) E' -> nodes_mapped (infer_nodes d0 net) E' s' ->
    holds dt s' (E' (Out 0)) X' -> params_held dt E' s' 0 net P ->
    gains 0 net P A -> (0 <= d)%R -> close d0 d X X' ->
    exists t t' Z Z',
      forward_from dt di Rsc exp eps E 0 net s = Ok tt t /\ holds dt t (E (Out (length net))) Z /\
      forward_from dt di Rsc exp eps E' 0 net s' = Ok tt t' /\ holds dt t' (E' (Out (length net))) Z' /\
      close (net_out d0 net) (net_gain 0 net A * d) Z Z'.
  Proof using.
    intros net d0 E E' P X X' A d s s' H OK HM HX HP OK' HM' HX' HP' HA Hd HC.
    destruct (infer_ok net d0 E P X s H OK HM HX HP) as (t & E1 & W1 & _).
    destruct (infer_ok net d0 E' P X' s' H OK' HM' HX' HP') as (t' & E2 & W2 & _).
    exists t, t'. eexists. eexists. split; [exact E1|]. split; [exact W1|]. split; [exact E2|]. split; [exact W2|].
    apply net_close0; auto.
  Qed.

  (** *** Predictions.  Where the greatest result leads the others by more than
      twice the distance, the network predicts the same class for both inputs. *)
  Theorem C106_prediction : forall (dn : dtype V Z) N net d0 E E' P X X' A d n k c c' s s', net_ok d0 net ->
    net_out d0 net = [n; k] -> 0 < it_bits N -> k - 1 <= it_max N -> 1 <= k ->
    nodes_ok (infer_nodes d0 net) E -> nodes_mapped (infer_nodes d0 net) E s ->
    holds dt s (E (Out 0)) X -> params_held dt E s 0 net P ->
    nodes_ok (infer_nodes d0 net) E' -> nodes_mapped (infer_nodes d0 net) E' s' ->
    holds dt s' (E' (Out 0)) X' -> params_held dt E' s' 0 net P ->
    gains 0 net P A -> (0 <= d)%R -> close d0 d X X' ->
    tdims c = [n] -> mapped s c -> (forall i, disjoint c (E (Out i))) ->
    tdims c' = [n] -> mapped s' c' -> (forall i, disjoint c' (E' (Out i))) ->
    exists t t' J J',
      (forward_from dt di Rsc exp eps E 0 net ;;; op_argmax dn N dt Rsc 1 c (E (Out (length net)))) s = Ok tt t /\
      holds dn t c J /\
      (forward_from dt di Rsc exp eps E' 0 net ;;; op_argmax dn N dt Rsc 1 c' (E' (Out (length net)))) s' = Ok tt t' /\
      holds dn t' c' J' /\
      forall i j, 0 <= i < n ->
        leads k (fun q => net_fn eps 0 net P X [i; q]) (2 * (net_gain 0 net A * d)) j ->
        J [i] = j /\ J' [i] = j.
  Proof using.
    intros dn N net d0 E E' P X X' A d n k c c' s s' H Eo Hb HN Hk OK HM HX HP OK' HM' HX' HP' HA Hd HC Ec Mc Dc Ec' Mc' Dc'.
    assert (Nn : 0 <= n).
    { pose proof (net_nodes_nonneg net 0 d0 (Out (length net)) [n; k] H) as Q. rewrite <- Eo in Q.
      specialize (Q (used_last net 0 d0)). rewrite Eo in Q. inversion Q; auto. }
    destruct (predict_run dt di Rsc exp eps (layer_fn eps) (fun _ => True) (fun L z x p P X s H _ => forward_writes dt di eps L z x p P X s H) E dn N net d0 P X n k c s
      H (any_layer net) Eo Hb HN Hk Nn OK HM HX HP Ec Mc Dc) as (t & E1 & W1).
    destruct (predict_run dt di Rsc exp eps (layer_fn eps) (fun _ => True) (fun L z x p P X s H _ => forward_writes dt di eps L z x p P X s H) E' dn N net d0 P X' n k c' s'
      H (any_layer net) Eo Hb HN Hk Nn OK' HM' HX' HP' Ec' Mc' Dc') as (t' & E2 & W2).
    rewrite net_run_fn in W1, W2.
    exists t, t'. eexists. eexists. split; [exact E1|]. split; [exact W1|]. split; [exact E2|]. split; [exact W2|].
    intros i j Hi L. cbv beta.
    pose proof (net_close0 eps net 0 d0 P X X' A d H HA Hd HC) as C. rewrite Eo in C.
    assert (Gd : (0 <= net_gain 0 net A * d)%R).
    { destruct L as [Hj _]. eapply Rle_trans; [apply Rabs_pos|]. apply (C [i; j]). cbn; lia. }
    split; apply (first_unique k _ _ _ (scan_first k _ Hk)); apply leads_first.
    - destruct L as [Hj L]. split; [exact Hj|]. intros q Hq Ne. specialize (L q Hq Ne). unfold row; cbn [app]. lra.
    - apply (leads_weaken k _ (2 * (net_gain 0 net A * d) - 2 * (net_gain 0 net A * d)) 0 j); [lra|].
      apply (leads_close k (fun q => net_fn eps 0 net P X [i; q]) (fun q => net_fn eps 0 net P X' [i; q])); [|exact L].
      intros q Hq. apply C. cbn; lia.
  Qed.

  (** *** The loss of a row of scores moves by at most twice what the scores
      move, times the sum of the labels; 1 for a distribution. *)
  Theorem C106_loss : forall z t y x z' t' y' x' ds n X X' P d s s', (0 <= eps)%R ->
    tdims x = ds ++ [n] -> tdims t = ds ++ [n] -> tdims y = ds ++ [n] -> tdims z = ds -> dims_ok x ->
    tdims x' = ds ++ [n] -> tdims t' = ds ++ [n] -> tdims y' = ds ++ [n] -> tdims z' = ds ->
    holds dt s x X -> holds dt s t P -> mapped s y -> mapped s z ->
    disjoint y x -> disjoint y t -> disjoint z t -> disjoint z y ->
    holds dt s' x' X' -> holds dt s' t' P -> mapped s' y' -> mapped s' z' ->
    disjoint y' x' -> disjoint y' t' -> disjoint z' t' -> disjoint z' y' ->
    close (ds ++ [n]) d X X' ->
    exists r r' L L',
      (op_softmax dt Rsc exp (length ds + 1) eps y x ;;; op_xentropy dt Rsc ln (length ds + 1) z t y) s = Ok tt r /\
      holds dt r z L /\
      (op_softmax dt Rsc exp (length ds + 1) eps y' x' ;;; op_xentropy dt Rsc ln (length ds + 1) z' t' y') s' = Ok tt r' /\
      holds dt r' z' L' /\
      forall ix, valid ds ix -> (Rabs (L ix - L' ix) <= 2 * d * rsum n (fun j => Rabs (row P ix j)))%R.
  Proof using.
    intros z t y x z' t' y' x' ds n X X' P d s s' He Ex Et Ey Ez Dx Ex' Et' Ey' Ez' HX HP HY HZ D1 D2 D3 D4
      HX' HP' HY' HZ' D1' D2' D3' D4' HC.
    assert (Q : forall z t y x X s, tdims x = ds ++ [n] -> tdims t = ds ++ [n] -> tdims y = ds ++ [n] -> tdims z = ds ->
      holds dt s x X -> holds dt s t P -> mapped s y -> mapped s z ->
      disjoint y x -> disjoint y t -> disjoint z t -> disjoint z y ->
      exists r, (op_softmax dt Rsc exp (length ds + 1) eps y x ;;; op_xentropy dt Rsc ln (length ds + 1) z t y) s = Ok tt r /\
        holds dt r z (fun ix => xent_fn n (row P ix) (softmax_fn eps n (row X ix)))).
    { clear - Ex Dx. intros z t y x0 X s Ex0 Et Ey Ez HX HP HY HZ D1 D2 D3 D4.
      assert (Dx0 : dims_ok x0) by (unfold dims_ok in *; congruence).
      assert (Dt : dims_ok t) by (unfold dims_ok in *; congruence).
      pose proof (C33_value dt eps y x0 ds n X s Ex0 Ey Dx0 HX HY D1) as W1.
      destruct (writes_then dt dt _ (op_xentropy dt Rsc ln (length ds + 1) z t y) s y z _
        (fun ix => xent_fn n (row P ix) (softmax_fn eps n (row X ix))) W1) as (s2 & E & _ & H & _); [|eauto].
      intros s' Hs' O.
      eapply writes_ext; [reflexivity| |apply (C36_value dt z t y ds n P (fun ix => softmax_fn eps n (row X (removelast ix)) (last ix 0)) s' Et Ey Ez Dt)]; eauto.
      - intros ix Hix. unfold xent_fn. f_equal. apply rsum_ext. intros j Hj. unfold row at 2.
        rewrite removelast_last, last_last. reflexivity.
      - eapply only_changes_holds; eauto.
      - eapply mapped_after; eauto. }
    destruct (Q z t y x X s) as (r & E1 & W1); auto. destruct (Q z' t' y' x' X' s') as (r' & E2 & W2); auto.
    exists r, r'. eexists. eexists. split; [exact E1|]. split; [exact W1|]. split; [exact E2|]. split; [exact W2|].
    intros ix Hix. apply loss_close; auto. intros j Hj. apply HC. apply PropsReshape.valid_app; auto. cbn; lia.
  Qed.

  (** *** Pooling: no difference grows. *)
  Theorem C106_max_pool : forall lowest kh kw ph pw sh sw P h w c h' w' y x y' x' X X' d s s',
    pool_args kh kw ph pw h w -> new_pool_kps kh kw ph pw sh sw = Ret P ->
    pool_shape2 P [h; w] = Ret [h'; w'] -> 0 <= c ->
    1 <= h -> 1 <= w -> left_ ph < kh -> right_ ph < kh -> left_ pw < kw -> right_ pw < kw ->
    tdims x = [h; w; c] -> tdims y = [h'; w'; c] -> holds dt s x X -> mapped s y -> disjoint y x ->
    tdims x' = [h; w; c] -> tdims y' = [h'; w'; c] -> holds dt s' x' X' -> mapped s' y' -> disjoint y' x' ->
    (forall ix, valid [h; w; c] ix -> (lowest <= X ix /\ lowest <= X' ix)%R) -> close [h; w; c] d X X' ->
    exists Y Y', writes dt (op_pool_hwc dt (max_acc Rsc lowest) P y x) s y Y /\
                 writes dt (op_pool_hwc dt (max_acc Rsc lowest) P y' x') s' y' Y' /\ close [h'; w'; c] d Y Y'.
  Proof using.
    intros lowest kh kw ph pw sh sw P h w c h' w' y x y' x' X X' d s s' G EP ES Hc Hh Hw P1 P2 P3 P4 Ex Ey HX HY D Ex' Ey' HX' HY' D' HL HC.
    assert (LO : forall a : R, (lowest <= a)%R -> sltb Rsc lowest a = true \/ a = lowest).
    { intros a Ha. cbn. unfold Rltb. destruct (Rlt_dec lowest a); [auto|right; lra]. }
    assert (LE : forall l v, greatest (sltb Rsc) l v -> In v l /\ forall a : R, In a l -> (a <= v)%R).
    { intros l v [I0 Gv]. split; [exact I0|]. intros a Ha. specialize (Gv a Ha). cbn in Gv. unfold Rltb in Gv.
      destruct (Rlt_dec v a); [discriminate|lra]. }
    destruct (C37_max_hwc dt Rsc (fun _ => True) lowest kh kw ph pw sh sw P h w c h' w' y x X s) as (Y & W & HYv); auto using real_weak.
    { intros ix Hix. split; [exact I|apply LO, HL, Hix]. }
    destruct (C37_max_hwc dt Rsc (fun _ => True) lowest kh kw ph pw sh sw P h w c h' w' y' x' X' s') as (Y' & W' & HYv'); auto using real_weak.
    { intros ix Hix. split; [exact I|apply LO, HL, Hix]. }
    exists Y, Y'. split; [exact W|]. split; [exact W'|]. intros ix Hix.
    pose proof Hix as Hix0. apply valid_3 in Hix0. destruct Hix0 as (i & j & k & -> & Hi & Hj & Hk).
    eapply greatest_close; [|apply LE, (HYv i j k Hix)|apply LE, (HYv' i j k Hix)].
    intros [p q] Hp. cbn [fst snd]. apply HC. unfold window in Hp. apply filter_In in Hp. destruct Hp as [_ Hp].
    unfold inb in Hp; cbn [fst snd] in Hp. cbn; lia.
  Qed.

  Theorem C106_mean_pool : forall kh kw ph pw sh sw P h w ds y x y' x' X X' d s s',
    pool_args kh kw ph pw h w -> kh * kw < 2 ^ 32 -> new_pool_kps kh kw ph pw sh sw = Ret P ->
    pool_shape2 P [h; w] = Ret ds ->
    1 <= h -> 1 <= w -> left_ ph < kh -> right_ ph < kh -> left_ pw < kw -> right_ pw < kw ->
    tdims x = [h; w] -> tdims y = ds -> holds dt s x X -> mapped s y -> disjoint y x ->
    tdims x' = [h; w] -> tdims y' = ds -> holds dt s' x' X' -> mapped s' y' -> disjoint y' x' ->
    close [h; w] d X X' -> (0 <= d)%R ->
    exists Y Y', writes dt (op_pool_hw dt (mean_acc Rsc (div_float Rsc)) P y x) s y Y /\
                 writes dt (op_pool_hw dt (mean_acc Rsc (div_float Rsc)) P y' x') s' y' Y' /\ close ds d Y Y'.
  Proof using.
    intros kh kw ph pw sh sw P h w ds y x y' x' X X' d s s' G Hk EP ES Hh Hw P1 P2 P3 P4 Ex Ey HX HY D Ex' Ey' HX' HY' D' HC Hd.
    eexists. eexists.
    split; [eapply (C37_mean_real V dt kh kw ph pw sh sw P h w ds y x X s); eauto|].
    split; [eapply (C37_mean_real V dt kh kw ph pw sh sw P h w ds y' x' X' s'); eauto|].
    intros ix Hix. destruct (pool_axes _ _ _ _ _ _ _ _ _ _ G EP ES) as (E & h' & w' & -> & AH & AW).
    apply valid_2 in Hix. destruct Hix as (i & j & -> & Hi & Hj). unfold arg2; cbn [nth]. cbv zeta.
    destruct (window (h_sample P) (w_sample P) h w i j) as [|p0 l0] eqn:EW.
    { cbn. unfold Rdiv. rewrite Rmult_0_l, Rminus_0_r, Rabs_R0. exact Hd. }
    rewrite <- EW. apply mean_close; [rewrite EW; discriminate|].
    intros [p q] Hp. cbn [fst snd]. apply HC. unfold window in Hp. apply filter_In in Hp. destruct Hp as [_ Hp].
    unfold inb in Hp; cbn [fst snd] in Hp. cbn; lia.
  Qed.
End Stable.

(** *** The factors are exact. *)

(** Matrix products: for every input there is one at distance [d] for which the
    result moves by the whole bound. *)
Theorem C106_matmul_tight : forall V (dt : dtype V R) di eps e m l n (P X : tens) j d, sizes_ok e [m; l; n] -> 1 <= m -> 0 <= j < n ->
  (0 <= d)%R -> exists X', close [m; l] d X X' /\
  forall z x p z' x' p' s s',
    tdims z = [m; n] -> tdims x = [m; l] -> tdims p = [l; n] -> tdims z' = [m; n] -> tdims x' = [m; l] -> tdims p' = [l; n] ->
    fresh_ok s -> holds dt s x X -> holds dt s p P -> mapped s z -> disjoint z x -> disjoint z p ->
    fresh_ok s' -> holds dt s' x' X' -> holds dt s' p' P -> mapped s' z' -> disjoint z' x' -> disjoint z' p' ->
    exists Z Z', writes dt (forward dt di Rsc exp eps (LMatmul e m l n) z x p) s z Z /\
                 writes dt (forward dt di Rsc exp eps (LMatmul e m l n) z' x' p') s' z' Z' /\
                 (Z [0%Z; j] - Z' [0%Z; j] = rsum l (fun k => Rabs (P [k; j])) * d)%R.
Proof.
  intros V dt di eps e m l n P X j d Hs Hm Hj Hd.
  set (S_ := fun ix : list Z => sign (P [nth 1 ix 0; j])).
  exists (fun ix => (X ix - d * S_ ix)%R). split.
  - intros ix _. replace (X ix - (X ix - d * S_ ix))%R with (d * S_ ix)%R by ring.
    rewrite Rabs_mult, (Rabs_right d) by lra. rewrite <- (Rmult_1_r d) at 2. apply Rmult_le_compat_l; [exact Hd|].
    unfold S_, sign. destruct (total_order_T 0 _) as [[|]|]; unfold Rabs; destruct (Rcase_abs _); lra.
  - intros z x p z' x' p' s s' Ez Ex Ep Ez' Ex' Ep' Hf HX HP HZ D1 D2 Hf' HX' HP' HZ' D1' D2'.
    eexists. eexists. split; [apply forward_writes; eauto|]. split; [apply forward_writes; eauto|].
    cbn [layer_fn]. unfold arg2; cbn [nth]. rewrite <- rsum_minus, <- rsum_scal_r. apply rsum_ext. intros k _.
    unfold S_; cbn [nth]. unfold sign, Rabs. destruct (total_order_T 0 _) as [[|Q]|]; destruct (Rcase_abs _); try lra.
    rewrite <- Q. ring.
Qed.

(** Softmax: no factor below 1/2 would do. *)
Theorem C106_softmax_tight : forall b, (b < / 2)%R -> exists d X X', (0 < d)%R /\ close [1; 2] d X X' /\
  ~ close [1; 2] (b * d) (layer_fn 0 (LSoftmax 1 2) (fun _ => 0%R) X) (layer_fn 0 (LSoftmax 1 2) (fun _ => 0%R) X').
Proof.
  intros b Hb. set (c := Rmax b (/ 4)).
  assert (Hc : (/ 4 <= c < / 2)%R) by (unfold c, Rmax; destruct (Rle_dec b (/ 4)); lra).
  assert (Hbc : (b <= c)%R) by apply Rmax_l.
  set (d := ((/ c - 2) / 4)%R).
  assert (Ic : (2 < / c)%R) by (rewrite <- (Rinv_inv 2); apply Rinv_lt_contravar; lra).
  assert (Hd : (0 < d)%R) by (unfold d; lra).
  exists d, (arg2 (fun _ j => if j =? 0 then d else (- d)%R)), (fun _ => 0%R). split; [exact Hd|]. split.
  - intros ix Hix. apply valid_2 in Hix. destruct Hix as (i & j & -> & Hi & Hj). unfold arg2; cbn [nth].
    destruct (j =? 0); unfold Rabs; destruct (Rcase_abs _); lra.
  - intros C. specialize (C [0; 0] ltac:(cbn; lia)). cbn [layer_fn] in C. unfold arg2, softmax_fn, rsum in C; cbn [nth] in C.
    change (zrange 2) with [0; 1] in C. cbn in C. rewrite exp_0 in C.
    set (E1 := exp d) in *. set (E2 := exp (- d)) in *.
    assert (P1 : (0 < E1)%R) by apply exp_pos. assert (P2 : (0 < E2)%R) by apply exp_pos.
    assert (E12 : (E1 = E2 * exp (2 * d))%R) by (unfold E1, E2; rewrite <- exp_plus; f_equal; ring).
    pose proof (exp_ineq1 (2 * d) ltac:(lra)) as Q.
    rewrite !Rmax_right in C.
    + assert (L : (/ 2 + d / (2 + 2 * d) <= E1 / (0 + E1 + E2))%R).
      { rewrite E12. set (q := exp (2 * d)) in *. replace (E2 * q / (0 + E2 * q + E2))%R with (q / (q + 1))%R by (field; lra).
        apply Rmult_le_reg_r with ((2 + 2 * d) * (q + 1))%R; [apply Rmult_lt_0_compat; lra|].
        replace (q / (q + 1) * ((2 + 2 * d) * (q + 1)))%R with (q * (2 + 2 * d))%R by (field; lra).
        replace ((/ 2 + d / (2 + 2 * d)) * ((2 + 2 * d) * (q + 1)))%R with ((1 + 2 * d) * (q + 1))%R by (field; lra). nra. }
      rewrite Rabs_right in C by (assert (0 < d / (2 + 2 * d))%R by (apply Rdiv_lt_0_compat; lra); lra).
      assert (d / (2 + 2 * d) <= b * d)%R by lra.
      assert (c * d < d / (2 + 2 * d))%R; [|nra].
      apply Rmult_lt_reg_r with (2 + 2 * d)%R; [lra|]. unfold Rdiv. rewrite (Rmult_assoc d), Rinv_l, Rmult_1_r by lra.
      assert (c * (2 + 2 * d) < 1)%R; [|nra].
      unfold d. replace (c * (2 + 2 * ((/ c - 2) / 4)))%R with (c + / 2)%R by (field; lra). lra.
    + apply Rlt_le, Rdiv_lt_0_compat; lra.
    + apply Rlt_le, Rdiv_lt_0_compat; lra.
Qed.

(** Predictions: a lead of exactly twice the distance is not enough. *)
Theorem C106_margin_refuted : forall V (dt : dtype V R) (dn : dtype V Z) N d, 0 < it_bits N -> 1 <= it_max N -> (0 < d)%R ->
  exists X X' : tens, close [1; 2] d X X' /\ (X [0%Z; 0%Z] + 2 * d <= X [0%Z; 1%Z])%R /\
  forall c x c' x' s s', tdims x = [1; 2] -> tdims c = [1] -> tdims x' = [1; 2] -> tdims c' = [1] ->
    holds dt s x X -> mapped s c -> disjoint c x -> holds dt s' x' X' -> mapped s' c' -> disjoint c' x' ->
    writes dn (op_argmax dn N dt Rsc 1 c x) s c (fun _ => 1) /\
    writes dn (op_argmax dn N dt Rsc 1 c' x') s' c' (fun _ => 0).
Proof.
  intros V dt dn N d Hb HN Hd.
  exists (arg2 (fun _ j => if j =? 0 then 0%R else (2 * d)%R)), (fun _ => d). split; [|split].
  - intros ix Hix. apply valid_2 in Hix. destruct Hix as (i & j & -> & Hi & Hj). unfold arg2; cbn [nth].
    destruct (j =? 0); unfold Rabs; destruct (Rcase_abs _); lra.
  - unfold arg2; cbn. lra.
  - intros c x c' x' s s' Ex Ec Ex' Ec' HX HC D HX' HC' D'. split.
    + eapply writes_ext; [reflexivity| |eapply (op_argmax_writes dn N dt Rsc c x [1] 2 _ s); eauto; try lia].
      * intros ix Hix. rewrite Ec in Hix. apply (first_unique 2 _ _ _ (scan_first 2 _ ltac:(lia))).
        destruct ix as [|i [|]]; cbn in Hix; try lia. unfold row, arg2; cbn [app nth].
        split; [lia|]. split; intros k Hk; (destruct (Z.eqb_spec k 0); cbn; [lra|]); [lra|lia].
      * unfold dims_ok. rewrite Ex. repeat constructor; lia.
    + eapply writes_ext; [reflexivity| |eapply (op_argmax_writes dn N dt Rsc c' x' [1] 2 _ s'); eauto; try lia].
      * intros ix _. apply (first_unique 2 _ _ _ (scan_first 2 _ ltac:(lia))).
        split; [lia|]. unfold row. split; intros k Hk; [lra|lia].
      * unfold dims_ok. rewrite Ex'. repeat constructor; lia.
Qed.

(** *** Examples *)

(** Tensors for any network and any values. *)
Lemma infer_environment : forall V (dt : dtype V R) d0 net P X, net_ok d0 net ->
  exists E s, nodes_ok (infer_nodes d0 net) E /\ nodes_mapped (infer_nodes d0 net) E s /\
    holds dt s (E (Out 0)) X /\ params_held dt E s 0 net P.
Proof.
  intros V dt d0 net P X H.
  destruct (C105_environment V dt d0 net 1 1 P X (fun _ => 0%R) H ltac:(lia) ltac:(lia)) as (E & s & [OK1 OK2] & [Hf HM] & HX & HP & _).
  assert (Q : forall c ds, infer_nodes d0 net c = Some ds -> step_nodes d0 net 1 1 c = Some ds).
  { intros c ds. destruct c; cbn [infer_nodes step_nodes]; auto; discriminate. }
  assert (Q' : forall c, infer_nodes d0 net c <> None -> step_nodes d0 net 1 1 c <> None).
  { intros c Hc. destruct (infer_nodes d0 net c) eqn:E0; [|congruence]. rewrite (Q _ _ E0). discriminate. }
  exists E, s. split; [split; eauto|]. split; [split; auto|]. split; [exact HX|].
  clear - HP. revert HP. generalize 0%nat. induction net as [|L net IH]; intros k HP; [exact I|].
  destruct HP as [H1 H2]. split; [exact H1|apply IH, H2].
Qed.

(** A hidden layer of two units, all parameters 1: changes of the input by d
    move the two probabilities by at most d. *)
Example C106_example : forall X' d, (0 <= d)%R -> close [1; 1] d (fun _ => 1%R) X' ->
  let A := fun i => nth i [1; 1; 1; 2; / 2]%R 0%R in
  gains 0 mlp (fun _ _ => 1%R) A /\ net_gain 0 mlp A = 1%R /\
  exists E E' s s' t t' Z Z',
    holds cell_r s (E (Out 0)) (fun _ => 1%R) /\ holds cell_r s' (E' (Out 0)) X' /\
    params_held cell_r E s 0 mlp (fun _ _ => 1%R) /\ params_held cell_r E' s' 0 mlp (fun _ _ => 1%R) /\
    forward_from cell_r cell_z Rsc exp 0%R E 0 mlp s = Ok tt t /\ holds cell_r t (E (Out 5)) Z /\
    forward_from cell_r cell_z Rsc exp 0%R E' 0 mlp s' = Ok tt t' /\ holds cell_r t' (E' (Out 5)) Z' /\
    close [1; 2] d Z Z'.
Proof.
  intros X' d Hd HC A.
  assert (H : net_ok [1; 1] mlp) by (cbn; repeat split; repeat constructor; lia).
  assert (G : gains 0 mlp (fun _ _ => 1%R) A).
  { cbn [gains mlp gain]. unfold A; cbn [nth]. repeat split; try lra; intros j Hj; unfold rsum.
    - change (zrange 1) with [0]. cbn. rewrite Rabs_R1. lra.
    - change (zrange 2) with [0; 1]. cbn. rewrite Rabs_R1. lra. }
  assert (GA : net_gain 0 mlp A = 1%R) by (unfold A; cbn; lra).
  split; [exact G|]. split; [exact GA|].
  destruct (infer_environment _ cell_r [1; 1] mlp (fun _ _ => 1%R) (fun _ => 1%R) H) as (E & s & O1 & M1 & X1 & P1).
  destruct (infer_environment _ cell_r [1; 1] mlp (fun _ _ => 1%R) X' H) as (E' & s' & O2 & M2 & X2 & P2).
  destruct (C106_inputs cell_r cell_z 0%R mlp [1; 1] E E' (fun _ _ => 1%R) (fun _ => 1%R) X' A d s s' H O1 M1 X1 P1 O2 M2 X2 P2 G Hd HC)
    as (t & t' & Z & Z' & R1 & R2 & R3 & R4 & R5).
  rewrite GA, Rmult_1_l in R5. exists E, E', s, s', t, t', Z, Z'. auto 12.
Qed.

(** A run with integers: the weights 2, -1 lead to the first output, 1, 3 to the
    second, so the factor is 4.  Moving both inputs up by 1 moves the results by
    2 - 1 and 1 + 3; moving one up and one down moves them by 3 and 2. *)
Definition pair_net : list layer := [LMatmul Builtin 1 2 2; LBias 1 2; LRelu [1; 2]].
Definition pair_run (x : list Z) : option (list (cell Z)) :=
  run (forward_from zt zt Zsc (fun x => x) 0 (fun c => match c with Out 0 => T_ 0 [1; 2] | Out 1 => T_ 1 [1; 2] | Out 2 => T_ 2 [1; 2]
      | Out _ => T_ 3 [1; 2] | Par 0 => T_ 4 [2; 2] | Par 1 => T_ 5 [2] | _ => T_ 6 [0] end) 0 pair_net)
    (demo [x; [0; 0]; [0; 0]; [0; 0]; [2; 1; -1; 3]; [5; 7]; []]) (T_ 3 [1; 2]).
Example C106_run_example :
  map pair_run [[1; 1]; [2; 2]; [2; 0]; [-9; 1]] = map (fun l => Some (inits l)) [[6; 11]; [7; 15]; [9; 9]; [0; 1]].
Proof. vm_compute. reflexivity. Qed.

Print Assumptions C106_layer.
Print Assumptions C106_network.
Print Assumptions C106_inputs.
Print Assumptions C106_prediction.
Print Assumptions C106_loss.
Print Assumptions C106_max_pool.
Print Assumptions C106_mean_pool.
Print Assumptions C106_matmul_tight.
Print Assumptions C106_softmax_tight.
Print Assumptions C106_margin_refuted.
