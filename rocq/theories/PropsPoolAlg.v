(** Property C94: the algebra of pooling. *)
From Coq Require Import ZArith List Bool Lia ZifyBool Reals Lra.
From Verif Require Import Base BaseFacts TensorFacts Traits TraitsSpec TraitsFacts Scalar RealScalar LinAlgFacts SumFacts
  Conv ConvSpec ConvFacts Pool PoolSpec PoolFacts PoolAlgSpec PoolAlgFacts Elem ElemSpec ElemFacts Demo.
Import ListNotations.
Open Scope Z_scope.
Open Scope model_scope.

Section Any.
  Context {V T : Type} (dt : dtype V T) (A : accumulator T).
  Notation pool o P y x := (op_pool dt o A P y x).

  (** An output depends on nothing but the sequence of pixel values in its
      window: not on layout, image, channel, position, or the other pixels. *)
  Theorem C94_window : forall o o2 P P2 g g2 s s2 y y2 x x2 X X2,
    pcalled dt o P g s y x X -> pcalled dt o2 P2 g2 s2 y2 x2 X2 ->
    yields A (kh_of P * kw_of P) -> yields A (kh_of P2 * kw_of P2) ->
    exists Y Y2, writes dt (pool o P y x) s y Y /\ writes dt (pool o2 P2 y2 x2) s2 y2 Y2 /\
      forall l i j k l2 i2 j2 k2, pout g l i j k -> pout g2 l2 i2 j2 k2 ->
        pseen o P g X l i j k = pseen o2 P2 g2 X2 l2 i2 j2 k2 ->
        Y (pcell o l i j k) = Y2 (pcell o2 l2 i2 j2 k2).
  Proof.
    intros o o2 P P2 g g2 s s2 y y2 x x2 X X2 K K2 Hy Hy2.
    destruct (pool_fn_writes dt A o P g s y x X K Hy) as [W E].
    destruct (pool_fn_writes dt A o2 P2 g2 s2 y2 x2 X2 K2 Hy2) as [W2 E2].
    exists (pool_fn A o P g X), (pool_fn A o2 P2 g2 X2). split; [exact W|]. split; [exact W2|].
    intros l i j k l2 i2 j2 k2 Ho Ho2 Q. specialize (E _ _ _ _ Ho). specialize (E2 _ _ _ _ Ho2).
    rewrite Q, E2 in E. congruence.
  Qed.

  (** Pooling images stored as nhwc and as nchw gives the same numbers. *)
  Theorem C94_layout : forall P g s s2 y y2 x x2 X X2,
    pcalled dt nhwc P g s y x X -> pcalled dt nchw P g s2 y2 x2 X2 -> yields A (kh_of P * kw_of P) ->
    (forall l p q k, pin g l p q k -> X [l; p; q; k] = X2 [l; k; p; q]) ->
    exists Y Y2, writes dt (pool nhwc P y x) s y Y /\ writes dt (pool nchw P y2 x2) s2 y2 Y2 /\
      forall l i j k, pout g l i j k -> Y [l; i; j; k] = Y2 [l; k; i; j].
  Proof.
    intros P g s s2 y y2 x x2 X X2 K K2 Hy E.
    destruct (C94_window _ _ _ _ _ _ _ _ _ _ _ _ _ _ K K2 Hy Hy) as (Y & Y2 & W & W2 & Q).
    exists Y, Y2. split; [exact W|]. split; [exact W2|]. intros l i j k Ho. apply (Q l i j k l i j k Ho Ho).
    unfold pseen. change (pwindow nchw P g i j) with (pwindow nhwc P g i j). apply map_ext_in. intros p Hp.
    apply pwindow_in in Hp. apply E. unfold pin, pout in *. tauto.
  Qed.

  (** Changing one pixel changes only the outputs whose window covers it. *)
  Theorem C94_local : forall o P g s s2 y x X X2 l0 p0 q0 k0,
    pcalled dt o P g s y x X -> pcalled dt o P g s2 y x X2 -> yields A (kh_of P * kw_of P) ->
    (forall l p q k, pin g l p q k -> ~ (l = l0 /\ p = p0 /\ q = q0 /\ k = k0) ->
       X (pcell o l p q k) = X2 (pcell o l p q k)) ->
    exists Y Y2, writes dt (pool o P y x) s y Y /\ writes dt (pool o P y x) s2 y Y2 /\
      forall l i j k, pout g l i j k -> Y (pcell o l i j k) <> Y2 (pcell o l i j k) ->
        l = l0 /\ k = k0 /\ In (p0, q0) (pwindow o P g i j).
  Proof.
    intros o P g s s2 y x X X2 l0 p0 q0 k0 K K2 Hy E.
    destruct (C94_window _ _ _ _ _ _ _ _ _ _ _ _ _ _ K K2 Hy Hy) as (Y & Y2 & W & W2 & Q).
    exists Y, Y2. split; [exact W|]. split; [exact W2|]. intros l i j k Ho Ne.
    destruct (Z.eq_dec l l0) as [->|Nl]; [|exfalso].
    destruct (Z.eq_dec k k0) as [->|Nk]; [|exfalso].
    destruct (in_dec (fun a b : Z * Z => ltac:(decide equality; apply Z.eq_dec) : {a = b} + {a <> b}) (p0, q0) (pwindow o P g i j)) as [I|N];
      [auto|exfalso].
    all: apply Ne, (Q _ _ _ _ _ _ _ _ Ho Ho); unfold pseen; apply map_ext_in; intros [p q] Hp;
      pose proof (pwindow_in _ _ _ _ _ _ Hp) as B; cbn [fst snd] in *; apply E; [unfold pin, pout in *; tauto|].
    - intros (_ & -> & -> & _). auto.
    - intros (_ & _ & _ & ->). auto.
    - intros (-> & _). auto.
  Qed.

  (** Shifting the image by whole strides shifts the result; for windows inside
      the image. *)
  Theorem C94_translate : forall o P g s s2 y x X X2 a b,
    let sh := stride (sfilter (h_sample P)) in let sw := stride (sfilter (w_sample P)) in
    pcalled dt o P g s y x X -> pcalled dt o P g s2 y x X2 -> yields A (kh_of P * kw_of P) ->
    (forall l p q k, pin g l p q k -> pin g l (p + a * sh) (q + b * sw) k ->
       X2 (pcell o l p q k) = X (pcell o l (p + a * sh) (q + b * sw) k)) ->
    exists Y Y2, writes dt (pool o P y x) s y Y /\ writes dt (pool o P y x) s2 y Y2 /\
      forall l i j k, pout g l i j k -> pout g l (i + a) (j + b) k ->
        Z.of_nat (length (pwindow o P g i j)) = kh_of P * kw_of P ->
        Z.of_nat (length (pwindow o P g (i + a) (j + b))) = kh_of P * kw_of P ->
        Y2 (pcell o l i j k) = Y (pcell o l (i + a) (j + b) k).
  Proof.
    intros o P g s s2 y x X X2 a b sh sw K K2 Hy E.
    destruct (pcalled_k _ _ _ _ _ _ _ _ K) as (K1 & K3 & _).
    destruct (C94_window _ _ _ _ _ _ _ _ _ _ _ _ _ _ K K2 Hy Hy) as (Y & Y2 & W & W2 & Q).
    exists Y, Y2. split; [exact W|]. split; [exact W2|]. intros l i j k Ho Ho2 L1 L2. symmetry.
    apply (Q _ _ _ _ _ _ _ _ Ho2 Ho). unfold pseen.
    assert (I1 : forall p, In p (pwindow o P g i j) -> 0 <= fst p < pgh g /\ 0 <= snd p < pgw g) by (intros; eapply pwindow_in; eauto).
    assert (I2 : forall p, In p (pwindow o P g (i + a) (j + b)) -> 0 <= fst p < pgh g /\ 0 <= snd p < pgw g) by (intros; eapply pwindow_in; eauto).
    rewrite (pwindow_full o P g i j K1 K3 L1) in *. rewrite (pwindow_full o P g (i + a) (j + b) K1 K3 L2) in *.
    unfold under in *. rewrite !map_map. apply map_ext_in. intros ix Hix.
    specialize (I1 _ (in_map _ _ _ Hix)). specialize (I2 _ (in_map _ _ _ Hix)). unfold arg2 in *. cbn [fst snd] in *.
    assert (Eh : wpos (effective o (h_sample P)) (i + a) (nth 0 ix 0) = wpos (effective o (h_sample P)) i (nth 0 ix 0) + a * sh)
      by (destruct o; unfold sh, wpos, tap; cbn; ring).
    assert (Ew : wpos (effective o (w_sample P)) (j + b) (nth 1 ix 0) = wpos (effective o (w_sample P)) j (nth 1 ix 0) + b * sw)
      by (destruct o; unfold sw, wpos, tap; cbn; ring).
    rewrite Eh, Ew in *. symmetry. apply E; unfold pin, pout in *; tauto.
  Qed.
End Any.

(** The accumulators of the library give a value whenever there is a pixel. *)
Theorem C94_yields : (forall T (sc : scalar T) lowest k, yields (max_acc sc lowest) k) /\
  (forall k, k < 2 ^ 32 -> yields (mean_acc Rsc (div_float Rsc)) k).
Proof. split; [intros; apply max_yields|apply mean_yields_R]. Qed.

(** *** Max pooling *)
Section Max.
  Context {V V2 T T2 : Type} (dt : dtype V T) (dt2 : dtype V2 T2) (sc : scalar T) (sc2 : scalar T2).

  (** Max pooling commutes with every monotone function, also one that changes
      the element type. *)
  Theorem C94_max_monotone : forall dom dom2 lowest lowest2 f o P g s s2 y y2 x x2 X X2,
    pcalled dt o P g s y x X -> pcalled dt2 o P g s2 y2 x2 X2 ->
    orderly sc dom lowest o g X -> orderly sc2 dom2 lowest2 o g X2 ->
    (forall a b, dom a -> dom b -> sltb sc a b = false -> sltb sc2 (f a) (f b) = false) ->
    total_on (fun b => exists a, dom a /\ b = f a) (sltb sc2) ->
    (forall l p q k, pin g l p q k -> X2 (pcell o l p q k) = f (X (pcell o l p q k))) ->
    exists Y, writes dt (op_pool dt o (max_acc sc lowest) P y x) s y Y /\
      writes dt2 (op_pool dt2 o (max_acc sc2 lowest2) P y2 x2) s2 y2 (fun ix => f (Y ix)).
  Proof.
    intros dom dom2 lowest lowest2 f o P g s s2 y y2 x x2 X X2 K K2 O1 O2 Mo To E.
    exists (pool_fn (max_acc sc lowest) o P g X).
    destruct (pool_fn_writes dt (max_acc sc lowest) o P g s y x X K (max_yields _ _ _)) as [W _].
    destruct (pool_fn_writes dt2 (max_acc sc2 lowest2) o P g s2 y2 x2 X2 K2 (max_yields _ _ _)) as [W2 _].
    split; [exact W|]. eapply writes_ext; [reflexivity| |exact W2].
    intros ix Hix. pose proof K2 as ((_ & _ & _ & _ & _ & _ & _ & _ & Ey) & _). rewrite Ey in Hix.
    destruct (cell_cases dt2 o P g s2 y2 x2 X2 _ _ ix K2 Hix) as (l & i & j & k & -> & Hl & Hi & Hj & Hk).
    assert (Ho : pout g l i j k) by (unfold pout; tauto).
    destruct (max_greatest dt sc dom lowest o P g s y x X K O1 l i j k Ho) as [G D].
    destruct (max_greatest dt2 sc2 dom2 lowest2 o P g s2 y2 x2 X2 K2 O2 l i j k Ho) as [G2 D2].
    pose proof (greatest_map (sltb sc) (sltb sc2) f dom _ _ Mo D G) as G3.
    assert (EL : pseen o P g X2 l i j k = map f (pseen o P g X l i j k)).
    { unfold pseen. rewrite map_map. apply map_ext_in. intros p Hp. apply pwindow_in in Hp. apply E. unfold pin. tauto. }
    rewrite EL in *.
    destruct (greatest_equiv _ _ _ _ _ G2 G3 ltac:(tauto)) as [L1 L2].
    destruct G2 as [I2 _]. apply in_map_iff in I2. destruct I2 as (a & Ea & Ia).
    symmetry. apply To; auto.
    - eexists. split; [apply D, G|reflexivity].
    - exists a. split; [apply D; auto|auto].
  Qed.
End Max.

Section Max2.
  Context {V T : Type} (dt : dtype V T) (sc : scalar T).

  (** relu before or after max pooling: the same result, whatever the pixels;
      [dom] is all values (integers) or the values that are not NaN (floats). *)
  Theorem C94_max_relu : forall dom lowest o P g s x t u y X,
    psized o P g t x -> psized o P g y u ->
    holds dt s x X -> mapped s t -> mapped s u -> mapped s y ->
    disjoint t x -> disjoint u x -> disjoint y u -> disjoint y t ->
    weak_order dom (sltb sc) -> (forall v, dom v \/ ~ dom v) -> (forall a v, ~ dom v -> sltb sc a v = false) ->
    dom lowest -> dom (s0 sc) -> (sltb sc lowest (s0 sc) = true \/ s0 sc = lowest) ->
    exists Y, leaves dt (op_relu dt sc u x ;;; op_pool dt o (max_acc sc lowest) P y u) s y Y /\
              leaves dt (op_pool dt o (max_acc sc lowest) P t x ;;; op_relu dt sc y t) s y Y.
  Proof.
    intros dom lowest o P g s x t u y X Z1 Z2 HX Mt Mu My Dtx Dux Dyu Dyt WO Dec Nan DL D0 Lo.
    assert (Ex : tdims x = tdims u) by (destruct Z1 as (_ & _ & _ & _ & _ & _ & _ & -> & _), Z2 as (_ & _ & _ & _ & _ & _ & _ & -> & _); reflexivity).
    assert (Ey : tdims t = tdims y) by (destruct Z1 as (_ & _ & _ & _ & _ & _ & _ & _ & ->), Z2 as (_ & _ & _ & _ & _ & _ & _ & _ & ->); reflexivity).
    assert (NN : dims_ok u /\ dims_ok y).
    { destruct Z2 as (_ & _ & AH & AW & Hn & Hc & _ & Eu & Eyy). unfold dims_ok. rewrite Eu, Eyy.
      unfold axis_fits in *. destruct o; cbn [pcell]; split; repeat constructor; tauto. }
    assert (R : forall s' t' x' X', dims_ok t' -> tdims x' = tdims t' -> holds dt s' x' X' -> mapped s' t' -> disjoint t' x' ->
      writes dt (op_relu dt sc t' x') s' t' (fun ix => relu1 sc (X' ix))).
    { intros s' t' x' X' H1 H2 H3 H4 H5. unfold op_relu, op_pointwise. rewrite transform1_flat. apply transform1_writes; auto. left; auto. }
    assert (K1 : pcalled dt o P g s t x X) by (split; auto).
    set (A := max_acc sc lowest).
    destruct (pool_fn_writes dt A o P g s t x X K1 (max_yields _ _ _)) as [W1 V1].
    exists (fun ix => relu1 sc (pool_fn A o P g X ix)). split.
    - apply (then_leaves dt dt _ _ s u y _ _ (R s u x X (proj1 NN) Ex HX Mu Dux)); auto. intros s' Hs' _ Ms'.
      assert (K2 : pcalled dt o P g s' y u (fun ix => relu1 sc (X ix))) by (split; auto).
      apply (pool_result dt A o P g s' y u _ _ K2). intros l i j k Ho.
      specialize (V1 l i j k Ho). unfold pooled in *. cbn [A max_acc acc_get acc_step acc0] in *. injection V1 as <-. f_equal.
      replace (pseen o P g (fun ix => relu1 sc (X ix)) l i j k) with (map (relu1 sc) (pseen o P g X l i j k))
        by (unfold pseen; rewrite map_map; reflexivity).
      apply (fold_max_relu sc dom); auto. eapply pseen_nonempty; eauto.
    - apply (then_leaves dt dt _ _ s t y _ _ W1); auto. intros s' Hs' _ Ms'. apply R; auto; apply NN.
  Qed.

  (** Max pooling twice is max pooling once with larger windows: kernel k1, stride
      s1 <= k1, then kernel k2, stride s2, is kernel k1 + s1 (k2 - 1), stride
      s1 s2. *)
  Theorem C94_max_twice : forall dom lowest o kh1 kw1 sh1 sw1 kh2 kw2 sh2 sw2 P1 P2 P3 n h w c h1 w1 h2 w2 s x t y X,
    new_pool_ks kh1 kw1 sh1 sw1 = Ret P1 -> new_pool_ks kh2 kw2 sh2 sw2 = Ret P2 ->
    new_pool_ks (kh1 + sh1 * (kh2 - 1)) (kw1 + sw1 * (kw2 - 1)) (sh1 * sh2) (sw1 * sw2) = Ret P3 ->
    sh1 <= kh1 -> sw1 <= kw1 ->
    pool_shape2 P1 [h; w] = Ret [h1; w1] -> pool_shape2 P2 [h1; w1] = Ret [h2; w2] ->
    psized o P1 (mkpgeom n h w c h1 w1) t x -> psized o P2 (mkpgeom n h1 w1 c h2 w2) y t ->
    psized o P3 (mkpgeom n h w c h2 w2) y x ->
    holds dt s x X -> mapped s t -> mapped s y -> disjoint t x -> disjoint y t -> disjoint y x ->
    orderly sc dom lowest o (mkpgeom n h w c h1 w1) X -> total_on dom (sltb sc) ->
    exists Y, leaves dt (op_pool dt o (max_acc sc lowest) P1 t x ;;; op_pool dt o (max_acc sc lowest) P2 y t) s y Y /\
              leaves dt (op_pool dt o (max_acc sc lowest) P3 y x) s y Y.
  Proof.
    intros dom lowest o kh1 kw1 sh1 sw1 kh2 kw2 sh2 sw2 P1 P2 P3 n h w c h1 w1 h2 w2 s x t y X B1 B2 B3 G1 G2 S1 S2
      Z1 Z2 Z3 HX Mt My Dtx Dyt Dyx O1 To.
    pose proof O1 as (WO & DL & OX).
    destruct (twice_geometry kh1 kw1 sh1 sw1 kh2 kw2 sh2 sw2 P1 P2 P3 o n h w c h1 w1 h2 w2 t x y) as (X1 & X2 & X3 & E1 & E2 & E3); auto.
    set (g1 := mkpgeom n h w c h1 w1) in *. set (g2 := mkpgeom n h1 w1 c h2 w2) in *. set (g3 := mkpgeom n h w c h2 w2) in *.
    set (A := max_acc sc lowest).
    assert (K1 : pcalled dt o P1 g1 s t x X) by (split; auto).
    assert (K3 : pcalled dt o P3 g3 s y x X) by (split; auto).
    destruct (pool_fn_writes dt A o P1 g1 s t x X K1 (max_yields _ _ _)) as [W1 _].
    destruct (pool_fn_writes dt A o P3 g3 s y x X K3 (max_yields _ _ _)) as [W3 _].
    exists (pool_fn A o P3 g3 X). split; [|apply writes_leaves; exact W3].
    apply (then_leaves dt dt _ _ s t y (pool_fn A o P1 g1 X) _ W1); auto. intros s' HT _ My'.
    assert (K2 : pcalled dt o P2 g2 s' y t (pool_fn A o P1 g1 X)) by (split; auto).
    destruct (pool_fn_writes dt A o P2 g2 s' y t _ K2 (max_yields _ _ _)) as [W2 _].
    eapply writes_ext; [reflexivity| |exact W2].
    intros ix Hix. pose proof Z3 as (_ & _ & _ & _ & _ & _ & _ & _ & Ey). rewrite Ey in Hix.
    destruct (cell_cases dt o P3 g3 s y x X _ _ ix K3 Hix) as (l & i & j & k & -> & Hl & Hi & Hj & Hk).
    cbn [pgn pgh pgw pgc pgh' pgw' g1 g2 g3] in Hl, Hi, Hj, Hk.
    assert (OI : forall a b, In (a, b) (pwindow o P2 g2 i j) -> pout g1 l a b k).
    { intros a b I. apply pwindow_in in I. unfold pout. cbn in *. tauto. }
    assert (O2 : orderly sc dom lowest o g2 (pool_fn A o P1 g1 X)).
    { split; [exact WO|]. split; [exact DL|]. intros l' p q k' Hp.
      assert (Hp' : pout g1 l' p q k') by (unfold pin, pout in *; cbn in *; tauto).
      destruct (max_greatest dt sc dom lowest o P1 g1 s t x X K1 O1 l' p q k' Hp') as [(I & _) D].
      fold A in I. apply in_map_iff in I. destruct I as ([a b] & <- & Ia). apply pwindow_in in Ia. apply OX.
      unfold pin, pout in *. cbn in *. tauto. }
    destruct (max_greatest dt sc dom lowest o P2 g2 s' y t _ K2 O2 l i j k) as [(I2 & M2) D2].
    { unfold pout; cbn; tauto. }
    destruct (max_greatest dt sc dom lowest o P3 g3 s y x X K3) with (l := l) (i := i) (j := j) (k := k) as [(I3 & M3) D3]; auto.
    { unfold pout; cbn; tauto. }
    fold A in I2, M2, I3, M3.
    assert (Tw : forall p q, In (p, q) (pwindow o P3 g3 i j) <->
      exists a b, In (a, b) (pwindow o P2 g2 i j) /\ In (p, q) (pwindow o P1 g1 a b)).
    { intros p q. apply E3; auto. }
    assert (Sub : forall a b, In (a, b) (pwindow o P2 g2 i j) ->
      In (pool_fn A o P1 g1 X (pcell o l a b k)) (pseen o P3 g3 X l i j k) /\
      (forall v, In v (pseen o P1 g1 X l a b k) -> sltb sc (pool_fn A o P1 g1 X (pcell o l a b k)) v = false)).
    { intros a b Hab. destruct (max_greatest dt sc dom lowest o P1 g1 s t x X K1 O1 l a b k (OI a b Hab)) as [(I & M) _].
      fold A in I, M. split; [|exact M]. apply in_map_iff in I. destruct I as ([p q] & <- & Ip).
      apply (in_map (fun p => X (pcell o l (fst p) (snd p) k))). apply Tw. eauto. }
    apply To.
    - apply D2. exact I2.
    - apply D3. exact I3.
    - apply in_map_iff in I3. destruct I3 as ([p q] & Ep & Ip). apply Tw in Ip. destruct Ip as (a & b & Hab & Hpq).
      destruct (Sub a b Hab) as [_ Ma]. cbn [fst snd] in Ep.
      assert (In2 : In (pool_fn A o P1 g1 X (pcell o l a b k)) (pseen o P2 g2 (pool_fn A o P1 g1 X) l i j k)).
      { apply in_map_iff. exists (a, b). auto. }
      assert (In1 : In (pool_fn A o P3 g3 X (pcell o l i j k)) (pseen o P1 g1 X l a b k)).
      { rewrite <- Ep. apply in_map_iff. exists (p, q). auto. }
      destruct WO as (_ & _ & NT). apply (NT _ (pool_fn A o P1 g1 X (pcell o l a b k)) _).
      + apply D2, I2.
      + apply D2, In2.
      + apply D3. rewrite <- Ep. apply in_map_iff. exists (p, q). split; auto. apply Tw. eauto.
      + apply M2, In2.
      + apply Ma, In1.
    - apply in_map_iff in I2. destruct I2 as ([a b] & Ea & Ia). cbn [fst snd] in Ea. rewrite <- Ea. apply M3, Sub; auto.
  Qed.
End Max2.

(** *** Mean pooling over the reals *)
Section Mean.
  Context {V : Type} (dt : dtype V R).
  Notation mean := (mean_acc Rsc (div_float Rsc)).

  (** Mean pooling is linear. *)
  Theorem C94_mean_linear : forall o P g s s2 s3 y x X X2 X3 a b,
    pcalled dt o P g s y x X -> pcalled dt o P g s2 y x X2 -> pcalled dt o P g s3 y x X3 ->
    (forall l p q k, pin g l p q k -> X3 (pcell o l p q k) = (a * X (pcell o l p q k) + b * X2 (pcell o l p q k))%R) ->
    exists Y Y2, writes dt (op_pool dt o mean P y x) s y Y /\ writes dt (op_pool dt o mean P y x) s2 y Y2 /\
      writes dt (op_pool dt o mean P y x) s3 y (fun ix => (a * Y ix + b * Y2 ix)%R).
  Proof.
    intros o P g s s2 s3 y x X X2 X3 a b K K2 K3 E.
    destruct (mean_fn_value dt o P g s y x X K) as [W V1].
    destruct (mean_fn_value dt o P g s2 y x X2 K2) as [W2 V2].
    destruct (mean_fn_value dt o P g s3 y x X3 K3) as [W3 V3].
    exists (pool_fn mean o P g X), (pool_fn mean o P g X2). split; [exact W|]. split; [exact W2|].
    eapply writes_ext; [reflexivity| |exact W3].
    intros ix Hix. pose proof K as ((_ & _ & _ & _ & _ & _ & _ & _ & Ey) & _). rewrite Ey in Hix.
    destruct (cell_cases dt o P g s y x X _ _ ix K Hix) as (l & i & j & k & -> & Hl & Hi & Hj & Hk).
    assert (Ho : pout g l i j k) by (unfold pout; tauto). rewrite V1, V2, V3 by auto.
    set (L := pwindow o P g i j).
    replace (sum_over Rsc L (fun p => X3 (pcell o l (fst p) (snd p) k)))
      with (a * sum_over Rsc L (fun p => X (pcell o l (fst p) (snd p) k)) + b * sum_over Rsc L (fun p => X2 (pcell o l (fst p) (snd p) k)))%R.
    - unfold Rdiv. ring.
    - rewrite <- (sum_scale_l Rsc Rsc_laws), <- (sum_scale_l Rsc Rsc_laws), <- (sum_add Rsc Rsc_laws).
      apply sum_over_ext. intros p Hp. symmetry. apply E. apply pwindow_in in Hp. unfold pin, pout in *. tauto.
  Qed.

  (** Mean pooling tiles, then pooling, is one mean pooling: kernel and stride k1,
      then kernel k2, stride s2, is kernel k1 k2, stride k1 s2. *)
  Theorem C94_mean_twice : forall o kh1 kw1 kh2 kw2 sh2 sw2 P1 P2 P3 n h w c h1 w1 h2 w2 s x t y X,
    new_pool_k kh1 kw1 = Ret P1 -> new_pool_ks kh2 kw2 sh2 sw2 = Ret P2 ->
    new_pool_ks (kh1 * kh2) (kw1 * kw2) (kh1 * sh2) (kw1 * sw2) = Ret P3 ->
    pool_shape2 P1 [h; w] = Ret [h1; w1] -> pool_shape2 P2 [h1; w1] = Ret [h2; w2] ->
    psized o P1 (mkpgeom n h w c h1 w1) t x -> psized o P2 (mkpgeom n h1 w1 c h2 w2) y t ->
    psized o P3 (mkpgeom n h w c h2 w2) y x ->
    holds dt s x X -> mapped s t -> mapped s y -> disjoint t x -> disjoint y t -> disjoint y x ->
    exists Y, leaves dt (op_pool dt o mean P1 t x ;;; op_pool dt o mean P2 y t) s y Y /\
              leaves dt (op_pool dt o mean P3 y x) s y Y.
  Proof.
    intros o kh1 kw1 kh2 kw2 sh2 sw2 P1 P2 P3 n h w c h1 w1 h2 w2 s x t y X B1 B2 B3 S1 S2
      Z1 Z2 Z3 HX Mt My Dtx Dyt Dyx. unfold new_pool_k in B1.
    replace (kh1 * kh2) with (kh1 + kh1 * (kh2 - 1)) in B3 by ring.
    replace (kw1 * kw2) with (kw1 + kw1 * (kw2 - 1)) in B3 by ring.
    destruct (twice_geometry kh1 kw1 kh1 kw1 kh2 kw2 sh2 sw2 P1 P2 P3 o n h w c h1 w1 h2 w2 t x y)
      as (X1 & X2 & X3 & E1 & E2 & _); auto using Z.le_refl.
    destruct (built_pos _ _ _ _ _ _ _ B1) as (p1 & p2 & _).
    destruct (built_pos _ _ _ _ _ _ _ B2) as (p3 & p4 & p5 & p6 & _).
    destruct (built_pos _ _ _ _ _ _ _ B3) as (_ & _ & _ & _ & E3).
    set (g1 := mkpgeom n h w c h1 w1) in *. set (g2 := mkpgeom n h1 w1 c h2 w2) in *. set (g3 := mkpgeom n h w c h2 w2) in *.
    assert (K1 : pcalled dt o P1 g1 s t x X) by (split; auto).
    assert (K3 : pcalled dt o P3 g3 s y x X) by (split; auto).
    destruct (mean_fn_value dt o P1 g1 s t x X K1) as [W1 V1].
    destruct (mean_fn_value dt o P3 g3 s y x X K3) as [W3 V3].
    exists (pool_fn mean o P3 g3 X). split; [|apply writes_leaves; exact W3].
    apply (then_leaves dt dt _ _ s t y (pool_fn mean o P1 g1 X) _ W1); auto. intros s' HT _ My'.
    assert (K2 : pcalled dt o P2 g2 s' y t (pool_fn mean o P1 g1 X)) by (split; auto).
    destruct (mean_fn_value dt o P2 g2 s' y t _ K2) as [W2 V2].
    eapply writes_ext; [reflexivity| |exact W2].
    intros ix Hix. pose proof Z3 as (_ & _ & _ & _ & _ & _ & _ & _ & Ey). rewrite Ey in Hix.
    destruct (cell_cases dt o P3 g3 s y x X _ _ ix K3 Hix) as (l & i & j & k & -> & Hl & Hi & Hj & Hk).
    cbn [pgn pgh pgw pgc pgh' pgw' g1 g2 g3] in Hl, Hi, Hj, Hk.
    rewrite V2, V3 by (unfold pout; cbn; tauto).
    rewrite (exact_window o P2 g2 i j X2 Hi Hj), (exact_window o P3 g3 i j X3 Hi Hj).
    assert (Kh3 : kh_of P3 = kh1 * kh2 /\ kw_of P3 = kw1 * kw2) by (rewrite E3; unfold kh_of, kw_of; cbn; lia).
    rewrite !under_length by (rewrite ?(proj1 Kh3), ?(proj2 Kh3), ?E2; unfold kh_of, kw_of; cbn; nia).
    destruct Kh3 as [-> ->]. replace (kh_of P2 * kw_of P2) with (kh2 * kw2) by (rewrite E2; reflexivity).
    destruct X2 as (q1 & q2 & q3 & q4 & Q & _ & _ & _ & _ & U5 & U6 & U7 & U8). rewrite E2 in Q. injection Q as <- <- <- <-.
    cbn [pgh pgw pgh' pgw' g2] in U5, U6, U7, U8.
    rewrite E2, sum_under, E3, sum_under.
    assert (T1 : forall u v, 0 <= u < kh2 -> 0 <= v < kw2 ->
      pool_fn mean o P1 g1 X (pcell o l (i * sh2 + u) (j * sw2 + v) k) =
      (sum_over Rsc (zrange kh1) (fun a => sum_over Rsc (zrange kw1) (fun b =>
         X (pcell o l ((i * sh2 + u) * kh1 + a) ((j * sw2 + v) * kw1 + b) k))) / IZR (kh1 * kw1))%R).
    { intros u v Hu Hv.
      assert (H1 : 0 <= i * sh2 + u < pgh' g1) by (apply (axis_twice_in kh2 sh2 h1 h2 i (i * sh2 + u)); auto; lia).
      assert (H2 : 0 <= j * sw2 + v < pgw' g1) by (apply (axis_twice_in kw2 sw2 w1 w2 j (j * sw2 + v)); auto; lia).
      rewrite V1 by (unfold pout; cbn in *; tauto). rewrite (exact_window o P1 g1 _ _ X1 H1 H2).
      rewrite under_length by (rewrite E1; unfold kh_of, kw_of; cbn; lia).
      replace (kh_of P1 * kw_of P1) with (kh1 * kw1) by (rewrite E1; reflexivity).
      rewrite E1, sum_under. reflexivity. }
    rewrite (sum_over_ext Rsc _ _ (fun u => (/ IZR (kh1 * kw1) * sum_over Rsc (zrange kw2) (fun v =>
      sum_over Rsc (zrange kh1) (fun a => sum_over Rsc (zrange kw1) (fun b =>
         X (pcell o l ((i * sh2 + u) * kh1 + a) ((j * sw2 + v) * kw1 + b) k)))))%R)).
    2:{ intros u Hu. apply in_zrange in Hu. rewrite <- (sum_scale_l Rsc Rsc_laws). apply sum_over_ext.
        intros v Hv. apply in_zrange in Hv. cbn [fst snd]. rewrite T1 by auto. cbn [smul Rsc]. unfold Rdiv. ring. }
    rewrite (sum_scale_l Rsc Rsc_laws). cbn [smul Rsc].
    replace (kh1 + kh1 * (kh2 - 1)) with (kh1 * kh2) by ring. replace (kw1 + kw1 * (kw2 - 1)) with (kw1 * kw2) by ring.
    rewrite (sum_zrange_mul Rsc Rsc_laws kh1 kh2) by lia.
    replace (sum_over Rsc (zrange kh2) (fun u => sum_over Rsc (zrange kh1) (fun v => sum_over Rsc (zrange (kw1 * kw2)) (fun v0 =>
        X (pcell o l (fst (i * (kh1 * sh2) + (u * kh1 + v), j * (kw1 * sw2) + v0)) (snd (i * (kh1 * sh2) + (u * kh1 + v), j * (kw1 * sw2) + v0)) k)))))
      with (sum_over Rsc (zrange kh2) (fun u => sum_over Rsc (zrange kw2) (fun v =>
              sum_over Rsc (zrange kh1) (fun a => sum_over Rsc (zrange kw1) (fun b =>
                X (pcell o l ((i * sh2 + u) * kh1 + a) ((j * sw2 + v) * kw1 + b) k)))))).
    - rewrite !mult_IZR. assert (F : forall z, 1 <= z -> IZR z <> 0%R) by (intros z Hz; apply not_0_IZR; lia).
      field. repeat split; apply F; lia.
    - apply sum_over_ext. intros u _. rewrite (sum_swap Rsc Rsc_laws). apply sum_over_ext. intros a _.
      rewrite (sum_zrange_mul Rsc Rsc_laws kw1 kw2) by lia. apply sum_over_ext. intros v _. apply sum_over_ext. intros b _.
      cbn [fst snd]. do 2 f_equal; ring.
  Qed.

  (** A mean lies between any bounds of the pixels of its window; it is at most
      their maximum. *)
  Theorem C94_mean_bounds : forall o P g s y x X,
    pcalled dt o P g s y x X ->
    exists Y, writes dt (op_pool dt o mean P y x) s y Y /\
      forall l i j k, pout g l i j k ->
        forall a b, (forall v, In v (pseen o P g X l i j k) -> (a <= v <= b)%R) -> (a <= Y (pcell o l i j k) <= b)%R.
  Proof.
    intros o P g s y x X K. destruct (mean_fn_value dt o P g s y x X K) as [W V1].
    exists (pool_fn mean o P g X). split; [exact W|]. intros l i j k Ho a b B. rewrite V1 by auto.
    assert (N : pwindow o P g i j <> []).
    { pose proof (pseen_nonempty dt o P g s y x X l i j k K Ho) as N. intros Q. apply N. unfold pseen. rewrite Q. reflexivity. }
    unfold pseen in B. set (f := fun p => X (pcell o l (fst p) (snd p) k)) in *. set (L := pwindow o P g i j) in *.
    assert (S : forall L', (forall v, In v (map f L') -> (a <= v <= b)%R) ->
      (a * IZR (Z.of_nat (length L')) <= sum_over Rsc L' f <= b * IZR (Z.of_nat (length L')))%R).
    { clear - a b. induction L' as [|p L' IH]; intros H.
      - cbn. lra.
      - rewrite (sum_cons Rsc Rsc_laws). cbn [sadd Rsc length]. rewrite Nat2Z.inj_succ, succ_IZR.
        pose proof (H _ (or_introl eq_refl)). destruct IH as [I1 I2]; [intros v Hv; apply H; right; auto|].
        split; [apply Rle_trans with (a * IZR (Z.of_nat (length L')) + a)%R|apply Rle_trans with (b * IZR (Z.of_nat (length L')) + b)%R]; lra. }
    destruct (S L B) as [S1 S2].
    assert (Pn : (0 < IZR (Z.of_nat (length L)))%R) by (apply IZR_lt; destruct L; [congruence|cbn [length]; lia]).
    split.
    - apply Rmult_le_reg_r with (IZR (Z.of_nat (length L))); auto. unfold Rdiv. rewrite Rmult_assoc, Rinv_l by lra. lra.
    - apply Rmult_le_reg_r with (IZR (Z.of_nat (length L))); auto. unfold Rdiv. rewrite Rmult_assoc, Rinv_l by lra. lra.
  Qed.

  Theorem C94_mean_below_max : forall lowest o P g s s2 y y2 x x2 X,
    pcalled dt o P g s y x X -> pcalled dt o P g s2 y2 x2 X ->
    (forall l p q k, pin g l p q k -> (lowest <= X (pcell o l p q k))%R) ->
    exists Y Y2, writes dt (op_pool dt o mean P y x) s y Y /\
      writes dt (op_pool dt o (max_acc Rsc lowest) P y2 x2) s2 y2 Y2 /\
      forall l i j k, pout g l i j k -> (Y (pcell o l i j k) <= Y2 (pcell o l i j k))%R.
  Proof.
    intros lowest o P g s s2 y y2 x x2 X K K2 HL.
    destruct (C94_mean_bounds o P g s y x X K) as (Y & W & B).
    destruct (pool_fn_writes dt (max_acc Rsc lowest) o P g s2 y2 x2 X K2 (max_yields _ _ _)) as [W2 _].
    exists Y, (pool_fn (max_acc Rsc lowest) o P g X). split; [exact W|]. split; [exact W2|]. intros l i j k Ho.
    assert (OX : orderly Rsc (fun _ : R => True) lowest o g X).
    { split; [apply real_weak|]. split; auto. intros l' p q k' Hi. split; auto. cbn [sltb Rsc]. unfold Rltb.
      destruct (Rlt_dec lowest (X (pcell o l' p q k'))); [left; auto|right]. specialize (HL _ _ _ _ Hi). lra. }
    destruct (max_greatest dt Rsc _ lowest o P g s2 y2 x2 X K2 OX l i j k Ho) as [(_ & M) _].
    set (m := pool_fn (max_acc Rsc lowest) o P g X (pcell o l i j k)) in *.
    assert (Le : forall v, In v (pseen o P g X l i j k) -> (v <= m)%R).
    { intros v Hv. specialize (M v Hv). cbn [sltb Rsc] in M. unfold Rltb in M. destruct (Rlt_dec m v); [discriminate|lra]. }
    apply (B l i j k Ho lowest m). intros v Hv. split; auto.
    apply in_map_iff in Hv. destruct Hv as (p & <- & Hp). apply pwindow_in in Hp. apply HL. unfold pin, pout in *. tauto.
  Qed.
End Mean.

(** *** Trivial pools and constant images *)
Section Trivial.
  Context {V T : Type} (dt : dtype V T).

  (** An accumulator that gives back a value seen once. *)
  Theorem C94_identity : forall (A : accumulator T) o P n h w c s y x X,
    new_pool_k 1 1 = Ret P -> pcalled dt o P (mkpgeom n h w c h w) s y x X ->
    (forall l p q k, pin (mkpgeom n h w c h w) l p q k ->
       acc_get A (acc_step A (acc0 A) (X (pcell o l p q k))) = Ret (X (pcell o l p q k))) ->
    writes dt (op_pool dt o A P y x) s y X.
  Proof.
    intros A o P n h w c s y x X B K H. apply (pool_result dt A o P _ s y x X X K).
    unfold new_pool_k, new_pool_ks in B. destruct (built_pos _ _ _ _ _ _ _ B) as (_ & _ & _ & _ & ->).
    intros l i j k Ho.
    assert (E : pwindow o (mkpool (mksample (mkfilter 1 1 1) (mkpadding 0 0)) (mksample (mkfilter 1 1 1) (mkpadding 0 0)))
      (mkpgeom n h w c h w) i j = [(i, j)]).
    { rewrite exact_window.
      - unfold under. cbn [kh_of kw_of h_sample w_sample sfilter ksize]. change (indices [1; 1]) with [[0; 0]]. cbn [map].
        unfold arg2; cbn [nth]. f_equal. f_equal; destruct o; unfold wpos, tap; cbn [effective unpadded sfilter spadding stride rate left_]; lia.
      - exists 1, 1, 1, 1. unfold pout in Ho. cbn [pgn pgh pgw pgc pgh' pgw'] in *. repeat split; lia.
      - apply Ho.
      - apply Ho. }
    unfold pseen. rewrite E. cbn [map fst snd]. apply H. exact Ho.
  Qed.

  (** Constant images stay constant. *)
  Theorem C94_max_constant : forall (sc : scalar T) dom lowest o P g s y x X v,
    pcalled dt o P g s y x X -> orderly sc dom lowest o g X ->
    (forall l p q k, pin g l p q k -> X (pcell o l p q k) = v) ->
    writes dt (op_pool dt o (max_acc sc lowest) P y x) s y (fun _ => v).
  Proof.
    intros sc dom lowest o P g s y x X v K OX E.
    destruct (pool_fn_writes dt (max_acc sc lowest) o P g s y x X K (max_yields _ _ _)) as [W _].
    eapply writes_ext; [reflexivity| |exact W].
    intros ix Hix. pose proof K as ((_ & _ & _ & _ & _ & _ & _ & _ & Ey) & _). rewrite Ey in Hix.
    destruct (cell_cases dt o P g s y x X _ _ ix K Hix) as (l & i & j & k & -> & Hl & Hi & Hj & Hk).
    destruct (max_greatest dt sc dom lowest o P g s y x X K OX l i j k) as [(I & _) _]; [unfold pout; tauto|].
    apply in_map_iff in I. destruct I as (p & <- & Ip). apply pwindow_in in Ip. apply E. unfold pin. tauto.
  Qed.
End Trivial.

Theorem C94_mean_constant : forall V (dt : dtype V R) o P g s y x X v,
  pcalled dt o P g s y x X -> (forall l p q k, pin g l p q k -> X (pcell o l p q k) = v) ->
  writes dt (op_pool dt o (mean_acc Rsc (div_float Rsc)) P y x) s y (fun _ => v).
Proof.
  intros V dt o P g s y x X v K E. destruct (C94_mean_bounds dt o P g s y x X K) as (Y & W & B).
  eapply writes_ext; [reflexivity| |exact W].
  intros ix Hix. pose proof K as ((_ & _ & _ & _ & _ & _ & _ & _ & Ey) & _). rewrite Ey in Hix.
  destruct (cell_cases dt o P g s y x X _ _ ix K Hix) as (l & i & j & k & -> & Hl & Hi & Hj & Hk).
  destruct (B l i j k) with (a := v) (b := v) as [B1 B2]; [unfold pout; tauto| |lra].
  intros u Hu. apply in_map_iff in Hu. destruct Hu as (p & <- & Ip). apply pwindow_in in Ip. rewrite E; [lra|]. unfold pin; tauto.
Qed.

(** *** Floating point *)
From Coq Require Import SpecFloat.
From Flocq Require Import Core BinarySingleNaN.
From Verif Require Import Float FloatSpec FloatFacts FloatNan PropsFloat.

(** relu and max pooling of floats commute for all pixels, NaN, infinities and
    signed zeros included. *)
Theorem C94_max_relu_float : forall V prec emax {Hprec : Prec_gt_0 prec} {Hmax : Prec_lt_emax prec emax}
    (dt : dtype V (binary_float prec emax)) o P g s x t u y X,
  psized o P g t x -> psized o P g y u ->
  holds dt s x X -> mapped s t -> mapped s u -> mapped s y ->
  disjoint t x -> disjoint u x -> disjoint y u -> disjoint y t ->
  let sc := Fsc prec emax in let A := max_acc sc (Flowest prec emax) in
  exists Y, leaves dt (op_relu dt sc u x ;;; op_pool dt o A P y u) s y Y /\
            leaves dt (op_pool dt o A P t x ;;; op_relu dt sc y t) s y Y.
Proof.
  intros V prec emax Hprec Hmax dt o P g s x t u y X Z1 Z2 HX Mt Mu My D1 D2 D3 D4 sc A.
  apply (C94_max_relu dt sc (fun v => is_nan v = false) (Flowest prec emax) o P g s x t u y X); auto.
  - apply float_order.
  - intros v. destruct (is_nan v); auto.
  - intros a v Nv. apply not_false_is_true in Nv. cbn [sc sltb Fsc]. rewrite (nan_eq prec emax v Nv). apply ltb_nan_r.
Qed.

(** *** Concrete cases *)

(** 2 x 2 tiles of a 1 x 4 x 4 x 1 image, then 2 x 2 tiles of the result: the
    hypotheses hold and the two ways agree. *)
Definition P22 : pool_trait := mkpool (mksample (mkfilter 2 2 1) (mkpadding 0 0)) (mksample (mkfilter 2 2 1) (mkpadding 0 0)).
Definition P44 : pool_trait := mkpool (mksample (mkfilter 4 4 1) (mkpadding 0 0)) (mksample (mkfilter 4 4 1) (mkpadding 0 0)).

Example C94_sizes :
  new_pool_k 2 2 = Ret P22 /\ new_pool_ks 2 2 2 2 = Ret P22 /\ new_pool_ks (2 * 2) (2 * 2) (2 * 2) (2 * 2) = Ret P44 /\
  pool_shape2 P22 [4; 4] = Ret [2; 2] /\ pool_shape2 P22 [2; 2] = Ret [1; 1] /\
  psized nhwc P22 (mkpgeom 1 4 4 1 2 2) (T_ 1 [1; 2; 2; 1]) (T_ 0 [1; 4; 4; 1]) /\
  psized nhwc P22 (mkpgeom 1 2 2 1 1 1) (T_ 2 [1; 1; 1; 1]) (T_ 1 [1; 2; 2; 1]) /\
  psized nhwc P44 (mkpgeom 1 4 4 1 1 1) (T_ 2 [1; 1; 1; 1]) (T_ 0 [1; 4; 4; 1]).
Proof.
  repeat match goal with |- _ = _ /\ _ => split; [reflexivity|] end.
  assert (N : forall P g, exact P g -> forall i j, 0 <= i < pgh' g -> 0 <= j < pgw' g -> pwindow nhwc P g i j <> []).
  { intros P g X i j Hi Hj E. pose proof X as (kh & kw & sh & sw & -> & K1 & K2 & _).
    rewrite (exact_window nhwc _ g i j X Hi Hj) in E.
    assert (I : In (i * sh, j * sw) []) by (rewrite <- E; apply under_in; lia). destruct I. }
  split; [|split].
  - split; [exact I|]. split; [exists 2, 2, (mkpadding 0 0), (mkpadding 0 0), 2, 2; split; [reflexivity|lia]|].
    split; [unfold axis_fits, tap; cbn; lia|]. split; [unfold axis_fits, tap; cbn; lia|]. do 2 (split; [cbn; lia|]).
    split; [|split; reflexivity]. apply N. exists 2, 2, 2, 2. cbn; repeat split; lia.
  - split; [exact I|]. split; [exists 2, 2, (mkpadding 0 0), (mkpadding 0 0), 2, 2; split; [reflexivity|lia]|].
    split; [unfold axis_fits, tap; cbn; lia|]. split; [unfold axis_fits, tap; cbn; lia|]. do 2 (split; [cbn; lia|]).
    split; [|split; reflexivity]. apply N. exists 2, 2, 2, 2. cbn; repeat split; lia.
  - split; [exact I|]. split; [exists 4, 4, (mkpadding 0 0), (mkpadding 0 0), 4, 4; split; [reflexivity|lia]|].
    split; [unfold axis_fits, tap; cbn; lia|]. split; [unfold axis_fits, tap; cbn; lia|]. do 2 (split; [cbn; lia|]).
    split; [|split; reflexivity]. apply N. exists 4, 4, 4, 4. cbn; repeat split; lia.
Qed.

Definition img16 : list Z := [3; -1; 4; 1; -5; 9; 2; -6; 5; 3; -5; 8; 9; 7; 9; 3].
Example C94_example :
  let s := demo [img16; repeat 0 4; repeat 0 4; repeat 0 16] in
  let x := T_ 0 [1; 4; 4; 1] in let t := T_ 1 [1; 2; 2; 1] in let y := T_ 2 [1; 1; 1; 1] in
  let y2 := T_ 2 [1; 2; 2; 1] in let u := T_ 3 [1; 4; 4; 1] in
  let A := max_acc Zsc (-100) in let B := mean_acc Zsc (fun a n => Ret (a / n)) in
  (* max twice, max once *)
  run (op_pool zt nhwc A P22 t x ;;; op_pool zt nhwc A P22 y t) s y = Some (inits [9]) /\
  run (op_pool zt nhwc A P44 y x) s y = Some (inits [9]) /\
  (* relu before and after *)
  run (op_relu zt Zsc u x ;;; op_pool zt nhwc A P22 y2 u) s y2 = Some (inits [9; 4; 9; 9]) /\
  run (op_pool zt nhwc A P22 t x ;;; op_relu zt Zsc y2 t) s y2 = Some (inits [9; 4; 9; 9]) /\
  (* the image negated: all the maxima change *)
  run (op_pool zt nhwc A P22 t x) (demo [map Z.opp img16; repeat 0 4]) t = Some (inits [5; 6; -3; 5]) /\
  (* layouts *)
  run (op_pool zt nchw A P22 (T_ 1 [1; 1; 2; 2]) (T_ 0 [1; 1; 4; 4])) s t = Some (inits [9; 4; 9; 9]).
Proof. vm_compute. repeat split; reflexivity. Qed.

(** With a first stride larger than the kernel (pixels skipped), max pooling
    twice is not max pooling once; mean pooling twice with overlapping windows is
    not mean pooling once. *)
Theorem C94_twice_refuted :
  (exists P1 P2 P3 (s : st Z) x t y, let A := max_acc Zsc (-100) in
     new_pool_ks 1 1 2 1 = Ret P1 /\ new_pool_ks 2 1 1 1 = Ret P2 /\ new_pool_ks (1 + 2 * (2 - 1)) (1 + 1 * (1 - 1)) (2 * 1) (1 * 1) = Ret P3 /\
     tdims x = [3; 1] /\ tdims t = [2; 1] /\ tdims y = [1; 1] /\
     run (op_pool zt hw A P1 t x ;;; op_pool zt hw A P2 y t) s y <> run (op_pool zt hw A P3 y x) s y) /\
  (exists P1 P2 P3 (s : st Z) x t y, let B := mean_acc Zsc (fun a n => Ret (a / n)) in
     new_pool_ks 2 1 1 1 = Ret P1 /\ new_pool_ks 2 1 1 1 = Ret P2 /\ new_pool_ks (2 + 1 * (2 - 1)) (1 + 1 * (1 - 1)) (1 * 1) (1 * 1) = Ret P3 /\
     tdims x = [3; 1] /\ tdims t = [2; 1] /\ tdims y = [1; 1] /\
     run (op_pool zt hw B P1 t x ;;; op_pool zt hw B P2 y t) s y <> run (op_pool zt hw B P3 y x) s y).
Proof.
  split.
  - exists (mkpool (mksample (mkfilter 1 2 1) (mkpadding 0 0)) (mksample (mkfilter 1 1 1) (mkpadding 0 0))),
      (mkpool (mksample (mkfilter 2 1 1) (mkpadding 0 0)) (mksample (mkfilter 1 1 1) (mkpadding 0 0))),
      (mkpool (mksample (mkfilter 3 2 1) (mkpadding 0 0)) (mksample (mkfilter 1 1 1) (mkpadding 0 0))),
      (demo [[1; 9; 2]; [0; 0]; [0]]), (T_ 0 [3; 1]), (T_ 1 [2; 1]), (T_ 2 [1; 1]).
    repeat split; try reflexivity. vm_compute. discriminate.
  - exists (mkpool (mksample (mkfilter 2 1 1) (mkpadding 0 0)) (mksample (mkfilter 1 1 1) (mkpadding 0 0))),
      (mkpool (mksample (mkfilter 2 1 1) (mkpadding 0 0)) (mksample (mkfilter 1 1 1) (mkpadding 0 0))),
      (mkpool (mksample (mkfilter 3 1 1) (mkpadding 0 0)) (mksample (mkfilter 1 1 1) (mkpadding 0 0))),
      (demo [[0; 12; 0]; [0; 0]; [0]]), (T_ 0 [3; 1]), (T_ 1 [2; 1]), (T_ 2 [1; 1]).
    repeat split; try reflexivity. vm_compute. discriminate.
Qed.

(** Floats have two zeros, and the first of equal values wins: columns first,
    then rows, finds another zero than the two together. *)
Theorem C94_zeros_refuted : exists P1 P2 P3 (s : st float) x t y, let A := max_acc F32 (Flowest 24 128) in
  new_pool_k 2 1 = Ret P1 /\ new_pool_k 1 2 = Ret P2 /\ new_pool_k 2 2 = Ret P3 /\
  tdims x = [2; 2] /\ tdims t = [1; 2] /\ tdims y = [1; 1] /\
  shown (run (op_pool ft hw A P1 t x ;;; op_pool ft hw A P2 y t) s y) = Some [Some (S754_zero true)] /\
  shown (run (op_pool ft hw A P3 y x) s y) = Some [Some (S754_zero false)].
Proof.
  exists (mkpool (mksample (mkfilter 2 2 1) (mkpadding 0 0)) (mksample (mkfilter 1 1 1) (mkpadding 0 0))),
    (mkpool (mksample (mkfilter 1 1 1) (mkpadding 0 0)) (mksample (mkfilter 2 2 1) (mkpadding 0 0))), P22,
    (demo [[f32 (-1) 0; B754_zero false; B754_zero true; f32 (-1) 0]; [f32 9 0; f32 9 0]; [f32 9 0]]), (T_ 0 [2; 2]), (T_ 1 [1; 2]), (T_ 2 [1; 1]).
  repeat split; vm_compute; reflexivity.
Qed.

Print Assumptions C94_window.
Print Assumptions C94_layout.
Print Assumptions C94_local.
Print Assumptions C94_translate.
Print Assumptions C94_yields.
Print Assumptions C94_max_monotone.
Print Assumptions C94_max_relu.
Print Assumptions C94_max_relu_float.
Print Assumptions C94_max_twice.
Print Assumptions C94_mean_linear.
Print Assumptions C94_mean_twice.
Print Assumptions C94_mean_bounds.
Print Assumptions C94_mean_below_max.
Print Assumptions C94_identity.
Print Assumptions C94_max_constant.
Print Assumptions C94_mean_constant.
Print Assumptions C94_twice_refuted.
Print Assumptions C94_zeros_refuted.
