(** Proofs about the VGG network. *)
From Coq Require Import ZArith List Bool Lia String Reals Lra.
From Verif Require Import Base BaseFacts TensorFacts Traits TraitsSpec TraitsFacts PropsTraits Scalar LinAlg LinAlgFacts Conv ConvSpec ConvFacts
  Elem ElemSpec ElemFacts PropsElem RealScalar Activation ActivationSpec ActivationFacts SoftmaxFacts PropsSoftmax
  Pool PoolSpec PoolFacts PropsPool PropsSummary Utility UtilityFacts PropsUtility
  Layers LayersSpec LayersFacts LayerCalls PropsLayers PropsLayers2 PropsDefaults Vgg VggSpec.
Import ListNotations.
Open Scope Z_scope.
Open Scope model_scope.

Lemma Rltb_max : forall a b, (if Rltb a b then b else a) = Rmax a b.
Proof.
  intros a b. unfold Rltb. destruct (Rlt_dec a b); [rewrite Rmax_right by lra|rewrite Rmax_left by lra]; reflexivity.
Qed.

Lemma relu1_Rmax : forall x, relu1 Rsc x = Rmax 0 x.
Proof. intros x. unfold relu1. cbn [sltb s0 Rsc]. apply Rltb_max. Qed.

Lemma same3 : forall n, 1 <= n -> n + 3 < 2 ^ 32 ->
  padding_same U32 3 1 1 n = Ret (mkpadding 1 1) /\ axis_ok (mksample (mkfilter 3 1 1) (mkpadding 1 1)) n n.
Proof.
  intros n H1 H2.
  assert (E : padding_same U32 3 1 1 n = Ret (mkpadding 1 1)).
  { unfold padding_same. rewrite same_padding_val by (cbn [fits]; unfold span; try rewrite Z.mod_1_r; lia).
    cbv zeta. rewrite Z.mod_1_r. reflexivity. }
  split; [exact E|].
  destruct (C62_same_padding 3 1 n ltac:(lia) ltac:(lia) ltac:(lia)) as (p & E' & A); [unfold span; lia|].
  rewrite E in E'. injection E' as <-. exact A.
Qed.

Lemma same2 : forall n, 0 <= n -> n + 3 < 2 ^ 32 ->
  padding_same U32 2 2 1 n = if n mod 2 =? 0 then Ret (mkpadding 0 0) else Exn RuntimeError.
Proof.
  intros n H1 H2. pose proof (Z.mod_pos_bound n 2 ltac:(lia)). unfold padding_same.
  rewrite same_padding_val by (cbn [fits]; unfold span; lia). cbv zeta. unfold span.
  destruct (Z.eqb_spec (n mod 2) 0) as [E|E]; [rewrite E; reflexivity|].
  replace (n mod 2) with 1 by lia. reflexivity.
Qed.

Lemma window2 : forall h w i j, h mod 2 = 0 -> w mod 2 = 0 -> 0 <= i < h / 2 -> 0 <= j < w / 2 ->
  window (mksample (mkfilter 2 2 1) (mkpadding 0 0)) (mksample (mkfilter 2 2 1) (mkpadding 0 0)) h w i j
  = [(2 * i, 2 * j); (2 * i, 2 * j + 1); (2 * i + 1, 2 * j); (2 * i + 1, 2 * j + 1)].
Proof.
  intros h w i j Eh Ew Hi Hj. unfold window. cbn [sfilter ksize].
  change (indices [2; 2]) with [[0; 0]; [0; 1]; [1; 0]; [1; 1]].
  cbn [map]. unfold arg2, wpos, tap; cbn [nth stride rate sfilter left_ spadding].
  pose proof (Z.div_mod h 2 ltac:(lia)). pose proof (Z.div_mod w 2 ltac:(lia)).
  replace (i * 2 + 0 * 1 - 0) with (2 * i) by lia. replace (i * 2 + 1 * 1 - 0) with (2 * i + 1) by lia.
  replace (j * 2 + 0 * 1 - 0) with (2 * j) by lia. replace (j * 2 + 1 * 1 - 0) with (2 * j + 1) by lia.
  cbn [List.filter fst snd]. unfold inb.
  repeat match goal with |- context [?a <=? ?b] => replace (a <=? b) with true by lia end.
  repeat match goal with |- context [?a <? ?b] => replace (a <? b) with true by lia end. reflexivity.
Qed.

Lemma creates_ext : forall V T (dt : dtype V T) m s ds Y Y' Ws, creates dt m s (ds, Y) Ws ->
  (forall ix, valid ds ix -> Y ix = Y' ix) -> creates dt m s (ds, Y') Ws.
Proof.
  intros V T dt m s ds Y Y' Ws (l & s' & E & G & [D H] & HW) EY. exists l, s'. split; [exact E|]. split; [exact G|].
  split; [|exact HW]. split; [exact D|]. cbn [fst snd] in *. eapply holds_ext; [|exact H]. rewrite D. exact EY.
Qed.

Lemma engine_real : forall e a b c, 1 <= a -> 1 <= b -> 1 <= c -> engine_ok Rsc e [a; b; c].
Proof.
  intros [|] a b c Ha Hb Hc; [exact I|]. split; [exact Rsc_laws|]. repeat (constructor; [lia|]). constructor.
Qed.

Section Vgg.
  Context {V : Type} (dt : dtype V R) (di : dtype V Z) (eps lowest : R) (e : engine).

  Lemma vgg_conv_creates : forall d w_init b_init n h w c W B s x X,
    1 <= n -> 1 <= h -> h + 3 < 2 ^ 32 -> 1 <= w -> w + 3 < 2 ^ 32 -> 1 <= c -> 1 <= d < 2 ^ 32 -> h * w * c <= 2 ^ 31 ->
    fills dt w_init [3; 3; c; d] W -> fills dt b_init [d] B -> input dt s x ([n; h; w; c], X) ->
    creates dt (vgg_conv dt di Rsc e d w_init b_init x) s ([n; h; w; d], conv3 h w c W B X)
      [([3; 3; c; d], W); ([d], B)].
  Proof using.
    intros d w_init b_init n h w c W B s x X Hn Hh Fh Hw Fw Hc Hd Hs HW HB I.
    destruct (same3 h Hh Fh) as [Ph Ah]. destruct (same3 w Hw Fw) as [Pw Aw].
    unfold vgg_conv, new_conf. rewrite (to_u32_id d) by lia. change (to_u32 3) with 3. change (to_u32 1) with 1.
    set (c0 := mkconf d 3 3 (padding_same U32) 1 1 1 1).
    destruct (C62_conv_nhwc dt di Rsc e c0 (op_relu dt Rsc) w_init b_init n h w c h w (mkpadding 1 1) (mkpadding 1 1) W B
                (fun Y ix => relu1 Rsc (Y ix)) Ph Pw Ah Aw ltac:(lia) ltac:(lia) ltac:(cbn; lia)
                ltac:(cbn [c_filters c0]; apply engine_real; lia) s x X Hs HW) as [_ Q]; [|exact I|].
    { apply acts_pointwise. cbn [c_filters c0]. repeat (constructor; [lia|]). constructor. }
    specialize (Q HB). eapply creates_ext; [exact Q|]. intros ix Hix. apply valid_4 in Hix.
    destruct Hix as (l & i & j & t & -> & Hl & Hi & Hj & Ht). rewrite relu1_Rmax. unfold conv3. unfold arg4 at 1. cbn [nth]. cbv zeta.
    f_equal. cbn [sadd Rsc]. f_equal. unfold conv_nhwc_value, arg4. cbn [nth c_kh c_kw c0].
    apply sum_over_ext. intros a Ha. unfold arg3. cbn [smul s0 Rsc]. unfold wpos, h_axis, w_axis, tap.
    cbn [stride rate sfilter left_ spadding c_sh c_sw c_rh c_rw c0]. f_equal. f_equal; lia.
  Qed.
  Lemma vgg_pool_creates : forall n h w c s x X,
    1 <= n -> 1 <= h -> h + 3 < 2 ^ 32 -> 1 <= w -> w + 3 < 2 ^ 32 -> 1 <= c -> h mod 2 = 0 -> w mod 2 = 0 ->
    (forall ix, valid [n; h; w; c] ix -> lowest <= X ix)%R -> input dt s x ([n; h; w; c], X) ->
    creates dt (vgg_pool dt Rsc lowest x) s ([n; h / 2; w / 2; c], pool2 X) [].
  Proof using.
    intros n h w c s x X Hn Hh Fh Hw Fw Hc Eh Ew Lo I.
    pose proof (Z.div_mod h 2 ltac:(lia)). pose proof (Z.div_mod w 2 ltac:(lia)).
    set (P := mkpool (mksample (mkfilter 2 2 1) (mkpadding 0 0)) (mksample (mkfilter 2 2 1) (mkpadding 0 0))).
    unfold vgg_pool, new_pconf. change (to_u32 2) with 2.
    apply (C72_pool_nhwc dt (max_acc Rsc lowest) (mkpconf 2 2 (padding_same U32) 2 2) (mkpadding 0 0) (mkpadding 0 0) P P
             n h w c (h / 2) (w / 2) (pool2 X) s x X); cbn [p_pad p_kh p_kw p_sh p_sw].
    - rewrite same2 by lia. rewrite Eh. reflexivity.
    - rewrite same2 by lia. rewrite Ew. reflexivity.
    - unfold pool_args. cbn. lia.
    - apply new_pool_kps_iff; lia.
    - apply new_pool_kps_iff; lia.
    - apply C38_shape. exists (h / 2), (w / 2). split; [|reflexivity].
      apply (C79_pool_k_shape 2 2 P h w (h / 2) (w / 2)); try lia. apply new_pool_kps_iff; lia.
    - lia.
    - lia.
    - exact I.
    - intros l i j k Hv. cbn [valid] in Hv. cbn [h_sample w_sample P].
      rewrite window2 by (try lia; tauto). cbn [map fst snd]. unfold pooled. cbn [max_acc acc_st acc0 acc_step acc_get fold_left sltb Rsc].
      rewrite !Rltb_max. f_equal. unfold pool2, arg4. cbn [nth].
      rewrite (Rmax_right lowest) by (apply Lo; cbn [valid]; lia). symmetry. apply Rmax_assoc.
  Qed.

  Lemma vgg_pool_rejects : forall n h w c s x X,
    1 <= n -> 1 <= h -> h + 3 < 2 ^ 32 -> 1 <= w -> w + 3 < 2 ^ 32 -> 1 <= c -> ~ (h mod 2 = 0 /\ w mod 2 = 0) ->
    input dt s x ([n; h; w; c], X) -> leaks (vgg_pool dt Rsc lowest x) s RuntimeError [].
  Proof using.
    intros n h w c s x X Hn Hh Fh Hw Fw Hc Hm I.
    apply (C63_pool_shape dt (max_acc Rsc lowest) nhwc _ [n; h; w; c] s x X RuntimeError I). left.
    unfold pconf_trait, new_pconf. change (to_u32 2) with 2.
    cbn [p_pad p_kh p_kw p_sh p_sw image_shape height_position width_position nth]. rewrite !same2 by lia.
    destruct (Z.eqb_spec (h mod 2) 0) as [E1|E1]; cbn [obind]; [|reflexivity].
    destruct (Z.eqb_spec (w mod 2) 0) as [E2|E2]; cbn [obind]; [tauto|reflexivity].
  Qed.

  Lemma vgg_dense_relu_creates : forall d w_init b_init n l W B s x X, 1 <= n -> 1 <= l -> 1 <= d < 2 ^ 32 ->
    fills dt w_init [l; d] W -> fills dt b_init [d] B -> input dt s x ([n; l], X) ->
    creates dt (vgg_dense_relu dt Rsc e d w_init b_init x) s ([n; d], rectified (affine l W B X)) [([l; d], W); ([d], B)].
  Proof using.
    intros d w_init b_init n l W B s x X Hn Hl Hd HW HB I.
    pose proof (C62_dense dt Rsc e (op_relu dt Rsc) d w_init b_init n l W B (fun Y ix => relu1 Rsc (Y ix)) s x X ltac:(lia)
      (engine_real e n l d Hn Hl ltac:(lia)) HW HB) as Q.
    eapply creates_ext; [apply Q; [|exact I]|].
    - apply acts_pointwise. repeat (constructor; [lia|]). constructor.
    - intros ix _. cbn beta. rewrite relu1_Rmax. reflexivity.
  Qed.

  Lemma vgg_dense_creates : forall d w_init b_init n l W B s x X, 1 <= n -> 1 <= l -> 1 <= d < 2 ^ 32 ->
    fills dt w_init [l; d] W -> fills dt b_init [d] B -> input dt s x ([n; l], X) ->
    creates dt (vgg_dense dt Rsc e d w_init b_init x) s ([n; d], affine l W B X) [([l; d], W); ([d], B)].
  Proof using.
    intros d w_init b_init n l W B s x X Hn Hl Hd HW HB I.
    exact (C62_dense dt Rsc e noop2 d w_init b_init n l W B (fun Y => Y) s x X ltac:(lia)
      (engine_real e n l d Hn Hl ltac:(lia)) HW HB (acts_noop dt _) I).
  Qed.

  Lemma vgg_softmax_creates : forall n k s x X, input dt s x ([n; k], X) ->
    creates dt (vgg_softmax dt Rsc exp eps x) s ([n; k], arg2 (fun i => softmax_fn eps k (fun j => X [i; j]))) [].
  Proof using.
    intros n k s x X I. unfold vgg_softmax. eapply creates_ext.
    - apply (C72_activation dt (op_softmax dt Rsc exp 2 eps) [n; k]
        (fun ix => softmax_fn eps k (row X (removelast ix)) (last ix 0)) s x X I).
      intros s2 y F H E M D. destruct I as (_ & N & Ex & _). cbn [fst] in N, Ex.
      apply (C33_value dt eps y x [n] k X s2); auto. unfold dims_ok. rewrite Ex. exact N.
    - intros ix Hix. apply valid_2 in Hix. destruct Hix as (i & j & -> & Hi & Hj). reflexivity.
  Qed.

  (** *** Sequences of layers. *)
  Context (p : string -> tensor -> M V unit) (W B : string -> list Z -> R).

  Definition param_ok (name : string) (ws : list Z) (d : Z) : Prop :=
    1 <= d < 2 ^ 32 /\ fills dt (p (name ++ "_W")%string) ws (W name) /\ fills dt (p (name ++ "_b")%string) [d] (B name).

  Fixpoint convs_ok (h w c : Z) (b : list (Z * string)) : Prop :=
    match b with
    | [] => True
    | (d, name) :: b => h * w * c <= 2 ^ 31 /\ param_ok name [3; 3; c; d] d /\ convs_ok h w d b
    end.
  Definition chan (c : Z) (b : list (Z * string)) : Z := fold_left (fun _ u => fst u) b c.
  Fixpoint blocks_ok (h w c : Z) (bs : list (list (Z * string))) : Prop :=
    match bs with
    | [] => True
    | b :: bs => b <> [] /\ convs_ok h w c b /\ blocks_ok (h / 2) (w / 2) (chan c b) bs
    end.
  Fixpoint hidden_ok (n : Z) (hs : list (Z * string)) : Prop :=
    match hs with
    | [] => True
    | (d, name) :: hs => param_ok name [n; d] d /\ hidden_ok d hs
    end.

  Lemma convs_chan : forall h w b c X, fst (convs W B h w c b X) = chan c b.
  Proof using. intros h w b. induction b as [|[d nm] b IH]; intros c X; cbn [convs chan fold_left fst]; [reflexivity|apply IH]. Qed.

  Lemma chan_pos : forall h w b c, 1 <= c -> convs_ok h w c b -> 1 <= chan c b.
  Proof using.
    intros h w b. induction b as [|[d nm] b IH]; intros c Hc H; cbn [chan fold_left fst]; [exact Hc|].
    destruct H as (_ & (Hd & _) & H). apply (IH d); [lia|exact H].
  Qed.

  Lemma seq_app : forall (op : tensor -> M V layer) ls ms, sequential op (ls ++ ms) = sequential (sequential op ls) ms.
  Proof using. intros. unfold sequential. apply fold_left_app. Qed.

  Lemma nonneg4 : forall a b c d, 1 <= a -> 1 <= b -> 1 <= c -> 1 <= d -> Forall (fun d => 0 <= d) [a; b; c; d].
  Proof using. intros. repeat (constructor; [lia|]). constructor. Qed.

  Lemma convs_creates : forall n h w b c op s x X Ws, fresh_ok s ->
    1 <= n -> 1 <= h -> h + 3 < 2 ^ 32 -> 1 <= w -> w + 3 < 2 ^ 32 -> 1 <= c -> convs_ok h w c b ->
    creates dt (op x) s ([n; h; w; c], X) Ws ->
    exists Ws', creates dt (sequential op (map (vgg_unit dt di Rsc e p) b) x) s
      ([n; h; w; chan c b], snd (convs W B h w c b X)) Ws'.
  Proof using.
    intros n h w b. induction b as [|[d nm] b IH]; intros c op s x X Ws F Hn Hh Fh Hw Fw Hc HB Cr.
    - exists Ws. exact Cr.
    - destruct HB as (Hs & (Hd & HW & Hb) & HB). cbn [map]. unfold sequential. cbn [fold_left].
      apply (IH d (composed op (vgg_unit dt di Rsc e p (d, nm))) s x _ [([3; 3; c; d], W nm); ([d], B nm)]); auto; [lia|].
      eapply composed_creates; [exact F| |exact Cr|]; [apply nonneg4; lia|].
      intros s' y I'. apply (vgg_conv_creates d _ _ n h w c (W nm) (B nm) s' y X); auto.
  Qed.

  Lemma convs_pos : forall h w b c X, b <> [] -> forall ix, (0 <= snd (convs W B h w c b X) ix)%R.
  Proof using.
    intros h w b. induction b as [|[d nm] b IH]; intros c X N ix; [contradiction|]. cbn [convs].
    destruct b as [|u b]; [|apply IH; discriminate]. cbn [convs snd]. unfold conv3, arg4. cbv zeta. apply Rmax_l.
  Qed.

  Context (Lo : (lowest <= 0)%R).

  Lemma blocks_creates : forall n bs h w c op s x X Ws, fresh_ok s ->
    1 <= n -> 1 <= h -> h + 3 < 2 ^ 32 -> 1 <= w -> w + 3 < 2 ^ 32 -> 1 <= c -> blocks_ok h w c bs ->
    creates dt (op x) s ([n; h; w; c], X) Ws ->
    ((2 ^ Z.of_nat (List.length bs) | h) -> (2 ^ Z.of_nat (List.length bs) | w) ->
     exists Ws' h' w' c' Y, blocks W B h w c bs X = (h', w', c', Y) /\ 1 <= h' /\ 1 <= w' /\ 1 <= c' /\
       creates dt (sequential op (flat_map (vgg_block dt di Rsc lowest e p) bs) x) s ([n; h'; w'; c'], Y) Ws') /\
    (~ ((2 ^ Z.of_nat (List.length bs) | h) /\ (2 ^ Z.of_nat (List.length bs) | w)) ->
     leaks (sequential op (flat_map (vgg_block dt di Rsc lowest e p) bs) x) s RuntimeError []).
  Proof using Lo.
    intros n bs. induction bs as [|b bs IH]; intros h w c op s x X Ws F Hn Hh Fh Hw Fw Hc HB Cr.
    { split; [intros _ _; exists Ws, h, w, c, X; auto|].
      intros Q. exfalso. apply Q. cbn. split; apply Z.divide_1_l. }
    destruct HB as (Nb & Hcv & HB).
    destruct (convs_creates n h w b c op s x X Ws) as (Ws1 & C1); auto.
    pose proof (chan_pos h w b c Hc Hcv) as Hd. pose proof (convs_chan h w b c X) as Ech.
    cbn [flat_map vgg_block]. unfold vgg_block at 1 3. rewrite <- app_assoc. cbn [app].
    rewrite seq_app. set (op1 := sequential op (map (vgg_unit dt di Rsc e p) b)) in *.
    unfold sequential. cbn [fold_left].
    replace (Z.of_nat (List.length (b :: bs))) with (Z.of_nat (List.length bs) + 1) by (cbn [List.length]; lia).
    rewrite Z.pow_add_r, Z.pow_1_r by lia.
    assert (K : forall a, 1 <= a -> a mod 2 = 0 -> 1 <= a / 2 /\ a = 2 * (a / 2)).
    { intros a Ha E. pose proof (Z.div_mod a 2 ltac:(lia)). lia. }
    assert (D : forall q a, a mod 2 = 0 -> (q * 2 | a) <-> (q | a / 2)).
    { intros q a E. pose proof (Z.div_mod a 2 ltac:(lia)) as Q. split; intros [z Hz]; exists z; nia. }
    assert (D2 : forall q a, (q * 2 | a) -> a mod 2 = 0).
    { intros q a [z ->]. rewrite Z.mul_assoc. apply Z.mod_mul. lia. }
    destruct (Z.eq_dec (h mod 2) 0) as [E1|E1]; [destruct (Z.eq_dec (w mod 2) 0) as [E2|E2]|].
    - pose proof (K h Hh E1) as [Kh1 Kh2]. pose proof (K w Hw E2) as [Kw1 Kw2].
      assert (C2 : creates dt (composed op1 (vgg_pool dt Rsc lowest) x) s
                     ([n; h / 2; w / 2; chan c b], pool2 (snd (convs W B h w c b X))) []).
      { eapply composed_creates; [exact F| |exact C1|]; [apply nonneg4; lia|]. intros s' y I'.
        apply vgg_pool_creates; auto. intros ix _. pose proof (convs_pos h w b c X Nb ix). lra. }
      destruct (IH (h / 2) (w / 2) (chan c b) (composed op1 (vgg_pool dt Rsc lowest)) s x _ [] F Hn Kh1 ltac:(lia) Kw1 ltac:(lia) Hd HB C2)
        as [Q1 Q2]. split.
      + intros Dh Dw. destruct Q1 as (Ws' & h' & w' & c' & Y & EB & R); [apply D; auto|apply D; auto|].
        exists Ws', h', w', c', Y. split; [|exact R]. cbn [blocks].
        destruct (convs W B h w c b X) as [d Y1] eqn:EC. cbn [fst snd] in *. rewrite Ech. exact EB.
      + intros Nd. apply Q2. intros [Dh Dw]. apply Nd. split; apply D; auto.
    - split; [intros _ Dw; apply D2 in Dw; contradiction|]. intros _.
      assert (L : leaks (composed op1 (vgg_pool dt Rsc lowest) x) s RuntimeError []).
      { eapply composed_leaks_second; [exact F| |exact C1|]; [apply nonneg4; lia|]. intros s' y I'.
        eapply vgg_pool_rejects; [| | | | | | |exact I']; auto; lia. }
      revert L. generalize (composed op1 (vgg_pool dt Rsc lowest)) (flat_map (vgg_block dt di Rsc lowest e p) bs). clear.
      intros o ls. revert o. induction ls as [|l ls IH]; intros o L; cbn [fold_left]; [exact L|]. apply IH, composed_leaks_first, L.
    - split; [intros Dh; apply D2 in Dh; contradiction|]. intros _.
      assert (L : leaks (composed op1 (vgg_pool dt Rsc lowest) x) s RuntimeError []).
      { eapply composed_leaks_second; [exact F| |exact C1|]; [apply nonneg4; lia|]. intros s' y I'.
        eapply vgg_pool_rejects; [| | | | | | |exact I']; auto; lia. }
      revert L. generalize (composed op1 (vgg_pool dt Rsc lowest)) (flat_map (vgg_block dt di Rsc lowest e p) bs). clear.
      intros o ls. revert o. induction ls as [|l ls IH]; intros o L; cbn [fold_left]; [exact L|]. apply IH, composed_leaks_first, L.
  Qed.

  Lemma hidden_creates : forall n hs l op s x X Ws, fresh_ok s -> 1 <= n -> 1 <= l -> hidden_ok l hs ->
    creates dt (op x) s ([n; l], X) Ws ->
    exists Ws' d Y, hidden W B l hs X = (d, Y) /\ 1 <= d /\
      creates dt (sequential op (map (vgg_hidden dt Rsc e p) hs) x) s ([n; d], Y) Ws'.
  Proof using.
    intros n hs. induction hs as [|[d nm] hs IH]; intros l op s x X Ws F Hn Hl HB Cr.
    - exists Ws, l, X. auto.
    - destruct HB as ((Hd & HW & Hb) & HB). cbn [map hidden]. unfold sequential. cbn [fold_left].
      apply (IH d (composed op (vgg_hidden dt Rsc e p (d, nm))) s x _ [([l; d], W nm); ([d], B nm)]); auto; [lia|].
      eapply composed_creates; [exact F| |exact Cr|]; [apply nonneg2; lia|].
      intros s' y I'. apply vgg_dense_relu_creates; auto.
  Qed.
End Vgg.
