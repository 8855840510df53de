(** Properties C61, C62, C63, C72, C73, C74: layers and sequential models. *)
From Coq Require Import ZArith List Bool Lia Permutation QArith Reals Lra.
From Verif Require Import Base BaseFacts TensorFacts ActivationFacts Traits TraitsSpec TraitsFacts PropsTraits Scalar Demo LinAlg Conv ConvSpec
  ConvFacts PropsConv Elem ElemSpec ElemFacts PropsElem RealScalar PropsNorm Activation ActivationSpec SoftmaxFacts PropsSoftmax
  Pool PoolSpec PoolFacts PropsPool Io PropsIo Layers LayersSpec LayersFacts LayerCalls.
Import ListNotations.
Open Scope Z_scope.
Open Scope model_scope.

(** *** C61: sequential models. *)
Section Sequential.
  Context {V T : Type} (dt : dtype V T).

  Theorem C61_compose : forall (f g : tensor -> M V layer) A B,
    implements dt f A -> implements dt g B -> implements dt (composed f g) (andthen A B).
  Proof using.
    intros f g A B Hf Hg s x X I [PA PB]. destruct (Hf s x X I PA) as [Cf N]. split.
    - eapply composed_creates; [apply I|exact N|exact Cf|]. intros s' y I'. apply Hg; auto.
    - assert (Q : exists s' y, input dt s' y (out A X)).
      { destruct Cf as (l & s1 & E & G & H & _). exists s1, (output l). split; [apply G|auto]. }
      destruct Q as (s' & y & I'). apply (Hg s' y (out A X)); auto.
  Qed.

  (** Every layer list: the layers are applied from left to right, and the
      result has the weights of the last one. *)
  Theorem C61_sequential : forall op ls A Bs,
    implements dt op A -> Forall2 (implements dt) ls Bs ->
    implements dt (sequential op ls) (fold_left andthen Bs A) /\
    (forall X, out (fold_left andthen Bs A) X = fold_left (fun Y B => out B Y) Bs (out A X)) /\
    (forall X B, wts (fold_left andthen (Bs ++ [B]) A) X = wts B (fold_left (fun Y B => out B Y) Bs (out A X))).
  Proof using.
    intros op ls A Bs HA HB.
    assert (O : forall Bs A (X : content T), out (fold_left andthen Bs A) X = fold_left (fun Y B => out B Y) Bs (out A X)).
    { clear. intros Bs. induction Bs as [|B Bs IH]; intros A X; cbn [fold_left]; [reflexivity|]. rewrite IH. reflexivity. }
    split; [|split; [apply O|]].
    - unfold sequential. revert op A HA. induction HB as [|l B ls Bs Hl HB IH]; intros op A HA; cbn [fold_left]; [exact HA|].
      apply IH. apply C61_compose; auto.
    - intros X B. rewrite fold_left_app. cbn [fold_left andthen wts]. rewrite O. reflexivity.
  Qed.

  (** The precondition of the whole: each layer's on the value it receives. *)
  Theorem C61_pre : forall Bs (A : behaviour T) X,
    pre (fold_left andthen Bs A) X <->
    pre A X /\ forall k B, nth_error Bs k = Some B -> pre B (fold_left (fun Y B => out B Y) (firstn k Bs) (out A X)).
  Proof using.
    intros Bs. induction Bs as [|B Bs IH]; intros A X; cbn [fold_left].
    - split; [|tauto]. intros H. split; auto. intros [|k] B E; discriminate.
    - rewrite IH. cbn [andthen pre out]. split.
      + intros [[PA PB] H]. split; auto. intros [|k] C E; cbn in *; [congruence|auto].
      + intros [PA H]. split; [split; auto; apply (H O); reflexivity|]. intros k C E. apply (H (S k)). exact E.
  Qed.

  (** Grouping does not matter. *)
  Theorem C61_grouping : forall (f g h : tensor -> M V layer) A B C,
    implements dt f A -> implements dt g B -> implements dt h C ->
    implements dt (composed (composed f g) h) (andthen (andthen A B) C) /\
    implements dt (composed f (composed g h)) (andthen (andthen A B) C).
  Proof using.
    intros f g h A B C Hf Hg Hh. split; [apply C61_compose; [apply C61_compose; auto|auto]|].
    pose proof (C61_compose f (composed g h) A (andthen B C) Hf (C61_compose g h B C Hg Hh)) as Q.
    intros s x X I P. apply (Q s x X I). cbn [andthen pre out] in *. tauto.
  Qed.

  (** A layer that throws in the middle of a model: the model throws the same
      exception, everything the earlier layers made is gone. *)
  Theorem C61_fails : forall op ls g rest A Bs s x X e shapes,
    implements dt op A -> Forall2 (implements dt) ls Bs ->
    input dt s x X -> pre (fold_left andthen Bs A) X ->
    (forall s' y, input dt s' y (fold_left (fun Y B => out B Y) Bs (out A X)) -> leaks (g y) s' e shapes) ->
    leaks (sequential op (ls ++ g :: rest) x) s e shapes.
  Proof using.
    intros op ls g rest A Bs s x X e shapes HA HB I P Hg.
    destruct (C61_sequential op ls A Bs HA HB) as (Q & O & _). destruct (Q s x X I P) as [Cr N]. rewrite O in Cr, N.
    assert (L : leaks (composed (sequential op ls) g x) s e shapes).
    { eapply composed_leaks_second; [apply I|exact N|exact Cr|exact Hg]. }
    unfold sequential in *. rewrite fold_left_app. cbn [fold_left]. generalize dependent (composed (fold_left composed ls op) g).
    clear. induction rest as [|r rest IH]; intros k L; cbn [fold_left]; [exact L|]. apply IH. apply composed_leaks_first. exact L.
  Qed.
End Sequential.

(** *** C62: dense and convolution layers. *)
Section Dense.
  Context {V T : Type} (dt : dtype V T) (di : dtype V Z) (sc : scalar T).

  (** The activations. *)
  Lemma acts_noop : forall ds, acts dt noop2 ds (fun Y => Y).
  Proof using.
    intros ds s y Y F E H. exists s. split; [reflexivity|]. split; [exact H|apply only_changes_refl].
  Qed.

  Lemma acts_pointwise : forall f ds, Forall (fun d => 0 <= d) ds -> acts dt (op_pointwise dt f) ds (fun Y ix => f (Y ix)).
  Proof using.
    intros f ds N s y Y F E H. assert (D : dims_ok y) by (unfold dims_ok; rewrite E; exact N).
    apply C27_pointwise; auto; [eapply holds_mapped; eauto|apply safe_refl].
  Qed.

  Theorem C62_dense : forall e act logits w_init b_init m l W B F s x X,
    0 <= logits < 2 ^ 32 -> engine_ok sc e [m; l; logits] ->
    fills dt w_init [l; logits] W -> fills dt b_init [logits] B -> acts dt act [m; logits] F ->
    input dt s x ([m; l], X) ->
    creates dt (dense dt sc e act logits w_init b_init x) s
      ([m; logits], F (arg2 (fun i j => sadd sc (sum_over sc (zrange l) (fun k => smul sc (X [i; k]) (W [k; j]))) (B [j]))))
      [([l; logits], W); ([logits], B)].
  Proof using. intros. apply dense_creates; auto. Qed.

  Definition h_axis (c : conv_conf) (p : padding) : sample := mksample (mkfilter (c_kh c) (c_sh c) (c_rh c)) p.
  Definition w_axis (c : conv_conf) (p : padding) : sample := mksample (mkfilter (c_kw c) (c_sw c) (c_rw c)) p.

  Section Conv.
    Context (e : engine) (c : conv_conf) (act : tensor -> tensor -> M V unit) (w_init b_init : tensor -> M V unit)
      (n h w cin h' w' : Z) (ph pw : padding) (W B : list Z -> T) (F : (list Z -> T) -> list Z -> T).
    Let d := c_filters c.
    Let H := h_axis c ph.
    Let Wd := w_axis c pw.
    (** The paddings come from the policy, and the windows tile the image. *)
    Context (Pad_h : c_pad c (c_kh c) (c_sh c) (c_rh c) h = Ret ph)
            (Pad_w : c_pad c (c_kw c) (c_sw c) (c_rw c) w = Ret pw)
            (Axis_h : axis_ok H h h') (Axis_w : axis_ok Wd w w')
            (Dn : 0 <= n) (Dc : 0 <= cin) (Dd : 0 <= d) (Eng : engine_ok sc e [n; cin; d]).

    Lemma conv_infer_ok : forall io, io = nhwc \/ io = nchw ->
      conv_infer (new_conv_psr ph pw (c_sh c) (c_sw c) (c_rh c) (c_rw c)) io (filter_of io)
        (batched_image_shape io n [h; w] cin) (wd_of io c (batched_image_shape io n [h; w] cin))
      = Ret (batched_image_shape io n [h'; w'] d).
    Proof using Axis_h Axis_w Pad_h Pad_w.
      intros io Hio.
      assert (EH : lconv_len (mklconv ph (c_sh c) (c_rh c)) h (c_kh c) = Ret h').
      { unfold lconv_len, lconv_sample. cbn [lpad lstride lrate]. destruct Axis_h as (K1 & K2 & K3 & R). cbn in K1, K2, K3.
        assert (E : new_sample (c_kh c) (c_sh c) (c_rh c) (left_ ph) (right_ ph) = Ret H).
        { apply new_sample_iff. repeat split; auto. unfold H, h_axis. destruct ph; reflexivity. }
        rewrite E. cbn [obind]. apply axis_len. exact Axis_h. }
      assert (EW : lconv_len (mklconv pw (c_sw c) (c_rw c)) w (c_kw c) = Ret w').
      { unfold lconv_len, lconv_sample. cbn [lpad lstride lrate]. destruct Axis_w as (K1 & K2 & K3 & R). cbn in K1, K2, K3.
        assert (E : new_sample (c_kw c) (c_sw c) (c_rw c) (left_ pw) (right_ pw) = Ret Wd).
        { apply new_sample_iff. repeat split; auto. unfold Wd, w_axis. destruct pw; reflexivity. }
        rewrite E. cbn [obind]. apply axis_len. exact Axis_w. }
      unfold conv_infer, wd_of, new_conv_psr. cbn [h_trait w_trait].
      destruct Hio as [-> | ->]; cbn -[lconv_len Z.eqb]; rewrite Z.eqb_refl; cbn [ocontract obind]; rewrite EH, EW; reflexivity.
    Qed.

    Lemma conf_trait_ok : forall io, io = nhwc \/ io = nchw ->
      conf_trait c (image_shape io (batched_image_shape io n [h; w] cin))
      = Ret (new_conv_psr ph pw (c_sh c) (c_sw c) (c_rh c) (c_rw c)).
    Proof using Pad_h Pad_w.
      intros io [-> | ->]; unfold conf_trait; cbn -[new_conv_psr]; rewrite Pad_h; cbn [obind]; rewrite Pad_w; reflexivity.
    Qed.

    Lemma out_nonneg : forall io, Forall (fun d => 0 <= d) (batched_image_shape io n [h'; w'] d).
    Proof using Axis_h Axis_w Dn Dd.
      intros io. pose proof (axis_m _ _ _ Axis_h). pose proof (axis_m _ _ _ Axis_w).
      destruct io; cbn; repeat (constructor; [lia|]); constructor.
    Qed.
    Lemma filter_nonneg : forall io, io = nhwc \/ io = nchw ->
      Forall (fun d => 0 <= d) (wd_of io c (batched_image_shape io n [h; w] cin)).
    Proof using Axis_h Axis_w Dc Dd.
      intros io Hio. destruct Axis_h as (K1 & _). destruct Axis_w as (K2 & _). cbn in K1, K2. unfold wd_of. fold d.
      destruct Hio as [-> | ->]; cbn; repeat (constructor; [lia|]); constructor.
    Qed.

    Definition conv_nhwc_value (X : list Z -> T) : list Z -> T :=
      arg4 (fun l i j t => sum_over sc (indices [c_kh c; c_kw c; cin]) (arg3 (fun u v k =>
        smul sc (zpad (s0 sc) h w (fun p q => X [l; p; q; k]) (wpos H i u) (wpos Wd j v)) (W [u; v; k; t])))).
    Definition conv_nchw_value (X : list Z -> T) : list Z -> T :=
      arg4 (fun l t i j => sum_over sc (indices [cin; c_kh c; c_kw c]) (arg3 (fun k u v =>
        smul sc (W [t; k; u; v]) (zpad (s0 sc) h w (fun p q => X [l; k; p; q]) (wpos H i u) (wpos Wd j v))))).

    Lemma op_nhwc : forall x X s2 f y, h * w * cin <= 2 ^ 31 -> tdims x = [n; h; w; cin] ->
      fresh_ok s2 -> holds dt s2 x X -> holds dt s2 f W -> tdims f = [c_kh c; c_kw c; cin; d] -> tdims y = [n; h'; w'; d] ->
      mapped s2 y -> disjoint y x -> disjoint y f ->
      writes dt (op_conv dt di sc nhwc e (new_conv_psr ph pw (c_sh c) (c_sw c) (c_rh c) (c_rw c)) y x f) s2 y (conv_nhwc_value X).
    Proof using Axis_h Axis_w Dc Dd Dn Eng.
      intros. cbn [op_conv].
      apply (C16_conv_nhwc dt di sc e (new_conv_psr ph pw (c_sh c) (c_sw c) (c_rh c) (c_rw c)) y x f n h w cin (c_kh c) (c_kw c) d h' w');
        auto.
    Qed.
    Lemma op_nchw : forall x X s2 f y, tdims x = [n; cin; h; w] ->
      fresh_ok s2 -> holds dt s2 x X -> holds dt s2 f W -> tdims f = [d; cin; c_kh c; c_kw c] -> tdims y = [n; d; h'; w'] ->
      mapped s2 y -> disjoint y x -> disjoint y f ->
      writes dt (op_conv dt di sc nchw e (new_conv_psr ph pw (c_sh c) (c_sw c) (c_rh c) (c_rw c)) y x f) s2 y (conv_nchw_value X).
    Proof using Axis_h Axis_w Dc Dd Dn Eng.
      intros. cbn [op_conv].
      apply (C17_conv_nchw dt sc e (new_conv_psr ph pw (c_sh c) (c_sw c) (c_rh c) (c_rw c)) y x f n h w cin (c_kh c) (c_kw c) d h' w');
        auto.
      destruct e; [exact I|]. destruct Eng as [L A]. split; auto. inversion A; auto.
    Qed.

    Theorem C62_conv_nhwc : forall s x X, h * w * cin <= 2 ^ 31 ->
      fills dt w_init [c_kh c; c_kw c; cin; d] W -> acts dt act [n; h'; w'; d] F ->
      input dt s x ([n; h; w; cin], X) ->
      creates dt (conv_layer dt di sc e nhwc act c w_init x) s
        ([n; h'; w'; d], F (conv_nhwc_value X)) [([c_kh c; c_kw c; cin; d], W)] /\
      (fills dt b_init [d] B ->
       creates dt (conv_bias_layer dt di sc e nhwc act c w_init b_init x) s
         ([n; h'; w'; d], F (fun ix => sadd sc (conv_nhwc_value X ix) (B [nth 3 ix 0])))
         [([c_kh c; c_kw c; cin; d], W); ([d], B)]).
    Proof using All.
      intros s x X Hsz HW HF I. pose proof (conf_trait_ok nhwc (or_introl eq_refl)) as E1.
      pose proof (conv_infer_ok nhwc (or_introl eq_refl)) as E2. pose proof (filter_nonneg nhwc (or_introl eq_refl)) as N1.
      pose proof (out_nonneg nhwc) as N2.
      assert (Ex : tdims x = [n; h; w; cin]) by (apply I). split.
      - eapply (conv_layer_creates dt di sc e nhwc act c _ w_init [n; h'; w'; d] W _ F s x X [n; h; w; cin]);
          [exact I|exact N1|exact N2|exact E1|exact E2|exact HW|exact HF|]. intros. apply op_nhwc; auto.
      - intros HB. eapply (conv_bias_layer_creates dt di sc e nhwc 3 act c _ w_init b_init [n; h'; w'; d] W B _ F s x X [n; h; w; cin]);
          [right; left; auto|reflexivity|reflexivity|exact Dd|exact I|exact N1|exact N2|exact E1|exact E2|exact HW|exact HB|exact HF|].
        intros. apply op_nhwc; auto.
    Qed.

    Theorem C62_conv_nchw : forall s x X,
      fills dt w_init [d; cin; c_kh c; c_kw c] W -> acts dt act [n; d; h'; w'] F ->
      input dt s x ([n; cin; h; w], X) ->
      creates dt (conv_layer dt di sc e nchw act c w_init x) s
        ([n; d; h'; w'], F (conv_nchw_value X)) [([d; cin; c_kh c; c_kw c], W)] /\
      (fills dt b_init [d] B ->
       creates dt (conv_bias_layer dt di sc e nchw act c w_init b_init x) s
         ([n; d; h'; w'], F (fun ix => sadd sc (conv_nchw_value X ix) (B [nth 1 ix 0])))
         [([d; cin; c_kh c; c_kw c], W); ([d], B)]).
    Proof using All.
      intros s x X HW HF I. pose proof (conf_trait_ok nchw (or_intror eq_refl)) as E1.
      pose proof (conv_infer_ok nchw (or_intror eq_refl)) as E2. pose proof (filter_nonneg nchw (or_intror eq_refl)) as N1.
      pose proof (out_nonneg nchw) as N2.
      assert (Ex : tdims x = [n; cin; h; w]) by (apply I). split.
      - eapply (conv_layer_creates dt di sc e nchw act c _ w_init [n; d; h'; w'] W _ F s x X [n; cin; h; w]);
          [exact I|exact N1|exact N2|exact E1|exact E2|exact HW|exact HF|]. intros. apply op_nchw; auto.
      - intros HB. eapply (conv_bias_layer_creates dt di sc e nchw 1 act c _ w_init b_init [n; d; h'; w'] W B _ F s x X [n; cin; h; w]);
          [right; right; auto|reflexivity|reflexivity|exact Dd|exact I|exact N1|exact N2|exact E1|exact E2|exact HW|exact HB|exact HF|].
        intros. apply op_nchw; auto.
    Qed.
  End Conv.
End Dense.

Print Assumptions C61_compose.
Print Assumptions C61_sequential.
Print Assumptions C61_pre.
Print Assumptions C61_grouping.
Print Assumptions C61_fails.
Print Assumptions C62_dense.
Print Assumptions C62_conv_nhwc.
Print Assumptions C62_conv_nchw.
