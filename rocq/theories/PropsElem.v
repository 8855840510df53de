(** Properties C26, C27, C29, C30, C31, C41, C42: matmul gradients, elementwise
    operators, bias, concatenation and contractions. *)
From Coq Require Import ZArith List Bool Lia ZifyBool Ring_theory.
From Verif Require Import Base BaseFacts TensorFacts Traits Scalar LinAlg LinAlgFacts
  SumFacts ConvFacts GradSpec ConvGradFacts Elem ElemSpec ElemFacts ElemGradFacts Demo.
Import ListNotations.
Open Scope Z_scope.
Open Scope model_scope.

(** *** C27: elementwise operators, any rank and shape, output disjoint from
    or identical to each of the inputs. *)
Section Elementwise.
  Context {V T : Type} (dt : dtype V T) (sc : scalar T).

  Theorem C27_pointwise : forall f y x X s,
    dims_ok y -> tdims x = tdims y -> holds dt s x X -> mapped s y -> safe y x ->
    writes dt (op_pointwise dt f y x) s y (fun ix => f (X ix)).
  Proof. intros. unfold op_pointwise. rewrite transform1_flat. apply transform1_writes; auto. Qed.

  Theorem C27_identity : forall y x X s,
    dims_ok y -> tdims x = tdims y -> holds dt s x X -> mapped s y -> safe y x ->
    writes dt (op_identity dt y x) s y X.
  Proof. intros. unfold op_identity. rewrite transform1_flat. apply (transform1_writes dt dt (fun v => v)); auto. Qed.

  Section Binary.
    Context (z x y : tensor) (X Y : list Z -> T) (s : st V).
    Context (Hd : dims_ok z) (Ex : tdims x = tdims z) (Ey : tdims y = tdims z)
      (HX : holds dt s x X) (HY : holds dt s y Y) (HZ : mapped s z) (Sx : safe z x) (Sy : safe z y).

    Theorem C27_add : writes dt (op_add dt sc z x y) s z (fun ix => sadd sc (X ix) (Y ix)).
    Proof using All.
      unfold op_add, binary_pointwise. rewrite transform2_flat.
      apply (transform2_writes dt _ z x y X Y); auto.
    Qed.
    Theorem C27_sub : writes dt (op_sub dt sc z x y) s z (fun ix => ssub sc (X ix) (Y ix)).
    Proof using All.
      unfold op_sub, binary_pointwise. rewrite transform2_flat.
      apply (transform2_writes dt _ z x y X Y); auto.
    Qed.
    Theorem C27_mul : writes dt (op_mul dt sc z x y) s z (fun ix => smul sc (X ix) (Y ix)).
    Proof using All.
      unfold op_mul, binary_pointwise. rewrite transform2_flat.
      apply (transform2_writes dt _ z x y X Y); auto.
    Qed.
    (** The division kernel, where every quotient is defined. *)
    Theorem C27_div : forall Q, (forall ix, valid (tdims z) ix -> sdiv sc (X ix) (Y ix) = Ret (Q ix)) ->
      writes dt (op_div dt sc z x y) s z Q.
    Proof using All.
      intros Q HQ. unfold op_div, binary_pointwise. rewrite transform2_flat.
      apply (transform2_writes dt _ z x y X Y); auto.
    Qed.
    (** axpy; the rank-0 multiplier [a] may even live inside the output: it is
        read before anything is written. *)
    Theorem C27_axpy : forall a A, tdims a = [] -> holds dt s a A ->
      writes dt (op_axpy dt sc z a x y) s z (fun ix => sadd sc (smul sc (A []) (X ix)) (Y ix)).
    Proof using All.
      intros a A Ea HA. unfold op_axpy.
      assert (L : load dt (daddr a 0) s = Ok (A []) s).
      { apply load_ok. pose proof (HA []) as Q. unfold addr in Q. rewrite Ea in Q. apply Q. exact I. }
      eapply writes_ext; [symmetry; apply (bind_ok _ _ _ _ _ L)|reflexivity|].
      rewrite transform2_flat. apply (transform2_writes dt _ z x y X Y); auto.
    Qed.
  End Binary.
End Elementwise.

(** In place: z is x, z is y, and z is both. *)
Example C27_example :
  let s := demo [[1; 2; 3; 4; 5; 6]; [10; 20; 30; 40; 50; 60]; [7; 7; 7; 7; 7; 7]; [3]] in
  let x := T_ 0 [2; 3] in let y := T_ 1 [2; 3] in let z := T_ 2 [2; 3] in
  run (op_add zt Zsc z x y) s z = Some (inits [11; 22; 33; 44; 55; 66]) /\
  run (op_sub zt Zsc x x y) s x = Some (inits [-9; -18; -27; -36; -45; -54]) /\
  run (op_mul zt Zsc y x y) s y = Some (inits [10; 40; 90; 160; 250; 360]) /\
  run (op_add zt Zsc x x x) s x = Some (inits [2; 4; 6; 8; 10; 12]) /\
  run (op_axpy zt Zsc y (T_ 3 []) x y) s y = Some (inits [13; 26; 39; 52; 65; 78]) /\
  run (op_axpy zt Zsc x (mktensor 0 1 []) x y) s x = Some (inits [12; 24; 36; 48; 60; 72]) /\
  run (op_div zt Zsc z y x) s z = Some (inits [10; 10; 10; 10; 10; 10]) /\
  run (op_pointwise zt (fun v => v * v) x x) s x = Some (inits [1; 4; 9; 16; 25; 36]) /\
  op_div zt Zsc z x (T_ 2 [2; 3]) (demo [[1; 2]; [0; 0]; [0; 0]]) = UB.
Proof. repeat split; reflexivity. Qed.

(** *** C26, C29, C31: gradients. *)
Section Gradients.
  Context {V T : Type} (dt : dtype V T) (sc : scalar T) (laws : ring_laws sc).

  (** C26.  [X : m x l], [Y : l x n], [GZ : m x n]. *)
  Theorem C26_matmul : forall e z x y m l n X Y s, engine_ok sc e [m; l; n] ->
    tdims x = [m; l] -> tdims y = [l; n] -> tdims z = [m; n] -> 0 <= m -> 0 <= l -> 0 <= n ->
    holds dt s x X -> holds dt s y Y -> mapped s z -> disjoint z x -> disjoint z y ->
    writes dt (op_matmul dt sc e z x y) s z (matmul_fn sc l X Y).
  Proof using. intros. unfold op_matmul, k_mm. eapply e_mm_writes; eauto. Qed.

  Theorem C26_grad0 : forall e gx gz y m l n GZ Y s, engine_ok sc e [m; n; l] ->
    tdims gx = [m; l] -> tdims gz = [m; n] -> tdims y = [l; n] -> 0 <= m -> 0 <= l -> 0 <= n ->
    holds dt s gz GZ -> holds dt s y Y -> mapped s gx -> disjoint gx gz -> disjoint gx y ->
    exists GX, writes dt (grad_matmul0 dt sc e gx gz y) s gx GX /\
      is_vjp sc [m; n] [m; l] (fun X => matmul_fn sc l X Y) GZ GX.
  Proof using laws.
    intros e gx gz y m l n GZ Y s He Egx Egz Ey Hm Hl Hn HG HY Hx D1 D2.
    eexists. split; [|apply (matmul_vjp0 sc laws)].
    unfold grad_matmul0, k_mmt. apply (e_mmt_writes dt sc e gz y gx m n l GZ Y); auto.
  Qed.

  Theorem C26_grad1 : forall e gy gz x m l n GZ X s, engine_ok sc e [l; m; n] ->
    tdims gy = [l; n] -> tdims gz = [m; n] -> tdims x = [m; l] -> 0 <= m -> 0 <= l -> 0 <= n ->
    holds dt s gz GZ -> holds dt s x X -> mapped s gy -> disjoint gy gz -> disjoint gy x ->
    exists GY, writes dt (grad_matmul1 dt sc e gy gz x) s gy GY /\
      is_vjp sc [m; n] [l; n] (fun Y => matmul_fn sc l X Y) GZ GY.
  Proof using laws.
    intros e gy gz x m l n GZ X s He Egy Egz Ex Hm Hl Hn HG HX Hy D1 D2.
    eexists. split; [|apply (matmul_vjp1 sc laws)].
    unfold grad_matmul1, k_mtm. apply (e_mtm_writes dt sc e x gz gy l m n X GZ); auto.
  Qed.

  (** C29. *)
  Theorem C29_add0 : forall gx gz GZ Y s,
    dims_ok gx -> tdims gz = tdims gx -> holds dt s gz GZ -> mapped s gx -> safe gx gz ->
    exists GX, writes dt (grad_add dt gx gz) s gx GX /\
      is_vjp sc (tdims gz) (tdims gx) (fun X ix => sadd sc (X ix) (Y ix)) GZ GX.
  Proof using laws.
    intros gx gz GZ Y s Hd E HG Hx S. exists GZ. split; [apply C27_identity; auto|].
    rewrite E. apply (add_vjp sc laws).
  Qed.
  Theorem C29_add1 : forall gy gz GZ X s,
    dims_ok gy -> tdims gz = tdims gy -> holds dt s gz GZ -> mapped s gy -> safe gy gz ->
    exists GY, writes dt (grad_add dt gy gz) s gy GY /\
      is_vjp sc (tdims gz) (tdims gy) (fun Y ix => sadd sc (X ix) (Y ix)) GZ GY.
  Proof using laws.
    intros gy gz GZ X s Hd E HG Hx S. exists GZ. split; [apply C27_identity; auto|].
    rewrite E. apply (add_vjp_r sc laws).
  Qed.
  Theorem C29_mul0 : forall gx gz y GZ Y s,
    dims_ok gx -> tdims gz = tdims gx -> tdims y = tdims gx ->
    holds dt s gz GZ -> holds dt s y Y -> mapped s gx -> safe gx gz -> safe gx y ->
    exists GX, writes dt (grad_mul0 dt sc gx gz y) s gx GX /\
      is_vjp sc (tdims gz) (tdims gx) (fun X ix => smul sc (X ix) (Y ix)) GZ GX.
  Proof using laws.
    intros gx gz y GZ Y s Hd E Ey HG HY Hx S Sy. eexists. split.
    - apply (C27_mul dt sc gx gz y GZ Y); auto.
    - rewrite E. apply (mul_vjp sc laws).
  Qed.
  Theorem C29_mul1 : forall gy gz x GZ X s,
    dims_ok gy -> tdims gz = tdims gy -> tdims x = tdims gy ->
    holds dt s gz GZ -> holds dt s x X -> mapped s gy -> safe gy gz -> safe gy x ->
    exists GY, writes dt (grad_mul1 dt sc gy gz x) s gy GY /\
      is_vjp sc (tdims gz) (tdims gy) (fun Y ix => smul sc (X ix) (Y ix)) GZ GY.
  Proof using laws.
    intros gy gz x GZ X s Hd E Ex HG HX Hy S Sx. eexists. split.
    - apply (C27_mul dt sc gy gz x GZ X); auto.
    - rewrite E. apply (mul_vjp_r sc laws).
  Qed.

  (** C31.  With respect to the image, any layout. *)
  Theorem C31_bias0 : forall o gx gz GZ B s,
    dims_ok gx -> tdims gz = tdims gx -> holds dt s gz GZ -> mapped s gx -> safe gx gz ->
    exists GX, writes dt (grad_bias0 dt gx gz) s gx GX /\
      is_vjp sc (tdims gz) (tdims gx) (fun X ix => sadd sc (X ix) (B [nth (bias_position o) ix 0])) GZ GX.
  Proof using laws.
    intros o gx gz GZ B s Hd E HG Hx S. exists GZ. split; [apply C27_identity; auto|].
    rewrite E. apply (add_vjp sc laws).
  Qed.

  (** With respect to the bias, for matrices and for nhwc images. *)
  Theorem C31_bias1_hw : forall gy gz m n GZ X s,
    tdims gz = [m; n] -> tdims gy = [n] -> 0 <= m -> 0 <= n ->
    holds dt s gz GZ -> mapped s gy -> disjoint gy gz ->
    exists GY, writes dt (grad_bias1_hw dt sc gy gz) s gy GY /\
      is_vjp sc [m; n] [n] (fun B ix => sadd sc (X ix) (B [nth (bias_position hw) ix 0])) GZ GY.
  Proof using laws.
    intros gy gz m n GZ X s Ez Ey Hm Hn HG Hy D. eexists. split.
    - unfold grad_bias1_hw. apply (outter_contraction_writes dt sc gy gz m [n] GZ); auto.
      unfold dims_ok. rewrite Ey. repeat constructor; auto.
    - pose proof (bias_vjp_last sc laws [m] n X GZ ltac:(repeat constructor; auto)) as Q.
      intros B dB. etransitivity; [exact (Q B dB)|]. apply (inner_ext sc); auto. intros ix Hix. cbn [prod].
      rewrite Z.mul_1_r. apply sum_over_ext. intros r Hr. apply in_zrange in Hr.
      replace (expand [m] r) with [r]; [reflexivity|].
      assert (Q1 : valid [m] [r]) by (cbn; lia). rewrite <- (expand_offset _ _ Q1). f_equal. cbn. lia.
  Qed.

  Theorem C31_bias1_nhwc : forall gy gz n h w c GZ X s,
    tdims gz = [n; h; w; c] -> tdims gy = [c] -> dims_ok gz ->
    holds dt s gz GZ -> mapped s gy -> disjoint gy gz ->
    exists GY, writes dt (grad_bias1_nhwc dt sc gy gz) s gy GY /\
      is_vjp sc [n; h; w; c] [c] (fun B ix => sadd sc (X ix) (B [nth (bias_position nhwc) ix 0])) GZ GY.
  Proof using laws.
    intros gy gz n h w c GZ X s Ez Ey Dz HG Hy D.
    assert (Nn : nonneg ([n; h; w] ++ [c])) by (unfold dims_ok in Dz; rewrite Ez in Dz; exact Dz).
    apply nonneg_app in Nn. destruct Nn as [N1 N2].
    eexists. split; [|apply (bias_vjp_last sc laws [n; h; w] c X GZ N1)].
    assert (W : writes dt (grad_bias1_nhwc dt sc gy gz) s gy
       (fun ix => sum_over sc (zrange (prod [n; h; w])) (fun i =>
          arg2 (fun a b => GZ (expand [n; h; w] a ++ expand [c] b)) (i :: ix)))).
    { unfold grad_bias1_nhwc. apply (outter_contraction_writes dt sc gy (as_matrix 3 gz) (prod [n; h; w]) [c]
        (arg2 (fun a b => GZ (expand [n; h; w] a ++ expand [c] b)))); auto.
      - rewrite tdims_as_matrix, Ez. cbn [firstn skipn]. do 2 f_equal. cbn. lia.
      - apply prod_nonneg; auto.
      - unfold dims_ok. rewrite Ey. exact N2.
      - pose proof (holds_as_matrix dt s 3 gz GZ) as Q. rewrite Ez in Q. apply Q; auto.
      - intros p Hp Hz. apply (D p); auto. exact (proj1 (foot_as_matrix 3 gz p) Hz). }
    eapply writes_ext; [reflexivity| |exact W]. intros ix Hix. rewrite Ey in Hix.
    apply valid_1 in Hix. destruct Hix as (k & -> & Hk). apply sum_over_ext. intros i Hi.
    unfold arg2; cbn [nth]. do 2 f_equal.
    assert (Q1 : valid [c] [k]) by (cbn; lia). rewrite <- (expand_offset _ _ Q1). f_equal. cbn. lia.
  Qed.
End Gradients.

(** d/dX <GZ, X Y>, d/dY <GZ, X Y> for X = [1 2; 3 4; 5 6], Y = [1 0 2; 0 1 3]. *)
Example C26_example :
  let s := demo [[1; 2; 3; 4; 5; 6]; [1; 0; 2; 0; 1; 3]; [1; 2; 3; 4; 5; 6; 7; 8; 9]; repeat 0 9; repeat 0 6] in
  let x := T_ 0 [3; 2] in let y := T_ 1 [2; 3] in let gz := T_ 2 [3; 3] in
  run (op_matmul zt Zsc Builtin (T_ 3 [3; 3]) x y) s (T_ 3 [3; 3]) = Some (inits [1; 2; 8; 3; 4; 18; 5; 6; 28]) /\
  run (grad_matmul0 zt Zsc Cblas (T_ 4 [3; 2]) gz y) s (T_ 4 [3; 2]) = Some (inits [7; 11; 16; 23; 25; 35]) /\
  run (grad_matmul1 zt Zsc Builtin (T_ 4 [2; 3]) gz x) s (T_ 4 [2; 3]) = Some (inits [48; 57; 66; 60; 72; 84]).
Proof. repeat split; reflexivity. Qed.

Example C29_example :
  let s := demo [[1; 2; 3]; [4; 5; 6]; [10; 20; 30]; [0; 0; 0]] in
  run (grad_add zt (T_ 3 [3]) (T_ 2 [3])) s (T_ 3 [3]) = Some (inits [10; 20; 30]) /\
  run (grad_mul0 zt Zsc (T_ 3 [3]) (T_ 2 [3]) (T_ 1 [3])) s (T_ 3 [3]) = Some (inits [40; 100; 180]) /\
  run (grad_mul1 zt Zsc (T_ 3 [3]) (T_ 2 [3]) (T_ 0 [3])) s (T_ 3 [3]) = Some (inits [10; 40; 90]).
Proof. repeat split; reflexivity. Qed.

Example C31_example :
  let s := demo [[1; 2; 3; 4; 5; 6; 7; 8]; [9; 9]] in
  run (grad_bias1_hw zt Zsc (T_ 1 [2]) (T_ 0 [4; 2])) s (T_ 1 [2]) = Some (inits [16; 20]) /\
  run (grad_bias1_nhwc zt Zsc (T_ 1 [2]) (T_ 0 [2; 1; 2; 2])) s (T_ 1 [2]) = Some (inits [16; 20]).
Proof. split; reflexivity. Qed.

(** *** C30: bias along the channel axis, out of place and in place. *)
Section Bias.
  Context {V T : Type} (dt : dtype V T) (sc : scalar T).

  (** [p] is the position of the channel axis: 1 of a matrix, 3 of an nhwc
      image batch, 1 of an nchw image batch. *)
  Definition bias_layout (o : order) (rank p : nat) : Prop :=
    (o = hw /\ rank = 2%nat /\ p = 1%nat) \/ (o = nhwc /\ rank = 4%nat /\ p = 3%nat) \/
    (o = nchw /\ rank = 4%nat /\ p = 1%nat).

  Lemma bias_op : forall f g o rank p z x b c X B s, bias_layout o rank p ->
    (forall a b, f a b = Ret (g a b)) ->
    dims_ok z -> length (tdims z) = rank -> tdims x = tdims z -> nth p (tdims z) 0 = c -> tdims b = [c] ->
    holds dt s x X -> holds dt s b B -> mapped s z -> safe z x -> disjoint z b ->
    writes dt (op_bias dt o f z x b) s z (fun ix => g (X ix) (B [nth p ix 0])).
  Proof using.
    intros f g o rank p z x b c X B s L Hf Dz Lz Ex Ec Eb HX HB HZ S D.
    assert (P : bias_position o = p) by (destruct L as [(-> & _ & ->)|[(-> & _ & ->)|(-> & _ & ->)]]; reflexivity).
    eapply (op_bias_writes dt o f z x b c X B); eauto.
    - destruct L as [(-> & -> & ->)|[(-> & -> & ->)|(-> & -> & ->)]]; auto.
    - rewrite P. exact Ec.
    - intros ix _. rewrite P. apply Hf.
  Qed.

  Theorem C30_add_bias : forall o rank p z x b c X B s, bias_layout o rank p ->
    dims_ok z -> length (tdims z) = rank -> tdims x = tdims z -> nth p (tdims z) 0 = c -> tdims b = [c] ->
    holds dt s x X -> holds dt s b B -> mapped s z -> safe z x -> disjoint z b ->
    writes dt (op_bias dt o (f_add sc) z x b) s z (fun ix => sadd sc (X ix) (B [nth p ix 0])).
  Proof using. intros. eapply bias_op; eauto. Qed.

  Theorem C30_mul_bias : forall o rank p z x b c X B s, bias_layout o rank p ->
    dims_ok z -> length (tdims z) = rank -> tdims x = tdims z -> nth p (tdims z) 0 = c -> tdims b = [c] ->
    holds dt s x X -> holds dt s b B -> mapped s z -> safe z x -> disjoint z b ->
    writes dt (op_bias dt o (f_mul sc) z x b) s z (fun ix => smul sc (X ix) (B [nth p ix 0])).
  Proof using. intros. eapply bias_op; eauto. Qed.

  (** Shape inference returns the shape of the image exactly when the lengths
      agree and throws otherwise. *)
  Theorem C30_shape : forall o rank p ds c, bias_layout o rank p -> length ds = rank ->
    bias_shape o ds [c] = if nth p ds 0 =? c then Ret ds else Exn RuntimeError.
  Proof using.
    intros o rank p ds c L Hl. unfold bias_shape.
    assert (P : bias_position o = p) by (destruct L as [(-> & _ & ->)|[(-> & _ & ->)|(-> & _ & ->)]]; reflexivity).
    rewrite P. cbn [nth]. destruct (nth p ds 0 =? c); reflexivity.
  Qed.
End Bias.

Example C30_example :
  let s := demo [[1; 2; 3; 4; 5; 6; 7; 8]; [10; 20]; repeat 0 8] in
  run (op_bias zt hw (f_add Zsc) (T_ 0 [4; 2]) (T_ 0 [4; 2]) (T_ 1 [2])) s (T_ 0 [8])
    = Some (inits [11; 22; 13; 24; 15; 26; 17; 28]) /\
  run (op_bias zt nhwc (f_mul Zsc) (T_ 2 [2; 1; 2; 2]) (T_ 0 [2; 1; 2; 2]) (T_ 1 [2])) s (T_ 2 [8])
    = Some (inits [10; 40; 30; 80; 50; 120; 70; 160]) /\
  run (op_bias zt nchw (f_add Zsc) (T_ 2 [2; 2; 1; 2]) (T_ 0 [2; 2; 1; 2]) (T_ 1 [2])) s (T_ 2 [8])
    = Some (inits [11; 12; 23; 24; 15; 16; 27; 28]) /\
  bias_shape nchw [2; 3; 4; 5] [5] = Exn RuntimeError /\ bias_shape nhwc [2; 3; 4; 5] [5] = Ret [2; 3; 4; 5].
Proof. repeat split; reflexivity. Qed.

(** *** C41: concatenation along the channel axis. *)
Section Concat.
  Context {V T : Type} (dt : dtype V T).

  (** Every element of each input is found at its offset position of the
      result, these positions make up the whole result, nothing else changes. *)
  Theorem C41_nchw : forall t x y n c1 c2 h w X Y s,
    tdims x = [n; c1; h; w] -> tdims y = [n; c2; h; w] -> tdims t = [n; c1 + c2; h; w] ->
    dims_ok x -> dims_ok y ->
    holds dt s x X -> holds dt s y Y -> mapped s t -> disjoint t x -> disjoint t y ->
    exists F, writes dt (concat_nchw2 dt t x y) s t F /\
      (forall l k i j, 0 <= k < c1 -> F [l; k; i; j] = X [l; k; i; j]) /\
      (forall l k i j, 0 <= k -> F [l; c1 + k; i; j] = Y [l; k; i; j]).
  Proof using.
    intros t x y n c1 c2 h w X Y s Ex Ey Et Dx Dy HX HY HT D1 D2. eexists.
    split; [eapply (concat_nchw2_writes dt t x y n c1 c2 h w X Y); eauto|].
    split; intros l k i j Hk; unfold arg4; cbn [nth].
    - destruct (Z.ltb_spec k c1); [reflexivity|lia].
    - destruct (Z.ltb_spec (c1 + k) c1); [lia|]. do 3 f_equal. lia.
  Qed.

  Theorem C41_nhwc : forall t x y z n h w c1 c2 c3 X Y Z_ s,
    tdims x = [n; h; w; c1] -> tdims y = [n; h; w; c2] -> tdims z = [n; h; w; c3] ->
    tdims t = [n; h; w; c1 + (c2 + c3)] -> dims_ok x -> dims_ok y -> dims_ok z ->
    holds dt s x X -> holds dt s y Y -> holds dt s z Z_ -> mapped s t ->
    disjoint t x -> disjoint t y -> disjoint t z ->
    exists F, writes dt (concat_nhwc3 dt t x y z) s t F /\
      (forall l i j k, 0 <= k < c1 -> F [l; i; j; k] = X [l; i; j; k]) /\
      (forall l i j k, 0 <= k < c2 -> F [l; i; j; c1 + k] = Y [l; i; j; k]) /\
      (forall l i j k, 0 <= k < c3 -> F [l; i; j; c1 + c2 + k] = Z_ [l; i; j; k]).
  Proof using.
    intros t x y z n h w c1 c2 c3 X Y Z_ s Ex Ey Ez Et Dx Dy Dz HX HY HZ HT D1 D2 D3.
    assert (P2 : 0 <= c2) by (unfold dims_ok in Dy; rewrite Ey, !Forall_cons_iff in Dy; tauto).
    eexists. split; [eapply (concat_nhwc3_writes dt t x y z n h w c1 c2 c3 X Y Z_); eauto|].
    repeat split; intros l i j k Hk; unfold arg4; cbn [nth].
    - destruct (Z.ltb_spec k c1); [reflexivity|lia].
    - destruct (Z.ltb_spec (c1 + k) c1); [lia|]. destruct (Z.ltb_spec (c1 + k) (c1 + c2)); [|lia].
      do 5 f_equal. lia.
    - destruct (Z.ltb_spec (c1 + c2 + k) c1); [lia|]. destruct (Z.ltb_spec (c1 + c2 + k) (c1 + c2)); [lia|].
      do 5 f_equal. lia.
  Qed.
End Concat.

(** Sum of the sizes along axis [p]. *)
Definition total (p : nat) (ss : list (list Z)) : Z := fold_right Z.add 0 (map (fun t => nth p t 0) ss).

Lemma concat2_from_spec : forall p s t i, length t = length s ->
  Forall (fun d => 0 <= d < 2 ^ 32) s ->
  (exists u, concat2_from p i s t = Ret u /\ length u = length s /\
     (forall j, (j < length s)%nat -> (i + j <> p)%nat -> nth j t 0 = nth j s 0 /\ nth j u 0 = nth j s 0) /\
     (forall j, (j < length s)%nat -> (i + j = p)%nat -> nth j u 0 = (nth j s 0 + nth j t 0) mod 2 ^ 32)) \/
  (concat2_from p i s t = Exn RuntimeError /\
   exists j, (j < length s)%nat /\ (i + j <> p)%nat /\ nth j t 0 <> nth j s 0).
Proof.
  intros p. induction s as [|a s IH]; intros [|b t] i Hl Fs; try discriminate.
  - left. exists []. cbn. repeat split; intros; lia.
  - cbn in Hl. injection Hl as Hl. inversion Fs as [|? ? Fa Fs']; subst.
    cbn [concat2_from]. destruct (Nat.eqb_spec i p) as [->|Ne].
    + unfold iadd; cbn [norm obind]. destruct (IH t (S p) Hl Fs') as [(u & E & L & H1 & H2)|(E & j & Hj & Hn & Hd)].
      * left. rewrite E. cbn [obind]. eexists. split; [reflexivity|]. split; [cbn; congruence|].
        split; intros [|j] Hj Hp; cbn in *.
        -- lia.
        -- apply H1; lia.
        -- reflexivity.
        -- lia.
      * right. rewrite E. cbn [obind]. split; [reflexivity|]. exists (S j). cbn. repeat split; auto; lia.
    + unfold ocontract. destruct (Z.eqb_spec a b) as [->|Nab]; cbn [obind].
      * destruct (IH t (S i) Hl Fs') as [(u & E & L & H1 & H2)|(E & j & Hj & Hn & Hd)].
        -- left. rewrite E. cbn [obind]. eexists. split; [reflexivity|]. split; [cbn; congruence|].
           split; intros [|j] Hj Hp; cbn in *.
           ++ auto.
           ++ apply H1; lia.
           ++ lia.
           ++ apply H2; lia.
        -- right. rewrite E. cbn [obind]. split; [reflexivity|]. exists (S j). cbn. repeat split; auto; lia.
      * right. split; [reflexivity|]. exists 0%nat. cbn. repeat split; auto; lia.
Qed.

(** Shapes agree off axis [p]. *)
Definition agree (p : nat) (s t : list Z) : Prop :=
  forall i, (i < length s)%nat -> i <> p -> nth i t 0 = nth i s 0.

(** Shape inference of n inputs: it throws exactly when two of them differ off
    the channel axis; otherwise the sizes along that axis are added (in
    uint32_t arithmetic) and the other sizes are kept. *)
Theorem C41_shape : forall p ss s,
  Forall (fun t => length t = length s) ss ->
  Forall (Forall (fun d => 0 <= d < 2 ^ 32)) (s :: ss) ->
  (exists u, concat_shape p s ss = Ret u /\ Forall (agree p s) ss /\
     length u = length s /\ agree p s u /\
     ((p < length s)%nat -> nth p u 0 = total p (s :: ss) mod 2 ^ 32)) \/
  (concat_shape p s ss = Exn RuntimeError /\ ~ Forall (agree p s) ss).
Proof.
  intros p. induction ss as [|t ts IH]; intros s Hl Hf.
  - left. exists s. cbn [concat_shape]. split; [reflexivity|]. split; [constructor|].
    split; [reflexivity|]. split.
    + intros i _ _. reflexivity.
    + intros Hp. inversion Hf as [|? ? Fs _]; subst. rewrite Forall_forall in Fs.
      unfold total; cbn [map fold_right]. rewrite Z.add_0_r, Z.mod_small; auto. apply Fs. apply nth_In. auto.
  - inversion Hl as [|? ? Ht Hts]; subst. inversion Hf as [|? ? Fs Fts]; subst.
    cbn [concat_shape].
    destruct (IH t) as [(u & E & A & L & Au & P)|(E & N)]; auto.
    + rewrite Ht. exact Hts.
    + rewrite E. cbn [obind]. unfold concat2shapes.
      destruct (concat2_from_spec p s u 0) as [(v & E2 & L2 & H1 & H2)|(E2 & j & Hj & Hn & Hd)]; auto; [congruence| |].
      * left. exists v. split; [exact E2|].
        assert (Q : agree p s t).
        { intros i Hi Hp. rewrite <- (Au i) by congruence. apply H1; auto. }
        split; [|split; [congruence|split]].
        -- constructor; auto. eapply Forall_impl; [|exact A]. intros t' At' i Hi Hp.
           rewrite (At' i) by congruence. apply Q; auto.
        -- intros i Hi Hp. apply H1; auto.
        -- intros Hp. rewrite H2 by auto. rewrite P by congruence.
           change (total p (s :: t :: ts)) with (nth p s 0 + total p (t :: ts)).
           apply Zplus_mod_idemp_r.
      * right. split; [exact E2|]. intros Q. inversion Q as [|? ? Qt Qts]; subst.
        apply Hd. rewrite (Au j); [apply Qt; auto| |exact Hn]. rewrite Ht. exact Hj.
    + right. rewrite E. split; [reflexivity|]. intros Q. inversion Q as [|? ? Qt Qts]; subst. apply N.
      eapply Forall_impl; [|exact Qts]. intros t' At' i Hi Hp. rewrite (Qt i) by congruence. apply At'; congruence.
Qed.

Example C41_example :
  let s := demo [[1; 2; 3; 4]; [5; 6]; repeat 0 6; [7; 8; 9; 10]; repeat 0 10] in
  concat_shape 1 [1; 2; 1; 2] [[1; 1; 1; 2]] = Ret [1; 3; 1; 2] /\
  run (concat_nchw2 zt (T_ 2 [1; 3; 1; 2]) (T_ 0 [1; 2; 1; 2]) (T_ 1 [1; 1; 1; 2])) s (T_ 2 [6])
    = Some (inits [1; 2; 3; 4; 5; 6]) /\
  concat_shape 3 [2; 1; 1; 2] [[2; 1; 1; 1]; [2; 1; 1; 2]] = Ret [2; 1; 1; 5] /\
  run (concat_nhwc3 zt (T_ 4 [2; 1; 1; 5]) (T_ 0 [2; 1; 1; 2]) (T_ 1 [2; 1; 1; 1]) (T_ 3 [2; 1; 1; 2])) s (T_ 4 [10])
    = Some (inits [1; 2; 5; 7; 8; 3; 4; 6; 9; 10]) /\
  concat_shape 3 [2; 1; 1; 2] [[2; 1; 1; 1]; [2; 1; 2; 2]] = Exn RuntimeError.
Proof. repeat split; reflexivity. Qed.

(** *** C42: contractions of a matrix. *)
Section Contractions.
  Context {V T : Type} (dt : dtype V T) (sc : scalar T).

  (** Row sums and column sums, accumulated from 0 in index order. *)
  Theorem C42_inner : forall y x m n X s,
    tdims x = [m; n] -> tdims y = [m] -> 0 <= m -> 0 <= n ->
    holds dt s x X -> mapped s y -> disjoint y x ->
    writes dt (inner_contraction dt sc y x) s y
      (arg1 (fun i => sum_over sc (zrange n) (fun j => X [i; j]))).
  Proof using. exact (inner_contraction_writes dt sc). Qed.

  Theorem C42_outter : forall y x m n X s,
    tdims x = [m; n] -> tdims y = [n] -> 0 <= m -> 0 <= n ->
    holds dt s x X -> mapped s y -> disjoint y x ->
    writes dt (outter_contraction dt sc y x) s y
      (arg1 (fun j => sum_over sc (zrange m) (fun i => X [i; j]))).
  Proof using.
    intros y x m n X s Ex Ey Hm Hn HX HY D. eapply writes_ext; [reflexivity| |].
    2:{ apply (outter_contraction_writes dt sc y x m [n] X); auto.
        unfold dims_ok. rewrite Ey. repeat constructor; auto. }
    intros ix Hix. rewrite Ey in Hix. apply valid_1 in Hix. destruct Hix as (j & -> & _). reflexivity.
  Qed.
End Contractions.

Example C42_example :
  let s := demo [[1; 2; 3; 4; 5; 6]; [9; 9]; [9; 9; 9]] in
  run (inner_contraction zt Zsc (T_ 1 [2]) (T_ 0 [2; 3])) s (T_ 1 [2]) = Some (inits [6; 15]) /\
  run (outter_contraction zt Zsc (T_ 2 [3]) (T_ 0 [2; 3])) s (T_ 2 [3]) = Some (inits [5; 7; 9]).
Proof. split; reflexivity. Qed.

Print Assumptions C26_matmul.
Print Assumptions C26_grad0.
Print Assumptions C26_grad1.
Print Assumptions C27_pointwise.
Print Assumptions C27_identity.
Print Assumptions C27_add.
Print Assumptions C27_sub.
Print Assumptions C27_mul.
Print Assumptions C27_div.
Print Assumptions C27_axpy.
Print Assumptions C29_add0.
Print Assumptions C29_add1.
Print Assumptions C29_mul0.
Print Assumptions C29_mul1.
Print Assumptions C30_add_bias.
Print Assumptions C30_mul_bias.
Print Assumptions C30_shape.
Print Assumptions C31_bias0.
Print Assumptions C31_bias1_hw.
Print Assumptions C31_bias1_nhwc.
Print Assumptions C41_nchw.
Print Assumptions C41_nhwc.
Print Assumptions C41_shape.
Print Assumptions C42_inner.
Print Assumptions C42_outter.
