(** Property C109: rounding in VGG networks.

    The multiplication is the one built in; std::exp is any function with a
    given relative accuracy; [lowest] is std::numeric_limits<R>::lowest(). *)
From Coq Require Import ZArith List Bool Lia String Reals Lra SpecFloat.
From Coquelicot Require Import Coquelicot.
From Flocq Require Import Core BinarySingleNaN.
From Verif Require Import Base BaseFacts TensorFacts Scalar RealScalar SumFacts LinAlg LinAlgFacts ConvSpec Elem Activation ActivationSpec SoftmaxFacts Demo Utility
  Layers LayersSpec LayersFacts LayerCalls PropsLayers PropsLayers2 Vgg VggSpec VggFacts
  Backprop BackpropSpec Float FloatSpec FloatFacts FloatNan FloatSumSpec FloatSoftSpec FloatSoftFacts PropsFloat PropsFloatSum
  StableSpec StableFacts NetFloatSpec NetFloatFacts PropsNetFloat VggFloatSpec VggFloatFacts.
Import ListNotations.
Open Scope Z_scope.
Open Scope model_scope.

Section VggFloat.
  Context {V : Type} (prec emax : Z) {Hprec : Prec_gt_0 prec} {Hmax : Prec_lt_emax prec emax}.
  Notation flt := (binary_float prec emax).
  Context (dt : dtype V flt) (di : dtype V Z) (exp_ : flt -> flt) (eps lowest : flt)
    (p : string -> tensor -> M V unit) (W B : string -> list Z -> flt) (A D : string -> R).
  Notation sc := (Fsc prec emax).
  Notation rW := (fun name => reals prec emax (W name)).
  Notation rB := (fun name => reals prec emax (B name)).

  (** Any VGG network: [n] images, blocks [bs], hidden layers [hs], classes [k].
      The exact images are [x0]; those of the program differ by at most [e]. *)
  Theorem C109_network : forall d bs hs k m n h w c M e s x X x0,
    is_finite eps = true -> (B2R eps <= 1)%R ->
    is_finite lowest = true -> (forall v : flt, is_finite v = true -> B2R lowest <= B2R v)%R ->
    1 <= n -> 1 <= h -> h + 3 < 2 ^ 32 -> 1 <= w -> w + 3 < 2 ^ 32 -> 1 <= c -> 0 <= m < 2 ^ 31 ->
    (2 ^ Z.of_nat (List.length bs) | h) -> (2 ^ Z.of_nat (List.length bs) | w) ->
    (forall c0, In c0 (c :: map fst (List.concat bs)) -> h * w * c0 <= 2 ^ 31) ->
    let qs := net_params h w c bs hs k in
    (forall q, In q qs -> stored prec emax dt p W B A D q) -> vgg_room prec emax A D d exp_ qs (fst k) M ->
    input dt s x ([n; h; w; c], X) -> (0 <= M)%R -> (0 <= e)%R ->
    finite_on prec emax [n; h; w; c] X -> bounded [n; h; w; c] M (reals prec emax X) ->
    close [n; h; w; c] e (reals prec emax X) x0 ->
    exists y z s' L P, vgg_model dt di sc exp_ eps lowest Builtin p bs hs k m x s = Ok (y, z) s' /\
      grown s s' [y; z] /\ tdims y = [m] /\ tdims z = [m] /\ Z.of_nat (List.length L) = Z.min (fst k) m /\
      (forall q i, nth_error L q = Some i ->
         cells s' (addr y [Z.of_nat q]) = Init (emb dt (P i)) /\ cells s' (addr z [Z.of_nat q]) = Init (emb di i)) /\
      lists_top (fst k) (fun i => B2R (P i)) L /\
      let exact := softmax_fn (B2R eps) (fst k) (fun j => scores rW rB h w c bs hs k x0 [0; j]) in
      let err := vgg_error prec emax A D d qs (fst k) M e in
      (forall i, 0 <= i < fst k -> is_finite (P i) = true /\ (Rabs (B2R (P i) - exact i) <= err)%R) /\
      (** Classes whose exact probabilities differ by more than twice that are
          listed in the order of the exact network. *)
      (forall i j q, 0 <= i < fst k -> (exact j + 2 * err < exact i)%R -> nth_error L q = Some j ->
         exists r, (r < q)%nat /\ nth_error L r = Some i) /\
      (forall i, leads (fst k) exact (2 * err) i -> 1 <= m -> nth_error L 0 = Some i).
  Proof using Hprec Hmax.
    intros d bs hs k m n h w c M e s x X x0 Fe Le Fl Ll Hn Hh Fh Hw Fw Hc Hm Dh Dw HS qs HQ [HR HX] I HM He FX BX CX.
    assert (G : good prec emax [n; h; w; c] M e X x0) by (repeat split; auto).
    pose proof I as (F & _). unfold qs, net_params in HQ, HR, HX. cbv zeta in HQ, HR, HX.
    rewrite chain_room_app in HR. destruct HR as [R1 R2].
    destruct (blocks_float prec emax exp_ eps lowest Fe Le Fl Ll dt di p W B A D n bs h w c (identity_layer dt) s x X x0 [] M e
      F Hn Hh Fh Hw Fw Hc Dh Dw HS (fun q Hq => HQ q (in_or_app _ _ _ (or_introl Hq))) R1 (C72_identity dt _ s x X I) G)
      as (Ws & h' & w' & c' & Y & Y0 & Hh' & Hw' & Hc' & Ef & EB & (l5 & s1 & E1 & G1 & H1 & _) & GY).
    rewrite <- Ef in HQ, R2, HX.
    assert (I1 : input dt s1 (as_matrix 1 (output l5)) ([n; h' * w' * c'], flat_float prec emax h' w' c' Y)).
    { apply (flat_input prec emax exp_ eps lowest Fe Le Fl Ll dt di); auto. split; [apply G1|]. split; [apply nonneg4; lia|exact H1]. }
    pose proof (flat_step prec emax exp_ eps lowest Fe Le Fl Ll n h' w' c' Y Y0 _ _ Hh' Hw' Hc' GY) as GF.
    rewrite chain_size_app in HX.
    pose proof (dense_float_run prec emax exp_ eps lowest Fe Le Fl Ll dt di p W B A D d n (h' * w' * c') hs k s1 (as_matrix 1 (output l5))
      (flat_float prec emax h' w' c' Y) (flattened h' w' c' Y0) _ _ Hn ltac:(nia)
      (fun q Hq => HQ q (in_or_app _ _ _ (or_intror Hq))) R2 HX I1 GF) as Q2. cbv zeta in Q2.
    unfold scores. rewrite EB. destruct (hidden rW rB (h' * w' * c') hs (flattened h' w' c' Y0)) as [l2 Y2] eqn:EH.
    destruct Q2 as (Z & (out & s2 & E2 & G2 & [D2 H2] & _) & GZ). cbn [fst snd] in D2, H2.
    destruct (HQ (mkparams (snd k) [last_size (h' * w' * c') hs] (fst k))
      ltac:(apply in_or_app; right; apply in_or_app; right; left; reflexivity)) as (Hk & _). cbn [p_outs] in Hk.
    set (P := fun i => Z [0; i]).
    assert (FP : forall i, 0 <= i < fst k -> is_finite (P i) = true).
    { intros i Hi. apply GZ. cbn. lia. }
    destruct (top_float prec emax exp_ eps lowest Fe Le Fl Ll dt di m (fst k) P (sub (output out) 0) s2)
      as (y & z & s3 & L & E3 & G3 & Dy & Dz & Ln & LT & Wr);
      [apply G2|lia|lia|rewrite (tdims_sub _ _ _ _ D2); reflexivity| |exact FP|].
    { eapply holds_ext; [|eapply (holds_sub dt s2 (output out) _ 0 n [fst k] D2); [lia|exact H2]].
      intros ix Hix. rewrite (tdims_sub _ _ _ _ D2) in Hix. destruct ix as [|i [|? ?]]; cbn in Hix; try tauto. }
    pose proof (grown_release s1 s2 s3 (owned out) [y; z] ltac:(apply G1) G2 G3) as G4.
    pose proof (grown_release s s1 _ (owned l5) [y; z] F G1 G4) as G5.
    exists y, z, (destroy l5 (destroy out s3)), L, P. split.
    { unfold vgg_model, with_layer. unfold conv_layers. rewrite E1, E2, E3. reflexivity. }
    split; [exact G5|]. split; [exact Dy|]. split; [exact Dz|]. split; [exact Ln|]. split.
    { assert (K : forall s0 s1 s2 ts us t (q : loc), grown s0 s1 ts -> grown s1 s2 us -> In t us -> fst q = tblk t ->
         cells (release ts s2) q = cells (s2 : st V) q).
      { clear. intros s0 s1 s2 ts us t q (F1 & N1 & D1 & A1 & C1) (F2 & N2 & D2 & A2 & C2) It Eq. apply release_out. intros J.
        apply in_map_iff in J. destruct J as (v & Ev & Iv). rewrite List.Forall_forall in A1, A2. specialize (A1 v Iv). specialize (A2 t It). lia. }
      intros q i En. destruct (Wr q i En) as [W1 W2]. unfold destroy. split.
      - rewrite (K s s1 _ (owned l5) [y; z] y) by (auto; left; auto). rewrite (K s1 s2 _ (owned out) [y; z] y) by (auto; left; auto). exact W1.
      - rewrite (K s s1 _ (owned l5) [y; z] z) by (auto; right; left; auto).
        rewrite (K s1 s2 _ (owned out) [y; z] z) by (auto; right; left; auto). exact W2. }
    split; [exact LT|].
    set (exact := softmax_fn (B2R eps) (fst k) (fun j => affine l2 (rW (snd k)) (rB (snd k)) Y2 [0; j])).
    set (err := vgg_error prec emax A D d qs (fst k) M e).
    assert (CP : forall i, 0 <= i < fst k -> (Rabs (B2R (P i) - exact i) <= err)%R).
    { intros i Hi. destruct GZ as (_ & _ & _ & _ & CZ). specialize (CZ [0; i] ltac:(cbn; lia)).
      unfold err, vgg_error, qs, net_params. cbv zeta. rewrite <- Ef, chain_error_app, chain_size_app. exact CZ. }
    assert (Lt : forall i j, 0 <= i < fst k -> 0 <= j < fst k -> (exact j + 2 * err < exact i)%R -> (B2R (P j) < B2R (P i))%R).
    { intros i j Hi Hj H. pose proof (CP i Hi) as Ci. pose proof (CP j Hj) as Cj. apply Rabs_le_inv in Ci. apply Rabs_le_inv in Cj. lra. }
    destruct LT as (ND & InL & Ord & Out).
    assert (Od : forall i j q, 0 <= i < fst k -> (exact j + 2 * err < exact i)%R -> nth_error L q = Some j ->
         exists r, (r < q)%nat /\ nth_error L r = Some i).
    { intros i j q Hi H En. pose proof (nth_error_In _ _ En) as Ij. pose proof (Lt i j Hi (InL j Ij) H) as LP.
      destruct (in_dec Z.eq_dec i L) as [Ii|Ni].
      - apply In_nth_error in Ii. destruct Ii as (r & Er). exists r. split; [|exact Er].
        destruct (Nat.lt_trichotomy r q) as [?|[->|Hrq]]; [assumption| |].
        + rewrite En in Er. injection Er as ->. lra.
        + destruct (Ord q r j i Hrq En Er) as [?|[? _]]; lra.
      - destruct (Out j i Ij Hi Ni) as [?|[? _]]; lra. }
    split; [intros i Hi; split; [apply FP; exact Hi|apply CP; exact Hi]|]. split; [exact Od|].
    intros i [Hi Ld] H1m. destruct (nth_error L 0) as [j|] eqn:E0; [|apply nth_error_None in E0; lia].
    destruct (Z.eq_dec j i) as [->|Nj]; [reflexivity|]. exfalso.
    pose proof (InL j (nth_error_In _ _ E0)) as Hj.
    destruct (Od i j 0%nat Hi (Ld j Hj Nj) E0) as (r & Hr & _). lia.
  Qed.
End VggFloat.

(** The sixteen layers with parameters of VGG16, for images of h x w pixels. *)
Theorem C109_layers : forall h w,
  let conv name c d := mkparams name [3; 3; c] d in let dense name l d := mkparams name [l] d in
  net_params h w 3 vgg_d_blocks vgg_d_hidden vgg_d_classes =
  [ conv "conv1_1" 3 64; conv "conv1_2" 64 64;
    conv "conv2_1" 64 128; conv "conv2_2" 128 128;
    conv "conv3_1" 128 256; conv "conv3_2" 256 256; conv "conv3_3" 256 256;
    conv "conv4_1" 256 512; conv "conv4_2" 512 512; conv "conv4_3" 512 512;
    conv "conv5_1" 512 512; conv "conv5_2" 512 512; conv "conv5_3" 512 512;
    dense "fc6" (h / 32 * (w / 32) * 512) 4096; dense "fc7" 4096 4096; dense "fc8" 4096 1000 ]%string.
Proof. intros h w. reflexivity. Qed.

Section Vgg16.
  Context {V : Type} (prec emax : Z) {Hprec : Prec_gt_0 prec} {Hmax : Prec_lt_emax prec emax}.
  Notation flt := (binary_float prec emax).
  Context (dt : dtype V flt) (di : dtype V Z) (exp_ : flt -> flt) (eps lowest : flt)
    (p : string -> tensor -> M V unit) (W B : string -> list Z -> flt) (A D : string -> R).

  Theorem C109_vgg16 : forall d m n h w M e s x X x0,
    is_finite eps = true -> (B2R eps <= 1)%R ->
    is_finite lowest = true -> (forall v : flt, is_finite v = true -> B2R lowest <= B2R v)%R ->
    1 <= n -> 1 <= h -> 1 <= w -> (32 | h) -> (32 | w) -> h * w * 512 <= 2 ^ 31 -> 0 <= m < 2 ^ 31 ->
    let qs := net_params h w 3 vgg_d_blocks vgg_d_hidden vgg_d_classes in
    (forall q, In q qs -> stored prec emax dt p W B A D q) -> vgg_room prec emax A D d exp_ qs 1000 M ->
    input dt s x ([n; h; w; 3], X) -> (0 <= M)%R -> (0 <= e)%R ->
    finite_on prec emax [n; h; w; 3] X -> bounded [n; h; w; 3] M (reals prec emax X) ->
    close [n; h; w; 3] e (reals prec emax X) x0 ->
    exists y z s' L P, vgg16_model dt di (Fsc prec emax) exp_ eps lowest Builtin p m x s = Ok (y, z) s' /\
      grown s s' [y; z] /\ tdims y = [m] /\ tdims z = [m] /\ Z.of_nat (List.length L) = Z.min 1000 m /\
      (forall q i, nth_error L q = Some i ->
         cells s' (addr y [Z.of_nat q]) = Init (emb dt (P i)) /\ cells s' (addr z [Z.of_nat q]) = Init (emb di i)) /\
      lists_top 1000 (fun i => B2R (P i)) L /\
      let exact := softmax_fn (B2R eps) 1000 (fun j =>
        scores (fun nm => reals prec emax (W nm)) (fun nm => reals prec emax (B nm)) h w 3 vgg_d_blocks vgg_d_hidden vgg_d_classes x0 [0; j]) in
      let err := vgg_error prec emax A D d qs 1000 M e in
      (forall i, 0 <= i < 1000 -> is_finite (P i) = true /\ (Rabs (B2R (P i) - exact i) <= err)%R) /\
      (forall i j q, 0 <= i < 1000 -> (exact j + 2 * err < exact i)%R -> nth_error L q = Some j ->
         exists r, (r < q)%nat /\ nth_error L r = Some i) /\
      (forall i, leads 1000 exact (2 * err) i -> 1 <= m -> nth_error L 0 = Some i).
  Proof using Hprec Hmax.
    intros d m n h w M e s x X x0 Fe Le Fl Ll Hn Hh Hw Dh Dw Hs Hm qs HQ HR I HM He FX BX CX.
    assert (Bh : h + 3 < 2 ^ 32) by nia. assert (Bw : w + 3 < 2 ^ 32) by nia.
    apply (C109_network prec emax dt di exp_ eps lowest p W B A D d vgg_d_blocks vgg_d_hidden vgg_d_classes m n h w 3 M e s x X x0); auto; try lia.
    intros c0 Hc. cbn in Hc. assert (0 <= h * w) by nia.
    assert (Q : c0 <= 512) by (repeat destruct Hc as [<-|Hc]; try lia; contradiction). nia.
  Qed.
End Vgg16.

(** Where the probabilities are close, the program can list the classes in the
    wrong order: scores of 2^24 + 1 and 2^24 become equal. *)
Theorem C109_margin_refuted :
  let p (name : string) (t : tensor) : M (float + Z) unit :=
    for_ (zrange (size t)) (fun i => store (dt_inl float Z) (daddr t i)
      (if String.eqb name "o_W" then if i <? 3 then f32 1 0 else f32 0 0 else f32 0 0)) in
  match vgg_model (dt_inl float Z) (dt_inr float Z) F32 (fun _ => f32 1 0) (f32 0 0) (f32 (-16777215) 104) Builtin p [] [] (2, "o"%string) 1
    (T_ 0 [1; 1; 1; 2]) (demo (map (map inl) [[f32 1 24; f32 1 0]])) with
  | Ok (y, z) t => dump t z = [Init (inr 1)] /\ shown1 (Some (dump t y)) = floats [f32 1 (-1)]
  | _ => False
  end /\
  (forall X W B : list Z -> R, X [0; 0; 0; 0] = (2 ^ 24)%R -> X [0; 0; 0; 1] = 1%R ->
     W [0; 0] = 1%R -> W [0; 1] = 1%R -> W [1; 0] = 1%R -> W [1; 1] = 0%R -> B [0] = 0%R -> B [1] = 0%R ->
     let S := scores (fun _ => W) (fun _ => B) 1 1 2 [] [] (2, "o"%string) X in
     (softmax_fn 0 2 (fun j => S [0%Z; j]) 1 < softmax_fn 0 2 (fun j => S [0%Z; j]) 0)%R).
Proof.
  intros p. split; [vm_compute; split; reflexivity|].
  intros X W B X0 X1 W0 W1 W2 W3 B0 B1 S.
  assert (E : forall j, S [0%Z; j] = (0 + X [0%Z; 0%Z; 0%Z; 0%Z] * W [0%Z; j] + X [0%Z; 0%Z; 0%Z; 1%Z] * W [1%Z; j] + B [j])%R) by reflexivity.
  unfold softmax_fn. rewrite !E, X0, X1, W0, W1, W2, W3, B0, B1.
  set (t := rsum 2 _). assert (Pt : (0 < t)%R).
  { apply sum_exp_pos. lia. }
  assert (H : (exp (0 + 2 ^ 24 * 1 + 1 * 0 + 0) < exp (0 + 2 ^ 24 * 1 + 1 * 1 + 0))%R) by (apply exp_increasing; lra).
  assert (Q : forall v, (0 < exp v / t)%R) by (intros v; apply Rdiv_lt_0_compat; [apply exp_pos|exact Pt]).
  rewrite !Rmax_right by (left; apply Q). apply Rmult_lt_compat_r; [apply Rinv_0_lt_compat; exact Pt|exact H].
Qed.

(** softmax of two numbers of at most 1. *)
Lemma soft_small : forall m, (0 <= m <= 1)%R ->
  let exp_ := fun x : float => of_real 24 128 (exp (B2R x)) in let u := unit_roundoff 24 in
  room 24 128 u exp_ (LSoftmax 1 2) (/ 2) 0 m /\ (rounding 24 128 u (LSoftmax 1 2) (/ 2) 0 m <= 15 / 2 ^ 24)%R.
Proof.
  intros m Hm exp_ u.
  assert (U : (u = / 16777216)%R) by (unfold u, unit_roundoff; simpl; lra).
  assert (T : (0 < half_tiny 24 128 <= / 2 ^ 60)%R).
  { unfold half_tiny. pose proof (bpow_gt_0 radix2 (3 - 128 - 24)) as Q. split; [lra|].
    assert (Q2 : (bpow radix2 (3 - 128 - 24) <= bpow radix2 (-60))%R) by (apply bpow_le; lia).
    change (bpow radix2 (-60)) with (/ 1152921504606846976)%R in Q2. lra. }
  assert (BM : (1048576 <= bpow radix2 128)%R) by (change 1048576%R with (bpow radix2 20); apply bpow_le; lia).
  assert (Um : (0 <= u * (2 * m) <= 2 * u)%R) by (rewrite U; lra).
  assert (X1 : (1 - 2 * u <= exp (- (u * (2 * m))))%R) by (pose proof (exp_ineq1_le (- (u * (2 * m)))); lra).
  assert (X2 : (exp (u * (2 * m)) <= / (1 - 2 * u))%R).
  { replace (exp (u * (2 * m))) with (/ exp (- (u * (2 * m))))%R by (rewrite exp_Ropp, Rinv_inv; reflexivity).
    apply Rinv_le_contravar; [lra|exact X1]. }
  assert (X3 : (/ (1 - 2 * u) <= 1 + 3 * u)%R).
  { apply Rmult_le_reg_l with (1 - 2 * u)%R; [lra|]. rewrite Rinv_r by lra. nra. }
  assert (X4 : (exp (- (u * (2 * m))) <= exp 0)%R) by (apply exp_le; lra). rewrite exp_0 in X4.
  assert (X5 : (exp 0 <= exp (u * (2 * m)))%R) by (apply exp_le; lra). rewrite exp_0 in X5.
  set (hi := soft_hi 24 u (2 * m) (Z.to_nat 2)). set (lo := soft_lo 24 u (2 * m) (Z.to_nat 2)).
  assert (Bl : (1 - 5 * u <= lo <= 1)%R).
  { unfold lo, soft_lo. change (Nat.pred (Z.to_nat 2)) with 1%nat. rewrite pow_1. fold u. set (v := exp (- (u * (2 * m)))) in *.
    assert (Y1 : ((1 - u) * (1 - 2 * u) <= (1 - u) * v)%R) by (apply Rmult_le_compat_l; lra).
    assert (Y2 : ((1 - u) * v <= 1)%R) by nra. clearbody v. rewrite U in *. split; nra. }
  assert (Bh : (1 <= hi <= 1 + 6 * u)%R).
  { unfold hi, soft_hi. change (Nat.pred (Z.to_nat 2)) with 1%nat. rewrite pow_1. fold u. set (v := exp (u * (2 * m))) in *. clearbody v. split; [nra|].
    assert (Y1 : ((1 + u) * v <= (1 + u) * (1 + 3 * u))%R) by (apply Rmult_le_compat_l; lra). rewrite U in *. nra. }
  assert (I1 : ((1 + u) / lo <= (1 + 7 * u))%R) by (apply Rle_div_l; [lra|]; nra).
  assert (I2 : (1 - 7 * u <= (1 - u) / hi)%R) by (apply Rle_div_r; [lra|]; nra).
  assert (R1 : (rounding 24 128 u (LSoftmax 1 2) (/ 2) 0 m <= 15 * u)%R).
  { cbn [rounding]. fold u lo hi. lra. }
  split; [|eapply Rle_trans; [exact R1|]; lra]. unfold room. split; [cbn [reach]; lra|]. cbv zeta. fold u lo hi.
  assert (E2 : (exp (2 * m) <= 9)%R).
  { eapply Rle_trans; [apply (exp_le _ (1 + 1)); lra|]. rewrite exp_plus. pose proof exp_le_3. pose proof (exp_pos 1). nra. }
  assert (E0 := exp_pos (2 * m)).
  split; [lra|]. split; [|split; [|split; [|split]]].
  - intros x Fx Hx. apply C101_example; auto. change (unit_roundoff 24) with u in Hx. rewrite U in Hx. lra.
  - unfold in_range. rewrite (Rabs_pos_eq (2 * m)) by lra. change (unit_roundoff 24) with u. rewrite U. lra.
  - change (Nat.pred (Z.to_nat 2)) with 1%nat. rewrite pow_1. lra.
  - assert (hi * (IZR 2 * exp (2 * m)) <= 2 * (2 * 9))%R by (apply Rmult_le_compat; lra). lra.
  - lra.
Qed.

(** A network for images of 2 x 2 pixels: a convolution that copies its input,
    pooling, and the scores v and -v of the largest pixel v. *)
Definition eye (name : string) (ix : list Z) : float :=
  if String.eqb name "a" then match ix with [1; 1; _; _] => f32 1 0 | _ => f32 0 0 end
  else match ix with [_; 0] => f32 1 0 | _ => f32 (-1) 0 end.

Example C109_example : forall V (dt : dtype V float) (di : dtype V Z) (p : string -> tensor -> M V unit) s x X,
  fills dt (p "a_W"%string) [3; 3; 1; 1] (eye "a") -> fills dt (p "a_b"%string) [1] (fun _ => f32 0 0) ->
  fills dt (p "o_W"%string) [1; 2] (eye "o") -> fills dt (p "o_b"%string) [2] (fun _ => f32 0 0) ->
  input dt s x ([1; 2; 2; 1], X) -> finite_on 24 128 [1; 2; 2; 1] X -> bounded [1; 2; 2; 1] (/ 2) (reals 24 128 X) ->
  let v := Rmax (Rmax (Rmax 0 (B2R (X [0; 0; 0; 0]))) (Rmax 0 (B2R (X [0; 0; 1; 0]))))
                (Rmax (Rmax 0 (B2R (X [0; 1; 0; 0]))) (Rmax 0 (B2R (X [0; 1; 1; 0])))) in
  exists y z t i P,
    vgg_model dt di F32 (fun x => of_real 24 128 (exp (B2R x))) (f32 0 0) (f32 (-16777215) 104) Builtin p [[(1, "a")]]%string [] (2, "o"%string) 1 x s
    = Ok (y, z) t /\ cells t (addr y [0]) = Init (emb dt P) /\ cells t (addr z [0]) = Init (emb di i) /\
    (200 / 2 ^ 24 < v -> i = 0%Z /\ Rabs (B2R P - / (1 + exp (- (2 * v)))) <= 30 / 2 ^ 24)%R.
Proof.
  intros V dt di p s x X HaW Hab HoW Hob I FX BX v.
  assert (U : (unit_roundoff 24 = / 16777216)%R) by (unfold unit_roundoff; simpl; lra).
  assert (T : (0 < half_tiny 24 128 <= / 2 ^ 60)%R).
  { unfold half_tiny. pose proof (bpow_gt_0 radix2 (3 - 128 - 24)) as Q. split; [lra|].
    assert (Q2 : (bpow radix2 (3 - 128 - 24) <= bpow radix2 (-60))%R) by (apply bpow_le; lia).
    change (bpow radix2 (-60)) with (/ 1152921504606846976)%R in Q2. lra. }
  assert (BM : (1048576 <= bpow radix2 128)%R) by (change 1048576%R with (bpow radix2 20); apply bpow_le; lia).
  assert (V0 : B2R (f32 0 0) = 0%R) by reflexivity.
  assert (V1 : B2R (f32 1 0) = 1%R) by (cbv -[Rplus Rmult Ropp Rinv IZR]; lra).
  assert (Vn : B2R (f32 (-1) 0) = (-1)%R) by (cbv -[Rplus Rmult Ropp Rinv IZR]; lra).
  set (A := fun _ : string => 1%R). set (D := fun _ : string => 0%R).
  set (W := eye). set (B := fun (_ : string) (_ : list Z) => f32 0 0).
  set (qs := net_params 2 2 1 [[(1, "a")]]%string [] (2, "o"%string)).
  assert (Eq : qs = [mkparams "a" [3; 3; 1] 1; mkparams "o" [1] 2]) by reflexivity.
  assert (SZ : (/ 2 <= chain_size 24 128 A D qs (/ 2) <= 1)%R /\ (0 <= chain_error 24 128 A D qs (/ 2) 0 <= 28 / 2 ^ 24)%R /\
    chain_room 24 128 A D qs (/ 2)).
  { rewrite Eq. cbn [chain_size chain_error chain_room p_name]. unfold params_rounding, dot_bound. cbn [p_ins].
    change (Z.to_nat (prod [3; 3; 1])) with 9%nat. change (Z.to_nat (prod [1])) with 1%nat. unfold A, D. rewrite U. cbn [pow INR].
    cbn [pow] in T. set (g := half_tiny 24 128) in *. clearbody g. repeat split; lra. }
  destruct SZ as ([SZ1 SZ2] & [_ CE] & CR).
  destruct (soft_small (chain_size 24 128 A D qs (/ 2)) ltac:(lra)) as [SR SE].
  assert (FP : forall q, In q qs -> stored 24 128 dt p W B A D q).
  { rewrite Eq. intros q [<-|[<-|[]]]; unfold stored; cbn [p_name p_ins p_outs app].
    - split; [lia|]. split; [exact HaW|]. split; [exact Hab|]. unfold params_ok; cbn [p_name p_ins p_outs app].
      split; [|split; [intros ix _; reflexivity|split; [unfold A; lra|split; [unfold D; lra|split]]]].
      + intros ix Hv. apply valid_4 in Hv. destruct Hv as (i & j & k & l & -> & Hi & Hj & _). unfold W, eye. cbn [String.eqb].
        assert (Ei : i = 0 \/ i = 1 \/ i = 2) by lia. assert (Ej : j = 0 \/ j = 1 \/ j = 2) by lia.
        destruct Ei as [->|[->| ->]], Ej as [->|[->| ->]]; reflexivity.
      + intros ix _. unfold reals, B, D. rewrite V0, Rabs_R0. lra.
      + intros t Ht. change (indices [3; 3; 1]) with [[0;0;0];[0;1;0];[0;2;0];[1;0;0];[1;1;0];[1;2;0];[2;0;0];[2;1;0];[2;2;0]].
        cbv [sum_over fold_left app eye W String.eqb Ascii.eqb Bool.eqb sadd s0 Rsc]. rewrite V0, V1, Rabs_R0, Rabs_R1. unfold A. lra.
    - split; [lia|]. split; [exact HoW|]. split; [exact Hob|]. unfold params_ok; cbn [p_name p_ins p_outs app].
      split; [|split; [intros ix _; reflexivity|split; [unfold A; lra|split; [unfold D; lra|split]]]].
      + intros ix Hv. apply valid_2 in Hv. destruct Hv as (i & j & -> & Hi & Hj). unfold W, eye. cbn [String.eqb].
        assert (Ej : j = 0 \/ j = 1) by lia. destruct Ej as [->| ->]; reflexivity.
      + intros ix _. unfold reals, B, D. rewrite V0, Rabs_R0. lra.
      + intros t Ht. change (indices [1]) with [[0]]. cbv [sum_over fold_left app eye W String.eqb Ascii.eqb Bool.eqb sadd s0 Rsc].
        assert (Et : t = 0 \/ t = 1) by lia. destruct Et as [->| ->]; rewrite ?V1, ?Vn; unfold A, Rabs; destruct Rcase_abs; lra. }
  destruct (C109_network 24 128 dt di (fun x => of_real 24 128 (exp (B2R x))) (f32 0 0) (f32 (-16777215) 104) p W B A D
    (unit_roundoff 24) [[(1, "a")]]%string [] (2, "o"%string) 1 1 2 2 1 (/ 2) 0 s x X (reals 24 128 X))
    as (y & z & t & L & P & E1 & _ & _ & _ & Ln & Wr & _ & Pr & _ & Ld); auto; try lia; try lra.
  - intros q Fq. pose proof (abs_B2R_le_emax_minus_prec 24 128 _ q) as Q. apply Rabs_le_inv in Q.
    assert (El : B2R (f32 (-16777215) 104) = (- (bpow radix2 128 - bpow radix2 (128 - 24)))%R) by (cbv -[Rplus Rmult Ropp Rinv Rminus IZR]; lra).
    rewrite El. lra.
  - exists 1. reflexivity.
  - exists 1. reflexivity.
  - intros c0 Hc. cbn in Hc. lia.
  - split; [exact CR|exact SR].
  - apply close_refl.
  - cbv zeta in Pr, Ld. set (S := scores _ _ _ _ _ _ _ _ _) in Pr, Ld. change (fst (2, "o"%string)) with 2 in *. fold qs in Pr, Ld.
    assert (HC : forall i j, (i = 0 \/ i = 1) -> (j = 0 \/ j = 1) ->
      conv3 2 2 1 (reals 24 128 (W "a"%string)) (reals 24 128 (B "a"%string)) (reals 24 128 X) [0; i; j; 0] = Rmax 0 (B2R (X [0; i; j; 0]))).
    { intros i j Hi Hj. unfold conv3, arg4. cbn [nth].
      change (indices [3; 3; 1]) with [[0;0;0];[0;1;0];[0;2;0];[1;0;0];[1;1;0];[1;2;0];[2;0;0];[2;1;0];[2;2;0]].
      assert (C : forall u v, In (u, v) [(0,0);(0,1);(0,2);(1,0);(1,2);(2,0);(2,1);(2,2)] -> reals 24 128 (W "a"%string) [u; v; 0; 0] = 0%R).
      { intros a b Huv. cbn [In] in Huv. repeat destruct Huv as [E|Huv]; try contradiction; injection E as <- <-; reflexivity. }
      assert (C1 : reals 24 128 (W "a"%string) [1; 1; 0; 0] = 1%R) by exact V1.
      cbn [sum_over fold_left sadd s0 Rsc]. unfold arg3. cbn [nth].
      rewrite C1, !C by (cbn; tauto).
      replace (reals 24 128 (B "a"%string) [0]) with 0%R by (symmetry; exact V0).
      replace (zpad 0%R 2 2 (fun p q => reals 24 128 X [0; p; q; 0]) (i + 1 - 1) (j + 1 - 1)) with (B2R (X [0; i; j; 0])).
      - f_equal. ring.
      - destruct Hi as [->| ->], Hj as [->| ->]; reflexivity. }
    assert (ES : forall j, S [0; j] = (v * reals 24 128 (W "o"%string) [0%Z; j])%R).
    { intros j. unfold S, scores. cbn [blocks convs hidden].
      set (Y := conv3 2 2 1 _ _ _) in *. unfold affine, arg2. cbn [nth].
      change (zrange (2 / 2 * (2 / 2) * 1)) with [0]. cbn [sum_over fold_left sadd s0 Rsc snd].
      replace (reals 24 128 (B "o"%string) [j]) with 0%R by (symmetry; exact V0).
      replace (flattened (2 / 2) (2 / 2) 1 (pool2 Y) [0; 0]) with v; [ring|].
      unfold flattened, pool2, arg2, arg4. cbn [nth].
      change (0 / (2 / 2 * 1)) with 0. change (0 / 1 mod (2 / 2)) with 0. change (0 mod 1) with 0. change (2 * 0) with 0. change (0 + 1) with 1.
      rewrite !HC by auto. reflexivity. }
    assert (ES0 : S [0; 0] = v). { rewrite ES. replace (reals 24 128 (W "o"%string) [0; 0]) with 1%R by (symmetry; exact V1). ring. }
    assert (ES1 : S [0; 1] = (- v)%R). { rewrite ES. replace (reals 24 128 (W "o"%string) [0; 1]) with (-1)%R by (symmetry; exact Vn). ring. }
    assert (Hv : (0 <= v <= / 2)%R).
    { assert (Q : forall i j, (i = 0 \/ i = 1) -> (j = 0 \/ j = 1) -> (B2R (X [0%Z; i; j; 0%Z]) <= / 2)%R).
      { intros i j Hi Hj. eapply Rle_trans; [apply Rle_abs|]. apply BX. cbn [valid]. lia. }
      unfold v. split.
      - eapply Rle_trans; [|apply Rmax_l]. eapply Rle_trans; [|apply Rmax_l]. apply Rmax_l.
      - repeat apply Rmax_lub; try lra; apply Q; auto. }
    set (err := vgg_error 24 128 A D (unit_roundoff 24) qs 2 (/ 2) 0) in *.
    assert (HE : (err <= 30 / 2 ^ 24)%R) by (unfold err, vgg_error; lra).
    destruct L as [|i L]; [cbn in Ln; lia|]. destruct (Wr 0%nat i eq_refl) as [W1 W2].
    exists y, z, t, i, (P i). split; [exact E1|]. split; [exact W1|]. split; [exact W2|]. intros Lv.
    assert (X1 := exp_pos v). assert (X2 := exp_pos (- v)).
    assert (TOT : rsum 2 (fun j => exp (S [0; j])) = (exp v + exp (- v))%R).
    { unfold rsum. change (zrange 2) with [0; 1]. cbn [sum_over fold_left sadd s0 Rsc]. rewrite ES0, ES1. ring. }
    set (ex := softmax_fn (B2R (f32 0 0)) 2 (fun j => S [0; j])) in *.
    assert (P0 : ex 0 = (exp v / (exp v + exp (- v)))%R).
    { unfold ex, softmax_fn. rewrite TOT, V0, ES0. apply Rmax_right. left. apply Rdiv_lt_0_compat; lra. }
    assert (P1 : ex 1 = (exp (- v) / (exp v + exp (- v)))%R).
    { unfold ex, softmax_fn. rewrite TOT, V0, ES1. apply Rmax_right. left. apply Rdiv_lt_0_compat; lra. }
    assert (B1 : (1 + v <= exp v)%R) by apply exp_ineq1_le.
    assert (B2 : (1 - v <= exp (- v))%R) by (pose proof (exp_ineq1_le (- v)); lra).
    assert (B3 : (exp v * exp (- v) = 1)%R) by (rewrite <- exp_plus, Rplus_opp_r; apply exp_0).
    assert (B4 : (exp v <= 2)%R) by nra. assert (B5 : (exp (- v) <= 1 - v / 2)%R) by nra.
    assert (LD : (ex 1%Z + 2 * err < ex 0%Z)%R).
    { rewrite P0, P1. set (a := exp v) in *. set (b := exp (- v)) in *.
      assert (Q : (a / (a + b) = b / (a + b) + (a - b) / (a + b))%R) by (field; lra). rewrite Q.
      assert (v * / 2 <= (a - b) / (a + b))%R; [|lra].
      apply (Rle_div_r (v * / 2) (a - b) (a + b)); [lra|]. assert (Q3 : (v * (a + b) <= v * 3)%R) by (apply Rmult_le_compat_l; lra). clear - Q3 B1 B5. lra. }
    assert (Ei : i = 0).
    { assert (Q : nth_error (i :: L) 0 = Some 0); [|cbn in Q; congruence]. apply Ld; [|lia]. split; [lia|].
      intros k Hk Nk. assert (k = 1) by lia. subst k. exact LD. }
    subst i. split; [reflexivity|]. destruct (Pr 0 ltac:(lia)) as [_ Q]. rewrite P0 in Q.
    replace (/ (1 + exp (- (2 * v))))%R with (exp v / (exp v + exp (- v)))%R; [lra|].
    replace (- (2 * v))%R with (- v + - v)%R by ring. rewrite exp_plus. set (a := exp v) in *. set (b := exp (- v)) in *.
    assert (b = / a)%R by (apply Rmult_eq_reg_l with a; [|lra]; rewrite Rinv_r; lra). rewrite H. field. nra.
Qed.

Print Assumptions C109_network.
Print Assumptions C109_layers.
Print Assumptions C109_vgg16.
Print Assumptions C109_margin_refuted.
