(** Property C108: any BLAS library.

    A library adds the products of an entry in some order and grouping, with or
    without fused multiply-adds; which, may depend on the call and on the state
    of the memory.  C84 and C107 are about the loops that are built in. *)
From Coq Require Import ZArith List Bool Lia Permutation Reals Lra SpecFloat.
From Coquelicot Require Import Coquelicot.
From Flocq Require Import Core BinarySingleNaN.
From Verif Require Import Base BaseFacts Traits TraitsSpec Scalar RealScalar SumFacts TensorFacts LinAlg LinAlgFacts Shapes Conv
  ConvSpec ConvFacts Elem ElemSpec Activation ActivationSpec Utility Backprop BackpropSpec BackpropFacts BackpropRun Demo
  Float FloatSpec FloatFacts FloatNan FloatSumSpec FloatSoftSpec FloatSoftFacts FloatGradSpec PredictSpec PredictFacts
  PropsFloat PropsFloatSum StableSpec StableFacts PropsStable NetFloatSpec NetFloatFacts PropsNetFloat Blas BlasSpec BlasFacts.
Import ListNotations.
Open Scope Z_scope.
Open Scope model_scope.

Section Blas.
  Context {V : Type} (prec emax : Z) {Hprec : Prec_gt_0 prec} {Hmax : Prec_lt_emax prec emax}.
  Context (dt : dtype V (binary_float prec emax)) (di : dtype V Z).
  Notation sc := (Fsc prec emax).
  Notation flt := (binary_float prec emax).
  Context (exp_ : flt -> flt) (eps : flt).

  (** *** One sum *)
  Theorem C108_sum : forall l v, dot_value prec emax l v ->
    (forall p, In p l -> is_finite (fst p) = true /\ is_finite (snd p) = true) ->
    no_overflow prec emax (length l) (dot_abs prec emax l) ->
    is_finite v = true /\ (Rabs (B2R v - dot_R prec emax l) <= dot_bound prec emax (length l) (dot_abs prec emax l))%R.
  Proof using Hprec Hmax. exact (dot_any prec emax). Qed.

  (** *** The products of matrices: forward and the two gradients *)
  Theorem C108_matmul : forall lib e z x y m l n X Y s, sums prec emax lib -> sizes_ok e [m; l; n] ->
    tdims x = [m; l] -> tdims y = [l; n] -> tdims z = [m; n] ->
    holds dt s x X -> holds dt s y Y -> mapped s z -> disjoint z x -> disjoint z y ->
    exists Z, writes dt (op_matmul_lib dt sc lib e z x y) s z Z /\
      forall i j, 0 <= i < m -> 0 <= j < n ->
        (forall k, 0 <= k < l -> is_finite (X [i; k]) = true /\ is_finite (Y [k; j]) = true) ->
        no_overflow prec emax (Z.to_nat l) (sum_over Rsc (zrange l) (fun k => Rabs (B2R (X [i; k]) * B2R (Y [k; j])))) ->
        approximates prec emax (zrange l) (fun k => B2R (X [i; k])) (fun k => B2R (Y [k; j])) (Z [i; j]).
  Proof using Hprec Hmax.
    intros lib e z x y m l n X Y s HS He Ex Ey Ez HX HY HZ D1 D2.
    destruct (l_mm_some dt sc lib (dot_value prec emax) (builtin_sums prec emax) (lib_sums prec emax lib HS) e x y z m l n X Y s)
      as (F & WF & RF); auto.
    exists (arg2 F). split; [exact WF|]. intros i j Hi Hj HF HO.
    apply (pairs_within prec emax (zrange l) (fun k => X [i; k]) (fun k => Y [k; j])); [apply RF| |rewrite length_zrange; exact HO].
    intros k Hk. apply HF, in_zrange, Hk.
  Qed.

  Theorem C108_matmul_grad0 : forall lib e gx gz y m l n GZ Y s, sums prec emax lib -> sizes_ok e [m; n; l] ->
    tdims gx = [m; l] -> tdims gz = [m; n] -> tdims y = [l; n] ->
    holds dt s gz GZ -> holds dt s y Y -> mapped s gx -> disjoint gx gz -> disjoint gx y ->
    exists GX, writes dt (grad_matmul0_lib dt sc lib e gx gz y) s gx GX /\
      forall i j, 0 <= i < m -> 0 <= j < l ->
        (forall k, 0 <= k < n -> is_finite (GZ [i; k]) = true /\ is_finite (Y [j; k]) = true) ->
        no_overflow prec emax (Z.to_nat n) (sum_over Rsc (zrange n) (fun k => Rabs (B2R (GZ [i; k]) * B2R (Y [j; k])))) ->
        approximates prec emax (zrange n) (fun k => B2R (GZ [i; k])) (fun k => B2R (Y [j; k])) (GX [i; j]).
  Proof using Hprec Hmax.
    intros lib e gx gz y m l n GZ Y s HS He Ex Ez Ey HG HY HX D1 D2.
    destruct (l_mmt_some dt sc lib (dot_value prec emax) (builtin_sums prec emax) (lib_sums prec emax lib HS) e gz y gx m n l GZ Y s)
      as (F & WF & RF); auto.
    exists (arg2 F). split; [exact WF|]. intros i j Hi Hj HF HO.
    apply (pairs_within prec emax (zrange n) (fun k => GZ [i; k]) (fun k => Y [j; k])); [apply RF| |rewrite length_zrange; exact HO].
    intros k Hk. apply HF, in_zrange, Hk.
  Qed.

  Theorem C108_matmul_grad1 : forall lib e gy gz x m l n GZ X s, sums prec emax lib -> sizes_ok e [l; m; n] ->
    tdims gy = [l; n] -> tdims gz = [m; n] -> tdims x = [m; l] ->
    holds dt s gz GZ -> holds dt s x X -> mapped s gy -> disjoint gy gz -> disjoint gy x ->
    exists GY, writes dt (grad_matmul1_lib dt sc lib e gy gz x) s gy GY /\
      forall i j, 0 <= i < l -> 0 <= j < n ->
        (forall k, 0 <= k < m -> is_finite (X [k; i]) = true /\ is_finite (GZ [k; j]) = true) ->
        no_overflow prec emax (Z.to_nat m) (sum_over Rsc (zrange m) (fun k => Rabs (B2R (X [k; i]) * B2R (GZ [k; j])))) ->
        approximates prec emax (zrange m) (fun k => B2R (X [k; i])) (fun k => B2R (GZ [k; j])) (GY [i; j]).
  Proof using Hprec Hmax.
    intros lib e gy gz x m l n GZ X s HS He Ey Ez Ex HG HX HY D1 D2.
    destruct (l_mtm_some dt sc lib (dot_value prec emax) (builtin_sums prec emax) (lib_sums prec emax lib HS) e x gz gy l m n X GZ s)
      as (F & WF & RF); auto.
    exists (arg2 F). split; [exact WF|]. intros i j Hi Hj HF HO.
    apply (pairs_within prec emax (zrange m) (fun k => X [k; i]) (fun k => GZ [k; j])); [apply RF| |rewrite length_zrange; exact HO].
    intros k Hk. apply HF, in_zrange, Hk.
  Qed.

  (** *** Matrix times vector, vector times matrix *)
  Theorem C108_mv : forall lib e a b c m n A B s, sums prec emax lib -> sizes_ok e [m; n] ->
    tdims a = [m; n] -> tdims b = [n] -> tdims c = [m] ->
    holds dt s a A -> holds dt s b B -> mapped s c -> disjoint c a -> disjoint c b ->
    exists C, writes dt (l_mv dt sc lib e a b c) s c C /\
      forall i, 0 <= i < m -> (forall j, 0 <= j < n -> is_finite (A [i; j]) = true /\ is_finite (B [j]) = true) ->
        no_overflow prec emax (Z.to_nat n) (sum_over Rsc (zrange n) (fun j => Rabs (B2R (A [i; j]) * B2R (B [j])))) ->
        approximates prec emax (zrange n) (fun j => B2R (A [i; j])) (fun j => B2R (B [j])) (C [i]).
  Proof using Hprec Hmax.
    intros lib e a b c m n A B s HS He Ea Eb Ec HA HB HC D1 D2.
    destruct (l_mv_some dt sc lib (dot_value prec emax) (builtin_sums prec emax) (lib_sums prec emax lib HS) e a b c m n A B s)
      as (F & WF & RF); auto.
    exists (arg1 F). split; [exact WF|]. intros i Hi HF HO.
    apply (pairs_within prec emax (zrange n) (fun k => A [i; k]) (fun k => B [k])); [apply RF| |rewrite length_zrange; exact HO].
    intros k Hk. apply HF, in_zrange, Hk.
  Qed.

  Theorem C108_vm : forall lib e a b c m n A B s, sums prec emax lib -> sizes_ok e [m; n] ->
    tdims a = [m] -> tdims b = [m; n] -> tdims c = [n] ->
    holds dt s a A -> holds dt s b B -> mapped s c -> disjoint c a -> disjoint c b ->
    exists C, writes dt (l_vm dt sc lib e a b c) s c C /\
      forall j, 0 <= j < n -> (forall i, 0 <= i < m -> is_finite (A [i]) = true /\ is_finite (B [i; j]) = true) ->
        no_overflow prec emax (Z.to_nat m) (sum_over Rsc (zrange m) (fun i => Rabs (B2R (A [i]) * B2R (B [i; j])))) ->
        approximates prec emax (zrange m) (fun i => B2R (A [i])) (fun i => B2R (B [i; j])) (C [j]).
  Proof using Hprec Hmax.
    intros lib e a b c m n A B s HS He Ea Eb Ec HA HB HC D1 D2.
    destruct (l_vm_some dt sc lib (dot_value prec emax) (builtin_sums prec emax) (lib_sums prec emax lib HS) e a b c m n A B s)
      as (F & WF & RF); auto.
    exists (arg1 F). split; [exact WF|]. intros j Hj HF HO. destruct (RF j) as [R|R].
    - apply (pairs_within prec emax (zrange m) (fun k => A [k]) (fun k => B [k; j])); [exact R| |rewrite length_zrange; exact HO].
      intros k Hk. apply HF, in_zrange, Hk.
    - assert (E1 : sum_over Rsc (zrange m) (fun i => Rabs (B2R (A [i]) * B2R (B [i; j])))
        = sum_over Rsc (zrange m) (fun i => Rabs (B2R (B [i; j]) * B2R (A [i]))))
        by (apply sum_over_ext; intros; rewrite Rmult_comm; reflexivity).
      assert (E2 : sum_over Rsc (zrange m) (fun i => B2R (A [i]) * B2R (B [i; j]))%R
        = sum_over Rsc (zrange m) (fun i => B2R (B [i; j]) * B2R (A [i]))%R)
        by (apply sum_over_ext; intros; apply Rmult_comm).
      unfold approximates. rewrite E1, E2.
      apply (pairs_within prec emax (zrange m) (fun k => B [k; j]) (fun k => A [k])); [exact R| |rewrite length_zrange, <- E1; exact HO].
      intros k Hk. apply and_comm, HF, in_zrange, Hk.
  Qed.

  (** *** Convolution in both layouts, the gradients of its filter and its image *)
  Theorem C108_conv : forall lib e C z x y n h w c r s d h' w' X Y st,
    let H := axis_of (h_trait C) r in let W := axis_of (w_trait C) s in
    sums prec emax lib -> axis_ok H h h' -> axis_ok W w w' -> h * w * c <= 2 ^ 31 -> sizes_ok e [n; c; d] ->
    tdims x = [n; h; w; c] -> tdims y = [r; s; c; d] -> tdims z = [n; h'; w'; d] ->
    fresh_ok st -> holds dt st x X -> holds dt st y Y -> mapped st z -> disjoint z y ->
    exists Z, writes dt (conv_nhwc_lib dt di sc lib e C z x y) st z Z /\
      forall l i j t, valid [n; h'; w'; d] [l; i; j; t] ->
        let a := arg3 (fun u v k => zpad (s0 sc) h w (fun p q => X [l; p; q; k]) (wpos H i u) (wpos W j v)) in
        let b := arg3 (fun u v k => Y [u; v; k; t]) in
        let taps := indices [r; s; c] in
        (forall ix, valid [r; s; c] ix -> is_finite (a ix) = true /\ is_finite (b ix) = true) ->
        no_overflow prec emax (length taps) (sum_over Rsc taps (fun ix => Rabs (B2R (a ix) * B2R (b ix)))) ->
        approximates prec emax taps (fun ix => B2R (a ix)) (fun ix => B2R (b ix)) (Z [l; i; j; t]).
  Proof using Hprec Hmax.
    intros lib e C z x y n h w c r s d h' w' X Y st H W HS AH AW Hsz He Ex Ey Ez Hf HX HY HZ D.
    destruct (conv_nhwc_some dt di sc lib (dot_value prec emax) (builtin_sums prec emax) (lib_sums prec emax lib HS)
      e C z x y n h w c r s d h' w' X Y st) as (Z & WZ & RZ); auto.
    exists Z. split; [exact WZ|]. intros l i j t Hv a b taps HF HO. apply (pairs_within prec emax taps a b); [| |exact HO].
    - exact (RZ _ Hv).
    - intros ix Hix. apply HF, in_indices, Hix.
  Qed.

  Theorem C108_conv_grad : forall lib e C gy gz x n h w c r s d h' w' GZ X st,
    let H := axis_of (h_trait C) r in let W := axis_of (w_trait C) s in
    sums prec emax lib -> axis_ok H h h' -> axis_ok W w w' -> sizes_ok e [n; c; d] ->
    tdims x = [n; h; w; c] -> tdims gy = [r; s; c; d] -> tdims gz = [n; h'; w'; d] ->
    fresh_ok st -> holds dt st gz GZ -> holds dt st x X -> mapped st gy -> disjoint gy gz ->
    exists Z, writes dt (conv_grad_y_lib dt sc lib e C gy gz x) st gy Z /\
      forall u v k t, valid [r; s; c; d] [u; v; k; t] ->
        let a := arg3 (fun l i j => zpad (s0 sc) h w (fun p q => X [l; p; q; k]) (wpos H i u) (wpos W j v)) in
        let b := arg3 (fun l i j => GZ [l; i; j; t]) in
        let outs := indices [n; h'; w'] in
        (forall ix, valid [n; h'; w'] ix -> is_finite (a ix) = true /\ is_finite (b ix) = true) ->
        no_overflow prec emax (length outs) (sum_over Rsc outs (fun ix => Rabs (B2R (a ix) * B2R (b ix)))) ->
        approximates prec emax outs (fun ix => B2R (a ix)) (fun ix => B2R (b ix)) (Z [u; v; k; t]).
  Proof using Hprec Hmax.
    intros lib e C gy gz x n h w c r s d h' w' GZ X st H W HS AH AW He Ex Ey Ez Hf HG HX HY D.
    destruct (conv_grad_y_some dt sc lib (dot_value prec emax) (builtin_sums prec emax) (lib_sums prec emax lib HS)
      e C gy gz x n h w c r s d h' w' GZ X st) as (Z & WZ & RZ); auto.
    exists Z. split; [exact WZ|]. intros u v k t Hv a b outs HF HO. apply (pairs_within prec emax outs a b); [| |exact HO].
    - exact (RZ _ Hv).
    - intros ix Hix. apply HF, in_indices, Hix.
  Qed.

  Theorem C108_conv_nchw : forall lib e C z x y n h w c r s d h' w' X Y st,
    let H := axis_of (h_trait C) r in let W := axis_of (w_trait C) s in
    sums prec emax lib -> axis_ok H h h' -> axis_ok W w w' -> sizes_ok e [n; c; d] ->
    tdims x = [n; c; h; w] -> tdims y = [d; c; r; s] -> tdims z = [n; d; h'; w'] ->
    fresh_ok st -> holds dt st x X -> holds dt st y Y -> mapped st z -> disjoint z x -> disjoint z y ->
    exists Z, writes dt (conv_nchw_lib dt sc lib e C z x y) st z Z /\
      forall l t i j, valid [n; d; h'; w'] [l; t; i; j] ->
        let a := arg3 (fun k u v => Y [t; k; u; v]) in
        let b := arg3 (fun k u v => zpad (s0 sc) h w (fun p q => X [l; k; p; q]) (wpos H i u) (wpos W j v)) in
        let taps := indices [c; r; s] in
        (forall ix, valid [c; r; s] ix -> is_finite (a ix) = true /\ is_finite (b ix) = true) ->
        no_overflow prec emax (length taps) (sum_over Rsc taps (fun ix => Rabs (B2R (a ix) * B2R (b ix)))) ->
        approximates prec emax taps (fun ix => B2R (a ix)) (fun ix => B2R (b ix)) (Z [l; t; i; j]).
  Proof using Hprec Hmax.
    intros lib e C z x y n h w c r s d h' w' X Y st H W HS AH AW He Ex Ey Ez Hf HX HY HZ D1 D2.
    destruct (conv_nchw_some dt sc lib (dot_value prec emax) (builtin_sums prec emax) (lib_sums prec emax lib HS)
      e C z x y n h w c r s d h' w' X Y st) as (Z & WZ & RZ); auto.
    exists Z. split; [exact WZ|]. intros l t i j Hv a b taps HF HO. apply (pairs_within prec emax taps a b); [| |exact HO].
    - exact (RZ _ Hv).
    - intros ix Hix. apply HF, in_indices, Hix.
  Qed.

  Theorem C108_conv_grad_image : forall lib e C gx gz y n h w c r s d h' w' GZ Y st,
    let H := axis_of (h_trait C) r in let W := axis_of (w_trait C) s in
    sums prec emax lib -> axis_ok H h h' -> axis_ok W w w' -> sizes_ok e [n; c; d] ->
    tdims gx = [n; h; w; c] -> tdims y = [r; s; c; d] -> tdims gz = [n; h'; w'; d] ->
    fresh_ok st -> holds dt st gz GZ -> holds dt st y Y -> mapped st gx ->
    exists GX, writes dt (conv_grad_x_lib dt sc lib e C gx gz y) st gx GX /\
      forall l p q k, valid [n; h; w; c] [l; p; q; k] ->
        let cover := List.filter (arg4 (fun i j a b => (wpos H i a =? p) && (wpos W j b =? q))) (indices [h'; w'; r; s]) in
        let f := fun ix t => arg4 (fun i j a b => GZ [l; i; j; t]) ix in
        let g := fun ix t => arg4 (fun i j a b => Y [a; b; k; t]) ix in
        let T := sum_over Rsc cover (fun ix => sum_over Rsc (zrange d) (fun t => Rabs (B2R (f ix t) * B2R (g ix t)))) in
        let bound := sumdot_bound prec emax (Z.to_nat d) (length cover) T in
        (forall ix t, In ix cover -> 0 <= t < d -> is_finite (f ix t) = true /\ is_finite (g ix t) = true) ->
        (T + bound < bpow radix2 emax)%R ->
        within prec emax bound
          (sum_over Rsc cover (fun ix => sum_over Rsc (zrange d) (fun t => B2R (f ix t) * B2R (g ix t))%R)) (GX [l; p; q; k]).
  Proof using Hprec Hmax.
    intros lib e C gx gz y n h w c r s d h' w' GZ Y st H W HS AH AW He Ex Ey Ez Hf HZ HY HX.
    destruct (conv_grad_x_some dt sc lib (dot_value prec emax) (builtin_sums prec emax) (lib_sums prec emax lib HS)
      e C gx gz y n h w c r s d h' w' GZ Y st) as (GX & U & WX & EX & RU); auto.
    exists GX. split; [exact WX|]. intros l p q k Hv cover f g T bound HF HO. rewrite (EX l p q k Hv). fold cover.
    pose proof (sumdot_any prec emax cover (zrange d) f g (arg4 (fun i j a b => U [l; i; j; a; b; k]))) as S.
    cbv zeta in S. rewrite length_zrange in S. fold T in S. apply S; [| |exact HO].
    - intros ix Hix. apply filter_In in Hix. destruct Hix as [Hix _]. apply in_indices in Hix.
      apply valid_4 in Hix. destruct Hix as (i & j & a & b & -> & Hi & Hj & Ha & Hb).
      cbn [valid] in Hv. apply (RU l i j a b k). cbn [valid]. lia.
    - intros ix t Hi Ht. apply in_zrange in Ht. auto.
  Qed.

  (** *** Networks: the bounds of C107 *)
  Theorem C108_network : forall lib d net d0 E P X x A B m e s, sums prec emax lib -> net_ok d0 net ->
    nodes_ok (infer_nodes d0 net) E -> nodes_mapped (infer_nodes d0 net) E s ->
    holds dt s (E (Out 0)) X -> params_held dt E s 0 net P ->
    is_finite eps = true -> (B2R eps <= 1)%R -> (0 <= m)%R -> (0 <= e)%R ->
    finite_on prec emax d0 X -> bounded d0 m (reals prec emax X) -> close d0 e (reals prec emax X) x ->
    all_weights_ok prec emax 0 net P B -> gains 0 net (fun i => reals prec emax (P i)) A ->
    net_room prec emax d exp_ 0 net A B m ->
    exists t Z, net_lib dt di sc exp_ eps lib E 0 net s = Ok tt t /\ holds dt t (E (Out (length net))) Z /\
      finite_on prec emax (net_out d0 net) Z /\
      close (net_out d0 net) (net_error prec emax d 0 net A B m e) (reals prec emax Z)
        (net_fn (B2R eps) 0 net (fun i => reals prec emax (P i)) x).
  Proof using Hprec Hmax.
    intros lib d net d0 E P X x A B m e s HS H OK HM HX HP Fe Le Hm He FX BX CX HW HG HR.
    destruct (net_run_some prec emax exp_ eps dt di lib E HS net 0 d0 P X s H OK HM HX HP) as (t & Z & E1 & W & RZ & _).
    exists t, Z. split; [exact E1|]. split; [exact W|]. apply (net_rounding_any prec emax exp_ eps d net 0 d0 P X); auto.
  Qed.

  Theorem C108_prediction : forall lib (dn : dtype V Z) N d net d0 E P X x A B m e n k c s, sums prec emax lib -> net_ok d0 net ->
    net_out d0 net = [n; k] -> 0 < it_bits N -> k - 1 <= it_max N -> 1 <= k ->
    nodes_ok (infer_nodes d0 net) E -> nodes_mapped (infer_nodes d0 net) E s ->
    holds dt s (E (Out 0)) X -> params_held dt E s 0 net P ->
    is_finite eps = true -> (B2R eps <= 1)%R -> (0 <= m)%R -> (0 <= e)%R ->
    finite_on prec emax d0 X -> bounded d0 m (reals prec emax X) -> close d0 e (reals prec emax X) x ->
    all_weights_ok prec emax 0 net P B -> gains 0 net (fun i => reals prec emax (P i)) A ->
    net_room prec emax d exp_ 0 net A B m ->
    tdims c = [n] -> mapped s c -> (forall i, disjoint c (E (Out i))) ->
    exists t J,
      (net_lib dt di sc exp_ eps lib E 0 net ;;; op_argmax dn N dt sc 1 c (E (Out (length net)))) s = Ok tt t /\
      holds dn t c J /\
      forall i j, 0 <= i < n ->
        leads k (fun q => net_fn (B2R eps) 0 net (fun i => reals prec emax (P i)) x [i; q])
          (2 * net_error prec emax d 0 net A B m e) j ->
        J [i] = j.
  Proof using Hprec Hmax.
    intros lib dn N d net d0 E P X x A B m e n k c s HS H Eo Hb HN Hk OK HM HX HP Fe Le Hm He FX BX CX HW HG HR Ec Mc Dc.
    assert (Nn : 0 <= n).
    { pose proof (net_nodes_nonneg net 0 d0 (Out (length net)) [n; k] H) as Q. rewrite <- Eo in Q.
      specialize (Q (used_last net 0 d0)). rewrite Eo in Q. inversion Q; auto. }
    destruct (predict_some prec emax exp_ eps dt di dn N lib E HS net d0 P X n k c s H Eo Hb HN Hk Nn OK HM HX HP Ec Mc Dc)
      as (t & Z & E1 & RZ & W1).
    exists t. eexists. split; [exact E1|]. split; [exact W1|]. intros i j Hi L. cbv beta.
    destruct (net_rounding_any prec emax exp_ eps d net 0 d0 P X Z x A B m e) as (F & C); auto. rewrite Eo in F, C.
    rewrite (scan_float prec emax) by (auto; intros q Hq; apply F; cbn; lia).
    apply (first_unique k (fun q => B2R (row Z [i] q))); [apply scan_first; exact Hk|].
    apply leads_first. set (err := net_error prec emax d 0 net A B m e) in *.
    apply (leads_weaken k _ (2 * err - 2 * err) 0 j); [lra|].
    eapply leads_close; [|exact L]. intros q Hq. rewrite Rabs_minus_sym. apply (C [i; q]). cbn; lia.
  Qed.

  (** Two libraries, e.g. on two machines: the results differ by at most twice
      the bound, and where one of them leads by more than four times the bound,
      the other predicts the same class. *)
  Theorem C108_libraries : forall lib lib' (dn : dtype V Z) N d net d0 E P X A B m n k c s,
    sums prec emax lib -> sums prec emax lib' -> net_ok d0 net ->
    net_out d0 net = [n; k] -> 0 < it_bits N -> k - 1 <= it_max N -> 1 <= k ->
    nodes_ok (infer_nodes d0 net) E -> nodes_mapped (infer_nodes d0 net) E s ->
    holds dt s (E (Out 0)) X -> params_held dt E s 0 net P ->
    is_finite eps = true -> (B2R eps <= 1)%R -> (0 <= m)%R ->
    finite_on prec emax d0 X -> bounded d0 m (reals prec emax X) ->
    all_weights_ok prec emax 0 net P B -> gains 0 net (fun i => reals prec emax (P i)) A ->
    net_room prec emax d exp_ 0 net A B m ->
    tdims c = [n] -> mapped s c -> (forall i, disjoint c (E (Out i))) ->
    let b := (2 * net_error prec emax d 0 net A B m 0)%R in
    exists t t' t'' Z Z' J,
      net_lib dt di sc exp_ eps lib E 0 net s = Ok tt t /\ holds dt t (E (Out (length net))) Z /\
      net_lib dt di sc exp_ eps lib' E 0 net s = Ok tt t' /\ holds dt t' (E (Out (length net))) Z' /\
      close [n; k] b (reals prec emax Z) (reals prec emax Z') /\
      (net_lib dt di sc exp_ eps lib' E 0 net ;;; op_argmax dn N dt sc 1 c (E (Out (length net)))) s = Ok tt t'' /\
      holds dn t'' c J /\
      forall i j, 0 <= i < n -> leads k (fun q => B2R (Z [i; q])) (2 * b) j -> J [i] = j.
  Proof using Hprec Hmax.
    intros lib lib' dn N d net d0 E P X A B m n k c s HS HS' H Eo Hb HN Hk OK HM HX HP Fe Le Hm FX BX HW HG HR Ec Mc Dc b.
    destruct (C108_network lib d net d0 E P X (reals prec emax X) A B m 0 s) as (t & Z & E1 & W1 & F1 & C1); auto; try lra.
    { apply close_refl. }
    destruct (C108_network lib' d net d0 E P X (reals prec emax X) A B m 0 s) as (t' & Z' & E2 & W2 & F2 & C2); auto; try lra.
    { apply close_refl. }
    destruct (C108_prediction lib' dn N d net d0 E P X (reals prec emax X) A B m 0 n k c s) as (t'' & J & E3 & W3 & L3); auto; try lra.
    { apply close_refl. }
    exists t, t', t'', Z, Z', J. repeat (split; [eassumption|]). rewrite Eo in C1, C2. split.
    - intros ix Hv. specialize (C1 ix Hv). specialize (C2 ix Hv). apply Rabs_le_2 in C1. apply Rabs_le_2 in C2.
      apply Rabs_le_2. unfold b. lra.
    - split; [exact E3|]. split; [exact W3|]. intros i j Hi L. apply L3; auto.
      apply (leads_weaken k _ (2 * b - 2 * net_error prec emax d 0 net A B m 0) _ j); [unfold b; lra|].
      eapply leads_close; [|exact L]. intros q Hq. cbv beta. apply (C1 [i; q]). cbn; lia.
  Qed.

  (** *** Integers: the same result with every library *)
  Theorem C108_integers : forall lib e z x y m l n X Y A B s, sums prec emax lib -> sizes_ok e [m; l; n] ->
    tdims x = [m; l] -> tdims y = [l; n] -> tdims z = [m; n] ->
    holds dt s x X -> holds dt s y Y -> mapped s z -> disjoint z x -> disjoint z y ->
    exists Z, writes dt (op_matmul_lib dt sc lib e z x y) s z Z /\
      forall i j, 0 <= i < m -> 0 <= j < n ->
        (forall k, 0 <= k < l -> integral prec emax (X [i; k]) (A i k) /\ integral prec emax (Y [k; j]) (B k j)) ->
        sum_over Zsc (zrange l) (fun k => Z.abs (A i k * B k j)) <= 2 ^ prec ->
        integral prec emax (Z [i; j]) (sum_over Zsc (zrange l) (fun k => A i k * B k j)).
  Proof using Hprec Hmax.
    intros lib e z x y m l n X Y A B s HS He Ex Ey Ez HX HY HZ D1 D2.
    destruct (l_mm_some dt sc lib (dot_value prec emax) (builtin_sums prec emax) (lib_sums prec emax lib HS) e x y z m l n X Y s)
      as (F & WF & RF); auto.
    exists (arg2 F). split; [exact WF|]. intros i j Hi Hj HI HO. unfold arg2; cbn [nth].
    set (zi := fun v : flt => Ztrunc (B2R v)).
    assert (Q : forall v a, integral prec emax v a -> zi v = a) by (intros v a [_ Ev]; unfold zi; rewrite Ev; apply Ztrunc_IZR).
    assert (QK : forall k, In k (zrange l) -> zi (X [i; k]) = A i k /\ zi (Y [k; j]) = B k j).
    { intros k Hk. apply in_zrange in Hk. destruct (HI k Hk) as [I1 I2]. split; apply Q; assumption. }
    pose proof (dot_any_exact prec emax _ _ (RF i j) (fun p => zi (fst p)) (fun p => zi (snd p))) as G.
    rewrite !sum_over_map in G. cbn [fst snd] in G.
    rewrite (sum_over_ext Zsc (zrange l) (fun k => zi (X [i; k]) * zi (Y [k; j])) (fun k => A i k * B k j)) in G.
    2: { intros k Hk. destruct (QK k Hk) as [-> ->]. reflexivity. }
    apply G.
    - intros p Hp. apply in_map_iff in Hp. destruct Hp as (k & <- & Hk). cbn [fst snd]. destruct (QK k Hk) as [-> ->].
      apply HI, in_zrange, Hk.
    - rewrite (sum_over_ext Zsc (zrange l) (fun k => Z.abs (zi (X [i; k]) * zi (Y [k; j]))) (fun k => Z.abs (A i k * B k j))); [exact HO|].
      intros k Hk. destruct (QK k Hk) as [-> ->]. reflexivity.
  Qed.
End Blas.

(** *** The engine of the other properties is the library that adds in increasing
    order, over any type of numbers; rounded, it is one of the above. *)
Section InOrder.
  Context {V T : Type} (dt : dtype V T) (di : dtype V Z) (sc : scalar T) (exp_ : T -> T) (eps : T).

  Theorem C108_in_order :
    (forall e z x y s, op_matmul_lib dt sc (in_order sc) e z x y s = op_matmul dt sc e z x y s) /\
    (forall e gx gz y s, grad_matmul0_lib dt sc (in_order sc) e gx gz y s = grad_matmul0 dt sc e gx gz y s) /\
    (forall e gy gz x s, grad_matmul1_lib dt sc (in_order sc) e gy gz x s = grad_matmul1 dt sc e gy gz x s) /\
    (forall e C z x y s, conv_nhwc_lib dt di sc (in_order sc) e C z x y s = conv_nhwc dt di sc e C z x y s) /\
    (forall e C gy gz x s, conv_grad_y_lib dt sc (in_order sc) e C gy gz x s = conv_grad_y dt sc e C gy gz x s) /\
    (forall e C z x y s, conv_nchw_lib dt sc (in_order sc) e C z x y s = conv_nchw dt sc e C z x y s) /\
    (forall e C gx gz y s, conv_grad_x_lib dt sc (in_order sc) e C gx gz y s = conv_grad_x dt sc e C gx gz y s) /\
    (forall a b c s, l_mv dt sc (in_order sc) Cblas a b c s = cblas_mv dt sc a b c s) /\
    (forall a b c s, l_vm dt sc (in_order sc) Cblas a b c s = cblas_vm dt sc a b c s) /\
    (forall E net k s, net_lib dt di sc exp_ eps (in_order sc) E k net s = forward_from dt di sc exp_ eps E k net s).
  Proof using.
    repeat split; intros.
    - apply l_mm_in_order.
    - apply l_mmt_in_order.
    - apply l_mtm_in_order.
    - apply conv_nhwc_in_order.
    - apply conv_grad_y_in_order.
    - apply conv_nchw_in_order.
    - apply conv_grad_x_in_order.
    - apply gemv_in_order.
    - apply gemv_in_order.
    - apply net_in_order.
  Qed.
End InOrder.

Theorem C108_in_order_sums : forall V prec emax (Hprec : Prec_gt_0 prec) (Hmax : Prec_lt_emax prec emax),
  sums (V := V) prec emax (in_order (Fsc prec emax)).
Proof. intros V prec emax Hprec Hmax s c l. apply builtin_sums. Qed.

(** *** Examples *)

(** A library that adds from the last product to the first with fused
    multiply-adds, and one with an accumulator for each half. *)
Definition backwards {V} : library V float :=
  fun _ _ l => fold_right (fun p v => Bfma mode_NE (fst p) (snd p) v) (B754_zero false) l.
Definition halves {V} : library V float :=
  fun s c l => let k := Nat.div (length l) 2 in
    Bplus mode_NE (in_order F32 s c (firstn k l)) (in_order F32 s c (skipn k l)).

Lemma backwards_sums {V} : sums (V := V) 24 128 backwards.
Proof.
  intros s c l. unfold backwards. induction l as [|[a b] l IH]; [apply dot_nil|]. cbn [fold_right fst snd]. apply dot_fma. exact IH.
Qed.
Lemma halves_sums {V} : sums (V := V) 24 128 halves.
Proof.
  intros s c l. unfold halves. rewrite <- (firstn_skipn (Nat.div (length l) 2) l) at 1.
  apply dot_add; apply C108_in_order_sums.
Qed.

(** 2^24 + 1 + 1 - 2^24: 0, 2 and 1. *)
Definition cancel (lib : library float float) : option (list (option spec_float)) :=
  shown (run (op_matmul_lib ft F32 lib Cblas (T_ 2 [1; 1]) (T_ 0 [1; 4]) (T_ 1 [4; 1]))
    (demo [[f32 1 24; f32 1 0; f32 1 0; f32 (-1) 24]; [f32 1 0; f32 1 0; f32 1 0; f32 1 0]; [f32 9 0]]) (T_ 2 [1; 1])).

Example C108_example : cancel (in_order F32) = floats [f32 0 0] /\ cancel backwards = floats [f32 2 0] /\ cancel halves = floats [f32 1 0].
Proof. repeat split; vm_compute; reflexivity. Qed.

(** Two libraries need not agree, so bounds are all that can be said; beyond
    2^prec the sums of integers depend on the library, too (the absolute values
    add up to 2^25 + 2 here). *)
Theorem C108_order_refuted :
  exists lib lib' : library float float, sums 24 128 lib /\ sums 24 128 lib' /\ cancel lib <> cancel lib'.
Proof.
  exists (in_order F32), backwards. split; [apply C108_in_order_sums|]. split; [apply backwards_sums|].
  destruct C108_example as (-> & -> & _). vm_compute. discriminate.
Qed.

(** The products of an entry are all that [sums] constrains; a library that
    drops one of them is none. *)
Example C108_sums_example : ~ sums (V := float) 24 128 (fun s c l => in_order F32 s c (tl l)).
Proof.
  intros H. specialize (H (demo []) (mkcall false false 1 1 1 (0, 0) 1 (0, 0) 1 (0, 0) 1 0 0) [(f32 1 0, f32 1 0)]).
  destruct (C108_sum 24 128 _ _ H) as [_ Q].
  - intros p [<-|[]]. split; reflexivity.
  - unfold no_overflow, dot_bound, dot_abs. cbn [length sum_over fold_left sadd s0 Rsc fst snd]. destruct pair_values as (_ & -> & _).
    replace (0 + Rabs (1 * 1))%R with 1%R by (rewrite Rmult_1_l, Rabs_R1; ring).
    assert (M : (bpow radix2 20 <= bpow radix2 128)%R) by (apply bpow_le; lia).
    assert (T : (half_tiny 24 128 <= 1)%R).
    { unfold half_tiny. assert (Q2 : (bpow radix2 (3 - 128 - 24) <= bpow radix2 0)%R) by (apply bpow_le; lia). simpl (bpow radix2 0) in Q2. lra. }
    assert (U : (unit_roundoff 24 = / 16777216)%R) by (unfold unit_roundoff; simpl; lra). rewrite U.
    simpl (bpow radix2 20) in M. cbn [pow INR]. lra.
  - revert Q. unfold dot_bound, dot_abs, dot_R. cbn [length sum_over fold_left sadd s0 Rsc fst snd tl in_order]. destruct pair_values as (_ & -> & _).
    replace (0 + Rabs (1 * 1))%R with 1%R by (rewrite Rmult_1_l, Rabs_R1; ring).
    assert (T : (half_tiny 24 128 <= / 4)%R).
    { unfold half_tiny. assert (Q2 : (bpow radix2 (3 - 128 - 24) <= bpow radix2 (-2))%R) by (apply bpow_le; lia). simpl (bpow radix2 (-2)) in Q2. lra. }
    assert (U : (unit_roundoff 24 = / 16777216)%R) by (unfold unit_roundoff; simpl; lra). rewrite U.
    change (B2R _) with 0%R at 1. cbn [pow INR]. unfold Rabs; destruct Rcase_abs; lra.
Qed.

(** The network of C107_example on the CBLAS engine, with any library. *)
Definition pair_blas : list layer := [LMatmul Cblas 1 2 2; LBias 1 2; LRelu [1; 2]].
Example C108_network_example : forall V (dt : dtype V float) (di : dtype V Z) lib E X s, sums 24 128 lib ->
  nodes_ok (infer_nodes [1; 2] pair_blas) E -> nodes_mapped (infer_nodes [1; 2] pair_blas) E s ->
  holds dt s (E (Out 0)) X -> params_held dt E s 0 pair_blas pair_weights ->
  finite_on 24 128 [1; 2] X -> bounded [1; 2] 1 (reals 24 128 X) ->
  exists t Z, net_lib dt di F32 (fun x => x) (f32 0 0) lib E 0 pair_blas s = Ok tt t /\ holds dt t (E (Out 3)) Z /\
    let x0 := B2R (X [0; 0]) in let x1 := B2R (X [0; 1]) in
    (Rabs (B2R (Z [0%Z; 0%Z]) - Rmax (2 * x0 - x1 + 5) 0) <= 20 / 2 ^ 24 /\
     Rabs (B2R (Z [0%Z; 1%Z]) - Rmax (x0 + 3 * x1 + 7) 0) <= 20 / 2 ^ 24)%R.
Proof.
  intros V dt di lib E X s HS OK HM HX HP FX BX.
  destruct pair_conditions as (K1 & K2 & K3 & K4). destruct pair_values as (V2 & V1 & Vn & V3 & V5 & V7).
  destruct (C108_network 24 128 dt di (fun x => x) (f32 0 0) lib 0 pair_blas [1; 2] E pair_weights X (reals 24 128 X)
    (fun i => nth i [4; 1; 1]%R 1%R) (fun i => nth i [0; 7; 0]%R 0%R) 1 0 s) as (t & Z & E1 & W & F & C); auto; try (cbn; lra).
  - cbn; repeat split; repeat constructor; lia.
  - apply close_refl.
  - exists t, Z. split; [exact E1|]. split; [exact W|]. intros x0 x1.
    pose proof (C [0; 0] ltac:(cbn; lia)) as C0. pose proof (C [0; 1] ltac:(cbn; lia)) as C1.
    cbn [net_fn pair_blas layer_fn arg2 nth] in C0, C1. unfold arg2, rsum, reals in C0, C1. change (zrange 2) with [0; 1] in C0, C1.
    cbn [nth sum_over fold_left sadd s0 Rsc pair_weights] in C0, C1.
    rewrite V2, Vn, V5 in C0. rewrite V1, V3, V7 in C1. fold x0 x1 in C0, C1.
    replace (2 * x0 - x1 + 5)%R with (0 + x0 * 2 + x1 * -1 + 5)%R by ring.
    replace (x0 + 3 * x1 + 7)%R with (0 + x0 * 1 + x1 * 3 + 7)%R by ring.
    split; eapply Rle_trans; [exact C0|exact K4|exact C1|exact K4].
Qed.

(** Matrix times vector and back; the gradient of an image of one pixel under a
    1 x 1 filter with four output channels; nchw. *)
Example C108_more_example :
  let C := new_conv_ps (mkpadding 0 0) (mkpadding 0 0) 1 1 in
  let s := demo [[f32 1 24; f32 1 0; f32 1 0; f32 (-1) 24]; [f32 1 0; f32 1 0; f32 1 0; f32 1 0]; [f32 9 0]] in
  shown (run (l_mv ft F32 backwards Cblas (T_ 0 [1; 4]) (T_ 1 [4]) (T_ 2 [1])) s (T_ 2 [1])) = floats [f32 2 0] /\
  shown (run (l_vm ft F32 backwards Cblas (T_ 0 [4]) (T_ 1 [4; 1]) (T_ 2 [1])) s (T_ 2 [1])) = floats [f32 2 0] /\
  shown (run (l_mv ft F32 backwards Builtin (T_ 0 [1; 4]) (T_ 1 [4]) (T_ 2 [1])) s (T_ 2 [1])) = floats [f32 0 0] /\
  shown (run (conv_grad_x_lib ft F32 backwards Cblas C (T_ 2 [1; 1; 1; 1]) (T_ 0 [1; 1; 1; 4]) (T_ 1 [1; 1; 1; 4])) s (T_ 2 [1]))
    = floats [f32 2 0] /\
  shown (run (conv_nchw_lib ft F32 backwards Cblas C (T_ 2 [1; 1; 1; 1]) (T_ 0 [1; 4; 1; 1]) (T_ 1 [1; 4; 1; 1])) s (T_ 2 [1]))
    = floats [f32 2 0].
Proof. repeat split; vm_compute; reflexivity. Qed.

(** A 2 x 2 convolution and the gradient of its filter with a library that adds
    backwards. *)
Example C108_conv_example :
  let C := new_conv_ps (mkpadding 0 0) (mkpadding 0 0) 1 1 in
  let x := [f32 1 24; f32 1 0; f32 1 0; f32 (-1) 24] in
  shown1 (run (conv_nhwc_lib (dt_inl float Z) (dt_inr float Z) F32 (fun s c l => backwards s c l) Cblas C (T_ 2 [1; 1; 1; 1])
      (T_ 0 [1; 2; 2; 1]) (T_ 1 [2; 2; 1; 1]))
    (demo (map (map inl) [x; repeat (f32 1 0) 4; [f32 9 0]])) (T_ 2 [1; 1; 1; 1])) = floats [f32 2 0] /\
  shown1 (run (conv_grad_y_lib (dt_inl float Z) F32 (fun s c l => backwards s c l) Cblas C (T_ 2 [1; 1; 1; 1])
      (T_ 1 [1; 2; 2; 1]) (T_ 0 [1; 2; 2; 1]))
    (demo (map (map inl) [x; repeat (f32 1 0) 4; [f32 9 0]])) (T_ 2 [1; 1; 1; 1])) = floats [f32 2 0].
Proof. split; vm_compute; reflexivity. Qed.

Print Assumptions C108_sum.
Print Assumptions C108_matmul.
Print Assumptions C108_matmul_grad0.
Print Assumptions C108_matmul_grad1.
Print Assumptions C108_conv.
Print Assumptions C108_conv_grad.
Print Assumptions C108_mv.
Print Assumptions C108_vm.
Print Assumptions C108_conv_nchw.
Print Assumptions C108_conv_grad_image.
Print Assumptions C108_network.
Print Assumptions C108_prediction.
Print Assumptions C108_libraries.
Print Assumptions C108_integers.
Print Assumptions C108_in_order.
Print Assumptions C108_in_order_sums.
Print Assumptions C108_order_refuted.
