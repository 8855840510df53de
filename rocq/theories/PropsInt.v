(** Property C88: operators on integer tensors. *)
From Coq Require Import ZArith List Bool Lia.
From Verif Require Import Base BaseFacts TensorFacts Traits TraitsSpec TraitsFacts Scalar IntScalar LinAlg LinAlgFacts Elem ElemSpec ElemFacts
  Conv ConvSpec ConvFacts SumFacts PropsElem PropsConv Demo.
Import ListNotations.
Open Scope Z_scope.
Open Scope model_scope.

(** The instances are instances. *)
Theorem C88_instances : (forall n, 0 < n -> unsigned n (Usc n)) /\ exact_within (- 2 ^ 31) (2 ^ 31 - 1) I32 /\
  (forall lo hi, exact_within lo hi Zsc).
Proof.
  split; [|split].
  - intros n Hn. split; intros; reflexivity.
  - assert (W : forall a, - 2 ^ 31 <= a <= 2 ^ 31 - 1 -> wrap32 a = a).
    { intros a Ha. unfold wrap32. rewrite Z.mod_small by lia. lia. }
    split; intros; cbn [s0 sadd ssub smul I32]; auto.
  - intros lo hi. split; intros; reflexivity.
Qed.

(** *** C88: unsigned types compute modulo 2^n. *)
Section Unsigned.
  Context {V : Type} (dt : dtype V Z) (di : dtype V Z) (n : Z) (sc : scalar Z).
  Context (Hn : 0 < n) (U : unsigned n sc).

  Definition small (ds : list Z) (X : list Z -> Z) : Prop := forall ix, valid ds ix -> 0 <= X ix < 2 ^ n.

  Lemma pow_pos : 0 < 2 ^ n.
  Proof using Hn. apply Z.pow_pos_nonneg; lia. Qed.

  Lemma sum_mod : forall {A} (l : list A) f g, (forall a, In a l -> 0 <= f a < 2 ^ n /\ f a = g a mod 2 ^ n) ->
    sum_over sc l f = sum_over Zsc l g mod 2 ^ n.
  Proof using Hn U.
    intros A l f g. unfold sum_over. rewrite (u_zero n sc U). cbn [s0 sadd Zsc].
    assert (Q : forall a b, 0 <= a < 2 ^ n -> a = b mod 2 ^ n -> (forall a, In a l -> 0 <= f a < 2 ^ n /\ f a = g a mod 2 ^ n) ->
      fold_left (fun acc a => sadd sc acc (f a)) l a = fold_left (fun acc a => acc + g a) l b mod 2 ^ n).
    { induction l as [|c l IH]; intros a b Ha E H; cbn [fold_left]; [exact E|].
      destruct (H c (or_introl eq_refl)) as [Hc Ec]. rewrite (u_add n sc U) by auto. apply IH.
      - apply Z.mod_pos_bound, pow_pos.
      - rewrite E, Ec. symmetry. apply Z.add_mod. pose proof pow_pos. lia.
      - intros d Hd. apply H. right; auto. }
    intros H. pose proof pow_pos. apply Q; auto. lia.
  Qed.

  Lemma mul_mod : forall a b, 0 <= a < 2 ^ n -> 0 <= b < 2 ^ n ->
    0 <= smul sc a b < 2 ^ n /\ smul sc a b = (a * b) mod 2 ^ n.
  Proof using Hn U. intros a b Ha Hb. rewrite (u_mul n sc U) by auto. split; [apply Z.mod_pos_bound, pow_pos|reflexivity]. Qed.

  Section Binary.
    Context (z x y : tensor) (X Y : list Z -> Z) (s : st V).
    Context (Hd : dims_ok z) (Ex : tdims x = tdims z) (Ey : tdims y = tdims z)
      (HX : holds dt s x X) (HY : holds dt s y Y) (HZ : mapped s z) (Sx : safe z x) (Sy : safe z y)
      (BX : small (tdims z) X) (BY : small (tdims z) Y).

    Theorem C88_add : writes dt (op_add dt sc z x y) s z (fun ix => (X ix + Y ix) mod 2 ^ n).
    Proof using All.
      eapply writes_ext; [reflexivity| |apply (C27_add dt sc z x y X Y s); auto].
      intros ix Hix. apply (u_add n sc U); auto.
    Qed.
    Theorem C88_sub : writes dt (op_sub dt sc z x y) s z (fun ix => (X ix - Y ix) mod 2 ^ n).
    Proof using All.
      eapply writes_ext; [reflexivity| |apply (C27_sub dt sc z x y X Y s); auto].
      intros ix Hix. apply (u_sub n sc U); auto.
    Qed.
    Theorem C88_mul : writes dt (op_mul dt sc z x y) s z (fun ix => (X ix * Y ix) mod 2 ^ n).
    Proof using All.
      eapply writes_ext; [reflexivity| |apply (C27_mul dt sc z x y X Y s); auto].
      intros ix Hix. apply (u_mul n sc U); auto.
    Qed.
  End Binary.

  Theorem C88_matmul : forall z x y m l k X Y s,
    tdims x = [m; l] -> tdims y = [l; k] -> tdims z = [m; k] -> 0 <= m -> 0 <= l -> 0 <= k ->
    holds dt s x X -> holds dt s y Y -> mapped s z -> disjoint z x -> disjoint z y ->
    small [m; l] X -> small [l; k] Y ->
    writes dt (op_matmul dt sc Builtin z x y) s z (fun ix => matmul_fn Zsc l X Y ix mod 2 ^ n).
  Proof using Hn U.
    intros z x y m l k X Y s Ex Ey Ez Hm Hl Hk HX HY HZ D1 D2 BX BY.
    eapply writes_ext; [reflexivity| |apply (C26_matmul dt sc Builtin z x y m l k X Y s I); auto].
    intros ix Hix. rewrite Ez in Hix. destruct ix as [|i [|j [|? ?]]]; cbn [valid] in Hix; try tauto.
    unfold matmul_fn, arg2; cbn [nth]. apply sum_mod. intros a Ha. apply in_zrange in Ha.
    apply mul_mod; [apply BX|apply BY]; cbn; tauto.
  Qed.

  (** A row or column sum. *)
  Theorem C88_sum : forall y x m k X s,
    tdims x = [m; k] -> tdims y = [k] -> 0 <= m -> 0 <= k -> holds dt s x X -> mapped s y -> disjoint y x -> small [m; k] X ->
    writes dt (outter_contraction dt sc y x) s y (arg1 (fun j => sum_over Zsc (zrange m) (fun i => X [i; j]) mod 2 ^ n)).
  Proof using Hn U.
    intros y x m k X s Ex Ey Hm Hk HX HY D BX.
    eapply writes_ext; [reflexivity| |apply (C42_outter dt sc y x m k X s); auto].
    intros ix Hix. rewrite Ey in Hix. destruct ix as [|j [|? ?]]; cbn [valid] in Hix; try tauto.
    unfold arg1; cbn [nth]. apply sum_mod. intros a Ha. apply in_zrange in Ha.
    assert (B : 0 <= X [a; j] < 2 ^ n) by (apply BX; cbn; tauto). split; [exact B|symmetry; apply Z.mod_small, B].
  Qed.

  Theorem C88_conv_nhwc : forall C z x y N h w c r s d h' w' X Y st,
    let H := axis_of (h_trait C) r in let W := axis_of (w_trait C) s in
    axis_ok H h h' -> axis_ok W w w' -> 0 <= N -> 0 <= c -> 0 <= d -> h * w * c <= 2 ^ 31 ->
    tdims x = [N; h; w; c] -> tdims y = [r; s; c; d] -> tdims z = [N; h'; w'; d] ->
    fresh_ok st -> holds dt st x X -> holds dt st y Y -> mapped st z -> disjoint z x -> disjoint z y ->
    small [N; h; w; c] X -> small [r; s; c; d] Y ->
    writes dt (conv_nhwc dt di sc Builtin C z x y) st z
      (arg4 (fun l i j t =>
         sum_over Zsc (indices [r; s; c]) (arg3 (fun u v k =>
           zpad 0 h w (fun p q => X [l; p; q; k]) (wpos H i u) (wpos W j v) * Y [u; v; k; t])) mod 2 ^ n)).
  Proof using Hn U.
    intros C z x y N h w c r s d h' w' X Y st H W AH AW HN Hc Hd Hsz Ex Ey Ez Hf HX HY HZ D1 D2 BX BY.
    eapply writes_ext; [reflexivity| |apply (C16_conv_nhwc dt di sc Builtin C z x y N h w c r s d h' w' X Y st); auto; exact I].
    intros ix Hix. rewrite Ez in Hix. destruct ix as [|l [|i [|j [|t [|? ?]]]]]; cbn [valid] in Hix; try tauto.
    unfold arg4; cbn [nth]. apply sum_mod. intros a Ha. apply in_indices in Ha.
    destruct a as [|u [|v [|k [|? ?]]]]; cbn [valid] in Ha; try tauto. unfold arg3; cbn [nth].
    rewrite (u_zero n sc U). apply mul_mod; [|apply BY; cbn; tauto].
    unfold zpad. destruct (inb h _ && inb w _) eqn:Q; [|split; [lia|apply pow_pos]].
    apply BX. apply andb_true_iff in Q. unfold inb in Q. cbn [valid]. lia.
  Qed.

  Theorem C88_conv_nchw : forall C z x y N h w c r s d h' w' X Y st,
    let H := axis_of (h_trait C) r in let W := axis_of (w_trait C) s in
    axis_ok H h h' -> axis_ok W w w' -> 0 <= N -> 0 <= c -> 0 <= d ->
    tdims x = [N; c; h; w] -> tdims y = [d; c; r; s] -> tdims z = [N; d; h'; w'] ->
    fresh_ok st -> holds dt st x X -> holds dt st y Y -> mapped st z -> disjoint z x -> disjoint z y ->
    small [N; c; h; w] X -> small [d; c; r; s] Y ->
    writes dt (conv_nchw dt sc Builtin C z x y) st z
      (arg4 (fun l t i j =>
         sum_over Zsc (indices [c; r; s]) (arg3 (fun k u v =>
           Y [t; k; u; v] * zpad 0 h w (fun p q => X [l; k; p; q]) (wpos H i u) (wpos W j v))) mod 2 ^ n)).
  Proof using Hn U.
    intros C z x y N h w c r s d h' w' X Y st H W AH AW HN Hc Hd Ex Ey Ez Hf HX HY HZ D1 D2 BX BY.
    eapply writes_ext; [reflexivity| |apply (C17_conv_nchw dt sc Builtin C z x y N h w c r s d h' w' X Y st); auto; exact I].
    intros ix Hix. rewrite Ez in Hix. destruct ix as [|l [|t [|i [|j [|? ?]]]]]; cbn [valid] in Hix; try tauto.
    unfold arg4; cbn [nth]. apply sum_mod. intros a Ha. apply in_indices in Ha.
    destruct a as [|k [|u [|v [|? ?]]]]; cbn [valid] in Ha; try tauto. unfold arg3; cbn [nth].
    rewrite (u_zero n sc U). apply mul_mod; [apply BY; cbn; tauto|].
    unfold zpad. destruct (inb h _ && inb w _) eqn:Q; [|split; [lia|apply pow_pos]].
    apply BX. apply andb_true_iff in Q. unfold inb in Q. cbn [valid]. lia.
  Qed.
End Unsigned.

(** *** C88: signed types compute exactly as long as the absolute values of the
    terms of each sum add up to at most [b], which both ends of the range allow. *)
Section Signed.
  Context {V : Type} (dt : dtype V Z) (di : dtype V Z) (lo hi b : Z) (sc : scalar Z).
  Context (Lb : lo <= - b) (Hb : b <= hi) (E : exact_within lo hi sc).

  Lemma sum_nonneg_acc : forall {A} (l : list A) (g : A -> Z) a, a <= fold_left (fun acc c => acc + Z.abs (g c)) l a.
  Proof using. intros A l g. induction l as [|c l IH]; intros a; cbn [fold_left]; [lia|]. specialize (IH (a + Z.abs (g c))). lia. Qed.

  Lemma sum_exact : forall {A} (l : list A) f g, (forall a, In a l -> - b <= g a <= b -> f a = g a) ->
    sum_over Zsc l (fun a => Z.abs (g a)) <= b -> sum_over sc l f = sum_over Zsc l g.
  Proof using Lb Hb E.
    intros A l f g H HS. unfold sum_over in *. rewrite (e_zero lo hi sc E). cbn [s0 sadd Zsc] in *.
    assert (Q : forall a m, Z.abs a <= m -> fold_left (fun acc a => acc + Z.abs (g a)) l m <= b ->
      (forall a, In a l -> - b <= g a <= b -> f a = g a) ->
      fold_left (fun acc a => sadd sc acc (f a)) l a = fold_left (fun acc a => acc + g a) l a).
    { clear HS H. induction l as [|c l IH]; intros a m Ha HS H; cbn [fold_left] in *; [reflexivity|].
      pose proof (sum_nonneg_acc l g (m + Z.abs (g c))).
      rewrite (H c (or_introl eq_refl)) by lia. rewrite (e_add lo hi sc E) by lia. apply (IH _ (m + Z.abs (g c))); try lia.
      intros d Hd. apply H. right; auto. }
    apply (Q 0 0); auto. lia.
  Qed.

  Lemma mul_exact : forall x y, - b <= x * y <= b -> smul sc x y = x * y.
  Proof using Lb Hb E. intros x y H. apply (e_mul lo hi sc E). lia. Qed.

  Theorem C88_signed_add : forall z x y X Y s,
    dims_ok z -> tdims x = tdims z -> tdims y = tdims z -> holds dt s x X -> holds dt s y Y -> mapped s z -> safe z x -> safe z y ->
    (forall ix, valid (tdims z) ix -> lo <= X ix + Y ix <= hi) ->
    writes dt (op_add dt sc z x y) s z (fun ix => X ix + Y ix).
  Proof using E.
    intros z x y X Y s Hd Ex Ey HX HY HZ Sx Sy B.
    eapply writes_ext; [reflexivity| |apply (C27_add dt sc z x y X Y s); auto].
    intros ix Hix. apply (e_add lo hi sc E); auto.
  Qed.

  Theorem C88_signed_matmul : forall z x y m l k X Y s,
    tdims x = [m; l] -> tdims y = [l; k] -> tdims z = [m; k] -> 0 <= m -> 0 <= l -> 0 <= k ->
    holds dt s x X -> holds dt s y Y -> mapped s z -> disjoint z x -> disjoint z y ->
    (forall i j, 0 <= i < m -> 0 <= j < k -> sum_over Zsc (zrange l) (fun a => Z.abs (X [i; a] * Y [a; j])) <= b) ->
    writes dt (op_matmul dt sc Builtin z x y) s z (matmul_fn Zsc l X Y).
  Proof using Lb Hb E.
    intros z x y m l k X Y s Ex Ey Ez Hm Hl Hk HX HY HZ D1 D2 B.
    eapply writes_ext; [reflexivity| |apply (C26_matmul dt sc Builtin z x y m l k X Y s I); auto].
    intros ix Hix. rewrite Ez in Hix. destruct ix as [|i [|j [|? ?]]]; cbn [valid] in Hix; try tauto.
    unfold matmul_fn, arg2; cbn [nth]. apply sum_exact; [|apply B; tauto]. intros a _ Ha. apply mul_exact, Ha.
  Qed.

  Theorem C88_signed_conv_nhwc : forall C z x y N h w c r s d h' w' X Y st,
    let H := axis_of (h_trait C) r in let W := axis_of (w_trait C) s in
    let term l i j t := arg3 (fun u v k => zpad 0 h w (fun p q => X [l; p; q; k]) (wpos H i u) (wpos W j v) * Y [u; v; k; t]) in
    axis_ok H h h' -> axis_ok W w w' -> 0 <= N -> 0 <= c -> 0 <= d -> h * w * c <= 2 ^ 31 ->
    tdims x = [N; h; w; c] -> tdims y = [r; s; c; d] -> tdims z = [N; h'; w'; d] ->
    fresh_ok st -> holds dt st x X -> holds dt st y Y -> mapped st z -> disjoint z x -> disjoint z y ->
    (forall l i j t, valid [N; h'; w'; d] [l; i; j; t] ->
       sum_over Zsc (indices [r; s; c]) (fun a => Z.abs (term l i j t a)) <= b) ->
    writes dt (conv_nhwc dt di sc Builtin C z x y) st z (arg4 (fun l i j t => sum_over Zsc (indices [r; s; c]) (term l i j t))).
  Proof using Lb Hb E.
    intros C z x y N h w c r s d h' w' X Y st H W term AH AW HN Hc Hd Hsz Ex Ey Ez Hf HX HY HZ D1 D2 B.
    eapply writes_ext; [reflexivity| |apply (C16_conv_nhwc dt di sc Builtin C z x y N h w c r s d h' w' X Y st); auto; exact I].
    intros ix Hix. rewrite Ez in Hix. destruct ix as [|l [|i [|j [|t [|? ?]]]]]; try (cbn [valid] in Hix; tauto).
    specialize (B l i j t Hix). unfold arg4; cbn [nth]. apply sum_exact; [|exact B]. intros a Ha Q. apply in_indices in Ha.
    destruct a as [|u [|v [|k [|? ?]]]]; cbn [valid] in Ha; try tauto. unfold term, arg3 in *; cbn [nth] in *.
    rewrite (e_zero lo hi sc E). apply mul_exact, Q.
  Qed.

  Theorem C88_signed_conv_nchw : forall C z x y N h w c r s d h' w' X Y st,
    let H := axis_of (h_trait C) r in let W := axis_of (w_trait C) s in
    let term l t i j := arg3 (fun k u v => Y [t; k; u; v] * zpad 0 h w (fun p q => X [l; k; p; q]) (wpos H i u) (wpos W j v)) in
    axis_ok H h h' -> axis_ok W w w' -> 0 <= N -> 0 <= c -> 0 <= d ->
    tdims x = [N; c; h; w] -> tdims y = [d; c; r; s] -> tdims z = [N; d; h'; w'] ->
    fresh_ok st -> holds dt st x X -> holds dt st y Y -> mapped st z -> disjoint z x -> disjoint z y ->
    (forall l t i j, valid [N; d; h'; w'] [l; t; i; j] ->
       sum_over Zsc (indices [c; r; s]) (fun a => Z.abs (term l t i j a)) <= b) ->
    writes dt (conv_nchw dt sc Builtin C z x y) st z (arg4 (fun l t i j => sum_over Zsc (indices [c; r; s]) (term l t i j))).
  Proof using Lb Hb E.
    intros C z x y N h w c r s d h' w' X Y st H W term AH AW HN Hc Hd Ex Ey Ez Hf HX HY HZ D1 D2 B.
    eapply writes_ext; [reflexivity| |apply (C17_conv_nchw dt sc Builtin C z x y N h w c r s d h' w' X Y st); auto; exact I].
    intros ix Hix. rewrite Ez in Hix. destruct ix as [|l [|t [|i [|j [|? ?]]]]]; try (cbn [valid] in Hix; tauto).
    specialize (B l t i j Hix). unfold arg4; cbn [nth]. apply sum_exact; [|exact B]. intros a Ha Q. apply in_indices in Ha.
    destruct a as [|k [|u [|v [|? ?]]]]; cbn [valid] in Ha; try tauto. unfold term, arg3 in *; cbn [nth] in *.
    rewrite (e_zero lo hi sc E). apply mul_exact, Q.
  Qed.
End Signed.

(** uint8_t pixels: 200 * 2 + 100 * 3 = 700 = 188 modulo 256, 3 - 5 = 254. *)
Example C88_case :
  run (op_matmul zt (Usc 8) Builtin (T_ 2 [1; 1]) (T_ 0 [1; 2]) (T_ 1 [2; 1])) (demo [[200; 100]; [2; 3]; [0]]) (T_ 2 [1])
    = Some (inits [188]) /\
  run (op_sub zt (Usc 8) (T_ 2 [2]) (T_ 0 [2]) (T_ 1 [2])) (demo [[3; 9]; [5; 1]; [0; 0]]) (T_ 2 [2]) = Some (inits [254; 8]) /\
  run (op_matmul zt I32 Builtin (T_ 2 [1; 1]) (T_ 0 [1; 2]) (T_ 1 [2; 1])) (demo [[-20000; 100]; [100000; 3]; [0]]) (T_ 2 [1])
    = Some (inits [-1999999700]).
Proof. vm_compute. auto. Qed.
(** The bound of the signed theorems is sharp: 2^30 + 2^30 leaves the range. *)
Example C88_case_overflow :
  run (op_matmul zt I32 Builtin (T_ 2 [1; 1]) (T_ 0 [1; 2]) (T_ 1 [2; 1])) (demo [[2 ^ 30; 2 ^ 30]; [1; 1]; [0]]) (T_ 2 [1])
    = Some (inits [- 2 ^ 31]).
Proof. vm_compute. reflexivity. Qed.

Print Assumptions C88_instances.
Print Assumptions C88_add.
Print Assumptions C88_sub.
Print Assumptions C88_mul.
Print Assumptions C88_matmul.
Print Assumptions C88_sum.
Print Assumptions C88_conv_nhwc.
Print Assumptions C88_conv_nchw.
Print Assumptions C88_signed_add.
Print Assumptions C88_signed_matmul.
Print Assumptions C88_signed_conv_nhwc.
Print Assumptions C88_signed_conv_nchw.
