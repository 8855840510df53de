(** Properties C21, C22, C69: 1-D im2col, col2im and convolution. *)
From Coq Require Import ZArith List Bool Lia ZifyBool Ring_theory Ring.
From Verif Require Import Base BaseFacts TensorFacts Traits TraitsSpec TraitsFacts Scalar LinAlg LinAlgFacts
  SumFacts ConvSpec ConvFacts Conv1d Conv1dSpec Conv1dFacts Demo.
Import ListNotations.
Open Scope Z_scope.
Open Scope model_scope.

Section Props.
  Context {V T : Type} (dt : dtype V T) (sc : scalar T).
  Notation zero := (s0 sc).

  (** *** C21: the value, in order of evaluation, with no law on the scalars:
      only the taps that fall inside the input contribute. *)
  Theorem C21_conv1d : forall c z x y n k m X Y s,
    let sp := mksample (mkfilter k (cstride c) (crate c)) (cpad c) in
    axis32_ok sp n m -> tdims x = [n] -> tdims y = [k] -> tdims z = [m] ->
    holds dt s x X -> holds dt s y Y -> mapped s z -> disjoint z x -> disjoint z y ->
    writes dt (conv1d dt sc c z x y) s z
      (arg1 (fun j => sum_over sc (List.filter (fun t => inb n (wpos sp j t)) (zrange k))
                        (fun t => smul sc (Y [t]) (X [wpos sp j t])))).
  Proof. exact (conv1d_writes dt sc). Qed.

  (** The same as the sum over all taps of the zero-padded input, and the same
      as im2col1d followed by the matrix-vector product. *)
  Theorem C21_im2col_mv : ring_laws sc -> forall c z x y cols z2 n k m X Y s,
    let sp := mksample (mkfilter k (cstride c) (crate c)) (cpad c) in
    axis32_ok sp n m -> tdims x = [n] -> tdims y = [k] -> tdims z = [m] -> tdims cols = [m; k] -> tdims z2 = [m] ->
    holds dt s x X -> holds dt s y Y -> mapped s z -> mapped s cols -> mapped s z2 ->
    disjoint z x -> disjoint z y -> disjoint cols x -> disjoint cols y -> disjoint z2 cols -> disjoint z2 y ->
    let Z_ := arg1 (fun j => sum_over sc (zrange k) (fun t =>
                 smul sc (Y [t]) (zpad1 zero n (fun i => X [i]) (wpos sp j t)))) in
    writes dt (conv1d dt sc c z x y) s z Z_ /\
    exists s', (im2col1d dt sc sp cols x ;;; mv dt sc cols y z2) s = Ok tt s' /\ holds dt s' z2 Z_.
  Proof.
    intros laws c z x y cols z2 n k m X Y s sp A Ex Ey Ez Ec Ez2 HX HY HZ HC HZ2 D1 D2 D3 D4 D5 D6 Z_.
    pose proof (axis32_facts _ _ _ A) as F0. cbn [sp sfilter ksize] in F0.
    split.
    - eapply writes_ext; [reflexivity| |apply (conv1d_writes dt sc c z x y n k m X Y); auto].
      intros ix _. unfold Z_, arg1. rewrite (sum_filter sc laws). apply sum_over_ext. intros t _.
      fold sp. unfold zpad1. destruct (inb n (wpos sp (nth 0 ix 0) t)); [reflexivity|].
      symmetry. apply (mul_zero_r sc laws).
    - destruct (im2col1d_writes dt sc sp cols x n m X s A Ex Ec HX HC D3) as (s1 & E1 & H1 & N1 & F1).
      assert (W : writes dt (mv dt sc cols y z2) s1 z2 (arg1 (fun i => sum_over sc (zrange k) (fun j =>
                    smul sc (arg2 (fun j k : Z => zpad1 zero n (fun i : Z => X [i]) (wpos sp j k)) [i; j]) (Y [j]))))).
      { apply (mv_writes dt sc cols y z2 m k); auto; try lia.
      + intros ix Hix. rewrite F1; [apply HY; auto|]. intros Q. apply (D4 _ Q). apply addr_foot; auto.
      + intros p Hp. rewrite F1; [apply HZ2; auto|]. intros Q. apply (D5 p); auto. }
      destruct W as (s2 & E2 & H2 & _ & _).
        exists s2. rewrite (bind_ok _ _ _ _ _ E1). split; [exact E2|]. intros ix Hix. rewrite H2 by auto.
        f_equal. f_equal. unfold Z_, arg1, arg2; cbn [nth]. apply sum_over_ext. intros t _. apply (mul_comm sc laws).
  Qed.

  (** Negative paddings crop: with padding (-a, -b) the result is that of the
      unpadded convolution of the input without its first [a] and last [b]
      elements. *)
  Theorem C21_crop : forall s_ r_ a b z x y n k m X Y s,
    0 <= a -> 0 <= b -> a + b <= n ->
    let c := mkconv1d s_ r_ (mkpadding (- a) (- b)) in
    let c0 := mkconv1d s_ r_ (mkpadding 0 0) in
    let x' := mktensor (tblk x) (tbase x + a) [n - a - b] in
    axis32_ok (mksample (mkfilter k s_ r_) (cpad c)) n m ->
    tdims x = [n] -> tdims y = [k] -> tdims z = [m] ->
    holds dt s x X -> holds dt s y Y -> mapped s z -> disjoint z x -> disjoint z y ->
    exists Z_, writes dt (conv1d dt sc c z x y) s z Z_ /\ writes dt (conv1d dt sc c0 z x' y) s z Z_.
  Proof.
    intros s_ r_ a b z x y n k m X Y s Ha Hb Hab c c0 x' A Ex Ey Ez HX HY HZ Dx Dy.
    assert (A0 : axis32_ok (mksample (mkfilter k s_ r_) (mkpadding 0 0)) (n - a - b) m).
    { unfold axis32_ok, valid_config in *; cbn [c cpad sfilter spadding ksize stride rate left_ right_] in *.
      repeat split; try lia. }
    eexists. split; [apply (conv1d_writes dt sc c z x y n k m X Y); auto|].
    eapply writes_ext; [reflexivity| |apply (conv1d_writes dt sc c0 z x' y (n - a - b) k m
      (fun ix => X [nth 0 ix 0 + a]) Y s); auto].
    - intros ix Hix. rewrite Ez in Hix. apply valid_1 in Hix. destruct Hix as (j & -> & Hj).
      unfold arg1; cbn [nth c c0 cpad cstride crate].
      assert (B : forall t, 0 <= t < k -> 0 <= tap s_ r_ j t < n - a - b).
      { intros t Ht. unfold axis32_ok in A0; cbn [sfilter spadding ksize stride rate left_ right_] in A0.
        destruct A0 as (? & ? & ? & ? & ? & ? & ? & Hv).
        pose proof (tap_bounds k s_ r_ 0 0 (n - a - b) m j t ltac:(auto) ltac:(auto) ltac:(auto) Hv Hj Ht). lia. }
      rewrite !filter_true.
      + apply sum_over_ext. intros t Ht. unfold wpos; cbn [sfilter spadding stride rate left_ nth].
        do 3 f_equal. lia.
      + intros t Ht. apply in_zrange in Ht. specialize (B t Ht). apply inb_iff.
        unfold wpos; cbn [sfilter spadding stride rate left_]. lia.
      + intros t Ht. apply in_zrange in Ht. specialize (B t Ht). apply inb_iff.
        unfold wpos; cbn [sfilter spadding stride rate left_]. lia.
    - intros ix Hix. cbn [tdims x'] in Hix. apply valid_1 in Hix. destruct Hix as (i & -> & Hi).
      cbn [nth]. rewrite <- (HX [i + a]) by (rewrite Ex; simpl; lia).
      f_equal. unfold addr, daddr; cbn [x' tblk tbase tdims offset prod]. rewrite Ex. cbn [offset prod]. f_equal. lia.
    - intros p Hp [o [Ho ->]]. apply (Dx _ Hp). exists (a + o).
      unfold size in *; cbn [x' tdims prod] in Ho. rewrite Ex. cbn [prod]. split; [lia|].
      unfold daddr; cbn [x' tblk tbase]. f_equal. lia.
  Qed.

  (** Length inference, while the padded length is a uint32_t. *)
  Theorem C21_shape : forall c n k, 1 <= k -> 1 <= cstride c < 2 ^ 31 -> 1 <= crate c ->
    span k (crate c) < 2 ^ 31 -> 0 <= left_ (cpad c) + n + right_ (cpad c) < 2 ^ 32 ->
    let valid m := valid_config k (cstride c) (crate c) (left_ (cpad c)) (right_ (cpad c)) n m in
    (forall m, conv1d_shape c [n] [k] = Ret [m] <-> valid m) /\
    ((forall m, ~ valid m) -> conv1d_shape c [n] [k] = Exn InvalidArgument).
  Proof.
    intros [s r [pl pr]] n k Hk Hs Hr H1 H2 valid; cbn [cstride crate cpad left_ right_] in *.
    destruct (filter_len_mixed_ok k s r pl pr n) as [Q1 Q2]; auto.
    assert (k - 1 <= r * (k - 1)) by nia. unfold span in H1.
    assert (E : conv1d_shape (mkconv1d s r (mkpadding pl pr)) [n] [k]
                = (m <<- filter_len_mixed (mkfilter k s r) (mkpadding pl pr) n ;; Ret [m])).
    { unfold conv1d_shape; cbn [nth cstride crate cpad]. rewrite to_i32_small by lia. unfold new_filter.
      replace (k <? 1) with false by lia. replace (s <? 1) with false by lia. replace (r <? 1) with false by lia.
      reflexivity. }
    rewrite E. split.
    - intros m. unfold valid. rewrite <- Q1. destruct (filter_len_mixed _ _ _); cbn [obind]; split; congruence.
    - intros F. rewrite Q2; auto.
  Qed.

  (** *** C22: [x[i]] is added up as many times as it is sampled. *)
  Theorem C22_multiplicity : forall sp y cols x n m X s,
    axis32_ok sp n m -> tdims x = [n] -> tdims cols = [m; ksize (sfilter sp)] -> tdims y = [n] ->
    holds dt s x X -> mapped s cols -> mapped s y -> disjoint cols x -> disjoint y cols ->
    exists s', (im2col1d dt sc sp cols x ;;; col2im1d dt sc sp y cols) s = Ok tt s' /\
      holds dt s' y (arg1 (fun i => sum_over sc (zrange (multiplicity sp m i)) (fun _ => X [i]))).
  Proof.
    intros sp y cols x n m X s A Ex Ec Ey HX HC HY D1 D2.
    destruct (im2col1d_writes dt sc sp cols x n m X s A Ex Ec HX HC D1) as (s1 & E1 & H1 & N1 & F1).
    destruct (col2im1d_writes dt sc sp y cols n m _ s1 A Ec Ey H1) as (s2 & E2 & H2 & _ & _); auto.
    { intros p Hp. rewrite F1; [apply HY; auto|]. intros Q. apply (D2 p); auto. }
    exists s2. rewrite (bind_ok _ _ _ _ _ E1). split; [exact E2|]. intros ix Hix. rewrite H2 by auto.
    rewrite Ey in Hix. apply valid_1 in Hix. destruct Hix as (i & -> & Hi).
    unfold arg1; cbn [nth]. rewrite multiplicity_sum by auto. reflexivity.
  Qed.

  (** The shape round-trips. *)
  Theorem C22_shape : forall k s r pl pr n cols,
    1 <= k -> 1 <= s -> 1 <= r -> - 2 ^ 31 <= pl < 2 ^ 31 -> 0 <= n < 2 ^ 31 -> pl + n < 2 ^ 31 ->
    - 2 ^ 31 <= pl + pr < 2 ^ 31 -> pl + n + pr < 2 ^ 31 -> span k r < 2 ^ 31 ->
    let sp := mksample (mkfilter k s r) (mkpadding pl pr) in
    im2col1d_shape sp [n] = Ret cols -> col2im1d_shape sp cols = Ret [n].
  Proof.
    intros k s r pl pr n cols Hk Hs Hr Hl Hn H1 H2 H3 H4 sp.
    pose proof (span_pos k r Hk Hr) as Hp. assert (Hks : k - 1 <= r * (k - 1)) by nia.
    unfold im2col1d_shape; cbn [nth]. rewrite to_i32_small by lia.
    destruct (sample_len I32 sp n) as [m|e|] eqn:E; cbn [obind]; try discriminate.
    intros Q. injection Q as <-.
    destruct (sample_len_i32 k s r pl pr n) as [W _]; try lia. apply W in E. destruct E as [Hm E].
    assert (m - 1 <= s * (m - 1)) by nia.
    unfold span in *. unfold col2im1d_shape; cbn [sp sfilter spadding ksize stride nth].
    rewrite (to_u32_small m), (to_u32_small k) by lia. rewrite Z.eqb_refl. unfold ocontract. cbn [obind].
    unfold isub at 1. rewrite norm_fits by (unfold fits; lia). cbn [obind].
    rewrite (patch_size_ok I32) by (auto; unfold fits, span; lia).
    unfold imul, iadd, norm. cbn [obind]. unfold to_u32 at 1.
    rewrite Zmult_mod_idemp_r. rewrite to_u32_small by (unfold span; lia).
    rewrite Zplus_mod_idemp_l.
    replace ((m - 1) * s + span k r) with (n + pl + pr) by (unfold span; lia).
    rewrite Z.mod_small by lia. rewrite to_i32_small by lia.
    rewrite pad_len_i32 by lia. cbn [obind]. unfold isub. rewrite norm_fits by (unfold fits; lia).
    cbn [obind]. rewrite to_u32_small by lia. do 2 f_equal. lia.
  Qed.

  (** *** C69: when the paddings crop more than the whole input, the length
      function of conv1d wraps around instead of throwing: with the (negative)
      padded length L it behaves exactly as for L + 2^32. *)
  Theorem C69_overcrop : forall c n k, 1 <= k -> 1 <= cstride c < 2 ^ 31 -> 1 <= crate c ->
    span k (crate c) < 2 ^ 31 ->
    let L := left_ (cpad c) + n + right_ (cpad c) in
    - 2 ^ 32 <= L < 0 ->
    (forall m, conv1d_shape c [n] [k] = Ret [m] <->
       1 <= m /\ cstride c * (m - 1) = L + 2 ^ 32 - span k (crate c)) /\
    ((forall m, cstride c * m <> L + 2 ^ 32 - span k (crate c) \/ m < 0) ->
       conv1d_shape c [n] [k] = Exn InvalidArgument).
  Proof.
    intros [s r [pl pr]] n k Hk Hs Hr H1 L HL; cbn [cstride crate cpad left_ right_] in *.
    assert (k - 1 <= r * (k - 1)) by nia.
    destruct (filter_len_mixed_ok k s r pl pr (n + 2 ^ 32)) as [Q1 Q2]; auto; [lia|].
    assert (E : conv1d_shape (mkconv1d s r (mkpadding pl pr)) [n] [k]
                = (m <<- filter_len_mixed (mkfilter k s r) (mkpadding pl pr) (n + 2 ^ 32) ;; Ret [m])).
    { unfold conv1d_shape; cbn [nth cstride crate cpad]. unfold span in H1. rewrite to_i32_small by lia.
      unfold new_filter.
      replace (k <? 1) with false by lia. replace (s <? 1) with false by lia. replace (r <? 1) with false by lia.
      cbn [obind]. unfold filter_len_mixed; cbn [left_ right_]. rewrite !to_u32_add_l.
      replace (to_u32 (pl + (n + 2 ^ 32) + pr)) with (to_u32 (pl + n + pr)); [reflexivity|].
      unfold to_u32. replace (pl + (n + 2 ^ 32) + pr) with (pl + n + pr + 1 * 2 ^ 32) by lia.
      rewrite Z.mod_add; lia. }
    assert (W : forall m, valid_config k s r pl pr (n + 2 ^ 32) m <-> 1 <= m /\ s * (m - 1) = L + 2 ^ 32 - span k r).
    { intros m. unfold valid_config, L. split; intros [? ?]; split; auto; lia. }
    rewrite E. split.
    - intros m. rewrite <- W, <- Q1. destruct (filter_len_mixed _ _ _); cbn [obind]; split; congruence.
    - intros F. rewrite Q2; auto. intros m C. apply W in C. destruct (F (m - 1)) as [G|G]; lia.
  Qed.

  Theorem C69_im2col1d_throws : forall k s r pl pr n, 1 <= k -> 1 <= s -> 1 <= r -> span k r < 2 ^ 31 ->
    - 2 ^ 31 <= pl -> 0 <= n < 2 ^ 31 -> pl + n < 2 ^ 31 -> - 2 ^ 31 <= pl + n + pr < 0 ->
    im2col1d_shape (mksample (mkfilter k s r) (mkpadding pl pr)) [n] = Exn InvalidArgument.
  Proof.
    intros k s r pl pr n Hk Hs Hr H1 H2 H3 H4 H5. unfold im2col1d_shape; cbn [nth].
    rewrite to_i32_small by lia. destruct (sample_len_i32 k s r pl pr n) as [_ Q]; try lia.
    rewrite Q; [reflexivity|]. intros m [Hm E]. pose proof (span_pos k r Hk Hr). nia.
  Qed.
End Props.

(** So the law "a length is returned only for a valid configuration" fails:
    3 elements with 2 cropped on each side and a kernel of 1 give 2^32 - 1
    windows, while im2col1d with the same geometry throws. *)
Theorem C69_overcrop_refuted : exists c n k m, 0 <= n /\
  conv1d_shape c [n] [k] = Ret [m] /\
  ~ valid_config k (cstride c) (crate c) (left_ (cpad c)) (right_ (cpad c)) n m /\
  im2col1d_shape (mksample (mkfilter k (cstride c) (crate c)) (cpad c)) [n] = Exn InvalidArgument.
Proof.
  exists (mkconv1d 1 1 (mkpadding (-2) (-2))), 3, 1, (2 ^ 32 - 1). repeat split; try reflexivity; try lia.
  unfold valid_config, span; cbn. lia.
Qed.

(** x = [1 2 3 4 5], kernel [1 10], stride 2, padding (1, 0): windows
    (0 1) (2 3) (4 5). *)
Definition c21_conv := mkconv1d 2 1 (mkpadding 1 0).
Example C21_example_axis : axis32_ok (mksample (mkfilter 2 2 1) (mkpadding 1 0)) 5 3.
Proof. unfold axis32_ok, valid_config, span; cbn. lia. Qed.
Example C21_example :
  conv1d_shape c21_conv [5] [2] = Ret [3] /\
  run (conv1d zt Zsc c21_conv (T_ 2 [3]) (T_ 0 [5]) (T_ 1 [2])) (demo [[1; 2; 3; 4; 5]; [1; 10]; [0; 0; 0]])
      (T_ 2 [3]) = Some (inits [10; 32; 54]).
Proof. split; reflexivity. Qed.
(** Cropping one element on each side. *)
Example C21_example_crop :
  run (conv1d zt Zsc (mkconv1d 1 1 (mkpadding (-1) (-1))) (T_ 2 [2]) (T_ 0 [5]) (T_ 1 [2]))
      (demo [[1; 2; 3; 4; 5]; [1; 10]; [0; 0]]) (T_ 2 [2]) = Some (inits [32; 43]).
Proof. reflexivity. Qed.

Definition c22_sample := mksample (mkfilter 3 1 1) (mkpadding 1 1).
Example C22_example :
  im2col1d_shape c22_sample [4] = Ret [4; 3] /\ col2im1d_shape c22_sample [4; 3] = Ret [4] /\
  map (multiplicity c22_sample 4) [0; 1; 2; 3] = [2; 3; 3; 2] /\
  run (im2col1d zt Zsc c22_sample (T_ 1 [4; 3]) (T_ 0 [4]) ;;; col2im1d zt Zsc c22_sample (T_ 2 [4]) (T_ 1 [4; 3]))
      (demo [[5; 6; 7; 8]; repeat 0 12; repeat 9 4]) (T_ 2 [4]) = Some (inits [10; 18; 21; 16]).
Proof. repeat split; reflexivity. Qed.

Print Assumptions C21_conv1d.
Print Assumptions C21_im2col_mv.
Print Assumptions C21_crop.
Print Assumptions C21_shape.
Print Assumptions C22_multiplicity.
Print Assumptions C22_shape.
Print Assumptions C69_overcrop.
Print Assumptions C69_im2col1d_throws.
Print Assumptions C69_overcrop_refuted.
