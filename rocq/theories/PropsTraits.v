(** Properties C01-C09: sampling geometry and layout shapes. *)
From Coq Require Import ZArith List Bool Lia ZifyBool.
From Verif Require Import Base BaseFacts Traits TraitsSpec TraitsFacts.
Import ListNotations.
Open Scope Z_scope.
Open Scope model_scope.

(** *** C01: output length of a linear sample. *)
Theorem C01_sample_length : forall t k s r pl pr n,
  1 <= k -> 1 <= s -> 1 <= r -> 0 <= pl -> 0 <= pr -> 0 <= n ->
  fits t (pl + n + pr) -> fits t (span k r) ->
  forall sp, new_sample k s r pl pr = Ret sp ->
  (forall m, sample_len t sp n = Ret m <-> valid_config k s r pl pr n m) /\
  ((forall m, ~ valid_config k s r pl pr n m) -> sample_len t sp n = Exn InvalidArgument).
Proof.
  intros t k s r pl pr n Hk Hs Hr Hl Hpr Hn Hf1 Hf2 sp E.
  apply new_sample_iff in E. destruct E as [_ [_ [_ ->]]]. apply sample_len_iff; auto.
Qed.

Example C01_case : sample_len U32 (mksample (mkfilter 3 2 2) (mkpadding 1 2)) 12 = Ret 6
  /\ valid_config 3 2 2 1 2 12 6
  /\ sample_len U32 (mksample (mkfilter 3 2 2) (mkpadding 1 2)) 11 = Exn InvalidArgument.
Proof. vm_compute. repeat split; congruence. Qed.

(** *** C02: taps stay inside the padded input. *)
Theorem C02_taps_in_range : forall t k s r pl pr n m,
  1 <= k -> 1 <= s -> 1 <= r -> 0 <= pl -> 0 <= pr -> 0 <= n ->
  fits t (pl + n + pr) -> fits t (span k r) ->
  forall sp, new_sample k s r pl pr = Ret sp -> sample_len t sp n = Ret m ->
  (forall j u, 0 <= j < m -> 0 <= u < k ->
     exists i, sample_pos t sp j u = Ret i /\ i = j * s + u * r /\ 0 <= i < pl + n + pr) /\
  sample_pos t sp 0 0 = Ret 0 /\
  sample_pos t sp (m - 1) (k - 1) = Ret (pl + n + pr - 1) /\
  (forall j u u', 0 <= j < m -> 0 <= u < k -> 0 <= u' < k ->
     sample_pos t sp j u = sample_pos t sp j u' -> u = u').
Proof.
  intros t k s r pl pr n m Hk Hs Hr Hl Hpr Hn Hf1 Hf2 sp E L.
  apply new_sample_iff in E. destruct E as [_ [_ [_ ->]]].
  pose proof (sample_taps t k s r pl pr n m Hk Hs Hr Hl Hpr Hn Hf1 Hf2 L) as T.
  pose proof L as V.
  apply (proj1 (sample_len_iff t k s r pl pr n Hk Hs Hr Hl Hpr Hn Hf1 Hf2) m) in V.
  destruct V as [Hm V]. unfold span in V.
  repeat split.
  - intros j u Hj Hu. destruct (T j u Hj Hu) as [T1 T2]. eexists. split; [exact T1|].
    split; [reflexivity|exact T2].
  - rewrite (proj1 (T 0 0 ltac:(lia) ltac:(lia))). reflexivity.
  - rewrite (proj1 (T (m - 1) (k - 1) ltac:(lia) ltac:(lia))). f_equal. unfold tap. lia.
  - intros j u u' Hj Hu Hu' E. rewrite (proj1 (T j u Hj Hu)), (proj1 (T j u' Hj Hu')) in E.
    injection E as E. unfold tap in E. nia.
Qed.

Example C02_case : sample_pos U32 (mksample (mkfilter 3 2 2) (mkpadding 1 2)) 5 2 = Ret 14.
Proof. reflexivity. Qed.

(** *** C03: inside/unpad identify the real input positions. *)
Theorem C03_inside_unpad : forall t k s r pl pr i n,
  1 <= k -> 1 <= s -> 1 <= r -> 0 <= pl -> 0 <= n -> fits t (pl + n) ->
  forall sp, new_sample k s r pl pr = Ret sp ->
  (sample_inside t sp i n = Ret true <-> exists q, shows pl n i q) /\
  (sample_inside t sp i n = Ret false <-> ~ exists q, shows pl n i q) /\
  (forall q, shows pl n i q -> sample_unpad t sp i = Ret q).
Proof.
  intros t k s r pl pr i n Hk Hs Hr Hl Hn Hf sp E.
  apply new_sample_iff in E. destruct E as [_ [_ [_ ->]]].
  unfold sample_inside, sample_unpad; cbn [spadding].
  rewrite pad_inside_val by auto. unfold shows.
  destruct ((pl <=? i) && (i <? pl + n)) eqn:B; repeat split.
  - intros _. exists (i - pl). lia.
  - discriminate.
  - intros H. exfalso. apply H. exists (i - pl). lia.
  - intros q [Hq ->]. rewrite pad_unpad_val with (n := n) by (auto; lia). f_equal. lia.
  - discriminate.
  - intros [q [Hq ->]]. lia.
  - intros _ [q [Hq ->]]. lia.
  - intros q [Hq ->]. lia.
Qed.

Example C03_case : sample_inside U32 (mksample (mkfilter 3 2 2) (mkpadding 1 2)) 12 12 = Ret true
  /\ sample_unpad U32 (mksample (mkfilter 3 2 2) (mkpadding 1 2)) 12 = Ret 11
  /\ sample_inside U32 (mksample (mkfilter 3 2 2) (mkpadding 1 2)) 13 12 = Ret false
  /\ sample_inside U32 (mksample (mkfilter 3 2 2) (mkpadding 1 2)) 0 12 = Ret false.
Proof. vm_compute. auto. Qed.

(** *** C04: valid_padding is minimal and always accepted. *)
Theorem C04_valid_padding : forall t k s r n,
  1 <= k -> 1 <= s -> 1 <= r -> 0 <= n ->
  fits t (span k r + s) -> fits t (n + s) ->
  exists p pl pr,
    valid_padding t k s r n = Ret (mkpadding pl pr) /\
    pl + pr = p /\ 0 <= pl <= pr /\ pr <= pl + 1 /\
    (* minimal total padding *)
    0 <= p < s /\ (n + p - span k r) mod s = 0 /\
    (forall q, 0 <= q -> (n + q - span k r) mod s = 0 -> p <= q) /\
    (* accepted: the only possible failure is an input shorter than a window *)
    forall sp, new_sample k s r pl pr = Ret sp ->
      (span k r <= n + p -> sample_len t sp n = Ret ((n + p - span k r) / s + 1)) /\
      (span k r <= n -> sample_len t sp n = Ret ((n - span k r + (s - 1)) / s + 1)) /\
      (n + p < span k r -> sample_len t sp n = Exn InvalidArgument).
Proof.
  intros t k s r n Hk Hs Hr Hn Hf Hfn.
  pose proof (span_pos k r Hk Hr) as Hp.
  assert (Fn : fits t n) by (apply (fits_between t _ (n + s)); auto; lia).
  pose proof (valid_padding_val t k s r n Hk Hs Hr Hn Hf Fn) as V. cbv zeta in V.
  pose proof (valid_padding_minimal k s r n Hs) as [B [Z0 Mn]].
  set (p := (span k r - n) mod s) in *.
  assert (Hh : 2 * (p / 2) <= p < 2 * (p / 2) + 2) by (pose proof (Z.div_mod p 2); pose proof (Z.mod_pos_bound p 2); lia).
  exists p, (p / 2), (p - p / 2). split; [exact V|].
  split; [lia|]. split; [lia|]. split; [lia|]. split; [exact B|]. split; [exact Z0|]. split; [exact Mn|].
  intros sp E. apply new_sample_iff in E. destruct E as [_ [_ [_ ->]]].
  assert (Fp : fits t (p / 2 + n + (p - p / 2))).
  { replace (p / 2 + n + (p - p / 2)) with (n + p) by ring.
    apply (fits_between t _ (n + s)); auto; lia. }
  assert (Fs : fits t (span k r)) by (apply (fits_between t _ (span k r + s)); auto; lia).
  rewrite sample_len_val by (auto; lia).
  replace (p / 2 + n + (p - p / 2)) with (n + p) by ring.
  rewrite Z0. cbn [Z.eqb].
  assert (G : span k r <= n -> (n + p - span k r) / s = (n - span k r + (s - 1)) / s).
  { intros L. pose proof (Z.div_mod (n + p - span k r) s) as D1.
    set (q := (n + p - span k r) / s) in *.
    apply (Z.div_unique _ s q (s - 1 - p)); lia. }
  destruct (Z.ltb_spec (n + p) (span k r)); repeat split; intros; auto; try lia.
  rewrite G; auto.
Qed.

Example C04_case : valid_padding U32 3 2 2 10 = Ret (mkpadding 0 1)
  /\ sample_len U32 (mksample (mkfilter 3 2 2) (mkpadding 0 1)) 10 = Ret 4.
Proof. vm_compute. auto. Qed.

(** *** C05: same_padding. *)
Theorem C05_same_padding : forall t k s r n,
  1 <= k -> 1 <= s -> 1 <= r -> 0 <= n ->
  fits t (span k r) -> fits t (s + n mod s) -> fits t (n + span k r) ->
  (same_padding t k s r n = Exn RuntimeError <-> span k r < s + n mod s) /\
  (s + n mod s <= span k r ->
   exists pl pr, same_padding t k s r n = Ret (mkpadding pl pr) /\
     0 <= pl <= pr /\ pr <= pl + 1 /\
     forall sp, new_sample k s r pl pr = Ret sp ->
       (s <= n -> sample_len t sp n = Ret (n / s)) /\
       (s = 1 -> 1 <= n -> sample_len t sp n = Ret n) /\
       (n < s -> sample_len t sp n = Exn InvalidArgument)).
Proof.
  intros t k s r n Hk Hs Hr Hn Hf Hf2 Hfn.
  pose proof (span_pos k r Hk Hr) as Hp.
  assert (Fn : fits t n) by (apply (fits_between t _ (n + span k r)); auto; lia).
  pose proof (same_padding_val t k s r n Hk Hs Hr Hn Hf Hf2 Fn) as V. cbv zeta in V.
  pose proof (Z.mod_pos_bound n s ltac:(lia)) as B.
  rewrite V. split.
  - destruct (Z.ltb_spec (span k r) (s + n mod s)); split; intros; auto; try discriminate; lia.
  - intros L. destruct (Z.ltb_spec (span k r) (s + n mod s)) as [L2|_]; [lia|].
    set (p := span k r - s - n mod s) in *.
    assert (Hh : 2 * (p / 2) <= p < 2 * (p / 2) + 2) by (pose proof (Z.div_mod p 2); pose proof (Z.mod_pos_bound p 2); lia).
    exists (p / 2), (p - p / 2). split; [reflexivity|]. split; [lia|]. split; [lia|].
    intros sp E. apply new_sample_iff in E. destruct E as [_ [_ [_ ->]]].
    assert (Fp : fits t (p / 2 + n + (p - p / 2))).
    { replace (p / 2 + n + (p - p / 2)) with (n + p) by ring.
      apply (fits_between t _ (n + span k r)); auto; lia. }
    rewrite sample_len_val by (auto; lia).
    replace (p / 2 + n + (p - p / 2)) with (n + p) by ring.
    pose proof (Z.div_mod n s ltac:(lia)) as D.
    assert (Q : n + p - span k r = (n / s - 1) * s) by (unfold p; lia).
    rewrite Q, Z.mod_mul, Z.div_mul by lia. cbn [Z.eqb].
    assert (G : s <= n -> (if n + p <? span k r then Exn InvalidArgument else Ret (n / s - 1 + 1)) = Ret (n / s)).
    { intros Hsn. assert (1 <= n / s) by (apply Z.div_le_lower_bound; lia).
      destruct (Z.ltb_spec (n + p) (span k r)); [nia|]. f_equal. lia. }
    repeat split; auto.
    + intros -> H1. rewrite G by lia. f_equal. apply Z.div_1_r.
    + intros Hsn. rewrite Z.div_small in Q by lia.
      destruct (Z.ltb_spec (n + p) (span k r)); auto. lia.
Qed.

Example C05_case : same_padding U32 3 1 2 28 = Ret (mkpadding 2 2)
  /\ sample_len U32 (mksample (mkfilter 3 1 2) (mkpadding 2 2)) 28 = Ret 28
  /\ same_padding U32 2 2 1 5 = Exn RuntimeError.
Proof. vm_compute. auto. Qed.

(** *** C06 (refuted): "same" padding does not give ceil(n/s) outputs. *)
Theorem C06_same_is_ceil_refuted : exists k s r n pl pr m,
  1 <= k /\ 1 <= s /\ 1 <= r /\ 1 <= n /\
  same_padding U32 k s r n = Ret (mkpadding pl pr) /\
  sample_len U32 (mksample (mkfilter k s r) (mkpadding pl pr)) n = Ret m /\
  m <> (n + s - 1) / s.
Proof.
  exists 3, 2, 1, 5, 0, 0, 2. vm_compute. repeat split; congruence.
Qed.

(** It holds exactly for lengths divisible by the stride. *)
Theorem C06_same_is_ceil_iff : forall t k s r n pl pr,
  1 <= k -> 1 <= s -> 1 <= r -> s <= n ->
  fits t (span k r) -> fits t (s + n mod s) -> fits t (n + span k r) ->
  same_padding t k s r n = Ret (mkpadding pl pr) ->
  (sample_len t (mksample (mkfilter k s r) (mkpadding pl pr)) n = Ret ((n + s - 1) / s)
   <-> n mod s = 0).
Proof.
  intros t k s r n pl pr Hk Hs Hr Hn Hf Hfs Hfn E.
  destruct (C05_same_padding t k s r n) as [H0 H]; auto; try lia.
  assert (L : s + n mod s <= span k r).
  { destruct (Z_lt_dec (span k r) (s + n mod s)) as [L|L]; [|lia].
    apply H0 in L. congruence. }
  destruct (H L) as [pl' [pr' [E' [_ [_ G]]]]]. rewrite E in E'. injection E' as <- <-.
  pose proof (Z.div_mod n s ltac:(lia)) as D.
  pose proof (Z.mod_pos_bound n s ltac:(lia)) as B.
  destruct (G (mksample (mkfilter k s r) (mkpadding pl pr))) as [G1 _].
  { apply new_sample_iff. auto. }
  rewrite G1 by lia. split.
  - intros Q. injection Q as Q. pose proof (Z.div_mod (n + s - 1) s ltac:(lia)) as D2.
    pose proof (Z.mod_pos_bound (n + s - 1) s ltac:(lia)) as B2. rewrite <- Q in D2. nia.
  - intros Q. f_equal. apply (Z.div_unique _ s _ (s - 1)); lia.
Qed.

Example C06_case : same_padding U32 3 2 1 6 = Ret (mkpadding 0 1)
  /\ sample_len U32 (mksample (mkfilter 3 2 1) (mkpadding 0 1)) 6 = Ret 3.
Proof. vm_compute. auto. Qed.

(** *** C07: invalid filter parameters are rejected, all others accepted. *)
Theorem C07_constructors : 
  (forall k s r pl pr,
     (1 <= k /\ 1 <= s /\ 1 <= r -> exists sp, new_sample k s r pl pr = Ret sp) /\
     (~ (1 <= k /\ 1 <= s /\ 1 <= r) -> new_sample k s r pl pr = Exn InvalidArgument)) /\
  (forall ks ps ss rs,
     length ps = length ks -> length ss = length ks -> length rs = length ks ->
     let good := Forall (fun k => 1 <= k) in
     (good ks /\ good ss /\ good rs -> exists sps, new_multi ks ps ss rs = Ret sps) /\
     (~ (good ks /\ good ss /\ good rs) -> new_multi ks ps ss rs = Exn InvalidArgument)) /\
  (forall kh kw ph pw sh sw,
     (1 <= kh /\ 1 <= kw /\ 1 <= sh /\ 1 <= sw -> exists P, new_pool_kps kh kw ph pw sh sw = Ret P) /\
     (~ (1 <= kh /\ 1 <= kw /\ 1 <= sh /\ 1 <= sw) ->
      new_pool_kps kh kw ph pw sh sw = Exn InvalidArgument)).
Proof.
  split; [|split].
  - intros. split.
    + intros [H1 [H2 H3]]. eexists. apply new_sample_iff. repeat split; auto.
    + intros H. apply new_sample_throws; auto.
  - intros ks ps ss rs L1 L2 L3 good. split.
    + intros [H1 [H2 H3]]. destruct (new_multi_ok ks ps ss rs) as [sps [E _]]; eauto.
    + intros H. apply new_multi_throws; auto.
  - intros. split.
    + intros [H1 [H2 [H3 H4]]]. eexists. apply new_pool_kps_iff; auto.
    + intros H. apply new_pool_kps_throws; auto.
Qed.

Example C07_case : new_sample 3 0 1 0 0 = Exn InvalidArgument
  /\ new_pool = Ret (mkpool (mksample (mkfilter 2 2 1) (mkpadding 0 0)) (mksample (mkfilter 2 2 1) (mkpadding 0 0))).
Proof. vm_compute. auto. Qed.

(** *** C08 (refuted): the geometry wraps silently at 2^32. *)
Theorem C08_no_wrap_refuted : exists k s r pl pr n sp m,
  fits U32 k /\ fits U32 s /\ fits U32 r /\ fits U32 pl /\ fits U32 pr /\ fits U32 n /\
  new_sample k s r pl pr = Ret sp /\ sample_len U32 sp n = Ret m /\
  ~ valid_config k s r pl pr n m.
Proof.
  exists (2 ^ 31 + 1), 1, 2, 0, 0, 7, (mksample (mkfilter (2 ^ 31 + 1) 1 2) (mkpadding 0 0)), 7.
  unfold fits, valid_config, span. repeat split; try lia.
Qed.

(** *** C09: shape accessors and constructors are inverse. *)
Theorem C09_image_shapes : forall n h w c,
  batched_image_shape nhwc n [h; w] c = [n; h; w; c] /\
  batched_image_shape nchw n [h; w] c = [n; c; h; w] /\
  (forall o, o = nhwc \/ o = nchw ->
     batch_size o (batched_image_shape o n [h; w] c) = n /\
     channel_size o (batched_image_shape o n [h; w] c) = c /\
     image_shape o (batched_image_shape o n [h; w] c) = [h; w]) /\
  (forall o x, o = nhwc \/ o = nchw -> length x = rank_of o ->
     batched_image_shape o (batch_size o x) (image_shape o x) (channel_size o x) = x).
Proof.
  intros. split; [reflexivity|]. split; [reflexivity|]. split.
  - intros o [->| ->]; repeat split.
  - intros o x [->| ->] L; destruct x as [|a [|b [|d [|e [|]]]]]; try discriminate; reflexivity.
Qed.

Theorem C09_filter_shapes : forall r s c d,
  conv_filter_shape rscd c [r; s] d = [r; s; c; d] /\
  conv_filter_shape dcrs c [r; s] d = [d; c; r; s] /\
  (forall o, filter_in_channel_size o (conv_filter_shape o c [r; s] d) = c /\
             filter_out_channel_size o (conv_filter_shape o c [r; s] d) = d /\
             filter_shape o (conv_filter_shape o c [r; s] d) = [r; s]) /\
  (forall o x, length x = 4%nat ->
     conv_filter_shape o (filter_in_channel_size o x) (filter_shape o x) (filter_out_channel_size o x) = x).
Proof.
  intros. split; [reflexivity|]. split; [reflexivity|]. split.
  - intros []; repeat split.
  - intros [] x L; destruct x as [|a [|b [|e [|f [|]]]]]; try discriminate; reflexivity.
Qed.

Print Assumptions C01_sample_length.
Print Assumptions C02_taps_in_range.
Print Assumptions C03_inside_unpad.
Print Assumptions C04_valid_padding.
Print Assumptions C05_same_padding.
Print Assumptions C06_same_is_ceil_refuted.
Print Assumptions C06_same_is_ceil_iff.
Print Assumptions C07_constructors.
Print Assumptions C08_no_wrap_refuted.
Print Assumptions C09_image_shapes.
Print Assumptions C09_filter_shapes.
