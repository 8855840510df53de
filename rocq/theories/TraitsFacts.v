(** Proofs about the geometry traits. *)
From Coq Require Import ZArith List Bool Lia ZifyBool.
From Verif Require Import Base BaseFacts Traits TraitsSpec.
Import ListNotations.
Open Scope Z_scope.
Open Scope model_scope.

Lemma norm_fits : forall t x, fits t x -> norm t x = Ret x.
Proof.
  intros [] x H; unfold fits in H; cbv beta iota delta [norm].
  - rewrite Z.mod_small by lia. reflexivity.
  - replace ((- 2 ^ 31 <=? x) && (x <? 2 ^ 31)) with true by lia. reflexivity.
Qed.

Lemma fits_between : forall t a x, 0 <= a -> a <= x -> fits t x -> fits t a.
Proof. intros [] a x; unfold fits; lia. Qed.

Lemma irem_fits : forall t a b, fits t a -> 0 <= a -> 1 <= b -> irem t a b = Ret (a mod b).
Proof.
  intros t a b Ha H0 H1. unfold irem. replace (b =? 0) with false by lia.
  rewrite Z.rem_mod_nonneg by lia. apply norm_fits.
  pose proof (Z.mod_pos_bound a b). pose proof (Z.mod_le a b).
  apply (fits_between t _ a); auto; lia.
Qed.

Lemma idiv_fits : forall t a b, fits t a -> 0 <= a -> 1 <= b -> idiv t a b = Ret (a / b).
Proof.
  intros t a b Ha H0 H1. unfold idiv. replace (b =? 0) with false by lia.
  rewrite Z.quot_div_nonneg by lia. apply norm_fits.
  assert (0 <= a / b) by (apply Z.div_pos; lia).
  assert (a / b <= a) by (apply Z.div_le_upper_bound; nia).
  apply (fits_between t _ a); auto.
Qed.

Lemma patch_size_ok : forall t k s r, 1 <= k -> 1 <= r -> fits t (span k r) ->
  patch_size t (mkfilter k s r) = Ret (span k r).
Proof.
  intros t k s r Hk Hr Hf. unfold patch_size, isub, imul, iadd, span in *; cbn [ksize rate].
  assert (0 <= k - 1 <= r * (k - 1)) by nia.
  rewrite (norm_fits t (k - 1)) by (apply (fits_between t _ (r * (k - 1) + 1)); auto; lia).
  cbn [obind].
  rewrite norm_fits by (apply (fits_between t _ (r * (k - 1) + 1)); auto; nia).
  cbn [obind]. replace ((k - 1) * r + 1) with (r * (k - 1) + 1) by ring.
  apply norm_fits; auto.
Qed.

Lemma static_patch_size_ok : forall t k r, 1 <= k -> 1 <= r -> fits t (span k r) ->
  static_patch_size t k r = Ret (span k r).
Proof.
  intros t k r Hk Hr Hf. unfold static_patch_size, isub, imul, iadd, span in *.
  assert (0 <= k - 1 <= r * (k - 1)) by nia.
  rewrite (norm_fits t (k - 1)) by (apply (fits_between t _ (r * (k - 1) + 1)); auto; lia).
  cbn [obind].
  rewrite norm_fits by (apply (fits_between t _ (r * (k - 1) + 1)); auto; nia).
  cbn [obind]. apply norm_fits; auto.
Qed.

Lemma pad_len_ok : forall t pl pr n, 0 <= pl -> 0 <= pr -> 0 <= n -> fits t (pl + n + pr) ->
  pad_len t (mkpadding pl pr) n = Ret (pl + n + pr).
Proof.
  intros t pl pr n Hl Hr Hn Hf. unfold pad_len, iadd; cbn [left_ right_].
  rewrite norm_fits by (apply (fits_between t _ (pl + n + pr)); auto; lia).
  cbn [obind]. apply norm_fits; auto.
Qed.

Lemma span_pos : forall k r, 1 <= k -> 1 <= r -> 1 <= span k r.
Proof. intros. unfold span. nia. Qed.

(** The value of [sample_len] without overflow. *)
Lemma sample_len_val : forall t k s r pl pr n,
  1 <= k -> 1 <= s -> 1 <= r -> 0 <= pl -> 0 <= pr -> 0 <= n ->
  fits t (pl + n + pr) -> fits t (span k r) ->
  sample_len t (mksample (mkfilter k s r) (mkpadding pl pr)) n =
    if pl + n + pr <? span k r then Exn InvalidArgument
    else if (pl + n + pr - span k r) mod s =? 0
         then Ret ((pl + n + pr - span k r) / s + 1)
         else Exn InvalidArgument.
Proof.
  intros t k s r pl pr n Hk Hs Hr Hl Hpr Hn Hf1 Hf2.
  unfold sample_len, filter_len; cbn [sfilter spadding].
  rewrite pad_len_ok by auto. cbn [obind]. rewrite patch_size_ok by auto. cbn [obind].
  pose proof (span_pos k r Hk Hr) as Hsp.
  destruct (Z.ltb_spec (pl + n + pr) (span k r)); auto.
  set (d := pl + n + pr - span k r).
  assert (Hd : 0 <= d < pl + n + pr) by (unfold d; lia).
  assert (Fd : fits t d) by (apply (fits_between t _ (pl + n + pr)); auto; lia).
  unfold isub. fold d. rewrite norm_fits by auto. cbn [obind stride].
  rewrite irem_fits by (auto; lia). cbn [obind].
  destruct (Z.eqb_spec (d mod s) 0); cbn [negb]; auto.
  rewrite idiv_fits by (auto; lia). cbn [obind]. unfold iadd. apply norm_fits.
  assert (0 <= d / s) by (apply Z.div_pos; lia).
  assert (d / s <= d) by (apply Z.div_le_upper_bound; nia).
  apply (fits_between t _ (pl + n + pr)); auto; lia.
Qed.

Lemma sample_len_iff : forall t k s r pl pr n,
  1 <= k -> 1 <= s -> 1 <= r -> 0 <= pl -> 0 <= pr -> 0 <= n ->
  fits t (pl + n + pr) -> fits t (span k r) ->
  (forall m, sample_len t (mksample (mkfilter k s r) (mkpadding pl pr)) n = Ret m
             <-> valid_config k s r pl pr n m) /\
  ((forall m, ~ valid_config k s r pl pr n m) ->
   sample_len t (mksample (mkfilter k s r) (mkpadding pl pr)) n = Exn InvalidArgument).
Proof.
  intros t k s r pl pr n Hk Hs Hr Hl Hpr Hn Hf1 Hf2.
  rewrite sample_len_val by auto. unfold valid_config.
  set (d := pl + n + pr - span k r).
  assert (Ed : n + pl + pr - span k r = d) by (unfold d; ring). 
  split.
  - intros m. rewrite Ed. destruct (Z.ltb_spec (pl + n + pr) (span k r)) as [L|L].
    + split; [discriminate|]. intros [H1 H2]. unfold d in H2. nia.
    + destruct (Z.eqb_spec (d mod s) 0) as [E|E].
      * assert (D : d = s * (d / s)) by (pose proof (Z.div_mod d s); lia).
        assert (0 <= d / s) by (apply Z.div_pos; unfold d in *; lia).
        split.
        -- intros H1. injection H1 as <-. split; [lia|]. rewrite Z.add_simpl_r. lia.
        -- intros [H1 H2]. f_equal. assert (m - 1 = d / s) by nia. lia.
      * split; [discriminate|]. intros [H1 H2]. exfalso. apply E. rewrite <- H2.
        rewrite Z.mul_comm. apply Z.mod_mul. lia.
  - intros H. destruct (Z.ltb_spec (pl + n + pr) (span k r)) as [L|L]; auto.
    destruct (Z.eqb_spec (d mod s) 0) as [E|E]; auto.
    exfalso. apply (H (d / s + 1)). rewrite Ed.
    assert (0 <= d / s) by (apply Z.div_pos; unfold d in *; lia).
    pose proof (Z.div_mod d s). split; [lia|]. rewrite Z.add_simpl_r. lia.
Qed.

Lemma tap_bounds : forall k s r pl pr n m j u,
  1 <= k -> 1 <= s -> 1 <= r ->
  valid_config k s r pl pr n m -> 0 <= j < m -> 0 <= u < k ->
  0 <= tap s r j u < n + pl + pr.
Proof.
  unfold valid_config, span, tap. intros k s r pl pr n m j u Hk Hs Hr [Hm E] Hj Hu.
  assert (0 <= j * s <= s * (m - 1)) by nia.
  assert (0 <= u * r <= r * (k - 1)) by nia. lia.
Qed.

Lemma filter_pos_ok : forall t k s r j u B,
  1 <= s -> 1 <= r -> 0 <= j -> 0 <= u -> tap s r j u <= B -> fits t B ->
  filter_pos t (mkfilter k s r) j u = Ret (tap s r j u).
Proof.
  intros t k s r j u B Hs Hr Hj Hu Hb Hf. unfold filter_pos, imul, iadd, tap in *; cbn [stride rate].
  assert (0 <= j * s) by nia. assert (0 <= u * r) by nia.
  rewrite norm_fits by (apply (fits_between t _ B); auto; lia). cbn [obind].
  rewrite norm_fits by (apply (fits_between t _ B); auto; lia). cbn [obind].
  apply norm_fits. apply (fits_between t _ B); auto; lia.
Qed.

Lemma sample_taps : forall t k s r pl pr n m,
  1 <= k -> 1 <= s -> 1 <= r -> 0 <= pl -> 0 <= pr -> 0 <= n ->
  fits t (pl + n + pr) -> fits t (span k r) ->
  sample_len t (mksample (mkfilter k s r) (mkpadding pl pr)) n = Ret m ->
  forall j u, 0 <= j < m -> 0 <= u < k ->
    sample_pos t (mksample (mkfilter k s r) (mkpadding pl pr)) j u = Ret (tap s r j u) /\
    0 <= tap s r j u < pl + n + pr.
Proof.
  intros t k s r pl pr n m Hk Hs Hr Hl Hpr Hn Hf1 Hf2 E j u Hj Hu.
  apply (proj1 (sample_len_iff t k s r pl pr n Hk Hs Hr Hl Hpr Hn Hf1 Hf2) m) in E.
  pose proof (tap_bounds k s r pl pr n m j u Hk Hs Hr E Hj Hu) as B.
  split; [|lia]. unfold sample_pos; cbn [sfilter].
  apply filter_pos_ok with (B := pl + n + pr); auto; lia.
Qed.

Lemma pad_inside_val : forall t pl pr i n, 0 <= pl -> 0 <= n -> fits t (pl + n) ->
  pad_inside t (mkpadding pl pr) i n = Ret ((pl <=? i) && (i <? pl + n)).
Proof.
  intros t pl pr i n Hl Hn Hf. unfold pad_inside, iadd; cbn [left_].
  destruct (Z.leb_spec pl i); [|reflexivity]. rewrite norm_fits by auto. reflexivity.
Qed.

Lemma pad_unpad_val : forall t pl pr i n, pl <= i < pl + n -> 0 <= pl -> fits t (pl + n) ->
  pad_unpad t (mkpadding pl pr) i = Ret (i - pl).
Proof.
  intros t pl pr i n Hi Hl Hf. unfold pad_unpad, isub; cbn [left_].
  apply norm_fits. apply (fits_between t _ (pl + n)); auto; lia.
Qed.

(** ** Paddings *)

Lemma even_padding_ok : forall t p, 0 <= p -> fits t p ->
  even_padding t p = Ret (mkpadding (p / 2) (p - p / 2)).
Proof.
  intros t p H0 Hf. unfold even_padding. rewrite idiv_fits by (auto; lia). cbn [obind].
  unfold isub. rewrite norm_fits; [reflexivity|].
  assert (0 <= p / 2) by (apply Z.div_pos; lia).
  assert (p / 2 <= p) by (apply Z.div_le_upper_bound; lia).
  apply (fits_between t _ p); auto; lia.
Qed.

Lemma mod_shift : forall a b s, 1 <= s -> (a + s - b mod s) mod s = (a - b) mod s.
Proof.
  intros a b s Hs. rewrite Z.mod_eq with (a := b) by lia.
  replace (a + s - (b - s * (b / s))) with (a - b + (1 + b / s) * s) by ring.
  apply Z.mod_add. lia.
Qed.

Lemma valid_padding_val : forall t k s r n,
  1 <= k -> 1 <= s -> 1 <= r -> 0 <= n -> fits t (span k r + s) -> fits t n ->
  let p := (span k r - n) mod s in
  valid_padding t k s r n = Ret (mkpadding (p / 2) (p - p / 2)).
Proof.
  intros t k s r n Hk Hs Hr Hn Hf Hfn p. pose proof (span_pos k r Hk Hr) as Hp.
  unfold valid_padding.
  rewrite static_patch_size_ok; auto; [|apply (fits_between t _ (span k r + s)); auto; lia].
  cbn [obind]. unfold iadd. rewrite norm_fits by auto. cbn [obind].
  rewrite irem_fits by auto. cbn [obind]. unfold isub.
  pose proof (Z.mod_pos_bound n s ltac:(lia)) as B.
  rewrite norm_fits by (apply (fits_between t _ (span k r + s)); auto; lia). cbn [obind].
  rewrite irem_fits; [|apply (fits_between t _ (span k r + s)); auto; lia|lia|lia].
  cbn [obind]. rewrite mod_shift by lia. fold p.
  pose proof (Z.mod_pos_bound (span k r - n) s ltac:(lia)) as B2. fold p in B2.
  apply even_padding_ok; [lia|]. apply (fits_between t _ (span k r + s)); auto; lia.
Qed.

Lemma valid_padding_minimal : forall k s r n,
  1 <= s -> let p := (span k r - n) mod s in
  0 <= p < s /\ (n + p - span k r) mod s = 0 /\
  (forall q, 0 <= q -> (n + q - span k r) mod s = 0 -> p <= q).
Proof.
  intros k s r n Hs p. pose proof (Z.mod_pos_bound (span k r - n) s ltac:(lia)) as B. fold p in B.
  split; [exact B|]. split.
  - unfold p. rewrite (Z.mod_eq (span k r - n) s) by lia.
    replace (n + (span k r - n - s * ((span k r - n) / s)) - span k r)
      with ((- ((span k r - n) / s)) * s) by ring.
    apply Z.mod_mul. lia.
  - intros q Hq E. destruct (Z_lt_dec q s) as [L|L]; [|lia].
    apply Z.mod_divide in E; [|lia]. destruct E as [c E].
    assert (p = q); [|lia]. unfold p.
    replace (span k r - n) with (q + (- c) * s) by lia.
    rewrite Z.mod_add by lia. apply Z.mod_small. lia.
Qed.

Lemma same_padding_val : forall t k s r n,
  1 <= k -> 1 <= s -> 1 <= r -> 0 <= n -> fits t (span k r) -> fits t (s + n mod s) -> fits t n ->
  let p := span k r - s - n mod s in
  same_padding t k s r n =
    if span k r <? s + n mod s then Exn RuntimeError else Ret (mkpadding (p / 2) (p - p / 2)).
Proof.
  intros t k s r n Hk Hs Hr Hn Hf Hf2 Hfn p. pose proof (span_pos k r Hk Hr) as Hp.
  unfold same_padding.
  rewrite static_patch_size_ok by auto. cbn [obind].
  rewrite irem_fits by auto. cbn [obind]. unfold iadd. rewrite norm_fits by auto. cbn [obind].
  pose proof (Z.mod_pos_bound n s ltac:(lia)) as B.
  unfold ocontract. rewrite Z.leb_antisym.
  destruct (Z.ltb_spec (span k r) (s + n mod s)); cbn [negb obind]; auto.
  unfold isub. rewrite norm_fits by (apply (fits_between t _ (span k r)); auto; lia). cbn [obind].
  rewrite norm_fits by (apply (fits_between t _ (span k r)); auto; lia). cbn [obind].
  apply even_padding_ok; unfold p; [lia|]. apply (fits_between t _ (span k r)); auto; lia.
Qed.

(** ** Multi-dimensional samples *)

Lemma new_filter_iff : forall k s r f,
  new_filter k s r = Ret f <-> (1 <= k /\ 1 <= s /\ 1 <= r /\ f = mkfilter k s r).
Proof.
  intros k s r f. unfold new_filter.
  destruct (Z.ltb_spec k 1), (Z.ltb_spec s 1), (Z.ltb_spec r 1);
    (split; [intros E; try discriminate; injection E as <-; repeat split; auto|
             intros [? [? [? ->]]]; try lia; auto]).
Qed.

Lemma new_filter_throws : forall k s r,
  new_filter k s r = Exn InvalidArgument <-> ~ (1 <= k /\ 1 <= s /\ 1 <= r).
Proof.
  intros k s r. unfold new_filter.
  destruct (Z.ltb_spec k 1), (Z.ltb_spec s 1), (Z.ltb_spec r 1);
    (split; [intros E; try discriminate; lia| intros; try reflexivity; lia]).
Qed.

Lemma new_sample_iff : forall k s r pl pr sp,
  new_sample k s r pl pr = Ret sp <->
  (1 <= k /\ 1 <= s /\ 1 <= r /\ sp = mksample (mkfilter k s r) (mkpadding pl pr)).
Proof.
  intros. unfold new_sample. split.
  - destruct (new_filter k s r) as [f|e|] eqn:E; cbn [obind]; try discriminate.
    apply new_filter_iff in E. destruct E as [? [? [? ->]]]. intros E. injection E as <-. auto.
  - intros [H1 [H2 [H3 ->]]].
    assert (E : new_filter k s r = Ret (mkfilter k s r)) by (apply new_filter_iff; auto).
    rewrite E. reflexivity.
Qed.

Lemma new_sample_throws : forall k s r pl pr,
  new_sample k s r pl pr = Exn InvalidArgument <-> ~ (1 <= k /\ 1 <= s /\ 1 <= r).
Proof.
  intros. rewrite <- new_filter_throws. unfold new_sample, new_filter.
  destruct (k <? 1), (s <? 1), (r <? 1); cbn [obind]; split; congruence.
Qed.

Lemma new_multi_ok : forall ks ps ss rs,
  length ps = length ks -> length ss = length ks -> length rs = length ks ->
  Forall (fun k => 1 <= k) ks -> Forall (fun k => 1 <= k) ss -> Forall (fun k => 1 <= k) rs ->
  exists sps, new_multi ks ps ss rs = Ret sps /\ length sps = length ks /\
    forall i, (i < length ks)%nat ->
      nth i sps (mksample (mkfilter 0 0 0) (mkpadding 0 0)) =
      mksample (mkfilter (nth i ks 0) (nth i ss 0) (nth i rs 0)) (nth i ps (mkpadding 0 0)).
Proof.
  induction ks as [|k ks IH]; intros [|p ps] [|s ss] [|r rs] L1 L2 L3 F1 F2 F3; try discriminate.
  - exists []. repeat split; auto. intros i Hi. simpl in Hi. lia.
  - inversion F1; inversion F2; inversion F3; subst.
    destruct (IH ps ss rs) as [sps [E [L N]]]; auto.
    cbn [new_multi].
    assert (E1 : new_sample k s r (left_ p) (right_ p)
                 = Ret (mksample (mkfilter k s r) (mkpadding (left_ p) (right_ p))))
      by (apply new_sample_iff; auto).
    rewrite E1. cbn [obind]. rewrite E. cbn [obind].
    eexists. split; [reflexivity|]. split; [simpl; auto|].
    intros [|i] Hi; simpl.
    + destruct p; reflexivity.
    + apply N. simpl in Hi. lia.
Qed.

Lemma new_multi_throws : forall ks ps ss rs,
  length ps = length ks -> length ss = length ks -> length rs = length ks ->
  ~ (Forall (fun k => 1 <= k) ks /\ Forall (fun k => 1 <= k) ss /\ Forall (fun k => 1 <= k) rs) ->
  new_multi ks ps ss rs = Exn InvalidArgument.
Proof.
  induction ks as [|k ks IH]; intros [|p ps] [|s ss] [|r rs] L1 L2 L3 H; try discriminate.
  - exfalso. apply H. repeat split; constructor.
  - cbn [new_multi].
    destruct (new_sample k s r (left_ p) (right_ p)) as [sp|e|] eqn:E; cbn [obind].
    + apply new_sample_iff in E. destruct E as [H1 [H2 [H3 _]]].
      rewrite IH; auto. intros [F1 [F2 F3]]. apply H. repeat split; constructor; auto.
    + unfold new_sample, new_filter in E.
      destruct (k <? 1), (s <? 1), (r <? 1); cbn [obind] in E; congruence.
    + unfold new_sample, new_filter in E.
      destruct (k <? 1), (s <? 1), (r <? 1); cbn [obind] in E; congruence.
Qed.

Lemma new_pool_kps_iff : forall kh kw ph pw sh sw,
  1 <= kh -> 1 <= kw -> 1 <= sh -> 1 <= sw ->
  new_pool_kps kh kw ph pw sh sw =
  Ret (mkpool (mksample (mkfilter kh sh 1) ph) (mksample (mkfilter kw sw 1) pw)).
Proof.
  intros kh kw [a b] [c d] sh sw H1 H2 H3 H4. unfold new_pool_kps.
  assert (E : forall k s p, 1 <= k -> 1 <= s ->
     new_sample k s 1 (left_ p) (right_ p) = Ret (mksample (mkfilter k s 1) p)).
  { intros k s [x y] Hk Hs. apply new_sample_iff. repeat split; auto; lia. }
  rewrite !E by auto. reflexivity.
Qed.

Lemma new_pool_kps_throws : forall kh kw ph pw sh sw,
  ~ (1 <= kh /\ 1 <= kw /\ 1 <= sh /\ 1 <= sw) ->
  new_pool_kps kh kw ph pw sh sw = Exn InvalidArgument.
Proof.
  intros kh kw ph pw sh sw H. unfold new_pool_kps, new_sample, new_filter.
  destruct (Z.ltb_spec kh 1); auto. destruct (Z.ltb_spec sh 1); auto. cbn [obind Z.ltb Z.compare].
  destruct (Z.ltb_spec kw 1); auto. destruct (Z.ltb_spec sw 1); auto. lia.
Qed.

(** ** Convolution shapes *)

Lemma lconv_len_val : forall pl pr s r n k,
  0 <= pl -> 0 <= pr -> 0 <= n -> 1 <= k -> 1 <= s -> 1 <= r ->
  fits U32 (pl + n + pr) -> fits U32 (span k r) ->
  lconv_len (mklconv (mkpadding pl pr) s r) n k
  = sample_len U32 (mksample (mkfilter k s r) (mkpadding pl pr)) n.
Proof.
  intros. unfold lconv_len, lconv_sample; cbn [lpad lstride lrate left_ right_].
  assert (E : new_sample k s r pl pr = Ret (mksample (mkfilter k s r) (mkpadding pl pr)))
    by (apply new_sample_iff; auto).
  rewrite E. reflexivity.
Qed.

(** Decidability of the valid-configuration predicate. *)
Lemma valid_config_dec : forall k s r pl pr n, 1 <= s ->
  {m | valid_config k s r pl pr n m} + {forall m, ~ valid_config k s r pl pr n m}.
Proof.
  intros k s r pl pr n Hs. set (d := n + pl + pr - span k r).
  destruct (Z_lt_dec d 0) as [L|L].
  - right. intros m [Hm E]. fold d in E. nia.
  - destruct (Z.eq_dec (d mod s) 0) as [E|E].
    + left. exists (d / s + 1). unfold valid_config. fold d.
      pose proof (Z.div_mod d s). assert (0 <= d / s) by (apply Z.div_pos; lia). lia.
    + right. intros m [Hm E2]. fold d in E2. apply E. rewrite <- E2, Z.mul_comm. apply Z.mod_mul. lia.
Qed.

Lemma valid_config_unique : forall k s r pl pr n m m', 1 <= s ->
  valid_config k s r pl pr n m -> valid_config k s r pl pr n m' -> m = m'.
Proof. unfold valid_config. intros. nia. Qed.
