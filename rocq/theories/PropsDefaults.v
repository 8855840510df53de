(** Property C79: what the shorter constructors of pools, convolutions and
    samples mean. *)
From Coq Require Import ZArith List Bool Lia.
From Verif Require Import Base BaseFacts Traits TraitsSpec TraitsFacts PropsTraits ConvSpec ConvGradFacts PropsConv PoolSpec PropsPool.
Import ListNotations.
Open Scope Z_scope.

(** *** Pools. *)
(** Pools built from a kernel size only cut the image into tiles: every pixel
    belongs to exactly one window. *)
Theorem C79_pool_tiles : forall kh kw P h w p q, new_pool_k kh kw = Ret P -> 0 <= p < h -> 0 <= q < w ->
  exists i j, 0 <= i /\ 0 <= j /\ In (p, q) (window (h_sample P) (w_sample P) h w i j) /\
    forall i' j', In (p, q) (window (h_sample P) (w_sample P) h w i' j') -> i' = i /\ j' = j.
Proof.
  intros kh kw P h w p q E Hp Hq. unfold new_pool_k, new_pool_ks in E.
  assert (K : 1 <= kh /\ 1 <= kw).
  { destruct (Z_lt_dec kh 1), (Z_lt_dec kw 1); try lia; rewrite new_pool_kps_throws in E by lia; discriminate. }
  exists (p / kh), (q / kw).
  pose proof (Z.div_mod p kh ltac:(lia)). pose proof (Z.mod_pos_bound p kh ltac:(lia)).
  pose proof (Z.div_mod q kw ltac:(lia)). pose proof (Z.mod_pos_bound q kw ltac:(lia)).
  split; [apply Z.div_pos; lia|]. split; [apply Z.div_pos; lia|]. split.
  - rewrite (C37_window _ _ _ _ _ _ _ h w _ _ p q E). cbn [left_]. nia.
  - intros i' j'. rewrite (C37_window _ _ _ _ _ _ _ h w _ _ p q E). cbn [left_]. intros (_ & _ & A & B).
    split; [apply (Z.div_unique_pos p kh i' (p - kh * i')); lia|apply (Z.div_unique_pos q kw j' (q - kw * j')); lia].
Qed.

Theorem C79_pool_k : forall kh kw P h w i j p q, new_pool_k kh kw = Ret P ->
  (In (p, q) (window (h_sample P) (w_sample P) h w i j) <->
   0 <= p < h /\ 0 <= q < w /\ i * kh <= p < i * kh + kh /\ j * kw <= q < j * kw + kw).
Proof.
  intros kh kw P h w i j p q E. rewrite (C37_window _ _ _ _ _ _ _ h w _ _ p q E). cbn [left_]. rewrite !Z.add_0_r. tauto.
Qed.

Theorem C79_pool : exists P, new_pool = Ret P /\ forall h w i j p q,
  (In (p, q) (window (h_sample P) (w_sample P) h w i j) <->
   0 <= p < h /\ 0 <= q < w /\ i * 2 <= p < i * 2 + 2 /\ j * 2 <= q < j * 2 + 2).
Proof. eexists. split; [reflexivity|]. intros. apply C79_pool_k. reflexivity. Qed.

Theorem C79_pool_ks : forall kh kw sh sw P h w i j p q, new_pool_ks kh kw sh sw = Ret P ->
  (In (p, q) (window (h_sample P) (w_sample P) h w i j) <->
   0 <= p < h /\ 0 <= q < w /\ i * sh <= p < i * sh + kh /\ j * sw <= q < j * sw + kw).
Proof.
  intros kh kw sh sw P h w i j p q E. rewrite (C37_window _ _ _ _ _ _ _ h w _ _ p q E). cbn [left_]. rewrite !Z.add_0_r. tauto.
Qed.

Theorem C79_pool_kp : forall kh kw ph pw P h w i j p q, new_pool_kp kh kw ph pw = Ret P ->
  (In (p, q) (window (h_sample P) (w_sample P) h w i j) <->
   0 <= p < h /\ 0 <= q < w /\ i * kh <= p + left_ ph < i * kh + kh /\ j * kw <= q + left_ pw < j * kw + kw).
Proof. intros kh kw ph pw P h w i j p q E. exact (C37_window _ _ _ _ _ _ _ h w _ _ p q E). Qed.

(** A tiling pool accepts exactly the images made of whole tiles. *)
Theorem C79_pool_k_shape : forall kh kw P h w h' w', new_pool_k kh kw = Ret P ->
  0 <= h < 2 ^ 32 -> 0 <= w < 2 ^ 32 -> kh < 2 ^ 32 -> kw < 2 ^ 32 ->
  (pool_shape2 P [h; w] = Ret [h'; w'] <-> 1 <= h' /\ 1 <= w' /\ h = h' * kh /\ w = w' * kw).
Proof.
  intros kh kw P h w h' w' E Hh Hw Bh Bw. unfold new_pool_k, new_pool_ks in E.
  assert (K : 1 <= kh /\ 1 <= kw).
  { destruct (Z_lt_dec kh 1), (Z_lt_dec kw 1); try lia; rewrite new_pool_kps_throws in E by lia; discriminate. }
  rewrite new_pool_kps_iff in E by lia. injection E as <-. unfold pool_shape2. cbn [nth h_sample w_sample].
  assert (S : forall k n, 1 <= k < 2 ^ 32 -> 0 <= n < 2 ^ 32 ->
    forall m, sample_len U32 (mksample (mkfilter k k 1) (mkpadding 0 0)) n = Ret m <-> 1 <= m /\ n = m * k).
  { intros k n Hk Hn m.
    destruct (C01_sample_length U32 k k 1 0 0 n ltac:(lia) ltac:(lia) ltac:(lia) ltac:(lia) ltac:(lia) ltac:(lia)
      ltac:(unfold fits; lia) ltac:(unfold fits, span; lia) (mksample (mkfilter k k 1) (mkpadding 0 0))
      ltac:(apply new_sample_iff; repeat split; lia)) as [A _]. rewrite A. unfold valid_config, span. split; intros [? ?]; split; nia. }
  specialize (S kh h ltac:(lia) Hh) as S1. specialize (S kw w ltac:(lia) Hw) as S2. clear S.
  destruct (sample_len U32 _ h) as [a|e|] eqn:E1; cbn [obind].
  - destruct (sample_len U32 _ w) as [b|e|] eqn:E2; cbn [obind].
    + split.
      * intros Q. injection Q as -> ->. destruct (proj1 (S1 h') eq_refl), (proj1 (S2 w') eq_refl). auto.
      * intros (A & B & C & D). assert (Q1 : Ret a = Ret h') by (apply S1; auto). assert (Q2 : Ret b = Ret w') by (apply S2; auto).
        injection Q1 as ->. injection Q2 as ->. reflexivity.
    + split; [discriminate|]. intros (A & B & C & D). pose proof (proj2 (S2 w') (conj B D)). discriminate.
    + split; [discriminate|]. intros (A & B & C & D). pose proof (proj2 (S2 w') (conj B D)). discriminate.
  - split; [discriminate|]. intros (A & B & C & D). pose proof (proj2 (S1 h') (conj A C)). discriminate.
  - split; [discriminate|]. intros (A & B & C & D). pose proof (proj2 (S1 h') (conj A C)). discriminate.
Qed.

(** *** Samples on several axes: kernel sizes, strides and paddings go to their
    axis; what is left out is stride 1, rate 1, padding 0. *)
Definition on_axes (sps : list sample) (ks : list Z) (l r s d : nat -> Z) : Prop :=
  length sps = length ks /\
  forall i sp, nth_error sps i = Some sp ->
    ksize (sfilter sp) = nth i ks 0 /\ stride (sfilter sp) = s i /\ rate (sfilter sp) = d i /\
    left_ (spadding sp) = l i /\ right_ (spadding sp) = r i.

Lemma new_multi_axes : forall ks ps ss rs sps, new_multi ks ps ss rs = Ret sps ->
  on_axes sps ks (fun i => left_ (nth i ps (mkpadding 0 0))) (fun i => right_ (nth i ps (mkpadding 0 0)))
    (fun i => nth i ss 0) (fun i => nth i rs 0).
Proof.
  induction ks as [|k ks IH]; intros [|p ps] [|s ss] [|r rs] sps E; cbn in E; try discriminate.
  - injection E as <-. split; [reflexivity|]. intros [|i]; discriminate.
  - destruct (new_sample k s r (left_ p) (right_ p)) as [sp|e|] eqn:E1; cbn in E; try discriminate.
    destruct (new_multi ks ps ss rs) as [l|e|] eqn:E2; cbn in E; try discriminate. injection E as <-.
    apply new_sample_iff in E1. destruct E1 as (_ & _ & _ & ->).
    destruct (IH ps ss rs l E2) as [L N]. split; [cbn; lia|].
    intros [|i] sp Q; cbn in Q.
    + injection Q as <-. repeat split.
    + cbn. apply N. exact Q.
Qed.

Lemma nth_repeat_lt : forall A (x d : A) n i, (i < n)%nat -> nth i (repeat x n) d = x.
Proof. intros A x d n. induction n as [|n IH]; intros [|i] H; cbn; try lia; auto. apply IH. lia. Qed.

Theorem C79_multi :
  (forall ks sps, new_multi_k ks = Ret sps -> on_axes sps ks (fun _ => 0) (fun _ => 0) (fun _ => 1) (fun _ => 1)) /\
  (forall ks ps sps, new_multi_kp ks ps = Ret sps ->
     on_axes sps ks (fun i => left_ (nth i ps (mkpadding 0 0))) (fun i => right_ (nth i ps (mkpadding 0 0)))
       (fun _ => 1) (fun _ => 1)) /\
  (forall ks ss sps, new_multi_ks ks ss = Ret sps ->
     on_axes sps ks (fun _ => 0) (fun _ => 0) (fun i => nth i ss 0) (fun _ => 1)) /\
  (forall ks ps ss sps, new_multi_kps ks ps ss = Ret sps ->
     on_axes sps ks (fun i => left_ (nth i ps (mkpadding 0 0))) (fun i => right_ (nth i ps (mkpadding 0 0)))
       (fun i => nth i ss 0) (fun _ => 1)) /\
  (forall ks ps ss rs sps, new_multi ks ps ss rs = Ret sps ->
     on_axes sps ks (fun i => left_ (nth i ps (mkpadding 0 0))) (fun i => right_ (nth i ps (mkpadding 0 0)))
       (fun i => nth i ss 0) (fun i => nth i rs 0)).
Proof.
  repeat split; intros; try (match goal with E : _ = Ret ?sps |- length _ = _ => exact (proj1 (new_multi_axes _ _ _ _ _ E)) end);
    match goal with E : _ = Ret ?sps, Q : nth_error ?sps ?i = Some ?sp |- _ =>
      destruct (new_multi_axes _ _ _ _ _ E) as [L N]; destruct (N i sp Q) as (A1 & A2 & A3 & A4 & A5);
      assert (I : (i < length sps)%nat) by (apply nth_error_Some; congruence); rewrite L in I end;
    try assumption;
    unfold default_strides, default_rates, default_paddings in *; rewrite ?nth_repeat_lt in * by lia; assumption.
Qed.

(** *** Convolutions. *)
(** Padding, stride and rate of each axis decide the output size. *)
Theorem C79_conv_psr : forall ph pw sh sw rh rw io n h w c r s d z,
  io = nhwc \/ io = nchw ->
  0 <= left_ ph -> 0 <= right_ ph -> 0 <= left_ pw -> 0 <= right_ pw -> 0 <= h -> 0 <= w ->
  left_ ph + h + right_ ph < 2 ^ 32 -> left_ pw + w + right_ pw < 2 ^ 32 -> span r rh < 2 ^ 32 -> span s rw < 2 ^ 32 ->
  (conv_infer (new_conv_psr ph pw sh sw rh rw) io (fo_of io) (batched_image_shape io n [h; w] c)
     (conv_filter_shape (fo_of io) c [r; s] d) = Ret z <->
   1 <= r /\ 1 <= s /\ 1 <= sh /\ 1 <= sw /\ 1 <= rh /\ 1 <= rw /\
   exists h' w', z = batched_image_shape io n [h'; w'] d /\
     valid_config r sh rh (left_ ph) (right_ ph) h h' /\ valid_config s sw rw (left_ pw) (right_ pw) w w').
Proof.
  intros ph pw sh sw rh rw io n h w c r s d z Hio L1 L2 L3 L4 Hh Hw B1 B2 B3 B4.
  rewrite (proj1 (C19_infer (new_conv_psr ph pw sh sw rh rw) io n h w c c r s d Hio
    (conj L1 (conj L2 (conj Hh (conj B1 B3)))) (conj L3 (conj L4 (conj Hw (conj B2 B4)))))).
  unfold axis_ok, axis_of, new_conv_psr. cbn [h_trait w_trait lstride lrate lpad sfilter spadding ksize stride rate].
  split.
  - intros (_ & h' & w' & A & B & ->). repeat (split; [tauto|]). exists h', w'. tauto.
  - intros (A1 & A2 & A3 & A4 & A5 & A6 & h' & w' & -> & A7 & A8). split; [reflexivity|]. exists h', w'. tauto.
Qed.

(** The default convolution: no padding, stride 1, rate 1. *)
Theorem C79_conv : forall io n h w c r s d, io = nhwc \/ io = nchw ->
  1 <= r <= h -> 1 <= s <= w -> h < 2 ^ 32 -> w < 2 ^ 32 ->
  conv_infer new_conv io (fo_of io) (batched_image_shape io n [h; w] c) (conv_filter_shape (fo_of io) c [r; s] d)
    = Ret (batched_image_shape io n [h - r + 1; w - s + 1] d).
Proof.
  intros io n h w c r s d Hio Hr Hs Hh Hw.
  apply (C79_conv_psr (mkpadding 0 0) (mkpadding 0 0) 1 1 1 1); cbn [left_ right_]; auto; unfold span; try lia.
  repeat (split; [lia|]). eexists _, _. split; [reflexivity|]. unfold valid_config, span. lia.
Qed.

(** Padding only. *)
Theorem C79_conv_p : forall ph pw io n h w c r s d, io = nhwc \/ io = nchw ->
  0 <= left_ ph -> 0 <= right_ ph -> 0 <= left_ pw -> 0 <= right_ pw -> 0 <= h -> 0 <= w ->
  1 <= r <= left_ ph + h + right_ ph -> 1 <= s <= left_ pw + w + right_ pw ->
  left_ ph + h + right_ ph < 2 ^ 32 -> left_ pw + w + right_ pw < 2 ^ 32 ->
  conv_infer (new_conv_p ph pw) io (fo_of io) (batched_image_shape io n [h; w] c) (conv_filter_shape (fo_of io) c [r; s] d)
    = Ret (batched_image_shape io n [left_ ph + h + right_ ph - r + 1; left_ pw + w + right_ pw - s + 1] d).
Proof.
  intros ph pw io n h w c r s d Hio L1 L2 L3 L4 Hh Hw Hr Hs B1 B2.
  apply (C79_conv_psr ph pw 1 1 1 1); auto; unfold span; try lia.
  repeat (split; [lia|]). eexists _, _. split; [reflexivity|]. unfold valid_config, span. lia.
Qed.

(** Stride only: the windows must fill the image exactly. *)
Theorem C79_conv_s : forall sh sw io n c r s d h' w', io = nhwc \/ io = nchw ->
  1 <= sh -> 1 <= sw -> 1 <= r -> 1 <= s -> 1 <= h' -> 1 <= w' ->
  sh * (h' - 1) + r < 2 ^ 32 -> sw * (w' - 1) + s < 2 ^ 32 ->
  conv_infer (new_conv_s sh sw) io (fo_of io) (batched_image_shape io n [sh * (h' - 1) + r; sw * (w' - 1) + s] c)
      (conv_filter_shape (fo_of io) c [r; s] d)
    = Ret (batched_image_shape io n [h'; w'] d).
Proof.
  intros sh sw io n c r s d h' w' Hio H1 H2 Hr Hs Hh Hw B1 B2.
  apply (C79_conv_psr (mkpadding 0 0) (mkpadding 0 0) sh sw 1 1); cbn [left_ right_]; auto; unfold span; try nia.
  repeat (split; [lia|]). eexists _, _. split; [reflexivity|]. unfold valid_config, span. lia.
Qed.

(** Padding and stride. *)
Theorem C79_conv_ps : forall ph pw sh sw io n h w c r s d h' w', io = nhwc \/ io = nchw ->
  0 <= left_ ph -> 0 <= right_ ph -> 0 <= left_ pw -> 0 <= right_ pw -> 0 <= h -> 0 <= w ->
  1 <= sh -> 1 <= sw -> 1 <= r -> 1 <= s -> 1 <= h' -> 1 <= w' ->
  left_ ph + h + right_ ph = sh * (h' - 1) + r -> left_ pw + w + right_ pw = sw * (w' - 1) + s ->
  left_ ph + h + right_ ph < 2 ^ 32 -> left_ pw + w + right_ pw < 2 ^ 32 ->
  conv_infer (new_conv_ps ph pw sh sw) io (fo_of io) (batched_image_shape io n [h; w] c) (conv_filter_shape (fo_of io) c [r; s] d)
    = Ret (batched_image_shape io n [h'; w'] d).
Proof.
  intros ph pw sh sw io n h w c r s d h' w' Hio L1 L2 L3 L4 Hh Hw S1 S2 Hr Hs Hh' Hw' E1 E2 B1 B2.
  apply (C79_conv_psr ph pw sh sw 1 1); auto; unfold span; try nia.
  repeat (split; [lia|]). eexists _, _. split; [reflexivity|]. unfold valid_config, span. lia.
Qed.

Example C79_example :
  (exists P, new_pool_k 2 3 = Ret P /\ pool_shape2 P [4; 9] = Ret [2; 3] /\ pool_shape2 P [5; 9] = Exn InvalidArgument /\
     window (h_sample P) (w_sample P) 4 9 1 2 = [(2, 6); (2, 7); (2, 8); (3, 6); (3, 7); (3, 8)]) /\
  (exists sps, new_multi_ks [2; 3] [1; 2] = Ret sps /\ multi_shape sps [4; 7] = Ret [3; 3]) /\
  conv_infer new_conv nhwc rscd [1; 5; 6; 2] [2; 3; 2; 7] = Ret [1; 4; 4; 7] /\
  conv_infer (new_conv_s 3 1) nchw dcrs [1; 2; 5; 6] [7; 2; 2; 3] = Ret [1; 7; 2; 4].
Proof.
  split; [eexists; split; [reflexivity|vm_compute; auto]|].
  split; [eexists; split; [reflexivity|vm_compute; auto]|]. vm_compute. auto.
Qed.

Print Assumptions C79_pool_tiles.
Print Assumptions C79_pool_k_shape.
Print Assumptions C79_multi.
Print Assumptions C79_conv_psr.
Print Assumptions C79_conv.
