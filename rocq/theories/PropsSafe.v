(** C92: which memory an operator may change when its operands do not fit. *)
From Coq Require Import ZArith List Bool Lia QArith.
From Verif Require Import Base BaseFacts Traits Scalar LinAlg Init Elem Conv Conv1d Pool Activation Summary Utility
  Transpose Reshape Hash Demo SafeSpec SafeFacts PropsLayers2.
Import ListNotations.
Open Scope Z_scope.
Open Scope model_scope.

(** The inputs may have any shape, overlap anything and hold anything. *)
Section Confined.
  Context {V T : Type} (dt : dtype V T) (sc : scalar T).

  (** Matrix products, both engines. *)
  Theorem C92_products : forall e z x y, length (tdims z) = 2%nat ->
    stays_in z (op_matmul dt sc e z x y) /\ stays_in z (grad_matmul0 dt sc e z x y) /\ stays_in z (grad_matmul1 dt sc e z x y).
  Proof using.
    intros e z x y L. repeat split; apply keeps_stays.
    - apply k_mm_keeps; auto.
    - apply k_mmt_keeps; auto.
    - apply k_mtm_keeps; auto.
  Qed.

  (** Matrix by vector: the builtin engine. *)
  Theorem C92_products_vector : forall z x y, length (tdims z) = 1%nat ->
    stays_in z (mv dt sc x y z) /\ stays_in z (vm dt sc x y z).
  Proof using. intros z x y L. split; apply keeps_stays; [apply mv_keeps|apply vm_keeps]; auto. Qed.

  (** Convolutions and their gradients, whatever the geometry. *)
  Theorem C92_conv : forall di e C z x y, dims_ok z -> length (tdims z) = 4%nat ->
    stays_in z (conv_nhwc dt di sc e C z x y) /\ stays_in z (conv_nchw dt sc e C z x y) /\
    stays_in z (conv_grad_y dt sc e C z x y) /\
    (0 <= left_ (lpad (h_trait C)) -> 0 <= left_ (lpad (w_trait C)) -> stays_in z (conv_grad_x dt sc e C z x y)).
  Proof using.
    intros di e C z x y D L. split; [|split; [|split]]; [..|intros LH LW]; apply keeps_stays.
    - apply conv_nhwc_keeps.
    - apply conv_nchw_keeps; auto.
    - apply conv_grad_y_keeps.
    - apply conv_grad_x_keeps; auto.
  Qed.

  (** Unfolding and folding of single images; pools of single images. *)
  Theorem C92_sampling : forall H W A z x,
    (length (tdims z) = 4%nat -> stays_in z (im2col_hwrs dt sc H W z x) /\ stays_in z (im2col_rshw dt sc H W z x)) /\
    (length (tdims z) = 5%nat -> stays_in z (im2col_hwrsc dt sc H W z x)) /\
    (length (tdims z) = 3%nat -> dims_ok z -> 0 <= left_ (spadding H) -> 0 <= left_ (spadding W) ->
     stays_in z (col2im dt sc H W z x)) /\
    (length (tdims z) = 2%nat -> stays_in z (pool_hw dt A H W z x)) /\
    (length (tdims z) = 3%nat -> stays_in z (pool_hwc dt A H W z x)).
  Proof using.
    intros H W A z x. split; [intros L; split|split; [|split; [|split]]]; intros; apply keeps_stays.
    - apply im2col_hwrs_keeps; auto.
    - apply im2col_rshw_keeps; auto.
    - apply im2col_hwrsc_keeps; auto.
    - apply col2im_keeps; auto.
    - apply pool_hw_keeps; auto.
    - apply pool_hwc_keeps; auto.
  Qed.

  (** One dimension. *)
  Theorem C92_sampling1 : forall sp c z x y,
    (length (tdims z) = 2%nat -> stays_in z (im2col1d dt sc sp z x)) /\
    (length (tdims z) = 1%nat -> dims_ok z -> stays_in z (col2im1d dt sc sp z x)) /\
    (length (tdims z) = 1%nat -> stays_in z (conv1d dt sc c z x y)).
  Proof using.
    intros sp c z x y. repeat split; intros; apply keeps_stays.
    - apply im2col1d_keeps; auto.
    - apply col2im1d_keeps; auto.
    - apply conv1d_keeps; auto.
  Qed.

  (** Operators of any rank, and those with a single result. *)
  Theorem C92_others : forall (dn : dtype V Z) {R S_} (dr : dtype V R) (ds : dtype V S_) (f : S_ -> R) N r log_ c z x y,
    stays_in z (op_cast dr ds f z x) /\ stays_in z (op_argmax dn N dt sc r z x) /\
    stays_in z (op_xentropy dt sc log_ r z x y) /\
    stays_in z (grad_bias1_hw dt sc z x) /\ stays_in z (grad_bias1_nhwc dt sc z x) /\
    stays_in z (init_zeros dt sc z) /\ stays_in z (init_ones dt sc z) /\ stays_in z (init_constant dt c z) /\
    stays_in z (init_uniform dt sc z) /\
    (tdims z = [] -> forall w poly rep neqb, stays_in z (op_similarity dt sc ds neqb z x y) /\ stays_in z (op_crc w poly dn dt rep z x)) /\
    (length (tdims z) = 4%nat -> forall u, stays_in z (concat_nchw2 dt z x y) /\ stays_in z (concat_nhwc3 dt z x y u)).
  Proof using.
    intros dn R S_ dr ds f N r log_ c z x y.
    assert (F : forall v, keeps (foot z) (fill dt (flat z) v)) by (intros v; apply k_fill, flat_foot).
    repeat split; intros; apply keeps_stays; try (exact (F _)).
    - apply cast_keeps.
    - apply argmax_keeps.
    - apply xentropy_keeps.
    - apply outter_keeps.
    - apply outter_keeps.
    - unfold init_uniform. apply keeps_lift_bind. auto.
    - apply similarity_keeps. unfold size. rewrite H. reflexivity.
    - apply crc_keeps. unfold size. rewrite H. reflexivity.
    - apply concat_nchw2_keeps. auto.
    - apply concat_nhwc3_keeps. auto.
  Qed.

  (** These take their loop bounds from an input: that input has to fit. *)
  Theorem C92_elementwise : forall {R S_} (dr : dtype V R) (ds : dtype V S_) f g z x y a, size x <= size z ->
    stays_in z (op_identity dt z x) /\ stays_in z (op_pointwise dt g z x) /\ stays_in z (op_relu dt sc z x) /\
    stays_in z (copy_flatten dt z x) /\ stays_in z (grad_copy_flatten dt z x) /\
    stays_in z (transform1 dr ds f (flat z) (flat x)) /\
    stays_in z (op_add dt sc z x y) /\ stays_in z (op_sub dt sc z x y) /\ stays_in z (op_mul dt sc z x y) /\
    stays_in z (op_div dt sc z x y) /\ stays_in z (op_axpy dt sc z a x y) /\ stays_in z (op_relu_grad dt sc z x y).
  Proof using.
    intros R S_ dr ds f g z x y a H. repeat split; apply keeps_stays;
      first [apply flat1_keeps; exact H|apply flat2_keeps; exact H|apply transform1_keeps; exact H|apply axpy_keeps; exact H].
  Qed.

  Theorem C92_bias_bn : forall o f norm z x y m v, dims_ok z ->
    (o = hw \/ o = nchw -> length (tdims z) = rank_of o -> size x <= size z -> stays_in z (op_bias dt o f z x y)) /\
    (length (tdims z) = 4%nat -> length (tdims x) = 4%nat -> nth_dim x 3 <= nth_dim z 3 -> stays_in z (op_bias dt nhwc f z x y)) /\
    (length (tdims z) = 4%nat -> (forall k, (k < 4)%nat -> nth_dim x k <= nth_dim z k) -> stays_in z (op_bn dt o norm z x m v)).
  Proof using.
    intros o f norm z x y m v D. split; [|split]; intros; apply keeps_stays.
    - apply bias_keeps; auto. intros ->. destruct H; discriminate.
    - apply bias_keeps; auto. congruence.
    - apply bn_keeps; auto.
  Qed.

  Theorem C92_batched : forall di A P H W z x, dims_ok z -> nth_dim x 0 <= nth_dim z 0 ->
    (length (tdims z) = 4%nat -> stays_in z (op_pool_nhwc dt A P z x)) /\
    (length (tdims z) = 4%nat -> nth_dim x 1 <= nth_dim z 1 -> stays_in z (op_pool_nchw dt A P z x)) /\
    (length (tdims z) = 6%nat -> stays_in z (im2col_nhwc dt di sc H W z x)).
  Proof using.
    intros di A P H W z x D N. split; [|split]; intros; apply keeps_stays.
    - apply pool_nhwc_keeps; auto.
    - apply pool_nchw_keeps; auto.
    - apply im2col_nhwc_keeps; auto.
  Qed.

  Theorem C92_rows : forall (dn : dtype V Z) N div_n exp_ eps z x y w, dims_ok z -> length (tdims x) = 2%nat ->
    (length (tdims z) = 1%nat -> nth_dim x 0 <= nth_dim z 0 ->
     stays_in z (inner_contraction dt sc z x) /\ stays_in z (op_mean dt sc div_n 1 z x)) /\
    (length (tdims z) = 2%nat -> nth_dim x 0 <= nth_dim z 0 -> stays_in z (softmax_grad2 dt sc z y w x)) /\
    (length (tdims z) = 2%nat -> nth_dim x 0 <= nth_dim z 0 -> nth_dim x 1 <= nth_dim z 1 ->
     stays_in z (op_softmax dt sc exp_ 2 eps z x) /\ stays_in z (xentropy_grad2 dt sc z y x w)) /\
    (length (tdims z) = 2%nat -> 0 < it_bits N -> size y <= nth_dim z 0 -> stays_in z (op_onehot dn N dt sc 1 z y)).
  Proof using.
    intros dn N div_n exp_ eps z x y w D Lx. repeat split; intros; apply keeps_stays.
    - apply inner_keeps. rewrite vec_size; auto.
    - apply mean_keeps; auto. rewrite vec_size; auto.
    - apply softmax_grad_keeps; auto.
    - apply softmax_keeps; auto.
    - apply xentropy_grad_keeps; auto.
    - apply onehot_keeps; auto.
  Qed.

  Theorem C92_transpose : forall {R S_} (dr : dtype V R) (ds : dtype V S_) f n h w c z x, length (tdims z) = 4%nat ->
    (tdims x = [n; h; w; c] -> n <= nth_dim z 0 -> c <= nth_dim z 1 -> h <= nth_dim z 2 -> w <= nth_dim z 3 ->
     stays_in z (to_first dr ds f z x)) /\
    (tdims x = [n; c; h; w] -> n <= nth_dim z 0 -> h <= nth_dim z 1 -> w <= nth_dim z 2 -> c <= nth_dim z 3 ->
     stays_in z (to_last dr ds f z x)).
  Proof using.
    intros R S_ dr ds f n h w c z x L.
    split; intros E; intros; apply keeps_stays; [apply to_first_keeps|apply to_last_keeps]; auto; unfold nth_dim at 1; rewrite E; auto.
  Qed.

  Theorem C92_top : forall (dn : dtype V Z) N y z x, 0 < it_bits N -> length (tdims y) = 1%nat -> length (tdims z) = 1%nat ->
    dims_ok y -> nth_dim y 0 <= nth_dim z 0 -> stays_in2 y z (op_top dt dn N sc y z x).
  Proof using.
    intros dn N y z x B Ly Lz D H s Hf. pose proof (top_keeps dt sc dn N y z x B Ly Lz D H s Hf) as K.
    destruct (op_top dt dn N sc y z x s); auto; destruct K as (_ & _ & K); intros p H1 H2; apply K; intros [Q|Q]; auto.
  Qed.
End Confined.

(** The condition is exactly this one: sums and products of integer tensors. *)
Theorem C92_exact : forall z x y, dims_ok z ->
  (stays_in z (op_add zt Zsc z x y) <-> size x <= size z) /\ (stays_in z (op_mul zt Zsc z x y) <-> size x <= size z).
Proof.
  intros z x y D.
  assert (X : forall m : M Z unit, stays_in z m -> escapes z m -> False).
  { intros m S_ (s & s' & F & _ & E & p & Hp & C). specialize (S_ s F). rewrite E in S_. destruct S_ as (_ & S_). apply C, S_, Hp. }
  split; (split; [intros S_; destruct (Z_le_gt_dec (size x) (size z)) as [|G]; [auto|exfalso; apply (X _ S_)]|
                  intros H; apply keeps_stays, flat2_keeps; auto]).
  - apply (grow_escapes (fun a b => a + b) z x y); auto; lia.
  - apply (grow_escapes (fun a b => a * b) z x y); auto; [nia|lia].
Qed.

(** ** Witnesses *)

Definition mappedb {V} (s : st V) (z : tensor) : bool :=
  forallb (fun o => match cells s (daddr z o) with Unmapped => false | _ => true end) (zrange (size z)).
Definition differ {V} (eqb : V -> V -> bool) (a b : cell V) : bool :=
  match a, b with Init v, Init w => negb (eqb v w) | _, _ => false end.
(** The element just behind [z] is changed. *)
Definition overrun {V} (eqb : V -> V -> bool) (l : list (list V)) (z : tensor) (m : M V unit) : bool :=
  mappedb (demo l) z &&
  match m (demo l) with Ok _ s' => differ eqb (cells s' (daddr z (size z))) (cells (demo l) (daddr z (size z))) | _ => false end.

Lemma overrun_escapes : forall {V} (eqb : V -> V -> bool) (refl : forall v, eqb v v = true) l z m,
  overrun eqb l z m = true -> escapes z m.
Proof.
  intros V eqb refl l z m E. apply andb_prop in E as [E1 E2]. destruct (m (demo l)) as [[] s'|e s'|] eqn:Em; try discriminate E2.
  exists (demo l), s'. split; [apply demo_fresh|]. split.
  - intros p (o & Ho & ->). unfold mappedb in E1. rewrite forallb_forall in E1. specialize (E1 o (proj2 (in_zrange _ _) Ho)).
    destruct (cells (demo l) (daddr z o)); [discriminate E1|discriminate|discriminate].
  - split; [exact Em|]. exists (daddr z (size z)). split; [intros (o & Ho & Q); apply daddr_inj in Q; lia|].
    intros Q. rewrite Q in E2. unfold differ in E2. destruct (cells (demo l) (daddr z (size z))); try discriminate E2.
    rewrite refl in E2. discriminate E2.
Qed.

Ltac spill l := apply (overrun_escapes Z.eqb Z.eqb_refl l); vm_compute; reflexivity.

(** Block 0 is the output buffer, of which the output is the first element;
    the input in block 1 has two. *)
Definition buffers : list (list Z) := [[10; 20; 30; 40]; [3; 4]; [7; 6]; [1]].

Theorem C92_elementwise_refuted :
  let z := T_ 0 [1] in let x := T_ 1 [2] in let y := T_ 2 [2] in
  escapes z (op_identity zt z x) /\ escapes z (op_relu zt Zsc z x) /\ escapes z (copy_flatten zt z x) /\
  escapes z (op_add zt Zsc z x y) /\ escapes z (op_sub zt Zsc z x y) /\ escapes z (op_mul zt Zsc z x y) /\
  escapes z (op_axpy zt Zsc z (T_ 3 []) x y) /\ escapes z (op_relu_grad zt Zsc z x y).
Proof. cbv zeta. repeat split; spill buffers. Qed.

Theorem C92_bias_bn_refuted :
  escapes (T_ 0 [1; 1]) (op_bias zt hw (f_add Zsc) (T_ 0 [1; 1]) (T_ 1 [1; 2]) (T_ 2 [2])) /\
  escapes (T_ 0 [1; 1; 1; 1]) (op_bias zt nchw (f_add Zsc) (T_ 0 [1; 1; 1; 1]) (T_ 1 [1; 2; 1; 1]) (T_ 2 [2])) /\
  escapes (T_ 0 [1; 1; 1; 1]) (op_bias zt nhwc (f_add Zsc) (T_ 0 [1; 1; 1; 1]) (T_ 1 [1; 1; 1; 2]) (T_ 2 [2])) /\
  (forall o, escapes (T_ 0 [1; 1; 1; 1])
     (op_bn zt o (fun x m v => Ret (x - m)) (T_ 0 [1; 1; 1; 1]) (T_ 1 [2; 1; 1; 1]) (T_ 2 [1]) (T_ 3 [1]))).
Proof. repeat split; try (intros []); spill buffers. Qed.

Theorem C92_batched_refuted : exists H P,
  new_sample 1 1 1 0 0 = Ret H /\ new_pool_k 1 1 = Ret P /\
  escapes (T_ 0 [1; 1; 1; 1]) (op_pool_nhwc zt (max_acc Zsc (-100)) P (T_ 0 [1; 1; 1; 1]) (T_ 1 [2; 1; 1; 1])) /\
  escapes (T_ 0 [1; 1; 1; 1]) (op_pool_nchw zt (max_acc Zsc (-100)) P (T_ 0 [1; 1; 1; 1]) (T_ 1 [2; 1; 1; 1])) /\
  escapes (T_ 0 [1; 1; 1; 1]) (op_pool_nchw zt (max_acc Zsc (-100)) P (T_ 0 [1; 1; 1; 1]) (T_ 1 [1; 2; 1; 1])) /\
  escapes (T_ 0 [1; 1; 1; 1; 1; 1]) (im2col_nhwc zt zt Zsc H H (T_ 0 [1; 1; 1; 1; 1; 1]) (T_ 1 [2; 1; 1; 1])).
Proof.
  eexists. eexists. split; [reflexivity|]. split; [reflexivity|]. repeat split; spill buffers.
Qed.

Theorem C92_rows_refuted :
  escapes (T_ 0 [1]) (inner_contraction zt Zsc (T_ 0 [1]) (T_ 1 [2; 1])) /\
  escapes (T_ 0 [1]) (op_mean zt Zsc (fun a n => Ret (a / n)) 1 (T_ 0 [1]) (T_ 1 [2; 1])) /\
  escapes (T_ 0 [1; 1]) (op_onehot zt int32 zt Zsc 1 (T_ 0 [1; 1]) (T_ 4 [2])) /\
  escapes (T_ 0 [1; 1]) (softmax_grad2 zt Zsc (T_ 0 [1; 1]) (T_ 2 [2; 1]) (T_ 2 [2; 1]) (T_ 1 [2; 1])) /\
  escapes (T_ 0 [1; 1]) (xentropy_grad2 zt Zsc (T_ 0 [1; 1]) (T_ 2 [2]) (T_ 1 [2; 1]) (T_ 2 [2; 1])) /\
  escapes (T_ 0 [1; 1]) (op_softmax zt Zsc (fun a => 2 ^ a) 2 0 (T_ 0 [1; 1]) (T_ 1 [2; 1])).
Proof. repeat split; spill (buffers ++ [[0; 0]]). Qed.

Theorem C92_transpose_refuted :
  escapes (T_ 0 [1; 1; 1; 1]) (to_first zt zt (fun v => v) (T_ 0 [1; 1; 1; 1]) (T_ 1 [1; 1; 2; 1])) /\
  escapes (T_ 0 [1; 1; 1; 1]) (to_last zt zt (fun v => v) (T_ 0 [1; 1; 1; 1]) (T_ 1 [1; 2; 1; 1])).
Proof. split; spill buffers. Qed.

Theorem C92_top_refuted : exists y z x, ~ stays_in2 y z (op_top zt zt int32 Zsc y z x).
Proof.
  exists (T_ 2 [2]), (T_ 0 [1]), (T_ 1 [2]). intros H. specialize (H (demo buffers) (demo_fresh _ _)).
  destruct (op_top zt zt int32 Zsc (T_ 2 [2]) (T_ 0 [1]) (T_ 1 [2]) (demo buffers)) as [u s'|e s'|] eqn:E.
  - assert (A : cells s' (0, 1) = Init 0) by (vm_compute in E; injection E as _ <-; vm_compute; reflexivity).
    rewrite (H (0, 1)) in A; [vm_compute in A; discriminate A| |];
      intros (o & Ho & Q); unfold size in Ho; cbn in Ho; unfold daddr in Q; cbn in Q; inversion Q; lia.
  - vm_compute in E. discriminate E.
  - vm_compute in E. discriminate E.
Qed.

(** The engines differ: cblas overruns where the builtin product throws. *)
Theorem C92_vector_refuted : exists z a b,
  escapes z (cblas_mv zt Zsc a b z) /\ (forall s, mv zt Zsc a b z s = Throw RuntimeError s).
Proof.
  exists (T_ 0 [1]), (T_ 1 [2; 1]), (T_ 2 [1]). split; [spill buffers|]. intros s. reflexivity.
Qed.

(** ** Examples *)

(** A product into a too small matrix leaves everything else as it was: the
    builtin engine throws, cblas fills the output with what it finds. *)
Example C92_products_example :
  let z := T_ 0 [1; 1] in
  run (op_matmul zt Zsc Builtin z (T_ 1 [2; 1]) (T_ 2 [1; 2])) (demo buffers) (T_ 0 [4]) = None /\
  run (op_matmul zt Zsc Cblas z (T_ 1 [2; 1]) (T_ 2 [1; 2])) (demo buffers) (T_ 0 [4]) = Some (inits [21; 20; 30; 40]).
Proof. split; vm_compute; reflexivity. Qed.

(** The same sum into a buffer of the right size, and of half the size. *)
Example C92_exact_example :
  run (op_add zt Zsc (T_ 0 [2]) (T_ 1 [2]) (T_ 2 [2])) (demo buffers) (T_ 0 [4]) = Some (inits [10; 10; 30; 40]) /\
  run (op_add zt Zsc (T_ 0 [1]) (T_ 1 [2]) (T_ 2 [2])) (demo buffers) (T_ 0 [4]) = Some (inits [10; 10; 30; 40]) /\
  run (op_add zt Zsc (T_ 0 [2]) (T_ 1 [1]) (T_ 2 [2])) (demo buffers) (T_ 0 [4]) = Some (inits [10; 20; 30; 40]).
Proof. repeat split; vm_compute; reflexivity. Qed.

(** A max pool of a 2x2 image asked for a 1x1 result instead of 2x2. *)
Example C92_sampling_example : exists P, new_pool_k 1 1 = Ret P /\
  run (op_pool_hw zt (max_acc Zsc (-100)) P (T_ 0 [1; 1]) (T_ 1 [2; 1])) (demo buffers) (T_ 0 [4]) = Some (inits [3; 20; 30; 40]).
Proof. eexists. split; [reflexivity|]. vm_compute. reflexivity. Qed.

Print Assumptions C92_products.
Print Assumptions C92_products_vector.
Print Assumptions C92_conv.
Print Assumptions C92_sampling.
Print Assumptions C92_sampling1.
Print Assumptions C92_others.
Print Assumptions C92_elementwise.
Print Assumptions C92_bias_bn.
Print Assumptions C92_batched.
Print Assumptions C92_rows.
Print Assumptions C92_transpose.
Print Assumptions C92_top.
Print Assumptions C92_exact.
Print Assumptions C92_elementwise_refuted.
Print Assumptions C92_bias_bn_refuted.
Print Assumptions C92_batched_refuted.
Print Assumptions C92_rows_refuted.
Print Assumptions C92_transpose_refuted.
Print Assumptions C92_top_refuted.
Print Assumptions C92_vector_refuted.
