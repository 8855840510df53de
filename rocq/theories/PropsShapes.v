(** Properties C66 (gradient shapes) and C68 (shape functions). *)
From Coq Require Import ZArith List Bool Lia.
From Verif Require Import Base BaseFacts Traits Elem Shapes.
Import ListNotations.
Open Scope Z_scope.

Lemma shape_eqb_iff : forall x y, shape_eqb x y = true <-> x = y.
Proof. intros x y. unfold shape_eqb. destruct (list_eq_dec Z.eq_dec x y); split; congruence. Qed.

Lemma shape_eqb_refl : forall x, shape_eqb x x = true.
Proof. intros x. apply shape_eqb_iff. reflexivity. Qed.

Lemma shape_eqb_neq : forall x y, x <> y -> shape_eqb x y = false.
Proof. intros x y H. destruct (shape_eqb x y) eqn:E; [|reflexivity]. apply shape_eqb_iff in E. contradiction. Qed.

(** *** C68. *)
Theorem C68_endo : forall x, endofunction x = Ret x.
Proof. reflexivity. Qed.

Theorem C68_binary : forall x y,
  (x = y -> binary_endofunction x y = Ret x) /\ (x <> y -> binary_endofunction x y = Exn InvalidArgument).
Proof.
  intros x y. unfold binary_endofunction. split; intros H.
  - subst. rewrite shape_eqb_refl. reflexivity.
  - rewrite shape_eqb_neq; auto.
Qed.

Theorem C68_reduce : forall ds d, reduce_function (ds ++ [d]) = Ret ds.
Proof.
  intros ds d. unfold reduce_function, copy_but_last. rewrite app_length. cbn [length].
  replace (length ds + 1 - 1)%nat with (length ds) by lia. rewrite firstn_app, firstn_all, Nat.sub_diag. cbn [firstn].
  rewrite app_nil_r. reflexivity.
Qed.

Theorem C68_binary_reduce : forall ds d t,
  (t = ds ++ [d] -> binary_reduce_function (ds ++ [d]) t = Ret ds) /\
  (t <> ds ++ [d] -> binary_reduce_function (ds ++ [d]) t = Exn InvalidArgument).
Proof.
  intros ds d t. unfold binary_reduce_function. split; intros H.
  - subst. rewrite shape_eqb_refl. exact (C68_reduce ds d).
  - rewrite shape_eqb_neq; auto.
Qed.

(** The new axis has k mod 2^32 elements. *)
Theorem C68_vectorize : forall k ds, 0 <= k < 2 ^ 32 -> vectorize_function k ds = Ret (ds ++ [k]).
Proof. intros k ds H. unfold vectorize_function, to_u32. rewrite Z.mod_small by exact H. reflexivity. Qed.

(** A reduction undoes a vectorisation. *)
Theorem C68_inverse : forall k ds s, vectorize_function k ds = Ret s -> reduce_function s = Ret ds.
Proof. intros k ds s E. unfold vectorize_function in E. injection E as <-. apply C68_reduce. Qed.

Example C68_example :
  reduce_function [2; 3; 4] = Ret [2; 3] /\ vectorize_function 10 [2; 3] = Ret [2; 3; 10] /\
  binary_endofunction [2; 3] [3; 2] = Exn InvalidArgument /\ binary_reduce_function [2; 3] [2; 3] = Ret [2].
Proof. repeat split. Qed.

(** *** C66. *)
Theorem C66_returns : forall g gy y xs r,
  grad_infer g gy y xs = Ret r <-> forward g xs = Ret y /\ gy = y /\ r = nth (wrt g) xs [].
Proof.
  intros g gy y xs r. unfold grad_infer, gradient_shape.
  destruct (forward g xs) as [z|e|]; cbn [obind]; [|split; [discriminate|intros (Q & _); discriminate]..].
  destruct (shape_eqb y z) eqn:E1; cbn [ocontract obind].
  - apply shape_eqb_iff in E1. subst z. destruct (shape_eqb y gy) eqn:E2; cbn [ocontract obind].
    + apply shape_eqb_iff in E2. subst gy. split; [intros Q; injection Q as <-; auto|intros (_ & _ & ->); reflexivity].
    + split; [discriminate|]. intros (_ & -> & _). rewrite shape_eqb_refl in E2. discriminate.
  - split; [discriminate|]. intros (Q & _). injection Q as ->. rewrite shape_eqb_refl in E1. discriminate.
Qed.

Theorem C66_throws : forall g gy y xs e,
  grad_infer g gy y xs = Exn e <->
  forward g xs = Exn e \/ (e = RuntimeError /\ exists z, forward g xs = Ret z /\ (z <> y \/ gy <> y)).
Proof.
  intros g gy y xs e. unfold grad_infer, gradient_shape.
  destruct (forward g xs) as [z|e'|]; cbn [obind].
  - destruct (shape_eqb y z) eqn:E1; cbn [ocontract obind].
    + apply shape_eqb_iff in E1. subst z. destruct (shape_eqb y gy) eqn:E2; cbn [ocontract obind].
      * apply shape_eqb_iff in E2. subst gy. split; [discriminate|].
        intros [Q|(_ & z & Q & H)]; [discriminate|]. injection Q as ->. destruct H; congruence.
      * split.
        -- intros Q. injection Q as <-. right. split; [reflexivity|]. exists y. split; [reflexivity|]. right. intros ->.
           rewrite shape_eqb_refl in E2. discriminate.
        -- intros [Q|(-> & _)]; [discriminate|reflexivity].
    + split.
      * intros Q. injection Q as <-. right. split; [reflexivity|]. exists z. split; [reflexivity|]. left. intros ->.
        rewrite shape_eqb_refl in E1. discriminate.
      * intros [Q|(-> & _)]; [discriminate|reflexivity].
  - split; [intros Q; injection Q as <-; auto|]. intros [Q|(_ & z & Q & _)]; [injection Q as <-; reflexivity|discriminate].
  - split; [discriminate|]. intros [Q|(_ & z & Q & _)]; discriminate.
Qed.

(** Concretely, per operator: the accepted shapes. *)
Theorem C66_elementwise : forall g gz z x y r,
  In g [GradAdd 0; GradAdd 1; GradMul 0; GradMul 1] ->
  (grad_infer g gz z [x; y] = Ret r <-> x = y /\ z = x /\ gz = x /\ r = x).
Proof.
  intros g gz z x y r Hg. rewrite C66_returns.
  assert (F : forward g [x; y] = binary_endofunction x y)
    by (cbn in Hg; destruct Hg as [<-|[<-|[<-|[<-|[]]]]]; reflexivity).
  rewrite F. destruct (C68_binary x y) as [H1 H2].
  split.
  - intros (E & -> & ->). destruct (list_eq_dec Z.eq_dec x y) as [<-|Q]; [|rewrite (H2 Q) in E; discriminate].
    rewrite (H1 eq_refl) in E. injection E as <-. repeat split.
    cbn in Hg; destruct Hg as [<-|[<-|[<-|[<-|[]]]]]; reflexivity.
  - intros (<- & -> & -> & ->). rewrite (H1 eq_refl). repeat split.
    cbn in Hg; destruct Hg as [<-|[<-|[<-|[<-|[]]]]]; reflexivity.
Qed.

Theorem C66_unary : forall g gy y x r, g = GradRelu \/ g = GradSoftmax ->
  (grad_infer g gy y [x] = Ret r <-> y = x /\ gy = x /\ r = x).
Proof.
  intros g gy y x r Hg. rewrite C66_returns. destruct Hg as [-> | ->]; cbn; split.
  - intros (E & -> & ->). injection E as <-. auto.
  - intros (-> & -> & ->). auto.
  - intros (E & -> & ->). injection E as <-. auto.
  - intros (-> & -> & ->). auto.
Qed.

Theorem C66_matmul : forall i m l l' n gz z r, (i = 0 \/ i = 1)%nat ->
  (grad_infer (GradMatmul i) gz z [[m; l]; [l'; n]] = Ret r <->
   l' = l /\ z = [m; n] /\ gz = [m; n] /\ r = if Nat.eqb i 0 then [m; l] else [l; n]).
Proof.
  intros i m l l' n gz z r Hi. rewrite C66_returns. cbn [forward nth]. unfold matmul_shape. cbn [nth].
  destruct (l =? l') eqn:E; cbn [ocontract obind].
  - apply Z.eqb_eq in E. subst l'. cbn [wrt]. destruct Hi as [-> | ->]; cbn; split.
    + intros (Q & -> & ->). injection Q as <-. auto.
    + intros (_ & -> & -> & ->). auto.
    + intros (Q & -> & ->). injection Q as <-. auto.
    + intros (_ & -> & -> & ->). auto.
  - split; [intros (Q & _); discriminate|]. intros (-> & _). rewrite Z.eqb_refl in E. discriminate.
Qed.

Theorem C66_bias : forall o i x n gz z r, (i = 0 \/ i = 1)%nat ->
  (grad_infer (GradBias o i) gz z [x; [n]] = Ret r <->
   nth (bias_position o) x 0 = n /\ z = x /\ gz = x /\ r = if Nat.eqb i 0 then x else [n]).
Proof.
  intros o i x n gz z r Hi. rewrite C66_returns. cbn [forward nth]. unfold bias_shape. cbn [nth].
  destruct (nth (bias_position o) x 0 =? n) eqn:E; cbn [ocontract obind].
  - apply Z.eqb_eq in E. cbn [wrt]. destruct Hi as [-> | ->]; cbn; split.
    + intros (Q & -> & ->). injection Q as <-. auto.
    + intros (_ & -> & -> & ->). auto.
    + intros (Q & -> & ->). injection Q as <-. auto.
    + intros (_ & -> & -> & ->). auto.
  - split; [intros (Q & _); discriminate|]. intros (Q & _). subst n. rewrite Z.eqb_refl in E. discriminate.
Qed.

Theorem C66_xentropy : forall ds d y z gz r,
  grad_infer GradXentropy gz z [ds ++ [d]; y] = Ret r <-> y = ds ++ [d] /\ z = ds /\ gz = ds /\ r = y.
Proof.
  intros ds d y z gz r. rewrite C66_returns. cbn [forward nth wrt]. destruct (C68_binary_reduce ds d y) as [H1 H2]. split.
  - intros (E & -> & ->). destruct (list_eq_dec Z.eq_dec y (ds ++ [d])) as [Q|Q].
    + rewrite (H1 Q) in E. injection E as <-. auto.
    + rewrite (H2 Q) in E. discriminate.
  - intros (Q & -> & -> & ->). rewrite (H1 Q). auto.
Qed.

Theorem C66_conv : forall c i x y gz z r, (i = 0 \/ i = 1)%nat ->
  (grad_infer (GradConv c i) gz z [x; y] = Ret r <->
   conv_infer c nhwc rscd x y = Ret z /\ gz = z /\ r = if Nat.eqb i 0 then x else y).
Proof. intros c i x y gz z r Hi. rewrite C66_returns. destruct Hi as [-> | ->]; reflexivity. Qed.

(** check_shape throws logic_error for a wrong shape and passes on what the
    shape function throws. *)
Theorem C66_check : forall f y xs,
  (check_shape f y xs = Ret tt <-> f xs = Ret y) /\
  (forall e, check_shape f y xs = Exn e <-> f xs = Exn e \/ (e = LogicError /\ exists z, f xs = Ret z /\ z <> y)).
Proof.
  intros f y xs. unfold check_shape. destruct (f xs) as [z|e0|]; cbn [obind].
  - destruct (shape_eqb y z) eqn:E.
    + apply shape_eqb_iff in E. subst z. split; [split; auto|]. intros e. split; [discriminate|].
      intros [Q|(_ & z & Q & H)]; [discriminate|]. injection Q as ->. congruence.
    + assert (N : z <> y) by (intros ->; rewrite shape_eqb_refl in E; discriminate). split.
      * split; [discriminate|]. intros Q. injection Q as ->. congruence.
      * intros e. split; [intros Q; injection Q as <-; right; eauto|]. intros [Q|(-> & _)]; [discriminate|reflexivity].
  - split; [split; discriminate|]. intros e. split; [intros Q; injection Q as <-; auto|].
    intros [Q|(_ & z & Q & _)]; [injection Q as <-; reflexivity|discriminate].
  - split; [split; discriminate|]. intros e. split; [discriminate|]. intros [Q|(_ & z & Q & _)]; discriminate.
Qed.

Example C66_example :
  grad_infer (GradMatmul 1) [2; 4] [2; 4] [[2; 3]; [3; 4]] = Ret [3; 4] /\
  grad_infer (GradMatmul 1) [2; 5] [2; 4] [[2; 3]; [3; 4]] = Exn RuntimeError /\
  grad_infer (GradAdd 0) [2] [2] [[2]; [3]] = Exn InvalidArgument /\
  grad_infer (GradConv (new_conv_psr (mkpadding 1 1) (mkpadding 1 1) 1 1 1 1) 1)
    [2; 5; 6; 8] [2; 5; 6; 8] [[2; 5; 6; 3]; [3; 3; 3; 8]] = Ret [3; 3; 3; 8] /\
  grad_infer (GradBias nchw 1) [2; 5; 6; 8] [2; 5; 6; 8] [[2; 5; 6; 8]; [5]] = Ret [5].
Proof. vm_compute. repeat split. Qed.

Print Assumptions C66_returns.
Print Assumptions C66_throws.
Print Assumptions C66_elementwise.
Print Assumptions C66_unary.
Print Assumptions C66_matmul.
Print Assumptions C66_bias.
Print Assumptions C66_xentropy.
Print Assumptions C66_conv.
Print Assumptions C66_check.
Print Assumptions C68_binary.
Print Assumptions C68_reduce.
Print Assumptions C68_binary_reduce.
Print Assumptions C68_vectorize.
Print Assumptions C68_inverse.
