(** Model of examples/example_train_mnist_slp.cpp: a single-layer perceptron
    trained by gradient descent on the library's operators. *)
From Coq Require Import ZArith List Bool.
From Verif Require Import Base Traits Scalar LinAlg Elem Activation Pool Summary Utility.
Import ListNotations.
Open Scope Z_scope.
Open Scope model_scope.

(** The tensors of train_slp_model (example_train_mnist_slp.cpp:94-113): the two
    parameters and the local variables. *)
Inductive var : Type :=
| W_ | B_ | XS | ZS | YS | Y_S | LS | L_ | G_L | G_LS | G_YS | G_ZS | G_W | G_B.

Definition var_eqb (u v : var) : bool :=
  match u, v with
  | W_, W_ | B_, B_ | XS, XS | ZS, ZS | YS, YS | Y_S, Y_S | LS, LS | L_, L_ | G_L, G_L
  | G_LS, G_LS | G_YS, G_YS | G_ZS, G_ZS | G_W, G_W | G_B, G_B => true
  | _, _ => false
  end.

(** t.slice(a, b) (stdtensor): the elements a .. b-1 of the first axis. *)
Definition slice (t : tensor) (a b : Z) : tensor :=
  mktensor (tblk t) (tbase t + a * prod (tl (tdims t))) ((b - a) :: tl (tdims t)).

(** Local tensors, in order of declaration; released in the reverse order. *)
Fixpoint with_vars {V A} (l : list (var * list Z)) (E : var -> tensor) (k : (var -> tensor) -> M V A) : M V A :=
  match l with
  | [] => k E
  | (v, ds) :: l => with_tensor ds (fun t => with_vars l (fun u => if var_eqb u v then t else E u) k)
  end.

(** slp, shape (example_train_mnist_slp.cpp:17-25). *)
Definition slp_shape (x y z : list Z) : outcome (list Z) :=
  _ <<- ocontract (nth 1 x 0 =? nth 0 y 0) ;;
  _ <<- ocontract (nth 1 y 0 =? nth 0 z 0) ;;
  Ret [nth 0 x 0; nth 1 y 0].

Section Train.
  Context {V T : Type} (dt : dtype V T) (du : dtype V Z) (dn : dtype V Z) (sc : scalar T).
  (** std::exp, std::log, the lower bound of softmax (ops/activation.hpp), the
      division of an R by a uint32_t, and the engine. *)
  Context (exp_ log_ : T -> T) (eps : T) (div_n : T -> Z -> outcome T) (e : engine).

  (** slp, forward (example_train_mnist_slp.cpp:27-35). *)
  Definition slp (ys xs w b : tensor) : M V unit :=
    op_matmul dt sc e ys xs w ;;;
    op_bias dt hw (f_add sc) ys ys b.

  (** slp::grad (example_train_mnist_slp.cpp:37-51). *)
  Definition slp_grad (g_w g_b g_ys xs : tensor) : M V unit :=
    for_ (zrange (nth_dim g_ys 1)) (fun l =>
      tot <- foldM (zrange (nth_dim g_ys 0)) (fun tot i => g <- at_ dt g_ys [i; l] ;; ret (sadd sc tot g)) (s0 sc) ;;
      set_ dt g_b [l] tot) ;;;
    e_mtm dt sc e xs g_ys g_w.

  (** accuracy (example_train_mnist_slp.cpp:63-76); [sf] is float, [df] its cells. *)
  Definition accuracy {F} (df : dtype V F) (sf : scalar F) (ys y_s : tensor) : M V F :=
    with_tensor [nth_dim ys 0] (fun predictions =>
      with_tensor [nth_dim y_s 0] (fun labels =>
        op_argmax dn (mkitype false 32) dt sc 1 predictions ys ;;;
        op_argmax dn (mkitype false 32) dt sc 1 labels y_s ;;;
        with_tensor [] (fun sim =>
          op_similarity df sf dn (fun a b => negb (a =? b)) sim predictions labels ;;;
          load df (daddr sim 0)))).

  (** load_data (example_train_mnist_slp.cpp:78-90); [f] is the conversion of a
      pixel; the images are [h] by [w] (28 by 28 in the text). *)
  Definition load_data (f : Z -> T) (h w : Z) (images labels : tensor) (offset batch : Z) (xs y_s : tensor) : M V unit :=
    transform1 dt du f (reshape xs [batch; h; w]) (slice images offset (offset + batch)) ;;;
    op_onehot du uint8 dt sc 1 y_s (slice labels offset (offset + batch)).

  (** The loop body after load_data (example_train_mnist_slp.cpp:127-148). *)
  Definition train_step (E : var -> tensor) : M V unit :=
    slp (E ZS) (E XS) (E W_) (E B_) ;;;
    op_softmax dt sc exp_ 2 eps (E YS) (E ZS) ;;;
    op_xentropy dt sc log_ 2 (E LS) (E Y_S) (E YS) ;;;
    op_mean dt sc div_n 0 (E L_) (E LS) ;;;
    xentropy_grad2 dt sc (E G_YS) (E G_LS) (E Y_S) (E YS) ;;;
    softmax_grad2 dt sc (E G_ZS) (E G_YS) (E YS) (E ZS) ;;;
    slp_grad (E G_W) (E G_B) (E G_ZS) (E XS) ;;;
    op_sub dt sc (E W_) (E W_) (E G_W) ;;;
    op_sub dt sc (E B_) (E B_) (E G_B).

  (** train_slp_model (example_train_mnist_slp.cpp:92-151) with n_epochs = 1, [k]
      classes (10 in the text); [half] and [inv] are the constants .5 and
      1.0 / batch_size. *)
  Definition train_slp_model (f : Z -> T) (half inv : T) (k : Z) (images labels w b : tensor) (batch : Z) : M V unit :=
    let n := nth_dim images 0 in
    let d := nth_dim images 1 * nth_dim images 2 in
    with_vars [(XS, [batch; d]); (ZS, [batch; k]); (YS, [batch; k]); (Y_S, [batch; k]); (LS, [batch]); (L_, []);
               (G_L, []); (G_LS, [batch]); (G_YS, [batch; k]); (G_ZS, [batch; k]); (G_W, tdims w); (G_B, tdims b)]
      (fun v => match v with W_ => w | _ => b end)
      (fun E =>
        store dt (daddr (E G_L) 0) half ;;;
        fill dt (E G_LS) inv ;;;
        steps <- lift (if batch =? 0 then Undef else Ret (to_u32 n / to_u32 batch)) ;;
        for_ (zrange steps) (fun o =>
          load_data f (nth_dim images 1) (nth_dim images 2) images labels (o * batch) batch (E XS) (E Y_S) ;;;
          train_step E)).

  (** test_slp_model (example_train_mnist_slp.cpp:153-168); returns the accuracy
      that the C++ text prints. *)
  Definition test_slp_model {F} (df : dtype V F) (sf : scalar F) (f : Z -> T) (k : Z) (images labels w b : tensor) : M V F :=
    let n := nth_dim images 0 in
    let d := nth_dim images 1 * nth_dim images 2 in
    with_vars [(XS, [n; d]); (YS, [n; k]); (Y_S, [n; k])]
      (fun v => match v with W_ => w | _ => b end)
      (fun E =>
        load_data f (nth_dim images 1) (nth_dim images 2) images labels 0 n (E XS) (E Y_S) ;;;
        slp (E YS) (E XS) (E W_) (E B_) ;;;
        accuracy df sf (E YS) (E Y_S)).
End Train.
