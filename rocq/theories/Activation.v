(** Model of softmax, cross entropy and their gradients
    (kernels/cpu/activation.hpp, kernels/cpu/loss.hpp, ops/activation.hpp,
    ops/loss.hpp, ops/gradients/softmax.hpp, ops/gradients/xentropy.hpp). *)
From Coq Require Import ZArith List Bool.
From Verif Require Import Base Scalar LinAlg.
Import ListNotations.
Open Scope Z_scope.
Open Scope model_scope.

Section Activation.
  (** [exp_] and [log_] stand for std::exp and std::log. *)
  Context {V T : Type} (dt : dtype V T) (sc : scalar T) (exp_ log_ : T -> T).

  (** std::max(a, b). *)
  Definition smax (a b : T) : T := if sltb sc a b then b else a.

  (** softmax on vectors (kernels/cpu/activation.hpp:22-32). *)
  Definition softmax1 (eps : T) (y x : tensor) : M V unit :=
    for_ (zrange (size x)) (fun i =>
      xi <- load dt (daddr x i) ;;
      tot <- foldM (zrange (size x)) (fun acc j =>
               xj <- load dt (daddr x j) ;;
               ret (sadd sc acc (exp_ (ssub sc xj xi)))) (s0 sc) ;;
      q <- lift (sdiv sc (s1 sc) tot) ;;
      store dt (daddr y i) (smax eps q)).

  (** softmax on matrices, row by row (kernels/cpu/activation.hpp:34-37). *)
  Definition softmax2 (eps : T) (y x : tensor) : M V unit :=
    for_ (zrange (nth_dim x 0)) (fun i => softmax1 eps (sub y i) (sub x i)).

  (** ops::softmax (ops/activation.hpp:14-20); [r] is the rank. *)
  Definition op_softmax (r : nat) (eps : T) (y x : tensor) : M V unit :=
    softmax2 eps (as_matrix (r - 1) y) (as_matrix (r - 1) x).

  (** xentropy on vectors (kernels/cpu/loss.hpp:16-22). *)
  Definition xentropy1 (z x y : tensor) : M V unit :=
    v <- foldM (zrange (size x)) (fun acc i =>
           a <- load dt (daddr x i) ;;
           b <- load dt (daddr y i) ;;
           ret (sadd sc acc (smul sc a (log_ b)))) (s0 sc) ;;
    store dt (daddr z 0) (sneg sc v).

  (** xentropy on matrices (kernels/cpu/loss.hpp:24-28). *)
  Definition xentropy2 (z x y : tensor) : M V unit :=
    for_ (zrange (nth_dim z 0)) (fun i => xentropy1 (sub z i) (sub x i) (sub y i)).

  (** ops::xentropy (ops/loss.hpp:13-20). *)
  Definition op_xentropy (r : nat) (z x y : tensor) : M V unit :=
    xentropy2 (flat z) (as_matrix (r - 1) x) (as_matrix (r - 1) y).

  (** grad::softmax<0> on vectors (ops/gradients/softmax.hpp:24-44). *)
  Definition softmax_grad1 (gx gy y x : tensor) : M V unit :=
    let n := size x in
    with_tensor [n; n] (fun g =>
      for_ (zrange n) (fun i => for_ (zrange n) (fun j =>
        if i =? j then
          v <- at_ dt y [i] ;;
          set_ dt g [i; j] (smul sc v (ssub sc (s1 sc) v))
        else
          a <- at_ dt y [i] ;;
          b <- at_ dt y [j] ;;
          set_ dt g [i; j] (smul sc (sneg sc a) b))) ;;;
      vm dt sc gy g gx).

  (** on matrices (ops/gradients/softmax.hpp:46-53). *)
  Definition softmax_grad2 (gx gy y x : tensor) : M V unit :=
    for_ (zrange (nth_dim x 0)) (fun i => softmax_grad1 (sub gx i) (sub gy i) (sub y i) (sub x i)).

  (** grad::xentropy<1> on vectors (ops/gradients/xentropy.hpp:23-33). *)
  Definition xentropy_grad1 (gx gz x y : tensor) : M V unit :=
    for_ (zrange (nth_dim x 0)) (fun i =>
      g <- load dt (daddr gz 0) ;;
      a <- load dt (daddr x i) ;;
      b <- load dt (daddr y i) ;;
      q <- lift (sdiv sc (sneg sc a) b) ;;
      store dt (daddr gx i) (smul sc g q)).

  (** on matrices (ops/gradients/xentropy.hpp:35-45). *)
  Definition xentropy_grad2 (gx gz x y : tensor) : M V unit :=
    for_ (zrange (nth_dim x 0)) (fun i => xentropy_grad1 (sub gx i) (sub gz i) (sub x i) (sub y i)).
End Activation.
