(** Model of experimental/bits/datasets/mnist.hpp, examples/vgg16_common.hpp
    (without OpenCV), example_layer_vgg16.cpp and the main functions of the two
    VGG16 examples. *)
From Coq Require Import ZArith List Bool String Ascii.
From Verif Require Import Base Traits Scalar LinAlg Elem Activation Pool Utility Io Layers Vgg.
Import ListNotations.
Open Scope Z_scope.
Open Scope model_scope.

(** String literals as bytes. *)
Definition str (s : string) : list Z := map (fun a => Z.of_nat (nat_of_ascii a)) (list_ascii_of_string s).

(** A tensor in a local variable that is moved to the caller at the end: only an
    exception destroys it. *)
Definition moved_out {V A} (ds : list Z) (k : tensor -> M V A) : M V A :=
  t <- new_tensor ds ;;
  fun s => match k t s with
           | Throw e s' => Throw e (release [t] s')
           | r => r
           end.

Section Mnist.
  Context {V T : Type} (dt : dtype V T) (cd : codec T) (code : Z) (fs : filesystem).

  (** The number of examples (datasets/mnist.hpp:16-24). *)
  Definition mnist_size (name : list Z) : outcome Z :=
    if list_eq_dec Z.eq_dec name (str "train") then Ret (60 * 1000)
    else if list_eq_dec Z.eq_dec name (str "t10k") then Ret (10 * 1000)
    else Exn RuntimeError.

  (** The tensors and files (datasets/mnist.hpp:25-33), for images of [h] x [w]. *)
  Definition load_pair (n h w : Z) (prefix : list Z) : M V (tensor * tensor) :=
    moved_out [n; h; w] (fun images =>
    moved_out [n] (fun labels =>
      op_readfile dt cd code fs (prefix ++ str "-images-idx3-ubyte") images ;;;
      op_readfile dt cd code fs (prefix ++ str "-labels-idx1-ubyte") labels ;;;
      ret (images, labels))).

  (** load_mnist_data (datasets/mnist.hpp:14-34). *)
  Definition load_mnist_data (dir name : list Z) : M V (tensor * tensor) :=
    n <- lift (mnist_size name) ;;
    load_pair n 28 28 (dir ++ str "/" ++ name).
End Mnist.

(** std::getline(in, line) on the rest of the stream: the characters before the
    first newline, which is dropped. *)
Fixpoint getline (l : list Z) : list Z * list Z :=
  match l with
  | [] => ([], [])
  | b :: l => if b =? 10 then ([], l) else let (line, r) := getline l in (b :: line, r)
  end.

(** while (std::getline(in, line)) (vgg16_common.hpp:18): at the end of the file
    getline extracts nothing and fails. *)
Fixpoint all_lines (fuel : nat) (l : list Z) : list (list Z) :=
  match fuel, l with
  | O, _ | _, [] => []
  | S fuel, _ => let (line, r) := getline l in line :: all_lines fuel r
  end.

(** load_class_names (vgg16_common.hpp:10-20). *)
Definition load_class_names (fs : filesystem) (filename : list Z) : outcome (list (list Z)) :=
  match fs filename with
  | None => Exn RuntimeError
  | Some content => Ret (all_lines (List.length content) content)
  end.

Section Vgg16.
  Context {V T : Type} (dt : dtype V T) (di : dtype V Z) (sc : scalar T) (cd : codec T) (code : Z) (fs : filesystem).

  (** read_example_image (vgg16_common.hpp:22-47); [m0], [m1], [m2] are the
      floats 123.68, 116.779, 103.939 of the vector [mean]. *)
  Definition read_example_image (m0 m1 m2 : T) (prefix : list Z) (x : tensor) : M V unit :=
    op_readfile dt cd code fs (prefix ++ str "/laska.idx") (sub x 0) ;;;
    with_tensor [3] (fun mean =>
      store dt (daddr mean 0) m0 ;;; store dt (daddr mean 1) m1 ;;; store dt (daddr mean 2) m2 ;;;
      op_bias dt nhwc (f_sub sc) x x mean).

  (** Layers in local variables, each called on the output of the one before;
      they die in the end. *)
  Fixpoint in_scope {A} (ls : list (tensor -> M V layer)) (x : tensor) (k : tensor -> M V A) : M V A :=
    match ls with
    | [] => k x
    | f :: ls => with_layer (f x) (fun l => in_scope ls (output l) k)
    end.

  Context (exp_ : T -> T) (eps lowest : T) (e : engine) (p : string -> tensor -> M V unit).

  (** example_vgg16 (example_layer_vgg16.cpp:18-86) for given blocks, hidden
      layers and classes; the layers are those of the other example. *)
  Definition example_vgg16 (bs : list (list (Z * string))) (hs : list (Z * string)) (k : Z * string) (m : Z)
      (x : tensor) : M V (tensor * tensor) :=
    in_scope (flat_map (vgg_block dt di sc lowest e p) bs) x (fun l5 =>
    in_scope (map (vgg_hidden dt sc e p) hs ++
              [with_init (vgg_dense dt sc e (fst k)) (p (snd k ++ "_W")%string) (p (snd k ++ "_b")%string);
               vgg_softmax dt sc exp_ eps]) (as_matrix 1 l5) (fun out =>
      y <- new_tensor [to_u32 m] ;;
      z <- new_tensor [to_u32 m] ;;
      op_top dt di (mkitype false 32) sc y z (sub out 0) ;;;
      ret (y, z))).

  (** The loop that prints (example_layer_vgg16.cpp:100-102,
      example_model_vgg16.cpp:106-108): the arguments of printf.  names[i] is not
      checked. *)
  Definition print_top (names : list (list Z)) (m : Z) (y z : tensor) : M V (list (Z * T * list Z)) :=
    foldM (zrange m) (fun out i =>
      c <- load di (addr z [i]) ;;
      v <- load dt (addr y [i]) ;;
      match nth_error names (Z.to_nat c) with
      | Some name => ret (out ++ [(c, v, name)])
      | None => undef
      end) [].

  (** main (example_layer_vgg16.cpp:88-104, example_model_vgg16.cpp:94-110) from
      the point where [prefix] is known, for images of [h] x [w] (224 x 224) and
      [m] (5) classes to print. *)
  Definition vgg_main (net : tensor -> M V (tensor * tensor)) (m0 m1 m2 : T) (h w m : Z) (prefix : list Z)
    : M V (list (Z * T * list Z)) :=
    names <- lift (load_class_names fs (prefix ++ str "/vgg16-class-names.txt")) ;;
    with_tensor [1; h; w; 3] (fun x =>
      read_example_image m0 m1 m2 prefix x ;;;
      yz <- net x ;;
      fun s => match print_top names m (fst yz) (snd yz) s with
               | Ok out s' => Ok out (release [fst yz; snd yz] s')
               | Throw ex s' => Throw ex (release [fst yz; snd yz] s')
               | UB => UB
               end).
End Vgg16.

(** The two programs from the point where [prefix] is known: the one written with
    layers (example_layer_vgg16.cpp:88-104) and the one written with models
    (example_model_vgg16.cpp:94-110).  [fuel] bounds the search in the archive. *)
Definition vgg16_main {V T} (dt : dtype V T) (di : dtype V Z) (sc : scalar T) (cd : codec T) (code : Z) (fs : filesystem)
    (exp_ : T -> T) (eps lowest : T) (e : engine) (fuel : nat) (layered : bool) (m0 m1 m2 : T) (h w m : Z) (prefix : list Z)
  : M V (list (Z * T * list Z)) :=
  let p := tar_init dt cd code fuel fs (prefix ++ str "/vgg16_weights.idx.tar") in
  vgg_main dt di sc cd code fs
    (if layered then example_vgg16 dt di sc exp_ eps lowest e p vgg16_blocks vgg16_hidden vgg16_classes m
     else vgg16_model dt di sc exp_ eps lowest e p m) m0 m1 m2 h w m prefix.
