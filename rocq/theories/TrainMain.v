(** Model of main in examples/example_train_mnist_slp.cpp (the traces and what is
    printed besides the accuracies are left out). *)
From Coq Require Import ZArith List Bool String.
From Verif Require Import Base Traits Scalar LinAlg Elem Io Layers Vgg Examples Train.
Import ListNotations.
Open Scope Z_scope.
Open Scope model_scope.

(** A data set (images and labels) in a local variable. *)
Definition with_dataset {V A} (m : M V (tensor * tensor)) (k : tensor * tensor -> M V A) : M V A :=
  fun s => match m s with
           | Ok d s1 =>
               match k d s1 with
               | Ok a s2 => Ok a (release [fst d; snd d] s2)
               | Throw e s2 => Throw e (release [fst d; snd d] s2)
               | UB => UB
               end
           | Throw e s1 => Throw e s1
           | UB => UB
           end.

Section Main.
  Context {V T F : Type} (dt : dtype V T) (du dn : dtype V Z) (df : dtype V F) (sc : scalar T) (sf : scalar F).
  Context (exp_ log_ : T -> T) (eps : T) (div_n : T -> Z -> outcome T) (e : engine) (f : Z -> T) (half inv : T).
  Context (cu : codec Z) (cd : codec T) (ucode code : Z).
  (** [can_open]: the names that can be opened for writing.  [system]: what the
      call system("tar -cf params.idx.tar w.idx b.idx") (line 197) makes of the
      files; its result is ignored. *)
  Context (can_open : list Z -> bool) (system : filesystem -> filesystem) (fuel : nat).
  (** Height and width of the images, number of classes, batch size. *)
  Context (h w k batch : Z).

  (** The block "train" (example_train_mnist_slp.cpp:182-196): two accuracies and
      the files. *)
  Definition train_block (fs : filesystem) (train test : tensor * tensor) : M V (list F * filesystem) :=
    with_tensor [h * w; k] (fun wt =>
    with_tensor [k] (fun b =>
      fill dt wt half ;;;
      fill dt b (s0 sc) ;;;
      train_slp_model dt du sc exp_ log_ eps div_n e f half inv k (fst train) (snd train) wt b batch ;;;
      a1 <- test_slp_model dt du dn sc e df sf f k (fst test) (snd test) wt b ;;
      fs <- op_writefile dt cd code can_open fs (str "w.idx") wt ;;
      fs <- op_writefile dt cd code can_open fs (str "b.idx") b ;;
      a2 <- test_slp_model dt du dn sc e df sf f k (fst test) (snd test) wt b ;;
      ret ([a1; a2], fs))).

  (** The block "test" (example_train_mnist_slp.cpp:198-211). *)
  Definition test_block (fs : filesystem) (test : tensor * tensor) : M V F :=
    with_tensor [h * w; k] (fun wt =>
    with_tensor [k] (fun b =>
      fill dt wt (s0 sc) ;;;
      fill dt b (s0 sc) ;;;
      tar_init dt cd code fuel fs (str "params.idx.tar") "w.idx" wt ;;;
      tar_init dt cd code fuel fs (str "params.idx.tar") "b.idx" b ;;;
      test_slp_model dt du dn sc e df sf f k (fst test) (snd test) wt b)).

  (** Everything after the directory is known (example_train_mnist_slp.cpp:178-213):
      the accuracies printed and the files at the end. *)
  Definition slp_program (fs : filesystem) (load_train load_test : M V (tensor * tensor)) : M V (list F * filesystem) :=
    with_dataset load_train (fun train =>
    with_dataset load_test (fun test =>
      r <- train_block fs train test ;;
      let fs := system (snd r) in
      a3 <- test_block fs test ;;
      ret (fst r ++ [a3], fs))).

  (** main (example_train_mnist_slp.cpp:170-213); [home] is getenv("HOME"), and a
      std::string made of a null pointer is undefined. *)
  Definition slp_main (fs : filesystem) (home : option (list Z)) : M V (list F * filesystem) :=
    match home with
    | None => undef
    | Some home =>
        let prefix := home ++ str "/var/data/mnist" in
        slp_program fs (load_mnist_data du cu ucode fs prefix (str "train")) (load_mnist_data du cu ucode fs prefix (str "t10k"))
    end.
End Main.
