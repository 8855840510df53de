(** Model of main in examples/example_mnist.cpp, with and without OpenCV. *)
From Coq Require Import ZArith List Bool String.
From Verif Require Import Base Traits Io Examples.
Import ListNotations.
Open Scope Z_scope.
Open Scope model_scope.

(** The conversion %d of sprintf for numbers that are not negative. *)
Fixpoint digits (fuel : nat) (i : Z) : list Z :=
  match fuel with
  | O => []
  | S fuel => if i <? 10 then [48 + i] else digits fuel (i / 10) ++ [48 + i mod 10]
  end.
Definition decimal (i : Z) : list Z := digits (S (Z.to_nat i)) i.

(** sprintf(name, "images/%d.png", i) into an array of [cap] characters, the last
    one a NUL (example_mnist.cpp:30-31); writing past the array is undefined. *)
Definition sprintf_name {V} (cap i : Z) : M V (list Z) :=
  let name := str "images/" ++ decimal i ++ str ".png" in
  if Z.of_nat (List.length name) + 1 <=? cap then ret name else undef.

Section Dump.
  Context {V : Type} (du : dtype V Z) (cu : codec Z) (ucode : Z) (opencv : bool) (fs : filesystem).
  (** The number of images, their height and width, the size of the array. *)
  Context (n h w cap : Z).

  (** The bytes of cv::Mat img(cv::Size(28, 28), CV_8UC(1), im.data())
      (example_mnist.cpp:33-34), which cv::imwrite reads. *)
  Definition mat_bytes (im : tensor) : M V (list Z) :=
    foldM (zrange (h * w)) (fun l o => x <- load du (daddr im o) ;; ret (l ++ [x])) [].

  (** example_mnist.cpp:24-38: the calls of cv::imwrite, each a name and the bytes
      of the image.  The results of system("mkdir -p images") and cv::imwrite are
      ignored by the code; n is 10000, so the int [i] does not overflow. *)
  Definition dump_images (filename : list Z) : M V (list (list Z * list Z)) :=
    with_tensor [n; h; w] (fun t =>
      op_readfile du cu ucode fs filename t ;;;
      foldM (zrange n) (fun out i =>
        name <- sprintf_name cap (i + 1) ;;
        if opencv
        then bytes <- mat_bytes (sub t i) ;; ret (out ++ [(name, bytes)])
        else ret out) []).
End Dump.

(** main (example_mnist.cpp:16-39); [home] is getenv("HOME"). *)
Definition dump_main {V} (du : dtype V Z) (cu : codec Z) (ucode : Z) (opencv : bool) (fs : filesystem)
    (home : option (list Z)) : M V (list (list Z * list Z)) :=
  match home with
  | None => undef
  | Some home => dump_images du cu ucode opencv fs (10 * 1000) 28 28 32 (home ++ str "/var/data/mnist" ++ str "/" ++ str "t10k-images-idx3-ubyte")
  end.
