(** The function computed by a VGG network, over the reals and independent of
    the code. *)
From Coq Require Import ZArith List Reals String.
From Verif Require Import Base Scalar RealScalar ConvSpec ActivationSpec.
Import ListNotations.
Open Scope Z_scope.

(** A 3 x 3 convolution that keeps the image size (one zero pixel around), bias
    and relu; images are indexed [image; row; column; channel]. *)
Definition conv3 (h w c : Z) (W B X : list Z -> R) : list Z -> R :=
  arg4 (fun l i j t =>
    let term u v k := Rmult (zpad 0%R h w (fun p q => X [l; p; q; k]) (i + u - 1) (j + v - 1)) (W [u; v; k; t]) in
    let total := sum_over Rsc (indices [3; 3; c]) (arg3 term) in
    Rmax 0 (total + B [t])%R).

(** The maximum of each 2 x 2 square. *)
Definition pool2 (X : list Z -> R) : list Z -> R :=
  arg4 (fun l i j k =>
    Rmax (Rmax (X [l; 2 * i; 2 * j; k]) (X [l; 2 * i; 2 * j + 1; k]))
         (Rmax (X [l; 2 * i + 1; 2 * j; k]) (X [l; 2 * i + 1; 2 * j + 1; k]))).

(** X W + B, for matrices with [n] columns. *)
Definition affine (n : Z) (W B X : list Z -> R) : list Z -> R :=
  arg2 (fun i j => sum_over Rsc (zrange n) (fun k => X [i; k] * W [k; j]) + B [j])%R.
Definition rectified (X : list Z -> R) : list Z -> R := fun ix => Rmax 0 (X ix).

(** Images of [h] x [w] pixels and [c] channels as rows of a matrix. *)
Definition flattened (h w c : Z) (X : list Z -> R) : list Z -> R :=
  arg2 (fun i a => X [i; a / (w * c); a / c mod w; a mod c]).

Section Net.
  (** The parameters, by layer name. *)
  Context (W B : string -> list Z -> R).

  (** The channels and contents after the convolutions [b]. *)
  Fixpoint convs (h w c : Z) (b : list (Z * string)) (X : list Z -> R) : Z * (list Z -> R) :=
    match b with
    | [] => (c, X)
    | (d, name) :: b => convs h w d b (conv3 h w c (W name) (B name) X)
    end.
  (** ... after blocks of convolutions, each followed by pooling. *)
  Fixpoint blocks (h w c : Z) (bs : list (list (Z * string))) (X : list Z -> R) : Z * Z * Z * (list Z -> R) :=
    match bs with
    | [] => (h, w, c, X)
    | b :: bs => let (d, Y) := convs h w c b X in blocks (h / 2) (w / 2) d bs (pool2 Y)
    end.
  (** ... after hidden layers. *)
  Fixpoint hidden (n : Z) (hs : list (Z * string)) (X : list Z -> R) : Z * (list Z -> R) :=
    match hs with
    | [] => (n, X)
    | (d, name) :: hs => hidden d hs (rectified (affine n (W name) (B name) X))
    end.

  (** The scores of the classes for every image. *)
  Definition scores (h w c : Z) (bs : list (list (Z * string))) (hs : list (Z * string)) (k : Z * string)
      (X : list Z -> R) : list Z -> R :=
    let '(h', w', c', Y) := blocks h w c bs X in
    let '(n, Z) := hidden (h' * w' * c') hs (flattened h' w' c' Y) in
    affine n (W (snd k)) (B (snd k)) Z.
End Net.

(** [L] lists the [length L] largest entries of [P] over 0 .. n-1, largest first;
    of equal entries the later ones come first. *)
Definition lists_top (n : Z) (P : Z -> R) (L : list Z) : Prop :=
  NoDup L /\ (forall i, In i L -> 0 <= i < n) /\
  (forall p q i j, (p < q)%nat -> nth_error L p = Some i -> nth_error L q = Some j ->
     (P j < P i)%R \/ P i = P j /\ j < i) /\
  (forall i j, In i L -> 0 <= j < n -> ~ In j L -> (P j < P i)%R \/ P i = P j /\ j < i).

(** Configuration D of the VGG paper (16 weight layers), with the names under
    which the parameters are stored. *)
Definition vgg_d_blocks : list (list (Z * string)) :=
  [[(64, "conv1_1"); (64, "conv1_2")];
   [(128, "conv2_1"); (128, "conv2_2")];
   [(256, "conv3_1"); (256, "conv3_2"); (256, "conv3_3")];
   [(512, "conv4_1"); (512, "conv4_2"); (512, "conv4_3")];
   [(512, "conv5_1"); (512, "conv5_2"); (512, "conv5_3")]]%string.
Definition vgg_d_hidden : list (Z * string) := [(4096, "fc6"); (4096, "fc7")]%string.
Definition vgg_d_classes : Z * string := (1000, "fc8"%string).
