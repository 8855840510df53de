(** Model of kernels/cpu/utility.hpp and ops/utility.hpp. *)
From Coq Require Import ZArith List Bool.
From Verif Require Import Base Scalar.
Import ListNotations.
Open Scope Z_scope.
Open Scope model_scope.

(** A C++ integer type: signedness and width. *)
Record itype : Type := mkitype { it_signed : bool; it_bits : Z }.
Definition it_min (N : itype) : Z := if it_signed N then - 2 ^ (it_bits N - 1) else 0.
Definition it_max (N : itype) : Z := if it_signed N then 2 ^ (it_bits N - 1) - 1 else 2 ^ it_bits N - 1.
(** Integral conversion to [N]: modulo 2^bits. *)
Definition conv (N : itype) (z : Z) : Z :=
  if it_signed N then (z + 2 ^ (it_bits N - 1)) mod 2 ^ it_bits N - 2 ^ (it_bits N - 1)
  else z mod 2 ^ it_bits N.

Definition int8 := mkitype true 8.
Definition uint8 := mkitype false 8.
Definition int32 := mkitype true 32.

Section Utility.
  Context {V : Type}.

  (** kernels::cast (kernels/cpu/utility.hpp:17-26) through ttl::cast: each element
      is converted; [f] is the conversion.  ops::cast (ops/utility.hpp:9-20). *)
  Definition op_cast {R S} (dr : dtype V R) (ds : dtype V S) (f : S -> R) (y x : tensor) : M V unit :=
    let y := flat y in let x := flat x in
    for_ (zrange (nth_dim y 0)) (fun i =>
      v <- load ds (daddr x i) ;; store dr (daddr y i) (f v)).

  (** ttl::argmax of a vector (stdtensor): position of the first greatest element,
      0 when there is none. *)
  Definition argmax1 {R} (dr : dtype V R) (sc : scalar R) (x : tensor) : M V Z :=
    if size x =? 0 then ret 0
    else
      v0 <- load dr (daddr x 0) ;;
      r <- foldM (zrange (size x - 1)) (fun (b : Z * R) i =>
             v <- load dr (daddr x (i + 1)) ;;
             ret (if sltb sc (snd b) v then (i + 1, v) else b)) (0, v0) ;;
      ret (fst r).

  (** kernels::argmax (kernels/cpu/utility.hpp:28-36). *)
  Definition argmax2 {R} (dn : dtype V Z) (N : itype) (dr : dtype V R) (sc : scalar R) (y x : tensor) : M V unit :=
    for_ (zrange (nth_dim y 0)) (fun i =>
      j <- argmax1 dr sc (sub x i) ;;
      store dn (daddr y i) (conv N j)).

  (** ops::argmax (ops/utility.hpp:22-33); [r] is the rank of the result. *)
  Definition op_argmax {R} (dn : dtype V Z) (N : itype) (dr : dtype V R) (sc : scalar R) (r : nat) (y x : tensor)
    : M V unit :=
    argmax2 dn N dr sc (flat y) (as_matrix r x).

  (** kernels::onehot (kernels/cpu/utility.hpp:38-54). *)
  Definition onehot2 {R} (dn : dtype V Z) (N : itype) (dr : dtype V R) (sc : scalar R) (y x : tensor) : M V unit :=
    let k := conv N (nth_dim y 1) in
    fill dr y (s0 sc) ;;;
    for_ (zrange (nth_dim x 0)) (fun i =>
      j <- load dn (daddr x i) ;;
      if (0 <=? j) && (j <? k) then set_ dr y [i; j] (s1 sc) else ret tt).

  (** ops::onehot (ops/utility.hpp:35-49); [r] is the rank of the labels. *)
  Definition op_onehot {R} (dn : dtype V Z) (N : itype) (dr : dtype V R) (sc : scalar R) (r : nat) (y x : tensor)
    : M V unit :=
    onehot2 dn N dr sc (as_matrix r y) (flat x).

  (** std::greater on std::pair<R, N>. *)
  Definition pair_gt {R} (sc : scalar R) (a b : R * Z) : bool :=
    sltb sc (fst b) (fst a) || (negb (sltb sc (fst a) (fst b)) && (snd b <? snd a)).

  (** std::sort of a vector whose elements are pairwise different under a strict
      total order has one result; it is computed here by insertion. *)
  Fixpoint insert {A} (gt : A -> A -> bool) (a : A) (l : list A) : list A :=
    match l with
    | [] => [a]
    | b :: l' => if gt b a then b :: insert gt a l' else a :: l
    end.
  Definition sort {A} (gt : A -> A -> bool) (l : list A) : list A := fold_right (insert gt) [] l.

  (** The vector of (element, position) pairs. *)
  Fixpoint read_pairs {R} (dr : dtype V R) (N : itype) (x : tensor) (l : list Z) : M V (list (R * Z)) :=
    match l with
    | [] => ret []
    | i :: l => v <- at_ dr x [i] ;; vs <- read_pairs dr N x l ;; ret ((v, conv N i) :: vs)
    end.

  Fixpoint write_pairs {R} (dr : dtype V R) (dn : dtype V Z) (y z : tensor) (i : Z) (l : list (R * Z)) : M V unit :=
    match l with
    | [] => ret tt
    | v :: l => set_ dr y [i] (fst v) ;;; set_ dn z [i] (snd v) ;;; write_pairs dr dn y z (i + 1) l
    end.

  (** kernels::top (kernels/cpu/utility.hpp:56-77).  The vector constructor
      throws std::length_error (a logic_error) when the size, converted to size_t,
      is that of a negative number.  A range over a negative bound is left
      undefined. *)
  Definition op_top {R} (dr : dtype V R) (dn : dtype V Z) (N : itype) (sc : scalar R) (y z x : tensor) : M V unit :=
    let n := conv N (size x) in
    let k := conv N (size y) in
    if n <? 0 then throw LogicError
    else
      v <- read_pairs dr N x (zrange n) ;;
      let w := sort (pair_gt sc) v in
      if Z.min n k <? 0 then undef
      else write_pairs dr dn y z 0 (firstn (Z.to_nat (Z.min n k)) w).
  (** ops::top (ops/utility.hpp:72-96): both results have shape (k). *)
  Definition top_shape (k : Z) : list Z * list Z := ([k], [k]).

  (** ttl::hamming_distance (stdtensor): number of positions that differ. *)
  Definition hamming {R1} (d1 : dtype V R1) (neqb : R1 -> R1 -> bool) (x y : tensor) : M V Z :=
    foldM (zrange (size x)) (fun c i =>
      a <- load d1 (daddr x i) ;; b <- load d1 (daddr y i) ;;
      ret (if neqb a b then c + 1 else c)) 0.

  (** kernels::similarity (kernels/cpu/utility.hpp:79-90), ops::similarity
      (ops/utility.hpp:51-70). *)
  Definition op_similarity {R R1} (dr : dtype V R) (sc : scalar R) (d1 : dtype V R1) (neqb : R1 -> R1 -> bool)
             (z x y : tensor) : M V unit :=
    let x := flat x in let y := flat y in
    h <- hamming d1 neqb x y ;;
    q <- lift (sdiv sc (sofZ sc h) (sofZ sc (size x))) ;;
    store dr (daddr z 0) (ssub sc (s1 sc) q).
  Definition similarity_shape (x y : list Z) : outcome (list Z) :=
    _ <<- ocontract (if list_eq_dec Z.eq_dec x y then true else false) ;; Ret [].
End Utility.
