(** Specification of the 1-D operators, independent of the code. *)
From Coq Require Import ZArith List Bool.
From Verif Require Import Base Traits TraitsSpec Scalar ConvSpec.
Import ListNotations.
Open Scope Z_scope.

(** An axis of length [n] is admissible and gives [m] windows; paddings may be
    negative (cropping); all lengths fit in int32_t. *)
Definition axis32_ok (sp : sample) (n m : Z) : Prop :=
  let k := ksize (sfilter sp) in let s := stride (sfilter sp) in let r := rate (sfilter sp) in
  let pl := left_ (spadding sp) in let pr := right_ (spadding sp) in
  1 <= k /\ 1 <= s /\ 1 <= r /\ - 2 ^ 31 <= pl /\ 0 <= n < 2 ^ 31 /\
  pl + n < 2 ^ 31 /\ pl + n + pr < 2 ^ 31 /\ valid_config k s r pl pr n m.

(** The vector extended by zeros. *)
Definition zpad1 {T} (zero : T) (n : Z) (X : Z -> T) (i : Z) : T :=
  if inb n i then X i else zero.

(** Number of (window, tap) pairs that sample element [i]. *)
Definition multiplicity (sp : sample) (m i : Z) : Z :=
  Z.of_nat (length (List.filter (arg2 (fun j k => wpos sp j k =? i)) (indices [m; ksize (sfilter sp)]))).
