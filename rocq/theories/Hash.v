(** Model of kernels/cpu/hash.hpp and ops/hash.hpp. *)
From Coq Require Import ZArith List Bool.
From Verif Require Import Base.
Import ListNotations.
Open Scope Z_scope.
Open Scope model_scope.

(** Unsigned words of [w] bits are the integers of [0, 2^w). *)
Section Crc.
  Context (w poly : Z).

  (** static_cast<N>(-1). *)
  Definition ones : Z := 2 ^ w - 1.

  (** t (kernels/cpu/hash.hpp:25-28). *)
  Definition crc_t (s : Z) : Z :=
    if Z.land s 1 =? 1 then Z.lxor (Z.shiftr s 1) poly else Z.shiftr s 1.

  (** table[i] as filled by the constructor (kernels/cpu/hash.hpp:31-45). *)
  Definition crc_table (i : Z) : Z :=
    crc_t (crc_t (crc_t (crc_t (crc_t (crc_t (crc_t (crc_t i))))))).

  (** sum (kernels/cpu/hash.hpp:17-23). *)
  Definition crc_sum (bytes : list Z) (init : Z) : Z :=
    fold_left (fun a b => Z.lxor (Z.shiftr a 8) (crc_table (Z.lxor a b mod 256))) bytes init.

  (** The value stored by operator() (kernels/cpu/hash.hpp:47-53). *)
  Definition crc (bytes : list Z) : Z := Z.lxor (crc_sum bytes ones) ones.

  (** operator(): [rep] is the object representation of an element.  Also
      ops::basic_crc (ops/hash.hpp:6-27). *)
  Definition op_crc {V T} (dn : dtype V Z) (dt : dtype V T) (rep : T -> list Z) (y x : tensor) : M V unit :=
    bs <- foldM (zrange (size x)) (fun bs i => v <- load dt (daddr x i) ;; ret (bs ++ rep v)) [] ;;
    store dn (daddr y 0) (crc bs).
End Crc.

(** crc_polynomials (ops/hash.hpp:50-54). *)
Definition poly_usb : Z := 0xa001.
Definition poly_ieee : Z := 0xedb88320.
Definition poly_ecma : Z := 0xC96C5795D7870F42.

(** crc16_usb, crc32_ieee, crc64_ecma (ops/hash.hpp:56-58). *)
Definition crc16_usb := crc 16 poly_usb.
Definition crc32_ieee := crc 32 poly_ieee.
Definition crc64_ecma := crc 64 poly_ecma.
