(** Integer element types of C++.

    The operators are templates over the element type; for integer types the
    kernels compute with the arithmetic of that type: modulo 2^n for unsigned
    types, exactly for signed types as long as no result leaves the range (a
    result outside is undefined behaviour, here: arbitrary). *)
From Coq Require Import ZArith.
From Verif Require Import Base Scalar.
Open Scope Z_scope.

(** Arithmetic of uint8_t, uint32_t, uint64_t.  (uint8_t is computed in int and
    converted back; uint16_t is not included since the product of two uint16_t
    may overflow int.) *)
Record unsigned (n : Z) (sc : scalar Z) : Prop := mkunsigned {
  u_zero : s0 sc = 0;
  u_add : forall a b, 0 <= a < 2 ^ n -> 0 <= b < 2 ^ n -> sadd sc a b = (a + b) mod 2 ^ n;
  u_sub : forall a b, 0 <= a < 2 ^ n -> 0 <= b < 2 ^ n -> ssub sc a b = (a - b) mod 2 ^ n;
  u_mul : forall a b, 0 <= a < 2 ^ n -> 0 <= b < 2 ^ n -> smul sc a b = (a * b) mod 2 ^ n }.

(** Arithmetic that is exact in the range lo .. hi: int8_t to int64_t. *)
Record exact_within (lo hi : Z) (sc : scalar Z) : Prop := mkexact {
  e_zero : s0 sc = 0;
  e_add : forall a b, lo <= a + b <= hi -> sadd sc a b = a + b;
  e_sub : forall a b, lo <= a - b <= hi -> ssub sc a b = a - b;
  e_mul : forall a b, lo <= a * b <= hi -> smul sc a b = a * b }.

(** An instance of each: uint8_t, and int32_t as compiled with -fwrapv. *)
Definition Usc (n : Z) : scalar Z :=
  mkscalar Z 0 1 (fun a b => (a + b) mod 2 ^ n) (fun a b => (a - b) mod 2 ^ n) (fun a b => (a * b) mod 2 ^ n)
    (fun a => (- a) mod 2 ^ n) (fun a b => if b =? 0 then Undef else Ret (a / b)) Z.ltb (fun a => a mod 2 ^ n).
Definition wrap32 (a : Z) : Z := (a + 2 ^ 31) mod 2 ^ 32 - 2 ^ 31.
Definition I32 : scalar Z :=
  mkscalar Z 0 1 (fun a b => wrap32 (a + b)) (fun a b => wrap32 (a - b)) (fun a b => wrap32 (a * b))
    (fun a => wrap32 (- a)) (fun a b => if b =? 0 then Undef else Ret (wrap32 (Z.quot a b))) Z.ltb wrap32.
