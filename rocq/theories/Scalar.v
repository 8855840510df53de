(** Scalar element types.

    A C++ arithmetic type [R] is modelled by a carrier and its operations
    without any law, so that theorems about kernels hold for float, double and
    integers alike, in the exact order of evaluation of the code.
    Simplification: signed integer overflow inside arithmetic on *elements* is
    not modelled as undefined behaviour (the carrier decides). *)
From Coq Require Import ZArith List Ring_theory.
From Verif Require Import Base.
Import ListNotations.
Open Scope Z_scope.

Record scalar (T : Type) : Type := mkscalar {
  s0 : T;                          (* static_cast<R>(0) *)
  s1 : T;                          (* static_cast<R>(1) *)
  sadd : T -> T -> T;
  ssub : T -> T -> T;
  smul : T -> T -> T;
  sneg : T -> T;
  sdiv : T -> T -> outcome T;      (* Undef: integer division by zero *)
  sltb : T -> T -> bool;           (* x < y *)
  sofZ : Z -> T                    (* conversion of a size *)
}.
Arguments s0 {T} _.
Arguments s1 {T} _.
Arguments sadd {T} _ _ _.
Arguments ssub {T} _ _ _.
Arguments smul {T} _ _ _.
Arguments sneg {T} _ _.
Arguments sdiv {T} _ _ _.
Arguments sltb {T} _ _ _.
Arguments sofZ {T} _ _.

(** The sum of [f] over a list, accumulated from 0 in list order:
    [((0 + f a1) + f a2) + ...]. *)
Definition sum_over {T A} (sc : scalar T) (l : list A) (f : A -> T) : T :=
  fold_left (fun acc a => sadd sc acc (f a)) l (s0 sc).

(** Inner product of two tensors of shape [ds]. *)
Definition inner {T} (sc : scalar T) (ds : list Z) (X Y : list Z -> T) : T :=
  sum_over sc (indices ds) (fun ix => smul sc (X ix) (Y ix)).

(** Laws of a commutative ring (exact arithmetic). *)
Definition ring_laws {T} (sc : scalar T) : Prop :=
  ring_theory (s0 sc) (s1 sc) (sadd sc) (smul sc) (ssub sc) (sneg sc) (@eq T).

(** Integers: the instance used in the concrete examples. *)
Definition Zsc : scalar Z :=
  mkscalar Z 0 1 Z.add Z.sub Z.mul Z.opp
    (fun a b => if b =? 0 then Undef else Ret (Z.quot a b)) Z.ltb (fun x => x).
