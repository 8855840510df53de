(** Specification of a reflected cyclic redundancy check, bit by bit. *)
From Coq Require Import ZArith List Bool.
Import ListNotations.
Open Scope Z_scope.

(** One step of the shift register: the register is shifted towards its low end
    and the polynomial is added when the bit leaving it differs from the message
    bit. *)
Definition bit_step (poly : Z) (a : Z) (m : bool) : Z :=
  if xorb (Z.odd a) m then Z.lxor (a / 2) poly else a / 2.

(** The bits of a byte, low end first. *)
Definition byte_bits (b : Z) : list bool :=
  map (fun i => Z.testbit b i) [0; 1; 2; 3; 4; 5; 6; 7].

Definition bits (bytes : list Z) : list bool := flat_map byte_bits bytes.

(** Register preset to all ones, result complemented. *)
Definition crc_bits (w poly : Z) (ms : list bool) : Z :=
  2 ^ w - 1 - fold_left (bit_step poly) ms (2 ^ w - 1).

Definition is_bytes (l : list Z) : Prop := Forall (fun b => 0 <= b < 256) l.

(** Bytewise exclusive or of strings. *)
Fixpoint xors (a b : list Z) : list Z :=
  match a, b with
  | x :: a, y :: b => Z.lxor x y :: xors a b
  | _, _ => []
  end.
