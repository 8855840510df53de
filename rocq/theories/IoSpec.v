(** Specification of idx files and of tar archives. *)
From Coq Require Import ZArith List Bool.
From Verif Require Import Base HashSpec Io.
Import ListNotations.
Open Scope Z_scope.

(** A faithful object representation. *)
Definition codec_ok {T} (cd : codec T) : Prop :=
  (1 <= csize cd)%nat /\ forall v, length (enc cd v) = csize cd /\ is_bytes (enc cd v) /\ dec cd (enc cd v) = v.

Definition u32_dims (ds : list Z) : Prop := Forall (fun d => 0 <= d < 2 ^ 32) ds.

(** Most significant byte first. *)
Definition be4 (d : Z) : list Z := [d / 2 ^ 24; d / 2 ^ 16 mod 256; d / 2 ^ 8 mod 256; d mod 256].

(** Zero, zero, type code, rank, dimensions. *)
Definition idx_header (code : Z) (ds : list Z) : list Z :=
  [0; 0; code; Z.of_nat (length ds)] ++ flat_map be4 ds.

(** Header, then the elements in row-major order. *)
Definition idx_file {T} (cd : codec T) (code : Z) (ds : list Z) (X : list Z -> T) : list Z :=
  idx_header code ds ++ flat_map (fun ix => enc cd (X ix)) (indices ds).

(** *** tar *)

(** Eleven octal digits. *)
Definition octal11 (n : Z) : list Z :=
  map (fun i => 48 + n / 8 ^ i mod 8) [10; 9; 8; 7; 6; 5; 4; 3; 2; 1; 0].

(** An archive member: its name, mode/uid/gid fields, contents and the rest of
    its header after the size field. *)
Record member : Type := mkmember { m_name : list Z; m_mid : list Z; m_tail : list Z; m_data : list Z }.

(** Limit below which the block arithmetic is exact. *)
Definition size_limit : Z := 2 ^ 31 - 512.

Definition member_ok (m : member) : Prop :=
  m_name m <> [] /\ ~ In 0 (m_name m) /\ (length (m_name m) <= 100)%nat /\
  length (m_mid m) = 24%nat /\ length (m_tail m) = 376%nat /\
  Z.of_nat (length (m_data m)) <= size_limit.

(** The size field ends with a NUL. *)
Definition member_header (name mid tail : list Z) (n : Z) : list Z :=
  (name ++ repeat 0 (100 - length name)) ++ mid ++ (octal11 n ++ [0]) ++ tail.

Definition pad512 (n : nat) : nat := ((512 - n mod 512) mod 512)%nat.

Definition member_bytes (m : member) : list Z :=
  member_header (m_name m) (m_mid m) (m_tail m) (Z.of_nat (length (m_data m))) ++
  m_data m ++ repeat 0 (pad512 (length (m_data m))).

(** Members, then any number of zero blocks. *)
Definition archive (ms : list member) (k : nat) : list Z :=
  flat_map member_bytes ms ++ repeat 0 (512 * k).
