(** Vocabulary for the contents of the files read by the examples. *)
From Coq Require Import ZArith List.
From Verif Require Import Base Io IoSpec.
Import ListNotations.
Open Scope Z_scope.

(** An idx file for tensors of shape [ds]: the right header, and at least as many
    bytes of data as needed, whose elements in row-major order decode to [X]. *)
Definition stores {T} (cd : codec T) (code : Z) (ds : list Z) (bytes : list Z) (X : list Z -> T) : Prop :=
  exists data, bytes = idx_header code ds ++ data /\ (csize cd * Z.to_nat (prod ds) <= length data)%nat /\
    forall ix, valid ds ix -> X ix = dec cd (firstn (csize cd) (skipn (Z.to_nat (offset ds ix) * csize cd) data)).

(** A text file: every line followed by a newline, then possibly a last line
    without one. *)
Definition text (lines : list (list Z)) (last : list Z) : list Z :=
  flat_map (fun l => l ++ [10]) lines ++ last.
Definition no_newline (l : list Z) : Prop := ~ In 10 l.
