(** Vocabulary of the specifications of elementwise operators. *)
From Coq Require Import ZArith List.
From Verif Require Import Base Scalar.
Import ListNotations.
Open Scope Z_scope.

(** The output [z] either shares no cell with the input [x] or is the very
    same tensor (an in-place call). *)
Definition safe (z x : tensor) : Prop := disjoint z x \/ same_cells z x.

(** Matrix product of [X : m x l] and [Y : l x n]. *)
Definition matmul_fn {T} (sc : scalar T) (l : Z) (X Y : list Z -> T) : list Z -> T :=
  arg2 (fun i j => sum_over sc (zrange l) (fun k => smul sc (X [i; k]) (Y [k; j]))).

(** Elements of a tensor moved between the nchw and nhwc layouts. *)
Definition to_nchw {T} (X : list Z -> T) : list Z -> T := arg4 (fun n c h w => X [n; h; w; c]).
