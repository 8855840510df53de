(** Vocabulary for the algebra of matrix products. *)
From Coq Require Import ZArith List.
From Verif Require Import Base Scalar LinAlg ConvFacts.
Import ListNotations.
Open Scope Z_scope.

(** The three products of the library: [x y], [x yT], [xT y]. *)
Inductive product : Type := Plain | RightT | LeftT.

Definition op_product {V T} (dt : dtype V T) (sc : scalar T) (p : product) (e : engine) (z x y : tensor) : M V unit :=
  match p with
  | Plain => k_mm dt sc e z x y
  | RightT => k_mmt dt sc e z x y
  | LeftT => k_mtm dt sc e z x y
  end.

(** Where row [i], column [k] of the left and right factor is stored; applied
    to sizes, the shape of the factor. *)
Definition lcell (p : product) (i k : Z) : list Z := match p with LeftT => [k; i] | _ => [i; k] end.
Definition rcell (p : product) (k j : Z) : list Z := match p with RightT => [j; k] | _ => [k; j] end.

(** A proper call: [m] rows, [l] summands, [n] columns. *)
Definition mcalled {V T} (dt : dtype V T) (sc : scalar T) (p : product) (e : engine) (m l n : Z) (s : st V)
    (z x y : tensor) (X Y : list Z -> T) : Prop :=
  engine_ok sc e [m; l; n] /\ 0 <= m /\ 0 <= l /\ 0 <= n /\
  tdims x = lcell p m l /\ tdims y = rcell p l n /\ tdims z = [m; n] /\
  holds dt s x X /\ holds dt s y Y /\ mapped s z /\ disjoint z x /\ disjoint z y.

(** The outputs are pairwise disjoint, and disjoint from all inputs. *)
Definition separate (outs ins : list tensor) : Prop :=
  ForallOrdPairs disjoint outs /\ Forall (fun o => Forall (disjoint o) ins) outs.
