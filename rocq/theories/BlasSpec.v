(** What a BLAS library may do with the products of an entry. *)
From Coq Require Import ZArith List Bool Reals Permutation.
From Flocq Require Import Core BinarySingleNaN.
From Verif Require Import Base Scalar RealScalar Blas FloatSpec.
Import ListNotations.

Section BlasSpec.
  Context (prec emax : Z) {Hprec : Prec_gt_0 prec} {Hmax : Prec_lt_emax prec emax}.
  Notation flt := (binary_float prec emax).

  (** The numbers that rounded operations can make of the sum of the products of
      the pairs: the products may be taken in any order, added in any order and
      any grouping, and a product may be added without being rounded first. *)
  Inductive dot_value : list (flt * flt) -> flt -> Prop :=
  | dot_nil : forall s, dot_value [] (B754_zero s)
  | dot_one : forall a b, dot_value [(a, b)] (Bmult mode_NE a b)
  | dot_add : forall l1 l2 v1 v2, dot_value l1 v1 -> dot_value l2 v2 -> dot_value (l1 ++ l2) (Bplus mode_NE v1 v2)
  | dot_fma : forall a b l v, dot_value l v -> dot_value ((a, b) :: l) (Bfma mode_NE a b v)
  | dot_perm : forall l l' v, Permutation l l' -> dot_value l v -> dot_value l' v.

  (** Every entry is such a number. *)
  Definition sums {V} (lib : library V flt) : Prop := forall s c l, dot_value l (lib s c l).

  (** The exact sum, and the sum of the absolute values. *)
  Definition dot_R (l : list (flt * flt)) : R := sum_over Rsc l (fun p => B2R (fst p) * B2R (snd p))%R.
  Definition dot_abs (l : list (flt * flt)) : R := sum_over Rsc l (fun p => Rabs (B2R (fst p) * B2R (snd p)))%R.
End BlasSpec.
