(** IEEE 754 floating point as a scalar type.

    float is [binary_float 24 128] and double is [binary_float 53 1024] of the
    Flocq library: binary floating point with rounding to nearest, ties to even,
    signed zeros, infinities and one NaN.
    Assumptions on the compiled code: no contraction of a * b + c into a fused
    operation, no excess precision and no -ffast-math; NaN payloads and signs are
    not observed. *)
From Coq Require Import ZArith Reals.
From Flocq Require Import Core BinarySingleNaN.
From Verif Require Import Base Scalar.
Open Scope Z_scope.

Section Float.
  Context (prec emax : Z) {Hprec : Prec_gt_0 prec} {Hmax : Prec_lt_emax prec emax}.

  Definition Fsc : scalar (binary_float prec emax) :=
    mkscalar (binary_float prec emax) (B754_zero false) Bone
      (Bplus mode_NE) (Bminus mode_NE) (Bmult mode_NE) Bopp
      (fun a b => Ret (Bdiv mode_NE a b)) Bltb
      (fun z => binary_normalize prec emax _ _ mode_NE z 0 false).

  (** std::numeric_limits<R>::lowest() *)
  Definition Flowest : binary_float prec emax := Bopp Bmax_float.
End Float.

#[global] Instance prec24 : Prec_gt_0 24 := eq_refl.
#[global] Instance emax128 : Prec_lt_emax 24 128 := eq_refl.
#[global] Instance prec53 : Prec_gt_0 53 := eq_refl.
#[global] Instance emax1024 : Prec_lt_emax 53 1024 := eq_refl.

Definition float : Type := binary_float 24 128.
Definition F32 : scalar float := Fsc 24 128.
Definition double : Type := binary_float 53 1024.
Definition F64 : scalar double := Fsc 53 1024.
