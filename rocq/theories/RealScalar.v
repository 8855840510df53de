(** The real numbers as a scalar type: exact arithmetic in place of floating
    point.  Division by zero has no value. *)
From Coq Require Import ZArith Reals List Ring_theory RIneq.
From Verif Require Import Base Scalar.
Open Scope R_scope.

Definition Rltb (x y : R) : bool := if Rlt_dec x y then true else false.

Definition Rsc : scalar R :=
  mkscalar R 0 1 Rplus Rminus Rmult Ropp
    (fun a b => if Req_EM_T b 0 then Undef else Ret (a / b)) Rltb IZR.

Lemma Rsc_laws : ring_laws Rsc.
Proof.
  constructor; cbn; intros; ring.
Qed.

Lemma Rdiv_ok : forall a b, b <> 0 -> sdiv Rsc a b = Ret (a / b).
Proof. intros a b H. cbn. destruct (Req_EM_T b 0); congruence. Qed.
