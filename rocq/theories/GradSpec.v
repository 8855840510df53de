(** Specification of a vector-Jacobian product.

    [GX] is the gradient, at every point, of [F] in direction [GZ] when for
    every [X] and every increment [dX]
      <GZ, F (X + dX) - F X> = <GX, dX>.
    This exact form characterises the gradient of an affine map over any
    commutative ring. *)
From Coq Require Import ZArith List.
From Verif Require Import Base Scalar.

Definition tadd {T} (sc : scalar T) (X Y : list Z -> T) : list Z -> T := fun ix => sadd sc (X ix) (Y ix).
Definition tsub {T} (sc : scalar T) (X Y : list Z -> T) : list Z -> T := fun ix => ssub sc (X ix) (Y ix).

Definition is_vjp {T} (sc : scalar T) (dz dx : list Z) (F : (list Z -> T) -> list Z -> T)
  (GZ GX : list Z -> T) : Prop :=
  forall X dX, inner sc dz GZ (tsub sc (F (tadd sc X dX)) (F X)) = inner sc dx GX dX.
