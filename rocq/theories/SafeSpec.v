(** Which memory an operator may change, whatever its operands. *)
From Coq Require Import ZArith.
From Verif Require Import Base.
Open Scope Z_scope.

(** In every memory: unless the behaviour is undefined, only [z] changes and all
    temporaries are released, also when an exception is thrown. *)
Definition stays_in {V A} (z : tensor) (m : M V A) : Prop :=
  forall s, fresh_ok s ->
    match m s with Ok _ s' | Throw _ s' => only_changes z s s' | UB => True end.

(** The same with two outputs. *)
Definition stays_in2 {V A} (y z : tensor) (m : M V A) : Prop :=
  forall s, fresh_ok s ->
    match m s with
    | Ok _ s' | Throw _ s' => forall p, ~ foot y p -> ~ foot z p -> cells s' p = cells s p
    | UB => True
    end.

(** In some memory it ends normally and changes an element outside [z]. *)
Definition escapes {V} (z : tensor) (m : M V unit) : Prop :=
  exists s s', fresh_ok s /\ mapped s z /\ m s = Ok tt s' /\ exists p, ~ foot z p /\ cells s' p <> cells s p.
