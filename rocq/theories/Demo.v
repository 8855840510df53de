(** Concrete memories for the examples: block [b] holds the [b]-th list, the
    cells are readable and writable integers. *)
From Coq Require Import ZArith List QArith Qreduction.
From Verif Require Import Base BaseFacts Scalar.
Import ListNotations.
Open Scope Z_scope.

Definition znth {A} (l : list A) (i : Z) : option A :=
  if i <? 0 then None else nth_error l (Z.to_nat i).

Definition demo {V} (blocks : list (list V)) : st V :=
  mkst (fun p => match znth blocks (fst p) with
                 | Some l => match znth l (snd p) with Some v => Init v | None => Unmapped end
                 | None => Unmapped
                 end)
       (Z.of_nat (length blocks)).

(** The contents of a tensor. *)
Definition dump {V} (s : st V) (t : tensor) : list (cell V) :=
  map (fun o => cells s (daddr t o)) (zrange (size t)).

(** Run a computation on a concrete memory and show a tensor afterwards. *)
Definition run {V A} (m : M V A) (s : st V) (t : tensor) : option (list (cell V)) :=
  match m s with Ok _ s' => Some (dump s' t) | _ => None end.

(** Whole-block tensors. *)
Definition T_ (b : Z) (ds : list Z) : tensor := mktensor b 0 ds.

Definition inits {V} (l : list V) : list (cell V) := map Init l.

(** Integer cells. *)
Definition zt : dtype Z Z := dt_id Z.

(** Rational scalars, kept in lowest terms, for examples with division. *)
Definition Qsc : scalar Q :=
  mkscalar Q 0%Q 1%Q (fun a b => Qred (a + b)) (fun a b => Qred (a - b)) (fun a b => Qred (a * b))
    (fun a => Qred (- a)) (fun a b => if Qeq_bool b 0 then Undef else Ret (Qred (a / b)))
    (fun a b => negb (Qle_bool b a)) inject_Z.
Definition qt : dtype Q Q := dt_id Q.
