(** Vocabulary for programs. *)
From Coq Require Import ZArith List.
From Verif Require Import Base LayersSpec.
From Coq Require Import String.
Open Scope Z_scope.

(** The program ends with the given result or exception, and has released
    everything it allocated: every memory cell is as it was. *)
Definition ends {V A} (m : M V A) (s : st V) (o : outcome A) : Prop :=
  exists s', m s = match o with Ret a => Ok a s' | Exn e => Throw e s' | Undef => UB end /\
    fresh_ok s' /\ nextb s <= nextb s' /\ forall p, cells s' p = cells s p.

(** The initialiser puts [X name] into the tensors of these names and shapes. *)
Definition filled {V T} (dt : dtype V T) (init : string -> tensor -> M V unit) (X : string -> list Z -> T)
    (l : list (string * list Z)) : Prop :=
  Forall (fun p => fills dt (init (fst p)) (snd p) (X (fst p))) l.
