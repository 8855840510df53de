(** Vocabulary for layers: what a call creates, what it leaks. *)
From Coq Require Import ZArith List Bool.
From Verif Require Import Base Layers.
Import ListNotations.
Open Scope Z_scope.

(** From [s] to [s'] the only change in memory is that the tensors [ts], in
    pairwise different blocks that [s] never used, now exist. *)
Definition grown {V} (s s' : st V) (ts : list tensor) : Prop :=
  fresh_ok s' /\ nextb s <= nextb s' /\ NoDup (map tblk ts) /\
  Forall (fun t => nextb s <= tblk t < nextb s' /\ tbase t = 0 /\ mapped s' t) ts /\
  (forall p, ~ In (fst p) (map tblk ts) -> cells s' p = cells s p).

(** Shape and contents of a tensor. *)
Definition content (T : Type) : Type := (list Z * (list Z -> T))%type.
Definition has {V T} (dt : dtype V T) (s : st V) (t : tensor) (c : content T) : Prop :=
  tdims t = fst c /\ holds dt s t (snd c).

(** The call returns a layer with output [Y] and weights [Ws], all separately
    owned, and changes nothing else. *)
Definition creates {V T} (dt : dtype V T) (m : M V layer) (s : st V) (Y : content T) (Ws : list (content T)) : Prop :=
  exists l s', m s = Ok l s' /\ grown s s' (owned l) /\
    has dt s' (output l) Y /\ Forall2 (has dt s') (weights l) Ws.

(** The call throws [e] and leaves behind tensors of the given shapes that
    nobody owns. *)
Definition leaks {V} (m : M V layer) (s : st V) (e : exn) (shapes : list (list Z)) : Prop :=
  exists ts s', m s = Throw e s' /\ grown s s' ts /\ map tdims ts = shapes.

(** An initialiser that fills every tensor of shape [ds] with [W]. *)
Definition fills {V T} (dt : dtype V T) (init : tensor -> M V unit) (ds : list Z) (W : list Z -> T) : Prop :=
  forall s w, fresh_ok s -> tdims w = ds -> mapped s w -> writes dt (init w) s w W.

(** An initialiser that throws on every tensor of shape [ds] (having changed
    nothing but that tensor). *)
Definition init_fails {V} (init : tensor -> M V unit) (ds : list Z) (e : exn) : Prop :=
  forall s w, fresh_ok s -> tdims w = ds -> mapped s w ->
    exists s', init w s = Throw e s' /\ only_changes w s s' /\ mapped s' w.

(** An activation that in place replaces [Y] by [act Y]. *)
Definition acts {V T} (dt : dtype V T) (act : tensor -> tensor -> M V unit) (ds : list Z)
    (F : (list Z -> T) -> list Z -> T) : Prop :=
  forall s y Y, fresh_ok s -> tdims y = ds -> holds dt s y Y -> writes dt (act y y) s y (F Y).

(** What a layer does to inputs: a precondition, the shape and contents of its
    output, its weights. *)
Record behaviour (T : Type) : Type := mkbeh {
  pre : content T -> Prop;
  out : content T -> content T;
  wts : content T -> list (content T) }.
Arguments mkbeh {T} _ _ _.
Arguments pre {T} _ _.
Arguments out {T} _ _.
Arguments wts {T} _ _.

Definition input {V T} (dt : dtype V T) (s : st V) (x : tensor) (X : content T) : Prop :=
  fresh_ok s /\ Forall (fun d => 0 <= d) (fst X) /\ has dt s x X.

Definition implements {V T} (dt : dtype V T) (L : tensor -> M V layer) (B : behaviour T) : Prop :=
  forall s x X, input dt s x X -> pre B X ->
    creates dt (L x) s (out B X) (wts B X) /\ Forall (fun d => 0 <= d) (fst (out B X)).

(** First [A], then [B]; only the weights of [B] survive. *)
Definition andthen {T} (A B : behaviour T) : behaviour T :=
  mkbeh (fun X => pre A X /\ pre B (out A X)) (fun X => out B (out A X)) (fun X => wts B (out A X)).
