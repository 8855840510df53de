(** Memory, exceptions, undefined behaviour, tensors and loops.

    This file fixes the semantic domain in which the C++ code is modelled.
    Nothing here mirrors a particular file of /repo: it models the C++ abstract
    machine and the (external) stdtensor library that the repository uses. *)
From Coq Require Import ZArith List Bool.
Import ListNotations.
Open Scope Z_scope.

(** ** Index arithmetic (stdtensor: row-major shapes) *)

(** [ttl::range(n)]: 0, 1, ..., n-1. *)
Definition zrange (n : Z) : list Z := map Z.of_nat (seq 0 (Z.to_nat n)).

(** [shape.size()]: product of the dimensions.  Simplification: computed in Z,
    not modulo 2^32. *)
Fixpoint prod (dims : list Z) : Z :=
  match dims with
  | [] => 1
  | d :: ds => d * prod ds
  end.

(** [shape.offset(i...)], row-major.  Simplification: in Z. *)
Fixpoint offset (dims ix : list Z) : Z :=
  match dims, ix with
  | _ :: ds, i :: is => i * prod ds + offset ds is
  | _, _ => 0
  end.

(** [shape.expand(off)]: the inverse of [offset] on [0, size). *)
Fixpoint expand (dims : list Z) (o : Z) : list Z :=
  match dims with
  | [] => []
  | _ :: ds => o / prod ds :: expand ds (o mod prod ds)
  end.

(** All index tuples of a shape in row-major order. *)
Fixpoint indices (dims : list Z) : list (list Z) :=
  match dims with
  | [] => [[]]
  | d :: ds => flat_map (fun i => map (cons i) (indices ds)) (zrange d)
  end.

(** [ix] is an index tuple of the shape [dims]. *)
Fixpoint valid (dims ix : list Z) : Prop :=
  match dims, ix with
  | [], [] => True
  | d :: ds, i :: is => 0 <= i < d /\ valid ds is
  | _, _ => False
  end.

(** ** Memory *)

Definition loc := (Z * Z)%type. (* block, element offset in the block *)

Definition loc_eqb (p q : loc) : bool := (fst p =? fst q) && (snd p =? snd q).

Inductive cell (V : Type) : Type :=
| Unmapped        (* not allocated, or already released *)
| Uninit          (* allocated, never written *)
| Init (v : V).
Arguments Unmapped {V}.
Arguments Uninit {V}.
Arguments Init {V} v.

Record st (V : Type) : Type := mkst { cells : loc -> cell V; nextb : Z }.
Arguments mkst {V} _ _.
Arguments cells {V} _ _.
Arguments nextb {V} _.

(** Blocks from [nextb] on have never been allocated. *)
Definition fresh_ok {V} (s : st V) : Prop :=
  forall p, nextb s <= fst p -> cells s p = Unmapped.

(** Exceptions thrown by the library. *)
Inductive exn : Type :=
| InvalidArgument   (* std::invalid_argument *)
| RuntimeError      (* std::runtime_error: contract_assert and others *)
| LogicError        (* std::logic_error family *)
| OutOfRange.       (* std::out_of_range *)

Inductive res (V A : Type) : Type :=
| Ok (a : A) (s : st V)
| Throw (e : exn) (s : st V)
| UB.               (* undefined behaviour *)
Arguments Ok {V A} a s.
Arguments Throw {V A} e s.
Arguments UB {V A}.

Definition M (V A : Type) : Type := st V -> res V A.

Definition ret {V A} (a : A) : M V A := fun s => Ok a s.

Definition bind {V A B} (m : M V A) (k : A -> M V B) : M V B :=
  fun s => match m s with
           | Ok a s' => k a s'
           | Throw e s' => Throw e s'
           | UB => UB
           end.

Definition throw {V A} (e : exn) : M V A := fun s => Throw e s.
Definition undef {V A} : M V A := fun _ => UB.

(** Pure option/exception results lifted to the monad. *)
Inductive outcome (A : Type) : Type :=
| Ret (a : A)
| Exn (e : exn)
| Undef.
Arguments Ret {A} a.
Arguments Exn {A} e.
Arguments Undef {A}.

Definition obind {A B} (o : outcome A) (k : A -> outcome B) : outcome B :=
  match o with Ret a => k a | Exn e => Exn e | Undef => Undef end.

Definition lift {V A} (o : outcome A) : M V A :=
  match o with Ret a => ret a | Exn e => throw e | Undef => undef end.

Declare Scope model_scope.
Delimit Scope model_scope with model.
Notation "x <- m ;; k" := (bind m (fun x => k))
  (at level 61, m at next level, right associativity) : model_scope.
Notation "m ;;; k" := (bind m (fun _ => k))
  (at level 61, right associativity) : model_scope.
Notation "x <<- m ;; k" := (obind m (fun x => k))
  (at level 61, m at next level, right associativity) : model_scope.
Open Scope model_scope.

(** [contract_assert] (include/experimental/bits/contract.hpp:6-13): throws
    std::runtime_error when the condition is false. *)
Definition contract {V} (b : bool) : M V unit :=
  if b then ret tt else throw RuntimeError.

Definition ocontract (b : bool) : outcome unit :=
  if b then Ret tt else Exn RuntimeError.

(** A C++ element type [T] stored in cells holding values of [V].  Reading a
    cell at the wrong type is undefined behaviour. *)
Record dtype (V T : Type) : Type := mkdtype {
  emb : T -> V;
  prj : V -> option T;
  prj_emb : forall x, prj (emb x) = Some x
}.
Arguments emb {V T} _ _.
Arguments prj {V T} _ _.
Arguments prj_emb {V T} _ _.

Definition load {V T} (dt : dtype V T) (p : loc) : M V T :=
  fun s => match cells s p with
           | Init v => match prj dt v with
                       | Some x => Ok x s
                       | None => UB
                       end
           | _ => UB
           end.

Definition upd {V} (s : st V) (p : loc) (v : V) : st V :=
  mkst (fun q => if loc_eqb q p then Init v else cells s q) (nextb s).

Definition store {V T} (dt : dtype V T) (p : loc) (x : T) : M V unit :=
  fun s => match cells s p with
           | Unmapped => UB
           | _ => Ok tt (upd s p (emb dt x))
           end.

(** Allocation of a block of [n] uninitialised elements; the new block gets a
    number that was never used before. *)
Definition alloc {V} (n : Z) : M V Z :=
  fun s => Ok (nextb s)
              (mkst (fun q => if (fst q =? nextb s) && (0 <=? snd q) && (snd q <? n)
                              then Uninit else cells s q)
                    (nextb s + 1)).

Definition dealloc {V} (b : Z) (s : st V) : st V :=
  mkst (fun q => if fst q =? b then Unmapped else cells s q) (nextb s).

(** A block-scoped temporary (RAII): released on normal exit and when an
    exception propagates. *)
Definition with_temp {V A} (n : Z) (body : Z -> M V A) : M V A :=
  fun s => match alloc n s with
           | Ok b s1 =>
               match body b s1 with
               | Ok a s2 => Ok a (dealloc b s2)
               | Throw e s2 => Throw e (dealloc b s2)
               | UB => UB
               end
           | Throw e s1 => Throw e s1
           | UB => UB
           end.

(** ** Loops *)

(** Range-based [for]: the body is run for each element, in order. *)
Fixpoint for_ {V A} (l : list A) (f : A -> M V unit) : M V unit :=
  match l with
  | [] => ret tt
  | a :: l' => f a ;;; for_ l' f
  end.

(** A loop carrying a local variable (std::accumulate and friends). *)
Fixpoint foldM {V A B} (l : list A) (f : B -> A -> M V B) (b : B) : M V B :=
  match l with
  | [] => ret b
  | a :: l' => b' <- f b a ;; foldM l' f b'
  end.

(** ** Tensors (stdtensor tensor / tensor_ref / tensor_view) *)

Record tensor : Type := mktensor { tblk : Z; tbase : Z; tdims : list Z }.

Definition size (t : tensor) : Z := prod (tdims t).

(** [t.data() + o]. *)
Definition daddr (t : tensor) (o : Z) : loc := (tblk t, tbase t + o).

(** [&t.at(i...)]. *)
Definition addr (t : tensor) (ix : list Z) : loc := daddr t (offset (tdims t) ix).

(** [t[i]]: the i-th sub-tensor, sharing storage. *)
Definition sub (t : tensor) (i : Z) : tensor :=
  mktensor (tblk t) (tbase t + i * prod (tl (tdims t))) (tl (tdims t)).

(** [ttl::tensor_ref<R, r>(t.data(), shape)]: same storage, another shape. *)
Definition reshape (t : tensor) (ds : list Z) : tensor :=
  mktensor (tblk t) (tbase t) ds.

(** [ops::as_matrix<p, q>(t)] (ops/reshape.hpp:6-18): first [p] axes as rows. *)
Definition as_matrix (p : nat) (t : tensor) : tensor :=
  reshape t [prod (firstn p (tdims t)); prod (skipn p (tdims t))].

(** [flatten(t)]. *)
Definition flat (t : tensor) : tensor := reshape t [prod (tdims t)].

Definition nth_dim (t : tensor) (i : nat) : Z := nth i (tdims t) 0.

Definition at_ {V T} (dt : dtype V T) (t : tensor) (ix : list Z) : M V T :=
  load dt (addr t ix).
Definition set_ {V T} (dt : dtype V T) (t : tensor) (ix : list Z) (x : T) : M V unit :=
  store dt (addr t ix) x.

(** A block-scoped temporary tensor of shape [ds]. *)
Definition with_tensor {V A} (ds : list Z) (body : tensor -> M V A) : M V A :=
  with_temp (prod ds) (fun b => body (mktensor b 0 ds)).

(** [ttl::fill(t, x)]: std::fill over the whole tensor. *)
Definition fill {V T} (dt : dtype V T) (t : tensor) (x : T) : M V unit :=
  for_ (zrange (size t)) (fun i => store dt (daddr t i) x).

(** ** Observations used by specifications *)

Definition dims_ok (t : tensor) : Prop := Forall (fun d => 0 <= d) (tdims t).

(** The cells of a tensor. *)
Definition foot (t : tensor) (p : loc) : Prop :=
  exists o, 0 <= o < size t /\ p = daddr t o.

(** Every cell of [t] is allocated. *)
Definition mapped {V} (s : st V) (t : tensor) : Prop :=
  forall p, foot t p -> cells s p <> Unmapped.

(** [t] holds the values [X]. *)
Definition holds {V T} (dt : dtype V T) (s : st V) (t : tensor) (X : list Z -> T) : Prop :=
  forall ix, valid (tdims t) ix -> cells s (addr t ix) = Init (emb dt (X ix)).

(** Two tensors share no cell. *)
Definition disjoint (t u : tensor) : Prop := forall p, foot t p -> foot u p -> False.

(** Same element addresses: the tensors are exact aliases. *)
Definition same_cells (t u : tensor) : Prop :=
  tblk t = tblk u /\ tbase t = tbase u /\ tdims t = tdims u.

(** Only the cells of [t] may differ between the two states, and all temporary
    storage has been released. *)
Definition only_changes {V} (t : tensor) (s s' : st V) : Prop :=
  nextb s <= nextb s' /\ forall p, ~ foot t p -> cells s' p = cells s p.

(** Normal termination, writing exactly the values [X] into [t]. *)
Definition writes {V T} (dt : dtype V T) (m : M V unit) (s : st V) (t : tensor)
           (X : list Z -> T) : Prop :=
  exists s', m s = Ok tt s' /\ holds dt s' t X /\ only_changes t s s'.

(** Functions of several indices as functions of an index tuple. *)
Definition arg1 {A} (f : Z -> A) (ix : list Z) : A := f (nth 0 ix 0).
Definition arg2 {A} (f : Z -> Z -> A) (ix : list Z) : A := f (nth 0 ix 0) (nth 1 ix 0).
Definition arg3 {A} (f : Z -> Z -> Z -> A) (ix : list Z) : A :=
  f (nth 0 ix 0) (nth 1 ix 0) (nth 2 ix 0).
Definition arg4 {A} (f : Z -> Z -> Z -> Z -> A) (ix : list Z) : A :=
  f (nth 0 ix 0) (nth 1 ix 0) (nth 2 ix 0) (nth 3 ix 0).
Definition arg5 {A} (f : Z -> Z -> Z -> Z -> Z -> A) (ix : list Z) : A :=
  f (nth 0 ix 0) (nth 1 ix 0) (nth 2 ix 0) (nth 3 ix 0) (nth 4 ix 0).
Definition arg6 {A} (f : Z -> Z -> Z -> Z -> Z -> Z -> A) (ix : list Z) : A :=
  f (nth 0 ix 0) (nth 1 ix 0) (nth 2 ix 0) (nth 3 ix 0) (nth 4 ix 0) (nth 5 ix 0).
