(** Model of models/namescope.hpp. *)
From Coq Require Import List Bool Ascii.
Import ListNotations.

Definition str : Type := list ascii.

Definition empty (s : str) : bool := match s with [] => true | _ => false end.

(** name_prefix_ctx_t (models/namescope.hpp:21-57): sep_ and names_, the
    innermost scope last. *)
Record ctx : Type := mkctx { sep : str; names : list str }.

(** in (models/namescope.hpp:28). *)
Definition scope_in (name : str) (c : ctx) : ctx := mkctx (sep c) (names c ++ [name]).

(** out (models/namescope.hpp:30); pop_back of an empty vector is undefined. *)
Definition scope_out (name : str) (c : ctx) : option ctx :=
  match names c with
  | [] => None
  | _ => Some (mkctx (sep c) (removelast (names c)))
  end.

(** operator* (models/namescope.hpp:32-40). *)
Definition star (c : ctx) : str :=
  fold_left (fun ss s => (if negb (empty ss) then ss ++ sep c else ss) ++ s) (names c) [].

(** operator() (models/namescope.hpp:42-47). *)
Definition qualify (c : ctx) (name : str) : str :=
  let ss := star c in (if negb (empty ss) then ss ++ sep c else ss) ++ name.

(** User programs: they ask for the current path or for a qualified name, open
    scopes, throw and catch. *)
Inductive prog : Type :=
| Skip
| AskPath
| AskName (name : str)
| With (prefix : str) (body : prog)
| Seq (p q : prog)
| Raise
| Try (body handler : prog).

Inductive how : Type := Returned | Threw | Undefined.

(** Execution: strings observed, how it ended, the context afterwards.  [With] is
    with (models/namescope.hpp:49-53) and the scope guard (models/namescope.hpp:7-20),
    whose destructor runs on return and on unwinding. *)
Fixpoint exec (p : prog) (c : ctx) : list str * how * ctx :=
  match p with
  | Skip => ([], Returned, c)
  | AskPath => ([star c], Returned, c)
  | AskName name => ([qualify c name], Returned, c)
  | With prefix body =>
      let '(o, h, c1) := exec body (scope_in prefix c) in
      match h with
      | Undefined => (o, Undefined, c1)
      | _ => match scope_out prefix c1 with
             | Some c2 => (o, h, c2)
             | None => (o, Undefined, c1)
             end
      end
  | Seq p q =>
      let '(o, h, c1) := exec p c in
      match h with
      | Returned => let '(o', h', c2) := exec q c1 in (o ++ o', h', c2)
      | _ => (o, h, c1)
      end
  | Raise => ([], Threw, c)
  | Try body handler =>
      let '(o, h, c1) := exec body c in
      match h with
      | Threw => let '(o', h', c2) := exec handler c1 in (o ++ o', h', c2)
      | _ => (o, h, c1)
      end
  end.
