(** Specification of name scopes: the path is lexical. *)
From Coq Require Import List Bool Ascii.
From Verif Require Import Namescope.
Import ListNotations.

Fixpoint join (sep : str) (l : list str) : str :=
  match l with
  | [] => []
  | [s] => s
  | s :: l => s ++ sep ++ join sep l
  end.

(** Empty components in front are invisible. *)
Fixpoint visible (l : list str) : list str :=
  match l with
  | [] :: l => visible l
  | _ => l
  end.

Definition path_name (sep : str) (path : list str) : str := join sep (visible path).

(** What a program should observe when it runs inside the scopes [path]: no
    context is threaded, a scope lasts exactly for its body. *)
Fixpoint observes (sep : str) (path : list str) (p : prog) : list str * how :=
  match p with
  | Skip => ([], Returned)
  | AskPath => ([path_name sep path], Returned)
  | AskName name => ([path_name sep (path ++ [name])], Returned)
  | With prefix body => observes sep (path ++ [prefix]) body
  | Seq p q => match observes sep path p with
               | (o, Returned) => let '(o', h) := observes sep path q in (o ++ o', h)
               | r => r
               end
  | Raise => ([], Threw)
  | Try p q => match observes sep path p with
               | (o, Threw) => let '(o', h) := observes sep path q in (o ++ o', h)
               | r => r
               end
  end.
