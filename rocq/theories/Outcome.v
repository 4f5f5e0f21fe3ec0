(** Outcomes of the passes. *)
From Coq Require Import String.
From Verif Require Import Names.

(** src/error.rs:21-56: ErrorKind. The attribute and element names are kept as ids. *)
Inductive error : Type :=
| UnresolvedAttribute (a : aid)
| MissingAttribute (e : eid) (a : aid)
| Scripting
| Animation
| Conditional
| ExternalHref (s : string).

(** [Panic] is a Rust panic (unwrap of None, index out of bounds, unreachable). *)
Inductive result (A : Type) : Type :=
| Ok (a : A)
| Err (e : error)
| Panic.
Arguments Ok {A} a.
Arguments Err {A} e.
Arguments Panic {A}.

Definition bind {A B} (x : result A) (f : A -> result B) : result B :=
  match x with Ok a => f a | Err e => Err e | Panic => Panic end.
