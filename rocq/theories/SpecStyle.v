(** Computed values of properties (SVG 1.1, 6.4): the nearest value on the way from the node to the
    root, else the default value. *)
From Coq Require Import List Bool NArith Arith ZArith String QArith Qcanon.
From Verif Require Import Names Num Value Dom.
Import ListNotations.
Local Open Scope nat_scope.

(** The value of [a] in the first of the nodes that has it. *)
Fixpoint nearest (a : aid) (l : list ndata) : option value :=
  match l with
  | [] => None
  | d :: l' => match d_get d a with Some v => Some v | None => nearest a l' end
  end.
(** The value of an inheritable property for a node with the given ancestors. *)
Definition computed (default : aid -> option value) (anc : list ndata) (d : ndata) (a : aid) : option value :=
  match nearest a (d :: anc) with Some v => Some v | None => default a end.
(** Initial values of the stroke geometry properties (SVG 1.1, 11.4). *)
Definition stroke_default (a : aid) : option value :=
  match a with
  | AStrokeWidth => Some (VLen (Len q1 UNone))
  | AStrokeDashoffset => Some (VLen (Len q0 UNone))
  | _ => None
  end.
