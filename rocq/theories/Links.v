(** svgdom's rules for links that are set by [Node::set_attribute] (svgdom 0.10.5, not in /repo). *)
From Coq Require Import List Bool NArith Arith String.
From Verif Require Import Names Num Value Dom.
Import ListNotations.

(** svgdom [set_attribute] with a node panics if the id of the target is empty, if the ids are equal or if the
    target refers to the node. *)
Definition can_link (d n : ndata) : bool := has_id n && negb (String.eqb (nid d) (nid n)) && negb (existsb (refers (key d)) (attrs n)).
(** [set_attribute] panics if the value is a link that is not allowed, see [can_link]. *)
Definition put_ok (t : tree) (d : ndata) (x : attr) : bool :=
  match link_of (a_val x) with
  | Some k => match find_data k t with Some n => can_link d n | None => true end
  | None => true
  end.
