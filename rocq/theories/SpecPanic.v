(** Documents that can be cleaned without a risk: what they look like. *)
From Coq Require Import List Bool NArith Arith ZArith String.
From Verif Require Import Names Num Value Dom SpecDom SpecPath.
Import ListNotations.
Local Open Scope nat_scope.

(** The value of an attribute has the type that its name promises: a transform is a transform, an opacity is a number,
    the points of a polygon come in pairs (at least one), the data of a path start with a move. *)
Definition well_typed (n : aname) (v : value) : Prop :=
  match n with
  | AN ATransform => exists m, v = VTransform m
  | AN AOpacity => exists q, v = VNum q
  | AN APoints => exists l, v = VNumList l /\ l <> [] /\ Nat.even (List.length l) = true
  | AN AD => exists p, v = VPath p /\ starts_with_move p
  | _ => True
  end.
(** An element (or another node) without references: no attribute is a link, values are well typed, it is not a gradient
    or filter, and only SVG elements have a transform. *)
Record plain_node (d : ndata) : Prop := {
  pn_links : forall k, ~ refers_to d k;
  pn_typed : forall x, In x (attrs d) -> well_typed (a_name x) (a_val x);
  pn_kind : tag d <> TEl ELinearGradient /\ tag d <> TEl ERadialGradient /\ tag d <> TEl EFilter;
  pn_transform : d_has d ATransform = true -> exists e, tag d = TEl e
}.
(** A document without references: all of its nodes are like this, groups contain SVG elements only (no text and no
    comments), the svg element has no display attribute, and neither have defs elements; there are less than 780965692
    elements. *)
Record plain_document (t : tree) : Prop := {
  pd_nodes : forall d, In d (flat t) -> plain_node d;
  pd_groups : forall s c, In s (subs t) -> tag (data s) = TEl EG -> In c (kids s) -> exists e, tag (data c) = TEl e;
  pd_svg : exists s, svg_element t = Some s /\ d_has (data s) ADisplay = false;
  pd_defs : forall d, In d (flat t) -> tag d = TEl EDefs -> d_has d ADisplay = false;
  pd_size : (Z.of_nat (List.length (flat t)) < 780965000)%Z
}.
