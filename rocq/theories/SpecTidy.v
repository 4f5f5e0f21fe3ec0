(** Documents with references that cannot confuse the cleaner: a condition on the document that is given to it. *)
From Coq Require Import List Bool NArith Arith String.
From Verif Require Import Names Value Dom SpecDom SpecWritten SpecGroupDefs APass.
Import ListNotations.
Local Open Scope nat_scope.

(** The element with the key [k] is shown by a use element. *)
Definition shown (t : tree) (k : nat) : Prop :=
  exists u x, In u (flat t) /\ tag u = TEl EUse /\ In x (attrs u) /\ a_name x = AN AXlinkHref /\ a_val x = VLink k.
Record tidy (t : tree) : Prop := {
  (* A gradient has an xlink:href only to a gradient, and no other attribute with a link; nor does it say [inherit] or [currentColor]. *)
  td_gradients : forall d x, In d (flat t) -> gradient_node d -> In x (attrs d) ->
    (a_name x = AN AXlinkHref /\ exists g, In g (flat t) /\ gradient_node g /\ a_val x = VLink (key g)) \/
    (link_of (a_val x) = None /\ a_val x <> VPre Vid_inherit /\ a_val x <> VPre Vid_currentColor);
  (* A gradient is not a child of a clip path, a marker, a mask, a pattern or a symbol. *)
  td_place : forall a p g, In (p :: a, g) (ctx [] t) -> gradient_node g -> ~ content_kind p;
  (* A use element shows an element of the document that is not a gradient, a filter, a defs element, or the outermost element. *)
  td_use : forall u x, In u (flat t) -> tag u = TEl EUse -> In x (attrs u) -> a_name x = AN AXlinkHref ->
    exists l a p q, In (p :: q :: a, l) (ctx [] t) /\ a_val x = VLink (key l) /\ ~ gradient_node l /\
      tag l <> TEl EFilter /\ tag l <> TEl EDefs /\ tag l <> TRoot;
  (* No element is shown inside of itself. *)
  td_no_recursion : exists rank : nat -> nat, forall a u x k p, In (a, u) (ctx [] t) -> tag u = TEl EUse -> In x (attrs u) ->
    a_name x = AN AXlinkHref -> a_val x = VLink k -> In p (u :: a) -> shown t (key p) -> rank k < rank (key p);
  (* g elements have no xlink:href. *)
  td_groups : forall d x, In d (flat t) -> tag d = TEl EG -> In x (attrs d) -> a_name x <> AN AXlinkHref
}.
