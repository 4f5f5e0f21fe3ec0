(** Specification for the removal of redundant gradient units, on documents only. *)
From Coq Require Import List Bool NArith Arith ZArith String QArith Qcanon.
From Verif Require Import Names Num Value Dom SpecDom SpecWritten SpecGradients.
Import ListNotations.
Local Open Scope nat_scope.

(** The xlink:href chains of gradients have no cycle. *)
Definition href_acyclic (t : tree) : Prop :=
  exists rank : nat -> nat, forall d k, In d (flat t) -> gradient_node d -> d_get d AXlinkHref = Some (VLink k) -> rank k < rank (key d).
(** Gradients refer to gradients by xlink:href, and this attribute is written. *)
Definition gradient_links (t : tree) : Prop :=
  forall d x k y, In d (flat t) -> gradient_node d -> In x (attrs d) -> link_of (a_val x) = Some k -> In y (flat t) -> key y = k -> gradient_node y -> a_name x = AN AXlinkHref.
Definition plain_links (t : tree) : Prop :=
  forall d x k y, In d (flat t) -> gradient_node d -> In x (attrs d) -> link_of (a_val x) = Some k -> In y (flat t) -> key y = k -> gradient_node y -> a_name x = AN AXlinkHref /\ a_val x = VLink k.
Definition hrefs_written (t : tree) : Prop :=
  forall d x, In d (flat t) -> gradient_node d -> In x (attrs d) -> a_name x = AN AXlinkHref -> a_vis x = true.
(** Every gradient carries (visibly or not) the gradientUnits that are in effect in the saved document; a
    gradient without xlink:href may lack them. *)
Definition units_carried (t : tree) : Prop :=
  forall d, In d (flat t) -> gradient_node d ->
    (d_get d AXlinkHref <> None -> In (d_get d AGradientUnits) [Some (VPre Vid_objectBoundingBox); Some (VPre Vid_userSpaceOnUse)]) /\
    forall v, d_get d AGradientUnits = Some v -> effective (written t) (vis d) AGradientUnits (Some v).
(** A gradient that is more than a template for other gradients: it has a template itself, or it is used
    by something that is not a gradient. *)
Definition matters (t : tree) (d : ndata) : Prop :=
  d_get d AXlinkHref <> None \/ exists x, In x (flat t) /\ ~ gradient_node x /\ refers_to x (key d).
(** Nothing but gradientUnits of gradients changes. *)
Definition units_only (d d' : ndata) : Prop :=
  key d' = key d /\ tag d' = tag d /\ nid d' = nid d /\
  (forall x, a_name x <> AN AGradientUnits -> (In x (attrs d') <-> In x (attrs d))) /\ (~ gradient_node d -> d' = d).
