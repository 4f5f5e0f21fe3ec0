(** Words used by the theorems about group_defs. *)
From Coq Require Import List Bool NArith Arith String.
From Verif Require Import Names Num Value Dom APass SpecText.
Import ListNotations.

Definition same_node (d d' : ndata) : Prop := key d' = key d /\ tag d' = tag d /\ nid d' = nid d.
(** An element that is only rendered when something refers to it. *)
Definition referenced_kind (d : ndata) : Prop := exists e, tag d = TEl e /\ is_referenced e = true.
Definition is_defs_el (d : ndata) : Prop := tag d = TEl EDefs.
(** [p] is the parent of the node [k] in [t]; [ctx [] t] lists every node with its ancestors, nearest first. *)
Definition parent_in (t : tree) (k : nat) (p : ndata) : Prop := exists a d, In (p :: a, d) (ctx [] t) /\ key d = k.
(** The attribute refers to a defs element. *)
Definition to_defs (t : tree) (x : attr) : Prop := exists d, In d (flat t) /\ is_defs_el d /\ refers (key d) x = true.

(** Elements whose content is rendered with the style inherited from where the element is written. *)
Definition content_kind (d : ndata) : Prop := exists e, tag d = TEl e /\ In e [EClipPath; EMarker; EMask; EPattern; ESymbol].
(** The first defs element in document order. *)
Definition first_defs_el (t : tree) (d : ndata) : Prop :=
  exists pre post, flat t = pre ++ d :: post /\ is_defs_el d /\ forall y, In y pre -> ~ is_defs_el y.
(** An inheritable attribute of [d] is a link, as in fill="url(#a)". *)
Definition carries_link (d : ndata) : Prop :=
  exists x a, In x (attrs d) /\ a_name x = AN a /\ is_inheritable a = true /\ link_of (a_val x) <> None.
(** No such link is handed down: not the first defs element, not svg, and no clipPath, marker, mask, pattern or symbol nor
    anything around one has one. *)
Definition no_style_links (t svg : tree) : Prop :=
  (forall d, first_defs_el t d -> ~ carries_link d) /\ ~ carries_link (data svg) /\
  (forall anc c p, In (anc, c) (ctx [] t) -> content_kind c -> In p (c :: anc) -> ~ carries_link p).
