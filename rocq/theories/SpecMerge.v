(** Specification for merging a gradient into its only user, on documents only. *)
From Coq Require Import List Bool NArith Arith ZArith String QArith Qcanon.
From Verif Require Import Names Num Value Dom APass SpecDom SpecGradients SpecWritten SpecDupl.
Import ListNotations.
Local Open Scope nat_scope.

(** The documents the theorem speaks of. *)
Record mready (t : tree) : Prop := {
  m_wf : WF t;
  m_wfa : WFA t;
  m_root : ~ gradient_node (data t);
  m_nest : forall a d p, In (a, d) (ctx [] t) -> In p a -> gradient_node p -> ~ gradient_node d;
  m_inner : forall a d p, In (a, d) (ctx [] t) -> In p a -> gradient_node p -> (forall k, ~ refers_to d k) /\ forall x, In x (flat t) -> ~ refers_to x (key d);
  m_links : forall d x k, In d (flat t) -> gradient_node d -> In x (attrs d) -> link_of (a_val x) = Some k -> a_name x = AN AXlinkHref;
  m_hrefs : forall d x, In d (flat t) -> gradient_node d -> In x (attrs d) -> a_name x = AN AXlinkHref ->
    a_vis x = true /\ exists y, In y (flat t) /\ a_val x = VLink (key y) /\ tag y = tag d;
  m_carried : forall d a v, In d (flat t) -> gradient_node d -> In a (gradient_attrs d) -> along_href (written t) a (vis d) (Some v) -> same_value a (Some v) (d_get d a)
}.
(** The element [k] is referenced exactly once, by xlink:href of a gradient. *)
Definition used_once (t : tree) (k : nat) : Prop :=
  exists u, In u (flat t) /\ gradient_node u /\ d_get u AXlinkHref = Some (VLink k) /\ forall x, In x (flat t) -> refers_to x k -> x = u.
(** The same element; its attributes keep their values, some become visible, xlink:href may be gone. *)
Definition relaxed (d d' : ndata) : Prop :=
  key d' = key d /\ tag d' = tag d /\ nid d' = nid d /\
  (forall x', In x' (attrs d') -> exists x, In x (attrs d) /\ a_name x' = a_name x /\ a_val x' = a_val x /\ (a_vis x = true -> a_vis x' = true)) /\
  (forall x, In x (attrs d) -> a_name x <> AN AXlinkHref -> exists x', In x' (attrs d') /\ a_name x' = a_name x /\ a_val x' = a_val x).
Definition inside_gradient (a : list ndata) : Prop := exists p, In p a /\ gradient_node p.
(** [t'] is [t] with some gradients, each used once, merged into their users. *)
Record merges_grads (t t' : tree) : Prop := {
  (* everything but gradients and their content is untouched *)
  mg_frame : forall a d, ~ inside_gradient (d :: a) -> (In (a, d) (ctx [] t') <-> In (a, d) (ctx [] t));
  mg_grads : forall a d', gradient_node d' -> In (a, d') (ctx [] t') -> exists d, In (a, d) (ctx [] t) /\ relaxed d d';
  mg_inner : forall a d', inside_gradient a -> In (a, d') (ctx [] t') -> exists a0, In (a0, d') (ctx [] t) /\ inside_gradient a0;
  mg_gone : forall d, In d (flat t) -> gradient_node d -> ~ In (key d) (keys t') -> used_once t (key d);
  mg_paint : forall d, In d (flat t') -> gradient_node d -> same_paint (written t) (key d) (written t') (key d)
}.
