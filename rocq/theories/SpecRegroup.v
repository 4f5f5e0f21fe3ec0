(** Specification for sharing equal stop lists, on documents only. *)
From Coq Require Import List Bool NArith Arith ZArith String QArith Qcanon.
From Verif Require Import Names Num Value Dom APass SpecDom SpecGradients SpecWritten SpecGradUnits SpecDupl SpecMerge.
Import ListNotations.
Local Open Scope nat_scope.

(** The documents the theorem speaks of. *)
Record rready (t : tree) : Prop := {
  rr_wf : WF t;
  rr_wfa : WFA t;
  rr_root : ~ gradient_node (data t);
  rr_nest : forall a d p, In (a, d) (ctx [] t) -> In p a -> gradient_node p -> ~ gradient_node d;
  rr_inner : forall a d p, In (a, d) (ctx [] t) -> In p a -> gradient_node p -> (forall k, ~ refers_to d k) /\ forall x, In x (flat t) -> ~ refers_to x (key d);
  rr_hrefs : forall d x, In d (flat t) -> gradient_node d -> In x (attrs d) -> a_name x = AN AXlinkHref ->
    a_vis x = true /\ exists y, In y (flat t) /\ a_val x = VLink (key y) /\ gradient_node y;
  rr_stops : forall s c x a, In s (subs t) -> gradient_node (data s) -> In c (kids s) -> In x (attrs (data c)) -> a_name x = AN a ->
    In a [AOffset; AStopColor; AStopOpacity] -> a_vis x = true \/ stop_default a = Some (a_val x);
  rr_acyclic : href_acyclic t;
  rr_kinds : acyclic_kind ELinearGradient t
}.
(** The same element, possibly with an xlink:href and with attributes that are not written. *)
Definition extended (d d' : ndata) : Prop :=
  key d' = key d /\ tag d' = tag d /\ nid d' = nid d /\ incl (attrs d) (attrs d') /\
  forall x, In x (attrs d') -> In x (attrs d) \/ (a_name x = AN AXlinkHref /\ d_get d AXlinkHref = None) \/ a_vis x = false.
(** An id is used once. *)
Definition unique_ids (t : tree) : Prop := forall d d', In d (flat t) -> In d' (flat t) -> nid d = nid d' -> nid d <> ""%string -> d = d'.
(** [t'] is [t] with new gradients that have only stops, and which some gradients of [t] refer to instead of
    having stops of their own. *)
Record regrouped (t t' : tree) : Prop := {
  (* everything but gradients and their content is untouched *)
  rp_frame : forall a d, ~ inside_gradient (d :: a) -> (In (a, d) (ctx [] t') <-> In (a, d) (ctx [] t));
  rp_old : forall a d, gradient_node d -> In (a, d) (ctx [] t) -> exists d', In (a, d') (ctx [] t') /\ extended d d';
  rp_grads : forall a d', gradient_node d' -> In (a, d') (ctx [] t') -> (exists d, In (a, d) (ctx [] t) /\ extended d d') \/
    (tag d' = TEl ELinearGradient /\ nid d' <> ""%string /\ forall x, In x (attrs d') -> a_name x = AN AXlinkHref \/ a_vis x = false);
  rp_ids : unique_ids t -> unique_ids t';
  rp_inner : forall a d', inside_gradient a -> In (a, d') (ctx [] t') -> exists a0, In (a0, d') (ctx [] t) /\ inside_gradient a0;
  rp_paint : forall d, In d (flat t) -> gradient_node d -> same_paint (written t) (key d) (written t') (key d)
}.
