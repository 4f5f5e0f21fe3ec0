(** Specification for the removal of duplicate gradients and filters, on documents only. *)
From Coq Require Import List Bool NArith Arith ZArith String QArith Qcanon.
From Verif Require Import Names Num Value Dom APass SpecDom SpecGradients SpecWritten SpecGradUnits.
Import ListNotations.
Local Open Scope nat_scope.

(** A stop as its three values in effect (the default stop-color is black, the default stop-opacity is 1);
    the stops of the gradient with key [k]: its own, or, if it has no children, those of the gradient it refers
    to (SVG 1.1, 13.2.2: xlink:href). *)
Definition stop_default (a : aid) : option value :=
  match a with AStopColor => Some (VColor 0 0 0) | AStopOpacity => Some (VNum q1) | _ => None end.
Definition stop_value (d : ndata) (a : aid) : option value := match d_get d a with Some v => Some v | None => stop_default a end.
Definition stop_values (c : tree) : option value * option value * option value :=
  (stop_value (data c) AOffset, stop_value (data c) AStopColor, stop_value (data c) AStopOpacity).
Inductive stops_in_effect (t : tree) : nat -> list (option value * option value * option value) -> Prop :=
| se_own s : In s (subs t) -> kids s <> [] -> stops_in_effect t (root_key s) (map stop_values (kids s))
| se_next s k l : In s (subs t) -> kids s = [] -> d_get (data s) AXlinkHref = Some (VLink k) -> stops_in_effect t k l -> stops_in_effect t (root_key s) l
| se_none s : In s (subs t) -> kids s = [] -> d_get (data s) AXlinkHref = None -> stops_in_effect t (root_key s) [].
(** Equal values; a missing gradientTransform is the identity. *)
Definition identity : value := VTransform (Tr q1 q0 q0 q1 q0 q0).
Definition same_value (a : aid) (v w : option value) : Prop :=
  v = w \/ (a = AGradientTransform /\ In v [None; Some identity] /\ In w [None; Some identity]).
(** The gradient [k'] of the saved document [t'] paints the same as the gradient [k] of [t]. *)
Definition same_paint (t : tree) (k : nat) (t' : tree) (k' : nat) : Prop :=
  exists d d', In d (flat t) /\ key d = k /\ In d' (flat t') /\ key d' = k' /\ tag d' = tag d /\
    (forall a v, In a (gradient_attrs d) -> effective t d a v -> exists v', effective t' d' a v' /\ same_value a v v') /\
    (forall l, stops_in_effect t k l -> stops_in_effect t' k' l).

(** The attribute with its reference redirected. *)
Definition redirect_value (r : nat -> nat) (v : value) : value := match v with VLink k => VLink (r k) | VFunc k => VFunc (r k) | _ => v end.
Definition redirected (r : nat -> nat) (x x' : attr) : Prop :=
  a_name x' = a_name x /\ a_val x' = redirect_value r (a_val x) /\ (link_of (a_val x) = None -> x' = x).
(** [t'] is [t] without the elements [k] with [r k <> k], which are of the given kind, and with all
    references to them redirected. *)
Record redirects (kind : ndata -> Prop) (r : nat -> nat) (t t' : tree) : Prop := {
  rd_old : forall d', In d' (flat t') -> exists d, In d (flat t) /\ key d' = key d /\ tag d' = tag d /\ nid d' = nid d /\ Forall2 (redirected r) (attrs d) (attrs d');
  rd_place : forall a' d', In (a', d') (ctx [] t') -> exists a d, In (a, d) (ctx [] t) /\ key d' = key d /\ map key a' = map key a;
  rd_kept : forall a d, In (a, d) (ctx [] t) -> In (key d) (keys t') \/ exists p, In p (d :: a) /\ kind p /\ r (key p) <> key p;
  rd_gone : forall k, In k (keys t') -> r k = k;
  rd_in : forall d, In d (flat t) -> kind d -> exists d', In d' (flat t') /\ key d' = r (key d) /\ tag d' = tag d;
  rd_other : forall k, (forall d, In d (flat t) -> key d = k -> ~ kind d) -> r k = k
}.

(** The documents the theorem about gradients speaks of. After [group_defs] and the resolving passes
    most of this holds; the Props file has counterexamples for the rest. *)
Record ready (t : tree) : Prop := {
  r_wf : WF t;
  r_wfa : WFA t;
  r_ids : forall d d', In d (flat t) -> In d' (flat t) -> nid d = nid d' -> nid d <> ""%string -> d = d';
  r_gid : forall d, In d (flat t) -> gradient_node d -> nid d <> ""%string;
  r_nest : forall a d p, In (a, d) (ctx [] t) -> In p a -> gradient_node p -> ~ gradient_node d;
  r_noref : forall a d p x, In (a, d) (ctx [] t) -> In p a -> gradient_node p -> In x (flat t) -> ~ refers_to x (key d);
  r_tidy : forall s, In s (subs t) -> gradient_node (data s) ->
    (kids s <> [] /\ d_get (data s) AXlinkHref = None) \/ (kids s = [] /\ d_get (data s) AXlinkHref <> None);
  r_link : forall d x k, In d (flat t) -> In x (attrs d) -> link_of (a_val x) = Some k ->
    exists a, a_name x = AN a /\ a_val x = (if aid_eqb a AXlinkHref then VLink k else VFunc k) /\ a_vis x = true /\ (gradient_node d -> a = AXlinkHref);
  r_hrefs : forall d v, In d (flat t) -> gradient_node d -> d_get d AXlinkHref = Some v -> exists x, In x (flat t) /\ v = VLink (key x) /\ tag x = tag d;
  r_rank : href_acyclic t;
  r_stops : forall s c x a, In s (subs t) -> gradient_node (data s) -> In c (kids s) -> In x (attrs (data c)) -> a_name x = AN a ->
    In a [AOffset; AStopColor; AStopOpacity] -> (a_vis x = true \/ stop_default a = Some (a_val x)) /\ link_of (a_val x) = None;
  r_focus : forall d, In d (flat t) -> gradient_node d -> d_get d AXlinkHref <> None ->
    (d_get (vis d) AFx = None -> d_get (vis d) ACx = None) /\ (d_get (vis d) AFy = None -> d_get (vis d) ACy = None);
  r_resolved : forall d a, In d (flat t) -> gradient_node d -> In a (gradient_attrs d) ->
    exists v, effective (written t) (vis d) a v /\ same_value a v (d_get d a)
}.

(** C22. A filter that consists of one feGaussianBlur without [in] and [result]. *)
Definition blur_filter (s : tree) : Prop :=
  tag (data s) = TEl EFilter /\ d_get (data s) AXlinkHref = None /\
  exists c, kids s = [c] /\ tag (data c) = TEl EFeGaussianBlur /\ d_get (data c) AIn = None /\ d_get (data c) AResult = None.
(** The attributes of such a filter that determine its region, units and colour space. *)
Definition filter_attrs : list aid := [AX; AY; AWidth; AHeight; AFilterUnits; APrimitiveUnits; AFilterRes; AColorInterpolationFilters].
Definition same_blur (s s' : tree) : Prop :=
  (forall a, In a filter_attrs -> d_get (data s') a = d_get (data s) a) /\
  exists c c', kids s = [c] /\ kids s' = [c'] /\ d_get (data c') AStdDeviation = d_get (data c) AStdDeviation.
Record ready_filters (t : tree) : Prop := {
  rf_wf : WF t;
  rf_ids : forall d d', In d (flat t) -> In d' (flat t) -> nid d = nid d' -> nid d <> ""%string -> d = d';
  rf_gid : forall d, In d (flat t) -> tag d = TEl EFilter -> nid d <> ""%string;
  rf_nest : forall a d p, In (a, d) (ctx [] t) -> In p a -> tag p = TEl EFilter -> tag d <> TEl EFilter;
  rf_noref : forall a d p x, In (a, d) (ctx [] t) -> In p a -> tag p = TEl EFilter -> In x (flat t) -> ~ refers_to x (key d);
  rf_link : forall d x k, In d (flat t) -> In x (attrs d) -> link_of (a_val x) = Some k ->
    exists a, a_name x = AN a /\ a_val x = (if aid_eqb a AXlinkHref then VLink k else VFunc k) /\ a_vis x = true;
  rf_quiet : forall s d x, In s (subs t) -> blur_filter s -> In d (flat s) -> In x (attrs d) -> link_of (a_val x) = None
}.
