(** What can be seen of a document, and what may be taken away (SVG 1.1, 5, 9, 10, 11.5, 13.2, 14.3, 15), on documents only. *)
From Coq Require Import List Bool NArith Arith ZArith String QArith Qcanon.
From Verif Require Import Names Num Value Dom SpecDom SpecWritten.
Import ListNotations.
Local Open Scope string_scope.
Local Open Scope nat_scope.

(** The kinds of nodes: basic shapes, images and characters; elements that show their children; use; symbol (shown by use
    elements only); everything else is not shown where it stands. *)
Inductive kind := KLeaf | KBox | KUse | KSymbol | KOther.
Definition kind_of (d : ndata) : kind :=
  match tag d with
  | TText _ => KLeaf
  | TEl e =>
      match e with
      | EPath | ERect | ECircle | EEllipse | ELine | EPolyline | EPolygon | EImage | EForeignObject => KLeaf
      | ESvg | EG | EA | ESwitch | EText | ETspan | ETextPath => KBox
      | EUse => KUse
      | ESymbol => KSymbol
      | _ => KOther
      end
  | _ => KOther
  end.
Definition tagged (e : eid) (d : ndata) : bool := match tag d with TEl e' => eid_eqb e' e | _ => false end.
Definition displays (d : ndata) : bool := match d_get d ADisplay with Some v => negb (value_eqb v (VPre Vid_none)) | None => true end.

(** Nothing to draw: a path without segments, a rectangle without a width or a height (8.3, 9.2). *)
Definition segments (d : ndata) : bool := match d_get d AD with Some (VPath (_ :: _)) => true | _ => false end.
Definition zero (d : ndata) (a : aid) : bool := match d_get d a with Some (VLen l) => qeqb (num l) q0 | _ => false end.
Definition degenerate (d : ndata) : bool := tagged EPath d && negb (segments d) || tagged ERect d && (zero d AWidth || zero d AHeight).

(** 14.3.5: a clip path consists of shapes, text, and use elements that refer to shapes or text. *)
Definition clip_shape_el (d : ndata) : bool :=
  match tag d with TEl e => existsb (eid_eqb e) [EPath; ERect; ECircle; EEllipse; ELine; EPolyline; EPolygon; EText] | _ => false end.
Definition target (t : tree) (d : ndata) : option ndata :=
  match d_get d AXlinkHref with Some (VLink k) => find_data k t | _ => None end.
(** The child adds something to the clip path. *)
Definition clip_counts (t : tree) (d : ndata) : bool :=
  displays d &&
  (clip_shape_el d && negb (degenerate d) ||
   tagged EUse d && match target t d with Some l => clip_shape_el l && negb (degenerate l) && displays l | None => false end).
(** A clip path without content clips everything away (14.3.5); a filter without content shows nothing (15.5). *)
Definition empty_clip (t : tree) (k : nat) : bool :=
  match find_sub k t with Some s => tagged EClipPath (data s) && forallb (fun c => negb (clip_counts t (data c))) (kids s) | None => false end.
Definition empty_filter (t : tree) (k : nat) : bool :=
  match find_sub k t with Some s => tagged EFilter (data s) && negb (d_has (data s) AXlinkHref) && match kids s with [] => true | _ => false end | None => false end.
Definition dead (t : tree) (d : ndata) : bool :=
  match d_get d AClipPath with Some (VFunc k) => empty_clip t k | _ => false end ||
  match d_get d AFilter with Some (VFunc k) => empty_filter t k | _ => false end.
(** 10.13: text on a path needs a path. *)
Definition on_path (t : tree) (d : ndata) : bool :=
  negb (tagged ETextPath d) || match target t d with Some p => tagged EPath p && segments p | None => false end.
Definition drawn (t : tree) (d : ndata) : bool :=
  match kind_of d with KOther | KSymbol => false | _ => displays d && negb (dead t d) && negb (degenerate d) && on_path t d end.

Section Draw.
  Variable t : tree.
  (** [draws anc s l]: below the elements [anc], [s] draws [l]: one entry for each thing that is drawn, in order; the
      entry is the thing and all elements it stands in (the use elements on the way included). *)
  Inductive draws : list ndata -> tree -> list (list ndata) -> Prop :=
  | dr_not anc s : drawn t (data s) = false -> draws anc s []
  | dr_leaf anc d ch : drawn t d = true -> kind_of d = KLeaf -> draws anc (T d ch) [d :: anc]
  | dr_box anc d ch l : drawn t d = true -> kind_of d = KBox -> draws_all (d :: anc) ch l -> draws anc (T d ch) l
  | dr_use anc d ch s l : drawn t d = true -> kind_of d = KUse -> d_get d AXlinkHref = Some (VLink (root_key s)) -> In s (subs t) ->
      kind_of (data s) <> KSymbol -> draws (d :: anc) s l -> draws anc (T d ch) l
  | dr_symbol anc d ch s l : drawn t d = true -> kind_of d = KUse -> d_get d AXlinkHref = Some (VLink (root_key s)) -> In s (subs t) ->
      kind_of (data s) = KSymbol -> dead t (data s) = false -> draws_all (data s :: d :: anc) (kids s) l -> draws anc (T d ch) l
  | dr_symbol_dead anc d ch s : drawn t d = true -> kind_of d = KUse -> d_get d AXlinkHref = Some (VLink (root_key s)) -> In s (subs t) ->
      kind_of (data s) = KSymbol -> dead t (data s) = true -> draws anc (T d ch) []
  | dr_use_none anc d ch : drawn t d = true -> kind_of d = KUse ->
      (forall s, In s (subs t) -> d_get d AXlinkHref <> Some (VLink (root_key s))) -> draws anc (T d ch) []
  with draws_all : list ndata -> list tree -> list (list ndata) -> Prop :=
  | da_nil anc : draws_all anc [] []
  | da_cons anc s l p q : draws anc s p -> draws_all anc l q -> draws_all anc (s :: l) (p ++ q).
  (** The document; the content of a mask, a pattern or a marker; the content of a clip path. *)
  Definition drawing (l : list (list ndata)) : Prop := draws_all [data t] (kids t) l.
  Definition inner (d : ndata) : bool := tagged EMask d || tagged EPattern d || tagged EMarker d.
  Definition inside_of (k : nat) (l : list (list ndata)) : Prop :=
    exists s, In s (subs t) /\ root_key s = k /\ inner (data s) = true /\ draws_all [data s] (kids s) l.
  Definition clip_of (k : nat) (l : list (list ndata)) : Prop :=
    exists s, In s (subs t) /\ root_key s = k /\ tagged EClipPath (data s) = true /\
      draws_all [data s] (filter (fun c => clip_counts t (data c)) (kids s)) l.

  (** ** What may be changed *)
  (** A filter that does nothing (but for the clipping to the filter region). *)
  Definition identity : string := "1 0 0 0 0  0 1 0 0 0  0 0 1 0 0  0 0 0 1 0".
  Definition identity_filter (k : nat) : Prop :=
    exists s c, In s (subs t) /\ root_key s = k /\ tag (data s) = TEl EFilter /\ kids s = [c] /\ tag (data c) = TEl EFeColorMatrix /\
      d_get (data c) AType = Some (VStr "matrix") /\ d_get (data c) AValues = Some (VStr identity) /\
      forall a, In a [AIn; AX; AY; AWidth; AHeight] -> d_get (data c) a = None.
  (** 13.2.4: a gradient without stops paints nothing, a gradient with one stop paints its colour. *)
  Definition no_stops (k : nat) : Prop :=
    exists s, In s (subs t) /\ root_key s = k /\ gradient_node (data s) /\ kids s = [] /\ d_has (data s) AXlinkHref = false.
  Definition one_stop (k : nat) (color : value) (opacity : Qc) : Prop :=
    exists s c, In s (subs t) /\ root_key s = k /\ gradient_node (data s) /\ kids s = [c] /\ d_has (data s) AXlinkHref = false /\
      d_get (data c) AStopColor = Some color /\ (exists r g b, color = VColor r g b) /\ d_get (data c) AStopOpacity = Some (VNum opacity).
  Definition opacity_attr (a : aid) : aid := match a with AStroke => AStrokeOpacity | _ => AFillOpacity end.
  (** The paint [a] (fill or stroke) of [d] and of [d'] is the same. *)
  Inductive same_paint (a : aid) (d d' : ndata) : Prop :=
  | sp_same : d_get d' a = d_get d a -> d_get d' (opacity_attr a) = d_get d (opacity_attr a) -> same_paint a d d'
  | sp_none k : d_get d a = Some (VFunc k) -> no_stops k -> d_get d' a = Some (VPre Vid_none) ->
      d_get d' (opacity_attr a) = d_get d (opacity_attr a) -> same_paint a d d'
  | sp_color k color : d_get d a = Some (VFunc k) -> one_stop k color q1 -> d_get d' a = Some color ->
      d_get d' (opacity_attr a) = d_get d (opacity_attr a) -> same_paint a d d'
  (* only if the element does not have the property before *)
  | sp_opacity k color o : d_get d a = Some (VFunc k) -> one_stop k color o -> o <> q1 -> d_get d' a = Some color ->
      kind_of d = KLeaf -> d_get d (opacity_attr a) = None -> d_get d' (opacity_attr a) = Some (VNum o) -> same_paint a d d'.
  Record looks (d d' : ndata) : Prop := {
    lk_key : key d' = key d;
    lk_tag : tag d' = tag d;
    lk_id : nid d' = nid d;
    lk_filter : d_get d' AFilter = d_get d AFilter \/ exists k, d_get d AFilter = Some (VFunc k) /\ identity_filter k /\ d_get d' AFilter = None;
    lk_fill : same_paint AFill d d';
    lk_stroke : same_paint AStroke d d';
    lk_other : forall a, ~ In a [AFilter; AFill; AStroke; AFillOpacity; AStrokeOpacity] -> d_get d' a = d_get d a
  }.
  (** Two chains look the same. An opacity is only added where there was none in the whole chain. *)
  Definition looks_all (c c' : list ndata) : Prop :=
    Forall2 looks c c' /\
    forall a, In a [AFillOpacity; AStrokeOpacity] -> Forall2 (fun d d' => d_get d' a = d_get d a) c c' \/ Forall (fun d => d_get d a = None) c.
End Draw.

(** ** Conditions *)
(** All references to things inside of [s] come from the inside. *)
Definition closed (t s : tree) : Prop := forall d e, In d (flat s) -> In e (flat t) -> refers_to e (key d) -> In e (flat s).
(** The attribute [x] of [d] refers to [n]: what links are for. *)
Definition link_ok (d : ndata) (x : attr) (n : ndata) : Prop :=
  match a_name x with
  | AN AClipPath => a_val x = VFunc (key n) /\ tag n = TEl EClipPath
  | AN AFilter => a_val x = VFunc (key n) /\ tag n = TEl EFilter
  | AN AMask => tag n = TEl EMask
  | AN AMarkerStart | AN AMarkerMid | AN AMarkerEnd => tag n = TEl EMarker
  | AN AFill | AN AStroke => a_val x = VFunc (key n) /\ (gradient_node n \/ tag n = TEl EPattern)
  | AN AXlinkHref => a_val x = VLink (key n) /\ tag n <> TEl EClipPath /\ tag n <> TEl EFilter /\
      (gradient_node d /\ gradient_node n \/ tag d = TEl EPattern /\ tag n = TEl EPattern \/
       ~ gradient_node n /\ (kind_of d = KUse \/ tag d = TEl ETextPath \/
         kind_of d = KOther /\ inner d = false /\ tag d <> TEl EClipPath /\ tag d <> TEl EFilter /\ ~ gradient_node d))
  | _ => False
  end.
Record iready (t : tree) : Prop := {
  i_wf : WF t;
  i_wfa : WFA t;
  i_root : tag (data t) = TRoot /\ attrs (data t) = [];
  i_switch : forall d, In d (flat t) -> tag d <> TEl ESwitch /\ tag d <> TEl ETref;
  i_links : forall d x n, In d (flat t) -> In x (attrs d) -> In n (flat t) -> link_of (a_val x) = Some (key n) -> link_ok d x n;
  (* things inside of these elements are not referred to *)
  i_inside : forall s c d, In s (subs t) -> In c (kids s) -> In d (flat c) ->
    tag (data s) = TEl EPath \/ tag (data s) = TEl ERect \/ tag (data s) = TEl EUse \/ tag (data s) = TEl EFilter \/ gradient_node (data s) -> ~ referenced t (key d);
  (* the children of gradients and filters are stops and filter primitives, with no display, clip-path and filter *)
  i_parts : forall s c, In s (subs t) -> In c (kids s) -> tag (data s) = TEl EFilter \/ gradient_node (data s) ->
    kind_of (data c) = KOther /\ displays (data c) = true /\ tag (data c) <> TEl EClipPath /\ tag (data c) <> TEl EFilter /\ tag (data c) <> TEl EDefs /\ ~ gradient_node (data c) /\
    (forall k, d_get (data c) AClipPath <> Some (VFunc k)) /\ (forall k, d_get (data c) AFilter <> Some (VFunc k));
  (* the children of clip paths have no clip-path and filter of their own *)
  i_clips : forall s c, In s (subs t) -> In c (kids s) -> tag (data s) = TEl EClipPath ->
    (forall k, d_get (data c) AClipPath <> Some (VFunc k)) /\ (forall k, d_get (data c) AFilter <> Some (VFunc k));
  (* what is inside of an element that is clipped or filtered away, or of a child of a clip path that is not a shape, is not used elsewhere *)
  i_dead : forall s, In s (subs t) -> dead t (data s) = true -> closed t s;
  i_invalid : forall s c, In s (subs t) -> In c (kids s) -> tag (data s) = TEl EClipPath -> clip_shape_el (data c) = false -> closed t c;
  (* filters do not inherit, and a colour matrix of the identity has no input and no region of its own *)
  i_filters : forall s, In s (subs t) -> tag (data s) = TEl EFilter -> d_has (data s) AXlinkHref = false;
  i_matrix : forall s c a, In s (subs t) -> tag (data s) = TEl EFilter -> kids s = [c] -> tag (data c) = TEl EFeColorMatrix ->
    In a [AIn; AX; AY; AWidth; AHeight] -> d_get (data c) a = None;
  (* a gradient with less than two children is not a template of another one *)
  i_templates : forall s d, In s (subs t) -> gradient_node (data s) -> List.length (kids s) <= 1 -> d_has (data s) AXlinkHref = false ->
    In d (flat t) -> gradient_node d -> ~ refers_to d (root_key s);
  (* a gradient with one stop that is not opaque is used by shapes that have no opacity *)
  i_opacity : forall s c o d a, In s (subs t) -> gradient_node (data s) -> kids s = [c] -> d_has (data s) AXlinkHref = false ->
    d_get (data c) AStopOpacity = Some (VNum o) -> o <> q1 -> In d (flat t) -> In a [AFill; AStroke] -> d_get d a = Some (VFunc (root_key s)) ->
    kind_of d = KLeaf /\ d_get d (opacity_attr a) = None /\ forall e, In e (flat t) -> kind_of e <> KLeaf -> d_get e (opacity_attr a) = None
}.
