(** Specification of painting (SVG 1.1, 11.3, 11.4), on documents only. *)
From Coq Require Import List Bool NArith Arith ZArith String QArith Qcanon.
From Verif Require Import Names Num Value Dom SpecStyle SpecWritten SpecDefaults SpecText.
Import ListNotations.
Local Open Scope nat_scope.

(** The initial values of the properties that decide whether something is painted. *)
Definition svg_initial (dv : aid -> option value) : Prop :=
  dv AFill = Some (VColor 0 0 0) /\ dv AFillOpacity = Some (VNum q1) /\ dv AStroke = Some (VPre Vid_none) /\
  dv AStrokeWidth = Some (VLen (Len q1 UNone)) /\ dv AStrokeOpacity = Some (VNum q1).
Definition stroke_properties : list aid :=
  [AStroke; AStrokeWidth; AStrokeLinecap; AStrokeLinejoin; AStrokeMiterlimit; AStrokeDasharray; AStrokeDashoffset; AStrokeOpacity].
Definition fill_properties : list aid := [AFill; AFillRule; AFillOpacity].
(** The stroke (the interior) of an element is painted; the list is the element followed by its ancestors. *)
Definition painted_stroke (dv : aid -> option value) (l : list ndata) : Prop :=
  computed_written dv l AStroke <> Some (VPre Vid_none) /\
  (forall u, computed_written dv l AStrokeWidth <> Some (VLen (Len q0 u))) /\
  computed_written dv l AStrokeOpacity <> Some (VNum q0).
Definition painted_fill (dv : aid -> option value) (l : list ndata) : Prop :=
  computed_written dv l AFill <> Some (VPre Vid_none) /\ computed_written dv l AFillOpacity <> Some (VNum q0).
(** The contents of a clipPath are only used as geometry (SVG 1.1, 14.3.5). *)
Definition in_clip_path (anc : list ndata) : Prop := exists d, In d anc /\ tag d = TEl EClipPath.

(** The attributes that the SVG 1.1 element has no use for. *)
Definition geometry (e : eid) : list aid :=
  match e with
  | ERect => [AX; AY; AWidth; AHeight; ARx; ARy]
  | ECircle => [ACx; ACy; AR]
  | EEllipse => [ACx; ACy; ARx; ARy]
  | ELine => [AX1; AY1; AX2; AY2]
  | EPolyline | EPolygon => [APoints]
  | _ => []
  end.
Definition basic_shape (e : eid) : Prop := In e [ERect; ECircle; EEllipse; ELine; EPolyline; EPolygon].
Definition common_attr (a : aid) : Prop :=
  is_conditional_processing a = true \/ is_core a = true \/ is_graphical_event a = true \/ is_presentation a = true \/
  In a [AClass; AStyle; AExternalResourcesRequired; ATransform].
Definition establishes_viewport (e : eid) : Prop := In e [ESvg; ESymbol; EImage; EForeignObject; EPattern; EMarker].
Inductive without_effect (e : eid) : aname -> Prop :=
| we_color : without_effect e (AN AColor)
| we_background : is_container e = false -> without_effect e (AN AEnableBackground)
| we_overflow : ~ establishes_viewport e -> without_effect e (AN AOverflow)
| we_shape a : basic_shape e -> ~ In a (geometry e) -> ~ common_attr a -> without_effect e (AN a)
| we_other s : basic_shape e -> without_effect e (ANx s).
Definition paint_name (n : aname) : Prop := In n (map AN (fill_properties ++ stroke_properties)).
(** No marker is attached to the element itself. *)
Definition own_marker (d : ndata) : Prop := exists a, In a [AMarker; AMarkerStart; AMarkerMid; AMarkerEnd] /\ d_get d a <> None.
