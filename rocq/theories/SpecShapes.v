(** Outlines of the basic shapes (SVG 1.1, chapter 9), as pieces of SpecPath.v. *)
From Coq Require Import List Bool NArith Arith ZArith QArith Qcanon.
From Verif Require Import Names Num Value Dom SpecPath.
Import ListNotations.
Local Open Scope Qc_scope.

(** The coordinate [a] of the element is the number [n] (without unit); 0 if it is not given. *)
Definition coord (d : ndata) (a : aid) (n : Qc) : Prop :=
  match d_get d a with Some (VLen l) => l = Len n UNone | _ => n = q0 end.
Definition no_radius (d : ndata) (a : aid) : Prop :=
  match d_get d a with Some (VLen l) => num l = q0 | _ => True end.
Fixpoint pairs (l : list Qc) : list point :=
  match l with x :: y :: l' => (x, y) :: pairs l' | _ => [] end.
(** The lines from point to point. *)
Fixpoint chain (p : point) (l : list point) : list piece :=
  match l with [] => [] | q :: l' => PLine p q :: chain q l' end.

(** [shape d o]: the element is a line, an unrounded visible rect, a polyline or a polygon, its
    coordinates are plain numbers, and [o] is its outline. *)
Inductive shape (d : ndata) : list piece -> Prop :=
| shape_line x1 y1 x2 y2 : tag d = TEl ELine ->
    coord d AX1 x1 -> coord d AY1 y1 -> coord d AX2 x2 -> coord d AY2 y2 ->
    shape d [PLine (x1, y1) (x2, y2)]
| shape_rect x y w h : tag d = TEl ERect ->
    coord d AX x -> coord d AY y -> coord d AWidth w -> coord d AHeight h -> no_radius d ARx -> no_radius d ARy ->
    w <> q0 -> h <> q0 ->
    shape d [PLine (x, y) (x + w, y); PLine (x + w, y) (x + w, y + h); PLine (x + w, y + h) (x, y + h); PLine (x, y + h) (x, y)]
| shape_polyline l p ps : tag d = TEl EPolyline ->
    d_get d APoints = Some (VNumList l) -> Nat.even (List.length l) = true -> pairs l = p :: ps ->
    shape d (chain p ps)
| shape_polygon l p ps : tag d = TEl EPolygon ->
    d_get d APoints = Some (VNumList l) -> Nat.even (List.length l) = true -> pairs l = p :: ps ->
    shape d (chain p (ps ++ [p])).
(** The attributes that describe the geometry of each shape. *)
Definition geometry (d : ndata) : list aid :=
  match tag d with
  | TEl ELine => [AX1; AY1; AX2; AY2]
  | TEl ERect => [AX; AY; ARx; ARy; AWidth; AHeight]
  | TEl (EPolyline | EPolygon) => [APoints]
  | _ => []
  end.
(** [d'] is a path element with the outline [o] in place of [d]; everything else is as in [d]. *)
Definition path_instead (o : list piece) (d d' : ndata) : Prop :=
  key d' = key d /\ nid d' = nid d /\ tag d' = TEl EPath /\
  (exists p, get_attr (attrs d') AD = Some (At (AN AD) (VPath p) true) /\ starts_with_move p /\ outline p = flush o) /\
  (forall a, In a (geometry d) -> d_has d' a = false) /\
  (forall x, ~ In (a_name x) (AN AD :: map AN (geometry d)) -> In x (attrs d') <-> In x (attrs d)).
Definition odd_points (d : ndata) : Prop :=
  (tag d = TEl EPolyline \/ tag d = TEl EPolygon) /\
  exists l, d_get d APoints = Some (VNumList l) /\ Nat.odd (List.length l) = true.
Definition empty_points (d : ndata) : Prop := d_get d APoints = Some (VNumList []).
