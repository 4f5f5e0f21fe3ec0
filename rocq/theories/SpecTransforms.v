(** Specification of "apply transform": images of coordinates, sizes and stroke under a uniform scale
    plus translation (x, y) -> (k x + e, k y + f). *)
From Coq Require Import List Bool NArith Arith ZArith String QArith Qcanon.
From Verif Require Import Names Num Value Dom SpecStyle SpecStops SpecShapes SpecPath.
Import ListNotations.
Local Open Scope nat_scope.

Definition scaled_len (k : Qc) (v : value) : value :=
  match v with VLen l => VLen (Len (k * num l)%Qc (unit l)) | _ => v end.
Definition scaled_list (k : Qc) (v : value) : value :=
  match v with VLenList l => VLenList (map (fun x => Len (k * num x)%Qc (unit x)) l) | _ => v end.

(** The attributes that give positions (as pairs) and sizes of a basic shape. *)
Definition positions (d : ndata) : list (aid * aid) :=
  match tag d with
  | TEl ERect => [(AX, AY)]
  | TEl (ECircle | EEllipse) => [(ACx, ACy)]
  | TEl ELine => [(AX1, AY1); (AX2, AY2)]
  | TEl ELinearGradient => [(AX1, AY1); (AX2, AY2)]
  | TEl ERadialGradient => [(ACx, ACy); (AFx, AFy)]
  | _ => []
  end.
Definition sizes (d : ndata) : list aid :=
  match tag d with
  | TEl ERect => [AWidth; AHeight; ARx; ARy]
  | TEl (ECircle | ERadialGradient) => [AR]
  | TEl EEllipse => [ARx; ARy]
  | _ => []
  end.
Definition is_shape (d : ndata) : Prop := exists e, tag d = TEl e /\ In e [ERect; ECircle; EEllipse; ELine].
(** The attribute [a] of [d] is the transform (k 0 0 k e f), k > 0. *)
Definition uniform (d : ndata) (a : aid) (k e f : Qc) : Prop :=
  (q0 < k)%Qc /\ d_get d a = Some (VTransform (Tr k q0 q0 k e f)).
(** No paint server, filter, mask or clip path that is in effect for the node. *)
Definition no_references (anc : list ndata) (d : ndata) : Prop :=
  forall a j, In a [AFill; AStroke; AFilter; AMask; AClipPath] -> nearest a (d :: anc) <> Some (VFunc j).
Definition plain_positions (d : ndata) : Prop :=
  forall ax ay, In (ax, ay) (positions d) -> (exists x, coord d ax x) /\ (exists y, coord d ay y).

(** The geometry of [d'] is the image of that of [d]. *)
Definition moved (k e f : Qc) (d d' : ndata) : Prop :=
  (forall ax ay x y, In (ax, ay) (positions d) -> coord d ax x -> coord d ay y ->
     coord d' ax (k * x + e)%Qc /\ coord d' ay (k * y + f)%Qc) /\
  (forall a, In a (sizes d) -> d_get d' a = option_map (scaled_len k) (d_get d a)).
(** The stroke geometry is scaled by [k]. *)
Definition stroke_scaled (k : Qc) (anc : list ndata) (d : ndata) (anc' : list ndata) (d' : ndata) : Prop :=
  (forall a, In a [AStrokeWidth; AStrokeDashoffset] ->
     computed stroke_default anc' d' a = option_map (scaled_len k) (computed stroke_default anc d a)) /\
  computed stroke_default anc' d' AStrokeDasharray = option_map (scaled_list k) (computed stroke_default anc d AStrokeDasharray).
Definition stroke_attrs : list aid := [AStrokeWidth; AStrokeDashoffset; AStrokeDasharray].
Definition position_attrs (d : ndata) : list aid := flat_map (fun p => [fst p; snd p]) (positions d).
