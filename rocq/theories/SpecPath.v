(** What a path draws, after the SVG 1.1 specification (chapter 8.3). Written without any function of
    Paths.v: only the data type of segments (Value.v) is shared. *)
From Coq Require Import List Bool ZArith QArith Qcanon.
From Verif Require Import Names Num Value.
Import ListNotations.
Local Open Scope Qc_scope.

Definition point : Type := Qc * Qc.
(** What one segment strokes. *)
Inductive piece : Type :=
| PLine (a b : point)
| PCubic (a c1 c2 b : point)
| PQuad (a c b : point)
| PArc (a : point) (rx ry rot : Qc) (large sweep : bool) (b : point).
(** A path is drawn as a sequence of pieces; [Break] starts a new subpath. *)
Inductive ev : Type := Break | Draw (p : piece).

(** The control point which a following smooth segment reflects. *)
Inductive ctrl : Type := NoCtrl | CubicCtrl (p : point) | QuadCtrl (p : point).
Record pen : Type := Pen { cur : point; start : point; last : ctrl }.
Definition pen0 : pen := Pen (q0, q0) (q0, q0) NoCtrl.

Definition padd (p q : point) : point := (fst p + fst q, snd p + snd q).
(** The reflection of [c] at [p]. *)
Definition reflect_at (p c : point) : point := (fst p + (fst p - fst c), snd p + (snd p - snd c)).

(** One segment. Relative coordinates are relative to the current point. *)
Definition draw (s : pen) (sg : segment) : pen * list ev :=
  let at_ (x y : Qc) : point := if absolute sg then (x, y) else padd (cur s) (x, y) in
  match sdata sg with
  | MoveTo x y => (Pen (at_ x y) (at_ x y) NoCtrl, [Break])
  | ClosePath => (Pen (start s) (start s) NoCtrl, [Draw (PLine (cur s) (start s)); Break])
  | LineTo x y => (Pen (at_ x y) (start s) NoCtrl, [Draw (PLine (cur s) (at_ x y))])
  | HLine x =>
      let p := (fst (at_ x q0), snd (cur s)) in (Pen p (start s) NoCtrl, [Draw (PLine (cur s) p)])
  | VLine y =>
      let p := (fst (cur s), snd (at_ q0 y)) in (Pen p (start s) NoCtrl, [Draw (PLine (cur s) p)])
  | CurveTo x1 y1 x2 y2 x y =>
      (Pen (at_ x y) (start s) (CubicCtrl (at_ x2 y2)), [Draw (PCubic (cur s) (at_ x1 y1) (at_ x2 y2) (at_ x y))])
  | SmoothCurve x2 y2 x y =>
      let c1 := match last s with CubicCtrl c => reflect_at (cur s) c | _ => cur s end in
      (Pen (at_ x y) (start s) (CubicCtrl (at_ x2 y2)), [Draw (PCubic (cur s) c1 (at_ x2 y2) (at_ x y))])
  | Quad x1 y1 x y =>
      (Pen (at_ x y) (start s) (QuadCtrl (at_ x1 y1)), [Draw (PQuad (cur s) (at_ x1 y1) (at_ x y))])
  | SmoothQuad x y =>
      let c := match last s with QuadCtrl c => reflect_at (cur s) c | _ => cur s end in
      (Pen (at_ x y) (start s) (QuadCtrl c), [Draw (PQuad (cur s) c (at_ x y))])
  | Arc rx ry rot large sweep x y =>
      (Pen (at_ x y) (start s) NoCtrl, [Draw (PArc (cur s) rx ry rot large sweep (at_ x y))])
  end.

Fixpoint run (s : pen) (l : list segment) : pen :=
  match l with [] => s | sg :: l' => run (fst (draw s sg)) l' end.
Fixpoint trace (s : pen) (l : list segment) : list ev :=
  match l with [] => [] | sg :: l' => snd (draw s sg) ++ trace (fst (draw s sg)) l' end.

(** A line or an arc with identical end points paints nothing (for arcs: SVG 1.1, F.6.2). *)
Definition point_eqb (a b : point) : bool := qeqb (fst a) (fst b) && qeqb (snd a) (snd b).
Definition shows (p : piece) : bool :=
  match p with
  | PLine a b => negb (point_eqb a b)
  | PArc a _ _ _ _ _ b => negb (point_eqb a b)
  | _ => true
  end.

(** The subpaths of a trace, each as the list of the pieces that satisfy [vis]; subpaths without such
    pieces are left out. *)
Definition flush (c : list piece) : list (list piece) := match c with [] => [] | _ => [c] end.
Fixpoint subpaths (vis : piece -> bool) (c : list piece) (tr : list ev) : list (list piece) :=
  match tr with
  | [] => flush c
  | Break :: t => flush c ++ subpaths vis [] t
  | Draw p :: t => if vis p then subpaths vis (c ++ [p]) t else subpaths vis c t
  end.
(** Everything that is drawn, and what is left of it when pieces that paint nothing are omitted. *)
Definition outline (l : list segment) : list (list piece) := subpaths (fun _ => true) [] (trace pen0 l).
Definition figure (l : list segment) : list (list piece) := subpaths shows [] (trace pen0 l).

(** All segments absolute. *)
Definition abs (l : list seg) : list segment := map (Seg true) l.
Definition starts_with_move (l : list segment) : Prop :=
  match l with [] => True | s :: _ => exists x y, sdata s = MoveTo x y end.

(** * Hazards: the two situations in which "remove unused segments" is known to change a figure. *)
Definition is_curve (s : seg) : bool :=
  match s with CurveTo _ _ _ _ _ _ | SmoothCurve _ _ _ _ | Quad _ _ _ _ | SmoothQuad _ _ => true | _ => false end.
Definition is_smooth (s : seg) : bool := match s with SmoothCurve _ _ _ _ | SmoothQuad _ _ => true | _ => false end.
(** A LineTo to the current point. *)
Definition zero_line (p : pen) (s : seg) : bool :=
  match s with LineTo x y => point_eqb (cur p) (x, y) | _ => false end.
(** Over absolute segments: [prev] is the last segment that is no zero-length line, [zl] tells whether
    a zero-length line comes directly before. (1) No curve repeats [prev]. (2) No smooth curve follows
    a zero-length line directly. *)
Fixpoint no_hazard (p : pen) (prev : option seg) (zl : bool) (l : list seg) : Prop :=
  match l with
  | [] => True
  | s :: l' =>
      let p' := fst (draw p (Seg true s)) in
      if zero_line p s then no_hazard p' prev true l'
      else (is_curve s = true -> prev <> Some s) /\ (is_smooth s = true -> zl = false) /\ no_hazard p' (Some s) false l'
  end.
Definition harmless (l : list seg) : Prop := no_hazard pen0 None false l.

(** The image of a piece under a uniform scaling by [k] and a translation. *)
Definition map_point (k e f : Qc) (p : point) : point := (k * fst p + e, k * snd p + f).
Definition map_piece (k e f : Qc) (p : piece) : piece :=
  let m := map_point k e f in
  match p with
  | PLine a b => PLine (m a) (m b)
  | PCubic a c1 c2 b => PCubic (m a) (m c1) (m c2) (m b)
  | PQuad a c b => PQuad (m a) (m c) (m b)
  | PArc a rx ry rot l s b => PArc (m a) (k * rx) (k * ry) rot l s (m b)
  end.

(** * Straightening curves *)
(** [c] lies on the line through [a] and [b]. *)
Definition on_line (a b c : point) : Prop :=
  (fst b - fst a) * (snd c - snd a) = (snd b - snd a) * (fst c - fst a).
(** [c] lies between [a] and [b]. *)
Definition between (a b c : point) : Prop :=
  exists t, q0 <= t /\ t <= q1 /\ c = (fst a + t * (fst b - fst a), snd a + t * (snd b - snd a)).
(** A piece stays, or a cubic curve whose control points are on the line through its ends becomes the
    line between its ends. *)
Inductive kept_or_straightened : piece -> piece -> Prop :=
| Kept p : kept_or_straightened p p
| Straightened a c1 c2 b : on_line a b c1 -> on_line a b c2 -> kept_or_straightened (PCubic a c1 c2 b) (PLine a b).
(** No "S" directly after a "C" in the path. *)
Definition no_smooth_after_curve (l : list seg) : Prop :=
  forall a b x1 y1 x2 y2 x y x2' y2' x' y',
    l <> a ++ CurveTo x1 y1 x2 y2 x y :: SmoothCurve x2' y2' x' y' :: b.

(** Paths without curve commands: only M, L, H, V, A and Z. *)
Definition without_curves (l : list segment) : Prop := forall s, In s l -> is_curve (sdata s) = false.
