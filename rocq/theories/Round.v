(** Model of src/task/round_numbers.rs. *)
From Coq Require Import List Bool ZArith QArith Qcanon Qround.
From Verif Require Import Names Num Value Dom.
Import ListNotations.

(** f64::round: the nearest integer, halfway cases away from zero. *)
Definition qround (x : Q) : Z :=
  if Qle_bool 0 x then Qfloor (x + (1 # 2)) else (- Qfloor (- x + (1 # 2)))%Z.
(** src/task/round_numbers.rs:116-130 [POW_VEC] *)
Definition pow_vec : list Z :=
  [0; 10; 100; 1000; 10000; 100000; 1000000; 10000000; 100000000; 1000000000; 10000000000; 100000000000; 1000000000000]%Z.
(** src/task/round_numbers.rs:132-134 [round_number]. Precision 0 gives NaN (0/0) in the code, and one
    above 12 a panic; the command line admits neither (C06). Here division by zero gives 0 and an
    index out of range leaves the number. *)
Definition round_number (p : nat) (n : Qc) : Qc :=
  match nth_error pow_vec p with
  | Some m => Q2Qc (inject_Z (qround (this n * inject_Z m)) / inject_Z m)
  | None => n
  end.
(** src/task/round_numbers.rs:136-192 [round_path] *)
Definition round_seg (p : nat) (s : seg) : seg :=
  let r := round_number p in
  match s with
  | MoveTo x y => MoveTo (r x) (r y)
  | LineTo x y => LineTo (r x) (r y)
  | SmoothQuad x y => SmoothQuad (r x) (r y)
  | HLine x => HLine (r x)
  | VLine y => VLine (r y)
  | CurveTo x1 y1 x2 y2 x y => CurveTo (r x1) (r y1) (r x2) (r y2) (r x) (r y)
  | SmoothCurve x2 y2 x y => SmoothCurve (r x2) (r y2) (r x) (r y)
  | Quad x1 y1 x y => Quad (r x1) (r y1) (r x) (r y)
  | Arc rx ry rot l w x y => Arc (r rx) (r ry) (r rot) l w (r x) (r y)
  | ClosePath => ClosePath
  end.
Definition round_path (p : nat) (l : list segment) : list segment :=
  map (fun s => Seg (absolute s) (round_seg p (sdata s))) l.
Definition round_len (p : nat) (l : len) : len := Len (round_number p (num l)) (unit l).

(** The four precision options used by the pass (src/options.rs). *)
Record precisions : Type := PR { pr_coord : nat; pr_prop : nat; pr_paths : nat; pr_ts : nat }.

(** src/task/round_numbers.rs:35-110: the value of one attribute. *)
Definition is_coord_attr (a : aid) : bool :=
  existsb (aid_eqb a) [AX; AY; ADx; ADy; AX1; AY1; AX2; AY2; AR; ARx; ARy; ACx; ACy; AFx; AFy; AWidth; AHeight; AStrokeDasharray].
Definition is_prop_attr (a : aid) : bool :=
  existsb (aid_eqb a) [AStrokeDashoffset; AStrokeMiterlimit; AStrokeWidth; AOpacity; AFillOpacity; AFloodOpacity;
    AStrokeOpacity; AStopOpacity; AFontSize].
Definition is_ts_attr (a : aid) : bool := existsb (aid_eqb a) [ATransform; AGradientTransform; APatternTransform].
Definition round_value (o : precisions) (a : aid) (v : value) : value :=
  if is_coord_attr a then
    match v with
    | VLen l => VLen (round_len (pr_coord o) l)
    | VLenList l => VLenList (map (round_len (pr_coord o)) l)
    | _ => v
    end
  else if is_prop_attr a then
    match v with
    | VNum n => VNum (round_number (pr_prop o) n)
    | VLen l => VLen (round_len (pr_prop o) l)
    | _ => v
    end
  else if is_ts_attr a then
    match v with
    | VTransform t =>
        let r := round_number (pr_ts o) in let c := round_number (pr_coord o) in
        VTransform (Tr (r (ta t)) (r (tb t)) (r (tc t)) (r (td t)) (c (te t)) (c (tf t)))
    | _ => v
    end
  else if aid_eqb a AD then match v with VPath p => VPath (round_path (pr_paths o) p) | _ => v end
  else if aid_eqb a AViewBox || aid_eqb a APoints then
    match v with VNumList l => VNumList (map (round_number (pr_paths o)) l) | _ => v end
  else v.
Definition round_attr (o : precisions) (x : attr) : attr :=
  match a_name x with
  | AN a => At (a_name x) (round_value o a (a_val x)) (a_vis x)
  | ANx _ => x
  end.
(** src/task/round_numbers.rs:27-113 [round_numbers]: SVG elements and SVG attributes only. *)
Definition round_numbers (o : precisions) (t : tree) : tree :=
  tmap (fun d => if is_svg_el d then with_attrs d (map (round_attr o) (attrs d)) else d) t.
