(** Specification for C19: which option sets the precision of which number (docs/svgcleaner.rst:1424-1469). *)
From Coq Require Import List Bool ZArith QArith Qcanon.
From Verif Require Import Names Num Value Dom Cli SpecRound.
Import ListNotations.

(** "x, y, dx, dy, x1, y1, x2, y2, r, rx, ry, cx, cy, fx, fy, width, height"; the documentation does not mention
    stroke-dasharray. *)
Definition coordinate_attrs : list aid :=
  [AX; AY; ADx; ADy; AX1; AY1; AX2; AY2; AR; ARx; ARy; ACx; ACy; AFx; AFy; AWidth; AHeight; AStrokeDasharray].
Definition property_attrs : list aid :=
  [AStrokeDashoffset; AStrokeMiterlimit; AStrokeWidth; AOpacity; AFillOpacity; AFloodOpacity; AStrokeOpacity; AStopOpacity; AFontSize].
Definition transform_attrs : list aid := [ATransform; AGradientTransform; APatternTransform].
(** The number of digits for each number of the value [v] of the attribute [a]. *)
Inductive digits (o : cleaning_options) (a : aid) : value -> list Z -> Prop :=
| dg_length l : In a coordinate_attrs -> digits o a (VLen l) [o_coordinates_precision o]
| dg_lengths l : In a coordinate_attrs -> digits o a (VLenList l) (map (fun _ => o_coordinates_precision o) l)
| dg_number n : In a property_attrs -> digits o a (VNum n) [o_properties_precision o]
| dg_property l : In a property_attrs -> digits o a (VLen l) [o_properties_precision o]
| dg_transform m : In a transform_attrs -> digits o a (VTransform m)
    (let p := o_transforms_precision o in let c := o_coordinates_precision o in [p; p; p; p; c; c])
| dg_path l : a = AD -> digits o a (VPath l) (map (fun _ => o_paths_coordinates_precision o) (nums (VPath l)))
| dg_points l : In a [AViewBox; APoints] -> digits o a (VNumList l) (map (fun _ => o_paths_coordinates_precision o) l).
(** Every number of [v] is rounded to its number of digits, and nothing else changes. *)
Definition rounded_to (ps : list Z) (v v' : value) : Prop :=
  erase_nums v' = erase_nums v /\ length ps = length (nums v) /\
  Forall2 (fun pn n' => rounded (Z.to_nat (fst pn)) (snd pn) n') (combine ps (nums v)) (nums v').
(** An attribute of an SVG element before and after rounding. *)
Definition rounded_by (o : cleaning_options) (x x' : attr) : Prop :=
  a_name x' = a_name x /\ a_vis x' = a_vis x /\
  match a_name x with
  | AN a => (forall ps, digits o a (a_val x) ps -> rounded_to ps (a_val x) (a_val x')) /\
            ((forall ps, ~ digits o a (a_val x) ps) -> a_val x' = a_val x)
  | ANx _ => a_val x' = a_val x
  end.

(** The range of all four options (C06). *)
Definition precisions_ok (o : cleaning_options) : Prop :=
  (1 <= o_coordinates_precision o <= 12 /\ 1 <= o_properties_precision o <= 12 /\
   1 <= o_paths_coordinates_precision o <= 12 /\ 1 <= o_transforms_precision o <= 12)%Z.
