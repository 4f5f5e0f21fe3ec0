(** Model of src/task/paths/*.rs: processing of path data.

    Paths enter and leave as lists of svgdom segments. In between all segments are absolute
    (the debug assertions of conv_segments.rs), so the flag is dropped there. Index loops
    ("while i < path.d.len()") are modelled by recursion over the part of the list from index i on,
    with the reversed part before i as an argument. [None] is a panic. *)
From Coq Require Import List Bool ZArith QArith Qcanon.
From Verif Require Import Names Num Value.
Import ListNotations.
Local Open Scope Qc_scope.

(** svgdom Segment::x, Segment::y *)
Definition seg_x (s : seg) : option Qc :=
  match s with
  | MoveTo x _ | LineTo x _ | HLine x | CurveTo _ _ _ _ x _ | SmoothCurve _ _ x _ | Quad _ _ x _ | SmoothQuad x _
  | Arc _ _ _ _ _ x _ => Some x
  | VLine _ | ClosePath => None
  end.
Definition seg_y (s : seg) : option Qc :=
  match s with
  | MoveTo _ y | LineTo _ y | VLine y | CurveTo _ _ _ _ _ y | SmoothCurve _ _ _ y | Quad _ _ _ y | SmoothQuad _ y
  | Arc _ _ _ _ _ _ y => Some y
  | HLine _ | ClosePath => None
  end.
(** Segment::cmd comparisons *)
Definition is_move (s : seg) : bool := match s with MoveTo _ _ => true | _ => false end.
Definition is_close (s : seg) : bool := match s with ClosePath => true | _ => false end.

(** svgdom's shift of all coordinates of a segment (radii, rotation and flags are not shifted). *)
Definition shift_seg (dx dy : Qc) (s : seg) : seg :=
  match s with
  | MoveTo x y => MoveTo (x + dx) (y + dy)
  | LineTo x y => LineTo (x + dx) (y + dy)
  | HLine x => HLine (x + dx)
  | VLine y => VLine (y + dy)
  | CurveTo x1 y1 x2 y2 x y => CurveTo (x1 + dx) (y1 + dy) (x2 + dx) (y2 + dy) (x + dx) (y + dy)
  | SmoothCurve x2 y2 x y => SmoothCurve (x2 + dx) (y2 + dy) (x + dx) (y + dy)
  | Quad x1 y1 x y => Quad (x1 + dx) (y1 + dy) (x + dx) (y + dy)
  | SmoothQuad x y => SmoothQuad (x + dx) (y + dy)
  | Arc rx ry r l s x y => Arc rx ry r l s (x + dx) (y + dy)
  | ClosePath => ClosePath
  end.
Definition or_else (o : option Qc) (d : Qc) : Qc := match o with Some x => x | None => d end.

(** svgdom Path::conv_to_absolute (called at src/task/paths/mod.rs:76). Contract: (px, py) is the
    current point, (mx, my) the start of the current subpath. *)
Fixpoint conv_to_absolute_go (px py mx my : Qc) (l : list segment) : list seg :=
  match l with
  | [] => []
  | s :: l' =>
      let d := if absolute s then sdata s else shift_seg px py (sdata s) in
      match d with
      | ClosePath => ClosePath :: conv_to_absolute_go mx my mx my l'
      | MoveTo x y => d :: conv_to_absolute_go x y x y l'
      | _ => d :: conv_to_absolute_go (or_else (seg_x d) px) (or_else (seg_y d) py) mx my l'
      end
  end.
Definition conv_to_absolute (l : list segment) : list seg := conv_to_absolute_go q0 q0 q0 q0 l.

(** svgdom Path::conv_to_relative (called at src/task/paths/mod.rs:99). *)
Fixpoint conv_to_relative_go (px py mx my : Qc) (l : list seg) : list segment :=
  match l with
  | [] => []
  | d :: l' =>
      Seg false (shift_seg (- px) (- py) d) ::
      match d with
      | ClosePath => conv_to_relative_go mx my mx my l'
      | MoveTo x y => conv_to_relative_go x y x y l'
      | _ => conv_to_relative_go (or_else (seg_x d) px) (or_else (seg_y d) py) mx my l'
      end
  end.
Definition conv_to_relative (l : list seg) : list segment := conv_to_relative_go q0 q0 q0 q0 l.

(** src/task/paths/conv_segments.rs:47-67 [fix_m]; [p] is the segment at i - 1. An inserted MoveTo is
    visited next as the previous segment of the one after it. *)
Fixpoint fix_m_go (mx my : Qc) (p : seg) (l : list seg) : list seg :=
  match l with
  | [] => []
  | c :: l' =>
      let '(mx, my) := match p with MoveTo x y => (x, y) | _ => (mx, my) end in
      if is_close p && negb (is_move c) then MoveTo mx my :: c :: fix_m_go mx my c l'
      else c :: fix_m_go mx my c l'
  end.
Definition fix_m (l : list seg) : list seg :=
  match l with [] => [] | c :: l' => c :: fix_m_go q0 q0 c l' end.

(** src/task/paths/conv_segments.rs:71-93 [convert_hv_to_l] *)
Fixpoint hv_to_l_go (p : seg) (l : list seg) : option (list seg) :=
  match l with
  | [] => Some []
  | c :: l' =>
      let c' := match c with
                | HLine x => match seg_y p with Some y => Some (LineTo x y) | None => None end
                | VLine y => match seg_x p with Some x => Some (LineTo x y) | None => None end
                | _ => Some c
                end in
      match c' with
      | None => None
      | Some c' => match hv_to_l_go c' l' with Some r => Some (c' :: r) | None => None end
      end
  end.
Definition convert_hv_to_l (l : list seg) : option (list seg) :=
  match l with
  | [] => Some []
  | c :: l' => match hv_to_l_go c l' with Some r => Some (c :: r) | None => None end
  end.

(** src/task/paths/conv_segments.rs:96-131 [convert_l_to_hv] *)
Fixpoint l_to_hv_go (px py : Qc) (l : list seg) : option (list seg) :=
  match l with
  | [] => Some []
  | c :: l' =>
      match c with
      | LineTo x y =>
          let c' := if qeqb px x && negb (qeqb py y) then VLine y
                    else if negb (qeqb px x) && qeqb py y then HLine x
                    else c in
          option_map (cons c') (l_to_hv_go x y l')
      | ClosePath => option_map (cons c) (l_to_hv_go px py l')
      | _ => match seg_x c, seg_y c with
             | Some x, Some y => option_map (cons c) (l_to_hv_go x y l')
             | _, _ => None
             end
      end
  end.
Definition convert_l_to_hv (l : list seg) : option (list seg) := l_to_hv_go q0 q0 l.

(** src/task/paths/mod.rs:115-136 [resolve_xy], on the reversed list of segments up to [start]. *)
Fixpoint resolve_xy (rl : list seg) : option (Qc * Qc) :=
  match rl with
  | [] => None
  | s :: l => if is_close s then resolve_xy l
              else match seg_x s, seg_y s with Some x, Some y => Some (x, y) | _, _ => None end
  end.

(** src/task/paths/conv_segments.rs:211-245 [is_point_on_line]. With x1 = x2 the slope is infinite or
    NaN, so the first test is false; f64 division by zero does not occur otherwise. *)
Definition is_point_on_line (x1 y1 x2 y2 x y : Qc) : bool :=
  if qeqb x1 x2 then false
  else
    let a := (y2 - y1) / (x2 - x1) in
    let b := y1 - a * x1 in
    if negb (qeqb (y - (a * x + b)) q0) then false
    else
      let a := (y1 - y2) / (x1 - x2) in
      let b := ((y1 + y2) - a * (x1 + x2)) / zq 2 in
      let c := a * x + b in
      qeqb y c && ((qltb x1 x && qltb x x2) || (qltb x1 x2 && qltb x x1)).

(** src/task/paths/conv_segments.rs:133-207: one CurveTo of [_convert_segments]; [p] is the previous
    segment, (px, py) the resolved previous point. *)
Definition conv_curve (p : seg) (px py x1 y1 x2 y2 x y : Qc) : option seg :=
  let is_vlineto := qeqb px x && qeqb x1 x2 && qeqb x1 x && negb (qltb y1 py) && negb (qltb y y2) in
  let is_hlineto := qeqb py y && qeqb y1 y2 && qeqb y1 y && negb (qltb x1 px) && negb (qltb x x2) in
  let is_lineto := is_point_on_line px py x y x1 y1 && is_point_on_line px py x y x2 y2 in
  if is_vlineto then Some (LineTo px y)
  else if is_hlineto then Some (LineTo x py)
  else if is_lineto then Some (LineTo x y)
  else
    let (nx1, ny1) := match p with
      | CurveTo _ _ px2 py2 ppx ppy | SmoothCurve px2 py2 ppx ppy => (ppx * zq 2 - px2, ppy * zq 2 - py2)
      | _ => (px, py)
      end in
    if qeqb x1 nx1 && qeqb y1 ny1 then Some (SmoothCurve x2 y2 x y) else None.
(** [rl]: the (already converted) segments before the current one, reversed. *)
Fixpoint conv_pass_go (rl : list seg) (l : list seg) (changed : bool) : option (list seg * bool) :=
  match l with
  | [] => Some (rev rl, changed)
  | c :: l' =>
      match rl, resolve_xy rl with
      | p :: _, Some (px, py) =>
          match c with
          | CurveTo x1 y1 x2 y2 x y =>
              match conv_curve p px py x1 y1 x2 y2 x y with
              | Some c' => conv_pass_go (c' :: rl) l' true
              | None => conv_pass_go (c :: rl) l' changed
              end
          | _ => conv_pass_go (c :: rl) l' changed
          end
      | _, _ => None
      end
  end.
Definition conv_pass (l : list seg) : option (list seg * bool) :=
  match l with [] => Some ([], false) | c :: l' => conv_pass_go [c] l' false end.
(** src/task/paths/conv_segments.rs:33-40 [convert_segments]; [None] also when [fuel] runs out. *)
Fixpoint convert_segments_loop (fuel : nat) (l : list seg) : option (list seg) :=
  match fuel with
  | O => None
  | S n => match conv_pass l with
           | Some (l', true) => convert_segments_loop n l'
           | Some (l', false) => Some l'
           | None => None
           end
  end.

(** src/task/paths/rm_unused.rs:64-95 [drain_by_pair] with DrainMode::Single: the previous segment
    goes. Here [rl] is the reversed list before i (never empty in the loop). *)
Fixpoint drain_single (p : seg -> seg -> bool) (rl l : list seg) : list seg :=
  match l with
  | [] => rev rl
  | c :: l' =>
      match rl with
      | prev :: rl' => if p prev c then drain_single p (c :: rl') l' else drain_single p (c :: rl) l'
      | [] => drain_single p [c] l'
      end
  end.
Definition drain_pairs_single (p : seg -> seg -> bool) (l : list seg) : list seg :=
  match l with [] => [] | c :: l' => drain_single p [c] l' end.
(** DrainMode::Both: both go; at i = 1 there is no step back, so the next pair starts at index 1. *)
Fixpoint drain_both (p : seg -> seg -> bool) (rl l : list seg) : list seg :=
  match l with
  | [] => rev rl
  | c :: l' =>
      match rl with
      | prev :: rl' =>
          if p prev c then
            match rl' with
            | [] => match l' with a :: b :: l'' => drain_both p [b; a] l'' | _ => l' end
            | _ => drain_both p rl' l'
            end
          else drain_both p (c :: rl) l'
      | [] => drain_both p [c] l'
      end
  end.
Definition drain_pairs_both (p : seg -> seg -> bool) (l : list seg) : list seg :=
  match l with [] => [] | c :: l' => drain_both p [c] l' end.
(** src/task/paths/rm_unused.rs:102-131 *)
Definition remove_mm := drain_pairs_single (fun p c => is_move p && is_move c).
Definition remove_zz := drain_pairs_single (fun p c => is_close p && is_close c).
Definition remove_mz := drain_pairs_both (fun p c => is_move p && is_close c).
Definition remove_equal := drain_pairs_single seg_eqb.

(** src/task/paths/rm_unused.rs:134-159 [remove_zero_lenght] *)
Fixpoint zero_length_go (rl l : list seg) : option (list seg) :=
  match l with
  | [] => Some (rev rl)
  | c :: l' =>
      match resolve_xy rl with
      | None => None
      | Some (px, py) =>
          match c with
          | LineTo x y => if qeqb x px && qeqb y py then zero_length_go rl l' else zero_length_go (c :: rl) l'
          | _ => zero_length_go (c :: rl) l'
          end
      end
  end.
Definition remove_zero_length (l : list seg) : option (list seg) :=
  match l with [] => Some [] | c :: l' => zero_length_go [c] l' end.

(** src/task/paths/rm_unused.rs:161-212 [process_lz]. [drop_lines]: the line-based segments before a
    ClosePath that end at the last MoveTo are removed one after the other (H and V do not occur). *)
Definition at_move (mx my : Qc) (s : seg) : bool :=
  match s with LineTo x y => qeqb mx x && qeqb my y | _ => false end.
Fixpoint drop_lines (mx my : Qc) (rl : list seg) : list seg :=
  match rl with
  | s :: rl' => if at_move mx my s then drop_lines mx my rl' else rl
  | [] => []
  end.
Fixpoint lz_go (mx my : Qc) (rl l : list seg) : list seg :=
  match l with
  | [] => rev rl
  | c :: l' =>
      match c with
      | ClosePath => lz_go mx my (c :: drop_lines mx my rl) l'
      | MoveTo x y =>
          match l', rl with
          | _ :: _, s :: rl' => if at_move mx my s then lz_go x y (c :: ClosePath :: rl') l' else lz_go x y (c :: rl) l'
          | _, _ => lz_go x y (c :: rl) l'
          end
      | _ =>
          match l' with
          | [] => if at_move mx my c then rev (ClosePath :: drop_lines mx my rl) else rev (c :: rl)
          | _ => lz_go mx my (c :: rl) l'
          end
      end
  end.
Definition process_lz (l : list seg) : option (list seg) :=
  match l with
  | [] => Some []
  | c :: l' => match seg_x c, seg_y c with
               | Some x, Some y => Some (lz_go x y [c] l')
               | _, _ => None
               end
  end.

(** src/task/paths/rm_unused.rs:30-54: one iteration of the loop of [remove_unused_segments]; the
    boolean tells whether to go on. "is_changed" is "the list is different": see the proofs for
    [drain_by_pair], which compares lengths. *)
Definition rm_unused_step (l : list seg) : option (list seg * bool) :=
  match l with
  | [_] => Some ([], false)
  | _ =>
      let l1 := remove_mm l in
      let l2 := remove_zz l1 in
      let l3 := remove_mz l2 in
      match process_lz l3 with
      | None => None
      | Some l4 =>
          let l5 := remove_equal l4 in
          match remove_zero_length l5 with
          | None => None
          | Some l6 =>
              let changed := negb (Nat.eqb (List.length l1) (List.length l) && Nat.eqb (List.length l2) (List.length l1) &&
                Nat.eqb (List.length l3) (List.length l2) && list_eqb seg_eqb l3 l4 &&
                Nat.eqb (List.length l5) (List.length l4) && Nat.eqb (List.length l6) (List.length l5)) in
              match l6 with [] => Some ([], false) | _ => Some (l6, changed) end
          end
      end
  end.
Fixpoint remove_unused_loop (fuel : nat) (l : list seg) : option (list seg) :=
  match fuel with
  | O => None
  | S n => match rm_unused_step l with
           | Some (l', true) => remove_unused_loop n l'
           | Some (l', false) => Some l'
           | None => None
           end
  end.

(** svgdom Transform::apply *)
Definition t_apply (t : transform) (x y : Qc) : Qc * Qc :=
  (ta t * x + tc t * y + te t, tb t * x + td t * y + tf t).
(** src/task/paths/apply_transform.rs:28-75; [sx] is the scale of the transform. *)
Definition ts_seg (t : transform) (sx : Qc) (s : seg) : seg :=
  let ap := t_apply t in
  match s with
  | MoveTo x y => MoveTo (fst (ap x y)) (snd (ap x y))
  | LineTo x y => LineTo (fst (ap x y)) (snd (ap x y))
  | SmoothQuad x y => SmoothQuad (fst (ap x y)) (snd (ap x y))
  | HLine x => HLine (fst (ap x q0))
  | VLine y => VLine (snd (ap q0 y))
  | CurveTo x1 y1 x2 y2 x y =>
      CurveTo (fst (ap x1 y1)) (snd (ap x1 y1)) (fst (ap x2 y2)) (snd (ap x2 y2)) (fst (ap x y)) (snd (ap x y))
  | SmoothCurve x2 y2 x y => SmoothCurve (fst (ap x2 y2)) (snd (ap x2 y2)) (fst (ap x y)) (snd (ap x y))
  | Quad x1 y1 x y => Quad (fst (ap x1 y1)) (snd (ap x1 y1)) (fst (ap x y)) (snd (ap x y))
  | Arc rx ry r l w x y => Arc (rx * sx) (ry * sx) r l w (fst (ap x y)) (snd (ap x y))
  | ClosePath => ClosePath
  end.
Definition apply_transform (t : transform) (sx : Qc) (l : list seg) : list seg := map (ts_seg t sx) l.

Record path_opts : Type := PO { po_convert : bool; po_unused : bool }.
Definition obind {A B} (x : option A) (f : A -> option B) : option B :=
  match x with Some a => f a | None => None end.
(** src/task/paths/mod.rs:71-113 [process_path]; [ts] with its scale. The loops get enough fuel, see
    the proofs. *)
Definition process_path (opt : path_opts) (has_marker : bool) (ts : option (transform * Qc)) (l : list segment)
  : option (list segment) :=
  match l with
  | [] => Some []
  | _ =>
      obind (convert_hv_to_l (fix_m (conv_to_absolute l))) (fun l1 =>
      obind (if po_convert opt then convert_segments_loop (2 + List.length l1) l1 else Some l1) (fun l2 =>
      obind (if po_unused opt && negb has_marker then remove_unused_loop (2 + 2 * List.length l2) l2 else Some l2) (fun l3 =>
      match l3 with
      | [] => Some []
      | _ =>
          let l4 := match ts with Some (t, sx) => apply_transform t sx l3 | None => l3 end in
          obind (convert_l_to_hv l4) (fun l5 => Some (conv_to_relative l5))
      end)))
  end.
