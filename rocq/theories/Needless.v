(** Model of src/task/rm_needless_attrs.rs. *)
From Coq Require Import List Bool NArith Arith ZArith String Lia QArith Qcanon.
From Verif Require Import Names Num Value Dom DomFacts DomOps Outcome DomRemove Stops RmText.
Import ListNotations.
Local Open Scope nat_scope.

(** src/task/rm_needless_attrs.rs:75-82: is the attribute put on the list? *)
Definition paint_attr (x : attr) : bool :=
  match a_name x with AN a => is_fill a || is_stroke a || aid_eqb a AOpacity | ANx _ => false end.
(** The attributes of a child after its removals; names are unique. *)
Definition strip_paint (d : ndata) : ndata := with_attrs d (filter (fun x => negb (paint_attr x)) (attrs d)).
(** src/task/rm_needless_attrs.rs:63-89 [process_clip_path]; [ks] are the keys of the children *)
Definition process_clip_path (ks : list nat) (t : tree) : tree :=
  fold_left (fun t k => if is_used k t then t else upd k strip_paint t) ks t.
(** src/task/rm_needless_attrs.rs:144-157 [is_basic_shapes_attr] *)
Definition is_basic_shapes_attr (a : aid) : bool :=
  is_conditional_processing a || is_core a || is_graphical_event a || is_presentation a ||
  existsb (aid_eqb a) [AClass; AStyle; AExternalResourcesRequired; ATransform].
Definition retain (l : list aid) (d : ndata) : ndata :=
  with_attrs d (filter (fun x => match a_name x with AN a => is_basic_shapes_attr a || existsb (aid_eqb a) l | ANx _ => false end) (attrs d)).
(** src/task/rm_needless_attrs.rs:33-41 and 91-142, the shapes *)
Definition process_shape (d : ndata) : ndata :=
  match tag d with
  | TEl ERect => retain [AX; AY; AWidth; AHeight; ARx; ARy] d
  | TEl ECircle => retain [ACx; ACy; AR] d
  | TEl EEllipse => retain [ACx; ACy; ARx; ARy] d
  | TEl ELine => retain [AX1; AY1; AX2; AY2] d
  | TEl (EPolyline | EPolygon) => retain [APoints] d
  | _ => d
  end.
Definition value_is (d : ndata) (a : aid) (v : value) : bool := match d_get d a with Some w => value_eqb w v | None => false end.
(** src/task/rm_needless_attrs.rs:159-182 [process_fill], for a node without children *)
Definition process_fill (d : ndata) : ndata :=
  let d1 := if value_is d AFill (VPre Vid_none) then d_rm (d_rm d AFillRule) AFillOpacity else d in
  if value_is d1 AFillOpacity (VNum q0) then d_rm (d_rm (d_set d1 AFill (VPre Vid_none)) AFillRule) AFillOpacity else d1.
(** src/task/rm_needless_attrs.rs:184-192 *)
Definition stroke_attributes : list aid := [AStrokeWidth; AStrokeLinecap; AStrokeLinejoin; AStrokeMiterlimit; AStrokeDasharray; AStrokeDashoffset; AStrokeOpacity].
(** src/task/rm_needless_attrs.rs:195-221 [is_invisible]; svgdom's [has_attributes] is true if one of them
    is present *)
Definition is_invisible (d : ndata) : bool :=
  if existsb (d_has d) [AMarker; AMarkerStart; AMarkerMid; AMarkerEnd] then false
  else (match d_get d AStrokeWidth with Some (VLen l) => qeqb (num l) q0 | _ => false end) || value_is d AStrokeOpacity (VNum q0).
(** src/task/rm_needless_attrs.rs:194-248 [process_stroke], for a node without children; [anc] are the
    ancestors *)
Definition process_stroke (anc : list ndata) (d : ndata) : ndata :=
  if is_invisible d then
    let d1 := rm_all stroke_attributes (d_rm d AStroke) in
    match find (fun n => d_has n AStroke) anc with
    | Some n => if value_is n AStroke (VPre Vid_none) then d1 else d_set d1 AStroke (VPre Vid_none)
    | None => d1
    end
  else if value_is d AStroke (VPre Vid_none) then
    let d1 := rm_all stroke_attributes d in
    match find (fun n => d_has n AStroke) anc with Some _ => d1 | None => d_rm d1 AStroke end
  else d.
(** src/task/rm_needless_attrs.rs:250-270 [process_overflow] *)
Definition process_overflow (d : ndata) : ndata :=
  match tag d with
  | TEl (ESvg | ESymbol | EImage | EForeignObject | EPattern | EMarker) => d
  | _ => d_rm d AOverflow
  end.
(** src/task/rm_needless_attrs.rs:33-59, what happens to the node itself *)
Definition needless_node (anc : list ndata) (leaf : bool) (d : ndata) : ndata :=
  let d := process_shape d in
  let d := d_rm d AColor in
  let d := if tag_sat is_container d then d else d_rm d AEnableBackground in
  let d := if leaf then process_fill d else d in
  let d := if leaf then process_stroke anc d else d in
  process_overflow d.
(** The node with the given key and its ancestors, the nearest first. *)
Fixpoint find_place (anc : list ndata) (k : nat) (t : tree) {struct t} : option (list ndata * tree) :=
  match t with
  | T d ch => if Nat.eqb (key d) k then Some (anc, t)
              else (fix go l {struct l} := match l with
                           | [] => None
                           | c :: l' => match find_place (d :: anc) k c with Some p => Some p | None => go l' end
                           end) ch
  end.
(** src/task/rm_needless_attrs.rs:32-60, one node *)
Definition needless_visit (t : tree) (k : nat) : tree :=
  match find_place [] k t with
  | Some (anc, s) =>
      if is_svg_el (data s) then
        let t1 := if is_tag EClipPath (data s) then process_clip_path (map root_key (kids s)) t else t in
        upd k (needless_node anc (match kids s with [] => true | _ => false end)) t1
      else t
  | None => t
  end.
(** src/task/rm_needless_attrs.rs:31-61 [remove_needless_attributes] *)
Definition remove_needless_attributes (t : tree) : tree := fold_left needless_visit (keys t) t.
