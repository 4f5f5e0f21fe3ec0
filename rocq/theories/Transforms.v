(** Model of src/task/apply_transforms (gradients and shapes), src/task/utils.rs and the document
    level of src/task/paths/mod.rs. *)
From Coq Require Import List Bool NArith Arith ZArith String Lia QArith Qcanon.
From Verif Require Import Names Num Value Dom DomFacts DomOps Outcome DomRemove Stops Shapes APass Paths.
Import ListNotations.
Local Open Scope nat_scope.

(** src/task/apply_transforms/mod.rs:43-59 [is_valid_transform]. svgdom's get_scale is
    (sqrt(a² + c²), sqrt(b² + d²)) and its get_skew is (atan2(d, c) - 90°, atan2(b, a)); so a transform
    without skew has c = 0, d > 0, b = 0, a >= 0, and a proportional scale means a = d. *)
Definition valid_ts (t : transform) : bool :=
  qeqb (tb t) q0 && qeqb (tc t) q0 && qeqb (ta t) (td t) && qltb q0 (ta t).
(** [has_scale] and the first component of [get_scale], for a valid transform. *)
Definition has_scale (t : transform) : bool := negb (qeqb (ta t) q1).
Definition scale_of (t : transform) : Qc := ta t.

(** src/task/apply_transforms/mod.rs:64-90 [is_valid_attrs], [is_valid_attr]; [l] is the node and its
    ancestors, nearest first. *)
Fixpoint valid_attr (a : aid) (l : list ndata) : bool :=
  match l with
  | [] => true
  | d :: l' => match d_get d a with Some (VFunc _) => false | Some _ => true | None => valid_attr a l' end
  end.
Definition valid_attrs (anc : list ndata) (d : ndata) : bool :=
  forallb (fun a => valid_attr a (d :: anc)) [AFill; AStroke; AFilter; AMask; AClipPath].

(** src/task/apply_transforms/mod.rs:93-124 [is_valid_coords] *)
Definition coord_attrs (d : ndata) : option (list aid) :=
  match tag d with
  | TEl ERect => Some [AX; AY]
  | TEl (ECircle | EEllipse) => Some [ACx; ACy]
  | TEl (ELine | ELinearGradient) => Some [AX1; AY1; AX2; AY2]
  | TEl ERadialGradient => Some [ACx; ACy; AFx; AFy; AR]
  | _ => None
  end.
Definition valid_coord (d : ndata) (a : aid) : bool :=
  match d_get d a with Some (VLen l) => unit_eqb (unit l) UNone | _ => true end.
Definition valid_coords (d : ndata) : bool :=
  match coord_attrs d with Some l => forallb (valid_coord d) l | None => false end.

(** src/task/apply_transforms/mod.rs:126-136 *)
Definition transform_coords (ax ay : aid) (t : transform) (d : ndata) : ndata :=
  let p := t_apply t (num (get_len d ax)) (num (get_len d ay)) in
  d_set (d_set d ax (number (fst p))) ay (number (snd p)).
(** src/task/apply_transforms/mod.rs:138-142; changed in place, the visibility stays. *)
Definition scale_coord (a : aid) (k : Qc) (d : ndata) : ndata :=
  match d_get d a with Some (VLen l) => map_value d a (VLen (Len (num l * k)%Qc (unit l))) | _ => d end.

(** src/task/utils.rs:34-58 [recalc_stroke_num]: the value of the node, else of the nearest ancestor
    that has it, else the default. *)
Definition stroke_num_default (a : aid) : option value :=
  match a with
  | AStrokeWidth => Some (number q1)
  | AStrokeDashoffset => Some (number q0)
  | _ => None
  end.
Fixpoint find_value (a : aid) (l : list ndata) : option value :=
  match l with [] => None | d :: l' => if d_has d a then d_get d a else find_value a l' end.
Definition recalc_num (a : aid) (k : Qc) (anc : list ndata) (d : ndata) : ndata :=
  let v := if d_has d a then d_get d a
           else match find_value a anc with Some v => Some v | None => stroke_num_default a end in
  match v with
  | Some (VLen l) => if qeqb (num l) q0 then d else d_set d a (VLen (Len (num l * k)%Qc (unit l)))
  | _ => d
  end.
(** src/task/utils.rs:60-84 [recalc_stroke_dasharray] *)
Definition recalc_dasharray (k : Qc) (anc : list ndata) (d : ndata) : ndata :=
  let v := if d_has d AStrokeDasharray then d_get d AStrokeDasharray else find_value AStrokeDasharray anc in
  match v with
  | Some (VLenList l) => d_set d AStrokeDasharray (VLenList (map (fun x => Len (num x * k)%Qc (unit x)) l))
  | _ => d
  end.
(** src/task/utils.rs:28-32 *)
Definition recalc_stroke (k : Qc) (anc : list ndata) (d : ndata) : ndata :=
  recalc_num AStrokeDashoffset k anc (recalc_dasharray k anc (recalc_num AStrokeWidth k anc d)).

(** src/task/apply_transforms/shapes.rs:68-125: what is done with the coordinates. *)
Definition scale_coords (l : list aid) (t : transform) (d : ndata) : ndata :=
  if has_scale t then fold_left (fun d a => scale_coord a (scale_of t) d) l d else d.
Definition shape_coords (e : eid) (t : transform) (d : ndata) : ndata :=
  match e with
  | ERect => scale_coords [AWidth; AHeight; ARx; ARy] t (transform_coords AX AY t d)
  | ECircle => scale_coords [AR] t (transform_coords ACx ACy t d)
  | EEllipse => scale_coords [ARx; ARy] t (transform_coords ACx ACy t d)
  | ELine => transform_coords AX2 AY2 t (transform_coords AX1 AY1 t d)
  | _ => d
  end.
(** src/task/apply_transforms/shapes.rs:43-66 [process] *)
Definition process_shape (e : eid) (anc : list ndata) (d : ndata) : result ndata :=
  match d_get d ATransform with
  | Some (VTransform t) =>
      if negb (valid_ts t) || negb (valid_attrs anc d) || negb (valid_coords d) then Ok d
      else
        let d := d_rm (shape_coords e t d) ATransform in
        Ok (if has_scale t then recalc_stroke (scale_of t) anc d else d)
  | _ => Panic
  end.
(** src/task/apply_transforms/shapes.rs:29-41; [tag_id().unwrap()] fails for a non-SVG element. *)
Definition apply_shape (anc : list ndata) (d : ndata) : result ndata :=
  if d_has d ATransform then
    match tag d with
    | TEl (ERect as e) | TEl (ECircle as e) | TEl (EEllipse as e) | TEl (ELine as e) => process_shape e anc d
    | TEl _ => Ok d
    | _ => Panic
    end
  else Ok d.
Definition apply_transform_to_shapes (t : tree) : result tree := apass apply_shape [] t.

(** src/task/paths/mod.rs:33-69 [process_paths] *)
Record paths_opts : Type := PSO { pso_path : path_opts; pso_transform : bool }.
Definition has_marker (d : ndata) : bool := existsb (d_has d) [AMarker; AMarkerStart; AMarkerMid; AMarkerEnd].
Definition path_data (o : paths_opts) (m : bool) (ts : option (transform * Qc)) (d : ndata) : result ndata :=
  match d_get d AD with
  | Some (VPath p) => match process_path (pso_path o) m ts p with
                      | Some p' => Ok (map_value d AD (VPath p'))
                      | None => Panic
                      end
  | _ => Ok d
  end.
Definition process_path_node (o : paths_opts) (anc : list ndata) (d : ndata) : result ndata :=
  if is_tag EPath d then
    if pso_transform o && d_has d ATransform then
      match d_get d ATransform with
      | Some (VTransform t) =>
          if valid_ts t && valid_attrs anc d then
            let d' := d_rm d ATransform in
            let d' := if has_scale t then recalc_stroke (scale_of t) anc d' else d' in
            path_data o (has_marker d) (Some (t, scale_of t)) d'
          else path_data o (has_marker d) None d
      | _ => Panic
      end
    else path_data o (has_marker d) None d
  else Ok d.
Definition process_paths (o : paths_opts) (t : tree) : result tree := apass (process_path_node o) [] t.

(** src/task/apply_transforms/gradients.rs:28-86 *)
Definition linked_by_gradient (k : nat) (t : tree) : bool :=
  existsb (fun d => is_grad d && existsb (refers k) (attrs d)) (flat t).
Definition apply_gradient (t : tree) (d : ndata) : result ndata :=
  if is_grad d && d_has d AGradientTransform then
    if linked_by_gradient (key d) t then Ok d
    else if match d_get d AXlinkHref with
            | Some (VLink k) => match find_data k t with Some x => d_has x AGradientTransform | None => false end
            | _ => false
            end then Ok d
    else match d_get d AGradientTransform with
         | Some (VTransform ts) =>
             if negb (valid_ts ts) then Ok d
             else if negb (valid_coords d) then Ok d
             else if is_tag ELinearGradient d
             then Ok (d_rm (transform_coords AX2 AY2 ts (transform_coords AX1 AY1 ts d)) AGradientTransform)
             else Ok (d_rm (scale_coords [AR] ts (transform_coords AFx AFy ts (transform_coords ACx ACy ts d))) AGradientTransform)
         | _ => Panic
         end
  else Ok d.
(** A loop over the nodes; each visit changes the visited node and may look at the whole document. *)
Fixpoint vloop (f : tree -> ndata -> result ndata) (ks : list nat) (t : tree) : result tree :=
  match ks with
  | [] => Ok t
  | k :: ks' => match find_data k t with
                | Some d => bind (f t d) (fun d' => vloop f ks' (upd k (fun _ => d') t))
                | None => vloop f ks' t
                end
  end.
Definition apply_transform_to_gradients (t : tree) : result tree := vloop apply_gradient (keys t) t.
