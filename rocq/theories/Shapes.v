(** Model of src/task/conv_shapes.rs: basic shapes to paths. *)
From Coq Require Import List Bool NArith Arith ZArith String Lia QArith Qcanon.
From Verif Require Import Names Num Value Dom DomFacts DomOps Outcome DomRemove.
Import ListNotations.
Local Open Scope nat_scope.

(** The macro get_value!(attrs, Length, id, Length::zero()), src/task/macros.rs:64-72. *)
Definition get_len (d : ndata) (a : aid) : len :=
  match d_get d a with Some (VLen l) => l | _ => Len q0 UNone end.
Definition is_num (l : len) : bool := unit_eqb (unit l) UNone.
(** node.remove_attributes *)
Definition d_rm_list (d : ndata) (l : list aid) : ndata := fold_left d_rm l d.

(** src/task/conv_shapes.rs:47-75 *)
Definition convert_line (d : ndata) : ndata :=
  let x1 := get_len d AX1 in let y1 := get_len d AY1 in
  let x2 := get_len d AX2 in let y2 := get_len d AY2 in
  if negb (is_num x1 && is_num y1 && is_num x2 && is_num y2) then d
  else
    let path := [Seg true (MoveTo (num x1) (num y1)); Seg true (LineTo (num x2) (num y2))] in
    d_rm_list (with_tag (d_set d AD (VPath path)) (TEl EPath)) [AX1; AY1; AX2; AY2].

(** src/task/conv_shapes.rs:77-119 *)
Definition convert_rect (d : ndata) : ndata :=
  let rx := get_len d ARx in let ry := get_len d ARy in
  if negb (qeqb (num rx) q0) || negb (qeqb (num ry) q0) then d
  else
    let w := get_len d AWidth in let h := get_len d AHeight in
    if qeqb (num w) q0 || qeqb (num h) q0 then d
    else
      let x := get_len d AX in let y := get_len d AY in
      if negb (is_num x && is_num y && is_num w && is_num h) then d
      else
        let path := [Seg true (MoveTo (num x) (num y)); Seg true (HLine (num x + num w)%Qc);
                     Seg true (VLine (num y + num h)%Qc); Seg true (HLine (num x)); Seg true ClosePath] in
        d_rm_list (with_tag (d_set d AD (VPath path)) (TEl EPath)) [AX; AY; ARx; ARy; AWidth; AHeight].

(** src/task/conv_shapes.rs:149-179; an odd number of coordinates makes [points\[i + 1\]] panic. *)
Fixpoint points_from (first : bool) (l : list Qc) : result (list segment) :=
  match l with
  | [] => Ok []
  | x :: y :: l' =>
      bind (points_from false l') (fun r => Ok (Seg true (if first then MoveTo x y else LineTo x y) :: r))
  | [_] => Panic
  end.
Definition points_to_path (d : ndata) : option (result (list segment)) :=
  match d_get d APoints with Some (VNumList l) => Some (points_from true l) | _ => None end.
(** src/task/conv_shapes.rs:121-132 and 134-147 *)
Definition convert_poly (close : bool) (d : ndata) : result ndata :=
  match points_to_path d with
  | None => Ok d
  | Some r =>
      bind r (fun path =>
        let path := if close then path ++ [Seg true ClosePath] else path in
        Ok (d_rm (d_set (with_tag d (TEl EPath)) AD (VPath path)) APoints))
  end.
(** src/task/conv_shapes.rs:35-45 *)
Definition convert_shape (d : ndata) : result ndata :=
  match tag d with
  | TEl ELine => Ok (convert_line d)
  | TEl ERect => Ok (convert_rect d)
  | TEl EPolyline => convert_poly false d
  | TEl EPolygon => convert_poly true d
  | _ => Ok d
  end.
(** A pass that changes each node on its own. *)
Definition npass (f : ndata -> result ndata) (t : tree) : result tree :=
  kpass (fun d l => bind (f d) (fun d' => Ok (d', l))) t.
Definition convert_shapes_to_paths (t : tree) : result tree := npass convert_shape t.
