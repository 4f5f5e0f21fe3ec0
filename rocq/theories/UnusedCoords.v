(** Model of src/task/rm_unused_coords.rs. *)
From Coq Require Import List Bool NArith Arith ZArith String Lia QArith Qcanon.
From Verif Require Import Names Num Value Dom DomFacts DomOps Outcome DomRemove Stops Transforms.
Import ListNotations.
Local Open Scope nat_scope.

(** svgdom's [has_parent]: the root node of the document does not count (test rm_svg_x_y). *)
Definition child_of_root (t : tree) (d : ndata) : bool := existsb (fun c => Nat.eqb (root_key c) (key d)) (kids t).
Definition opt_value_eqb (x y : option value) : bool :=
  match x, y with Some v, Some w => value_eqb v w | None, None => true | _, _ => false end.
(** src/task/rm_unused_coords.rs:64-69: [xlink:href] is a link to a radialGradient *)
Definition links_radial (t : tree) (d : ndata) : bool :=
  match d_get d AXlinkHref with
  | Some (VLink k) => match find_data k t with Some x => is_tag ERadialGradient x | None => false end
  | _ => false
  end.
(** src/task/rm_unused_coords.rs:79-83: number of linked radialGradient nodes is 0 *)
Definition no_radial_user (t : tree) (d : ndata) : bool :=
  negb (existsb (fun x => is_tag ERadialGradient x && existsb (refers (key d)) (attrs x)) (flat t)).
(** src/task/rm_unused_coords.rs:73-90 [rm_f!] *)
Definition rm_focus (t : tree) (d : ndata) (f c : aid) : list aid :=
  if d_has d f && d_has d c && opt_value_eqb (d_get d f) (d_get d c) && no_radial_user t d then [f] else [].
(** src/task/rm_unused_coords.rs:34-99: the list of attributes to hide *)
Definition unused_coords (t : tree) (d : ndata) : list aid :=
  match tag d with
  | TEl ESvg => if child_of_root t d then (if d_has d AX then [AX] else []) ++ (if d_has d AY then [AY] else []) else []
  | TEl ERect => if d_has d ARx && opt_value_eqb (d_get d ARx) (d_get d ARy) then [ARy] else []
  | TEl ERadialGradient => if links_radial t d then [] else rm_focus t d AFx ACx ++ rm_focus t d AFy ACy
  | _ => []
  end.
Definition hide_all (l : list aid) (d : ndata) : ndata := fold_left (fun d a => with_attrs d (hide_attr (attrs d) a)) l d.
(** src/task/rm_unused_coords.rs:102-107: [attrs_mut.get_mut(aid).unwrap().visible = false] *)
Definition coords_visit (t : tree) (d : ndata) : result ndata :=
  if forallb (d_has d) (unused_coords t d) then Ok (hide_all (unused_coords t d) d) else Panic.
(** src/task/rm_unused_coords.rs:28-111 [remove_unused_coordinates] *)
Definition remove_unused_coordinates (t : tree) : result tree := vloop coords_visit (keys t) t.
