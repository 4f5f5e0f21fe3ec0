(** Model of the gradient stop passes and of fix_invalid_attributes. *)
From Coq Require Import List Bool NArith Arith ZArith String Lia QArith Qcanon.
From Verif Require Import Names Num Value Dom DomFacts DomOps Outcome DomRemove.
Import ListNotations.
Local Open Scope nat_scope.

(** svgdom's [is_gradient]. *)
Definition is_grad (d : ndata) : bool := tag_sat is_gradient d.
(** [set_attribute] of an attribute with [visible = false]. *)
Fixpoint set_hidden (l : list attr) (a : aid) (v : value) : list attr :=
  match l with
  | [] => [At (AN a) v false]
  | x :: t => if has_name (AN a) x then At (AN a) v false :: t else x :: set_hidden t a v
  end.
Definition d_set_hidden (d : ndata) (a : aid) (v : value) : ndata := with_attrs d (set_hidden (attrs d) a v).
(** Length::zero() and Length::new_number *)
Definition number (n : Qc) : value := VLen (Len n UNone).
Definition black : value := VColor 0 0 0.

(** src/task/resolve_gradients.rs:113-149, the body of the inner loop for the child number [idx]. *)
Definition resolve_stop (idx : nat) (d : ndata) : result ndata :=
  bind (match d_get d AOffset with
        | Some (VLen l) => Ok (if unit_eqb (unit l) UPercent then d_set d AOffset (number (num l / zq 100)%Qc) else d)
        | _ => if Nat.eqb idx 0 then Ok (d_set d AOffset (number q0)) else Err (MissingAttribute EStop AOffset)
        end) (fun d =>
  let d := if d_has d AStopColor then d else d_set_hidden d AStopColor black in
  Ok (if d_has d AStopOpacity then d else d_set_hidden d AStopOpacity (VNum q1))).
Fixpoint resolve_stop_list (idx : nat) (l : list ndata) : result (list ndata) :=
  match l with
  | [] => Ok []
  | d :: l' => bind (resolve_stop idx d) (fun d' => bind (resolve_stop_list (S idx) l') (fun r => Ok (d' :: r)))
  end.
Definition resolve_stop_visit (d : ndata) (l : list ndata) : result (ndata * list ndata) :=
  if is_grad d then bind (resolve_stop_list 0 l) (fun l' => Ok (d, l')) else Ok (d, l).
(** src/task/resolve_gradients.rs:111-152 *)
Definition resolve_stop_attributes (t : tree) : result tree := kpass resolve_stop_visit t.

(** src/task/fix_attrs.rs:275-310 [fix_len], [fix_negative_len], [rm_negative_len]. [is_sign_negative]
    is modelled as [< 0]; a negative zero is not modelled. *)
Definition negative (v : option value) : bool :=
  match v with Some (VLen l) => qltb (num l) q0 | _ => false end.
Definition fix_len (d : ndata) (a : aid) : ndata :=
  if d_has d a then (if negative (d_get d a) then d_set d a (number q0) else d) else d_set d a (number q0).
Definition rm_negative_len (d : ndata) (a : aid) : ndata := if negative (d_get d a) then d_rm d a else d.
(** src/task/fix_attrs.rs:50-66 *)
Definition fix_rect_attributes (d : ndata) : ndata :=
  rm_negative_len (rm_negative_len (fix_len (fix_len d AWidth) AHeight) ARx) ARy.
(** src/task/fix_attrs.rs:122-150; [get_value_mut] changes the value in place (visibility stays). *)
Definition map_value (d : ndata) (a : aid) (v : value) : ndata :=
  with_attrs d (map (fun x => if has_name (AN a) x then At (a_name x) v (a_vis x) else x) (attrs d)).
Definition fix_poly_attributes (d : ndata) : ndata :=
  match d_get d APoints with
  | Some (VNumList l) =>
      let l' := if Nat.odd (List.length l) then removelast l else l in
      let d' := if Nat.odd (List.length l) then map_value d APoints (VNumList l') else d in
      match l' with [] => d_rm d' APoints | _ => d' end
  | _ => d
  end.
(** src/task/fix_attrs.rs:192-227 [fix_stop_attributes]; [unreachable!] is a panic. *)
Fixpoint fix_stops (prev : Qc) (l : list ndata) : result (list ndata) :=
  match l with
  | [] => Ok []
  | d :: l' =>
      match d_get d AOffset with
      | Some (VLen (Len n UNone)) =>
          let o := if qltb n q0 then q0 else if qltb q1 n then q1 else n in
          let o := if qltb o prev then prev else o in
          bind (fix_stops o l') (fun r => Ok (d_set d AOffset (number o) :: r))
      | _ => Panic
      end
  end.
Definition fix_visit (d : ndata) (l : list ndata) : result (ndata * list ndata) :=
  match tag d with
  | TEl ERect => Ok (fix_rect_attributes d, l)
  | TEl (EPolyline | EPolygon) => Ok (fix_poly_attributes d, l)
  | TEl (ELinearGradient | ERadialGradient) => bind (fix_stops q0 l) (fun l' => Ok (d, l'))
  | _ => Ok (d, l)
  end.
(** src/task/fix_attrs.rs:313-319 *)
Definition fix_marker (t : tree) : tree := tmap (fun d => if d_has d AMarker then d_rm d AMarker else d) t.
(** src/task/fix_attrs.rs:29-41 *)
Definition fix_invalid_attributes (t : tree) : result tree :=
  bind (kpass fix_visit t) (fun t' => Ok (fix_marker t')).

(** src/task/rm_invalid_stops.rs:27-55 *)
Definition opt_value_eqb (a b : option value) : bool :=
  match a, b with Some x, Some y => value_eqb x y | None, None => true | _, _ => false end.
Definition same_stop (a b : ndata) : bool :=
  opt_value_eqb (d_get a AOffset) (d_get b AOffset) && opt_value_eqb (d_get a AStopColor) (d_get b AStopColor) &&
  opt_value_eqb (d_get a AStopOpacity) (d_get b AStopOpacity).
Fixpoint repeated (prev : ndata) (l : list ndata) : list nat :=
  match l with
  | [] => []
  | d :: l' => (if same_stop prev d then [key d] else []) ++ repeated d l'
  end.
Definition repeated_stops (s : tree) : list nat :=
  if is_grad (data s) then match map data (kids s) with [] => [] | d :: l => repeated d l end else [].
Definition remove_invalid_stops (t : tree) : tree := remove_nodes (flat_map repeated_stops (subs t)) t.
