(** Model of src/task/rm_invisible_elems.rs. *)
From Coq Require Import List Bool NArith Arith ZArith String Lia QArith Qcanon.
From Verif Require Import Names Num Value Dom DomFacts DomOps Outcome DomRemove Stops RmUnusedDefs.
Import ListNotations.
Local Open Scope string_scope.
Local Open Scope nat_scope.

(** The document and [is_any_removed]. *)
Definition state : Type := (tree * bool)%type.
Definition drained (x : tree * nat) (b : bool) : state := (fst x, b || negb (snd x =? 0)).

(** ** display *)
Definition disp_none (d : ndata) : bool := match d_get d ADisplay with Some v => value_eqb v (VPre Vid_none) | None => false end.
(** src/task/rm_invisible_elems.rs:151-166 [_process_display_attribute]: the nodes to remove below [s]. *)
Fixpoint display_nodes (t s : tree) : list nat :=
  match s with
  | T _ ch =>
      flat_map (fun c =>
        if negb (is_svg_el (data c)) then []
        else if disp_none (data c) && negb (is_used (root_key c) t) then (if existsb (fun n => is_used (key n) t) (flat c) then [] else [root_key c])
        else display_nodes t c) ch
  end.
(** src/task/rm_invisible_elems.rs:139-149 [process_display_attribute] *)
Definition process_display (x : state) : state :=
  let (t, b) := x in let ks := display_nodes t t in (remove_nodes ks t, b || negb (List.length ks =? 0)).

(** ** path *)
(** src/task/rm_invisible_elems.rs:121-135 [process_paths] *)
Definition has_data (d : ndata) : bool := match d_get d AD with Some (VPath (_ :: _)) => true | _ => false end.
Definition path_invisible (d : ndata) : bool := is_tag EPath d && negb (has_data d).
Definition process_paths (x : state) : state := drained (drain (fun _ s => path_invisible (data s)) (fst x)) (snd x).

(** ** clipPath *)
(** src/task/rm_invisible_elems.rs:100-104 [is_valid_shape] *)
Definition clip_shape (d : ndata) : bool := tag_sat is_basic_shape d || is_tag EPath d || is_tag EText d.
(** src/task/rm_invisible_elems.rs:97-115 [is_valid_clip_path_elem] *)
Definition valid_clip_elem (t : tree) (d : ndata) : bool :=
  if is_tag EUse d then
    match d_get d AXlinkHref with
    | Some (VLink k) => match find_data k t with Some l => clip_shape l | None => false end
    | _ => clip_shape d
    end
  else clip_shape d.
(** src/task/rm_invisible_elems.rs:62-74. [stops]: whether the iterator over the document ends when the first child
    of the node it stands on is removed (svgdom's source is not at hand; the theorems hold for both answers).
    Simplification: a clipPath inside of a removed child of a clipPath is not looked at; the code removes what is
    inside of it, which is not in the document any more, and may set [is_any_removed]. *)
Fixpoint clip_rounds (stops : bool) (ks : list nat) (t : tree) (empty : list nat) : tree * list nat :=
  match ks with
  | [] => (t, empty)
  | k :: ks' =>
      match find_sub k t with
      | Some s =>
          let bad := map root_key (filter (fun c => negb (valid_clip_elem t (data c))) (kids s)) in
          let t1 := remove_nodes bad t in
          let empty1 := match find_sub k t1 with Some (T _ []) => (empty ++ [k])%list | _ => empty end in
          let first := match kids s with c :: _ => existsb (Nat.eqb (root_key c)) bad | [] => false end in
          if stops && first then (t1, empty1) else clip_rounds stops ks' t1 empty1
      | None => clip_rounds stops ks' t empty
      end
  end.
(** src/task/rm_invisible_elems.rs:83-89 and 185-190: a node, and before it all nodes that refer to it. *)
Definition remove_linked (t : tree) (k : nat) : tree := remove k (remove_nodes (map fst (linked_nodes k t)) t).
Definition tag_keys (e : eid) (t : tree) : list nat := map key (filter (is_tag e) (flat t)).
(** src/task/rm_invisible_elems.rs:57-91 [process_clip_paths]; the last empty one is taken first. *)
Definition process_clip_paths (stops : bool) (x : state) : state :=
  let (t, b) := x in
  let (t1, empty) := clip_rounds stops (tag_keys EClipPath t) t [] in
  (fold_left remove_linked (rev empty) t1, b || negb (List.length empty =? 0)).

(** ** filter *)
(** src/task/rm_invisible_elems.rs:169-191 [process_empty_filter] *)
Definition filter_keys (t : tree) : list nat := map root_key (filter (fun s => is_tag EFilter (data s) && match kids s with [] => true | _ => false end) (subs t)).
Definition process_empty_filter (x : state) : state :=
  let (t, b) := x in let ks := filter_keys t in (fold_left remove_linked ks t, b || negb (List.length ks =? 0)).
(** src/task/rm_invisible_elems.rs:195-226 [is_default_matrix] *)
Definition default_matrix (s : tree) : bool :=
  is_tag EFilter (data s) &&
  match kids s with
  | [c] => is_tag EFeColorMatrix (data c) &&
      match d_get (data c) AType, d_get (data c) AValues with
      | Some (VStr ty), Some (VStr vs) => String.eqb ty "matrix" && String.eqb vs "1 0 0 0 0  0 1 0 0 0  0 0 1 0 0  0 0 0 1 0"
      | _, _ => false
      end
  | _ => false
  end.
(** src/task/rm_invisible_elems.rs:194-229 [process_fe_color_matrix]: [is_any_removed] is not set. *)
Definition process_fe_color_matrix (x : state) : state := (fst (drain (fun _ s => default_matrix s) (fst x)), snd x).

(** ** use *)
(** src/task/rm_invisible_elems.rs:232-237 [process_use] *)
Definition use_invisible (d : ndata) : bool := is_tag EUse d && negb (d_has d AXlinkHref).
Definition process_use (x : state) : state := drained (drain (fun _ s => use_invisible (data s)) (fst x)) (snd x).

(** ** Gradients *)
(** src/task/rm_invisible_elems.rs:302-319 [find_link_attribute], all of them: the SVG attributes that refer to [k]. *)
Definition link_attrs (k : nat) (d : ndata) : list aid := flat_map (fun x => match a_name x with AN a => if refers k x then [a] else [] | ANx _ => [] end) (attrs d).
(** src/task/rm_invisible_elems.rs:250-252 *)
Definition no_paint (k : nat) (d : ndata) : ndata := fold_left (fun d a => d_set d a (VPre Vid_none)) (link_attrs k d) d.
(** src/task/rm_invisible_elems.rs:284-293 *)
Definition one_color (color : value) (opacity : Qc) (d : ndata) (a : aid) : ndata :=
  let d1 := d_set d a color in
  if qeqb opacity q1 then d1
  else match a with
       | AFill => d_set d1 AFillOpacity (VNum opacity)
       | AStroke => d_set d1 AStrokeOpacity (VNum opacity)
       | _ => d1
       end.
Definition solid (k : nat) (color : value) (opacity : Qc) (d : ndata) : ndata := fold_left (one_color color opacity) (link_attrs k d) d.
(** src/task/rm_invisible_elems.rs:244-255: [ks] are the gradients without children. *)
Definition gradient_keys (n : nat) (t : tree) : list nat :=
  map root_key (filter (fun s => is_grad (data s) && (List.length (kids s) =? n) && negb (d_has (data s) AXlinkHref)) (subs t)).
Definition unpaint (ks : list nat) (t : tree) : tree := fold_left (fun t k => tmap (no_paint k) t) ks t.
(** src/task/rm_invisible_elems.rs:263-297, one gradient with one child *)
Definition paint_solid (t : tree) (k : nat) : result tree :=
  match find_sub k t with
  | Some (T _ (c :: _)) =>
      match d_get (data c) AStopColor, d_get (data c) AStopOpacity with
      | Some (VColor r g b), Some (VNum o) => Ok (tmap (fun d => if is_grad d then d else solid k (VColor r g b) o d) t)
      | _, _ => Panic
      end
  | _ => Ok t
  end.
(** src/task/rm_invisible_elems.rs:239-300 [process_gradients]. The iterators are lazy, but nothing the loops change
    matters for the filters. *)
Definition process_gradients (x : state) : result state :=
  let (t, b) := x in
  let k0 := gradient_keys 0 t in
  let k1 := gradient_keys 1 t in
  bind (fold_left (fun r k => bind r (fun t => paint_solid t k)) k1 (Ok (unpaint k0 t))) (fun t1 =>
  Ok (remove_nodes (k0 ++ k1)%list t1, b || negb (List.length (k0 ++ k1)%list =? 0))).

(** ** rect *)
(** src/task/rm_invisible_elems.rs:322-350 [process_rect] *)
Definition zero_len (d : ndata) (a : aid) : bool := match d_get d a with Some (VLen l) => qeqb (num l) q0 | _ => false end.
Definition rect_invisible (d : ndata) : bool := is_tag ERect d && (zero_len d AWidth || zero_len d AHeight).
Definition process_rect (x : state) : state := drained (drain (fun _ s => rect_invisible (data s)) (fst x)) (snd x).

(** src/task/rm_invisible_elems.rs:38-52 [remove_invisible_elements] *)
Definition remove_invisible (stops : bool) (t : tree) : option (result tree) :=
  let x1 := process_display (t, false) in
  let x2 := process_paths x1 in
  let x3 := process_clip_paths stops x2 in
  let x4 := process_empty_filter x3 in
  let x5 := process_fe_color_matrix x4 in
  let x6 := process_use x5 in
  match process_gradients x6 with
  | Ok x7 => let x8 := process_rect x7 in if snd x8 then remove_unused_defs (fst x8) else Some (Ok (fst x8))
  | Err e => Some (Err e)
  | Panic => Some Panic
  end.
