(** Model of src/task/join_style_attrs.rs. svgdom's writer of values is the parameter [wr]. *)
From Coq Require Import List Bool NArith Arith ZArith String Ascii Lia.
From Verif Require Import Names Num Value Dom Cli SpecJoin.
Import ListNotations.
Local Open Scope nat_scope.

Section join.
Variable wr : value -> string.
(** Visible presentation attributes (src/task/join_style_attrs.rs:37-40, 49-52), as (name, value) *)
Fixpoint visible_presentation (l : list attr) : list (aid * value) :=
  match l with
  | [] => []
  | x :: l => match a_name x with
              | AN a => if is_presentation a && a_vis x then (a, a_val x) :: visible_presentation l else visible_presentation l
              | ANx _ => visible_presentation l
              end
  end.
(** src/task/join_style_attrs.rs:54-57: [name:value;] for each; the last [;] is popped (line 61) *)
Fixpoint style_text (l : list (aid * value)) : string :=
  match l with
  | [] => ""
  | [(a, v)] => style_name a ++ ":" ++ wr v
  | (a, v) :: l => style_name a ++ ":" ++ wr v ++ ";" ++ style_text l
  end%string.
(** src/task/join_style_attrs.rs:44-73; [remove_impl] does not touch links *)
Definition join_node (d : ndata) : ndata :=
  let l := visible_presentation (attrs d) in
  with_attrs d (fold_left rm_attr (map fst l) (set_attr (attrs d) AStyle (VStr (style_text l)))).
(** src/task/join_style_attrs.rs:36-45 *)
Definition wants_join (mode : style_join_mode) (d : ndata) : bool :=
  is_svg_el d && match mode with
                 | JoinNone => false
                 | JoinSome => Nat.ltb 5 (List.length (visible_presentation (attrs d)))
                 | JoinAll => true
                 end.
(** src/task/join_style_attrs.rs:29-76 [join_style_attributes] *)
Definition join_style_attributes (mode : style_join_mode) (t : tree) : tree :=
  match mode with JoinNone => t | _ => tmap (fun d => if wants_join mode d then join_node d else d) t end.
End join.
