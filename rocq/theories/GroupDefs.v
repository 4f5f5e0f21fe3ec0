(** Model of src/task/group_defs.rs. *)
From Coq Require Import List Bool NArith Arith ZArith String Lia.
From Verif Require Import Names Num Value Dom DomFacts DomOps DomRemove Outcome APass Links Move MoveFacts RmUnusedDefs.
Import ListNotations.
Local Open Scope nat_scope.

Definition is_defs (d : ndata) : bool := is_tag EDefs d.
Definition is_ref (d : ndata) : bool := match tag d with TEl e => is_referenced e | _ => false end.
(** src/task/group_defs.rs:102-107: kinds whose content inherits from the ancestors *)
Definition resolves (d : ndata) : bool :=
  match tag d with TEl EClipPath | TEl EMarker | TEl EMask | TEl EPattern | TEl ESymbol => true | _ => false end.
Definition inheritable_attr (x : attr) : bool := match a_name x with AN a => is_inheritable a | ANx _ => false end.
(** src/task/group_defs.rs:111-121: the attributes of [l] (the node, then its ancestors) that [d] lacks *)
Definition add_attr (d : ndata) (x : attr) : ndata :=
  match a_name x with
  | AN a => if d_has d a then d else with_attrs d (attrs d ++ [x])
  | ANx _ => d
  end.
Definition add_missing (l : list ndata) (d : ndata) : ndata :=
  fold_left add_attr (flat_map (fun p => filter inheritable_attr (attrs p)) l) d.
(** The ancestors of the node [k] (nearest first) and its data. *)
Definition context (k : nat) (t : tree) : option (list ndata * ndata) := find (fun p => Nat.eqb (key (snd p)) k) (ctx [] t).
Definition child_of (k : nat) (p : list ndata * ndata) : bool := match fst p with d :: _ => Nat.eqb (key d) k | [] => false end.
(** src/task/group_defs.rs:99-128 [resolve_attrs] *)
Definition resolve_attrs (k : nat) (t : tree) : tree :=
  match context k t with
  | Some (anc, n) =>
      if resolves n then
        let ks := map (fun p => key (snd p)) (filter (child_of k) (ctx [] t)) in
        tmap (fun d => if existsb (Nat.eqb (key d)) ks then add_missing (n :: anc) d else d) t
      else t
  | None => t
  end.
(** src/task/group_defs.rs:32-42: the main defs is the first child of svg *)
Definition main_defs (svg : tree) (t : tree) : nat * tree :=
  let prepend c t := set_kids (root_key svg) (fun l => c :: l) t in
  match first_defs t with
  | Some d =>
      let k := key d in
      match kids svg with
      | c :: _ => if Nat.eqb (root_key c) k then (k, t)
                  else (k, match find_sub k t with Some s => prepend s (detach k t) | None => t end)
      | [] => (k, match find_sub k t with Some s => prepend s (detach k t) | None => t end)
      end
  | None => let k := fresh t in (k, prepend (T (ND k (TEl EDefs) "" []) []) t)
  end.
(** src/task/group_defs.rs:48-56 *)
Definition to_move (m : nat) (t : tree) : list nat :=
  map (fun p => key (snd p)) (filter (fun p => is_ref (snd p) && negb (child_of m p)) (ctx [] t)).
(** src/task/group_defs.rs:58-62 *)
Definition move_step (m : nat) (t : tree) (k : nat) : tree := move k m (resolve_attrs k t).
(** src/task/group_defs.rs:117: [set_attribute] panics if a link is not allowed. No link is replaced here, so a link between
    two elements in both directions is seen in the document afterwards, [t']. *)
Definition resolve_ok (k : nat) (t : tree) : bool :=
  let t' := resolve_attrs k t in
  forallb (fun d' => match find_data (key d') t with
                     | Some d => forallb (fun x => match a_name x with AN a => d_has d a || put_ok t' d' x | ANx _ => true end) (attrs d')
                     | None => true
                     end) (flat t').
Fixpoint moves_ok (m : nat) (ks : list nat) (t : tree) : bool :=
  match ks with [] => true | k :: l => resolve_ok k t && moves_ok m l (move_step m t k) end.
(** src/task/group_defs.rs:66-73: the children of the other defs *)
Definition other_defs (m : nat) (d : ndata) : bool := is_defs d && negb (Nat.eqb (key d) m).
Definition in_other (m : nat) (t : tree) : list nat :=
  flat_map (fun s => if other_defs m (data s) then map root_key (kids s) else []) (subs t).
(** src/task/group_defs.rs:27-97 [group_defs] *)
Definition group_defs (t : tree) : result tree :=
  match svg_element t with
  | None => Panic
  | Some svg =>
      let (m, t1) := main_defs svg t in
      let t2 := fold_left (move_step m) (to_move m t1) t1 in
      let t3 := fold_left (fun t k => move k m t) (in_other m t2) t2 in
      if moves_ok m (to_move m t1) t1 then Ok (remove_nodes (map key (filter (other_defs m) (flat t3))) t3) else Panic
  end.
