(** Model of src/task/apply_transforms/preproc.rs and src/task/ungroup_groups.rs. *)
From Coq Require Import List Bool NArith Arith ZArith String Lia QArith Qcanon.
From Verif Require Import Names Num Value Dom Outcome Stops Shapes Transforms Regroup Img ResolveUse.
Import ListNotations.
Local Open Scope nat_scope.

(** The options that matter here, src/options.rs. *)
Record gopts : Type := GO { o_shapes : bool; o_relative : bool; o_paths : bool }.
(** src/task/apply_transforms/preproc.rs:32-45; without EG, which is added only when the list is not empty. *)
Definition valid_elems (o : gopts) : list eid :=
  (if o_shapes o then [ERect; ECircle; EEllipse; ELine] else []) ++ (if o_relative o && o_paths o then [EPath] else []).
(** src/task/apply_transforms/mod.rs:41-48 [has_valid_transform], 146-151 [get_ts]: an attribute that is not a transform is a panic. *)
Definition valid_transform (d : ndata) : result bool :=
  if d_has d ATransform then match d_get d ATransform with Some (VTransform m) => Ok (valid_ts m) | _ => Panic end else Ok true.
(** [Iterator::all] *)
Fixpoint all_ok {A} (f : A -> result bool) (l : list A) : result bool :=
  match l with [] => Ok true | x :: l' => bind (f x) (fun b => if b then all_ok f l' else Ok false) end.
(** src/task/apply_transforms/preproc.rs:57-69, a child; [anc] are its ancestors. *)
Definition child_ok (o : gopts) (anc : list ndata) (d : ndata) : result bool :=
  match tag d with
  | TEl e =>
      if existsb (eid_eqb e) (valid_elems o ++ [EG]) then
        bind (valid_transform d) (fun b => Ok (b && valid_attrs anc d && (eid_eqb e EPath || eid_eqb e EG || valid_coords d)))
      else Ok false
  | _ => Ok true
  end.
Definition svg_kids (s : tree) : list tree := filter (fun c => is_svg_el (data c)) (kids s).
(** src/task/apply_transforms/preproc.rs:83-95 [apply_ts_to_children], one child. *)
Definition add_ts (m : transform) (d : ndata) : ndata :=
  d_set d ATransform (VTransform (match d_get d ATransform with Some (VTransform n) => t_append m n | _ => m end)).
Definition push_ts (m : transform) (s : tree) (t : tree) : tree :=
  tmap (fun d => if Nat.eqb (key d) (root_key s) then d_rm d ATransform
                 else if existsb (fun c => Nat.eqb (key d) (root_key c)) (svg_kids s) then add_ts m d else d) t.
(** src/task/apply_transforms/preproc.rs:47-79, one node; the flag says whether the end of the loop body is reached. *)
Definition prep_one (o : gopts) (t : tree) (k : nat) : result (tree * bool) :=
  match find_sub k t, ancestors k [] t with
  | Some s, Some anc =>
      let d := data s in
      if is_tag EG d && d_has d ATransform then
        bind (valid_transform d) (fun b =>
          if negb b || negb (valid_attrs anc d) then Ok (t, false)
          else bind (all_ok (fun c => child_ok o (d :: anc) (data c)) (svg_kids s)) (fun ok =>
            if ok then match d_get d ATransform with Some (VTransform m) => Ok (push_ts m s t, true) | _ => Panic end
            else Ok (t, true)))
      else Ok (t, false)
  | _, _ => Ok (t, false)
  end.
Fixpoint prep_loop (o : gopts) (recursive : bool) (ks : list nat) (t : tree) : result tree :=
  match ks with
  | [] => Ok t
  | k :: ks' => bind (prep_one o t k) (fun r => if snd r && negb recursive then Ok (fst r) else prep_loop o recursive ks' (fst r))
  end.
(** src/task/apply_transforms/preproc.rs:31-80. [self]: whether svgdom's [descendants] starts with the node itself. *)
Definition prepare (o : gopts) (self recursive : bool) (p : nat) (t : tree) : result tree :=
  match valid_elems o, find_sub p t with
  | _ :: _, Some s => prep_loop o recursive (if self then keys s else tl (keys s)) t
  | _, _ => Ok t
  end.

(** src/task/ungroup_groups.rs:63-133 [can_ungroup] *)
Definition can_ungroup (t : tree) (p : ndata) (g : tree) : bool :=
  let d := data g in
  if match kids g with [] => true | _ => false end && negb (d_has d AFilter) then true
  else if is_used (key d) t then false
  else if existsb (d_has d) [AMask; AClipPath; AFilter] then false
  else if is_tag EClipPath p then false
  else if match kids g with [c] => negb (is_used (root_key c) t) | _ => false end then true
  else if is_tag ESwitch p then false
  else if match attrs d with [] => true | _ => false end then true
  else d_has d ATransform && Nat.eqb (List.length (attrs d)) 1
       && forallb (fun c => d_has (data c) ATransform && negb (is_tag EUse (data c))) (kids g).
(** src/task/ungroup_groups.rs:40-61: the first group that can be ungrouped, and its parent. *)
Fixpoint find_group (t : tree) (s : tree) {struct s} : option (nat * nat) :=
  match s with
  | T d ch =>
      (fix go (l : list tree) : option (nat * nat) :=
         match l with
         | [] => None
         | c :: l' =>
             if is_tag EG (data c) && can_ungroup t d c then Some (key d, root_key c)
             else match find_group t c with Some r => Some r | None => go l' end
         end) ch
  end.
(** src/task/ungroup_groups.rs:138-187, one attribute and one child. *)
Definition give_attr (t : tree) (x : attr) (c : ndata) : result ndata :=
  match a_name x with
  | ANx _ => Ok c
  | AN a =>
      let put := if put_ok t c x then Ok (with_attrs c (put_attr (attrs c) x)) else Panic in
      if aid_eqb a AOpacity && d_has c a then
        match a_val x, d_get c a with VNum v1, Some (VNum v2) => Ok (d_set c a (VNum (v1 * v2)%Qc)) | _, _ => Panic end
      else if aid_eqb a ATransform && d_has c a then
        Ok (match a_val x, d_get c a with VTransform m, Some (VTransform n) => map_value c a (VTransform (t_append m n)) | _, _ => c end)
      else if aid_eqb a ADisplay then put
      else if d_has c a then Ok c else put
  end.
(** src/task/ungroup_groups.rs:135-187. The attributes are the outer loop; but every child is changed on its own. *)
Definition give_attrs (t : tree) (l : list attr) (c : ndata) : result ndata :=
  fold_left (fun r x => bind r (give_attr t x)) l (Ok c).
Fixpoint give_all (t : tree) (l : list attr) (ch : list tree) : result (list tree) :=
  match ch with
  | [] => Ok []
  | c :: ch' => bind (give_attrs t l (data c)) (fun d => bind (give_all t l ch') (fun r => Ok (T d (kids c) :: r)))
  end.
(** src/task/ungroup_groups.rs:189-193: the children are moved behind the group. *)
Definition lift (g : nat) (ch : list tree) : tree -> tree :=
  img (fun c => if Nat.eqb (root_key c) g then Some (T (data c) [] :: ch) else None).
(** src/task/ungroup_groups.rs:43-48 *)
Definition ungroup_one (o : gopts) (self : bool) (t : tree) (p g : nat) : result tree :=
  match find_sub g t with
  | Some s => bind (give_all t (attrs (data s)) (kids s)) (fun ch => prepare o self false p (remove g (lift g ch t)))
  | None => Ok t
  end.
(** src/task/ungroup_groups.rs:34, with a bound for the number of iterations; [None]: the bound was too small. *)
Fixpoint ungroup_loop (n : nat) (o : gopts) (self : bool) (t : tree) : option (result tree) :=
  match svg_element t with
  | None => Some Panic
  | Some s =>
      match find_group t s with
      | None => Some (Ok t)
      | Some (p, g) =>
          match n with
          | O => None
          | S n' => match ungroup_one o self t p g with Ok t' => ungroup_loop n' o self t' | Err e => Some (Err e) | Panic => Some Panic end
          end
      end
  end.
(** src/task/ungroup_groups.rs:29-35 [ungroup_groups]; every iteration removes a node. *)
Definition ungroup_groups (o : gopts) (self : bool) (t : tree) : option (result tree) :=
  match svg_element t with
  | None => Some Panic
  | Some s => match prepare o self true (root_key s) t with Ok t' => ungroup_loop (List.length (keys t)) o self t' | Err e => Some (Err e) | Panic => Some Panic end
  end.
