(** Model of src/task/group_by_style.rs. *)
From Coq Require Import List Bool NArith Arith ZArith String Lia QArith Qcanon.
From Verif Require Import Names Num Value Dom Outcome Stops Shapes Transforms Move Regroup ResolveUse.
Import ListNotations.
Local Open Scope nat_scope.

(** ** The table *)
(** src/task/group_by_style.rs:39-42 [TableRow] *)
Record row : Type := Row { r_attrs : list attr; r_flags : list bool }.
(** src/task/group_by_style.rs:144-146 [count_flags] *)
Definition count_flags (f : list bool) : nat := List.length (filter (fun b => b) f).
(** src/task/group_by_style.rs:80-100, one row. [n] set flags were seen since the last flag that is not set (or since
    the start). One or two set flags in front of a flag that is not set are cleared; at the end nothing is cleared. *)
Fixpoint clear_short (n : nat) (f : list bool) : list bool :=
  match f with
  | [] => repeat true n
  | true :: f' => clear_short (S n) f'
  | false :: f' => repeat (negb ((n =? 1) || (n =? 2))) n ++ false :: clear_short 0 f'
  end.
(** src/task/group_by_style.rs:61-107 [simplify]; the argument is 2 for a parent that is a svg or a g element, and there are no others here. *)
Definition enough (r : row) : bool := 2 <=? count_flags (r_flags r).
Definition simplify (l : list row) : list row :=
  filter enough (map (fun r => Row (r_attrs r) (clear_short 0 (r_flags r))) (filter enough l)).
(** src/task/group_by_style.rs:149-163 [longest] *)
Fixpoint longest (n : nat) (f : list bool) : nat :=
  match f with [] => n | true :: f' => longest (S n) f' | false :: f' => Nat.max n (longest 0 f') end.
(** A stable sort, the largest first. *)
Fixpoint insert_desc {A} (w : A -> nat) (x : A) (l : list A) : list A :=
  match l with [] => [x] | y :: l' => if w x <? w y then y :: insert_desc w x l' else x :: l end.
Definition sort_desc {A} (w : A -> nat) (l : list A) : list A := fold_right (insert_desc w) [] l.
(** src/task/group_by_style.rs:110-116 [sort] *)
Definition sort_rows : list row -> list row := sort_desc (fun r => longest 0 (r_flags r)).
Fixpoint flags_eqb (f g : list bool) : bool :=
  match f, g with [], [] => true | a :: f', b :: g' => Bool.eqb a b && flags_eqb f' g' | _, _ => false end.
(** src/task/group_by_style.rs:119-140 [join]; [r] is the current row. *)
Fixpoint join_from (r : row) (l : list row) : list row :=
  match l with
  | [] => [r]
  | x :: l' => if flags_eqb (r_flags r) (r_flags x) then join_from (Row (r_attrs r ++ firstn 1 (r_attrs x)) (r_flags r)) l' else r :: join_from x l'
  end.
Definition join_rows (l : list row) : list row := match l with [] => [] | r :: l' => join_from r l' end.
(** src/task/group_by_style.rs:170-198 [longest_range]: the runs of set flags, as a start and the number of flags. *)
Fixpoint runs (i n : nat) (f : list bool) : list (nat * nat) :=
  match f with
  | [] => if n =? 0 then [] else [(i - n, n)]
  | true :: f' => runs (S i) (S n) f'
  | false :: f' => (if n =? 0 then [] else [(i - n, n)]) ++ runs (S i) 0 f'
  end.
Definition longest_range (f : list bool) : option (nat * nat) := hd_error (sort_desc snd (runs 0 0 f)).

(** ** Attributes *)
(** svgdom's comparison of attributes: the name, the value and the visibility. *)
Definition attr_eqb (x y : attr) : bool := has_name (a_name x) y && value_eqb (a_val x) (a_val y) && Bool.eqb (a_vis x) (a_vis y).
(** src/task/group_by_style.rs:414-434: the attributes of the child [c] of the node [d] that can be moved. *)
Definition candidate (anc : list ndata) (d c : ndata) (x : attr) : bool :=
  match a_name x with
  | AN a => a_vis x && (if aid_eqb a ATransform then valid_attrs (d :: anc) c && valid_attrs anc d else is_inheritable a)
  | ANx _ => false
  end.
(** src/task/group_by_style.rs:436-439: every attribute once. *)
Definition add_unique (l : list attr) (x : attr) : list attr := if existsb (fun y => attr_eqb y x) l then l else l ++ [x].
Definition candidates (anc : list ndata) (d : ndata) (cs : list ndata) : list attr :=
  fold_left add_unique (flat_map (fun c => filter (candidate anc d c) (attrs c)) cs) [].
(** src/task/group_by_style.rs:410-465: the table for the selected children [cs]. *)
Definition table (anc : list ndata) (d : ndata) (cs : list ndata) : list row :=
  join_rows (sort_rows (simplify (map (fun x => Row [x] (map (fun c => existsb (fun y => attr_eqb y x) (attrs c)) cs)) (candidates anc d cs)))).

(** ** The document *)
Definition among (ks : list nat) (k : nat) : bool := existsb (Nat.eqb k) ks.
Definition picked (ks : list nat) (c : tree) : bool := among ks (root_key c).
(** src/task/group_by_style.rs:477-479, 505-508 and 541-542: a new group is inserted in front of the first selected child; all of them are moved to it. *)
Fixpoint pull (ks : list nat) (g : nat) (ch : list tree) : list tree :=
  match ch with
  | [] => []
  | c :: l => if picked ks c then T (ND g (TEl EG) EmptyString []) (filter (picked ks) ch) :: filter (fun x => negb (picked ks x)) l else c :: pull ks g l
  end.
Definition gather (p : nat) (ks : list nat) (g : nat) (t : tree) : tree := set_kids p (pull ks g) t.
(** src/task/group_by_style.rs:475 and 541-542: the same when the parent is used as the group. *)
Definition to_end (p : nat) (ks : list nat) (t : tree) : tree :=
  set_kids p (fun ch => filter (fun c => negb (picked ks c)) ch ++ filter (picked ks) ch) t.
Definition attr_ids (l : list attr) : list aid := flat_map (fun x => match a_name x with AN a => [a] | ANx _ => [] end) l.
(** src/task/group_by_style.rs:535-539 *)
Definition strip (ks : list nat) (l : list aid) (t : tree) : tree := tmap (fun d => if among ks (key d) then d_rm_list d l else d) t.
(** src/task/group_by_style.rs:546-558, one attribute. *)
Definition give_group (t : tree) (d : ndata) (x : attr) : result ndata :=
  match a_name x, a_val x, d_get d ATransform with
  | AN ATransform, VTransform m, Some (VTransform n) => Ok (map_value d ATransform (VTransform (t_append n m)))
  | AN ATransform, _, Some _ => Ok d
  | _, _, _ => if put_ok t d x then Ok (with_attrs d (put_attr (attrs d) x)) else Panic
  end.
(** src/task/group_by_style.rs:534-559 [move_nodes], without moving the nodes. *)
Definition hoist (g : nat) (ks : list nat) (l : list attr) (t : tree) : result tree :=
  let t1 := strip ks (attr_ids l) t in
  match find_data g t1 with
  | Some d => bind (fold_left (fun r x => bind r (fun d' => give_group t1 d' x)) l (Ok d)) (fun d' => Ok (tmap (fun x => if Nat.eqb (key x) g then d' else x) t1))
  | None => Ok t1
  end.
(** src/task/group_by_style.rs:358-509 [_group_by_style], after the recursive calls: the node [k], its selected children [ks] and whether these are all. *)
Definition style_one (t : tree) (k : nat) (ks : list nat) (all : bool) : result tree :=
  match find_sub k t, ancestors k [] t with
  | Some s, Some anc =>
      let d := data s in
      if (is_tag ESvg d || is_tag EG d) && (2 <=? List.length ks) then
        let cs := filter (picked ks) (kids s) in
        match table anc d (map data cs) with
        | [] => Ok t
        | r :: rs =>
            let full := count_flags (r_flags r) =? List.length ks in
            let first :=
              if full then
                if all then bind (hoist k ks (r_attrs r) (to_end k ks t)) (fun t1 => Ok (t1, k, rs))
                else bind (hoist (fresh t) ks (r_attrs r) (gather k ks (fresh t) t)) (fun t1 => Ok (t1, fresh t, rs))
              else Ok (t, k, r :: rs) in
            bind first (fun x =>
              let '(t1, p, rest) := x in
              match rest with
              | [] => Ok t1
              | r2 :: _ =>
                  match longest_range (r_flags r2) with
                  | Some (i, n) => let ns := firstn n (skipn i ks) in hoist (fresh t1) ns (r_attrs r2) (gather p ns (fresh t1) t1)
                  | None => Panic
                  end
              end)
        end
      else Ok t
  | _, _ => Ok t
  end.
(** src/task/group_by_style.rs:330-358 [_group_by_style]. [s] is the node as it was at the start: nothing but the inside
    of its children changes before the calls for all of its children have returned. *)
Fixpoint visit_style (s : tree) (t : tree) {struct s} : result tree :=
  match s with
  | T d ch =>
      bind ((fix go (l : list tree) (t : tree) (ks : list nat) (all : bool) {struct l} : result (tree * list nat * bool) :=
               match l with
               | [] => Ok (t, ks, all)
               | c :: l' =>
                   if negb (is_svg_el (data c)) then go l' t ks all
                   else if is_tag EDefs (data c) || is_used (root_key c) t then go l' t [] false
                   else bind (match kids c with [] => Ok t | _ => visit_style c t end) (fun t' => go l' t' (ks ++ [root_key c]) all)
               end) ch t [] true)
        (fun x => let '(t', ks, all) := x in style_one t' (key d) ks all)
  end.
(** src/task/group_by_style.rs:326-328 [group_by_style] *)
Definition group_by_style (t : tree) : result tree :=
  match svg_element t with Some s => visit_style s t | None => Panic end.
