(** Model of src/task/rm_dupl_defs/. *)
From Coq Require Import List Bool NArith Arith ZArith String Lia QArith Qcanon.
From Verif Require Import Names Num Value Dom DomFacts DomOps Outcome.
Import ListNotations.
Local Open Scope nat_scope.

Definition opt_eqb (x y : option value) : bool :=
  match x, y with Some v, Some w => value_eqb v w | None, None => true | _, _ => false end.
(** svgdom: an attribute made of a name and a node is a Link for xlink:href and a FuncLink otherwise. *)
Definition link_value (a : aid) (k : nat) : value := if aid_eqb a AXlinkHref then VLink k else VFunc k.
Definition named (x : attr) : bool := match a_name x with AN _ => true | ANx _ => false end.
Definition relink_attr (k2 k1 : nat) (x : attr) : attr :=
  if refers k2 x then match a_name x with AN a => At (AN a) (link_value a k1) true | ANx _ => x end else x.
(** src/task/rm_dupl_defs/mod.rs:64-88: the users of [k2] refer to [n1] instead, unless they have the same
    id as [n1]. [attr.id().unwrap()] panics for an attribute with an unknown name. svgdom's [set_attribute] panics if
    the id of the target is empty or if the target refers to the node. *)
Definition relink (k2 : nat) (n1 : ndata) (t : tree) : result tree :=
  let users := filter (fun d => existsb (refers k2) (attrs d)) (flat t) in
  let same d := String.eqb (nid d) (nid n1) in
  if forallb (fun d => forallb (fun x => negb (refers k2 x) || named x) (attrs d)) users then
    if forallb (fun d => same d || (has_id n1 && negb (existsb (refers (key d)) (attrs n1)))) users then
      Ok (tmap (fun d => if same d then d else with_attrs d (map (relink_attr k2 (key n1)) (attrs d))) t)
    else Panic
  else Panic.
(** src/task/rm_dupl_defs/mod.rs:55-95, the inner loop: the nodes that stay in the list, and the document. A node
    that was removed together with an enclosing one is skipped (the code compares the detached node). *)
Fixpoint dupl_inner (cmp : tree -> tree -> result bool) (k1 : nat) (rest : list nat) (t : tree) : result (list nat * tree) :=
  match rest with
  | [] => Ok ([], t)
  | k2 :: r =>
      match find_sub k1 t, find_sub k2 t with
      | Some s1, Some s2 =>
          bind (cmp s1 s2) (fun b =>
          if b then bind (relink k2 (data s1) t) (fun t1 => dupl_inner cmp k1 r (remove k2 t1))
          else bind (dupl_inner cmp k1 r t) (fun p => Ok (k2 :: fst p, snd p)))
      | _, _ => dupl_inner cmp k1 r t
      end
  end.
(** src/task/rm_dupl_defs/mod.rs:45-99 [rm_loop]; [n] is the length of the list. *)
Fixpoint dupl_loop (cmp : tree -> tree -> result bool) (n : nat) (l : list nat) (t : tree) : result tree :=
  match n, l with
  | S n', k1 :: rest => bind (dupl_inner cmp k1 rest t) (fun p => dupl_loop cmp n' (fst p) (snd p))
  | _, _ => Ok t
  end.
Definition rm_loop (cmp : tree -> tree -> result bool) (l : list nat) (t : tree) : result tree := dupl_loop cmp (List.length l) l t.
(** src/task/rm_dupl_defs/mod.rs:113-117: [unwrap] panics for a missing attribute *)
Fixpoint attrs_equal (l : list aid) (d1 d2 : ndata) : result bool :=
  match l with
  | [] => Ok true
  | a :: r => match d_get d1 a, d_get d2 a with
              | Some v, Some w => if value_eqb v w then attrs_equal r d1 d2 else Ok false
              | _, _ => Panic
              end
  end.
Definition default_to (v : value) (o : option value) : value := match o with Some w => w | None => v end.
Definition no_transform : value := VTransform (Tr q1 q0 q0 q1 q0 q0).
(** src/task/rm_dupl_defs/mod.rs:101-120 [is_gradient_attrs_equal] *)
Definition gradient_attrs_equal (l : list aid) (d1 d2 : ndata) : result bool :=
  if value_eqb (default_to no_transform (d_get d1 AGradientTransform)) (default_to no_transform (d_get d2 AGradientTransform)) then
    if d_has d1 AXlinkHref && d_has d2 AXlinkHref && negb (opt_eqb (d_get d1 AXlinkHref) (d_get d2 AXlinkHref)) then Ok false
    else attrs_equal l d1 d2
  else Ok false.
(** src/task/rm_dupl_defs/mod.rs:122-148 [is_equal_stops] *)
Definition stop_equal (c1 c2 : tree) : bool :=
  opt_eqb (d_get (data c1) AOffset) (d_get (data c2) AOffset) && opt_eqb (d_get (data c1) AStopColor) (d_get (data c2) AStopColor) &&
  opt_eqb (d_get (data c1) AStopOpacity) (d_get (data c2) AStopOpacity).
Fixpoint all_stops_equal (l1 l2 : list tree) : bool :=
  match l1, l2 with c1 :: r1, c2 :: r2 => stop_equal c1 c2 && all_stops_equal r1 r2 | _, _ => true end.
Definition is_equal_stops (s1 s2 : tree) : bool :=
  Nat.eqb (List.length (kids s1)) (List.length (kids s2)) && all_stops_equal (kids s1) (kids s2).
(** src/task/rm_dupl_defs/linear_gradient.rs:40-50, radial_gradient.rs:41-51 *)
Definition gradients_equal (l : list aid) (s1 s2 : tree) : result bool :=
  bind (gradient_attrs_equal l (data s1) (data s2)) (fun b => Ok (b && is_equal_stops s1 s2)).
Definition of_kind (e : eid) (t : tree) : list nat := map key (filter (is_tag e) (flat t)).
(** src/task/rm_dupl_defs/linear_gradient.rs:26-51 [remove_dupl_linear_gradients] *)
Definition remove_dupl_linear_gradients (t : tree) : result tree :=
  rm_loop (gradients_equal [AX1; AY1; AX2; AY2; AGradientUnits; ASpreadMethod]) (of_kind ELinearGradient t) t.
(** src/task/rm_dupl_defs/radial_gradient.rs:26-52 [remove_dupl_radial_gradients] *)
Definition remove_dupl_radial_gradients (t : tree) : result tree :=
  rm_loop (gradients_equal [ACx; ACy; AR; AFx; AFy; AGradientUnits; ASpreadMethod]) (of_kind ERadialGradient t) t.
(** src/task/rm_dupl_defs/fe_gaussian_blur.rs:44-73: the filters that are compared *)
Definition single_blur (t : tree) (s : tree) : bool :=
  is_tag EFilter (data s) && negb (d_has (data s) AXlinkHref) &&
  match kids s with
  | [c] => is_tag EFeGaussianBlur (data c) && negb (is_used (root_key c) t) && negb (d_has (data c) AIn) && negb (d_has (data c) AResult)
  | _ => false
  end.
(** src/task/rm_dupl_defs/fe_gaussian_blur.rs:91-110 [is_attrs_equal] *)
Definition same_attrs (l : list aid) (d1 d2 : ndata) : bool := forallb (fun a => opt_eqb (d_get d1 a) (d_get d2 a)) l.
(** src/task/rm_dupl_defs/fe_gaussian_blur.rs:75-88 *)
Definition blurs_equal (s1 s2 : tree) : result bool :=
  if same_attrs [AX; AY; AWidth; AHeight; AFilterUnits; APrimitiveUnits; AFilterRes; AColorInterpolationFilters] (data s1) (data s2) then
    match kids s1, kids s2 with
    | c1 :: _, c2 :: _ => Ok (same_attrs [AStdDeviation] (data c1) (data c2))
    | _, _ => Panic
    end
  else Ok false.
(** src/task/rm_dupl_defs/fe_gaussian_blur.rs:26-89 [remove_dupl_fe_gaussian_blur] *)
Definition remove_dupl_fe_gaussian_blur (t : tree) : result tree :=
  rm_loop blurs_equal (map root_key (filter (single_blur t) (subs t))) t.
