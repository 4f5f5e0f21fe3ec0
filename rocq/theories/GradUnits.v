(** Model of src/task/rm_gradient_attrs.rs. *)
From Coq Require Import List Bool NArith Arith ZArith String Lia QArith Qcanon.
From Verif Require Import Names Num Value Dom DomFacts DomOps Outcome DomRemove Stops Transforms VLoop UnusedCoords.
Import ListNotations.
Local Open Scope nat_scope.

Definition is_gradient (d : ndata) : bool := is_tag ELinearGradient d || is_tag ERadialGradient d.
Definition o_bb : value := VPre Vid_objectBoundingBox.
Definition u_sou : value := VPre Vid_userSpaceOnUse.
(** src/task/rm_gradient_attrs.rs:46: number of references from gradients *)
Definition gradient_uses (t : tree) (k : nat) : nat :=
  List.length (flat_map (fun d => if is_gradient d then filter (refers k) (attrs d) else []) (flat t)).
Definition link_key (d : ndata) : option nat := match d_get d AXlinkHref with Some (VLink k) => Some k | _ => None end.
Definition link_of_key (t : tree) (k : nat) : option nat := match find_data k t with Some d => link_key d | None => None end.
(** src/task/rm_gradient_attrs.rs:42-49: gradients with xlink:href, with their use counts *)
Definition units_order (t : tree) : list (nat * nat) :=
  map (fun d => (key d, gradient_uses t (key d))) (filter (fun d => is_gradient d && d_has d AXlinkHref) (flat t)).
(** src/task/rm_gradient_attrs.rs:54-94: one round of the [while]. The links are not changed by the pass,
    so the order of the visits is computed first. The subtraction does not go below 0 (see the proofs). *)
Definition decrease (t : tree) (done : list nat) (p : nat * nat) : nat * nat :=
  (fst p, snd p - List.length (filter (fun n => match link_of_key t n with Some k => Nat.eqb k (fst p) | None => false end) done)).
Definition ready (order : list (nat * nat)) : list nat := map fst (filter (fun p => Nat.eqb (snd p) 0) order).
Definition units_round (t : tree) (order : list (nat * nat)) : list (nat * nat) :=
  map (decrease t (ready order)) (filter (fun p => negb (Nat.eqb (snd p) 0)) order).
(** [None]: not finished after [fuel] rounds. *)
Fixpoint units_sequence (fuel : nat) (t : tree) (order : list (nat * nat)) : option (list nat) :=
  match order with
  | [] => Some []
  | _ => match fuel with
         | 0 => None
         | S n => option_map (app (ready order)) (units_sequence n t (units_round t order))
         end
  end.
(** src/task/rm_gradient_attrs.rs:212-215 [make_attr_invisible] *)
Definition make_invisible (a : aid) (d : ndata) : result ndata :=
  if d_has d a then Ok (with_attrs d (hide_attr (attrs d) a)) else Panic.
(** src/task/rm_gradient_attrs.rs:61-71 *)
Definition units_visit (t : tree) (d : ndata) : result ndata :=
  match link_key d with
  | Some k => match find_data k t with
              | Some x => if opt_value_eqb (d_get d AGradientUnits) (d_get x AGradientUnits) then make_invisible AGradientUnits d else Ok d
              | None => Ok d
              end
  | None => Ok d
  end.
(** src/task/rm_gradient_attrs.rs:41-95 [rm_equal] *)
Definition rm_equal (t : tree) : option (result tree) :=
  option_map (fun ks => vloop units_visit ks t) (units_sequence (List.length (units_order t)) t (units_order t)).

(** src/task/rm_gradient_attrs.rs:99-104: gradients without xlink:href that are used by gradients only *)
Definition unit_parents (t : tree) : list nat :=
  map key (filter (fun d => is_gradient d && negb (d_has d AXlinkHref) &&
     forallb (fun x => negb (existsb (refers (key d)) (attrs x)) || is_gradient x) (flat t)) (flat t)).
(** The keys of the linked nodes, one for each reference. *)
Definition linked_keys (k : nat) (t : tree) : list nat := map fst (linked_nodes k t).
Definition has_units (v : value) (t : tree) (k : nat) : bool :=
  match find_data k t with Some d => opt_value_eqb (d_get d AGradientUnits) (Some v) | None => false end.
(** src/task/rm_gradient_attrs.rs:143-148, 159-164 *)
Definition move_units (v w : value) (d : ndata) : result ndata :=
  match d_get d AGradientUnits with
  | Some x => if value_eqb x v then make_invisible AGradientUnits d else Ok (d_set d AGradientUnits w)
  | None => Ok d
  end.
Definition hide_default_units (d : ndata) : ndata :=
  if opt_value_eqb (d_get d AGradientUnits) (Some o_bb) then with_attrs d (hide_attr (attrs d) AGradientUnits) else d.
(** src/task/rm_gradient_attrs.rs:106-175, one gradient. [round(n / 2)] rounds half up. *)
Definition group_visit (t : tree) (k : nat) : result tree :=
  let users := linked_keys k t in
  let total := uses_count k t in
  let count := List.length (filter (has_units o_bb t) users) in
  let set v := upd k (fun d => d_set d AGradientUnits v) t in
  bind (if Nat.eqb count total then vloop (fun _ => make_invisible AGradientUnits) users (set o_bb)
        else if Nat.eqb count 0 then vloop (fun _ => make_invisible AGradientUnits) users (set u_sou)
        else if Nat.leb (Nat.div2 (total + 1)) count then vloop (fun _ => move_units o_bb u_sou) users (set o_bb)
        else vloop (fun _ => move_units u_sou o_bb) users (set u_sou))
       (fun t => Ok (upd k hide_default_units t)).
(** src/task/rm_gradient_attrs.rs:98-176 [group_to_parent] *)
Definition group_to_parent (t : tree) : result tree := fold_left (fun r k => bind r (fun t => group_visit t k)) (unit_parents t) (Ok t).
(** src/task/rm_gradient_attrs.rs:30-39 [remove_gradient_attributes]; [None]: the loop does not end *)
Definition remove_gradient_attributes (t : tree) : option (result tree) :=
  option_map (fun r => bind r group_to_parent) (rm_equal t).
