(** Model of src/task/regroup_gradient_stops.rs. *)
From Coq Require Import List Bool NArith Arith ZArith String Decimal DecimalString Lia.
From Verif Require Import Names Num Value Dom DomFacts DomOps Outcome Move GradUnits Gradients Dupl.
From Verif Require Export Links.
Import ListNotations.
Local Open Scope string_scope.
Local Open Scope nat_scope.

(** [n.to_string()] *)
Definition dec (n : nat) : string := NilZero.string_of_uint (Nat.to_uint n).
Definition has_node_id (t : tree) (s : string) : bool := existsb (fun d => String.eqb (nid d) s) (flat t).
(** src/task/regroup_gradient_stops.rs:90-108 [gen_id]: the first free number from [n] on. The loop of the code
    has no bound; one more candidate than there are nodes is enough (lemma [gen_id_free]). *)
Fixpoint gen_id_from (fuel n : nat) (prefix : string) (t : tree) : string :=
  let s := (prefix ++ dec n)%string in
  match fuel with
  | 0 => s
  | S f => if has_node_id t s then gen_id_from f (S n) prefix t else s
  end.
Definition gen_id (prefix : string) (t : tree) : string := gen_id_from (List.length (flat t)) 1 prefix t.
(** svgdom [insert_before]: [u] becomes the sibling before [k] *)
Fixpoint insert_before (k : nat) (u : tree) (t : tree) : tree :=
  match t with T d ch => T d (flat_map (fun c => if Nat.eqb (root_key c) k then [u; insert_before k u c] else [insert_before k u c]) ch) end.
(** src/task/regroup_gradient_stops.rs:71-73: each child is removed; here all at once *)
Definition remove_kids (j : nat) (t : tree) : tree := set_kids j (fun _ => []) (unlink (flat_map keys (kids_of j t)) t).
(** src/task/regroup_gradient_stops.rs:53-77: the stops of [k1] move to a new gradient, to which [k1] and all
    of [js] refer. Lines 60-64 move the children one by one; here all at once. *)
Definition share (k1 : nat) (js : list nat) (t : tree) : result tree :=
  let n := ND (fresh t) (TEl ELinearGradient) (gen_id "lg" t) [] in
  if forallb (fun d => negb (existsb (Nat.eqb (key d)) (k1 :: js)) || can_link d n) (flat t) then
    let link := fun d => d_set d AXlinkHref (VLink (key n)) in
    let t1 := insert_before k1 (T n (kids_of k1 t)) (upd k1 link (set_kids k1 (fun _ => []) t)) in
    Ok (fold_left (fun t j => upd j link (remove_kids j t)) js t1)
  else Panic.
Definition equal_stops (t : tree) (k1 k2 : nat) : bool :=
  match find_sub k1 t, find_sub k2 t with Some s1, Some s2 => is_equal_stops s1 s2 | _, _ => false end.
(** src/task/regroup_gradient_stops.rs:34-81; [n] is the length of the list; the result says whether something
    was changed *)
Fixpoint regroup_loop (n : nat) (l : list nat) (t : tree) : result (bool * tree) :=
  match n, l with
  | S n', k1 :: rest =>
      let js := filter (equal_stops t k1) rest in
      let rest' := filter (fun k => negb (equal_stops t k1 k)) rest in
      match js with
      | [] => regroup_loop n' rest' t
      | _ => bind (share k1 js t) (fun t1 => bind (regroup_loop n' rest' t1) (fun p => Ok (true, snd p)))
      end
  | _, _ => Ok (false, t)
  end.
(** src/task/regroup_gradient_stops.rs:28-32 *)
Definition stop_owners (t : tree) : list nat :=
  map root_key (filter (fun s => is_gradient (data s) && match kids s with [] => false | _ => true end && negb (d_has (data s) AXlinkHref)) (subs t)).
(** src/task/regroup_gradient_stops.rs:27-88 [regroup_gradient_stops]; [None] if the last step does not end *)
Definition regroup_gradient_stops (t : tree) : option (result tree) :=
  match regroup_loop (List.length (stop_owners t)) (stop_owners t) t with
  | Ok (true, t1) => resolve_linear_gradient_attributes t1
  | Ok (false, t1) => Some (Ok t1)
  | Err e => Some (Err e)
  | Panic => Some Panic
  end.
