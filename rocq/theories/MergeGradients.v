(** Model of src/task/merge_gradients.rs. *)
From Coq Require Import List Bool NArith Arith ZArith String Lia.
From Verif Require Import Names Num Value Dom DomFacts DomOps DomRemove Outcome Move GradUnits.
Import ListNotations.
Local Open Scope nat_scope.

(** src/task/merge_gradients.rs:29-48 *)
Definition lg_attributes : list aid := [AGradientUnits; ASpreadMethod; AGradientTransform; AX1; AY1; AX2; AY2].
Definition rg_attributes : list aid := [AGradientUnits; ASpreadMethod; AGradientTransform; ACx; ACy; AFx; AFy; AR].
(** src/task/merge_gradients.rs:107-119: an attribute that is visible in the linked gradient becomes visible *)
Definition show_linked (l : ndata) (as_ : list attr) (a : aid) : list attr :=
  match get_attr (attrs l) a with Some x => if a_vis x then show_attr as_ a else as_ | None => as_ end.
(** src/task/merge_gradients.rs:92-121 *)
Definition take_attrs (l d : ndata) : ndata :=
  with_attrs d (fold_left (show_linked l) (if is_tag ELinearGradient d then lg_attributes else rg_attributes) (rm_attr (attrs d) AXlinkHref)).
(** src/task/merge_gradients.rs:67-124, the visit of the gradient [k]: the document and the gradients to remove.
    Lines 84-90 move the children one by one; here all at once. *)
Definition merge_visit (st : tree * list nat) (k : nat) : tree * list nat :=
  let (t, ks) := st in
  match find_sub k t with
  | Some s =>
      match d_get (data s) AXlinkHref with
      | Some (VLink j) =>
          match find_sub j t with
          | Some l =>
              if Nat.eqb (uses_count j t) 1 && negb (d_has (data l) AXlinkHref) then
                let t1 := match kids s with [] => set_kids k (fun _ => kids l) (set_kids j (fun _ => []) t) | _ => t end in
                (upd k (take_attrs (data l)) t1, ks ++ [j])
              else st
          | None => st
          end
      | _ => st
      end
  | None => st
  end.
(** src/task/merge_gradients.rs:64-126 [_merge_gradients] *)
Definition merge_round (t : tree) : tree * list nat := fold_left merge_visit (map key (filter is_gradient (flat t))) (t, []).
(** src/task/merge_gradients.rs:50-62 [merge_gradients]; [None] if [n] rounds are not enough *)
Fixpoint merge_gradients (n : nat) (t : tree) : option tree :=
  match n with
  | 0 => None
  | S n' => match merge_round t with (t1, []) => Some t1 | (t1, ks) => merge_gradients n' (remove_nodes ks t1) end
  end.
