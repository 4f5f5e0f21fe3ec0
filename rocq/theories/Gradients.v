(** Model of src/task/resolve_gradients.rs: attributes of gradients along xlink:href. *)
From Coq Require Import List Bool NArith Arith ZArith String Lia QArith Qcanon.
From Verif Require Import Names Num Value Dom DomFacts DomOps Outcome DomRemove Stops Transforms VLoop.
Import ListNotations.
Local Open Scope nat_scope.

(** src/task/resolve_gradients.rs:161-175: one run of the inner [for]. A node is pushed when no node of
    the same kind that is not in [order] yet refers to it. *)
Definition same_kind_users (e : eid) (k : nat) (t : tree) : list nat :=
  map key (filter (fun d => is_tag e d && existsb (refers k) (attrs d)) (flat t)).
Definition order_visit (e : eid) (t : tree) (order : list nat) (k : nat) : list nat :=
  if mem k order then order
  else if existsb (fun j => negb (mem j order)) (same_kind_users e k t) then order
  else order ++ [k].
Definition order_round (e : eid) (t : tree) (nodes order : list nat) : list nat := fold_left (order_visit e t) nodes order.
(** src/task/resolve_gradients.rs:160-176: the [while]; [None] if it needs more than [fuel] rounds. *)
Fixpoint order_loop (fuel : nat) (e : eid) (t : tree) (nodes order : list nat) : option (list nat) :=
  if Nat.eqb (List.length order) (List.length nodes) then Some order
  else match fuel with
       | 0 => None
       | S n => order_loop n e t nodes (order_round e t nodes order)
       end.
Definition kind_nodes (e : eid) (t : tree) : list nat := map key (filter (is_tag e) (flat t)).
(** src/task/resolve_gradients.rs:155-178 [gen_order]; [None]: the loop does not end (see the theorems). *)
Definition gen_order (e : eid) (t : tree) : option (list nat) :=
  order_loop (List.length (kind_nodes e t)) e t (kind_nodes e t) [].

(** src/task/resolve_gradients.rs:190-213 [resolve_attribute]. An endless recursion ends with a stack
    overflow; [unreachable!] is a panic. *)
Inductive look : Type := Found (v : value) | NotFound | Crash.
Fixpoint lookup (fuel : nat) (t : tree) (a : aid) (d : ndata) : look :=
  match d_get d a with
  | Some v => Found v
  | None => match d_get d AXlinkHref with
            | None => NotFound
            | Some (VLink k) => match fuel, find_data k t with
                                | S n, Some x => lookup n t a x
                                | _, _ => Crash
                                end
            | Some _ => Crash
            end
  end.
(** src/task/resolve_gradients.rs:180-188 [check_attr]; the recursion visits each node at most once
    unless it is endless, so the number of nodes is enough fuel. *)
Definition check_attr (t : tree) (a : aid) (def : option value) (d : ndata) : result ndata :=
  if d_has d a then Ok d
  else match lookup (List.length (flat t)) t a d with
       | Found v => Ok (d_set_hidden d a v)
       | NotFound => Ok (match def with Some v => d_set_hidden d a v | None => d end)
       | Crash => Panic
       end.
Definition percent (n : Z) : value := VLen (Len (zq n) UPercent).
(** src/task/resolve_gradients.rs:51-75, the body of the loop *)
Definition resolve_linear_node (t : tree) (d : ndata) : result ndata :=
  bind (check_attr t AGradientUnits (Some (VPre Vid_objectBoundingBox)) d) (fun d =>
  bind (check_attr t ASpreadMethod (Some (VPre Vid_pad)) d) (fun d =>
  bind (check_attr t AX1 (Some (percent 0)) d) (fun d =>
  bind (check_attr t AY1 (Some (percent 0)) d) (fun d =>
  bind (check_attr t AX2 (Some (percent 100)) d) (fun d =>
  bind (check_attr t AY2 (Some (percent 0)) d) (fun d =>
  check_attr t AGradientTransform None d)))))).
(** src/task/resolve_gradients.rs:77-109, the body of the loop *)
Definition resolve_radial_node (t : tree) (d : ndata) : result ndata :=
  bind (check_attr t AGradientUnits (Some (VPre Vid_objectBoundingBox)) d) (fun d =>
  bind (check_attr t ASpreadMethod (Some (VPre Vid_pad)) d) (fun d =>
  bind (check_attr t ACx (Some (percent 50)) d) (fun d =>
  bind (check_attr t ACy (Some (percent 50)) d) (fun d =>
  bind (check_attr t AR (Some (percent 50)) d) (fun d =>
  let cx := d_get d ACx in
  let cy := d_get d ACy in
  bind (check_attr t AFx cx d) (fun d =>
  bind (check_attr t AFy cy d) (fun d =>
  check_attr t AGradientTransform None d))))))).
(** [None]: the pass does not end. *)
Definition resolve_linear_gradient_attributes (t : tree) : option (result tree) :=
  match gen_order ELinearGradient t with Some ks => Some (vloop resolve_linear_node ks t) | None => None end.
Definition resolve_radial_gradient_attributes (t : tree) : option (result tree) :=
  match gen_order ERadialGradient t with Some ks => Some (vloop resolve_radial_node ks t) | None => None end.
