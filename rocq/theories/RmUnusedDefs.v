(** Model of src/task/rm_unused_defs.rs. *)
From Coq Require Import List Bool NArith Arith ZArith String Lia.
From Verif Require Import Names Num Value Dom DomFacts DomOps Outcome Move.
Import ListNotations.
Local Open Scope nat_scope.

(** src/task/rm_unused_defs.rs:67-69 [is_font_node] *)
Definition is_font_node (d : ndata) : bool := is_tag EFontFace d || is_tag EFont d.
(** src/task/rm_unused_defs.rs:41 *)
Definition unused (t : tree) (c : tree) : bool := negb (is_used (root_key c) t) && negb (is_font_node (data c)).
(** src/task/rm_unused_defs.rs:71-82 [ungroup_children]: the children to move, and what is left of the node.
    Simplification: the nodes of [rm_nodes] have no children and nothing refers to them, so [remove] only
    drops them from the children of the main defs. *)
Definition moved (t : tree) (c : tree) : list tree := if unused t c then kids c else [].
Definition left_over (t : tree) (c : tree) : list tree :=
  if unused t c then match kids c with [] => [] | _ => [T (data c) []] end else [c].
(** src/task/rm_unused_defs.rs:34-65 [remove_unused_defs_impl]: the new children of defs (lines 57-63: the moved
    nodes are appended, then the empty ones removed), [None] if nothing changes (lines 48-53) *)
Definition defs_round (t : tree) (ch : list tree) : option (list tree) :=
  if existsb (unused t) ch then Some (flat_map (left_over t) ch ++ flat_map (moved t) ch) else None.
(** src/task/rm_unused_defs.rs:31 the [while] loop; [None]: not finished after [fuel] rounds *)
Fixpoint defs_loop (fuel : nat) (k : nat) (t : tree) : option tree :=
  match defs_round t (kids_of k t) with
  | None => Some t
  | Some ch => match fuel with 0 => None | S n => defs_loop n k (set_kids k (fun _ => ch) t) end
  end.
(** Enough rounds, see the proofs. *)
Fixpoint weight (t : tree) : nat := match t with T _ ch => 1 + list_sum (map (fun c => 1 + weight c) ch) end.
(** src/task/rm_unused_defs.rs:28: the first defs in document order *)
Definition first_defs (t : tree) : option ndata := find (is_tag EDefs) (flat t).
(** src/task/rm_unused_defs.rs:26-32 [remove_unused_defs] *)
Definition remove_unused_defs (t : tree) : option (result tree) :=
  match first_defs t with
  | None => Some Panic
  | Some d => option_map Ok (defs_loop (list_sum (map weight (kids_of (key d) t))) (key d) t)
  end.
