(** Model of src/task/resolve_use.rs. *)
From Coq Require Import List Bool NArith Arith ZArith String Lia QArith Qcanon.
From Verif Require Import Names Num Value Dom Outcome Move Regroup.
From Verif Require Export Links.
Import ListNotations.
Local Open Scope nat_scope.

(** src/task/resolve_use.rs:36-59: the element that the use element [d] can be replaced with.
    [link.parent().unwrap()] (line 40) does not panic: the target of a link has an id, so it is not the root node. *)
Definition use_target (t : tree) (d : ndata) : option nat :=
  if is_tag EUse d && negb (is_used (key d) t) then
    match d_get d AXlinkHref with
    | Some (VLink k) =>
        match ancestors k [] t, find_data k t with
        | Some (p :: _), Some l =>
            if is_tag EDefs p && negb (is_tag ESymbol l) && negb (is_tag EUse l) && Nat.eqb (uses_count k t) 1 then Some k else None
        | _, _ => None
        end
    | _ => None
    end
  else None.
(** src/task/resolve_use.rs:30-62 *)
Definition use_pairs (t : tree) : list (nat * nat) :=
  flat_map (fun d => match use_target t d with Some k => [(key d, k)] | None => [] end) (flat t).

(** svgdom's [Transform::append]: first [n], then [m]; [translate] appends a translation. *)
Definition t_append (m n : transform) : transform :=
  Tr (ta n * ta m + tb n * tc m)%Qc (ta n * tb m + tb n * td m)%Qc (tc n * ta m + td n * tc m)%Qc (tc n * tb m + td n * td m)%Qc
     (te n * ta m + tf n * tc m + te m)%Qc (te n * tb m + tf n * td m + tf m)%Qc.
(** get_value! (src/task/macros.rs:64-72) *)
Definition get_len (d : ndata) (a : aid) : len := match d_get d a with Some (VLen l) => l | _ => Len q0 UNone end.
Definition get_ts (d : ndata) : transform := match d_get d ATransform with Some (VTransform m) => m | _ => t_id end.
(** src/task/resolve_use.rs:72-91: x and y become a part of the transform; [None]: the unit is not supported (line 82) *)
Definition shift_use (d : ndata) : option ndata :=
  if d_has d AX || d_has d AY then
    let x := get_len d AX in let y := get_len d AY in
    if unit_eqb (unit x) UNone && unit_eqb (unit y) UNone then
      Some (d_rm (d_rm (d_set d ATransform (VTransform (t_append (get_ts d) (Tr q1 q0 q0 q1 (num x) (num y))))) AX) AY)
    else None
  else Some d.
(** svgdom's [set_attribute] with a whole attribute. *)
Definition put_attr (l : list attr) (x : attr) : list attr :=
  if existsb (has_name (a_name x)) l then map (fun y => if has_name (a_name x) y then x else y) l else l ++ [x].
(** svgdom's [insert_after]: [s] becomes the next sibling of the node [u]. *)
Fixpoint insert_after (u : nat) (s : tree) (t : tree) : tree :=
  match t with T d ch => T d (flat_map (fun c => if Nat.eqb (root_key c) u then [c; s] else [insert_after u s c]) ch) end.
(** src/task/resolve_use.rs:64-103, one pair. The changed attributes of the use element itself are not kept: it is removed. *)
Definition resolve_one (t : tree) (p : nat * nat) : result tree :=
  let (u, k) := p in
  let t1 := upd u (fun d => d_rm d AXlinkHref) t in
  match find_data u t1, find_sub k t1 with
  | Some du, Some l =>
      match shift_use du with
      | None => Ok t1
      | Some du' =>
          if forallb (put_ok t1 (data l)) (attrs du') then
            let l' := T (with_attrs (data l) (fold_left put_attr (attrs du') (attrs (data l)))) (kids l) in
            Ok (remove u (insert_after u l' (detach k t1)))
          else Panic
      end
  | _, _ => Ok t1
  end.
(** src/task/resolve_use.rs:27-104 [resolve_use] *)
Definition resolve_use (t : tree) : result tree :=
  fold_left (fun r p => match r with Ok t' => resolve_one t' p | _ => r end) (use_pairs t) (Ok t).
