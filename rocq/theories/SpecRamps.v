(** The colours of gradients (SVG 1.1, 13.2.4): the offsets of the stops are brought into [0,1], each is at least as large as
    the ones before it, and a gradient without stops has those of the gradient it refers to. On documents only. *)
From Coq Require Import List Bool NArith Arith ZArith String QArith Qcanon.
From Verif Require Import Names Num Value Dom SpecStops.
Import ListNotations.
Local Open Scope nat_scope.

Definition larger (x y : Qc) : Qc := if qltb x y then y else x.
Definition between01 (x : Qc) : Qc := if qltb x q0 then q0 else if qltb q1 x then q1 else x.
(** [p]: the largest offset so far. *)
Fixpoint settle (p : Qc) (l : list stop) : list stop :=
  match l with [] => [] | s :: l' => let o := larger (between01 (so s)) p in Stop o (sc s) :: settle o l' end.
Definition shown_stops (s : tree) : list stop := settle q0 (own_stops s).
(** The stops with which the gradient [s] of [t] is painted. *)
Inductive painted_stops (t : tree) : tree -> list stop -> Prop :=
| ps_own s : own_stops s <> [] -> painted_stops t s (shown_stops s)
| ps_none s : own_stops s = [] -> d_get (data s) AXlinkHref = None -> painted_stops t s []
| ps_href s k x l : own_stops s = [] -> d_get (data s) AXlinkHref = Some (VLink k) -> In x (subs t) -> root_key x = k -> gradient x ->
    painted_stops t x l -> painted_stops t s l.
(** Each gradient is still there and is painted with the same colours. *)
Definition same_ramps (t t' : tree) : Prop := forall s l, In s (subs t) -> gradient s -> painted_stops t s l ->
  exists s' l', In s' (subs t') /\ root_key s' = root_key s /\ tag (data s') = tag (data s) /\ painted_stops t' s' l' /\ forall x, ramp l' x = ramp l x.
