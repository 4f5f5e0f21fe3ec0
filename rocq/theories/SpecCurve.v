(** Points of lines and cubic Bezier curves in the real plane (SVG 1.1, 8.3). Uses Coq's real
    numbers, hence the axioms of that library. *)
From Coq Require Import QArith Qcanon Qreals Reals.
From Verif Require Import Num SpecPath.
Local Open Scope R_scope.
Definition real (q : Qc) : R := Q2R (this q).
Definition on_segment (a b : point) (X Y : R) : Prop :=
  exists t, 0 <= t <= 1 /\ X = (1 - t) * real (fst a) + t * real (fst b) /\ Y = (1 - t) * real (snd a) + t * real (snd b).
Definition bezier (t p0 p1 p2 p3 : R) : R :=
  (1 - t) ^ 3 * p0 + 3 * (1 - t) ^ 2 * t * p1 + 3 * (1 - t) * t ^ 2 * p2 + t ^ 3 * p3.
Definition on_cubic (a c1 c2 b : point) (X Y : R) : Prop :=
  exists t, 0 <= t <= 1 /\
    X = bezier t (real (fst a)) (real (fst c1)) (real (fst c2)) (real (fst b)) /\
    Y = bezier t (real (snd a)) (real (snd c1)) (real (snd c2)) (real (snd b)).
(** The points a piece covers; [other] says it for quadratic curves and arcs, about which nothing is
    assumed. *)
Definition covers (other : piece -> R -> R -> Prop) (p : piece) (X Y : R) : Prop :=
  match p with
  | PLine a b => on_segment a b X Y
  | PCubic a c1 c2 b => on_cubic a c1 c2 b X Y
  | _ => other p X Y
  end.
(** All points covered by a list of subpaths. *)
Definition covered (other : piece -> R -> R -> Prop) (o : list (list piece)) (X Y : R) : Prop :=
  exists s p, List.In s o /\ List.In p s /\ covers other p X Y.
(** Every straight cubic curve of the outline has its control points between its ends. *)
Definition tame (o : list (list piece)) : Prop :=
  forall s a c1 c2 b, List.In s o -> List.In (PCubic a c1 c2 b) s -> on_line a b c1 -> on_line a b c2 ->
    between a b c1 /\ between a b c2.
