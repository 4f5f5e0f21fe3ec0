(** Specification of stop resolution, attribute validity and colour ramps (SVG 1.1, 13.2.4), on
    documents only. *)
From Coq Require Import List Bool NArith Arith ZArith String QArith Qcanon.
From Verif Require Import Names Num Value Dom.
Import ListNotations.
Local Open Scope nat_scope.

Definition gradient (s : tree) : Prop := tag (data s) = TEl ELinearGradient \/ tag (data s) = TEl ERadialGradient.

(** The offset of a node, when it is a plain number. *)
Definition offset_number (d : ndata) (n : Qc) : Prop := d_get d AOffset = Some (VLen (Len n UNone)).
Definition has_length_offset (d : ndata) : Prop := exists l, d_get d AOffset = Some (VLen l).

(** What the stop resolution must produce for a child [d] of a gradient. *)
Definition resolved_offset (first : bool) (d d' : ndata) : Prop :=
  (exists n, d_get d AOffset = Some (VLen (Len n UPercent)) /\ offset_number d' (n / zq 100)%Qc) \/
  (exists n u, u <> UPercent /\ d_get d AOffset = Some (VLen (Len n u)) /\ get_attr (attrs d') AOffset = get_attr (attrs d) AOffset) \/
  (first = true /\ ~ has_length_offset d /\ offset_number d' q0).
(** A missing attribute is filled in with [v], hidden; an existing one is kept. *)
Definition filled (a : aid) (v : value) (d d' : ndata) : Prop :=
  match get_attr (attrs d) a with
  | Some x => get_attr (attrs d') a = Some x
  | None => get_attr (attrs d') a = Some (At (AN a) v false)
  end.
Definition same_node (d d' : ndata) : Prop := key d' = key d /\ tag d' = tag d /\ nid d' = nid d.
(** The attributes outside [l] are the same. *)
Definition same_except (l : list aid) (d d' : ndata) : Prop :=
  forall x, ~ In (a_name x) (map AN l) -> In x (attrs d') <-> In x (attrs d).
Definition resolved_stop (first : bool) (d d' : ndata) : Prop :=
  same_node d d' /\ same_except [AOffset; AStopColor; AStopOpacity] d d' /\ resolved_offset first d d' /\
  filled AStopColor (VColor 0 0 0) d d' /\ filled AStopOpacity (VNum q1) d d'.
(** First child and others. *)
Inductive resolved_stops : list ndata -> list ndata -> Prop :=
| rs_nil : resolved_stops [] []
| rs_cons d d' l l' : resolved_stop true d d' -> Forall2 (resolved_stop false) l l' -> resolved_stops (d :: l) (d' :: l').

(** Validity of attributes. *)
Definition not_negative (v : option value) : Prop := forall l, v = Some (VLen l) -> (q0 <= num l)%Qc.
Inductive ascending : Qc -> list Qc -> Prop :=
| asc_nil x : ascending x []
| asc_cons x y l : (x <= y)%Qc -> ascending y l -> ascending x (y :: l).
Definition valid_stops (s : tree) : Prop :=
  exists os, Forall2 offset_number (map data (kids s)) os /\ ascending q0 os /\ Forall (fun o => (o <= q1)%Qc) os.
Definition valid_rect (d : ndata) : Prop :=
  d_has d AWidth = true /\ d_has d AHeight = true /\
  forall a, In a [AWidth; AHeight; ARx; ARy] -> not_negative (d_get d a).
Definition valid_poly (d : ndata) : Prop :=
  forall l, d_get d APoints = Some (VNumList l) -> l <> [] /\ Nat.even (List.length l) = true.
Record valid_doc (t : tree) : Prop := {
  vd_rect : forall s, In s (subs t) -> tag (data s) = TEl ERect -> valid_rect (data s);
  vd_poly : forall s, In s (subs t) -> tag (data s) = TEl EPolyline \/ tag (data s) = TEl EPolygon -> valid_poly (data s);
  vd_stops : forall s, In s (subs t) -> gradient s -> valid_stops s;
  vd_marker : forall s, In s (subs t) -> d_has (data s) AMarker = false
}.
(** Clamping to [0,1] and the highest clamped offset so far. *)
Definition clamped (n c : Qc) : Prop :=
  ((n < q0)%Qc /\ c = q0) \/ ((q0 <= n)%Qc /\ (n <= q1)%Qc /\ c = n) \/ ((q1 < n)%Qc /\ c = q1).
(** [o'] at each place is the largest of [cs] up to this place. *)
Definition running_max (cs os : list Qc) : Prop :=
  List.length os = List.length cs /\
  forall i o, nth_error os i = Some o ->
    (exists j, j <= i /\ nth_error cs j = Some o) /\
    (forall j c, j <= i -> nth_error cs j = Some c -> (c <= o)%Qc).

(** Colour ramps. A colour has red, green, blue and opacity components. *)
Record rgba : Type := RGBA { cr : Qc; cg : Qc; cb : Qc; ca : Qc }.
Record stop : Type := Stop { so : Qc; sc : rgba }.
Definition lerp (x a b : Qc) (p q : Qc) : Qc := (p + (q - p) * ((x - a) / (b - a)))%Qc.
Definition mix (x : Qc) (s1 s2 : stop) : rgba :=
  RGBA (lerp x (so s1) (so s2) (cr (sc s1)) (cr (sc s2))) (lerp x (so s1) (so s2) (cg (sc s1)) (cg (sc s2)))
       (lerp x (so s1) (so s2) (cb (sc s1)) (cb (sc s2))) (lerp x (so s1) (so s2) (ca (sc s1)) (ca (sc s2))).
(** The colour at [x], when [s] is the last stop at or before [x] so far. *)
Fixpoint ramp_from (s : stop) (l : list stop) (x : Qc) : rgba :=
  match l with
  | [] => sc s
  | n :: l' => if qltb x (so n) then mix x s n else ramp_from n l' x
  end.
(** The colour at [x]: that of the first stop before all stops; [None] if there are no stops. *)
Definition ramp (l : list stop) (x : Qc) : option rgba :=
  match l with
  | [] => None
  | s :: l' => Some (if qltb x (so s) then sc s else ramp_from s l' x)
  end.
Definition stop_of (d : ndata) : stop :=
  Stop (match d_get d AOffset with
        | Some (VLen (Len n UPercent)) => (n / zq 100)%Qc
        | Some (VLen (Len n _)) => n
        | _ => q0
        end)
       (match d_get d AStopColor with
        | Some (VColor r g b) => RGBA (zq (Z.of_N r)) (zq (Z.of_N g)) (zq (Z.of_N b)) 
        | _ => RGBA q0 q0 q0
        end (match d_get d AStopOpacity with Some (VNum n) => n | _ => q1 end)).
Definition is_stop (s : tree) : bool := is_tag EStop (data s).
(** The stops of a gradient element. *)
Definition own_stops (s : tree) : list stop := map stop_of (filter (is_tag EStop) (map data (kids s))).
(** Gradients contain stops only, and stops are empty. *)
Definition only_stops (t : tree) : Prop :=
  forall s c, In s (subs t) -> gradient s -> In c (kids s) -> tag (data c) = TEl EStop /\ kids c = [].
