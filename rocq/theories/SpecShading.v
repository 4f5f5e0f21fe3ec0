(** What a gradient looks like by its own: its attributes, those it is related to by xlink:href, and its stops in their order.
    On documents only. *)
From Coq Require Import List Bool NArith Arith ZArith String QArith Qcanon.
From Verif Require Import Names Num Value Dom SpecStops.
Import ListNotations.
Local Open Scope nat_scope.

(** The attributes on which the look of a gradient, and of a stop, depends. *)
Definition shade_attrs : list aid :=
  [AGradientUnits; ASpreadMethod; AX1; AY1; AX2; AY2; ACx; ACy; AR; AFx; AFy; AGradientTransform; AXlinkHref; AOffset; AStopColor; AStopOpacity].
(** The same element with the same such attributes: the same values, and each visible (that is: saved) or not as before. *)
Definition alike_shade (d d' : ndata) : Prop :=
  key d' = key d /\ tag d' = tag d /\ forall a, In a shade_attrs -> get_attr (attrs d') a = get_attr (attrs d) a.
Definition stops_only (s : tree) : Prop := forall c, In c (kids s) -> tag (data c) = TEl EStop.
(** Each gradient is still there, with the same attributes and the same stops. *)
Definition shades_kept (t t' : tree) : Prop := forall s, In s (subs t) -> gradient s -> stops_only s ->
  exists s', In s' (subs t') /\ alike_shade (data s) (data s') /\ Forall2 alike_shade (map data (kids s)) (map data (kids s')).
