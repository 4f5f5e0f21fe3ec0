(** The geometry of gradients: where the vector and the circles of each gradient are in the saved document. On documents only. *)
From Coq Require Import List Bool NArith Arith ZArith String QArith Qcanon.
From Verif Require Import Names Num Value Dom SpecGradients SpecWritten.
Import ListNotations.
Local Open Scope nat_scope.

(** Each gradient is still there, and all its values in effect (SVG 1.1, 13.2.2 and 13.2.3) are the same: units, spread method,
    coordinates, radius and transform, its own ones, those that it takes over xlink:href and the defaults. *)
Definition same_geometry (t t' : tree) : Prop := forall d, In d (flat t) -> gradient_node d ->
  exists d', In d' (flat t') /\ key d' = key d /\ tag d' = tag d /\ same_values (written t) (vis d) (written t') (vis d').
(** The same, where the transform of a gradient may have been applied to its coordinates. *)
Definition same_vectors (t t' : tree) : Prop := forall d, In d (flat t) -> gradient_node d ->
  exists d', In d' (flat t') /\ key d' = key d /\ tag d' = tag d /\ same_gradient (written t) (vis d) (written t') (vis d').
(** Gradients as they are read: they refer to gradients, a radial gradient is referred to by radial ones only, nothing is hidden,
    lengths are lengths, and a radial gradient that takes its radius from elsewhere is not scaled. *)
Record plain_gradients (t : tree) : Prop := {
  pg_hrefs : gradient_hrefs t;
  pg_kinds : forall x y, In x (flat t) -> In y (flat t) -> d_get x AXlinkHref = Some (VLink (key y)) -> tag y = TEl ERadialGradient -> tag x = TEl ERadialGradient;
  pg_visible : forall d y, In d (flat t) -> gradient_node d -> In y (attrs d) -> a_vis y = true;
  pg_lengths : forall d a v, In d (flat t) -> gradient_node d -> In a [AX1; AY1; AX2; AY2; ACx; ACy; AR; AFx; AFy] -> d_get d a = Some v -> exists l, v = VLen l;
  pg_radii : forall d, In d (flat t) -> tag d = TEl ERadialGradient ->
    d_has d AR = true \/ forall v, effective t d AGradientTransform v -> v = None \/ exists e f, v = Some (VTransform (Tr q1 q0 q0 q1 e f))
}.
