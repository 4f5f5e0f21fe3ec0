(** The document that is saved: only visible attributes are written. *)
From Coq Require Import List Bool NArith Arith ZArith String QArith Qcanon.
From Verif Require Import Names Num Value Dom SpecDom SpecStops SpecGradients SpecTransforms.
Import ListNotations.
Local Open Scope nat_scope.

Definition vis (d : ndata) : ndata := with_attrs d (filter a_vis (attrs d)).
Definition written (t : tree) : tree := tmap vis t.

Definition gradient_node (d : ndata) : Prop := tag d = TEl ELinearGradient \/ tag d = TEl ERadialGradient.
Definition gradient_attrs (d : ndata) : list aid :=
  match tag d with TEl ELinearGradient => linear_attrs | TEl ERadialGradient => radial_attrs | _ => [] end.
(** Every gradient carries (visibly or not) the values that are in effect in the saved document. *)
Definition resolved (t : tree) : Prop :=
  forall d a, In d (flat t) -> gradient_node d -> In a (gradient_attrs d) -> effective (written t) (vis d) a (d_get d a).
(** Every gradient has all its coordinates, and the attributes have the types that the parser gives. *)
Definition complete_gradients (t : tree) : Prop :=
  forall d, In d (flat t) -> gradient_node d ->
    (forall ax ay, In (ax, ay) (positions d) -> (exists l, d_get d ax = Some (VLen l)) /\ (exists l, d_get d ay = Some (VLen l))) /\
    (forall a, In a (sizes d) -> exists l, d_get d a = Some (VLen l)) /\
    (forall v, d_get d AGradientTransform = Some v -> exists ts, v = VTransform ts) /\
    (forall x, In x (attrs d) -> a_name x = AN AXlinkHref -> a_vis x = true).
(** The xlink:href of a gradient, if any, is a link to a gradient. *)
Definition gradient_hrefs (t : tree) : Prop :=
  forall d v, In d (flat t) -> gradient_node d -> d_get d AXlinkHref = Some v ->
    exists k x, v = VLink k /\ In x (flat t) /\ key x = k /\ gradient_node x.

(** The gradient [d'] of [t'] paints the same as [d] of [t]: all values in effect are the same, or the
    transform of the first one has been applied to its vector. *)
Definition moved_gradient (t : tree) (d : ndata) (t' : tree) (d' : ndata) : Prop :=
  exists k e f, (q0 < k)%Qc /\
    effective t d AGradientTransform (Some (VTransform (Tr k q0 q0 k e f))) /\ effective t' d' AGradientTransform None /\
    (forall ax ay, In (ax, ay) (positions d) -> exists x y,
       effective t d ax (Some (VLen (Len x UNone))) /\ effective t d ay (Some (VLen (Len y UNone))) /\
       effective t' d' ax (Some (VLen (Len (k * x + e)%Qc UNone))) /\ effective t' d' ay (Some (VLen (Len (k * y + f)%Qc UNone)))) /\
    (forall a, In a (sizes d) -> exists r, effective t d a (Some (VLen (Len r UNone))) /\ effective t' d' a (Some (VLen (Len (k * r)%Qc UNone)))) /\
    (forall a v, In a [AGradientUnits; ASpreadMethod] -> effective t d a v -> effective t' d' a v).
Definition same_values (t : tree) (d : ndata) (t' : tree) (d' : ndata) : Prop :=
  forall a v, In a (gradient_attrs d) -> effective t d a v -> effective t' d' a v.
Definition same_gradient (t : tree) (d : ndata) (t' : tree) (d' : ndata) : Prop :=
  same_values t d t' d' \/ moved_gradient t d t' d'.
