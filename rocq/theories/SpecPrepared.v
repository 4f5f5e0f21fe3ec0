(** Documents that need no preparation: what is drawn is left as it is until the work begins. On documents only. *)
From Coq Require Import List Bool NArith Arith ZArith String QArith Qcanon.
From Verif Require Import Names Num Value Dom SpecDom SpecStyle SpecText SpecRound SpecPaint SpecUse SpecUngroup SpecGroupStyle SpecStops SpecGradients SpecPicture.
Import ListNotations.
Local Open Scope nat_scope.

(** Gradients and their stops. *)
Definition gradient_el (d : ndata) : Prop := tag d = TEl ELinearGradient \/ tag d = TEl ERadialGradient.
Definition server (d : ndata) : Prop := gradient_el d \/ tag d = TEl EStop.
(** A gradient has stops only, and is not inside of a shape or of a text; nothing refers to a stop. *)
Record servers_apart (t : tree) : Prop := {
  sa_stops : forall s c, In s (subs t) -> gradient_el (data s) -> In c (kids s) -> tag (data c) = TEl EStop;
  sa_shape : forall a s p, In (a, s) (places [] t) -> server (data s) -> In p a -> ~ shape_el p;
  sa_links : forall s k, In s (subs t) -> tag (data s) = TEl EStop -> In k (keys s) -> ~ referenced t k
}.
(** A number with at most [p] digits after the point. *)
Definition short (p : nat) (n : Qc) : Prop := exists z : Z, (this n == inject_Z z / inject_Z (10 ^ Z.of_nat p))%Q.
Definition not_negative (v : option value) : Prop := forall l, v = Some (VLen l) -> (0 <= num l)%Qc.

(** [precs]: the digits that are kept in coordinates, properties, paths and transforms. *)
Record prepared (precs : list nat) (t : tree) : Prop := {
  pd_groups : gready t;
  pd_styles : sready t;
  pd_remarks : remarks_apart t;
  pd_defs : defs_apart t;
  pd_servers : servers_apart t;
  (* nothing is inherit or currentColor *)
  pd_words : forall d x, In d (flat t) -> In x (attrs d) -> a_val x <> VPre Vid_inherit /\ a_val x <> VPre Vid_currentColor;
  (* rectangles have a size, and no length of theirs is negative *)
  pd_rect : forall d, In d (flat t) -> tag d = TEl ERect ->
    d_get d AWidth <> None /\ d_get d AHeight <> None /\ forall a, In a [AWidth; AHeight; ARx; ARy] -> not_negative (d_get d a);
  (* polylines and polygons have a point, and pairs of coordinates only *)
  pd_poly : forall d l, In d (flat t) -> tag d = TEl EPolyline \/ tag d = TEl EPolygon -> d_get d APoints = Some (VNumList l) ->
    l <> [] /\ Nat.even (List.length l) = true;
  pd_marker : forall d, In d (flat t) -> d_get d AMarker = None;
  (* there is one defs element, the first child of the svg element, and what is meant for references is in it *)
  pd_main : exists svg m l, svg_element t = Some svg /\ kids svg = m :: l /\ tag (data m) = TEl EDefs /\
    (forall d, In d (flat t) -> tag d = TEl EDefs -> d = data m) /\
    forall a s e, In (a, s) (places [] t) -> tag (data s) = TEl e ->
      In e [EAltGlyphDef; EClipPath; ECursor; EFilter; ELinearGradient; EMarker; EMask; EPattern; ERadialGradient; ESymbol] ->
      exists b, a = data m :: b;
  (* the numbers are short *)
  pd_short : forall d x n p, In d (flat t) -> In x (attrs d) -> In n (nums (a_val x)) -> In p precs -> short p n
}.

(** The preparation of gradients has an answer: the gradients do not refer to each other in a circle, and the place of every stop
    is a number or a percentage; only the first one may be left out; and what is given as the transform of a gradient is a transform. *)
Record solvable (t : tree) : Prop := {
  sv_linear : acyclic_kind ELinearGradient t;
  sv_radial : acyclic_kind ERadialGradient t;
  sv_chains : forall d, In d (flat t) -> gradient_el d -> chain_ends t d;
  sv_first : forall s i c, In s (subs t) -> gradient_el (data s) -> nth_error (kids s) (S i) = Some c -> exists l, d_get (data c) AOffset = Some (VLen l);
  sv_units : forall s c l, In s (subs t) -> gradient_el (data s) -> In c (kids s) -> d_get (data c) AOffset = Some (VLen l) -> unit l = UNone \/ unit l = UPercent;
  sv_transforms : forall d y, In d (flat t) -> In y (attrs d) -> a_name y = AN AGradientTransform -> exists m, a_val y = VTransform m
}.
