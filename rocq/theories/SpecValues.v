(** Specification for C53: where the attributes of a cleaned document come from. *)
From Coq Require Import List Bool String.
From Verif Require Import Names Num Value Dom SpecDom Cli.
Import ListNotations.

(** Attributes that cleaning may add to elements that did not have them anywhere in the document: the attributes of
    gradients and stops that are made explicit, the geometry of rects and paths, and what moving a transform, an opacity
    or a stroke from one element to another needs. *)
Definition made_names : list aid :=
  [AGradientUnits; ASpreadMethod; AX1; AY1; AX2; AY2; ACx; ACy; AR; AFx; AFy; AXlinkHref;
   AOffset; AStopColor; AStopOpacity;
   AX; AY; AWidth; AHeight; AD;
   ATransform; AFill; AStroke; AOpacity; AFillOpacity; AStrokeOpacity; AStrokeWidth; AStrokeDasharray; AStrokeDashoffset].
Definition made (a : aid) : bool := existsb (aid_eqb a) made_names.
(** Keywords that cleaning may write. *)
Definition made_words : list vid := [Vid_none; Vid_pad; Vid_objectBoundingBox; Vid_userSpaceOnUse].
(** Values that are calculated: everything but texts, other keywords and references. *)
Definition computed (v : value) : bool :=
  match v with VStr _ | VLink _ | VFunc _ => false | VPre w => existsb (vid_eqb w) made_words | _ => true end.
(** An attribute with this name, and with this name and this value, occurs in the document. *)
Definition has_name_in (t : tree) (n : aname) : Prop := exists d x, In d (flat t) /\ In x (attrs d) /\ a_name x = n.
Definition occurs_in (t : tree) (n : aname) (v : value) : Prop :=
  exists d x, In d (flat t) /\ In x (attrs d) /\ a_name x = n /\ a_val x = v.
(** Where a text, a keyword or a reference may be copied from: from an attribute of the same name; from a color, if something in the
    document is currentColor; the focus of a gradient is its center if it is not given. *)
Definition source (t : tree) (n m : aname) : Prop :=
  m = n \/
  ((exists a, n = AN a) /\ m = AN AColor /\ exists n', occurs_in t n' (VPre Vid_currentColor)) \/
  (n = AN AFx /\ m = AN ACx) \/ (n = AN AFy /\ m = AN ACy).
(** A reference to an element. *)
Definition reference (v : value) : Prop := exists k, v = VLink k \/ v = VFunc k.
(** A reference may be new if duplicates are merged, and it takes the place of a reference; or if stops are regrouped, for
    the templates of gradients. *)
Definition redirected (o : cleaning_options) (t : tree) (n : aname) (v : value) : Prop :=
  reference v /\ (exists a, n = AN a) /\
  ((o_remove_dupl_linear_gradients o || o_remove_dupl_radial_gradients o || o_remove_dupl_fe_gaussian_blur o = true /\
    exists m w, source t n m /\ occurs_in t m w /\ reference w) \/
   (o_regroup_gradient_stops o = true /\ n = AN AXlinkHref)).
(** An attribute with the name [n] and the value [v] is accounted for by the document [t]. *)
Definition accounted (o : cleaning_options) (t : tree) (n : aname) (v : value) : Prop :=
  (has_name_in t n \/ exists a, n = AN a /\ In a made_names) /\
  (((exists a, n = AN a) /\ computed v = true) \/ (exists m, source t n m /\ occurs_in t m v) \/ redirected o t n v).
(** The keywords inherit and currentColor are values of known attributes of SVG elements, and the color property is never
    currentColor (svgdom's parser reads everything else as a text; SVG 1.1, 12.2). *)
Definition keyword (v : value) : Prop := v = VPre Vid_inherit \/ v = VPre Vid_currentColor.
Definition keywords_as_parsed (t : tree) : Prop :=
  forall d x, In d (flat t) -> In x (attrs d) -> keyword (a_val x) ->
    (exists e, tag d = TEl e) /\ (exists a, a_name x = AN a) /\ ~ (a_name x = AN AColor /\ a_val x = VPre Vid_currentColor).
