(** Specification of the style attribute (SVG 1.1, 6.4; CSS 2.1, 4.1.8), on strings and nodes only. *)
From Coq Require Import List Bool NArith Arith ZArith String Ascii.
From Verif Require Import Names Num Value Dom.
Import ListNotations.
Local Open Scope nat_scope.

(** The names of the presentation attributes. *)
Definition style_name (a : aid) : string :=
  match a with
  | AAlignmentBaseline => "alignment-baseline"
  | ABaselineShift => "baseline-shift"
  | AClip => "clip"
  | AClipPath => "clip-path"
  | AClipRule => "clip-rule"
  | AColor => "color"
  | AColorInterpolation => "color-interpolation"
  | AColorInterpolationFilters => "color-interpolation-filters"
  | AColorProfile => "color-profile"
  | AColorRendering => "color-rendering"
  | ACursor => "cursor"
  | ADirection => "direction"
  | ADisplay => "display"
  | ADominantBaseline => "dominant-baseline"
  | AEnableBackground => "enable-background"
  | AFill => "fill"
  | AFillOpacity => "fill-opacity"
  | AFillRule => "fill-rule"
  | AFilter => "filter"
  | AFloodColor => "flood-color"
  | AFloodOpacity => "flood-opacity"
  | AFont => "font"
  | AFontFamily => "font-family"
  | AFontSize => "font-size"
  | AFontSizeAdjust => "font-size-adjust"
  | AFontStretch => "font-stretch"
  | AFontStyle => "font-style"
  | AFontVariant => "font-variant"
  | AFontWeight => "font-weight"
  | AGlyphOrientationHorizontal => "glyph-orientation-horizontal"
  | AGlyphOrientationVertical => "glyph-orientation-vertical"
  | AImageRendering => "image-rendering"
  | AKerning => "kerning"
  | ALetterSpacing => "letter-spacing"
  | ALightingColor => "lighting-color"
  | AMarker => "marker"
  | AMarkerEnd => "marker-end"
  | AMarkerMid => "marker-mid"
  | AMarkerStart => "marker-start"
  | AMask => "mask"
  | AOpacity => "opacity"
  | AOverflow => "overflow"
  | APointerEvents => "pointer-events"
  | AShapeRendering => "shape-rendering"
  | AStopColor => "stop-color"
  | AStopOpacity => "stop-opacity"
  | AStroke => "stroke"
  | AStrokeDasharray => "stroke-dasharray"
  | AStrokeDashoffset => "stroke-dashoffset"
  | AStrokeLinecap => "stroke-linecap"
  | AStrokeLinejoin => "stroke-linejoin"
  | AStrokeMiterlimit => "stroke-miterlimit"
  | AStrokeOpacity => "stroke-opacity"
  | AStrokeWidth => "stroke-width"
  | ATextAnchor => "text-anchor"
  | ATextDecoration => "text-decoration"
  | ATextRendering => "text-rendering"
  | AUnicodeBidi => "unicode-bidi"
  | AVisibility => "visibility"
  | AWordSpacing => "word-spacing"
  | AWritingMode => "writing-mode"
  | _ => ""
  end%string.
Fixpoint has_char (c : ascii) (s : string) : bool :=
  match s with EmptyString => false | String x s => Ascii.eqb x c || has_char c s end.
(** The pieces of a string between the separators [c]. *)
Fixpoint split (c : ascii) (s : string) : list string :=
  match s with
  | EmptyString => [EmptyString]
  | String x s => if Ascii.eqb x c then EmptyString :: split c s
                  else match split c s with p :: l => String x p :: l | [] => [String x EmptyString] end
  end.
(** The text before and after the first [c]. *)
Fixpoint cut (c : ascii) (s : string) : option (string * string) :=
  match s with
  | EmptyString => None
  | String x s => if Ascii.eqb x c then Some (EmptyString, s)
                  else match cut c s with Some (p, q) => Some (String x p, q) | None => None end
  end.
(** The declarations of a style attribute: [name:value] pairs separated by [;] ([None]: a syntax error). *)
Fixpoint all_some {A} (l : list (option A)) : option (list A) :=
  match l with [] => Some [] | Some x :: l => option_map (cons x) (all_some l) | None :: _ => None end.
Definition declarations (s : string) : option (list (string * string)) :=
  match s with EmptyString => Some [] | _ => all_some (map (cut ":") (split ";" s)) end.

(** The visible presentation attributes of a node. *)
Definition shown (x : attr) : bool := match a_name x with AN a => is_presentation a && a_vis x | ANx _ => false end.
Definition declared (wr : value -> string) (x : attr) : string * string :=
  (match a_name x with AN a => style_name a | ANx s => s end, wr (a_val x)).
(** No written value contains the separator. *)
Definition no_semicolon (wr : value -> string) (d : ndata) : Prop :=
  forall x, In x (attrs d) -> shown x = true -> has_char ";" (wr (a_val x)) = false.
(** [d'] is [d] with its visible presentation attributes moved into the style attribute. *)
Definition joined (wr : value -> string) (d d' : ndata) : Prop :=
  key d' = key d /\ tag d' = tag d /\ nid d' = nid d /\
  (forall x, In x (attrs d') -> shown x = false) /\
  (exists s, In (At (AN AStyle) (VStr s) true) (attrs d') /\
     (no_semicolon wr d -> declarations s = Some (map (declared wr) (filter shown (attrs d))))) /\
  (forall x, a_name x <> AN AStyle -> shown x = false -> (In x (attrs d') <-> In x (attrs d))).
