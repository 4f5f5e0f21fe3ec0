(** Names: svgdom's ElementId, AttributeId and ValueId, restricted to the names the code mentions,
    the SVG 1.1 presentation attributes and the event attributes; any other name is [..Other n]. *)
From Coq Require Import List Bool NArith Lia String.
Import ListNotations.

(** svgdom::ElementId (src/task/mod.rs:88) *)
Inductive eid : Type :=
| EA
| EAltGlyphDef
| EAnimate
| EAnimateColor
| EAnimateMotion
| EAnimateTransform
| ECircle
| EClipPath
| ECursor
| EDefs
| EDesc
| EEllipse
| EFeColorMatrix
| EFeFlood
| EFeFuncA
| EFeFuncB
| EFeFuncG
| EFeFuncR
| EFeGaussianBlur
| EFeImage
| EFilter
| EFont
| EFontFace
| EFontFaceUri
| EForeignObject
| EG
| EGlyph
| EGlyphRef
| EImage
| ELine
| ELinearGradient
| EMarker
| EMask
| EMetadata
| EMissingGlyph
| EPath
| EPattern
| EPolygon
| EPolyline
| ERadialGradient
| ERect
| EScript
| ESet
| EStop
| EStyle
| ESvg
| ESwitch
| ESymbol
| EText
| ETextPath
| ETitle
| ETref
| ETspan
| EUse
| EView
| EOther (n : N).
Definition eid_code (x : eid) : N :=
  match x with
  | EA => 0
  | EAltGlyphDef => 1
  | EAnimate => 2
  | EAnimateColor => 3
  | EAnimateMotion => 4
  | EAnimateTransform => 5
  | ECircle => 6
  | EClipPath => 7
  | ECursor => 8
  | EDefs => 9
  | EDesc => 10
  | EEllipse => 11
  | EFeColorMatrix => 12
  | EFeFlood => 13
  | EFeFuncA => 14
  | EFeFuncB => 15
  | EFeFuncG => 16
  | EFeFuncR => 17
  | EFeGaussianBlur => 18
  | EFeImage => 19
  | EFilter => 20
  | EFont => 21
  | EFontFace => 22
  | EFontFaceUri => 23
  | EForeignObject => 24
  | EG => 25
  | EGlyph => 26
  | EGlyphRef => 27
  | EImage => 28
  | ELine => 29
  | ELinearGradient => 30
  | EMarker => 31
  | EMask => 32
  | EMetadata => 33
  | EMissingGlyph => 34
  | EPath => 35
  | EPattern => 36
  | EPolygon => 37
  | EPolyline => 38
  | ERadialGradient => 39
  | ERect => 40
  | EScript => 41
  | ESet => 42
  | EStop => 43
  | EStyle => 44
  | ESvg => 45
  | ESwitch => 46
  | ESymbol => 47
  | EText => 48
  | ETextPath => 49
  | ETitle => 50
  | ETref => 51
  | ETspan => 52
  | EUse => 53
  | EView => 54
  | EOther n => 55 + n
  end%N.
Definition eid_list : list eid :=
  [EA; EAltGlyphDef; EAnimate; EAnimateColor; EAnimateMotion; EAnimateTransform; ECircle; EClipPath; ECursor; EDefs; EDesc; EEllipse; EFeColorMatrix; EFeFlood; EFeFuncA; EFeFuncB; EFeFuncG; EFeFuncR; EFeGaussianBlur; EFeImage; EFilter; EFont; EFontFace; EFontFaceUri; EForeignObject; EG; EGlyph; EGlyphRef; EImage; ELine; ELinearGradient; EMarker; EMask; EMetadata; EMissingGlyph; EPath; EPattern; EPolygon; EPolyline; ERadialGradient; ERect; EScript; ESet; EStop; EStyle; ESvg; ESwitch; ESymbol; EText; ETextPath; ETitle; ETref; ETspan; EUse; EView].
Definition eid_decode (n : N) : eid :=
  nth (N.to_nat n) eid_list (EOther (n - 55)%N).
Definition eid_eqb (x y : eid) : bool := N.eqb (eid_code x) (eid_code y).
Lemma eid_decode_code x : eid_decode (eid_code x) = x.
Proof.
  destruct x; try reflexivity. unfold eid_decode, eid_code.
  rewrite nth_overflow; [f_equal; lia|]. unfold eid_list; cbn [List.length]; lia.
Qed.
Lemma eid_eqb_spec x y : reflect (x = y) (eid_eqb x y).
Proof.
  apply iff_reflect. unfold eid_eqb. rewrite N.eqb_eq. split; [now intros ->|].
  intros E. apply (f_equal eid_decode) in E. now rewrite !eid_decode_code in E.
Qed.
Lemma eid_eqb_refl x : eid_eqb x x = true.
Proof. apply N.eqb_refl. Qed.

(** svgdom::AttributeId (src/task/mod.rs:89) *)
Inductive aid : Type :=
| AAlignmentBaseline
| ABaselineShift
| AClip
| AClipPath
| AClipRule
| AColor
| AColorInterpolation
| AColorInterpolationFilters
| AColorProfile
| AColorRendering
| ACursor
| ADirection
| ADisplay
| ADominantBaseline
| AEnableBackground
| AFill
| AFillOpacity
| AFillRule
| AFilter
| AFloodColor
| AFloodOpacity
| AFont
| AFontFamily
| AFontSize
| AFontSizeAdjust
| AFontStretch
| AFontStyle
| AFontVariant
| AFontWeight
| AGlyphOrientationHorizontal
| AGlyphOrientationVertical
| AImageRendering
| AKerning
| ALetterSpacing
| ALightingColor
| AMarker
| AMarkerEnd
| AMarkerMid
| AMarkerStart
| AMask
| AOpacity
| AOverflow
| APointerEvents
| AShapeRendering
| AStopColor
| AStopOpacity
| AStroke
| AStrokeDasharray
| AStrokeDashoffset
| AStrokeLinecap
| AStrokeLinejoin
| AStrokeMiterlimit
| AStrokeOpacity
| AStrokeWidth
| ATextAnchor
| ATextDecoration
| ATextRendering
| AUnicodeBidi
| AVisibility
| AWordSpacing
| AWritingMode
| AOnfocusin
| AOnfocusout
| AOnactivate
| AOnclick
| AOnmousedown
| AOnmouseup
| AOnmouseover
| AOnmousemove
| AOnmouseout
| AOnload
| AOnunload
| AOnabort
| AOnerror
| AOnresize
| AOnscroll
| AOnzoom
| AOnbegin
| AOnend
| AOnrepeat
| ABaseProfile
| AClass
| AClipPathUnits
| ACx
| ACy
| AD
| ADx
| ADy
| AExternalResourcesRequired
| AFilterRes
| AFilterUnits
| AFx
| AFy
| AGradientTransform
| AGradientUnits
| AHeight
| AIn
| ALineHeight
| AMaskContentUnits
| AMaskUnits
| AOffset
| APatternContentUnits
| APatternTransform
| APatternUnits
| APoints
| APreserveAspectRatio
| APrimitiveUnits
| AR
| ARefX
| ARefY
| ARequiredFeatures
| ARequiredExtensions
| AResult
| ARx
| ARy
| ASlope
| ASpreadMethod
| AStdDeviation
| AStyle
| ASystemLanguage
| ATransform
| AType
| AUnitsPerEm
| AValues
| AVersion
| AViewBox
| AWidth
| AX
| AX1
| AX2
| AXlinkActuate
| AXlinkArcrole
| AXlinkHref
| AXlinkRole
| AXlinkShow
| AXlinkTitle
| AXlinkType
| AXmlSpace
| AXmlns
| AXmlnsXlink
| AY
| AY1
| AY2
| AXmlBase
| AXmlLang
| AOther (n : N).
Definition aid_code (x : aid) : N :=
  match x with
  | AAlignmentBaseline => 0
  | ABaselineShift => 1
  | AClip => 2
  | AClipPath => 3
  | AClipRule => 4
  | AColor => 5
  | AColorInterpolation => 6
  | AColorInterpolationFilters => 7
  | AColorProfile => 8
  | AColorRendering => 9
  | ACursor => 10
  | ADirection => 11
  | ADisplay => 12
  | ADominantBaseline => 13
  | AEnableBackground => 14
  | AFill => 15
  | AFillOpacity => 16
  | AFillRule => 17
  | AFilter => 18
  | AFloodColor => 19
  | AFloodOpacity => 20
  | AFont => 21
  | AFontFamily => 22
  | AFontSize => 23
  | AFontSizeAdjust => 24
  | AFontStretch => 25
  | AFontStyle => 26
  | AFontVariant => 27
  | AFontWeight => 28
  | AGlyphOrientationHorizontal => 29
  | AGlyphOrientationVertical => 30
  | AImageRendering => 31
  | AKerning => 32
  | ALetterSpacing => 33
  | ALightingColor => 34
  | AMarker => 35
  | AMarkerEnd => 36
  | AMarkerMid => 37
  | AMarkerStart => 38
  | AMask => 39
  | AOpacity => 40
  | AOverflow => 41
  | APointerEvents => 42
  | AShapeRendering => 43
  | AStopColor => 44
  | AStopOpacity => 45
  | AStroke => 46
  | AStrokeDasharray => 47
  | AStrokeDashoffset => 48
  | AStrokeLinecap => 49
  | AStrokeLinejoin => 50
  | AStrokeMiterlimit => 51
  | AStrokeOpacity => 52
  | AStrokeWidth => 53
  | ATextAnchor => 54
  | ATextDecoration => 55
  | ATextRendering => 56
  | AUnicodeBidi => 57
  | AVisibility => 58
  | AWordSpacing => 59
  | AWritingMode => 60
  | AOnfocusin => 61
  | AOnfocusout => 62
  | AOnactivate => 63
  | AOnclick => 64
  | AOnmousedown => 65
  | AOnmouseup => 66
  | AOnmouseover => 67
  | AOnmousemove => 68
  | AOnmouseout => 69
  | AOnload => 70
  | AOnunload => 71
  | AOnabort => 72
  | AOnerror => 73
  | AOnresize => 74
  | AOnscroll => 75
  | AOnzoom => 76
  | AOnbegin => 77
  | AOnend => 78
  | AOnrepeat => 79
  | ABaseProfile => 80
  | AClass => 81
  | AClipPathUnits => 82
  | ACx => 83
  | ACy => 84
  | AD => 85
  | ADx => 86
  | ADy => 87
  | AExternalResourcesRequired => 88
  | AFilterRes => 89
  | AFilterUnits => 90
  | AFx => 91
  | AFy => 92
  | AGradientTransform => 93
  | AGradientUnits => 94
  | AHeight => 95
  | AIn => 96
  | ALineHeight => 97
  | AMaskContentUnits => 98
  | AMaskUnits => 99
  | AOffset => 100
  | APatternContentUnits => 101
  | APatternTransform => 102
  | APatternUnits => 103
  | APoints => 104
  | APreserveAspectRatio => 105
  | APrimitiveUnits => 106
  | AR => 107
  | ARefX => 108
  | ARefY => 109
  | ARequiredFeatures => 110
  | ARequiredExtensions => 111
  | AResult => 112
  | ARx => 113
  | ARy => 114
  | ASlope => 115
  | ASpreadMethod => 116
  | AStdDeviation => 117
  | AStyle => 118
  | ASystemLanguage => 119
  | ATransform => 120
  | AType => 121
  | AUnitsPerEm => 122
  | AValues => 123
  | AVersion => 124
  | AViewBox => 125
  | AWidth => 126
  | AX => 127
  | AX1 => 128
  | AX2 => 129
  | AXlinkActuate => 130
  | AXlinkArcrole => 131
  | AXlinkHref => 132
  | AXlinkRole => 133
  | AXlinkShow => 134
  | AXlinkTitle => 135
  | AXlinkType => 136
  | AXmlSpace => 137
  | AXmlns => 138
  | AXmlnsXlink => 139
  | AY => 140
  | AY1 => 141
  | AY2 => 142
  | AXmlBase => 143
  | AXmlLang => 144
  | AOther n => 145 + n
  end%N.
Definition aid_list : list aid :=
  [AAlignmentBaseline; ABaselineShift; AClip; AClipPath; AClipRule; AColor; AColorInterpolation; AColorInterpolationFilters; AColorProfile; AColorRendering; ACursor; ADirection; ADisplay; ADominantBaseline; AEnableBackground; AFill; AFillOpacity; AFillRule; AFilter; AFloodColor; AFloodOpacity; AFont; AFontFamily; AFontSize; AFontSizeAdjust; AFontStretch; AFontStyle; AFontVariant; AFontWeight; AGlyphOrientationHorizontal; AGlyphOrientationVertical; AImageRendering; AKerning; ALetterSpacing; ALightingColor; AMarker; AMarkerEnd; AMarkerMid; AMarkerStart; AMask; AOpacity; AOverflow; APointerEvents; AShapeRendering; AStopColor; AStopOpacity; AStroke; AStrokeDasharray; AStrokeDashoffset; AStrokeLinecap; AStrokeLinejoin; AStrokeMiterlimit; AStrokeOpacity; AStrokeWidth; ATextAnchor; ATextDecoration; ATextRendering; AUnicodeBidi; AVisibility; AWordSpacing; AWritingMode; AOnfocusin; AOnfocusout; AOnactivate; AOnclick; AOnmousedown; AOnmouseup; AOnmouseover; AOnmousemove; AOnmouseout; AOnload; AOnunload; AOnabort; AOnerror; AOnresize; AOnscroll; AOnzoom; AOnbegin; AOnend; AOnrepeat; ABaseProfile; AClass; AClipPathUnits; ACx; ACy; AD; ADx; ADy; AExternalResourcesRequired; AFilterRes; AFilterUnits; AFx; AFy; AGradientTransform; AGradientUnits; AHeight; AIn; ALineHeight; AMaskContentUnits; AMaskUnits; AOffset; APatternContentUnits; APatternTransform; APatternUnits; APoints; APreserveAspectRatio; APrimitiveUnits; AR; ARefX; ARefY; ARequiredFeatures; ARequiredExtensions; AResult; ARx; ARy; ASlope; ASpreadMethod; AStdDeviation; AStyle; ASystemLanguage; ATransform; AType; AUnitsPerEm; AValues; AVersion; AViewBox; AWidth; AX; AX1; AX2; AXlinkActuate; AXlinkArcrole; AXlinkHref; AXlinkRole; AXlinkShow; AXlinkTitle; AXlinkType; AXmlSpace; AXmlns; AXmlnsXlink; AY; AY1; AY2; AXmlBase; AXmlLang].
Definition aid_decode (n : N) : aid :=
  nth (N.to_nat n) aid_list (AOther (n - 145)%N).
Definition aid_eqb (x y : aid) : bool := N.eqb (aid_code x) (aid_code y).
Lemma aid_decode_code x : aid_decode (aid_code x) = x.
Proof.
  destruct x; try reflexivity. unfold aid_decode, aid_code.
  rewrite nth_overflow; [f_equal; lia|]. unfold aid_list; cbn [List.length]; lia.
Qed.
Lemma aid_eqb_spec x y : reflect (x = y) (aid_eqb x y).
Proof.
  apply iff_reflect. unfold aid_eqb. rewrite N.eqb_eq. split; [now intros ->|].
  intros E. apply (f_equal aid_decode) in E. now rewrite !aid_decode_code in E.
Qed.
Lemma aid_eqb_refl x : aid_eqb x x = true.
Proof. apply N.eqb_refl. Qed.

(** svgdom::ValueId *)
Inductive vid : Type :=
| Vid_none
| Vid_inherit
| Vid_currentColor
| Vid_visible
| Vid_hidden
| Vid_collapse
| Vid_scroll
| Vid_auto
| Vid_inline
| Vid_block
| Vid_pad
| Vid_reflect
| Vid_repeat
| Vid_objectBoundingBox
| Vid_userSpaceOnUse
| Vid_nonzero
| Vid_evenodd
| Vid_butt
| Vid_miter
| Vid_normal
| Vid_bold
| Vid_start
| Vid_middle
| Vid_end
| Vid_accumulate
| Vid_baseline
| Vid_sRGB
| Vid_linearRGB
| Vid_ltr
| Vid_medium
| Vid_visiblePainted
| Vid_lr_tb
| VidOther (n : N).
Definition vid_code (x : vid) : N :=
  match x with
  | Vid_none => 0
  | Vid_inherit => 1
  | Vid_currentColor => 2
  | Vid_visible => 3
  | Vid_hidden => 4
  | Vid_collapse => 5
  | Vid_scroll => 6
  | Vid_auto => 7
  | Vid_inline => 8
  | Vid_block => 9
  | Vid_pad => 10
  | Vid_reflect => 11
  | Vid_repeat => 12
  | Vid_objectBoundingBox => 13
  | Vid_userSpaceOnUse => 14
  | Vid_nonzero => 15
  | Vid_evenodd => 16
  | Vid_butt => 17
  | Vid_miter => 18
  | Vid_normal => 19
  | Vid_bold => 20
  | Vid_start => 21
  | Vid_middle => 22
  | Vid_end => 23
  | Vid_accumulate => 24
  | Vid_baseline => 25
  | Vid_sRGB => 26
  | Vid_linearRGB => 27
  | Vid_ltr => 28
  | Vid_medium => 29
  | Vid_visiblePainted => 30
  | Vid_lr_tb => 31
  | VidOther n => 32 + n
  end%N.
Definition vid_list : list vid :=
  [Vid_none; Vid_inherit; Vid_currentColor; Vid_visible; Vid_hidden; Vid_collapse; Vid_scroll; Vid_auto; Vid_inline; Vid_block; Vid_pad; Vid_reflect; Vid_repeat; Vid_objectBoundingBox; Vid_userSpaceOnUse; Vid_nonzero; Vid_evenodd; Vid_butt; Vid_miter; Vid_normal; Vid_bold; Vid_start; Vid_middle; Vid_end; Vid_accumulate; Vid_baseline; Vid_sRGB; Vid_linearRGB; Vid_ltr; Vid_medium; Vid_visiblePainted; Vid_lr_tb].
Definition vid_decode (n : N) : vid := nth (N.to_nat n) vid_list (VidOther (n - 32)%N).
Definition vid_eqb (x y : vid) : bool := N.eqb (vid_code x) (vid_code y).
Lemma vid_decode_code x : vid_decode (vid_code x) = x.
Proof.
  destruct x; try reflexivity. unfold vid_decode, vid_code.
  rewrite nth_overflow; [f_equal; lia|]. unfold vid_list; cbn [List.length]; lia.
Qed.
Lemma vid_eqb_spec x y : reflect (x = y) (vid_eqb x y).
Proof.
  apply iff_reflect. unfold vid_eqb. rewrite N.eqb_eq. split; [now intros ->|].
  intros E. apply (f_equal vid_decode) in E. now rewrite !vid_decode_code in E.
Qed.
Lemma vid_eqb_refl x : vid_eqb x x = true.
Proof. apply N.eqb_refl. Qed.

(** svgdom AttributeType::is_presentation: the presentation attributes of SVG 1.1 *)
Definition is_presentation (x : aid) : bool :=
  match x with
  | AAlignmentBaseline | ABaselineShift | AClip | AClipPath | AClipRule | AColor | AColorInterpolation | AColorInterpolationFilters | AColorProfile | AColorRendering | ACursor | ADirection | ADisplay | ADominantBaseline | AEnableBackground | AFill | AFillOpacity | AFillRule | AFilter | AFloodColor | AFloodOpacity | AFont | AFontFamily | AFontSize | AFontSizeAdjust | AFontStretch | AFontStyle | AFontVariant | AFontWeight | AGlyphOrientationHorizontal | AGlyphOrientationVertical | AImageRendering | AKerning | ALetterSpacing | ALightingColor | AMarker | AMarkerEnd | AMarkerMid | AMarkerStart | AMask | AOpacity | AOverflow | APointerEvents | AShapeRendering | AStopColor | AStopOpacity | AStroke | AStrokeDasharray | AStrokeDashoffset | AStrokeLinecap | AStrokeLinejoin | AStrokeMiterlimit | AStrokeOpacity | AStrokeWidth | ATextAnchor | ATextDecoration | ATextRendering | AUnicodeBidi | AVisibility | AWordSpacing | AWritingMode => true
  | _ => false
  end.

(** presentation attributes that SVG 1.1 marks as not inherited *)
Definition is_non_inheritable (x : aid) : bool :=
  match x with
  | AAlignmentBaseline | ABaselineShift | AClip | AClipPath | ADisplay | ADominantBaseline | AEnableBackground | AFilter | AFloodColor | AFloodOpacity | ALightingColor | AMask | AOpacity | AOverflow | AStopColor | AStopOpacity | ATextDecoration | AUnicodeBidi => true
  | _ => false
  end.

(** svgdom AttributeType::is_inheritable *)
Definition is_inheritable (x : aid) : bool := is_presentation x && negb (is_non_inheritable x).

(** svgdom AttributeType::is_graphical_event *)
Definition is_graphical_event (x : aid) : bool :=
  match x with
  | AOnfocusin | AOnfocusout | AOnactivate | AOnclick | AOnmousedown | AOnmouseup | AOnmouseover | AOnmousemove | AOnmouseout | AOnload => true
  | _ => false
  end.

(** svgdom AttributeType::is_document_event *)
Definition is_document_event (x : aid) : bool :=
  match x with
  | AOnunload | AOnabort | AOnerror | AOnresize | AOnscroll | AOnzoom => true
  | _ => false
  end.

(** svgdom AttributeType::is_animation_event *)
Definition is_animation_event (x : aid) : bool :=
  match x with
  | AOnbegin | AOnend | AOnrepeat | AOnload => true
  | _ => false
  end.

(** svgdom AttributeType::is_core (the id is not an attribute in svgdom) *)
Definition is_core (x : aid) : bool :=
  match x with
  | AXmlBase | AXmlLang | AXmlSpace => true
  | _ => false
  end.

(** svgdom AttributeType::is_conditional_processing *)
Definition is_conditional_processing (x : aid) : bool :=
  match x with
  | ARequiredExtensions | ARequiredFeatures | ASystemLanguage => true
  | _ => false
  end.

(** svgdom AttributeType::is_fill *)
Definition is_fill (x : aid) : bool :=
  match x with
  | AFill | AFillOpacity | AFillRule => true
  | _ => false
  end.

(** svgdom AttributeType::is_stroke *)
Definition is_stroke (x : aid) : bool :=
  match x with
  | AStroke | AStrokeDasharray | AStrokeDashoffset | AStrokeLinecap | AStrokeLinejoin | AStrokeMiterlimit | AStrokeOpacity | AStrokeWidth => true
  | _ => false
  end.

(** svgdom ElementType::is_basic_shape *)
Definition is_basic_shape (x : eid) : bool :=
  match x with
  | ERect | ECircle | EEllipse | ELine | EPolyline | EPolygon => true
  | _ => false
  end.

(** svgdom ElementType::is_shape *)
Definition is_shape (x : eid) : bool :=
  match x with
  | ERect | ECircle | EEllipse | ELine | EPolyline | EPolygon | EPath => true
  | _ => false
  end.

(** svgdom ElementType::is_container *)
Definition is_container (x : eid) : bool :=
  match x with
  | EA | EDefs | EGlyph | EG | EMarker | EMask | EMissingGlyph | EPattern | ESvg | ESwitch | ESymbol => true
  | _ => false
  end.

(** svgdom ElementType::is_referenced *)
Definition is_referenced (x : eid) : bool :=
  match x with
  | EAltGlyphDef | EClipPath | ECursor | EFilter | ELinearGradient | EMarker | EMask | EPattern | ERadialGradient | ESymbol => true
  | _ => false
  end.

(** text content elements of SVG 1.1 (altGlyph is not distinguished from EOther) *)
Definition is_text_content (x : eid) : bool :=
  match x with
  | EText | ETspan | ETref | ETextPath | EAltGlyphDef => true
  | _ => false
  end.

(** text content child elements of SVG 1.1 *)
Definition is_text_content_child (x : eid) : bool :=
  match x with
  | ETspan | ETref | ETextPath => true
  | _ => false
  end.

(** svgdom ElementType::is_gradient *)
Definition is_gradient (x : eid) : bool :=
  match x with
  | ELinearGradient | ERadialGradient => true
  | _ => false
  end.

(** XML spelling of attribute names (used by the style writer). *)
Definition aid_name (x : aid) : string :=
  match x with
  | AAlignmentBaseline => "alignment-baseline"
  | ABaselineShift => "baseline-shift"
  | AClip => "clip"
  | AClipPath => "clip-path"
  | AClipRule => "clip-rule"
  | AColor => "color"
  | AColorInterpolation => "color-interpolation"
  | AColorInterpolationFilters => "color-interpolation-filters"
  | AColorProfile => "color-profile"
  | AColorRendering => "color-rendering"
  | ACursor => "cursor"
  | ADirection => "direction"
  | ADisplay => "display"
  | ADominantBaseline => "dominant-baseline"
  | AEnableBackground => "enable-background"
  | AFill => "fill"
  | AFillOpacity => "fill-opacity"
  | AFillRule => "fill-rule"
  | AFilter => "filter"
  | AFloodColor => "flood-color"
  | AFloodOpacity => "flood-opacity"
  | AFont => "font"
  | AFontFamily => "font-family"
  | AFontSize => "font-size"
  | AFontSizeAdjust => "font-size-adjust"
  | AFontStretch => "font-stretch"
  | AFontStyle => "font-style"
  | AFontVariant => "font-variant"
  | AFontWeight => "font-weight"
  | AGlyphOrientationHorizontal => "glyph-orientation-horizontal"
  | AGlyphOrientationVertical => "glyph-orientation-vertical"
  | AImageRendering => "image-rendering"
  | AKerning => "kerning"
  | ALetterSpacing => "letter-spacing"
  | ALightingColor => "lighting-color"
  | AMarker => "marker"
  | AMarkerEnd => "marker-end"
  | AMarkerMid => "marker-mid"
  | AMarkerStart => "marker-start"
  | AMask => "mask"
  | AOpacity => "opacity"
  | AOverflow => "overflow"
  | APointerEvents => "pointer-events"
  | AShapeRendering => "shape-rendering"
  | AStopColor => "stop-color"
  | AStopOpacity => "stop-opacity"
  | AStroke => "stroke"
  | AStrokeDasharray => "stroke-dasharray"
  | AStrokeDashoffset => "stroke-dashoffset"
  | AStrokeLinecap => "stroke-linecap"
  | AStrokeLinejoin => "stroke-linejoin"
  | AStrokeMiterlimit => "stroke-miterlimit"
  | AStrokeOpacity => "stroke-opacity"
  | AStrokeWidth => "stroke-width"
  | ATextAnchor => "text-anchor"
  | ATextDecoration => "text-decoration"
  | ATextRendering => "text-rendering"
  | AUnicodeBidi => "unicode-bidi"
  | AVisibility => "visibility"
  | AWordSpacing => "word-spacing"
  | AWritingMode => "writing-mode"
  | AOnfocusin => "onfocusin"
  | AOnfocusout => "onfocusout"
  | AOnactivate => "onactivate"
  | AOnclick => "onclick"
  | AOnmousedown => "onmousedown"
  | AOnmouseup => "onmouseup"
  | AOnmouseover => "onmouseover"
  | AOnmousemove => "onmousemove"
  | AOnmouseout => "onmouseout"
  | AOnload => "onload"
  | AOnunload => "onunload"
  | AOnabort => "onabort"
  | AOnerror => "onerror"
  | AOnresize => "onresize"
  | AOnscroll => "onscroll"
  | AOnzoom => "onzoom"
  | AOnbegin => "onbegin"
  | AOnend => "onend"
  | AOnrepeat => "onrepeat"
  | ABaseProfile => "baseProfile"
  | AClass => "class"
  | AClipPathUnits => "clipPathUnits"
  | ACx => "cx"
  | ACy => "cy"
  | AD => "d"
  | ADx => "dx"
  | ADy => "dy"
  | AExternalResourcesRequired => "externalResourcesRequired"
  | AFilterRes => "filterRes"
  | AFilterUnits => "filterUnits"
  | AFx => "fx"
  | AFy => "fy"
  | AGradientTransform => "gradientTransform"
  | AGradientUnits => "gradientUnits"
  | AHeight => "height"
  | AIn => "in"
  | ALineHeight => "line-height"
  | AMaskContentUnits => "maskContentUnits"
  | AMaskUnits => "maskUnits"
  | AOffset => "offset"
  | APatternContentUnits => "patternContentUnits"
  | APatternTransform => "patternTransform"
  | APatternUnits => "patternUnits"
  | APoints => "points"
  | APreserveAspectRatio => "preserveAspectRatio"
  | APrimitiveUnits => "primitiveUnits"
  | AR => "r"
  | ARefX => "refX"
  | ARefY => "refY"
  | ARequiredFeatures => "requiredFeatures"
  | ARequiredExtensions => "requiredExtensions"
  | AResult => "result"
  | ARx => "rx"
  | ARy => "ry"
  | ASlope => "slope"
  | ASpreadMethod => "spreadMethod"
  | AStdDeviation => "stdDeviation"
  | AStyle => "style"
  | ASystemLanguage => "systemLanguage"
  | ATransform => "transform"
  | AType => "type"
  | AUnitsPerEm => "units-per-em"
  | AValues => "values"
  | AVersion => "version"
  | AViewBox => "viewBox"
  | AWidth => "width"
  | AX => "x"
  | AX1 => "x1"
  | AX2 => "x2"
  | AXlinkActuate => "xlink:actuate"
  | AXlinkArcrole => "xlink:arcrole"
  | AXlinkHref => "xlink:href"
  | AXlinkRole => "xlink:role"
  | AXlinkShow => "xlink:show"
  | AXlinkTitle => "xlink:title"
  | AXlinkType => "xlink:type"
  | AXmlSpace => "xml:space"
  | AXmlns => "xmlns"
  | AXmlnsXlink => "xmlns:xlink"
  | AY => "y"
  | AY1 => "y1"
  | AY2 => "y2"
  | AXmlBase => "xml:base"
  | AXmlLang => "xml:lang"
  | AOther _ => "other"
  end%string.