els="""A AltGlyphDef Animate AnimateColor AnimateMotion AnimateTransform Circle ClipPath Cursor Defs Desc Ellipse FeColorMatrix FeFlood FeFuncA FeFuncB FeFuncG FeFuncR FeGaussianBlur FeImage Filter Font FontFace FontFaceUri ForeignObject G Glyph GlyphRef Image Line LinearGradient Marker Mask Metadata MissingGlyph Path Pattern Polygon Polyline RadialGradient Rect Script Set Stop Style Svg Switch Symbol Text TextPath Title Tref Tspan Use View""".split()
pres="""AlignmentBaseline BaselineShift Clip ClipPath ClipRule Color ColorInterpolation ColorInterpolationFilters ColorProfile ColorRendering Cursor Direction Display DominantBaseline EnableBackground Fill FillOpacity FillRule Filter FloodColor FloodOpacity Font FontFamily FontSize FontSizeAdjust FontStretch FontStyle FontVariant FontWeight GlyphOrientationHorizontal GlyphOrientationVertical ImageRendering Kerning LetterSpacing LightingColor Marker MarkerEnd MarkerMid MarkerStart Mask Opacity Overflow PointerEvents ShapeRendering StopColor StopOpacity Stroke StrokeDasharray StrokeDashoffset StrokeLinecap StrokeLinejoin StrokeMiterlimit StrokeOpacity StrokeWidth TextAnchor TextDecoration TextRendering UnicodeBidi Visibility WordSpacing WritingMode""".split()
gev="Onfocusin Onfocusout Onactivate Onclick Onmousedown Onmouseup Onmouseover Onmousemove Onmouseout Onload".split()
dev="Onunload Onabort Onerror Onresize Onscroll Onzoom".split()
aev="Onbegin Onend Onrepeat".split()
other="""BaseProfile Class ClipPathUnits Cx Cy D Dx Dy ExternalResourcesRequired FilterRes FilterUnits Fx Fy GradientTransform GradientUnits Height In LineHeight MaskContentUnits MaskUnits Offset PatternContentUnits PatternTransform PatternUnits Points PreserveAspectRatio PrimitiveUnits R RefX RefY RequiredFeatures RequiredExtensions Result Rx Ry Slope SpreadMethod StdDeviation Style SystemLanguage Transform Type UnitsPerEm Values Version ViewBox Width X X1 X2 XlinkActuate XlinkArcrole XlinkHref XlinkRole XlinkShow XlinkTitle XlinkType XmlSpace Xmlns XmlnsXlink Y Y1 Y2 XmlBase XmlLang""".split()
noninh="""AlignmentBaseline BaselineShift Clip ClipPath Display DominantBaseline EnableBackground Filter FloodColor FloodOpacity LightingColor Mask Opacity Overflow StopColor StopOpacity TextDecoration UnicodeBidi""".split()
allA=pres+gev+dev+aev+other
assert len(set(allA))==len(allA)
import re
def xml(n):
    if n.startswith("Xlink"): return "xlink:"+n[5:].lower()
    if n in("XmlSpace","XmlBase","XmlLang"): return "xml:"+n[3:].lower()
    if n=="XmlnsXlink": return "xmlns:xlink"
    camel="ClipPathUnits BaseProfile ExternalResourcesRequired FilterRes FilterUnits GradientTransform GradientUnits MaskContentUnits MaskUnits PatternContentUnits PatternTransform PatternUnits PreserveAspectRatio PrimitiveUnits RefX RefY RequiredFeatures RequiredExtensions SpreadMethod StdDeviation SystemLanguage ViewBox".split()
    if n in camel: return n[0].lower()+n[1:]
    return re.sub(r'(?<!^)([A-Z])',r'-\1',n).lower()
vids="none inherit currentColor visible hidden collapse scroll auto inline block pad reflect repeat objectBoundingBox userSpaceOnUse nonzero evenodd butt miter normal bold start middle end accumulate baseline sRGB linearRGB ltr medium visiblePainted lr-tb".split()
def vname(v): return "Vid_"+v.replace('-','_')
w=[]
def enum(ty,pre,lst,doc):
    w.append("(** %s *)"%doc)
    w.append("Inductive %s : Type :="%ty)
    w.append("\n".join("| %s%s"%(pre,x) for x in lst))
    w.append("| %sOther (n : N)."%pre)
    w.append("Definition %s_code (x : %s) : N :=\n  match x with"%(ty,ty))
    for i,x in enumerate(lst): w.append("  | %s%s => %d"%(pre,x,i))
    w.append("  | %sOther n => %d + n\n  end%%N."%(pre,len(lst)))
    w.append("Definition %s_list : list %s :=\n  [%s]."%(ty,ty,"; ".join(pre+x for x in lst)))
    w.append("Definition %s_decode (n : N) : %s :=\n  nth (N.to_nat n) %s_list (%sOther (n - %d)%%N)."%(ty,ty,ty,pre,len(lst)))
    w.append("Definition %s_eqb (x y : %s) : bool := N.eqb (%s_code x) (%s_code y)."%(ty,ty,ty,ty))
    w.append('''Lemma %(t)s_decode_code x : %(t)s_decode (%(t)s_code x) = x.
Proof.
  destruct x; try reflexivity. unfold %(t)s_decode, %(t)s_code.
  rewrite nth_overflow; [f_equal; lia|]. unfold %(t)s_list; cbn [List.length]; lia.
Qed.
Lemma %(t)s_eqb_spec x y : reflect (x = y) (%(t)s_eqb x y).
Proof.
  apply iff_reflect. unfold %(t)s_eqb. rewrite N.eqb_eq. split; [now intros ->|].
  intros E. apply (f_equal %(t)s_decode) in E. now rewrite !%(t)s_decode_code in E.
Qed.
Lemma %(t)s_eqb_refl x : %(t)s_eqb x x = true.
Proof. apply N.eqb_refl. Qed.
'''%dict(t=ty))
w.append('''(** Names: svgdom's ElementId, AttributeId and ValueId, restricted to the names the code mentions,
    the SVG 1.1 presentation attributes and the event attributes; any other name is [..Other n]. *)
From Coq Require Import List Bool NArith Lia String.
Import ListNotations.
''')
enum("eid","E",els,"svgdom::ElementId (src/task/mod.rs:88)")
enum("aid","A",allA,"svgdom::AttributeId (src/task/mod.rs:89)")
w.append("(** svgdom::ValueId *)")
w.append("Inductive vid : Type :=\n"+"\n".join("| "+vname(v) for v in vids)+"\n| VidOther (n : N).")
w.append("Definition vid_code (x : vid) : N :=\n  match x with")
for i,x in enumerate(vids): w.append("  | %s => %d"%(vname(x),i))
w.append("  | VidOther n => %d + n\n  end%%N."%len(vids))
w.append("Definition vid_list : list vid :=\n  [%s]."%"; ".join(vname(x) for x in vids))
w.append('''Definition vid_decode (n : N) : vid := nth (N.to_nat n) vid_list (VidOther (n - %d)%%N).
Definition vid_eqb (x y : vid) : bool := N.eqb (vid_code x) (vid_code y).
Lemma vid_decode_code x : vid_decode (vid_code x) = x.
Proof.
  destruct x; try reflexivity. unfold vid_decode, vid_code.
  rewrite nth_overflow; [f_equal; lia|]. unfold vid_list; cbn [List.length]; lia.
Qed.
Lemma vid_eqb_spec x y : reflect (x = y) (vid_eqb x y).
Proof.
  apply iff_reflect. unfold vid_eqb. rewrite N.eqb_eq. split; [now intros ->|].
  intros E. apply (f_equal vid_decode) in E. now rewrite !vid_decode_code in E.
Qed.
Lemma vid_eqb_refl x : vid_eqb x x = true.
Proof. apply N.eqb_refl. Qed.
'''%len(vids))
def mem(name,ty,pre,lst,doc):
    w.append("(** %s *)"%doc)
    w.append("Definition %s (x : %s) : bool :=\n  match x with\n  %s => true\n  | _ => false\n  end.\n"%(name,ty," ".join("| %s%s"%(pre,x) for x in lst)))
mem("is_presentation","aid","A",pre if False else pres,"svgdom AttributeType::is_presentation: the presentation attributes of SVG 1.1")
mem("is_non_inheritable","aid","A",noninh,"presentation attributes that SVG 1.1 marks as not inherited")
w.append("(** svgdom AttributeType::is_inheritable *)\nDefinition is_inheritable (x : aid) : bool := is_presentation x && negb (is_non_inheritable x).\n")
mem("is_graphical_event","aid","A",gev,"svgdom AttributeType::is_graphical_event")
mem("is_document_event","aid","A",dev,"svgdom AttributeType::is_document_event")
mem("is_animation_event","aid","A",aev+["Onload"],"svgdom AttributeType::is_animation_event")
mem("is_core","aid","A","XmlBase XmlLang XmlSpace".split(),"svgdom AttributeType::is_core (the id is not an attribute in svgdom)")
mem("is_conditional_processing","aid","A","RequiredExtensions RequiredFeatures SystemLanguage".split(),"svgdom AttributeType::is_conditional_processing")
mem("is_fill","aid","A","Fill FillOpacity FillRule".split(),"svgdom AttributeType::is_fill")
mem("is_stroke","aid","A","Stroke StrokeDasharray StrokeDashoffset StrokeLinecap StrokeLinejoin StrokeMiterlimit StrokeOpacity StrokeWidth".split(),"svgdom AttributeType::is_stroke")
mem("is_basic_shape","eid","E","Rect Circle Ellipse Line Polyline Polygon".split(),"svgdom ElementType::is_basic_shape")
mem("is_shape","eid","E","Rect Circle Ellipse Line Polyline Polygon Path".split(),"svgdom ElementType::is_shape")
mem("is_container","eid","E","A Defs Glyph G Marker Mask MissingGlyph Pattern Svg Switch Symbol".split(),"svgdom ElementType::is_container")
mem("is_referenced","eid","E","AltGlyphDef ClipPath Cursor Filter LinearGradient Marker Mask Pattern RadialGradient Symbol".split(),"svgdom ElementType::is_referenced")
mem("is_text_content","eid","E","Text Tspan Tref TextPath AltGlyphDef".split(),"text content elements of SVG 1.1 (altGlyph is not distinguished from EOther)")
mem("is_text_content_child","eid","E","Tspan Tref TextPath".split(),"text content child elements of SVG 1.1")
mem("is_gradient","eid","E","LinearGradient RadialGradient".split(),"svgdom ElementType::is_gradient")
w.append("(** XML spelling of attribute names (used by the style writer). *)\nDefinition aid_name (x : aid) : string :=\n  match x with")
for x in allA: w.append('  | A%s => "%s"'%(x,xml(x)))
w.append('  | AOther _ => "other"\n  end%string.')
s="\n".join(w)
# N scope fix
open('Names.v','w').write(s)
