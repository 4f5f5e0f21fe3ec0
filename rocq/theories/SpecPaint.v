(** What a document paints (SVG 1.1, chapters 3, 5, 6, 7, 11, 14), on documents only.

    A document is turned into a list of pictures, in painting order. A picture is a basic element
    (with the transform and the chain of elements it inherits from), a layer (a group of pictures
    that is composed with an opacity and with effects), a viewport or a switch.
    [same] says that two lists of pictures look the same. *)
From Coq Require Import List Bool NArith Arith ZArith String QArith Qcanon.
From Verif Require Import Names Num Value Dom SpecStyle SpecText.
Import ListNotations.
Local Open Scope nat_scope.

(** Transforms as maps of the plane. *)
Definition t_mul (m n : transform) : transform :=
  Tr (ta m * ta n + tc m * tb n)%Qc (tb m * ta n + td m * tb n)%Qc
     (ta m * tc n + tc m * td n)%Qc (tb m * tc n + td m * td n)%Qc
     (ta m * te n + tc m * tf n + te m)%Qc (tb m * te n + td m * tf n + tf m)%Qc.
Definition t_shift (x y : Qc) : transform := Tr q1 q0 q0 q1 x y.

(** The attributes of an element that matter for painting. *)
Definition ts_of (d : ndata) : transform := match d_get d ATransform with Some (VTransform m) => m | _ => t_id end.
Definition clamp (x : Qc) : Qc := if Qclt_le_dec x 0 then q0 else if Qclt_le_dec 1 x then q1 else x.
Definition opacity_of (d : ndata) : Qc := match d_get d AOpacity with Some (VNum x) => clamp x | _ => q1 end.
Definition given (d : ndata) (l : list aid) : list (aid * value) :=
  flat_map (fun a => match d_get d a with Some v => [(a, v)] | None => [] end) l.
Definition condition_attrs : list aid := [ARequiredFeatures; ARequiredExtensions; ASystemLanguage].
Definition effect_attrs : list aid := [AClipPath; AMask; AFilter] ++ condition_attrs.
Definition effects (d : ndata) : list (aid * value) := given d effect_attrs.
Definition viewport_attrs : list aid := [AX; AY; AWidth; AHeight; AViewBox; APreserveAspectRatio; AOverflow; AClip].
Definition displayed (d : ndata) : Prop := d_get d ADisplay <> Some (VPre Vid_none).
(** [inherited a]: an element without the attribute takes it from its parent. *)
Definition inherited (a : aid) : bool := is_inheritable a || aid_eqb a AXmlSpace || aid_eqb a AXmlLang.

(** The kinds of elements. *)
Definition shape_el (d : ndata) : Prop :=
  exists e, tag d = TEl e /\ In e [EPath; ERect; ECircle; EEllipse; ELine; EPolyline; EPolygon; EText; EImage; EForeignObject].
Definition group_el (d : ndata) : Prop := tag d = TEl EG \/ tag d = TEl EA.
Definition painted_el (d : ndata) : Prop :=
  shape_el d \/ group_el d \/ tag d = TEl ESwitch \/ tag d = TEl ESvg \/ tag d = TEl EUse.
Definition element (d : ndata) : Prop := (exists e, tag d = TEl e) \/ exists s, tag d = TOtherEl s.

Inductive pic : Type :=
| PShape (d : ndata) (inside : list tree) (m : transform) (chain : list ndata)
| PLayer (opacity : Qc) (effs : list (aid * value)) (m : transform) (l : list pic)
| PView (m : transform) (size : list (aid * value)) (view : list (aid * value)) (l : list pic)
| PSwitch (alternatives : list pic)
| PAlt (conditions : list (aid * value)) (l : list pic).
Definition layer (d : ndata) (m : transform) (l : list pic) : pic := PLayer (opacity_of d) (effects d) m l.

Section Paint.
  (** [uu a l]: the length [l] of the attribute [a] in user units, when it has a unit. *)
  Variable uu : aid -> len -> Qc.
  Definition coordinate (d : ndata) (a : aid) : Qc :=
    match d_get d a with
    | Some (VLen l) => match unit l with UNone => num l | _ => uu a l end
    | _ => q0
    end.
  (** 5.6: x and y of a use element are a translation after its transform. *)
  Definition use_ts (d : ndata) : transform := t_mul (ts_of d) (t_shift (coordinate d AX) (coordinate d AY)).
  Variable t : tree.

  (** [paint m anc s l]: the subtree [s], below the elements [anc] and in the coordinate system [m], paints [l]. *)
  Inductive paint : transform -> list ndata -> tree -> list pic -> Prop :=
  | p_hidden m anc s : ~ painted_el (data s) \/ ~ displayed (data s) -> paint m anc s []
  | p_shape m anc d ch : shape_el d -> displayed d ->
      paint m anc (T d ch) [layer d (t_mul m (ts_of d)) [PShape d ch (t_mul m (ts_of d)) (d :: anc)]]
  | p_group m anc d ch l : group_el d -> displayed d ->
      paints (t_mul m (ts_of d)) (d :: anc) ch l ->
      paint m anc (T d ch) [layer d (t_mul m (ts_of d)) l]
  | p_switch m anc d ch l : tag d = TEl ESwitch -> displayed d ->
      choices (t_mul m (ts_of d)) (d :: anc) ch l ->
      paint m anc (T d ch) [layer d (t_mul m (ts_of d)) [PSwitch l]]
  | p_svg m anc d ch l : tag d = TEl ESvg -> displayed d ->
      paints t_id (d :: anc) ch l ->
      paint m anc (T d ch) [layer d m [PView m [] (given d viewport_attrs) l]]
  | p_use m anc d ch s l : tag d = TEl EUse -> displayed d ->
      d_get d AXlinkHref = Some (VLink (root_key s)) -> In s (subs t) ->
      tag (data s) <> TEl ESymbol -> tag (data s) <> TEl ESvg ->
      paint (t_mul m (use_ts d)) (d :: anc) s l ->
      paint m anc (T d ch) [layer d (t_mul m (use_ts d)) l]
  | p_use_view m anc d ch s l : tag d = TEl EUse -> displayed d ->
      d_get d AXlinkHref = Some (VLink (root_key s)) -> In s (subs t) ->
      tag (data s) = TEl ESymbol \/ tag (data s) = TEl ESvg /\ displayed (data s) ->
      paints t_id (data s :: d :: anc) (kids s) l ->
      paint m anc (T d ch) [layer d (t_mul m (use_ts d))
        [layer (data s) (t_mul m (use_ts d)) [PView (t_mul m (use_ts d)) (given d [AWidth; AHeight]) (given (data s) viewport_attrs) l]]]
  | p_use_hidden m anc d ch s : tag d = TEl EUse -> displayed d ->
      d_get d AXlinkHref = Some (VLink (root_key s)) -> In s (subs t) -> tag (data s) = TEl ESvg -> ~ displayed (data s) ->
      paint m anc (T d ch) []
  | p_use_none m anc d ch : tag d = TEl EUse -> displayed d ->
      (forall s, In s (subs t) -> d_get d AXlinkHref <> Some (VLink (root_key s))) ->
      paint m anc (T d ch) []
  with paints : transform -> list ndata -> list tree -> list pic -> Prop :=
  | ps_nil m anc : paints m anc [] []
  | ps_cons m anc s l p q : paint m anc s p -> paints m anc l q -> paints m anc (s :: l) (p ++ q)
  (** The children of a switch: one of them is chosen by its conditions. *)
  with choices : transform -> list ndata -> list tree -> list pic -> Prop :=
  | ch_nil m anc : choices m anc [] []
  | ch_skip m anc s l q : ~ element (data s) -> choices m anc l q -> choices m anc (s :: l) q
  | ch_cons m anc s l p q : element (data s) -> paint m anc s p -> choices m anc l q ->
      choices m anc (s :: l) (PAlt (given (data s) condition_attrs) p :: q).
End Paint.

(** The picture of the document. *)
Definition picture (uu : aid -> len -> Qc) (t : tree) (l : list pic) : Prop :=
  exists s, svg_element t = Some s /\ paint uu t t_id [data t] s l.
(** The content of the element [k], such as a mask or a pattern. *)
Definition content (uu : aid -> len -> Qc) (t : tree) (k : nat) (l : list pic) : Prop :=
  exists anc s, In (anc, s) (places [] t) /\ root_key s = k /\ paints uu t t_id (data s :: anc) (kids s) l.
Definition resource (d : ndata) : Prop :=
  exists e, tag d = TEl e /\ In e [EMask; EPattern; EMarker; EClipPath].

(** Attributes that are accounted for by the layers, the transform, or by inheritance. *)
Definition elsewhere (n : aname) : bool :=
  match n with
  | AN a => inherited a || existsb (aid_eqb a) ([ATransform; AOpacity; ADisplay; AClass] ++ effect_attrs)
  | ANx _ => true (* not an SVG attribute *)
  end.
Definition lookup (n : aname) (d : ndata) : option value := option_map a_val (find (has_name n) (attrs d)).
(** The same element, drawn with the same data of its own. *)
Definition like (d d' : ndata) : Prop :=
  key d' = key d /\ tag d' = tag d /\ nid d' = nid d /\ forall n, elsewhere n = false -> lookup n d' = lookup n d.
Definition same_style (c c' : list ndata) : Prop := forall a, inherited a = true -> nearest a c = nearest a c'.

Inductive same : list pic -> list pic -> Prop :=
| same_refl l : same l l
| same_sym l l' : same l l' -> same l' l
| same_trans l1 l2 l3 : same l1 l2 -> same l2 l3 -> same l1 l3
| same_app l1 l1' l2 l2' : same l1 l1' -> same l2 l2' -> same (l1 ++ l2) (l1' ++ l2')
| same_shape d d' ch m c c' : like d d' -> same_style c c' -> same [PShape d ch m c] [PShape d' ch m c']
(* only clip paths, masks and filters depend on the coordinate system *)
| same_layer o e m m' l l' : (forall a v, In (a, v) e -> In a condition_attrs \/ v = VPre Vid_none) \/ m = m' -> same l l' -> same [PLayer o e m l] [PLayer o e m' l']
| same_view m s v l l' : same l l' -> same [PView m s v l] [PView m s v l']
| same_switch l l' : same l l' -> same [PSwitch l] [PSwitch l']
| same_alt c l l' : same l l' -> same [PAlt c l] [PAlt c l']
(* a layer without opacity and effects is not seen *)
| same_plain m l : same [PLayer q1 [] m l] l
(* the opacities of two nested layers are multiplied *)
| same_nested o1 m1 o2 e m2 l : same [PLayer o1 [] m1 [PLayer o2 e m2 l]] [PLayer (o1 * o2)%Qc e m2 l]
(* an empty layer paints nothing, unless a filter fills it *)
| same_empty o e m : ~ In AFilter (map fst e) -> same [PLayer o e m []] [].

(** [t'] shows the same as [t], and so do its masks, patterns, markers and clip paths. *)
Record same_drawing (uu : aid -> len -> Qc) (t t' : tree) : Prop := {
  sd_picture : forall l, picture uu t l -> exists l', picture uu t' l' /\ same l l';
  sd_content : forall d l, In d (flat t) -> resource d -> content uu t (key d) l ->
    In d (flat t') /\ exists l', content uu t' (key d) l' /\ same l l'
}.
