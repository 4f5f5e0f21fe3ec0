(** Specification for C49 and C50: which documents pass the preliminary checks for good. *)
From Coq Require Import List String.
From Verif Require Import Names Num Value Dom SpecDom.
Import ListNotations.

(** What the parser makes of the attributes that the checks look at (svgdom: the conditional attributes are strings, a
    reference is a link or, if there is no such element, a string). *)
Definition parsed (t : tree) : Prop :=
  forall d e x, In d (flat t) -> tag d = TEl e -> In x (attrs d) ->
    (In (a_name x) [AN ARequiredFeatures; AN ASystemLanguage] -> exists s, a_val x = VStr s) /\
    (a_name x = AN AXlinkHref -> (exists s, a_val x = VStr s) \/ exists k, a_val x = VLink k \/ a_val x = VFunc k).
(** An element that is neither a script nor an animation, has no event attributes and no conditions, and refers to
    elements of the same document only. *)
Record acceptable_element (e : eid) (d : ndata) : Prop := {
  ae_not_script : e <> EScript;
  ae_not_animated : ~ is_animation e;
  ae_no_events : forall x, In x (attrs d) -> ~ is_event_name (a_name x);
  ae_unconditional : forall x, In x (attrs d) -> In (a_name x) [AN ARequiredFeatures; AN ASystemLanguage] -> a_val x = VStr ""%string;
  ae_internal : ~ In e [EA; EImage; EFontFaceUri; EFeImage] -> forall x, In x (attrs d) -> a_name x = AN AXlinkHref -> exists k, a_val x = VLink k \/ a_val x = VFunc k
}.
Definition acceptable (t : tree) : Prop := forall d e, In d (flat t) -> tag d = TEl e -> acceptable_element e d.
(** The reference of an element is a link, the keyword none or a colour. *)
Definition link_or_paint (v : value) : Prop :=
  (exists k, v = VLink k \/ v = VFunc k) \/ v = VPre Vid_none \/ exists r g b, v = VColor r g b.
Definition links_or_paint (t : tree) : Prop :=
  forall d e x, In d (flat t) -> tag d = TEl e -> ~ In e [EA; EImage; EFontFaceUri; EFeImage] -> In x (attrs d) -> a_name x = AN AXlinkHref -> link_or_paint (a_val x).
(** The kinds of nodes that cleaning may bring into a document. *)
Definition may_appear (g : tagt) : Prop := In g [TEl EPath; TEl EDefs; TEl EG; TEl ELinearGradient].
(** How a saved reference that is not a link is read again: it is a string. Here for the keyword none. *)
Definition read_again (t : tree) : tree :=
  tmap (fun d => with_attrs d (map (fun x => if has_name (AN AXlinkHref) x then match a_val x with VPre Vid_none => At (a_name x) (VStr "none") (a_vis x) | _ => x end else x) (attrs d))) t.
