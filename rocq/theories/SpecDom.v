(** Specification vocabulary for documents, independent of the passes. *)
From Coq Require Import List Bool NArith String.
From Verif Require Import Names Num Value Dom.
Import ListNotations.

(** Building documents for examples: key, name, attributes, children. *)
Definition at_ (a : aid) (v : value) : attr := At (AN a) v true.
Definition el (k : nat) (e : eid) (l : list attr) (ch : list tree) : tree := T (ND k (TEl e) "" l) ch.
Definition eli (k : nat) (e : eid) (i : string) (l : list attr) (ch : list tree) : tree := T (ND k (TEl e) i l) ch.
Definition txt (k : nat) (s : string) : tree := T (ND k (TText s) "" []) [].
Definition doc (ch : list tree) : tree := T (ND 0 TRoot "" []) ch.
Definition px (n : BinNums.Z) : value := VLen (Len (zq n) UNone).

(** The node [d] refers to the node with key [k]. *)
Definition refers_to (d : ndata) (k : nat) : Prop := exists a, In a (attrs d) /\ link_of (a_val a) = Some k.
(** Some node of the document refers to the node with key [k]. *)
Definition referenced (t : tree) (k : nat) : Prop := exists d, In d (flat t) /\ refers_to d k.

(** Same document up to ids. *)
Definition erase_ids (t : tree) : tree := tmap (fun d => with_id d "") t.
(** Same document up to attributes. *)
Definition erase_attrs (t : tree) : tree := tmap (fun d => with_attrs d []) t.

(** A document that the cleaner supports (src/task/preclean_checks.rs, README). *)
Definition is_event_name (n : aname) : Prop :=
  In n (map AN [AOnfocusin; AOnfocusout; AOnactivate; AOnclick; AOnmousedown; AOnmouseup; AOnmouseover; AOnmousemove;
    AOnmouseout; AOnload; AOnunload; AOnabort; AOnerror; AOnresize; AOnscroll; AOnzoom; AOnbegin; AOnend; AOnrepeat]).
Definition is_animation (e : eid) : Prop := In e [EAnimate; EAnimateColor; EAnimateMotion; EAnimateTransform; ESet].
Record supported_element (e : eid) (d : ndata) : Prop := {
  se_not_script : e <> EScript;
  se_not_animated : ~ is_animation e;
  se_no_events : forall a, In a (attrs d) -> ~ is_event_name (a_name a);
  se_unconditional : forall x s, In x [ARequiredFeatures; ASystemLanguage] -> d_get d x = Some (VStr s) -> s = ""%string;
  se_no_external : ~ In e [EA; EImage; EFontFaceUri; EFeImage] -> forall s, d_get d AXlinkHref <> Some (VStr s)
}.
Definition supported (t : tree) : Prop :=
  forall d e, In d (flat t) -> tag d = TEl e -> supported_element e d.

(** Elements that are never rendered directly, only through a reference (SVG 1.1). *)
Definition never_rendered (e : eid) : bool :=
  existsb (eid_eqb e) [EDefs; EAltGlyphDef; EClipPath; ECursor; EFilter; ELinearGradient; EMarker; EMask; EPattern;
    ERadialGradient; ESymbol].
(** The nodes that are rendered directly, in document order. *)
Fixpoint rendered (t : tree) : list ndata :=
  match t with T d ch => if tag_sat never_rendered d then [] else d :: flat_map rendered ch end.
