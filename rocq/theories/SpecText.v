(** Specification of text and white space (SVG 1.1, 10.15), on documents only. *)
From Coq Require Import List Bool NArith Arith ZArith String Ascii QArith Qcanon.
From Verif Require Import Names Num Value Dom SpecStyle SpecWritten.
Import ListNotations.
Local Open Scope nat_scope.

(** Every subtree with its ancestors, the nearest first, in document order. *)
Fixpoint places (anc : list ndata) (t : tree) : list (list ndata * tree) :=
  match t with T d ch => (anc, t) :: flat_map (places (d :: anc)) ch end.
(** The properties of text. *)
Definition text_properties : list aid :=
  [AAlignmentBaseline; ABaselineShift; ADirection; ADominantBaseline; AFont; AFontFamily; AFontSize; AFontSizeAdjust; AFontStretch; AFontStyle;
   AFontVariant; AFontWeight; AGlyphOrientationHorizontal; AGlyphOrientationVertical; AKerning; ALetterSpacing; ATextAnchor;
   ATextDecoration; AWordSpacing; AWritingMode].
Definition svg_node (d : ndata) : Prop := tag d = TRoot \/ exists e, tag d = TEl e.
(** A text node, an empty tref element, or an empty element with a length in em or ex. *)
Definition depends_on_font (s : tree) : Prop :=
  (exists x, tag (data s) = TText x) \/
  (kids s = [] /\ tag (data s) = TEl ETref) \/
  (kids s = [] /\ (exists e, tag (data s) = TEl e) /\
   exists x l, In x (attrs (data s)) /\ a_name x <> AN ALineHeight /\ a_val x = VLen l /\ (unit l = UEm \/ unit l = UEx)).
Definition has_font_face (l : list ndata) : Prop := exists d, In d l /\ tag d = TEl EFontFace.

(** White space handling. *)
Definition newline (c : ascii) : bool := Nat.eqb (nat_of_ascii c) 10 || Nat.eqb (nat_of_ascii c) 13.
Definition tab (c : ascii) : bool := Nat.eqb (nat_of_ascii c) 9.
Definition blank (c : ascii) : bool := Nat.eqb (nat_of_ascii c) 32.
Definition sp : ascii := ascii_of_nat 32.
Fixpoint strip_start (l : list ascii) : list ascii := match l with c :: l' => if blank c then strip_start l' else l | [] => [] end.
Definition strip (l : list ascii) : list ascii := rev (strip_start (rev (strip_start l))).
Fixpoint consolidate (l : list ascii) : list ascii :=
  match l with
  | c1 :: ((c2 :: _) as l') => if blank c1 && blank c2 then consolidate l' else c1 :: consolidate l'
  | _ => l
  end.
(** xml:space="default" and xml:space="preserve" *)
Definition default_text (s : string) : list ascii :=
  consolidate (strip (map (fun c => if tab c then sp else c) (filter (fun c => negb (newline c)) (list_ascii_of_string s)))).
Definition preserved_text (s : string) : list ascii := map (fun c => if tab c || newline c then sp else c) (list_ascii_of_string s).
(** The text that is shown for a text node with the given ancestors. *)
Definition shown_text (anc : list ndata) (s : string) : list ascii :=
  match nearest AXmlSpace (map vis anc) with
  | Some (VStr "preserve"%string) => preserved_text s
  | _ => default_text s
  end.
(** White space consists of spaces and tabs only. *)
Definition plain_space (s : string) : Prop :=
  forall c, In c (list_ascii_of_string s) -> let n := nat_of_ascii c in ~ (10 <= n <= 13).
(** A document has one root node, and the only element outside of everything is the svg element. *)
Definition one_root (t : tree) : Prop :=
  tag (data t) = TRoot /\ (forall c d, In c (kids t) -> In d (flat c) -> tag d <> TRoot) /\
  forall c, In c (kids t) -> (exists e, tag (data c) = TEl e) \/ (exists s, tag (data c) = TText s) -> svg_element t = Some c.
