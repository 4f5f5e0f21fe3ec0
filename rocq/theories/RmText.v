(** Model of src/task/rm_text_attrs.rs. *)
From Coq Require Import List Bool NArith Arith ZArith String Ascii Lia QArith Qcanon.
From Verif Require Import Names Num Value Dom DomFacts DomOps Outcome DomRemove Stops.
Import ListNotations.
Local Open Scope nat_scope.

(** src/task/rm_text_attrs.rs:29-52 [TEXT_ATTRIBUTES] *)
Definition text_attributes : list aid :=
  [AAlignmentBaseline; ABaselineShift; ADirection; ADominantBaseline; AFont; AFontFamily; AFontSize; AFontSizeAdjust; AFontStretch; AFontStyle;
   AFontVariant; AFontWeight; AGlyphOrientationHorizontal; AGlyphOrientationVertical; AKerning; ALetterSpacing; ALineHeight; ATextAnchor;
   ATextDecoration; AWordSpacing; AWritingMode; AXmlSpace].
(** svgdom's [remove_attributes] *)
Definition rm_all (l : list aid) (d : ndata) : ndata := fold_left d_rm l d.
Definition is_text (d : ndata) : bool := match tag d with TText _ => true | _ => false end.
Definition has_text (t : tree) : bool := existsb is_text (flat t).
(** src/task/rm_text_attrs.rs:126-146 [has_em_ex_attributes] *)
Definition em_ex (v : value) : bool := match v with VLen l => match unit l with UEm | UEx => true | _ => false end | _ => false end.
Definition has_em_ex_attributes (d : ndata) : bool := existsb (fun x => em_ex (a_val x)) (attrs d).
(** src/task/rm_text_attrs.rs:148-161 [is_linked_text]; [t0] is the document *)
Definition is_linked_text (t0 : tree) (d : ndata) : bool :=
  is_tag EUse d && match d_get d AXlinkHref with
                   | Some (VLink k) => match find_sub k t0 with Some s => has_text s | None => false end
                   | _ => false
                   end.
(** src/task/rm_text_attrs.rs:82-120, the body of the loop for one child; the second component is false
    when [no_td] is set to false. The document is read only for text nodes, so the original one is used. *)
Fixpoint rm_text_child (t0 : tree) (t : tree) : tree * bool :=
  match t with
  | T d0 ch =>
      let d := d_rm d0 ALineHeight in
      if negb (is_svg_el d) then (T d ch, negb (is_text d))
      else match ch with
           | [] =>
               let no_td := negb (is_text d || is_tag ETref d || has_em_ex_attributes d) in
               (T (if no_td && negb (is_tag EFontFace d) && negb (is_linked_text t0 d) then rm_all text_attributes d else d) [], no_td)
           | _ =>
               let r := map (rm_text_child t0) ch in
               let can_rm := forallb snd r in
               (T (if can_rm && negb (is_tag EFontFace d) then rm_all text_attributes d else d) (map fst r), can_rm)
           end
  end.
(** src/task/rm_text_attrs.rs:75-124 [_remove_text_attributes] of the root *)
Definition rm_text_root (t : tree) : tree := match t with T d ch => T d (map (fun c => fst (rm_text_child t c)) ch) end.

(** [char::is_whitespace] for ASCII; strings are bytes here, so other white space characters of Unicode
    are not seen. *)
Definition is_space (c : ascii) : bool := let n := nat_of_ascii c in (Nat.leb 9 n && Nat.leb n 13) || Nat.eqb n 32.
Fixpoint adjacent_spaces (l : list ascii) : bool :=
  match l with
  | c1 :: ((c2 :: _) as l') => (is_space c1 && is_space c2) || adjacent_spaces l'
  | _ => false
  end.
Fixpoint trim_start (l : list ascii) : list ascii := match l with c :: l' => if is_space c then trim_start l' else l | [] => [] end.
Definition trim (l : list ascii) : list ascii := rev (trim_start (rev (trim_start l))).
Definition ascii_list_eqb (a b : list ascii) : bool := if list_eq_dec ascii_dec a b then true else false.
(** src/task/rm_text_attrs.rs:214-243 [is_text_contains_spaces] *)
Definition contains_spaces (s : string) : bool :=
  let l := list_ascii_of_string s in
  match l with
  | [] => false
  | _ => if ascii_list_eqb (trim l) l then adjacent_spaces (trim l) else true
  end.
Definition spaced_text (d : ndata) : bool := match tag d with TText s => contains_spaces s | _ => false end.
Definition preserves (d : ndata) : bool := match d_get d AXmlSpace with Some v => value_eqb v (VStr "preserve") | None => false end.
(** src/task/rm_text_attrs.rs:170-212 [_remove_xml_space], one child *)
Fixpoint rm_space_child (t : tree) : tree :=
  match t with
  | T d ch =>
      if preserves d then
        match ch with
        | [] => T (d_rm d AXmlSpace) []
        | _ => T (if existsb spaced_text (flat t) then d else d_rm d AXmlSpace) (map rm_space_child ch)
        end
      else T d (map rm_space_child ch)
  end.
(** src/task/rm_text_attrs.rs:166-168 [remove_xml_space] *)
Definition remove_xml_space (t : tree) : tree := match t with T d ch => T d (map rm_space_child ch) end.
(** src/task/rm_text_attrs.rs:54-72 [remove_text_attributes] *)
Definition remove_text_attributes (t : tree) : result tree :=
  let t1 := remove_xml_space (rm_text_root t) in
  match svg_element t1 with
  | None => Panic
  | Some s => Ok (if has_text s then t1 else tmap (fun d => if is_tag EFontFace d then rm_all text_attributes d else d) t1)
  end.
