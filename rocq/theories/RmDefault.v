(** Model of src/task/rm_default_attrs.rs. svgdom's table of default values of presentation attributes is
    the parameter [dv]; its source is not available. *)
From Coq Require Import List Bool NArith Arith ZArith String Lia QArith Qcanon.
From Verif Require Import Names Num Value Dom DomFacts DomOps Outcome DomRemove Stops Shapes APass.
Import ListNotations.
Local Open Scope nat_scope.

Definition zero_len : len := Len q0 UNone.
Definition pct (n : Z) : value := VLen (Len (zq n) UPercent).
Definition one_of (l : list eid) (e : eid) : bool := existsb (eid_eqb e) l.
(** src/task/rm_default_attrs.rs:87-231 [is_default] *)
Definition is_default (e : eid) (a : aid) (v : value) : bool :=
  if is_gradient e then false else
  match a with
  | AX | AY =>
      if eid_eqb e EGlyphRef then false
      else if one_of [EMask; EFilter] e then value_eqb v (pct (-10))
      else match v with
           | VLen l => len_eqb l zero_len
           | VLenList [l] => eid_eqb e EText && len_eqb l zero_len
           | _ => false
           end
  | AWidth | AHeight =>
      if eid_eqb e ESvg then value_eqb v (pct 100)
      else if eid_eqb e EPattern then value_eqb v (VLen zero_len)
      else if one_of [EMask; EFilter] e then value_eqb v (pct 120)
      else false
  | ACx | ACy => one_of [ECircle; EEllipse] e && value_eqb v (VLen zero_len)
  | ARefX | ARefY => eid_eqb e EMarker && value_eqb v (VLen zero_len)
  | AX1 | AY1 | AX2 | AY2 => eid_eqb e ELine && value_eqb v (VLen zero_len)
  | AStdDeviation => value_eqb v (VLen zero_len)
  | AUnitsPerEm => value_eqb v (VStr "1000")
  | ASlope => if eid_eqb e EFontFace && value_eqb v (VStr "0") then true else value_eqb v (VStr "1")
  | AClipPathUnits | AMaskContentUnits | APatternContentUnits | APrimitiveUnits => value_eqb v (VPre Vid_userSpaceOnUse)
  | AMaskUnits | APatternUnits | AFilterUnits => value_eqb v (VPre Vid_objectBoundingBox)
  | _ => false
  end.
(** svgdom's [Attribute::check_is_default]. *)
Definition check_is_default (dv : aid -> option value) (a : aid) (v : value) : bool :=
  match dv a with Some w => value_eqb v w | None => false end.
(** src/task/rm_default_attrs.rs:40-74: is the attribute put on the list? [svg] is the key of the svg
    element, [e] the name of the node. *)
Definition default_attr (dv : aid -> option value) (svg : option nat) (anc : list ndata) (d : ndata) (e : eid) (x : attr) : bool :=
  match a_name x with
  | ANx _ => false
  | AN a =>
      if is_presentation a then
        if check_is_default dv a (a_val x) then
          match find (fun n => d_has n a) anc with
          | Some n => match get_attr (attrs n) a with Some y => negb (a_vis y) | None => false end
          | None => true
          end
        else if aid_eqb a AOverflow then
          if match svg with Some k => Nat.eqb k (key d) | None => false end
          then value_eqb (a_val x) (VPre Vid_visible)
          else value_eqb (a_val x) (VPre Vid_hidden)
        else false
      else is_default e a (a_val x)
  end.
Definition hide (x : attr) : attr := At (a_name x) (a_val x) false.
Definition hide_if (p : attr -> bool) (d : ndata) : ndata := with_attrs d (map (fun x => if p x then hide x else x) (attrs d)).
(** src/task/rm_default_attrs.rs:37-84, one node. The attributes of the list are hidden by name; names
    of attributes are unique. *)
Definition default_node (dv : aid -> option value) (svg : option nat) (anc : list ndata) (d : ndata) : ndata :=
  match tag d with TEl e => hide_if (default_attr dv svg anc d e) d | _ => d end.
(** src/task/rm_default_attrs.rs:33-85 [remove_default_attributes]. [svg_element().unwrap()] is evaluated
    only in nodes; it cannot fail since documents without svg element are rejected by the parser. *)
Definition remove_default_attributes (dv : aid -> option value) (t : tree) : result tree :=
  apass (fun anc d => Ok (default_node dv (option_map root_key (svg_element t)) anc d)) [] t.
