(** Specification of default values (SVG 1.1), on documents only. *)
From Coq Require Import List Bool NArith Arith ZArith String QArith Qcanon.
From Verif Require Import Names Num Value Dom SpecStyle SpecWritten APass.
Import ListNotations.
Local Open Scope nat_scope.

(** The computed value of a property in the saved document; the list is the node followed by its
    ancestors. An inherited property takes the nearest written value, any other one the own value. *)
Definition computed_written (dv : aid -> option value) (l : list ndata) (a : aid) : option value :=
  match nearest a (map vis l) with Some v => Some v | None => dv a end.
Definition own_written (dv : aid -> option value) (d : ndata) (a : aid) : option value :=
  match d_get (vis d) a with Some v => Some v | None => dv a end.
(** The presentation attributes hidden by earlier steps have the default as computed value. *)
Fixpoint hidden_defaults (dv : aid -> option value) (l : list ndata) : Prop :=
  match l with
  | [] => True
  | d :: l' => hidden_defaults dv l' /\
      forall a x, get_attr (attrs d) a = Some x -> a_vis x = false -> is_presentation a = true -> a <> AOverflow ->
        computed_written dv (d :: l') a = dv a /\ Some (a_val x) = dv a
  end.
Definition hidden_ok (dv : aid -> option value) (t : tree) : Prop := forall c, In c (ctx [] t) -> hidden_defaults dv (snd c :: fst c).

(** [absent e a v]: an element [e] without the attribute [a] is the same as one with the value [v]. *)
Definition zero : value := VLen (Len q0 UNone).
Definition percent_ (n : Z) : value := VLen (Len (zq n) UPercent).
Inductive absent : eid -> aid -> value -> Prop :=
| ab_xy e a : In e [ERect; EUse; EImage; EForeignObject; ESvg; EPattern; EText; ECursor] -> In a [AX; AY] -> absent e a zero
| ab_text a : In a [AX; AY] -> absent EText a (VLenList [Len q0 UNone])
| ab_region e a : In e [EMask; EFilter] -> In a [AX; AY] -> absent e a (percent_ (-10))
| ab_region_size e a : In e [EMask; EFilter] -> In a [AWidth; AHeight] -> absent e a (percent_ 120)
| ab_svg a : In a [AWidth; AHeight] -> absent ESvg a (percent_ 100)
| ab_pattern a : In a [AWidth; AHeight] -> absent EPattern a zero
| ab_centre e a : In e [ECircle; EEllipse] -> In a [ACx; ACy] -> absent e a zero
| ab_ref a : In a [ARefX; ARefY] -> absent EMarker a zero
| ab_line a : In a [AX1; AY1; AX2; AY2] -> absent ELine a zero
| ab_blur : absent EFeGaussianBlur AStdDeviation zero
| ab_em : absent EFontFace AUnitsPerEm (VStr "1000")
| ab_slope : absent EFontFace ASlope (VStr "0")
| ab_func e : In e [EFeFuncR; EFeFuncG; EFeFuncB; EFeFuncA] -> absent e ASlope (VStr "1")
| ab_clip : absent EClipPath AClipPathUnits (VPre Vid_userSpaceOnUse)
| ab_mask_content : absent EMask AMaskContentUnits (VPre Vid_userSpaceOnUse)
| ab_pattern_content : absent EPattern APatternContentUnits (VPre Vid_userSpaceOnUse)
| ab_filter_content : absent EFilter APrimitiveUnits (VPre Vid_userSpaceOnUse)
| ab_mask : absent EMask AMaskUnits (VPre Vid_objectBoundingBox)
| ab_pattern_units : absent EPattern APatternUnits (VPre Vid_objectBoundingBox)
| ab_filter : absent EFilter AFilterUnits (VPre Vid_objectBoundingBox).
(** The elements that SVG 1.1 gives the attribute to (only the ones in the list above). *)
Definition has_meaning (e : eid) (a : aid) : Prop :=
  match a with
  | AX | AY => In e [ERect; EUse; EImage; EForeignObject; ESvg; EPattern; EText; ECursor; EMask; EFilter]
  | AStdDeviation => e = EFeGaussianBlur
  | AUnitsPerEm => e = EFontFace
  | ASlope => In e [EFontFace; EFeFuncR; EFeFuncG; EFeFuncB; EFeFuncA]
  | AClipPathUnits => e = EClipPath
  | AMaskContentUnits | AMaskUnits => e = EMask
  | APatternContentUnits | APatternUnits => e = EPattern
  | APrimitiveUnits | AFilterUnits => e = EFilter
  | _ => True
  end.
(** overflow when it is not written: 'visible' for the root element, 'hidden' for the elements that
    establish viewports (SVG 1.1, 14.3.3). *)
Definition overflow_absent (root_svg : bool) : value := if root_svg then VPre Vid_visible else VPre Vid_hidden.
(** Nothing but the visibility of attributes changes, and only from visible to hidden. *)
Definition only_hidden (d d' : ndata) : Prop :=
  key d' = key d /\ tag d' = tag d /\ nid d' = nid d /\
  Forall2 (fun x x' => a_name x' = a_name x /\ a_val x' = a_val x /\ (a_vis x = false -> a_vis x' = false)) (attrs d) (attrs d').
(** The computed value for a copy of [d] that is made by the use element [u] (SVG 1.1, 5.6: the copy
    inherits from the use element). *)
Definition computed_copy (dv : aid -> option value) (d : ndata) (u : list ndata) (a : aid) : option value := computed_written dv (d :: u) a.
