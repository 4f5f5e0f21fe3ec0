(** Attribute values (svgdom's AttributeValue and the types inside it). *)
From Coq Require Import List Bool NArith String QArith Qcanon.
From Verif Require Import Names Num.
Import ListNotations.

(** svgdom::LengthUnit (src/task/mod.rs:90). *)
Inductive unit_ := UNone | UEm | UEx | UPx | UIn | UCm | UMm | UPt | UPc | UPercent.
Definition unit_eqb (a b : unit_) : bool :=
  match a, b with
  | UNone, UNone | UEm, UEm | UEx, UEx | UPx, UPx | UIn, UIn | UCm, UCm | UMm, UMm | UPt, UPt | UPc, UPc
  | UPercent, UPercent => true
  | _, _ => false
  end.
Lemma unit_eqb_spec a b : reflect (a = b) (unit_eqb a b).
Proof. destruct a, b; constructor; congruence. Qed.

(** svgdom::Length *)
Record len : Type := Len { num : Qc; unit : unit_ }.
Definition len_eqb (a b : len) : bool := qeqb (num a) (num b) && unit_eqb (unit a) (unit b).
Lemma len_eqb_spec a b : reflect (a = b) (len_eqb a b).
Proof.
  destruct a as [n u], b as [m v]; unfold len_eqb; cbn.
  destruct (qeqb_spec n m), (unit_eqb_spec u v); constructor; congruence.
Qed.

(** svgdom::Transform, the matrix (a c e / b d f / 0 0 1). *)
Record transform : Type := Tr { ta : Qc; tb : Qc; tc : Qc; td : Qc; te : Qc; tf : Qc }.
Definition transform_eqb (s t : transform) : bool :=
  qeqb (ta s) (ta t) && qeqb (tb s) (tb t) && qeqb (tc s) (tc t) &&
  qeqb (td s) (td t) && qeqb (te s) (te t) && qeqb (tf s) (tf t).
Lemma transform_eqb_spec s t : reflect (s = t) (transform_eqb s t).
Proof.
  destruct s as [a b c d e f], t as [a' b' c' d' e' f']; unfold transform_eqb; cbn.
  destruct (qeqb_spec a a'), (qeqb_spec b b'), (qeqb_spec c c'), (qeqb_spec d d'), (qeqb_spec e e'), (qeqb_spec f f');
    constructor; congruence.
Qed.
Definition t_id : transform := Tr q1 q0 q0 q1 q0 q0.

(** svgdom::path::SegmentData *)
Inductive seg : Type :=
| MoveTo (x y : Qc)
| LineTo (x y : Qc)
| HLine (x : Qc)
| VLine (y : Qc)
| CurveTo (x1 y1 x2 y2 x y : Qc)
| SmoothCurve (x2 y2 x y : Qc)
| Quad (x1 y1 x y : Qc)
| SmoothQuad (x y : Qc)
| Arc (rx ry rot : Qc) (large sweep : bool) (x y : Qc)
| ClosePath.

(** svgdom::path::Segment *)
Record segment : Type := Seg { absolute : bool; sdata : seg }.

Definition seg_eqb (a b : seg) : bool :=
  match a, b with
  | MoveTo x y, MoveTo x' y' => qeqb x x' && qeqb y y'
  | LineTo x y, LineTo x' y' => qeqb x x' && qeqb y y'
  | HLine x, HLine x' => qeqb x x'
  | VLine x, VLine x' => qeqb x x'
  | CurveTo a b c d x y, CurveTo a' b' c' d' x' y' =>
      qeqb a a' && qeqb b b' && qeqb c c' && qeqb d d' && qeqb x x' && qeqb y y'
  | SmoothCurve c d x y, SmoothCurve c' d' x' y' => qeqb c c' && qeqb d d' && qeqb x x' && qeqb y y'
  | Quad c d x y, Quad c' d' x' y' => qeqb c c' && qeqb d d' && qeqb x x' && qeqb y y'
  | SmoothQuad x y, SmoothQuad x' y' => qeqb x x' && qeqb y y'
  | Arc a b c l s x y, Arc a' b' c' l' s' x' y' =>
      qeqb a a' && qeqb b b' && qeqb c c' && Bool.eqb l l' && Bool.eqb s s' && qeqb x x' && qeqb y y'
  | ClosePath, ClosePath => true
  | _, _ => false
  end.
Ltac qsplit := repeat match goal with
  | |- context [qeqb ?x ?y] => destruct (qeqb_spec x y); cbn [andb]
  | |- context [Bool.eqb ?x ?y] => destruct (Bool.eqb_spec x y); cbn [andb]
  end.
Lemma seg_eqb_spec a b : reflect (a = b) (seg_eqb a b).
Proof. destruct a, b; cbn [seg_eqb]; try (constructor; congruence); qsplit; constructor; congruence. Qed.
Definition segment_eqb (a b : segment) : bool := Bool.eqb (absolute a) (absolute b) && seg_eqb (sdata a) (sdata b).
Lemma segment_eqb_spec a b : reflect (a = b) (segment_eqb a b).
Proof.
  destruct a as [p a], b as [q b]; unfold segment_eqb; cbn.
  destruct (Bool.eqb_spec p q), (seg_eqb_spec a b); constructor; congruence.
Qed.

(** svgdom::AttributeValue (the variants the code matches on). Links carry the key of the target
    node, see Dom.v. *)
Inductive value : Type :=
| VStr (s : string)
| VPre (v : vid)
| VColor (r g b : N)
| VLen (l : len)
| VLenList (l : list len)
| VNum (n : Qc)
| VNumList (l : list Qc)
| VLink (k : nat)
| VFunc (k : nat)
| VTransform (t : transform)
| VPath (p : list segment).

Fixpoint list_eqb {A} (eqb : A -> A -> bool) (l m : list A) : bool :=
  match l, m with
  | [], [] => true
  | x :: l', y :: m' => eqb x y && list_eqb eqb l' m'
  | _, _ => false
  end.
Lemma list_eqb_spec {A} (eqb : A -> A -> bool) :
  (forall x y, reflect (x = y) (eqb x y)) -> forall l m, reflect (l = m) (list_eqb eqb l m).
Proof.
  intros H. induction l as [|x l IH]; destruct m as [|y m]; cbn; try (constructor; congruence).
  destruct (H x y), (IH m); cbn; constructor; congruence.
Qed.

Definition value_eqb (a b : value) : bool :=
  match a, b with
  | VStr s, VStr t => String.eqb s t
  | VPre v, VPre w => vid_eqb v w
  | VColor r g b, VColor r' g' b' => N.eqb r r' && N.eqb g g' && N.eqb b b'
  | VLen l, VLen m => len_eqb l m
  | VLenList l, VLenList m => list_eqb len_eqb l m
  | VNum n, VNum m => qeqb n m
  | VNumList l, VNumList m => list_eqb qeqb l m
  | VLink k, VLink j => Nat.eqb k j
  | VFunc k, VFunc j => Nat.eqb k j
  | VTransform s, VTransform t => transform_eqb s t
  | VPath p, VPath q => list_eqb segment_eqb p q
  | _, _ => false
  end.
Lemma value_eqb_spec a b : reflect (a = b) (value_eqb a b).
Proof.
  destruct a, b; cbn [value_eqb]; try (constructor; congruence).
  - destruct (String.eqb_spec s s0); constructor; congruence.
  - destruct (vid_eqb_spec v v0); constructor; congruence.
  - repeat match goal with |- context [N.eqb ?x ?y] => destruct (N.eqb_spec x y) end; constructor; congruence.
  - destruct (len_eqb_spec l l0); constructor; congruence.
  - destruct (list_eqb_spec _ len_eqb_spec l l0); constructor; congruence.
  - destruct (qeqb_spec n n0); constructor; congruence.
  - destruct (list_eqb_spec _ qeqb_spec l l0); constructor; congruence.
  - destruct (Nat.eqb_spec k k0); constructor; congruence.
  - destruct (Nat.eqb_spec k k0); constructor; congruence.
  - destruct (transform_eqb_spec t t0); constructor; congruence.
  - destruct (list_eqb_spec _ segment_eqb_spec p p0); constructor; congruence.
Qed.
Lemma value_eqb_refl a : value_eqb a a = true.
Proof. destruct (value_eqb_spec a a); congruence. Qed.

(** The node a value refers to, if any. *)
Definition link_of (v : value) : option nat :=
  match v with VLink k | VFunc k => Some k | _ => None end.
