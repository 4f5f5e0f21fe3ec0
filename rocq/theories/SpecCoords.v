(** Specification for unused coordinates, on documents only. *)
From Coq Require Import List Bool NArith Arith ZArith String QArith Qcanon.
From Verif Require Import Names Num Value Dom SpecWritten SpecGradients.
Import ListNotations.
Local Open Scope nat_scope.

(** A length for an axis of the given extent: percentages are taken of the extent. *)
Definition used_len (extent : Qc) (l : len) : len :=
  match unit l with UPercent => Len (num l * extent / zq 100)%Qc UNone | _ => l end.
Definition given (d : ndata) (a : aid) (extent : Qc) : option len :=
  match d_get d a with Some (VLen l) => Some (used_len extent l) | _ => None end.
Definition or_else {A} (x y : option A) : option A := match x with Some _ => x | None => y end.
(** The corner radii of a rect in a viewport of size [w], [h] (SVG 1.1, 9.2): a missing one equals the
    other one. [None]: no rounding. *)
Definition radii (w h : Qc) (d : ndata) : option len * option len :=
  (or_else (given d ARx w) (given d ARy h), or_else (given d ARy h) (given d ARx w)).
(** Linear gradients refer to linear gradients only and have no focus. *)
Definition linear_only (t : tree) : Prop :=
  forall d, In d (flat t) -> tag d = TEl ELinearGradient -> d_has d AFx = false /\ d_has d AFy = false /\
    forall k x, d_get d AXlinkHref = Some (VLink k) -> In x (flat t) -> key x = k -> tag x = TEl ELinearGradient.
(** The attributes that may be hidden. *)
Definition may_hide (t : tree) (d : ndata) (a : aid) : Prop :=
  match tag d with
  | TEl ESvg => In (key d) (map root_key (kids t)) /\ In a [AX; AY]
  | TEl ERect => a = ARy
  | TEl ERadialGradient => In a [AFx; AFy]
  | _ => False
  end.
(** [d'] is [d] with some attributes hidden. *)
Definition hidden_only (p : aid -> Prop) (d d' : ndata) : Prop :=
  key d' = key d /\ tag d' = tag d /\ nid d' = nid d /\
  Forall2 (fun x x' => x' = x \/ (x' = At (a_name x) (a_val x) false /\ exists a, a_name x = AN a /\ p a)) (attrs d) (attrs d').
