(** Specification of gradient attributes (SVG 1.1, 13.2.2 and 13.2.3), on documents only. *)
From Coq Require Import List Bool NArith Arith ZArith String QArith Qcanon.
From Verif Require Import Names Num Value Dom SpecDom SpecStops.
Import ListNotations.
Local Open Scope nat_scope.

(** The attribute [a] of [d], its own or the first one along xlink:href; [None] if there is none. *)
Inductive along_href (t : tree) (a : aid) : ndata -> option value -> Prop :=
| ah_own d v : d_get d a = Some v -> along_href t a d (Some v)
| ah_end d : d_get d a = None -> d_get d AXlinkHref = None -> along_href t a d None
| ah_next d k x r : d_get d a = None -> d_get d AXlinkHref = Some (VLink k) -> In x (flat t) -> key x = k ->
    along_href t a x r -> along_href t a d r.
(** Default values; gradientTransform has none. *)
Definition gradient_default (a : aid) : option value :=
  match a with
  | AGradientUnits => Some (VPre Vid_objectBoundingBox)
  | ASpreadMethod => Some (VPre Vid_pad)
  | AX1 | AY1 | AY2 => Some (VLen (Len (zq 0) UPercent))
  | AX2 => Some (VLen (Len (zq 100) UPercent))
  | ACx | ACy | AR => Some (VLen (Len (zq 50) UPercent))
  | _ => None
  end.
Definition linear_attrs : list aid := [AGradientUnits; ASpreadMethod; AX1; AY1; AX2; AY2; AGradientTransform].
Definition radial_attrs : list aid := [AGradientUnits; ASpreadMethod; ACx; ACy; AR; AFx; AFy; AGradientTransform].
(** The value of a geometry attribute of a gradient, in the document [t]. *)
Inductive effective (t : tree) (d : ndata) (a : aid) : option value -> Prop :=
| eff_found v : along_href t a d (Some v) -> effective t d a (Some v)
| eff_default : along_href t a d None -> ~ In a [AFx; AFy] -> effective t d a (gradient_default a)
| eff_fx v : a = AFx -> along_href t a d None -> effective t d ACx v -> effective t d a v
| eff_fy v : a = AFy -> along_href t a d None -> effective t d ACy v -> effective t d a v.
(** No cycle of references: there is a rank that decreases along each of them. *)
Definition acyclic (t : tree) : Prop :=
  exists rank : nat -> nat, forall d k, In d (flat t) -> refers_to d k -> rank k < rank (key d).
(** The xlink:href chain that starts at [d] ends: it has no cycle and consists of links. *)
Inductive chain_ends (t : tree) : ndata -> Prop :=
| ce_end d : d_get d AXlinkHref = None -> chain_ends t d
| ce_next d k x : d_get d AXlinkHref = Some (VLink k) -> In x (flat t) -> key x = k -> chain_ends t x -> chain_ends t d.
(** The elements named [e] do not refer to each other in a cycle. *)
Definition acyclic_kind (e : eid) (t : tree) : Prop :=
  exists rank : nat -> nat, forall d x, In d (flat t) -> In x (flat t) -> tag d = TEl e -> tag x = TEl e -> refers_to d (key x) -> rank (key x) < rank (key d).
