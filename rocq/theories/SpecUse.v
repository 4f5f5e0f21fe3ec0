(** Specification for replacing use elements, on documents only. *)
From Coq Require Import List Bool NArith Arith ZArith String QArith Qcanon.
From Verif Require Import Names Num Value Dom SpecDom SpecStyle SpecText SpecPaint.
Import ListNotations.
Local Open Scope nat_scope.

(** A use element [u] that is not used itself, and the element [l] it shows: a child of a defs element that nothing else refers to. *)
Record replaceable (t u l : tree) : Prop := {
  r_use : In u (subs t) /\ tag (data u) = TEl EUse;
  r_link : In l (subs t) /\ d_get (data u) AXlinkHref = Some (VLink (root_key l));
  r_free : forall d, In d (flat t) -> ~ refers_to d (root_key u);
  r_defs : exists p a, In (p :: a, l) (places [] t) /\ tag p = TEl EDefs;
  r_tag : tag (data l) <> TEl ESymbol /\ tag (data l) <> TEl EUse;
  r_once : forall d x, In d (flat t) -> In x (attrs d) -> link_of (a_val x) = Some (root_key l) -> d = data u /\ a_name x = AN AXlinkHref
}.
(** What the theorem needs to know about such a pair. *)
Record fits (t u l : tree) : Prop := {
  (* x and y are in user units *)
  f_units : forall a v, In a [AX; AY] -> d_get (data u) a = Some (VLen v) -> unit v = UNone;
  (* the use element has only attributes that a use element can have, but not width and height *)
  f_attrs : forall x, In x (attrs (data u)) -> In (a_name x) [AN AX; AN AY; AN AXlinkHref] \/ elsewhere (a_name x) = true;
  (* no attribute is on both elements *)
  f_disjoint : forall a, d_has (data u) a = true -> d_has (data l) a = true -> In a [AX; AY; AXlinkHref; AClass];
  f_moved : d_has (data u) AX = true \/ d_has (data u) AY = true -> d_has (data l) ATransform = false;
  (* if the use element has effects, the shown element has neither effects, nor opacity, nor a transform *)
  f_effects : effects (data u) = [] \/
    (shape_el (data l) \/ group_el (data l) \/ tag (data l) = TEl ESwitch) /\ displayed (data l) /\
    effects (data l) = [] /\ d_has (data l) AOpacity = false /\ d_has (data l) ATransform = false;
  (* in a switch, the shown element has no conditions *)
  f_switch : forall p a, In (p :: a, u) (places [] t) -> tag p = TEl ESwitch -> element (data l) /\ given (data l) condition_attrs = [];
  f_svg : tag (data l) <> TEl ESvg;
  (* nothing of interest is inside the use element *)
  f_inside : forall d, In d (flat_map flat (kids u)) -> tag d <> TEl EUse /\ ~ resource d /\ forall x, In x (flat t) -> ~ refers_to x (key d);
  (* the elements are not inside text or foreign objects *)
  f_place : forall a p, In (a, u) (places [] t) \/ In (a, l) (places [] t) -> In p a -> ~ shape_el p;
  (* the shown element contains no mask, pattern, marker or clip path *)
  f_resource : forall d, In d (flat l) -> ~ resource d
}.
(** No element shows itself: the shown elements can be ordered such that what is shown inside comes first. *)
Definition no_recursion (t : tree) : Prop :=
  exists rank : nat -> nat, forall u l u' l', replaceable t u l -> replaceable t u' l' -> In u' (subs l) -> rank (root_key l') < rank (root_key l).
(** Targets of references have an id of their own. *)
Definition own_ids (t : tree) : Prop :=
  forall d n, In d (flat t) -> In n (flat t) -> refers_to d (key n) -> nid n <> EmptyString /\ forall x, In x (flat t) -> nid x = nid n -> x = n.
Record uready (t : tree) : Prop := {
  u_wf : WF t;
  u_wfa : WFA t;
  u_root : tag (data t) = TRoot;
  u_ids : own_ids t;
  u_fits : forall u l, replaceable t u l -> fits t u l;
  u_rec : no_recursion t
}.
