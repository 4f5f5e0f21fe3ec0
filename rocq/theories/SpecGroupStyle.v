(** What grouping by style must keep, on documents only. *)
From Coq Require Import List Bool NArith Arith ZArith String QArith Qcanon.
From Verif Require Import Names Num Value Dom SpecDom SpecText SpecPaint SpecUse SpecUngroup.
Import ListNotations.
Local Open Scope nat_scope.

Definition holder (d : ndata) : Prop := tag d = TEl EG \/ tag d = TEl ESvg.
(** The documents for which grouping by style is claimed to be right. *)
Record sready (t : tree) : Prop := {
  s_wf : WF t;
  s_wfa : WFA t;
  s_root : tag (data t) = TRoot;
  s_svg : exists s, svg_element t = Some s /\ ~ referenced t (root_key s);
  s_ids : own_ids t;
  (* there are no groups inside of a shape or of a text *)
  s_shape : forall a s p, In (a, s) (places [] t) -> holder (data s) -> In p a -> ~ shape_el p;
  s_trans : forall d v, In d (flat t) -> d_get d ATransform = Some v -> exists m, v = VTransform m;
  s_effects : forall d a v, In d (flat t) -> tag d = TEl EG -> In a [AClipPath; AMask; AFilter] -> d_get d a = Some v -> v = VPre Vid_none \/ exists k, v = VFunc k;
  (* masks, patterns, markers and clip paths are not children of groups, and there are no unknown elements around them *)
  s_res : forall a s, In (a, s) (places [] t) -> resource (data s) ->
    (forall p b, a = p :: b -> ~ holder p) /\ forall p, In p a -> p = data t \/ exists e, tag p = TEl e;
  (* a transform means nothing on a svg element (SVG 1.1), and none will get there *)
  s_viewts : forall d, In d (flat t) -> tag d = TEl ESvg -> d_get d ATransform = None;
  s_views : forall s, In s (subs t) -> tag (data s) = TEl ESvg ->
    (exists c, In c (kids s) /\ tag (data c) = TEl EDefs) \/ forall d, In d (inside s) -> d_get d ATransform = None
}.
(** Every node is kept, with its id, and the new ones are groups without an id. *)
Definition only_groups_added (t t' : tree) : Prop :=
  (forall d, In d (flat t) -> exists d', In d' (flat t') /\ key d' = key d /\ tag d' = tag d /\ nid d' = nid d) /\
  (forall d', In d' (flat t') -> In (key d') (keys t) \/ tag d' = TEl EG /\ nid d' = EmptyString).
