(** What ungrouping of groups must keep, on documents only. *)
From Coq Require Import List Bool NArith Arith ZArith String QArith Qcanon.
From Verif Require Import Names Num Value Dom SpecDom SpecText SpecPaint SpecUse.
Import ListNotations.
Local Open Scope nat_scope.

Definition group (s : tree) : Prop := tag (data s) = TEl EG.
(** What is inside of an element. *)
Definition inside (s : tree) : list ndata := flat_map flat (kids s).
(** There is something else than groups inside. *)
Definition not_hollow (s : tree) : Prop := exists d, In d (inside s) /\ tag d <> TEl EG.

(** The documents for which ungrouping is claimed to be right. *)
Record gready (t : tree) : Prop := {
  g_wf : WF t;
  g_wfa : WFA t;
  g_root : tag (data t) = TRoot;
  g_svg : exists s, svg_element t = Some s;
  g_top : forall c, In c (kids t) -> ~ group c;
  g_ids : own_ids t;
  (* a group is not inside of a shape or of a text *)
  g_shape : forall a s p, In (a, s) (places [] t) -> group s -> In p a -> ~ shape_el p;
  (* the alternatives of a switch are not hollow, and only they are conditional *)
  g_switch : forall a s p, In (a, s) (places [] t) -> group s -> In p a -> tag p = TEl ESwitch ->
    not_hollow s /\ forall c, In c (kids s) -> element (data c) /\ given (data c) condition_attrs = [];
  (* a group that is used is not hollow *)
  g_used : forall s, In s (subs t) -> group s -> referenced t (root_key s) -> not_hollow s;
  (* a group has only attributes that have a meaning for it; it is not conditional; and the only display is none *)
  g_attrs : forall d a v, In d (flat t) -> tag d = TEl EG -> d_get d a = Some v ->
    elsewhere (AN a) = true /\ ~ In a condition_attrs /\ (a = ADisplay -> v = VPre Vid_none) /\
    (In a [AClipPath; AMask; AFilter] -> v = VPre Vid_none \/ exists k, v = VFunc k);
  g_opacity : forall d v, In d (flat t) -> d_get d AOpacity = Some v -> exists x, v = VNum x /\ (0 <= x)%Qc /\ (x <= 1)%Qc;
  g_trans : forall d v, In d (flat t) -> d_get d ATransform = Some v -> exists m, v = VTransform m;
  (* masks, patterns, markers and clip paths are not in groups *)
  g_below : forall s d, In s (subs t) -> group s -> In d (inside s) -> ~ resource d;
  (* in a group with a transform, nothing is used and there is no viewport *)
  g_moved : forall s d, In s (subs t) -> group s -> d_get (data s) ATransform <> None -> In d (inside s) ->
    tag d <> TEl ESvg /\ ~ referenced t (key d)
}.

(** The nodes that are not groups, in document order. *)
Definition others (t : tree) : list (nat * tagt * string) :=
  map (fun d => (key d, tag d, nid d)) (filter (fun d => negb (is_tag EG d)) (flat t)).
(** The group [g], a child of [p], is there for a reason. *)
Definition needed (t : tree) (p : ndata) (g : tree) : Prop :=
  (kids g = [] -> d_get (data g) AFilter <> None) /\
  (referenced t (root_key g) \/ (exists a, In a [AMask; AClipPath; AFilter] /\ d_get (data g) a <> None) \/ tag p = TEl EClipPath \/
   ((forall c, kids g = [c] -> referenced t (root_key c)) /\ (tag p = TEl ESwitch \/ attrs (data g) <> []))).
