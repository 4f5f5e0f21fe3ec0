(** What cleaning as a whole must keep, on documents only: the picture, apart from what cannot be seen. *)
From Coq Require Import List Bool NArith Arith ZArith String QArith Qcanon.
From Verif Require Import Names Num Value Dom SpecDom SpecStyle SpecText SpecPaint.
Import ListNotations.
Local Open Scope nat_scope.

(** Titles, descriptions and metadata. *)
Definition remark (d : ndata) : bool := is_tag ETitle d || is_tag EDesc d || is_tag EMetadata d.
(** An attribute that says nothing: a transform that is the identity; the version and the declaration of the name
    space of an svg element. *)
Definition void_attr (d : ndata) (x : attr) : bool :=
  (has_name (AN ATransform) x && match a_val x with VTransform m => transform_eqb m t_id | _ => false end) ||
  (is_tag ESvg d && (has_name (AN AVersion) x || has_name (AN ABaseProfile) x || has_name (AN AXmlnsXlink) x)).
(** A node without its id and without such attributes; a subtree without remarks. *)
Definition bare_data (d : ndata) : ndata := ND (key d) (tag d) EmptyString (filter (fun x => negb (void_attr d x)) (attrs d)).
Fixpoint bare (s : tree) : list tree :=
  match s with T d ch => if remark d then [] else [T (bare_data d) (flat_map bare ch)] end.
Fixpoint bare_pic (p : pic) : pic :=
  match p with
  | PShape d ch m c => PShape (bare_data d) (flat_map bare ch) m c
  | PLayer o e m l => PLayer o e m (map bare_pic l)
  | PView m s v l => PView m s v (map bare_pic l)
  | PSwitch l => PSwitch (map bare_pic l)
  | PAlt c l => PAlt c (map bare_pic l)
  end.
(** The same pictures, up to ids and remarks. *)
Definition looks (l l' : list pic) : Prop := same (map bare_pic l) (map bare_pic l').

(** [t'] looks like [t], and every mask, pattern, marker and clip path that [t'] has looks like in [t]. *)
Record same_picture (uu : aid -> len -> Qc) (t t' : tree) : Prop := {
  sp_picture : forall l, picture uu t l -> exists l', picture uu t' l' /\ looks l l';
  sp_content : forall d', In d' (flat t') -> resource d' ->
    exists d, In d (flat t) /\ key d = key d' /\ tag d = tag d' /\
      forall l, content uu t (key d) l -> bare_data d = bare_data d' /\ exists l', content uu t' (key d') l' /\ looks l l'
}.

(** Remarks that stand apart: nothing refers into them, and they are not children of groups or of switches. *)
Record remarks_apart (t : tree) : Prop := {
  ra_links : forall s k, In s (subs t) -> remark (data s) = true -> In k (keys s) -> ~ referenced t k;
  ra_place : forall s c, In s (subs t) -> In c (kids s) -> remark (data c) = true -> tag (data s) <> TEl EG /\ tag (data s) <> TEl ESwitch
}.
(** Nothing refers to a defs element. *)
Definition defs_apart (t : tree) : Prop := forall d, In d (flat t) -> tag d = TEl EDefs -> ~ referenced t (key d).
