(** Specification of the keywords inherit and currentColor (SVG 1.1, 6.14 and 11.2), on documents only. *)
From Coq Require Import List Bool NArith Arith String.
From Verif Require Import Names Num Value Dom APass.
Import ListNotations.

Definition inherit : value := VPre Vid_inherit.
Definition current_color : value := VPre Vid_currentColor.

(** [l] is a node followed by its ancestors, nearest first. The color in effect. *)
Fixpoint color_in_effect (l : list ndata) : option value :=
  match l with
  | [] => None
  | d :: l' => match d_get d AColor with
               | None | Some (VPre Vid_inherit) => color_in_effect l'
               | Some v => Some v
               end
  end.
(** The value of [a] in effect: a missing value and inherit stand for the value of the parent,
    currentColor for the color in effect at the node where it is written. *)
Fixpoint in_effect (a : aid) (l : list ndata) : option value :=
  match l with
  | [] => None
  | d :: l' => match d_get d a with
               | None | Some (VPre Vid_inherit) => in_effect a l'
               | Some (VPre Vid_currentColor) => color_in_effect l
               | Some v => Some v
               end
  end.
(** No keyword is left in the node. *)
Definition no_keywords (d : ndata) : Prop := forall a, d_get d a <> Some inherit /\ d_get d a <> Some current_color.
(** What svgdom's parser guarantees: the keywords occur in SVG elements only, and currentColor is not
    a value of the color property itself (SVG 1.1, 12.2). *)
Definition keywords_typed (d : ndata) : Prop :=
  d_get d AColor <> Some current_color /\ (is_svg_el d = false -> no_keywords d).
(** A keyword that has nothing to refer to. *)
Definition unresolvable (anc : list ndata) (d : ndata) (a : aid) : Prop :=
  (d_get d a = Some inherit /\ in_effect a anc = None) \/ (d_get d a = Some current_color /\ color_in_effect (d :: anc) = None).
(** SVG 1.1, 6.1: what inherit stands for is the computed value of the parent, also for properties that
    are not inherited; [initial] gives the initial values. *)
Fixpoint css_value (initial : aid -> value) (a : aid) (l : list ndata) : value :=
  match l with
  | [] => initial a
  | d :: l' => match d_get d a with
               | Some (VPre Vid_inherit) => css_value initial a l'
               | Some v => v
               | None => if is_non_inheritable a then initial a else css_value initial a l'
               end
  end.
(** [n] below [anc], when its keywords are replaced, has a link to the node [j]. *)
Definition links_to (anc : list ndata) (n : ndata) (j : nat) : Prop :=
  (exists b v, d_get n b <> None /\ in_effect b (n :: anc) = Some v /\ link_of v = Some j) \/
  (exists x s, In x (attrs n) /\ a_name x = ANx s /\ link_of (a_val x) = Some j).
(** A keyword stands for a link that svgdom does not accept: the target has no id, it is the element itself (the same id)
    or it has a link back to the element. *)
Definition link_refused (t : tree) (anc : list ndata) (d : ndata) (a : aid) : Prop :=
  (d_get d a = Some inherit \/ d_get d a = Some current_color) /\
  exists k anc' n, (exists v, in_effect a (d :: anc) = Some v /\ link_of v = Some k) /\ In (anc', n) (ctx [] t) /\ key n = k /\
    (nid n = ""%string \/ nid n = nid d \/ links_to anc' n (key d)).
