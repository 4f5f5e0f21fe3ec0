(** The document: svgdom's node graph as a rose tree with unique node keys.

    svgdom 0.10.5 is not part of /repo; the operations below follow its documented contract.
    This file is the list of what is assumed about svgdom:
    - a node has a tag, an id and an ordered attribute set without duplicate names
      ([set_attribute] replaces, a fresh attribute is visible, a replaced one becomes visible);
    - a link value ([Link], [FuncLink]) is a reference to a node, [linked_nodes] of a node is
      the list of (node, attribute) pairs whose value refers to it, [uses_count] its length and
      [is_used] its non-emptiness;
    - [remove] removes every attribute that refers to the node or to one of its descendants,
      and then takes the subtree out of the document;
    - [drain] visits the descendants in document order, removes those that satisfy the
      predicate and does not descend into removed ones;
    - [parents] yields the ancestors, nearest first, without the node itself;
    - [descendants] yields nodes in document order. *)
From Coq Require Import List Bool NArith Arith String Lia.
From Verif Require Import Names Num Value.
Import ListNotations.

Inductive aname : Type := AN (a : aid) | ANx (s : string).
Definition aname_eqb (a b : aname) : bool :=
  match a, b with
  | AN x, AN y => aid_eqb x y
  | ANx s, ANx t => String.eqb s t
  | _, _ => false
  end.
Lemma aname_eqb_spec a b : reflect (a = b) (aname_eqb a b).
Proof.
  destruct a as [x|s], b as [y|t]; cbn; try (constructor; congruence).
  - destruct (aid_eqb_spec x y); constructor; congruence.
  - destruct (String.eqb_spec s t); constructor; congruence.
Qed.

(** svgdom::Attribute *)
Record attr : Type := At { a_name : aname; a_val : value; a_vis : bool }.

(** svgdom::NodeType and tag name. *)
Inductive tagt : Type :=
| TRoot | TEl (e : eid) | TOtherEl (s : string) | TText (s : string) | TComment (s : string) | TDecl (s : string).

Record ndata : Type := ND { key : nat; tag : tagt; nid : string; attrs : list attr }.

Inductive tree : Type := T (d : ndata) (ch : list tree).

Definition data (t : tree) : ndata := match t with T d _ => d end.
Definition kids (t : tree) : list tree := match t with T _ ch => ch end.
Definition root_key (t : tree) : nat := key (data t).

Definition is_tag (e : eid) (d : ndata) : bool :=
  match tag d with TEl x => eid_eqb x e | _ => false end.
Definition tag_id (d : ndata) : option eid := match tag d with TEl x => Some x | _ => None end.
Definition is_svg_el (d : ndata) : bool := match tag d with TEl _ => true | _ => false end.
Definition tag_sat (p : eid -> bool) (d : ndata) : bool :=
  match tag d with TEl x => p x | _ => false end.
Definition has_id (d : ndata) : bool := negb (String.eqb (nid d) "").

(** Attributes. *)
Definition has_name (n : aname) (a : attr) : bool := aname_eqb (a_name a) n.
Arguments has_name : simpl never.
Definition get_attr (l : list attr) (a : aid) : option attr := find (has_name (AN a)) l.
Definition get_value (l : list attr) (a : aid) : option value :=
  match get_attr l a with Some x => Some (a_val x) | None => None end.
Definition has_attr (l : list attr) (a : aid) : bool :=
  match get_attr l a with Some _ => true | None => false end.
(** The value that will be written: hidden attributes are not written. *)
Definition get_visible (l : list attr) (a : aid) : option value :=
  match get_attr l a with Some x => if a_vis x then Some (a_val x) else None | None => None end.
Fixpoint set_attr (l : list attr) (a : aid) (v : value) : list attr :=
  match l with
  | [] => [At (AN a) v true]
  | x :: t => if has_name (AN a) x then At (AN a) v true :: t else x :: set_attr t a v
  end.
Definition rm_attr (l : list attr) (a : aid) : list attr := filter (fun x => negb (has_name (AN a) x)) l.
Definition hide_attr (l : list attr) (a : aid) : list attr :=
  map (fun x => if has_name (AN a) x then At (a_name x) (a_val x) false else x) l.
Definition show_attr (l : list attr) (a : aid) : list attr :=
  map (fun x => if has_name (AN a) x then At (a_name x) (a_val x) true else x) l.

Definition with_attrs (d : ndata) (l : list attr) : ndata := ND (key d) (tag d) (nid d) l.
Definition with_id (d : ndata) (s : string) : ndata := ND (key d) (tag d) s (attrs d).
Definition with_tag (d : ndata) (t : tagt) : ndata := ND (key d) t (nid d) (attrs d).
Definition d_get (d : ndata) (a : aid) : option value := get_value (attrs d) a.
Definition d_has (d : ndata) (a : aid) : bool := has_attr (attrs d) a.
Definition d_set (d : ndata) (a : aid) (v : value) : ndata := with_attrs d (set_attr (attrs d) a v).
Definition d_rm (d : ndata) (a : aid) : ndata := with_attrs d (rm_attr (attrs d) a).

(** Nodes in document order. *)
Fixpoint flat (t : tree) : list ndata :=
  match t with T d ch => d :: flat_map flat ch end.
Fixpoint subs (t : tree) : list tree :=
  match t with T d ch => t :: flat_map subs ch end.
Definition keys (t : tree) : list nat := map key (flat t).
Definition find_sub (k : nat) (t : tree) : option tree := find (fun s => Nat.eqb (root_key s) k) (subs t).
Definition find_data (k : nat) (t : tree) : option ndata := find (fun d => Nat.eqb (key d) k) (flat t).

(** In-place changes of node data. *)
Fixpoint tmap (f : ndata -> ndata) (t : tree) : tree :=
  match t with T d ch => T (f d) (map (tmap f) ch) end.
Definition upd (k : nat) (f : ndata -> ndata) (t : tree) : tree :=
  tmap (fun d => if Nat.eqb (key d) k then f d else d) t.
(** Top-down change that may look at the (already changed) ancestors, nearest first. *)
Fixpoint tmap_anc (f : list ndata -> ndata -> ndata) (anc : list ndata) (t : tree) : tree :=
  match t with T d ch => let d' := f anc d in T d' (map (tmap_anc f (d' :: anc)) ch) end.

(** Links. *)
Definition refers (k : nat) (a : attr) : bool :=
  match link_of (a_val a) with Some j => Nat.eqb j k | None => false end.
Definition linked_nodes (k : nat) (t : tree) : list (nat * aname) :=
  flat_map (fun d => map (fun a => (key d, a_name a)) (filter (refers k) (attrs d))) (flat t).
Definition is_used (k : nat) (t : tree) : bool := existsb (fun d => existsb (refers k) (attrs d)) (flat t).
Definition uses_count (k : nat) (t : tree) : nat := List.length (linked_nodes k t).
(** Every reference in the document. *)
Definition targets (t : tree) : list nat :=
  flat_map (fun d => flat_map (fun a => match link_of (a_val a) with Some k => [k] | None => [] end) (attrs d)) (flat t).

(** Removal. *)
Definition unlink (ks : list nat) (t : tree) : tree :=
  tmap (fun d => with_attrs d (filter (fun a => negb (existsb (fun k => refers k a) ks)) (attrs d))) t.
Fixpoint prune (p : tree -> bool) (t : tree) : tree :=
  match t with T d ch => T d (flat_map (fun c => if p c then [] else [prune p c]) ch) end.
Definition detach (k : nat) (t : tree) : tree := prune (fun c => Nat.eqb (root_key c) k) t.
Definition sub_keys (k : nat) (t : tree) : list nat :=
  match find_sub k t with Some s => keys s | None => [] end.
Definition remove (k : nat) (t : tree) : tree := detach k (unlink (sub_keys k t) t).

(** [drain]: see the header. The keys of the document before the call are visited in order. *)
Definition in_doc (k : nat) (t : tree) : bool := existsb (fun d => Nat.eqb (key d) k) (flat t).
Definition drain_step (p : tree -> tree -> bool) (st : tree * nat) (k : nat) : tree * nat :=
  let (t, n) := st in
  match find_sub k t with
  | Some s => if p t s then (remove k t, S n) else (t, n)
  | None => (t, n)
  end.
Definition drain (p : tree -> tree -> bool) (t : tree) : tree * nat :=
  fold_left (drain_step p) (tl (keys t)) (t, 0).

(** A key that is not in use. *)
Definition fresh (t : tree) : nat := S (fold_right Nat.max 0 (keys t)).

(** Ancestors of the node [k], nearest first; [None] if there is no such node. *)
Fixpoint ancestors (k : nat) (anc : list ndata) (t : tree) : option (list ndata) :=
  match t with
  | T d ch =>
      if Nat.eqb (key d) k then Some anc
      else
        (fix go (l : list tree) : option (list ndata) :=
           match l with
           | [] => None
           | c :: l' => match ancestors k (d :: anc) c with Some r => Some r | None => go l' end
           end) ch
  end.

(** svgdom's [Document::svg_element]: the first svg element child of the root. *)
Definition svg_element (t : tree) : option tree := find (fun c => is_tag ESvg (data c)) (kids t).

(** A well-formed document: unique keys, a root node, and no dangling reference. *)
Record WF (t : tree) : Prop := {
  wf_keys : NoDup (keys t);
  wf_links : forall k, In k (targets t) -> In k (keys t)
}.
(** Attribute names are unique in each node. *)
Definition attrs_nodup (d : ndata) : Prop := NoDup (map a_name (attrs d)).
Definition WFA (t : tree) : Prop := Forall attrs_nodup (flat t).
