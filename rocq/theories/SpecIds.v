(** Specification for C55: ids by which references can be written. *)
From Coq Require Import List String DecimalString.
From Verif Require Import Names Num Value Dom SpecDom.
Import ListNotations.

(** A reference to a node is written as the id of the node. The ids of a document serve their purpose if
    - no two nodes have the same id,
    - every node that is referred to has an id. *)
Record ids_work (t : tree) : Prop := {
  iw_distinct : forall d d', In d (flat t) -> In d' (flat t) -> nid d = nid d' -> nid d <> ""%string -> key d = key d';
  iw_named : forall d, In d (flat t) -> referenced t (key d) -> nid d <> ""%string
}.
(** Only SVG elements have an id. *)
Definition only_svg_ids (t : tree) : Prop := forall d, In d (flat t) -> nid d <> ""%string -> exists e, tag d = TEl e.
(** An id made by regroup_gradient_stops: "lg" and a number. *)
Definition generated_id (s : string) : Prop := exists n, s = ("lg" ++ NilZero.string_of_uint (Nat.to_uint n))%string.
(** Elements of [t'] that have an id had the same id in [t], except that [made] allows new ids. *)
Definition ids_kept (made : string -> Prop) (t t' : tree) : Prop :=
  forall d', In d' (flat t') -> nid d' <> ""%string -> (exists d, In d (flat t) /\ key d = key d' /\ nid d = nid d') \/ made (nid d').
(** What a program finds that reads the reference [s] in a saved document: the first node with the id [s]. *)
Definition resolves_to (t : tree) (s : string) : option nat :=
  option_map key (find (fun d => String.eqb (nid d) s) (flat t)).
