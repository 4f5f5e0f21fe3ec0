(** What it means for the links of a document to be in order. *)
From Coq Require Import List Bool NArith Arith String.
From Verif Require Import Names Value Dom SpecDom SpecText SpecWritten APass SpecUse Outcome Cli Clean SpecClean.
Import ListNotations.

(** Every element has an identity of its own, every link (of an [xlink:href], or a [url(#...)] in any other attribute,
    written or not) leads to an element of the document, no element has two attributes with the same name, and the
    document node is at the top. *)
Record well_formed (t : tree) : Prop := {
  wf_identity : forall i j d e, nth_error (flat t) i = Some d -> nth_error (flat t) j = Some e -> key d = key e -> i = j;
  wf_no_dangling : forall k, referenced t k -> exists d, In d (flat t) /\ key d = k;
  wf_attributes : forall d i j a b, In d (flat t) -> nth_error (attrs d) i = Some a -> nth_error (attrs d) j = Some b -> a_name a = a_name b -> i = j;
  wf_document : tag (data t) = TRoot
}.

(** No gradient is (at any depth) inside of a gradient. *)
Definition no_nested_gradients (t : tree) : Prop :=
  forall anc g p, In (anc, g) (ctx [] t) -> In p anc -> gradient_node p -> ~ gradient_node g.
(** A gradient does not refer to an element that contains a gradient. *)
Definition no_gradients_in_templates (t : tree) : Prop :=
  forall g anc x p, In g (flat t) -> gradient_node g -> In (anc, x) (ctx [] t) -> In p anc -> refers_to g (key p) -> ~ gradient_node x.
(** What three of the passes need in addition. *)
Definition calm (p : pass) (t : tree) : Prop :=
  match p with
  | PMerge => no_gradients_in_templates t
  | PRegroupStops => no_nested_gradients t
  | PResolveUse => no_recursion t
  | _ => True
  end.
(** ... for every pass that is run when the document is cleaned, on the document it gets. *)
Definition calm_run (x : svgdom) (o : cleaning_options) (t : tree) : Prop :=
  forall pre p post t1, filter (enabled o) pipeline = (pre ++ p :: post)%list -> runs x o pre t (Some (Ok t1)) -> calm p t1.
