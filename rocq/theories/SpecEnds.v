(** What the passes over gradients need to come to an end. *)
From Coq Require Import List Bool NArith Arith String.
From Verif Require Import Names Value Dom SpecDom SpecGradients SpecWritten SpecGradUnits Outcome Cli Clean SpecClean.
Import ListNotations.

(** Gradients of one kind do not refer to each other in a circle; before the last pass, gradients refer to other gradients
    by [xlink:href] only, and there is no circle. *)
Definition in_order (p : pass) (t : tree) : Prop :=
  match p with
  | PLinear | PRegroupStops => acyclic_kind ELinearGradient t
  | PRadial => acyclic_kind ERadialGradient t
  | PGradAttrs => href_acyclic t /\ plain_links t
  | _ => True
  end.
(** ... for the two passes that come after others, when they are run. *)
Definition in_order_later (x : svgdom) (o : cleaning_options) (t : tree) : Prop :=
  forall pre p post t1, In p [PRegroupStops; PGradAttrs] -> filter (enabled o) pipeline = (pre ++ p :: post)%list -> runs x o pre t (Some (Ok t1)) -> in_order p t1.
