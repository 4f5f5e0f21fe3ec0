(** Model of src/cleaner.rs: clean_doc. *)
From Coq Require Import List Bool NArith Arith ZArith String QArith Qcanon.
From Verif Require Import Names Num Value Dom Outcome Cli TasksSimple Round Shapes Transforms Paths Inherit Gradients Stops RmDefault UnusedCoords RmText Needless GradUnits JoinStyle GroupDefs Dupl MergeGradients Regroup ResolveUse Ungroup RmUnusedDefs GroupStyle RmInvisible.
Import ListNotations.
Local Open Scope nat_scope.

(** What svgdom decides (its source is not at hand): the default values of the presentation attributes, how values
    are written, whether [descendants] starts with the node itself, and whether an iterator over the document ends
    when the first child of the current node is removed. *)
Record svgdom : Type := { x_default : aid -> option value; x_write : value -> string; x_self : bool; x_stops : bool }.

(** [None]: the pass does not end. *)
Definition outcome : Type := option (result tree).
Definition total (t : tree) : outcome := Some (Ok t).
Definition andthen (x : outcome) (f : tree -> outcome) : outcome :=
  match x with Some (Ok t) => f t | _ => x end.
Notation "x >> f" := (andthen x f) (at level 50, left associativity).
Definition when (b : bool) (f : tree -> outcome) (t : tree) : outcome := if b then f t else total t.

(** src/options.rs: the options as the passes see them. *)
Definition round_opts (o : cleaning_options) : precisions :=
  PR (Z.to_nat (o_coordinates_precision o)) (Z.to_nat (o_properties_precision o)) (Z.to_nat (o_paths_coordinates_precision o)) (Z.to_nat (o_transforms_precision o)).
Definition group_opts (o : cleaning_options) : gopts := GO (o_apply_transform_to_shapes o) (o_paths_to_relative o) (o_apply_transform_to_paths o).
Definition segment_opts (o : cleaning_options) : paths_opts := PSO (PO (o_convert_segments o) (o_remove_unused_segments o)) (o_apply_transform_to_paths o).
(** The loop of merge_gradients ends after at most one more round than there are nodes (see [merge_ends] for the documents of C23). *)
Definition merge_all (t : tree) : outcome := option_map Ok (MergeGradients.merge_gradients (S (List.length (flat t))) t).

(** src/cleaner.rs:63-248 [clean_doc]. Simplification: the code changes the document in place, so that it may be
    changed when an error is returned; src/main.rs does not use it then. *)
Definition clean_doc (x : svgdom) (o : cleaning_options) (t : tree) : outcome :=
  match preclean_checks t with
  | Err e => Some (Err e)
  | Panic => Some Panic
  | Ok _ =>
      total t
      (* :76-78 *)
      >> resolve_linear_gradient_attributes
      >> resolve_radial_gradient_attributes
      >> (fun t => Some (resolve_stop_attributes t))
      (* :80-82 *)
      >> (fun t => Some (resolve_inherit t))
      >> (fun t => Some (fix_invalid_attributes t))
      >> (fun t => Some (group_defs t))
      (* :85 *)
      >> (fun t => total (round_numbers (round_opts o) t))
      (* :93-110 *)
      >> when (o_remove_title o) (fun t => total (remove_element ETitle t))
      >> when (o_remove_desc o) (fun t => total (remove_element EDesc t))
      >> when (o_remove_metadata o) (fun t => total (remove_element EMetadata t))
      >> when (o_remove_unused_defs o) remove_unused_defs
      (* :113-143 *)
      >> when (o_remove_invalid_stops o) (fun t => total (remove_invalid_stops t))
      >> when (o_apply_transform_to_gradients o) (fun t => Some (apply_transform_to_gradients t))
      >> when (o_remove_dupl_linear_gradients o) (fun t => Some (remove_dupl_linear_gradients t))
      >> when (o_remove_dupl_radial_gradients o) (fun t => Some (remove_dupl_radial_gradients t))
      >> when (o_remove_dupl_fe_gaussian_blur o) (fun t => Some (remove_dupl_fe_gaussian_blur t))
      >> when (o_merge_gradients o) merge_all
      >> when (o_apply_transform_to_gradients o) (fun t => Some (apply_transform_to_gradients t))
      (* :147-180 *)
      >> when (o_ungroup_groups o) (ungroup_groups (group_opts o) (x_self x))
      >> when (o_apply_transform_to_shapes o) (fun t => Some (apply_transform_to_shapes t))
      >> when (o_convert_shapes o) (fun t => Some (convert_shapes_to_paths t))
      >> when (o_paths_to_relative o) (fun t => Some (Transforms.process_paths (segment_opts o) t))
      >> when (o_remove_invisible_elements o) (remove_invisible (x_stops x))
      >> when (o_regroup_gradient_stops o) regroup_gradient_stops
      >> when (o_ungroup_groups o) (ungroup_groups (group_opts o) (x_self x))
      >> when (o_resolve_use o) (fun t => Some (resolve_use t))
      (* :184-212 *)
      >> when (o_remove_default_attributes o) (fun t => Some (remove_default_attributes (x_default x) t))
      >> when (o_remove_text_attributes o) (fun t => Some (remove_text_attributes t))
      >> when (o_remove_needless_attributes o) (fun t => total (remove_needless_attributes t))
      >> when (o_remove_gradient_attributes o) remove_gradient_attributes
      >> when (o_remove_unused_coordinates o) (fun t => Some (remove_unused_coordinates t))
      >> when (o_ungroup_groups o) (ungroup_groups (group_opts o) (x_self x))
      >> when (o_group_by_style o) (fun t => Some (group_by_style t))
      (* :218-247 *)
      >> when (o_remove_unreferenced_ids o) (fun t => total (remove_unreferenced_ids t))
      >> when (o_trim_ids o) (fun t => Some (trim_ids t))
      >> when (o_remove_version o) (fun t => Some (remove_version t))
      >> when (o_ungroup_defs o) (fun t => total (ungroup_defs t))
      >> (fun t => Some (remove_empty_defs t))
      >> (fun t => Some (fix_xmlns_attribute (o_remove_xmlns_xlink_attribute o) t))
      >> (fun t => total (remove_default_transform t))
      >> (fun t => total (join_style_attributes (x_write x) (o_join_style_attributes o) t))
  end.
