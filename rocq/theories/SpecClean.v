(** The order of the cleaning passes and the options that switch them on: what the documentation promises. *)
From Coq Require Import List Bool NArith Arith ZArith String QArith Qcanon.
From Verif Require Import Names Num Value Dom Outcome Cli TasksSimple Round Shapes Transforms Paths Inherit Gradients Stops RmDefault UnusedCoords RmText Needless GradUnits JoinStyle GroupDefs Dupl MergeGradients Regroup ResolveUse Ungroup RmUnusedDefs GroupStyle RmInvisible Clean.
Import ListNotations.

(** The passes. *)
Inductive pass : Type :=
| PLinear | PRadial | PStops | PInherit | PFix | PGroupDefs | PRound
| PTitle | PDesc | PMetadata | PUnusedDefs | PInvalidStops | PGradTransforms | PDuplLinear | PDuplRadial | PDuplBlur | PMerge
| PUngroup | PShapeTransforms | PConvertShapes | PPaths | PInvisible | PRegroupStops | PResolveUse
| PDefaultAttrs | PTextAttrs | PNeedlessAttrs | PGradAttrs | PUnusedCoords | PGroupStyle
| PIds | PTrimIds | PVersion | PUngroupDefs | PEmptyDefs | PXmlns | PDefaultTransform | PJoinStyle.

(** When a pass is run; the ones with [true] are always run. *)
Definition enabled (o : cleaning_options) (p : pass) : bool :=
  match p with
  | PTitle => o_remove_title o | PDesc => o_remove_desc o | PMetadata => o_remove_metadata o
  | PUnusedDefs => o_remove_unused_defs o | PInvalidStops => o_remove_invalid_stops o
  | PGradTransforms => o_apply_transform_to_gradients o
  | PDuplLinear => o_remove_dupl_linear_gradients o | PDuplRadial => o_remove_dupl_radial_gradients o
  | PDuplBlur => o_remove_dupl_fe_gaussian_blur o | PMerge => o_merge_gradients o
  | PUngroup => o_ungroup_groups o | PShapeTransforms => o_apply_transform_to_shapes o
  | PConvertShapes => o_convert_shapes o | PPaths => o_paths_to_relative o
  | PInvisible => o_remove_invisible_elements o | PRegroupStops => o_regroup_gradient_stops o
  | PResolveUse => o_resolve_use o | PDefaultAttrs => o_remove_default_attributes o
  | PTextAttrs => o_remove_text_attributes o | PNeedlessAttrs => o_remove_needless_attributes o
  | PGradAttrs => o_remove_gradient_attributes o | PUnusedCoords => o_remove_unused_coordinates o
  | PGroupStyle => o_group_by_style o | PIds => o_remove_unreferenced_ids o | PTrimIds => o_trim_ids o
  | PVersion => o_remove_version o | PUngroupDefs => o_ungroup_defs o
  | PLinear | PRadial | PStops | PInherit | PFix | PGroupDefs | PRound | PEmptyDefs | PXmlns | PDefaultTransform | PJoinStyle => true
  end.
(** The order. *)
Definition pipeline : list pass :=
  [PLinear; PRadial; PStops; PInherit; PFix; PGroupDefs; PRound;
   PTitle; PDesc; PMetadata; PUnusedDefs; PInvalidStops; PGradTransforms; PDuplLinear; PDuplRadial; PDuplBlur; PMerge; PGradTransforms;
   PUngroup; PShapeTransforms; PConvertShapes; PPaths; PInvisible; PRegroupStops; PUngroup; PResolveUse;
   PDefaultAttrs; PTextAttrs; PNeedlessAttrs; PGradAttrs; PUnusedCoords; PUngroup; PGroupStyle;
   PIds; PTrimIds; PVersion; PUngroupDefs; PEmptyDefs; PXmlns; PDefaultTransform; PJoinStyle].
Definition mandatory : list pass := [PLinear; PRadial; PStops; PInherit; PFix; PGroupDefs; PRound; PEmptyDefs; PXmlns; PDefaultTransform; PJoinStyle].

(** What each of them does (the models of the passes). *)
Definition perform (x : svgdom) (o : cleaning_options) (p : pass) : tree -> outcome :=
  match p with
  | PLinear => resolve_linear_gradient_attributes
  | PRadial => resolve_radial_gradient_attributes
  | PStops => fun t => Some (resolve_stop_attributes t)
  | PInherit => fun t => Some (resolve_inherit t)
  | PFix => fun t => Some (fix_invalid_attributes t)
  | PGroupDefs => fun t => Some (group_defs t)
  | PRound => fun t => Some (Ok (round_numbers (round_opts o) t))
  | PTitle => fun t => Some (Ok (remove_element ETitle t))
  | PDesc => fun t => Some (Ok (remove_element EDesc t))
  | PMetadata => fun t => Some (Ok (remove_element EMetadata t))
  | PUnusedDefs => remove_unused_defs
  | PInvalidStops => fun t => Some (Ok (remove_invalid_stops t))
  | PGradTransforms => fun t => Some (apply_transform_to_gradients t)
  | PDuplLinear => fun t => Some (remove_dupl_linear_gradients t)
  | PDuplRadial => fun t => Some (remove_dupl_radial_gradients t)
  | PDuplBlur => fun t => Some (remove_dupl_fe_gaussian_blur t)
  | PMerge => merge_all
  | PUngroup => ungroup_groups (group_opts o) (x_self x)
  | PShapeTransforms => fun t => Some (apply_transform_to_shapes t)
  | PConvertShapes => fun t => Some (convert_shapes_to_paths t)
  | PPaths => fun t => Some (Transforms.process_paths (segment_opts o) t)
  | PInvisible => remove_invisible (x_stops x)
  | PRegroupStops => regroup_gradient_stops
  | PResolveUse => fun t => Some (resolve_use t)
  | PDefaultAttrs => fun t => Some (remove_default_attributes (x_default x) t)
  | PTextAttrs => fun t => Some (remove_text_attributes t)
  | PNeedlessAttrs => fun t => Some (Ok (remove_needless_attributes t))
  | PGradAttrs => remove_gradient_attributes
  | PUnusedCoords => fun t => Some (remove_unused_coordinates t)
  | PGroupStyle => fun t => Some (group_by_style t)
  | PIds => fun t => Some (Ok (remove_unreferenced_ids t))
  | PTrimIds => fun t => Some (trim_ids t)
  | PVersion => fun t => Some (remove_version t)
  | PUngroupDefs => fun t => Some (Ok (ungroup_defs t))
  | PEmptyDefs => fun t => Some (remove_empty_defs t)
  | PXmlns => fun t => Some (fix_xmlns_attribute (o_remove_xmlns_xlink_attribute o) t)
  | PDefaultTransform => fun t => Some (Ok (remove_default_transform t))
  | PJoinStyle => fun t => Some (Ok (join_style_attributes (x_write x) (o_join_style_attributes o) t))
  end.
(** One pass after the other, until one of them fails or does not end. *)
Inductive runs (x : svgdom) (o : cleaning_options) : list pass -> tree -> outcome -> Prop :=
| runs_done t : runs x o [] t (Some (Ok t))
| runs_next p l t t1 r : perform x o p t = Some (Ok t1) -> runs x o l t1 r -> runs x o (p :: l) t r
| runs_error p l t e : perform x o p t = Some (Err e) -> runs x o (p :: l) t (Some (Err e))
| runs_panic p l t : perform x o p t = Some Panic -> runs x o (p :: l) t (Some Panic)
| runs_hangs p l t : perform x o p t = None -> runs x o (p :: l) t None.

(** Option sets. *)
Definition all_off (o : cleaning_options) : Prop :=
  forall p, In p pipeline -> ~ In p mandatory -> enabled o p = false.
(** Options that agree on everything but the named fields. *)
Definition differ_in_newline (o o' : cleaning_options) : Prop := exists b, o' = Build_cleaning_options
  (o_remove_unused_defs o) (o_convert_shapes o) (o_remove_title o) (o_remove_desc o) (o_remove_metadata o)
  (o_remove_dupl_linear_gradients o) (o_remove_dupl_radial_gradients o) (o_remove_dupl_fe_gaussian_blur o)
  (o_ungroup_groups o) (o_ungroup_defs o) (o_group_by_style o) (o_merge_gradients o) (o_regroup_gradient_stops o)
  (o_remove_invalid_stops o) (o_remove_invisible_elements o) (o_resolve_use o) (o_remove_version o)
  (o_remove_unreferenced_ids o) (o_trim_ids o) (o_remove_text_attributes o) (o_remove_unused_coordinates o)
  (o_remove_default_attributes o) (o_remove_xmlns_xlink_attribute o) (o_remove_needless_attributes o)
  (o_remove_gradient_attributes o) (o_apply_transform_to_gradients o) (o_apply_transform_to_shapes o)
  (o_paths_to_relative o) (o_remove_unused_segments o) (o_convert_segments o) b (o_apply_transform_to_paths o)
  (o_join_style_attributes o) (o_coordinates_precision o) (o_properties_precision o)
  (o_paths_coordinates_precision o) (o_transforms_precision o).
(** The options for the segments of paths. *)
Definition differ_in_segments (o o' : cleaning_options) : Prop := exists u c a, o' = Build_cleaning_options
  (o_remove_unused_defs o) (o_convert_shapes o) (o_remove_title o) (o_remove_desc o) (o_remove_metadata o)
  (o_remove_dupl_linear_gradients o) (o_remove_dupl_radial_gradients o) (o_remove_dupl_fe_gaussian_blur o)
  (o_ungroup_groups o) (o_ungroup_defs o) (o_group_by_style o) (o_merge_gradients o) (o_regroup_gradient_stops o)
  (o_remove_invalid_stops o) (o_remove_invisible_elements o) (o_resolve_use o) (o_remove_version o)
  (o_remove_unreferenced_ids o) (o_trim_ids o) (o_remove_text_attributes o) (o_remove_unused_coordinates o)
  (o_remove_default_attributes o) (o_remove_xmlns_xlink_attribute o) (o_remove_needless_attributes o)
  (o_remove_gradient_attributes o) (o_apply_transform_to_gradients o) (o_apply_transform_to_shapes o)
  (o_paths_to_relative o) u c (o_append_newline o) a
  (o_join_style_attributes o) (o_coordinates_precision o) (o_properties_precision o)
  (o_paths_coordinates_precision o) (o_transforms_precision o).
