(** Model of the command line layer: src/cli.rs and src/options.rs.

    clap itself is modelled by its documented behaviour: [value_of] returns the explicit value of
    an option if the user gave one and its [default_value] otherwise, [occurrences_of] counts only
    explicit occurrences, [is_present] tells whether a switch was given, and every explicit value
    has passed its validator (see [args_valid]). Only the last explicit occurrence of an option matters. *)
From Coq Require Import String Ascii List Bool ZArith Lia.
Import ListNotations.
Local Open Scope string_scope.

(** A computation that may hit [unwrap] on [None] or [unreachable!]. *)
Inductive may (A : Type) : Type :=
| Done (a : A)
| Panicked.
Arguments Done {A} a.
Arguments Panicked {A}.
Definition mbind {A B} (m : may A) (f : A -> may B) : may B :=
  match m with Done a => f a | Panicked => Panicked end.
Notation "'let?' x := m 'in' k" := (mbind m (fun x => k)) (at level 200, x name, k at level 200).

(** src/cli.rs:54-115 [enum Key] *)
Inductive Key : Type :=
| KRemoveComments
| KRemoveDeclarations
| KRemoveNonsvgElements
| KRemoveUnusedDefs
| KConvertShapes
| KRemoveTitle
| KRemoveDesc
| KRemoveMetadata
| KRemoveDuplLinearGradients
| KRemoveDuplRadialGradients
| KRemoveDuplFeGaussianBlur
| KUngroupGroups
| KUngroupDefs
| KGroupByStyle
| KMergeGradients
| KRegroupGradientStops
| KRemoveInvalidStops
| KRemoveInvisibleElements
| KResolveUse
| KRemoveVersion
| KRemoveNonsvgAttributes
| KRemoveUnreferencedIds
| KTrimIds
| KRemoveTextAttributes
| KRemoveUnusedCoordinates
| KRemoveDefaultAttributes
| KRemoveXmlnsXlinkAttribute
| KRemoveNeedlessAttributes
| KRemoveGradientAttributes
| KJoinStyleAttributes
| KApplyTransformToGradients
| KApplyTransformToShapes
| KRemoveUnresolvedClasses
| KPathsToRelative
| KRemoveUnusedSegments
| KConvertSegments
| KApplyTransformToPaths
| KTrimPaths
| KJoinArcToFlags
| KRemoveDuplCmdInPaths
| KUseImplicitCommands
| KTrimColors
| KAppendNewline
| KSimplifyTransforms
| KCoordinatesPrecision
| KPropertiesPrecision
| KTransformsPrecision
| KPathsCoordinatesPrecision
| KListSeparator
| KIndent
| KNoDefaults
| KMultipass
| KAllowBiggerFile
| KCopyOnError
| KQuiet
| KStdout.

(** [_index as usize] (src/cli.rs:122-124): the discriminant in declaration order, src/cli.rs:54-115. *)
Definition key_index (k : Key) : nat :=
  match k with
  | KRemoveComments => 0
  | KRemoveDeclarations => 1
  | KRemoveNonsvgElements => 2
  | KRemoveUnusedDefs => 3
  | KConvertShapes => 4
  | KRemoveTitle => 5
  | KRemoveDesc => 6
  | KRemoveMetadata => 7
  | KRemoveDuplLinearGradients => 8
  | KRemoveDuplRadialGradients => 9
  | KRemoveDuplFeGaussianBlur => 10
  | KUngroupGroups => 11
  | KUngroupDefs => 12
  | KGroupByStyle => 13
  | KMergeGradients => 14
  | KRegroupGradientStops => 15
  | KRemoveInvalidStops => 16
  | KRemoveInvisibleElements => 17
  | KResolveUse => 18
  | KRemoveVersion => 19
  | KRemoveNonsvgAttributes => 20
  | KRemoveUnreferencedIds => 21
  | KTrimIds => 22
  | KRemoveTextAttributes => 23
  | KRemoveUnusedCoordinates => 24
  | KRemoveDefaultAttributes => 25
  | KRemoveXmlnsXlinkAttribute => 26
  | KRemoveNeedlessAttributes => 27
  | KRemoveGradientAttributes => 28
  | KJoinStyleAttributes => 29
  | KApplyTransformToGradients => 30
  | KApplyTransformToShapes => 31
  | KRemoveUnresolvedClasses => 32
  | KPathsToRelative => 33
  | KRemoveUnusedSegments => 34
  | KConvertSegments => 35
  | KApplyTransformToPaths => 36
  | KTrimPaths => 37
  | KJoinArcToFlags => 38
  | KRemoveDuplCmdInPaths => 39
  | KUseImplicitCommands => 40
  | KTrimColors => 41
  | KAppendNewline => 42
  | KSimplifyTransforms => 43
  | KCoordinatesPrecision => 44
  | KPropertiesPrecision => 45
  | KTransformsPrecision => 46
  | KPathsCoordinatesPrecision => 47
  | KListSeparator => 48
  | KIndent => 49
  | KNoDefaults => 50
  | KMultipass => 51
  | KAllowBiggerFile => 52
  | KCopyOnError => 53
  | KQuiet => 54
  | KStdout => 55
  end.

(** src/cli.rs:127-188 [KEYS] *)
Definition KEYS_DATA : list string :=
  ["remove-comments";
   "remove-declarations";
   "remove-nonsvg-elements";
   "remove-unused-defs";
   "convert-shapes";
   "remove-title";
   "remove-desc";
   "remove-metadata";
   "remove-dupl-lineargradient";
   "remove-dupl-radialgradient";
   "remove-dupl-fegaussianblur";
   "ungroup-groups";
   "ungroup-defs";
   "group-by-style";
   "merge-gradients";
   "regroup-gradient-stops";
   "remove-invalid-stops";
   "remove-invisible-elements";
   "resolve-use";
   "remove-version";
   "remove-nonsvg-attributes";
   "remove-unreferenced-ids";
   "trim-ids";
   "remove-text-attributes";
   "remove-unused-coordinates";
   "remove-default-attributes";
   "remove-xmlns-xlink-attribute";
   "remove-needless-attributes";
   "remove-gradient-attributes";
   "join-style-attributes";
   "apply-transform-to-gradients";
   "apply-transform-to-shapes";
   "remove-unresolved-classes";
   "paths-to-relative";
   "remove-unused-segments";
   "convert-segments";
   "apply-transform-to-paths";
   "trim-paths";
   "join-arcto-flags";
   "remove-dupl-cmd-in-paths";
   "use-implicit-cmds";
   "trim-colors";
   "append-newline";
   "simplify-transforms";
   "coordinates-precision";
   "properties-precision";
   "transforms-precision";
   "paths-coordinates-precision";
   "list-separator";
   "indent";
   "no-defaults";
   "multipass";
   "allow-bigger-file";
   "copy-on-error";
   "quiet";
   "stdout"].

(** src/cli.rs:119-125 [Index<Key> for KeysData]; the out-of-range index (a panic) is [""],
    excluded by [keys_in_range] in CliProofs.v. *)
Definition KEYS (k : Key) : string := nth (key_index k) KEYS_DATA "".

(** What clap hands to the program. *)
Record args : Type := {
  explicit : string -> option string;   (* explicit value of an option, if given *)
  switch : string -> bool;              (* --no-defaults, --multipass, ..., -c *)
  in_file : string;                     (* required, src/cli.rs:219-222 *)
  out_file : option string              (* required_unless stdout, src/cli.rs:223-226 *)
}.

(** src/cli.rs:241-309: the [default_value] of every option, keyed by [Key] as in the code. *)
Definition APP_DEFAULTS : list (Key * string) :=
  [(KRemoveComments, "true");
   (KRemoveDeclarations, "true");
   (KRemoveNonsvgElements, "true");
   (KRemoveUnusedDefs, "true");
   (KConvertShapes, "true");
   (KRemoveTitle, "true");
   (KRemoveDesc, "true");
   (KRemoveMetadata, "true");
   (KRemoveDuplLinearGradients, "true");
   (KRemoveDuplRadialGradients, "true");
   (KRemoveDuplFeGaussianBlur, "true");
   (KUngroupGroups, "true");
   (KUngroupDefs, "true");
   (KGroupByStyle, "true");
   (KMergeGradients, "true");
   (KRegroupGradientStops, "true");
   (KRemoveInvalidStops, "true");
   (KRemoveInvisibleElements, "true");
   (KResolveUse, "true");
   (KRemoveVersion, "true");
   (KRemoveNonsvgAttributes, "true");
   (KRemoveUnreferencedIds, "true");
   (KTrimIds, "true");
   (KRemoveTextAttributes, "true");
   (KRemoveUnusedCoordinates, "true");
   (KRemoveDefaultAttributes, "true");
   (KRemoveXmlnsXlinkAttribute, "true");
   (KRemoveNeedlessAttributes, "true");
   (KRemoveGradientAttributes, "false");
   (KJoinStyleAttributes, "some");
   (KApplyTransformToGradients, "true");
   (KApplyTransformToShapes, "true");
   (KRemoveUnresolvedClasses, "true");
   (KPathsToRelative, "true");
   (KRemoveUnusedSegments, "true");
   (KConvertSegments, "true");
   (KApplyTransformToPaths, "false");
   (KTrimPaths, "true");
   (KJoinArcToFlags, "false");
   (KRemoveDuplCmdInPaths, "true");
   (KUseImplicitCommands, "true");
   (KTrimColors, "true");
   (KAppendNewline, "false");
   (KSimplifyTransforms, "true");
   (KCoordinatesPrecision, "6");
   (KPropertiesPrecision, "6");
   (KTransformsPrecision, "8");
   (KPathsCoordinatesPrecision, "8");
   (KListSeparator, "space");
   (KIndent, "none")].

(** [Arg::default_value] lookup by argument name (src/cli.rs:190-208, [with_name(KEYS[$key])]). *)
Definition app_default (name : string) : option string :=
  match find (fun kv => String.eqb (KEYS (fst kv)) name) APP_DEFAULTS with
  | Some (_, v) => Some v
  | None => None
  end.

(** clap's [ArgMatches::value_of]. *)
Definition value_of (a : args) (name : string) : option string :=
  match explicit a name with
  | Some v => Some v
  | None => app_default name
  end.

(** clap's [ArgMatches::occurrences_of(..) != 0]. *)
Definition occurs (a : args) (name : string) : bool :=
  match explicit a name with Some _ => true | None => false end.

(** src/cli.rs:342-348 [get_flag] *)
Definition get_flag (a : args) (k : Key) : may bool :=
  match value_of a (KEYS k) with
  | None => Panicked
  | Some v =>
      if (v =? "true") || (v =? "yes") || (v =? "y") then Done true
      else if (v =? "false") || (v =? "no") || (v =? "n") then Done false
      else Panicked
  end.

(** src/cli.rs:333-340 [is_flag] *)
Definition is_flag (v : string) : bool :=
  (v =? "true") || (v =? "false") || (v =? "yes") || (v =? "no") || (v =? "y") || (v =? "n").

(** [str::ends_with]. *)
Fixpoint ends_with (s suf : string) : bool :=
  (s =? suf) || match s with EmptyString => false | String _ s' => ends_with s' suf end.

(** src/cli.rs:312-318 [is_svg] *)
Definition is_svg (v : string) : bool :=
  ends_with v ".svg" || ends_with v ".SVG" || (v =? "-").

(** [str::parse::<u8>()]: an optional [+], then one or more decimal digits, value at most 255
    (leading zeros allowed). [None] is the [ParseIntError]. *)
Definition digit_of (c : ascii) : option Z :=
  let n := Z.of_nat (nat_of_ascii c) in
  if ((48 <=? n) && (n <=? 57))%Z then Some (n - 48)%Z else None.
Fixpoint parse_digits (s : string) (acc : Z) : option Z :=
  match s with
  | EmptyString => Some acc
  | String c s' =>
      match digit_of c with
      | None => None
      | Some d => let acc' := (acc * 10 + d)%Z in
                  if (acc' <=? 255)%Z then parse_digits s' acc' else None
      end
  end.
Definition parse_u8 (s : string) : option Z :=
  match s with
  | EmptyString => None
  | String c s' =>
      if Ascii.eqb c "+" then
        match s' with EmptyString => None | _ => parse_digits s' 0 end
      else parse_digits s 0
  end.

(** src/cli.rs:320-331 [is_precision] *)
Definition is_precision (v : string) : bool :=
  match parse_u8 v with
  | None => false
  | Some n => ((1 <=? n) && (n <=? 12))%Z
  end.

(** src/cli.rs:353-360 [check_value] *)
Definition check_value (a : args) (flag dep : Key) : may bool :=
  let? f := get_flag a flag in
  if negb f then (let? d := get_flag a dep in Done (negb d)) else Done true.

(** src/cli.rs:351-381 [check_values] *)
Definition check_values (a : args) : may bool :=
  let? c1 := check_value a KTrimPaths KJoinArcToFlags in
  if negb c1 then Done false else
  let? c2 := check_value a KPathsToRelative KRemoveUnusedSegments in
  if negb c2 then Done false else
  let? c3 := check_value a KPathsToRelative KConvertSegments in
  if negb c3 then Done false else
  let? c4 := check_value a KPathsToRelative KApplyTransformToPaths in
  if negb c4 then Done false else
  Done true.

(** src/cli.rs:389-394 [Flags::new]: only the [is_no_defaults] field is derived. *)
Definition is_no_defaults (a : args) : bool := switch a (KEYS KNoDefaults).

(** src/cli.rs:408-424 [Flags::_resolve] *)
Definition resolve_opt (a : args) (k : Key) : may (option bool) :=
  if is_no_defaults a then
    if occurs a (KEYS k) then (let? v := get_flag a k in Done (Some v)) else Done None
  else (let? v := get_flag a k in Done (Some v)).

(** src/cli.rs:396-400 [Flags::resolve]: [cur] is the value before the call. *)
Definition resolve (a : args) (cur : bool) (k : Key) : may bool :=
  let? r := resolve_opt a k in
  match r with Some v => Done v | None => Done cur end.

(** src/cli.rs:402-406 [Flags::resolve_inv] *)
Definition resolve_inv (a : args) (cur : bool) (k : Key) : may bool :=
  let? r := resolve_opt a k in
  match r with Some v => Done (negb v) | None => Done cur end.

(** svgdom's [ParseOptions], as filled at src/cli.rs:428-438. *)
Record parse_options : Type := {
  parse_comments : bool; parse_declarations : bool; parse_unknown_elements : bool;
  parse_unknown_attributes : bool; parse_px_unit : bool; skip_unresolved_classes : bool;
  skip_invalid_attributes : bool; skip_invalid_css : bool; skip_paint_fallback : bool }.

(** src/cli.rs:427-449 [gen_parse_options] *)
Definition gen_parse_options (a : args) : may parse_options :=
  let? c := resolve_inv a true KRemoveComments in
  let? d := resolve_inv a true KRemoveDeclarations in
  let? e := resolve_inv a true KRemoveNonsvgElements in
  let? n := resolve_inv a true KRemoveNonsvgAttributes in
  let? u := resolve a true KRemoveUnresolvedClasses in
  Done {| parse_comments := c; parse_declarations := d; parse_unknown_elements := e;
          parse_unknown_attributes := n; parse_px_unit := false; skip_unresolved_classes := u;
          skip_invalid_attributes := false; skip_invalid_css := false; skip_paint_fallback := false |}.

Inductive list_separator := SepSpace | SepComma | SepCommaSpace.
Inductive indent := IndNone | IndSpaces (n : nat) | IndTabs.

(** svgdom's [WriteOptions], as filled at src/cli.rs:459-473 ([attributes_indent] and
    [attributes_order] are constants and are left out). *)
Record write_options : Type := {
  w_indent : indent; use_single_quote : bool; trim_hex_colors : bool; write_hidden_attributes : bool;
  remove_leading_zero : bool; use_compact_path_notation : bool; join_arc_to_flags : bool;
  remove_duplicated_path_commands : bool; use_implicit_lineto_commands : bool;
  simplify_transform_matrices : bool; w_list_separator : list_separator }.

(** src/cli.rs:486-491 *)
Definition parse_separator (v : option string) : may list_separator :=
  match v with
  | None => Panicked
  | Some s => if s =? "space" then Done SepSpace
              else if s =? "comma" then Done SepComma
              else if s =? "comma-space" then Done SepCommaSpace
              else Panicked
  end.

(** src/cli.rs:493-502 *)
Definition parse_indent (v : option string) : may indent :=
  match v with
  | None => Panicked
  | Some s => if s =? "none" then Done IndNone
              else if s =? "0" then Done (IndSpaces 0)
              else if s =? "1" then Done (IndSpaces 1)
              else if s =? "2" then Done (IndSpaces 2)
              else if s =? "3" then Done (IndSpaces 3)
              else if s =? "4" then Done (IndSpaces 4)
              else if s =? "tabs" then Done IndTabs
              else Panicked
  end.

(** src/cli.rs:451-505 [gen_write_options] *)
Definition gen_write_options (a : args) : may write_options :=
  let? t := resolve a false KTrimPaths in
  let? d := resolve a false KRemoveDuplCmdInPaths in
  let? j := resolve a false KJoinArcToFlags in
  let? i := resolve a false KUseImplicitCommands in
  let? s := resolve a false KSimplifyTransforms in
  let? c := resolve a false KTrimColors in
  let? sep := parse_separator (value_of a (KEYS KListSeparator)) in
  let? ind := parse_indent (value_of a (KEYS KIndent)) in
  Done {| w_indent := ind; use_single_quote := false; trim_hex_colors := c;
          write_hidden_attributes := false; remove_leading_zero := true;
          use_compact_path_notation := t; join_arc_to_flags := j;
          remove_duplicated_path_commands := d; use_implicit_lineto_commands := i;
          simplify_transform_matrices := s; w_list_separator := sep |}.

(** src/options.rs:19-24 [StyleJoinMode] *)
Inductive style_join_mode := JoinNone | JoinSome | JoinAll.

(** src/options.rs:27-72 [CleaningOptions] (field names prefixed with [o_]). *)
Record cleaning_options : Type := {
  o_remove_unused_defs : bool;
  o_convert_shapes : bool;
  o_remove_title : bool;
  o_remove_desc : bool;
  o_remove_metadata : bool;
  o_remove_dupl_linear_gradients : bool;
  o_remove_dupl_radial_gradients : bool;
  o_remove_dupl_fe_gaussian_blur : bool;
  o_ungroup_groups : bool;
  o_ungroup_defs : bool;
  o_group_by_style : bool;
  o_merge_gradients : bool;
  o_regroup_gradient_stops : bool;
  o_remove_invalid_stops : bool;
  o_remove_invisible_elements : bool;
  o_resolve_use : bool;
  o_remove_version : bool;
  o_remove_unreferenced_ids : bool;
  o_trim_ids : bool;
  o_remove_text_attributes : bool;
  o_remove_unused_coordinates : bool;
  o_remove_default_attributes : bool;
  o_remove_xmlns_xlink_attribute : bool;
  o_remove_needless_attributes : bool;
  o_remove_gradient_attributes : bool;
  o_apply_transform_to_gradients : bool;
  o_apply_transform_to_shapes : bool;
  o_paths_to_relative : bool;
  o_remove_unused_segments : bool;
  o_convert_segments : bool;
  o_append_newline : bool;
  o_apply_transform_to_paths : bool;
  o_join_style_attributes : style_join_mode;
  o_coordinates_precision : Z; o_properties_precision : Z;
  o_paths_coordinates_precision : Z; o_transforms_precision : Z }.

(** src/options.rs:75-120 [Default for CleaningOptions] *)
Definition default_cleaning_options : cleaning_options := {|
  o_remove_unused_defs := false;
  o_convert_shapes := false;
  o_remove_title := false;
  o_remove_desc := false;
  o_remove_metadata := false;
  o_remove_dupl_linear_gradients := false;
  o_remove_dupl_radial_gradients := false;
  o_remove_dupl_fe_gaussian_blur := false;
  o_ungroup_groups := false;
  o_ungroup_defs := false;
  o_group_by_style := false;
  o_merge_gradients := false;
  o_regroup_gradient_stops := false;
  o_remove_invalid_stops := false;
  o_remove_invisible_elements := false;
  o_resolve_use := false;
  o_remove_version := false;
  o_remove_unreferenced_ids := false;
  o_trim_ids := false;
  o_remove_text_attributes := false;
  o_remove_unused_coordinates := false;
  o_remove_default_attributes := false;
  o_remove_xmlns_xlink_attribute := false;
  o_remove_needless_attributes := false;
  o_remove_gradient_attributes := false;
  o_apply_transform_to_gradients := false;
  o_apply_transform_to_shapes := false;
  o_paths_to_relative := false;
  o_remove_unused_segments := false;
  o_convert_segments := false;
  o_append_newline := false;
  o_apply_transform_to_paths := false;
  o_join_style_attributes := JoinNone;
  o_coordinates_precision := 6; o_properties_precision := 6;
  o_paths_coordinates_precision := 8; o_transforms_precision := 8 |}%Z.

(** src/cli.rs:542-547 *)
Definition parse_join (v : option string) : may style_join_mode :=
  match v with
  | None => Panicked
  | Some s => if s =? "no" then Done JoinNone
              else if s =? "some" then Done JoinSome
              else if s =? "all" then Done JoinAll
              else Panicked
  end.

(** [value_t!(args, .., u8).unwrap()], src/cli.rs:555-559 *)
Definition parse_prec (v : option string) : may Z :=
  match v with
  | None => Panicked
  | Some s => match parse_u8 s with Some n => Done n | None => Panicked end
  end.

(** src/cli.rs:507-562 [gen_cleaning_options]; each [resolve] starts from the field of
    [CleaningOptions::default()]. *)
Definition gen_cleaning_options (a : args) : may cleaning_options :=
  let opt := default_cleaning_options in
  let? v_remove_unused_defs := resolve a (o_remove_unused_defs opt) KRemoveUnusedDefs in
  let? v_convert_shapes := resolve a (o_convert_shapes opt) KConvertShapes in
  let? v_remove_title := resolve a (o_remove_title opt) KRemoveTitle in
  let? v_remove_desc := resolve a (o_remove_desc opt) KRemoveDesc in
  let? v_remove_metadata := resolve a (o_remove_metadata opt) KRemoveMetadata in
  let? v_remove_dupl_linear_gradients := resolve a (o_remove_dupl_linear_gradients opt) KRemoveDuplLinearGradients in
  let? v_remove_dupl_radial_gradients := resolve a (o_remove_dupl_radial_gradients opt) KRemoveDuplRadialGradients in
  let? v_remove_dupl_fe_gaussian_blur := resolve a (o_remove_dupl_fe_gaussian_blur opt) KRemoveDuplFeGaussianBlur in
  let? v_ungroup_groups := resolve a (o_ungroup_groups opt) KUngroupGroups in
  let? v_ungroup_defs := resolve a (o_ungroup_defs opt) KUngroupDefs in
  let? v_group_by_style := resolve a (o_group_by_style opt) KGroupByStyle in
  let? v_merge_gradients := resolve a (o_merge_gradients opt) KMergeGradients in
  let? v_regroup_gradient_stops := resolve a (o_regroup_gradient_stops opt) KRegroupGradientStops in
  let? v_remove_invalid_stops := resolve a (o_remove_invalid_stops opt) KRemoveInvalidStops in
  let? v_remove_invisible_elements := resolve a (o_remove_invisible_elements opt) KRemoveInvisibleElements in
  let? v_resolve_use := resolve a (o_resolve_use opt) KResolveUse in
  let? v_remove_version := resolve a (o_remove_version opt) KRemoveVersion in
  let? v_remove_unreferenced_ids := resolve a (o_remove_unreferenced_ids opt) KRemoveUnreferencedIds in
  let? v_trim_ids := resolve a (o_trim_ids opt) KTrimIds in
  let? v_remove_text_attributes := resolve a (o_remove_text_attributes opt) KRemoveTextAttributes in
  let? v_remove_unused_coordinates := resolve a (o_remove_unused_coordinates opt) KRemoveUnusedCoordinates in
  let? v_remove_default_attributes := resolve a (o_remove_default_attributes opt) KRemoveDefaultAttributes in
  let? v_remove_xmlns_xlink_attribute := resolve a (o_remove_xmlns_xlink_attribute opt) KRemoveXmlnsXlinkAttribute in
  let? v_remove_needless_attributes := resolve a (o_remove_needless_attributes opt) KRemoveNeedlessAttributes in
  let? v_remove_gradient_attributes := resolve a (o_remove_gradient_attributes opt) KRemoveGradientAttributes in
  let? v_apply_transform_to_gradients := resolve a (o_apply_transform_to_gradients opt) KApplyTransformToGradients in
  let? v_apply_transform_to_shapes := resolve a (o_apply_transform_to_shapes opt) KApplyTransformToShapes in
  let? v_paths_to_relative := resolve a (o_paths_to_relative opt) KPathsToRelative in
  let? v_remove_unused_segments := resolve a (o_remove_unused_segments opt) KRemoveUnusedSegments in
  let? v_convert_segments := resolve a (o_convert_segments opt) KConvertSegments in
  let? v_append_newline := resolve a (o_append_newline opt) KAppendNewline in
  let? v_apply_transform_to_paths := resolve a (o_apply_transform_to_paths opt) KApplyTransformToPaths in
  let? v_join := parse_join (value_of a (KEYS KJoinStyleAttributes)) in
  let? v_cp := parse_prec (value_of a (KEYS KCoordinatesPrecision)) in
  let? v_pp := parse_prec (value_of a (KEYS KPropertiesPrecision)) in
  let? v_pc := parse_prec (value_of a (KEYS KPathsCoordinatesPrecision)) in
  let? v_tp := parse_prec (value_of a (KEYS KTransformsPrecision)) in
  Done {|
    o_remove_unused_defs := v_remove_unused_defs;
    o_convert_shapes := v_convert_shapes;
    o_remove_title := v_remove_title;
    o_remove_desc := v_remove_desc;
    o_remove_metadata := v_remove_metadata;
    o_remove_dupl_linear_gradients := v_remove_dupl_linear_gradients;
    o_remove_dupl_radial_gradients := v_remove_dupl_radial_gradients;
    o_remove_dupl_fe_gaussian_blur := v_remove_dupl_fe_gaussian_blur;
    o_ungroup_groups := v_ungroup_groups;
    o_ungroup_defs := v_ungroup_defs;
    o_group_by_style := v_group_by_style;
    o_merge_gradients := v_merge_gradients;
    o_regroup_gradient_stops := v_regroup_gradient_stops;
    o_remove_invalid_stops := v_remove_invalid_stops;
    o_remove_invisible_elements := v_remove_invisible_elements;
    o_resolve_use := v_resolve_use;
    o_remove_version := v_remove_version;
    o_remove_unreferenced_ids := v_remove_unreferenced_ids;
    o_trim_ids := v_trim_ids;
    o_remove_text_attributes := v_remove_text_attributes;
    o_remove_unused_coordinates := v_remove_unused_coordinates;
    o_remove_default_attributes := v_remove_default_attributes;
    o_remove_xmlns_xlink_attribute := v_remove_xmlns_xlink_attribute;
    o_remove_needless_attributes := v_remove_needless_attributes;
    o_remove_gradient_attributes := v_remove_gradient_attributes;
    o_apply_transform_to_gradients := v_apply_transform_to_gradients;
    o_apply_transform_to_shapes := v_apply_transform_to_shapes;
    o_paths_to_relative := v_paths_to_relative;
    o_remove_unused_segments := v_remove_unused_segments;
    o_convert_segments := v_convert_segments;
    o_append_newline := v_append_newline;
    o_apply_transform_to_paths := v_apply_transform_to_paths;
    o_join_style_attributes := v_join;
    o_coordinates_precision := v_cp; o_properties_precision := v_pp;
    o_paths_coordinates_precision := v_pc; o_transforms_precision := v_tp |}.

(** src/cli.rs:42-51 *)
Inductive input_from := InStdin | InFile (s : string).
Inductive output_to := OutStdout | OutFile (s : string).

(** src/cli.rs:564-575 [input] *)
Definition input (a : args) : input_from :=
  if (in_file a =? "-") && switch a (KEYS KStdout) then InStdin
  else match out_file a with
       | Some o => if o =? "-" then InStdin else InFile (in_file a)
       | None => InFile (in_file a)
       end.

(** src/cli.rs:577-588 [output]; the [unwrap] of an absent out-file is [Panicked]. *)
Definition output (a : args) : may output_to :=
  if switch a (KEYS KStdout) then Done OutStdout
  else match out_file a with
       | Some o => if o =? "-" then Done (OutFile (in_file a)) else Done (OutFile o)
       | None => Panicked
       end.

(** The validators attached by [prepare_app] (src/cli.rs:216-309) hold for every explicit value:
    boolean flags, precisions, [possible_values] of the three enumerated options, file names,
    and [required_unless] of the output file. *)
Definition flag_names : list string :=
  ["remove-comments"; "remove-declarations"; "remove-nonsvg-elements"; "remove-unused-defs"; "convert-shapes"; "remove-title"; "remove-desc"; "remove-metadata"; "remove-dupl-lineargradient"; "remove-dupl-radialgradient"; "remove-dupl-fegaussianblur"; "ungroup-groups"; "ungroup-defs"; "group-by-style"; "merge-gradients"; "regroup-gradient-stops"; "remove-invalid-stops"; "remove-invisible-elements"; "resolve-use"; "remove-version"; "remove-nonsvg-attributes"; "remove-unreferenced-ids"; "trim-ids"; "remove-text-attributes"; "remove-unused-coordinates"; "remove-default-attributes"; "remove-xmlns-xlink-attribute"; "remove-needless-attributes"; "remove-gradient-attributes"; "apply-transform-to-gradients"; "apply-transform-to-shapes"; "remove-unresolved-classes"; "paths-to-relative"; "remove-unused-segments"; "convert-segments"; "apply-transform-to-paths"; "trim-paths"; "join-arcto-flags"; "remove-dupl-cmd-in-paths"; "use-implicit-cmds"; "trim-colors"; "append-newline"; "simplify-transforms"].
Definition precision_names : list string :=
  ["coordinates-precision"; "properties-precision"; "transforms-precision"; "paths-coordinates-precision"].
Definition args_valid (a : args) : Prop :=
  (forall n v, In n flag_names -> explicit a n = Some v -> is_flag v = true) /\
  (forall n v, In n precision_names -> explicit a n = Some v -> is_precision v = true) /\
  (forall v, explicit a "join-style-attributes" = Some v -> In v ["no"; "some"; "all"]) /\
  (forall v, explicit a "list-separator" = Some v -> In v ["space"; "comma"; "comma-space"]) /\
  (forall v, explicit a "indent" = Some v -> In v ["none"; "0"; "1"; "2"; "3"; "4"; "tabs"]) /\
  is_svg (in_file a) = true /\
  (forall o, out_file a = Some o -> is_svg o = true) /\
  (out_file a = None -> switch a "stdout" = true).
