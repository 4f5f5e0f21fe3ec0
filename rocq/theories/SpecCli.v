(** Specification of the command line: what the help text (data/help.txt) and the manual
    (docs/svgcleaner.adoc, "Reset default flags to no") promise. Nothing here uses the
    model's own resolution functions. *)
From Coq Require Import String Ascii List Bool ZArith.
From Verif Require Import Cli.
Import ListNotations.
Local Open Scope string_scope.

(** data/help.txt, "[default: yes]" / "[default: no]" of every <FLAG> option. *)
Definition documented_default : list (string * bool) :=
  [("remove-comments", true);
   ("remove-declarations", true);
   ("remove-nonsvg-elements", true);
   ("remove-unused-defs", true);
   ("convert-shapes", true);
   ("remove-title", true);
   ("remove-desc", true);
   ("remove-metadata", true);
   ("remove-dupl-lineargradient", true);
   ("remove-dupl-radialgradient", true);
   ("remove-dupl-fegaussianblur", true);
   ("ungroup-groups", true);
   ("ungroup-defs", true);
   ("group-by-style", true);
   ("merge-gradients", true);
   ("regroup-gradient-stops", true);
   ("remove-invalid-stops", true);
   ("remove-invisible-elements", true);
   ("resolve-use", true);
   ("remove-version", true);
   ("remove-nonsvg-attributes", true);
   ("remove-unreferenced-ids", true);
   ("trim-ids", true);
   ("remove-text-attributes", true);
   ("remove-unused-coordinates", true);
   ("remove-default-attributes", true);
   ("remove-xmlns-xlink-attribute", true);
   ("remove-needless-attributes", true);
   ("remove-gradient-attributes", false);
   ("apply-transform-to-gradients", true);
   ("apply-transform-to-shapes", true);
   ("remove-unresolved-classes", true);
   ("paths-to-relative", true);
   ("remove-unused-segments", true);
   ("convert-segments", true);
   ("apply-transform-to-paths", false);
   ("trim-paths", true);
   ("join-arcto-flags", false);
   ("remove-dupl-cmd-in-paths", true);
   ("use-implicit-cmds", true);
   ("trim-colors", true);
   ("append-newline", false);
   ("simplify-transforms", true)].

Definition doc_default (name : string) : bool :=
  match find (fun p => fst p =? name) documented_default with Some (_, b) => b | None => false end.

(** "<FLAG> can contain values: true, false, yes, no, y, n" *)
Definition means_yes (v : string) : bool := (v =? "true") || (v =? "yes") || (v =? "y").

(** An explicit value wins; otherwise the documented default, or "no" under --no-defaults. *)
Definition effective (a : args) (name : string) : bool :=
  match explicit a name with
  | Some v => means_yes v
  | None => if switch a "no-defaults" then false else doc_default name
  end.

(** Which option of the user controls which setting of the cleaner. *)
Definition cleaning_flags : list (string * (cleaning_options -> bool)) :=
  [("remove-unused-defs", o_remove_unused_defs);
   ("convert-shapes", o_convert_shapes);
   ("remove-title", o_remove_title);
   ("remove-desc", o_remove_desc);
   ("remove-metadata", o_remove_metadata);
   ("remove-dupl-lineargradient", o_remove_dupl_linear_gradients);
   ("remove-dupl-radialgradient", o_remove_dupl_radial_gradients);
   ("remove-dupl-fegaussianblur", o_remove_dupl_fe_gaussian_blur);
   ("ungroup-groups", o_ungroup_groups);
   ("ungroup-defs", o_ungroup_defs);
   ("group-by-style", o_group_by_style);
   ("merge-gradients", o_merge_gradients);
   ("regroup-gradient-stops", o_regroup_gradient_stops);
   ("remove-invalid-stops", o_remove_invalid_stops);
   ("remove-invisible-elements", o_remove_invisible_elements);
   ("resolve-use", o_resolve_use);
   ("remove-version", o_remove_version);
   ("remove-unreferenced-ids", o_remove_unreferenced_ids);
   ("trim-ids", o_trim_ids);
   ("remove-text-attributes", o_remove_text_attributes);
   ("remove-unused-coordinates", o_remove_unused_coordinates);
   ("remove-default-attributes", o_remove_default_attributes);
   ("remove-xmlns-xlink-attribute", o_remove_xmlns_xlink_attribute);
   ("remove-needless-attributes", o_remove_needless_attributes);
   ("remove-gradient-attributes", o_remove_gradient_attributes);
   ("apply-transform-to-gradients", o_apply_transform_to_gradients);
   ("apply-transform-to-shapes", o_apply_transform_to_shapes);
   ("paths-to-relative", o_paths_to_relative);
   ("remove-unused-segments", o_remove_unused_segments);
   ("convert-segments", o_convert_segments);
   ("append-newline", o_append_newline);
   ("apply-transform-to-paths", o_apply_transform_to_paths)].

Definition writing_flags : list (string * (write_options -> bool)) :=
  [("trim-paths", use_compact_path_notation); ("remove-dupl-cmd-in-paths", remove_duplicated_path_commands);
   ("join-arcto-flags", join_arc_to_flags); ("use-implicit-cmds", use_implicit_lineto_commands);
   ("simplify-transforms", simplify_transform_matrices); ("trim-colors", trim_hex_colors)].

(** What the values of --list-separator and --indent stand for. *)
Definition separators : list (string * list_separator) := [("space", SepSpace); ("comma", SepComma); ("comma-space", SepCommaSpace)].
Definition indents : list (string * indent) :=
  [("none", IndNone); ("0", IndSpaces 0); ("1", IndSpaces 1); ("2", IndSpaces 2); ("3", IndSpaces 3); ("4", IndSpaces 4); ("tabs", IndTabs)].

(** "remove x" on the command line is "do not parse x". *)
Definition parsing_flags : list (string * (parse_options -> bool)) :=
  [("remove-comments", fun o => negb (parse_comments o));
   ("remove-declarations", fun o => negb (parse_declarations o));
   ("remove-nonsvg-elements", fun o => negb (parse_unknown_elements o));
   ("remove-nonsvg-attributes", fun o => negb (parse_unknown_attributes o))].

(** Value of an option with a documented default that is not a <FLAG>. *)
Definition value_or (a : args) (name dflt : string) : string :=
  match explicit a name with Some v => v | None => dflt end.

(** A non-negative decimal number as people write it: one or more digits, most significant first. *)
Definition digit_value (c : Ascii.ascii) : Z := (Z.of_nat (Ascii.nat_of_ascii c) - 48)%Z.
Definition is_digit (c : Ascii.ascii) : Prop := (0 <= digit_value c <= 9)%Z.
Fixpoint all_digits (s : string) : Prop :=
  match s with EmptyString => True | String c s' => is_digit c /\ all_digits s' end.
Fixpoint decimal_value (s : string) : Z :=
  match s with
  | EmptyString => 0
  | String c s' => (digit_value c * 10 ^ Z.of_nat (String.length s') + decimal_value s')%Z
  end.
(** [s] writes the number [n], with an optional plus sign. *)
Definition writes_number (s : string) (n : Z) : Prop :=
  exists ds, (s = ds \/ s = String "+"%char ds) /\ ds <> "" /\ all_digits ds /\ decimal_value ds = n.

(** data/help.txt, USAGE: [svgcleaner <in-file> <out-file>], [-c] prints to the standard output,
    [-] as the input file is the standard input. *)
Definition named_input (a : args) : input_from :=
  if in_file a =? "-" then InStdin else InFile (in_file a).
Definition named_output (a : args) : option output_to :=
  if switch a "stdout" then Some OutStdout
  else match out_file a with Some f => Some (OutFile f) | None => None end.
