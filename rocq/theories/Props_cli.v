(** Property theorems C01-C06: the program driver and the command line. *)
From Coq Require Import String Ascii List Bool ZArith Lia.
From Verif Require Import Cli SpecCli CliProofs MainProg SpecMain MainProofs.
Import ListNotations.
Local Open Scope string_scope.

(** C01. Without --allow-bigger-file every text written by the program is at most as long as the
    input (plus the newline asked for), for every environment, number of passes and error. *)
Theorem C01_output_not_bigger : forall doc (e : env doc) fuel fl i o raw dst b,
  e_load e = Some raw -> m_allow_bigger fl = false ->
  In (EWrite dst b) (fst (run_main fuel e fl i o)) ->
  dst = o /\ length b <= length raw + (if m_append_newline fl then 1 else 0).
Proof. exact @run_sizes_alt. Qed.
Print Assumptions C01_output_not_bigger.

Example C01_instance : e_load shrink_env = Some ["a"; "a"; "a"]%char /\ m_allow_bigger multi_flags = false /\
  run_main 5 shrink_env multi_flags (InFile "a.svg") (OutFile "b.svg") = ([EWrite (OutFile "b.svg") ["a"%char]], Finished).
Proof. repeat split. Qed.

(** C02. After a rejected pass the only possible effect is a copy of the input file to a different
    output file, requested by the user; provided the copy itself does not fail. *)
Theorem C02_failure_writes_only_copy_partial : forall doc (e : env doc) fuel fl i o raw,
  e_load e = Some raw -> failed_run e (m_multipass fl) raw ->
  (m_copy_on_error fl = true -> e_copy_ok e = true) ->
  forall f, In f (fst (run_main fuel e fl i o)) ->
    exists src dst, f = ECopy src dst /\ m_copy_on_error fl = true /\ i = InFile src /\ o = OutFile dst /\ src <> dst.
Proof. intros doc e fuel fl i o raw. exact (failed_run_effects fuel e fl i o raw). Qed.
Print Assumptions C02_failure_writes_only_copy_partial.

Example C02_instance : failed_run reject_env false ["a"%char].
Proof. exists 0, ["a"%char]. split; [constructor|]. split; [right; split; [reflexivity|exists tt; auto]|reflexivity]. Qed.

(** C02, in every run: a copy is only made on request, from the input to a different output file. *)
Theorem C02_copies_only_on_request : forall doc (e : env doc) fuel fl i o src dst,
  In (ECopy src dst) (fst (run_main fuel e fl i o)) ->
  m_copy_on_error fl = true /\ i = InFile src /\ o = OutFile dst /\ src <> dst /\ e_copy_ok e = true.
Proof. intros doc e fuel fl i o. exact (run_copies fuel e fl i o). Qed.
Print Assumptions C02_copies_only_on_request.

(** C02 is false when the copy fails after a cleaning error: the program goes on and overwrites the
    output with the uncleaned buffer. *)
Theorem C02_failed_copy_still_saves_refuted : exists (e : env unit) fl i o raw f,
  e_load e = Some raw /\ failed_run e (m_multipass fl) raw /\
  In f (fst (run_main 1 e fl i o)) /\ forall src dst, f <> ECopy src dst /\ f <> ECopyFailed.
Proof.
  exists reject_env, copy_flags, (InFile "a.svg"), (OutFile "b.svg"), ["a"%char], (EWrite (OutFile "b.svg") ["a"%char]).
  split; [reflexivity|]. split; [exact C02_instance|]. split; [right; left; reflexivity|]. split; discriminate.
Qed.
Print Assumptions C02_failed_copy_still_saves_refuted.

(** C03. A run that is not rejected and does not panic saves exactly the text after the first pass
    that does not change the size (the first pass without --multipass). *)
Theorem C03_saves_last_pass : forall doc (e : env doc) fuel fl i o raw effs,
  e_load e = Some raw -> (forall s, i = InFile s -> e_in_exists e = true) ->
  run_main fuel e fl i o = (effs, Finished) -> ~ failed_run e (m_multipass fl) raw ->
  exists n buf, last_pass e (m_multipass fl) raw n /\ passes e raw (S n) buf /\
    effs = finish e fl i o (length raw) buf.
Proof. intros doc e fuel fl i o raw effs. exact (successful_run fuel e fl i o raw effs). Qed.
Print Assumptions C03_saves_last_pass.

(** C03, termination: if no pass makes the text longer, the loop stops. *)
Theorem C03_terminates_when_shrinking : forall doc (e : env doc) multi raw fuel,
  (forall t t', pass_ok e t t' -> length t' <= length t) -> length raw + 2 <= fuel ->
  main_loop fuel e multi raw 0 <> LFuel.
Proof. intros doc e multi raw fuel H Hf. exact (main_loop_terminates e multi H fuel raw 0 Hf (or_introl eq_refl)). Qed.
Print Assumptions C03_terminates_when_shrinking.

Example C03_instance : forall t t', pass_ok shrink_env t t' -> length t' <= length t.
Proof.
  intros t t' (_ & d & d' & [= <-] & [= <-] & ->). cbn [e_write shrink_env]. rewrite repeat_length.
  destruct (Nat.leb (length t) 1); lia.
Qed.

(** C03, the loop as such does not terminate for every cleaner. *)
Theorem C03_always_terminates_refuted : exists (e : env bool) raw, forall fuel,
  main_loop fuel e true raw 0 = LFuel.
Proof. exists flip_env, ["a"; "a"]%char. exact flip_never_stops. Qed.
Print Assumptions C03_always_terminates_refuted.

(** C04. Every cleaning option is the explicit value, else off under --no-defaults, else the documented default. *)
Theorem C04_cleaning_options : forall a, args_valid a ->
  exists o, gen_cleaning_options a = Done o /\
    Forall (fun p => snd p o = effective a (fst p)) cleaning_flags /\
    ((value_or a "join-style-attributes" "some" = "no" /\ o_join_style_attributes o = JoinNone) \/
     (value_or a "join-style-attributes" "some" = "some" /\ o_join_style_attributes o = JoinSome) \/
     (value_or a "join-style-attributes" "some" = "all" /\ o_join_style_attributes o = JoinAll)) /\
    parse_u8 (value_or a "coordinates-precision" "6") = Some (o_coordinates_precision o) /\
    parse_u8 (value_or a "properties-precision" "6") = Some (o_properties_precision o) /\
    parse_u8 (value_or a "paths-coordinates-precision" "8") = Some (o_paths_coordinates_precision o) /\
    parse_u8 (value_or a "transforms-precision" "8") = Some (o_transforms_precision o) /\
    (1 <= o_coordinates_precision o <= 12 /\ 1 <= o_properties_precision o <= 12 /\
     1 <= o_paths_coordinates_precision o <= 12 /\ 1 <= o_transforms_precision o <= 12)%Z.
Proof. exact cleaning_options_resolve. Qed.
Print Assumptions C04_cleaning_options.

Theorem C04_writing_options : forall a, args_valid a ->
  exists o, gen_write_options a = Done o /\ Forall (fun p => snd p o = effective a (fst p)) writing_flags /\
    In (value_or a "list-separator" "space", w_list_separator o) separators /\ In (value_or a "indent" "none", w_indent o) indents /\
    (* what cleaning has hidden is never written *)
    write_hidden_attributes o = false /\ use_single_quote o = false /\ remove_leading_zero o = true.
Proof. exact write_options_resolve. Qed.
Print Assumptions C04_writing_options.

(** The parsing options agree with the documentation, except that --no-defaults does not switch
    off --remove-unresolved-classes. *)
Theorem C04_parsing_options : forall a, args_valid a ->
  exists o, gen_parse_options a = Done o /\
    Forall (fun p => snd p o = effective a (fst p)) parsing_flags /\
    skip_unresolved_classes o =
      (effective a "remove-unresolved-classes" ||
       (switch a "no-defaults" && match explicit a "remove-unresolved-classes" with None => true | _ => false end)).
Proof. exact parse_options_resolve. Qed.
Print Assumptions C04_parsing_options.

Theorem C04_no_defaults_resets_all_flags_refuted : exists a o, args_valid a /\ gen_parse_options a = Done o /\
  switch a "no-defaults" = true /\ explicit a "remove-unresolved-classes" = None /\
  skip_unresolved_classes o <> effective a "remove-unresolved-classes".
Proof. exact no_defaults_keeps_classes. Qed.
Print Assumptions C04_no_defaults_resets_all_flags_refuted.

Example C04_instance : args_valid args_plain /\ args_valid args_no_defaults /\
  args_valid (args_with true [("trim-ids", "yes"); ("convert-shapes", "n")]) /\
  effective (args_with true [("trim-ids", "yes"); ("convert-shapes", "n")]) "trim-ids" = true /\
  effective args_plain "remove-title" = true /\ effective args_plain "append-newline" = false.
Proof.
  split; [exact args_plain_valid|]. split; [exact args_no_defaults_valid|].
  split; [apply args_with_valid; reflexivity|]. repeat split.
Qed.

(** No command line that passed clap's validators can make option handling panic. *)
Theorem C04_option_handling_total : forall a, args_valid a ->
  exists po wo co ot, gen_parse_options a = Done po /\ gen_write_options a = Done wo /\
    gen_cleaning_options a = Done co /\ output a = Done ot /\ exists b, check_values a = Done b.
Proof. exact option_dispatch. Qed.
Print Assumptions C04_option_handling_total.

(** C05. Without --no-defaults the check accepts exactly the consistent option sets. *)
Theorem C05_check_consistent_partial : forall a, args_valid a -> switch a "no-defaults" = false ->
  check_values a = Done (consistent (effective a)).
Proof. exact check_values_consistent. Qed.
Print Assumptions C05_check_consistent_partial.

Theorem C05_accepts_inconsistent_refuted : exists a, args_valid a /\
  check_values a = Done true /\ consistent (effective a) = false.
Proof. exact check_accepts_inconsistent. Qed.
Print Assumptions C05_accepts_inconsistent_refuted.

Theorem C05_rejects_consistent_refuted : exists a, args_valid a /\
  check_values a = Done false /\ consistent (effective a) = true.
Proof. exact check_rejects_consistent. Qed.
Print Assumptions C05_rejects_consistent_refuted.

Theorem C05_single_opt_out_rejected : exists a, args_valid a /\
  (forall n v, explicit a n = Some v -> n = "paths-to-relative" /\ v = "false") /\
  check_values a = Done false.
Proof. exact check_rejects_single_option. Qed.
Print Assumptions C05_single_opt_out_rejected.

(** C06. A precision accepted on the command line is an integer from 1 to 12. *)
Theorem C06_precision_range : forall v, is_precision v = true <->
  exists n, parse_u8 v = Some n /\ (1 <= n <= 12)%Z.
Proof. exact is_precision_iff. Qed.
Print Assumptions C06_precision_range.
Example C06_instance : is_precision "6" = true /\ is_precision "+012" = true /\ is_precision "13" = false /\
  is_precision "0" = false /\ is_precision "" = false /\ is_precision "6.0" = false.
Proof. repeat split. Qed.

(** C06. How the accepted text is read: as the decimal number it writes, an optional plus sign before it;
    a number above 255 is refused. *)
Theorem C06_precision_value : forall v n, parse_u8 v = Some n <-> writes_number v n /\ (n <= 255)%Z.
Proof. exact parse_u8_spec. Qed.
Print Assumptions C06_precision_value.
(** Together: accepted is exactly what writes a number from 1 to 12. *)
Corollary C06_accepted : forall v, is_precision v = true <-> exists n, writes_number v n /\ (1 <= n <= 12)%Z.
Proof.
  intros v. rewrite C06_precision_range. split; intros (n & H1 & H2); exists n; (split; [|exact H2]).
  - apply C06_precision_value in H1. easy.
  - apply C06_precision_value. split; [exact H1|lia].
Qed.
Print Assumptions C06_accepted.
Example C06_value_instance : writes_number "+012" 12 /\ ~ (exists n, writes_number "1e1" n /\ (1 <= n <= 12)%Z).
Proof.
  split.
  - exists "012". split; [now right|]. split; [discriminate|]. split; [repeat split; discriminate|reflexivity].
  - intros H. apply C06_accepted in H. discriminate.
Qed.

(** C48. The program reads the named input and writes the named output, when "-" is used only as the input file
    of a run with -c (the two ways of the help text). *)
Theorem C48_reads_and_writes_named_partial : forall a, args_valid a ->
  out_file a <> Some "-" -> (in_file a = "-" -> switch a "stdout" = true) ->
  input a = named_input a /\ exists o, named_output a = Some o /\ output a = Done o.
Proof.
  intros a (_ & _ & _ & _ & _ & _ & _ & R) Ho Hi. unfold input, output, named_input, named_output.
  change (KEYS KStdout) with "stdout" in *.
  destruct (String.eqb_spec (in_file a) "-") as [E|E].
  - rewrite (Hi E). cbn [andb]. split; [reflexivity|]. exists OutStdout. easy.
  - cbn [andb]. destruct (out_file a) as [f|] eqn:F.
    + destruct (String.eqb_spec f "-") as [E2|E2]; [now subst f|]. split; [reflexivity|].
      destruct (switch a "stdout"); [exists OutStdout|exists (OutFile f)]; easy.
    + rewrite (R eq_refl). split; [reflexivity|]. exists OutStdout. easy.
Qed.
Print Assumptions C48_reads_and_writes_named_partial.

Definition files (i : string) (o : option string) (c : bool) : args :=
  {| explicit := fun _ => None; switch := fun n => (n =? "stdout") && c; in_file := i; out_file := o |}.
Lemma files_valid i o c : is_svg i = true -> (forall f, o = Some f -> is_svg f = true) -> (o = None -> c = true) ->
  args_valid (files i o c).
Proof.
  intros H1 H2 H3. repeat split; try discriminate; [exact H1|exact H2|]. cbn. intros E. now rewrite (H3 E).
Qed.
Example C48_instance :
  (args_valid (files "in.svg" (Some "out.svg") false) /\
   input (files "in.svg" (Some "out.svg") false) = InFile "in.svg" /\
   output (files "in.svg" (Some "out.svg") false) = Done (OutFile "out.svg")) /\
  (args_valid (files "-" None true) /\
   input (files "-" None true) = InStdin /\ output (files "-" None true) = Done OutStdout).
Proof.
  split; (split; [apply files_valid; [reflexivity| |]|split; reflexivity]); try discriminate; try reflexivity.
  intros f [= <-]. reflexivity.
Qed.

(** "-" as the output file turns the two names around: the standard input is read and the file named as *input*
    is overwritten, whatever it contains. *)
Theorem C48_dash_swaps : forall a, out_file a = Some "-" -> switch a "stdout" = false ->
  input a = InStdin /\ output a = Done (OutFile (in_file a)).
Proof.
  intros a E S. unfold input, output. change (KEYS KStdout) with "stdout". rewrite S, E. rewrite andb_false_r. easy.
Qed.
Print Assumptions C48_dash_swaps.
(** So [svgcleaner in.svg -] does not read in.svg but writes to it. *)
Theorem C48_input_overwritten_refuted : exists a, args_valid a /\ named_input a = InFile "in.svg" /\
  input a = InStdin /\ output a = Done (OutFile "in.svg").
Proof.
  exists (files "in.svg" (Some "-") false). split; [|easy].
  apply files_valid; [reflexivity| |discriminate]. intros f [= <-]. reflexivity.
Qed.
Print Assumptions C48_input_overwritten_refuted.
(** And [svgcleaner - out.svg] reads a file whose name is "-", not the standard input. *)
Theorem C48_dash_input_refuted : exists a, args_valid a /\ named_input a = InStdin /\
  input a = InFile "-" /\ output a = Done (OutFile "out.svg").
Proof.
  exists (files "-" (Some "out.svg") false). split; [|easy].
  apply files_valid; [reflexivity| |discriminate]. intros f [= <-]. reflexivity.
Qed.
Print Assumptions C48_dash_input_refuted.
