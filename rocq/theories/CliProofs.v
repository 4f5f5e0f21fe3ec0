(** Proofs about Cli.v. *)
From Coq Require Import String Ascii List Bool ZArith Lia.
From Verif Require Import Cli SpecCli.
Import ListNotations.
Local Open Scope string_scope.

Lemma keys_in_range k : key_index k < length KEYS_DATA.
Proof. destruct k; cbv; lia. Qed.

Lemma keys_distinct k1 k2 : KEYS k1 = KEYS k2 -> k1 = k2.
Proof.
  assert (F : forallb (fun p => implb (nth (fst p) KEYS_DATA "" =? nth (snd p) KEYS_DATA "") (Nat.eqb (fst p) (snd p)))
                (list_prod (seq 0 56) (seq 0 56)) = true) by (vm_compute; reflexivity).
  rewrite forallb_forall in F.
  intros E. assert (I : key_index k1 = key_index k2).
  { assert (P : In (key_index k1, key_index k2) (list_prod (seq 0 56) (seq 0 56))).
    { apply in_prod; apply in_seq; (split; [apply Nat.le_0_l|apply keys_in_range]). }
    specialize (F _ P). cbn [fst snd] in F. unfold KEYS in E. rewrite E, String.eqb_refl in F.
    cbn [implb] in F. now apply Nat.eqb_eq in F. }
  destruct k1; destruct k2; try reflexivity; discriminate I.
Qed.

Definition inb (n : string) (l : list string) : bool := existsb (String.eqb n) l.
Lemma inb_In n l : inb n l = true -> In n l.
Proof.
  intros H. apply existsb_exists in H. destruct H as [x [X1 X2]]. apply String.eqb_eq in X2. now subst.
Qed.

Lemma is_flag_means v : is_flag v = true ->
  (if (v =? "true") || (v =? "yes") || (v =? "y") then Done true
   else if (v =? "false") || (v =? "no") || (v =? "n") then Done false
   else Panicked) = Done (means_yes v).
Proof.
  unfold is_flag, means_yes. intros H.
  destruct (v =? "true"); [reflexivity|].
  destruct (v =? "yes"); [reflexivity|].
  destruct (v =? "y"); [reflexivity|]. cbn [orb] in *.
  destruct (v =? "false"); [reflexivity|].
  destruct (v =? "no"); [reflexivity|].
  destruct (v =? "n"); [reflexivity|discriminate].
Qed.

Lemma flag_key_default k : inb (KEYS k) flag_names = true ->
  app_default (KEYS k) = Some (if doc_default (KEYS k) then "true" else "false").
Proof.
  destruct k; intros H; first [vm_compute in H; discriminate H | vm_compute; reflexivity].
Qed.

Lemma get_flag_spec a k : args_valid a -> inb (KEYS k) flag_names = true ->
  get_flag a k = Done (match explicit a (KEYS k) with
                       | Some v => means_yes v | None => doc_default (KEYS k) end).
Proof.
  intros [Hf _] Hin. unfold get_flag, value_of.
  destruct (explicit a (KEYS k)) as [v|] eqn:E.
  - apply is_flag_means. eapply Hf; [apply inb_In; exact Hin|exact E].
  - rewrite (flag_key_default k Hin). destruct (doc_default (KEYS k)); reflexivity.
Qed.

Lemma resolve_spec a k : args_valid a -> inb (KEYS k) flag_names = true ->
  resolve a false k = Done (effective a (KEYS k)).
Proof.
  intros Hv Hin. unfold resolve, resolve_opt, effective, is_no_defaults, occurs.
  change (KEYS KNoDefaults) with "no-defaults".
  rewrite (get_flag_spec a k Hv Hin).
  destruct (switch a "no-defaults"); destruct (explicit a (KEYS k)); reflexivity.
Qed.

Lemma resolve_named a k n cur : cur = false -> args_valid a -> KEYS k = n -> inb n flag_names = true ->
  resolve a cur k = Done (effective a n).
Proof. intros -> Hv <- Hin. now apply resolve_spec. Qed.

Lemma resolve_true_spec a k : args_valid a -> inb (KEYS k) flag_names = true ->
  resolve a true k = Done (match explicit a (KEYS k) with
     | Some v => means_yes v
     | None => if switch a "no-defaults" then true else doc_default (KEYS k) end).
Proof.
  intros Hv Hin. unfold resolve, resolve_opt, is_no_defaults, occurs.
  change (KEYS KNoDefaults) with "no-defaults".
  rewrite (get_flag_spec a k Hv Hin).
  destruct (switch a "no-defaults"); destruct (explicit a (KEYS k)); reflexivity.
Qed.

Lemma resolve_inv_spec a k : args_valid a -> inb (KEYS k) flag_names = true ->
  resolve_inv a true k = Done (negb (effective a (KEYS k))).
Proof.
  intros Hv Hin. unfold resolve_inv, resolve_opt, effective, is_no_defaults, occurs.
  change (KEYS KNoDefaults) with "no-defaults".
  rewrite (get_flag_spec a k Hv Hin).
  destruct (switch a "no-defaults"); destruct (explicit a (KEYS k)); reflexivity.
Qed.

Ltac in_names := vm_compute; reflexivity.

Lemma parse_digits_range s acc n : (0 <= acc <= 255)%Z -> parse_digits s acc = Some n -> (0 <= n <= 255)%Z.
Proof.
  revert acc. induction s as [|c s IH]; cbn [parse_digits]; intros acc Ha H.
  - injection H as <-. lia.
  - destruct (digit_of c) as [d|] eqn:D; [|discriminate].
    destruct (Z.leb_spec (acc * 10 + d) 255); [|discriminate].
    apply (IH (acc * 10 + d)%Z); [|exact H].
    unfold digit_of in D. destruct ((48 <=? Z.of_nat (nat_of_ascii c)) && (Z.of_nat (nat_of_ascii c) <=? 57))%Z eqn:B; [|discriminate].
    apply andb_prop in B. destruct B as [B1 B2]. apply Z.leb_le in B1, B2. injection D as <-. lia.
Qed.

Lemma parse_prec_ok a n d : args_valid a -> inb n precision_names = true -> app_default n = Some d -> is_precision d = true ->
  exists z, parse_prec (value_of a n) = Done z /\ (1 <= z <= 12)%Z /\ parse_u8 (value_or a n d) = Some z.
Proof.
  intros (_ & Hp & _) Hin Hd Hdd. unfold parse_prec, value_of, value_or.
  assert (G : forall v, is_precision v = true -> exists z, parse_u8 v = Some z /\ (1 <= z <= 12)%Z).
  { intros v Hv. unfold is_precision in Hv. destruct (parse_u8 v) as [z|]; [|discriminate].
    exists z. split; [reflexivity|]. apply andb_prop in Hv. destruct Hv as [A B].
    apply Z.leb_le in A, B. lia. }
  destruct (explicit a n) as [v|] eqn:E.
  - destruct (G v (Hp n v (inb_In _ _ Hin) E)) as [z [Hz Hr]]. exists z. rewrite Hz. auto.
  - rewrite Hd. destruct (G d Hdd) as [z [Hz Hr]]. exists z. rewrite Hz. auto.
Qed.

Lemma parse_join_ok a : args_valid a -> exists m, parse_join (value_of a "join-style-attributes") = Done m /\
  ((value_or a "join-style-attributes" "some" = "no" /\ m = JoinNone) \/
   (value_or a "join-style-attributes" "some" = "some" /\ m = JoinSome) \/
   (value_or a "join-style-attributes" "some" = "all" /\ m = JoinAll)).
Proof.
  intros (_ & _ & Hj & _). unfold value_of, value_or.
  destruct (explicit a "join-style-attributes") as [v|] eqn:E.
  - specialize (Hj v eq_refl). destruct Hj as [<-|[<-|[<-|[]]]]; eexists; (split; [reflexivity|]); auto.
  - eexists; (split; [reflexivity|]); auto.
Qed.

Lemma mbind_done {A B} (m : may A) (f : A -> may B) x r : m = Done x -> f x = r -> mbind m f = r.
Proof. intros -> H. exact H. Qed.

Local Opaque resolve effective resolve_inv.
Lemma cleaning_options_resolve a : args_valid a ->
  exists o, gen_cleaning_options a = Done o /\
    Forall (fun p => snd p o = effective a (fst p)) cleaning_flags /\
    ((value_or a "join-style-attributes" "some" = "no" /\ o_join_style_attributes o = JoinNone) \/
     (value_or a "join-style-attributes" "some" = "some" /\ o_join_style_attributes o = JoinSome) \/
     (value_or a "join-style-attributes" "some" = "all" /\ o_join_style_attributes o = JoinAll)) /\
    parse_u8 (value_or a "coordinates-precision" "6") = Some (o_coordinates_precision o) /\
    parse_u8 (value_or a "properties-precision" "6") = Some (o_properties_precision o) /\
    parse_u8 (value_or a "paths-coordinates-precision" "8") = Some (o_paths_coordinates_precision o) /\
    parse_u8 (value_or a "transforms-precision" "8") = Some (o_transforms_precision o) /\
    (1 <= o_coordinates_precision o <= 12 /\ 1 <= o_properties_precision o <= 12 /\
     1 <= o_paths_coordinates_precision o <= 12 /\ 1 <= o_transforms_precision o <= 12)%Z.
Proof.
  intros Hv.
  destruct (parse_join_ok a Hv) as [m [Hm Hmj]].
  destruct (parse_prec_ok a "coordinates-precision" "6" Hv) as (z1 & E1 & R1 & P1); [in_names|reflexivity|reflexivity|].
  destruct (parse_prec_ok a "properties-precision" "6" Hv) as (z2 & E2 & R2 & P2); [in_names|reflexivity|reflexivity|].
  destruct (parse_prec_ok a "paths-coordinates-precision" "8" Hv) as (z3 & E3 & R3 & P3); [in_names|reflexivity|reflexivity|].
  destruct (parse_prec_ok a "transforms-precision" "8" Hv) as (z4 & E4 & R4 & P4); [in_names|reflexivity|reflexivity|].
  eexists. split.
  - unfold gen_cleaning_options. cbv zeta.
    apply (mbind_done _ _ _ _ (resolve_named a KRemoveUnusedDefs "remove-unused-defs" (o_remove_unused_defs default_cleaning_options) eq_refl Hv eq_refl eq_refl)); cbv beta.
    apply (mbind_done _ _ _ _ (resolve_named a KConvertShapes "convert-shapes" (o_convert_shapes default_cleaning_options) eq_refl Hv eq_refl eq_refl)); cbv beta.
    apply (mbind_done _ _ _ _ (resolve_named a KRemoveTitle "remove-title" (o_remove_title default_cleaning_options) eq_refl Hv eq_refl eq_refl)); cbv beta.
    apply (mbind_done _ _ _ _ (resolve_named a KRemoveDesc "remove-desc" (o_remove_desc default_cleaning_options) eq_refl Hv eq_refl eq_refl)); cbv beta.
    apply (mbind_done _ _ _ _ (resolve_named a KRemoveMetadata "remove-metadata" (o_remove_metadata default_cleaning_options) eq_refl Hv eq_refl eq_refl)); cbv beta.
    apply (mbind_done _ _ _ _ (resolve_named a KRemoveDuplLinearGradients "remove-dupl-lineargradient" (o_remove_dupl_linear_gradients default_cleaning_options) eq_refl Hv eq_refl eq_refl)); cbv beta.
    apply (mbind_done _ _ _ _ (resolve_named a KRemoveDuplRadialGradients "remove-dupl-radialgradient" (o_remove_dupl_radial_gradients default_cleaning_options) eq_refl Hv eq_refl eq_refl)); cbv beta.
    apply (mbind_done _ _ _ _ (resolve_named a KRemoveDuplFeGaussianBlur "remove-dupl-fegaussianblur" (o_remove_dupl_fe_gaussian_blur default_cleaning_options) eq_refl Hv eq_refl eq_refl)); cbv beta.
    apply (mbind_done _ _ _ _ (resolve_named a KUngroupGroups "ungroup-groups" (o_ungroup_groups default_cleaning_options) eq_refl Hv eq_refl eq_refl)); cbv beta.
    apply (mbind_done _ _ _ _ (resolve_named a KUngroupDefs "ungroup-defs" (o_ungroup_defs default_cleaning_options) eq_refl Hv eq_refl eq_refl)); cbv beta.
    apply (mbind_done _ _ _ _ (resolve_named a KGroupByStyle "group-by-style" (o_group_by_style default_cleaning_options) eq_refl Hv eq_refl eq_refl)); cbv beta.
    apply (mbind_done _ _ _ _ (resolve_named a KMergeGradients "merge-gradients" (o_merge_gradients default_cleaning_options) eq_refl Hv eq_refl eq_refl)); cbv beta.
    apply (mbind_done _ _ _ _ (resolve_named a KRegroupGradientStops "regroup-gradient-stops" (o_regroup_gradient_stops default_cleaning_options) eq_refl Hv eq_refl eq_refl)); cbv beta.
    apply (mbind_done _ _ _ _ (resolve_named a KRemoveInvalidStops "remove-invalid-stops" (o_remove_invalid_stops default_cleaning_options) eq_refl Hv eq_refl eq_refl)); cbv beta.
    apply (mbind_done _ _ _ _ (resolve_named a KRemoveInvisibleElements "remove-invisible-elements" (o_remove_invisible_elements default_cleaning_options) eq_refl Hv eq_refl eq_refl)); cbv beta.
    apply (mbind_done _ _ _ _ (resolve_named a KResolveUse "resolve-use" (o_resolve_use default_cleaning_options) eq_refl Hv eq_refl eq_refl)); cbv beta.
    apply (mbind_done _ _ _ _ (resolve_named a KRemoveVersion "remove-version" (o_remove_version default_cleaning_options) eq_refl Hv eq_refl eq_refl)); cbv beta.
    apply (mbind_done _ _ _ _ (resolve_named a KRemoveUnreferencedIds "remove-unreferenced-ids" (o_remove_unreferenced_ids default_cleaning_options) eq_refl Hv eq_refl eq_refl)); cbv beta.
    apply (mbind_done _ _ _ _ (resolve_named a KTrimIds "trim-ids" (o_trim_ids default_cleaning_options) eq_refl Hv eq_refl eq_refl)); cbv beta.
    apply (mbind_done _ _ _ _ (resolve_named a KRemoveTextAttributes "remove-text-attributes" (o_remove_text_attributes default_cleaning_options) eq_refl Hv eq_refl eq_refl)); cbv beta.
    apply (mbind_done _ _ _ _ (resolve_named a KRemoveUnusedCoordinates "remove-unused-coordinates" (o_remove_unused_coordinates default_cleaning_options) eq_refl Hv eq_refl eq_refl)); cbv beta.
    apply (mbind_done _ _ _ _ (resolve_named a KRemoveDefaultAttributes "remove-default-attributes" (o_remove_default_attributes default_cleaning_options) eq_refl Hv eq_refl eq_refl)); cbv beta.
    apply (mbind_done _ _ _ _ (resolve_named a KRemoveXmlnsXlinkAttribute "remove-xmlns-xlink-attribute" (o_remove_xmlns_xlink_attribute default_cleaning_options) eq_refl Hv eq_refl eq_refl)); cbv beta.
    apply (mbind_done _ _ _ _ (resolve_named a KRemoveNeedlessAttributes "remove-needless-attributes" (o_remove_needless_attributes default_cleaning_options) eq_refl Hv eq_refl eq_refl)); cbv beta.
    apply (mbind_done _ _ _ _ (resolve_named a KRemoveGradientAttributes "remove-gradient-attributes" (o_remove_gradient_attributes default_cleaning_options) eq_refl Hv eq_refl eq_refl)); cbv beta.
    apply (mbind_done _ _ _ _ (resolve_named a KApplyTransformToGradients "apply-transform-to-gradients" (o_apply_transform_to_gradients default_cleaning_options) eq_refl Hv eq_refl eq_refl)); cbv beta.
    apply (mbind_done _ _ _ _ (resolve_named a KApplyTransformToShapes "apply-transform-to-shapes" (o_apply_transform_to_shapes default_cleaning_options) eq_refl Hv eq_refl eq_refl)); cbv beta.
    apply (mbind_done _ _ _ _ (resolve_named a KPathsToRelative "paths-to-relative" (o_paths_to_relative default_cleaning_options) eq_refl Hv eq_refl eq_refl)); cbv beta.
    apply (mbind_done _ _ _ _ (resolve_named a KRemoveUnusedSegments "remove-unused-segments" (o_remove_unused_segments default_cleaning_options) eq_refl Hv eq_refl eq_refl)); cbv beta.
    apply (mbind_done _ _ _ _ (resolve_named a KConvertSegments "convert-segments" (o_convert_segments default_cleaning_options) eq_refl Hv eq_refl eq_refl)); cbv beta.
    apply (mbind_done _ _ _ _ (resolve_named a KAppendNewline "append-newline" (o_append_newline default_cleaning_options) eq_refl Hv eq_refl eq_refl)); cbv beta.
    apply (mbind_done _ _ _ _ (resolve_named a KApplyTransformToPaths "apply-transform-to-paths" (o_apply_transform_to_paths default_cleaning_options) eq_refl Hv eq_refl eq_refl)); cbv beta.
    apply (mbind_done _ _ _ _ Hm); cbv beta.
    apply (mbind_done _ _ _ _ E1); cbv beta.
    apply (mbind_done _ _ _ _ E2); cbv beta.
    apply (mbind_done _ _ _ _ E3); cbv beta.
    apply (mbind_done _ _ _ _ E4); cbv beta. reflexivity.
  - cbn [o_join_style_attributes o_coordinates_precision o_properties_precision o_paths_coordinates_precision o_transforms_precision].
    split; [|repeat split; auto; lia].
    unfold cleaning_flags. repeat (constructor; [reflexivity|]). constructor.
Qed.

Lemma write_options_resolve a : args_valid a ->
  exists o, gen_write_options a = Done o /\
    Forall (fun p => snd p o = effective a (fst p)) writing_flags /\
    In (value_or a "list-separator" "space", w_list_separator o) separators /\ In (value_or a "indent" "none", w_indent o) indents /\
    write_hidden_attributes o = false /\ use_single_quote o = false /\ remove_leading_zero o = true.
Proof.
  intros Hv. pose proof Hv as (_ & _ & _ & Hs & Hi & _).
  assert (S : exists s, parse_separator (value_of a "list-separator") = Done s /\ In (value_or a "list-separator" "space", s) separators).
  { unfold value_of, value_or. destruct (explicit a "list-separator") as [v|] eqn:E; [|eexists; split; [reflexivity|cbn; auto]].
    specialize (Hs v eq_refl). destruct Hs as [<-|[<-|[<-|[]]]]; (eexists; split; [reflexivity|cbn; auto]). }
  assert (I : exists s, parse_indent (value_of a "indent") = Done s /\ In (value_or a "indent" "none", s) indents).
  { unfold value_of, value_or. destruct (explicit a "indent") as [v|] eqn:E; [|eexists; split; [reflexivity|cbn; auto]].
    specialize (Hi v eq_refl). repeat (destruct Hi as [<-|Hi]; [eexists; split; [reflexivity|cbn; auto 10]|]). destruct Hi. }
  destruct S as (s & Hs' & Ss), I as (i & Hi' & Si).
  eexists. split.
  - unfold gen_write_options.
    apply (mbind_done _ _ _ _ (resolve_named a KTrimPaths "trim-paths" _ eq_refl Hv eq_refl eq_refl)); cbv beta.
    apply (mbind_done _ _ _ _ (resolve_named a KRemoveDuplCmdInPaths "remove-dupl-cmd-in-paths" _ eq_refl Hv eq_refl eq_refl)); cbv beta.
    apply (mbind_done _ _ _ _ (resolve_named a KJoinArcToFlags "join-arcto-flags" _ eq_refl Hv eq_refl eq_refl)); cbv beta.
    apply (mbind_done _ _ _ _ (resolve_named a KUseImplicitCommands "use-implicit-cmds" _ eq_refl Hv eq_refl eq_refl)); cbv beta.
    apply (mbind_done _ _ _ _ (resolve_named a KSimplifyTransforms "simplify-transforms" _ eq_refl Hv eq_refl eq_refl)); cbv beta.
    apply (mbind_done _ _ _ _ (resolve_named a KTrimColors "trim-colors" _ eq_refl Hv eq_refl eq_refl)); cbv beta.
    apply (mbind_done _ _ _ _ Hs'); cbv beta.
    apply (mbind_done _ _ _ _ Hi'); cbv beta. reflexivity.
  - split; [repeat (constructor; [reflexivity|]); constructor|]. split; [exact Ss|]. split; [exact Si|]. auto.
Qed.

Local Transparent resolve effective resolve_inv.
Lemma parse_options_resolve a : args_valid a ->
  exists o, gen_parse_options a = Done o /\
    Forall (fun p => snd p o = effective a (fst p)) parsing_flags /\
    skip_unresolved_classes o =
      (effective a "remove-unresolved-classes" ||
       (switch a "no-defaults" && match explicit a "remove-unresolved-classes" with None => true | _ => false end)).
Proof.
  intros Hv. eexists. split.
  - unfold gen_parse_options.
    repeat (rewrite resolve_inv_spec; [cbn [mbind]|exact Hv|in_names]).
    rewrite resolve_true_spec; [cbn [mbind]|exact Hv|in_names]. reflexivity.
  - split.
    + repeat (constructor; [cbn; rewrite negb_involutive; reflexivity|]). constructor.
    + cbn [skip_unresolved_classes]. unfold effective.
      change (KEYS KRemoveUnresolvedClasses) with "remove-unresolved-classes".
      destruct (explicit a "remove-unresolved-classes"); destruct (switch a "no-defaults"); cbn;
        rewrite ?orb_false_r; reflexivity.
Qed.

(** A plain command line: [svgcleaner --no-defaults in.svg out.svg]. *)
Definition args_no_defaults : args :=
  {| explicit := fun _ => None; switch := fun n => n =? "no-defaults"; in_file := "in.svg"; out_file := Some "out.svg" |}.
Definition args_plain : args :=
  {| explicit := fun _ => None; switch := fun _ => false; in_file := "in.svg"; out_file := Some "out.svg" |}.
Definition args_with (nd : bool) (l : list (string * string)) : args :=
  {| explicit := fun n => match find (fun p => fst p =? n) l with Some (_, v) => Some v | None => None end;
     switch := fun n => nd && (n =? "no-defaults"); in_file := "in.svg"; out_file := Some "out.svg" |}.

Lemma args_no_defaults_valid : args_valid args_no_defaults.
Proof. repeat split; cbn; try discriminate; intros o [= <-]; reflexivity. Qed.
Lemma args_plain_valid : args_valid args_plain.
Proof. repeat split; cbn; try discriminate; intros o [= <-]; reflexivity. Qed.

Lemma no_defaults_keeps_classes : exists a o, args_valid a /\ gen_parse_options a = Done o /\
  switch a "no-defaults" = true /\ explicit a "remove-unresolved-classes" = None /\
  skip_unresolved_classes o <> effective a "remove-unresolved-classes".
Proof.
  exists args_no_defaults. eexists. split; [exact args_no_defaults_valid|].
  split; [reflexivity|]. repeat split. vm_compute. discriminate.
Qed.

(** The command line check, in terms of the values with defaults. *)
Definition with_default (a : args) (name : string) : bool :=
  match explicit a name with Some v => means_yes v | None => doc_default name end.

Lemma check_values_spec a : args_valid a ->
  check_values a = Done (
    negb (negb (with_default a "trim-paths") && with_default a "join-arcto-flags") &&
    negb (negb (with_default a "paths-to-relative") &&
          (with_default a "remove-unused-segments" || with_default a "convert-segments" ||
           with_default a "apply-transform-to-paths"))).
Proof.
  intros Hv.
  assert (C : forall f d, inb (KEYS f) flag_names = true -> inb (KEYS d) flag_names = true ->
     check_value a f d = Done (negb (negb (with_default a (KEYS f)) && with_default a (KEYS d)))).
  { intros f d Hf Hd. unfold check_value. rewrite (get_flag_spec a f Hv Hf), (get_flag_spec a d Hv Hd).
    cbn [mbind]. fold (with_default a (KEYS f)). fold (with_default a (KEYS d)).
    destruct (with_default a (KEYS f)); destruct (with_default a (KEYS d)); reflexivity. }
  unfold check_values.
  rewrite !C by in_names. cbn [mbind].
  change (KEYS KTrimPaths) with "trim-paths". change (KEYS KJoinArcToFlags) with "join-arcto-flags".
  change (KEYS KPathsToRelative) with "paths-to-relative".
  change (KEYS KRemoveUnusedSegments) with "remove-unused-segments".
  change (KEYS KConvertSegments) with "convert-segments".
  change (KEYS KApplyTransformToPaths) with "apply-transform-to-paths".
  destruct (with_default a "trim-paths"), (with_default a "join-arcto-flags"),
    (with_default a "paths-to-relative"), (with_default a "remove-unused-segments"),
    (with_default a "convert-segments"), (with_default a "apply-transform-to-paths"); reflexivity.
Qed.

(** Options actually used, see [SpecCli.effective]: the dependency rule of the error message. *)
Definition consistent (e : string -> bool) : bool :=
  implb (e "join-arcto-flags") (e "trim-paths") &&
  implb (e "remove-unused-segments") (e "paths-to-relative") &&
  implb (e "convert-segments") (e "paths-to-relative") &&
  implb (e "apply-transform-to-paths") (e "paths-to-relative").

Lemma check_values_consistent a : args_valid a -> switch a "no-defaults" = false ->
  check_values a = Done (consistent (effective a)).
Proof.
  intros Hv Hn. rewrite (check_values_spec a Hv). f_equal.
  assert (W : forall n, with_default a n = effective a n).
  { intros n. unfold with_default, effective. rewrite Hn. reflexivity. }
  rewrite !W. unfold consistent.
  destruct (effective a "trim-paths"), (effective a "join-arcto-flags"),
    (effective a "paths-to-relative"), (effective a "remove-unused-segments"),
    (effective a "convert-segments"), (effective a "apply-transform-to-paths"); reflexivity.
Qed.

Lemma args_with_valid nd l :
  forallb (fun p => existsb (String.eqb (fst p)) flag_names && is_flag (snd p)) l = true -> args_valid (args_with nd l).
Proof.
  intros H.
  assert (G : forall n v, explicit (args_with nd l) n = Some v -> In n flag_names /\ is_flag v = true).
  { intros n v. cbn [explicit args_with]. destruct (find _ l) as [[n' v']|] eqn:E; [|discriminate]. intros [= <-].
    apply find_some in E. destruct E as [E1 E2]. cbn [fst snd] in E2. apply String.eqb_eq in E2. subst n'.
    rewrite forallb_forall in H. specialize (H _ E1). cbn [fst snd] in H. apply andb_prop in H. destruct H as [H1 H2].
    split; [|exact H2]. apply existsb_exists in H1. destruct H1 as [x [X1 X2]]. apply String.eqb_eq in X2. now subst. }
  assert (N : forall n v, explicit (args_with nd l) n = Some v -> forall P : Prop,
     existsb (String.eqb n) flag_names = false -> P).
  { intros n v E P F. destruct (G n v E) as [I _]. exfalso.
    assert (existsb (String.eqb n) flag_names = true); [|congruence].
    apply existsb_exists. exists n. split; [exact I|apply String.eqb_refl]. }
  split; [intros n v _ E; exact (proj2 (G n v E))|].
  split; [intros n v Hin E; apply (N n v E); destruct Hin as [<-|[<-|[<-|[<-|[]]]]]; reflexivity|].
  split; [intros v E; apply (N _ v E); reflexivity|].
  split; [intros v E; apply (N _ v E); reflexivity|].
  split; [intros v E; apply (N _ v E); reflexivity|].
  cbn. repeat split; [intros o [= <-]; reflexivity|discriminate].
Qed.

(** Under --no-defaults an inconsistent option set is accepted. *)
Lemma check_accepts_inconsistent : exists a, args_valid a /\
  check_values a = Done true /\ consistent (effective a) = false.
Proof.
  exists (args_with true [("remove-unused-segments", "true")]).
  split; [apply args_with_valid; reflexivity|]. split; reflexivity.
Qed.

(** ... and a consistent one is rejected. *)
Lemma check_rejects_consistent : exists a, args_valid a /\
  check_values a = Done false /\ consistent (effective a) = true.
Proof.
  exists (args_with true [("paths-to-relative", "false")]).
  split; [apply args_with_valid; reflexivity|]. split; reflexivity.
Qed.

(** Switching off only [--paths-to-relative] is rejected although the user enabled nothing that
    depends on it. *)
Lemma check_rejects_single_option : exists a, args_valid a /\
  (forall n v, explicit a n = Some v -> n = "paths-to-relative" /\ v = "false") /\
  check_values a = Done false.
Proof.
  exists (args_with false [("paths-to-relative", "false")]).
  split; [apply args_with_valid; reflexivity|]. split; [|reflexivity].
  intros n v. cbn [explicit args_with find fst]. destruct (String.eqb_spec "paths-to-relative" n) as [<-|]; [intros [= <-]; auto|discriminate].
Qed.

(** Input and output. *)
Lemma output_total a : args_valid a -> exists o, output a = Done o.
Proof.
  intros (_ & _ & _ & _ & _ & _ & _ & H). unfold output. change (KEYS KStdout) with "stdout".
  destruct (switch a "stdout") eqn:E; [eexists; reflexivity|].
  destruct (out_file a) as [o|]; [|specialize (H eq_refl); congruence].
  destruct (o =? "-"); eexists; reflexivity.
Qed.

Lemma option_dispatch a : args_valid a ->
  exists po wo co ot, gen_parse_options a = Done po /\ gen_write_options a = Done wo /\
    gen_cleaning_options a = Done co /\ output a = Done ot /\ exists b, check_values a = Done b.
Proof.
  intros Hv.
  destruct (parse_options_resolve a Hv) as (po & H1 & _).
  destruct (write_options_resolve a Hv) as (wo & H2 & _).
  destruct (cleaning_options_resolve a Hv) as (co & H3 & _).
  destruct (output_total a Hv) as (ot & H4).
  exists po, wo, co, ot. repeat split; auto. rewrite (check_values_spec a Hv). eexists. reflexivity.
Qed.

Lemma is_precision_iff v : is_precision v = true <-> exists n, parse_u8 v = Some n /\ (1 <= n <= 12)%Z.
Proof.
  unfold is_precision. destruct (parse_u8 v) as [n|].
  - rewrite andb_true_iff, !Z.leb_le. split; [intros H; exists n; auto|intros (m & [= <-] & H); lia].
  - split; [discriminate|intros (n & H & _); discriminate].
Qed.

Lemma digit_of_spec c d : digit_of c = Some d <-> is_digit c /\ d = digit_value c.
Proof.
  unfold digit_of, is_digit, digit_value.
  destruct ((48 <=? Z.of_nat (nat_of_ascii c)) && (Z.of_nat (nat_of_ascii c) <=? 57))%Z eqn:E.
  - apply andb_true_iff in E. rewrite !Z.leb_le in E. split.
    + intros [= <-]. lia.
    + intros [_ ->]. reflexivity.
  - split; [discriminate|]. intros [H _]. apply andb_false_iff in E. rewrite !Z.leb_gt in E. lia.
Qed.

Lemma decimal_nonneg s : all_digits s -> (0 <= decimal_value s)%Z.
Proof.
  induction s as [|c s IH]; cbn [all_digits decimal_value]; [lia|]. intros [H1 H2]. specialize (IH H2).
  unfold is_digit in H1. assert (0 <= 10 ^ Z.of_nat (String.length s))%Z by (apply Z.pow_nonneg; lia).
  apply Z.add_nonneg_nonneg; [apply Z.mul_nonneg_nonneg; lia|lia].
Qed.

Lemma parse_digits_spec s : forall acc n, (0 <= acc <= 255)%Z ->
  parse_digits s acc = Some n <->
  all_digits s /\ n = (acc * 10 ^ Z.of_nat (String.length s) + decimal_value s)%Z /\ (n <= 255)%Z.
Proof.
  induction s as [|c s IH]; intros acc n Ha.
  - cbn [parse_digits all_digits decimal_value String.length]. rewrite Z.pow_0_r. split.
    + intros [= <-]. lia.
    + intros (_ & -> & _). f_equal. lia.
  - cbn [parse_digits all_digits decimal_value String.length].
    assert (P : (10 ^ Z.of_nat (S (String.length s)) = 10 * 10 ^ Z.of_nat (String.length s))%Z)
      by (rewrite Nat2Z.inj_succ; apply Z.pow_succ_r; lia).
    rewrite P. assert (Q : (1 <= 10 ^ Z.of_nat (String.length s))%Z) by (pose proof (Z.pow_pos_nonneg 10 (Z.of_nat (String.length s))); lia).
    destruct (digit_of c) as [d|] eqn:D.
    + apply digit_of_spec in D. destruct D as [D ->]. pose proof D as D'. unfold is_digit in D'.
      cbn zeta. destruct (acc * 10 + digit_value c <=? 255)%Z eqn:L.
      * apply Z.leb_le in L. rewrite IH by lia. split.
        -- intros (H1 & -> & H2). split; [easy|]. split; [ring|exact H2].
        -- intros ([_ H1] & -> & H2). split; [easy|]. split; [ring|exact H2].
      * apply Z.leb_gt in L. split; [discriminate|]. intros ([_ H1] & -> & H2). exfalso.
        pose proof (decimal_nonneg s H1). set (k := (10 ^ Z.of_nat (String.length s))%Z) in *. nia.
    + split; [discriminate|]. intros ([H1 _] & _). exfalso.
      assert (X : digit_of c = Some (digit_value c)) by (apply digit_of_spec; easy). congruence.
Qed.

Lemma parse_u8_spec s n : parse_u8 s = Some n <-> writes_number s n /\ (n <= 255)%Z.
Proof.
  assert (A : forall ds, ds <> "" -> parse_digits ds 0 = Some n <-> (all_digits ds /\ decimal_value ds = n) /\ (n <= 255)%Z).
  { intros ds _. rewrite parse_digits_spec by lia. rewrite Z.mul_0_l, Z.add_0_l. intuition congruence. }
  unfold parse_u8, writes_number. destruct s as [|c s].
  - split; [discriminate|]. intros ((ds & [<- | E] & H & _) & _); [now destruct H|discriminate].
  - destruct (Ascii.eqb_spec c "+").
    + subst c. assert (P : ~ is_digit "+") by (intros [H _]; vm_compute in H; now apply H).
      destruct s as [|c s].
      * split; [discriminate|]. intros ((ds & [<- | E] & H & H2 & _) & _).
        -- cbn [all_digits] in H2. now destruct P.
        -- injection E as <-. now destruct H.
      * rewrite A by discriminate. split.
        -- intros [H1 H2]. split; [|exact H2]. exists (String c s). split; [now right|]. split; [discriminate|exact H1].
        -- intros [(ds & [<- | E] & H & H2 & H3) H4].
           ++ cbn [all_digits] in H2. now destruct P.
           ++ injection E as <-. easy.
    + rewrite A by discriminate. split.
      * intros [H1 H2]. split; [|exact H2]. exists (String c s). split; [now left|]. split; [discriminate|exact H1].
      * intros [(ds & [<- | E] & H & H2 & H3) H4]; [easy|]. injection E as E _. now destruct n0.
Qed.
