(** C57: gradients keep their geometry over a whole run. *)
From Coq Require Import List Bool NArith Arith ZArith String QArith Qcanon.
From Verif Require Import Names Num Value Dom DomFacts Outcome SpecDom SpecGradients SpecWritten SpecPicture SpecPrepared SpecShading SpecGeometry SpecClean Cli Clean WfAll Props_clean Props_wf Props_picture Props_ramps PictureEnd RampsWork Geometry GeoPasses GeoRun GeoResolve GeoVectors Props_gradtrans.
From Verif Require JoinStyle TasksSimple PicturePrep.
From Verif Require Import Props_use Props_picturerun.
From Verif Require Props_coords.
From Verif Require Import SpecAccept SpecRamps Props_accept.
Import ListNotations.
Local Open Scope nat_scope.

(** C57, without a change of transforms: in the saved document every gradient has all the values in effect that it had. *)
Theorem C57_geometry_partial x o t t' : light o -> o_apply_transform_to_gradients o = false -> digits_ok o -> prepared (digits_of o) t -> gradient_hrefs t -> clean_doc x o t = Some (Ok t') ->
  exists t2, same_geometry t t2 /\ t' = JoinStyle.join_style_attributes (x_write x) (o_join_style_attributes o) t2.
Proof.
  intros L G U D H E. destruct (TasksSimple.preclean_checks t) as [[]|err|] eqn:P; [|unfold clean_doc in E; rewrite P in E; discriminate..]. pose proof (proj2 (C45_pipeline x o t P _) eq_refl) as R. rewrite E, pipeline_parts in R.
  destruct (runs_parts _ _ _ _ _ _ R) as (t1 & R1 & R2). rewrite prep_on in R1. rewrite <- digits_eq in D. destruct (runs_parts _ _ _ _ _ _ R2) as (t2 & R3 & R4). exists t2. split.
  2:{ cbn [filter enabled] in R4. inversion R4 as [|? ? ? u ? E4 R5| | |]; subst. inversion R5; subst. cbn [perform] in E4. now injection E4 as <-. }
  pose proof (gready_fine t (pd_groups _ _ D)) as F. destruct (prep_ready x o t t1 (digits_nat o U) D R1) as (A1 & Sn & V1). destruct (prep_tracked x o t t1 (digits_nat o U) D R1) as [T _].
  destruct (work_shades x o t1 t2 (light_quiet o L) A1 Sn R3) as (w & w' & _ & S1 & Aw & Sw & Rs & Aw' & S2 & F2).
  pose proof (gready_fine t1 (r1_g t1 A1)) as F1. pose proof (gready_fine w (rS_g w Aw)) as Fw. pose proof (gready_fine w' (rS_g w' Aw')) as Fw'.
  apply (written_geometry t t2 (fine_wfa t F) (wf_keys t (fine_wf t F)) H). apply (tracks_trans _ (written t1)); [exact T|]. apply tracks_written; [apply F1|apply F2|].
  apply (tracks_trans _ w); [apply (shades_tracks t1 w); [intros s Hs Gs; exact (apart_stops t1 s V1 Hs Gs)|exact S1]|].
  apply (tracks_trans _ w'); [exact (proj1 (server_tracked x o G (light_quiet o L) w w' Aw Sw Rs))|].
  apply shades_tracks; [|exact S2]. intros s Hs Gs. exact (apart_stops w' s (rS_servers w' Aw') Hs Gs).
Qed.
Print Assumptions C57_geometry_partial.

(** C57, with transforms applied to gradients: in the saved document every gradient has all the values in effect that it had, or its
    transform is gone and its points and its radius are mapped by it. Missing: documents that are not prepared (C51), passes that are not
    [light], and radial gradients that take r over xlink:href and scale (C24_hidden_radius_refuted). *)
Theorem C57_vectors_partial x o t t' : light o -> digits_ok o -> prepared (digits_of o) t -> solvable t -> plain_gradients t -> clean_doc x o t = Some (Ok t') ->
  exists t2, same_vectors t t2 /\ t' = JoinStyle.join_style_attributes (x_write x) (o_join_style_attributes o) t2.
Proof.
  intros L U D Sv Pg E. destruct (TasksSimple.preclean_checks t) as [[]|err|] eqn:P; [|unfold clean_doc in E; rewrite P in E; discriminate..]. pose proof (proj2 (C45_pipeline x o t P _) eq_refl) as R. rewrite E, pipeline_parts in R.
  destruct (runs_parts _ _ _ _ _ _ R) as (t1 & R1 & R2). rewrite prep_on in R1. rewrite <- digits_eq in D. destruct (runs_parts _ _ _ _ _ _ R2) as (t2 & R3 & R4). exists t2. split.
  2:{ cbn [filter enabled] in R4. inversion R4 as [|? ? ? u ? E4 R5| | |]; subst. inversion R5; subst. cbn [perform] in E4. now injection E4 as <-. }
  destruct (prep_ready x o t t1 (digits_nat o U) D R1) as (A1 & Sn & V1). pose proof (gready_fine t1 (r1_g t1 A1)) as F1.
  destruct (prep_state x o t t1 (digits_nat o U) D Sv Pg F1 R1) as (u2 & W & S2 & S1 & T2).
  destruct (work_shades x o t1 t2 (light_quiet o L) A1 Sn R3) as (w & w' & Rf & _ & Aw & Sw & Rs & Aw' & Sh & F2). pose proof (gready_fine w (rS_g w Aw)) as Fw. pose proof (gready_fine w' (rS_g w' Aw')) as Fw'.
  pose proof (first_tracked x o t1 w A1 Sn Rf) as Tw. pose proof (state_tracked t1 w Fw Tw S1) as Sw0.
  destruct (servers_forwards x o (light_quiet o L) w w' Aw Sw Sw0 Rs) as [Sw' T3].
  assert (T : forwards u2 t2).
  { apply (forwards_trans u2 t1 t2 S2 (wf_keys t1 (fine_wf t1 F1)) T2). apply (forwards_trans t1 w t2 S1 (wf_keys w (fine_wf w Fw))).
    - apply tracks_forwards; [exact F1|exact Fw|apply S1|apply Tw].
    - apply (forwards_trans w w' t2 Sw0 (wf_keys w' (fine_wf w' Fw')) T3). apply tracks_forwards; [exact Fw'|exact F2|apply Sw'|]. apply shades_tracks; [|exact Sh]. intros s Hs Gs. exact (apart_stops w' s (rS_servers w' Aw') Hs Gs). }
  intros d Hd G. assert (I : In (vis d) (flat (written u2))) by (rewrite W, flat_written; now apply in_map). rewrite flat_written in I. apply in_map_iff in I. destruct I as (d2 & Ev & Hd2).
  assert (T2' : key d2 = key d /\ tag d2 = tag d) by (split; [exact (f_equal key Ev)|exact (f_equal tag Ev)]). destruct (T d2 Hd2) as (d' & Hd' & K & Tg & M); [unfold gradient_node; rewrite (proj2 T2'); exact G|].
  exists d'. split; [exact Hd'|]. split; [rewrite K; apply T2'|]. split; [rewrite Tg; apply T2'|]. rewrite W, Ev in M. exact M.
Qed.
Print Assumptions C57_vectors_partial.
Corollary C57_saved_partial x o t t' : light o -> o_join_style_attributes o = JoinNone -> digits_ok o -> prepared (digits_of o) t -> solvable t -> plain_gradients t ->
  clean_doc x o t = Some (Ok t') -> same_vectors t t'.
Proof. intros L J U D Sv Pg E. destruct (C57_vectors_partial x o t t' L U D Sv Pg E) as (t2 & S & ->). rewrite J. exact S. Qed.
Print Assumptions C57_saved_partial.

(** The run has a result; shapes, colours and the geometry of gradients are kept in it together. *)
Theorem C57_whole_partial uu x o t : light o -> o_join_style_attributes o = JoinNone -> digits_ok o -> prepared (digits_of o) t -> solvable t -> supported t -> ids_fit t -> plain_gradients t ->
  exists t', clean_doc x o t = Some (Ok t') /\ same_picture uu t t' /\ same_ramps t t' /\ same_vectors t t'.
Proof.
  intros L J U D S P Z G. destruct (C51_whole_partial uu x o t L J U D S P Z) as (t' & E & Q). exists t'. split; [exact E|]. split; [exact Q|].
  split; [exact (C56_saved_partial x o t t' L J U D E)|exact (C57_saved_partial x o t t' L J U D S G E)].
Qed.
Print Assumptions C57_whole_partial.

(** An instance: of three gradients one takes its units over xlink:href, one has a transform, which stays. *)
Definition geo_opts : cleaning_options := {|
  o_remove_unused_defs := false; o_convert_shapes := false; o_remove_title := true; o_remove_desc := true; o_remove_metadata := true;
  o_remove_dupl_linear_gradients := false; o_remove_dupl_radial_gradients := false; o_remove_dupl_fe_gaussian_blur := false;
  o_ungroup_groups := true; o_ungroup_defs := false; o_group_by_style := true; o_merge_gradients := false; o_regroup_gradient_stops := false;
  o_remove_invalid_stops := true; o_remove_invisible_elements := false; o_resolve_use := false; o_remove_version := true;
  o_remove_unreferenced_ids := true; o_trim_ids := true; o_remove_text_attributes := false; o_remove_unused_coordinates := false;
  o_remove_default_attributes := false; o_remove_xmlns_xlink_attribute := true; o_remove_needless_attributes := false;
  o_remove_gradient_attributes := false; o_apply_transform_to_gradients := false; o_apply_transform_to_shapes := false;
  o_paths_to_relative := false; o_remove_unused_segments := false; o_convert_segments := false; o_append_newline := false;
  o_apply_transform_to_paths := false; o_join_style_attributes := JoinNone;
  o_coordinates_precision := 6; o_properties_precision := 6; o_paths_coordinates_precision := 8; o_transforms_precision := 8 |}%Z.
Lemma shade_hrefs : gradient_hrefs shade_doc.
Proof.
  intros d v Hd G E. cbn in Hd. repeat (destruct Hd as [<-|Hd]; [first [discriminate E|destruct G as [G|G]; discriminate G|injection E as <-; exists 20; eexists; split; [reflexivity|split; [do 4 right; left; reflexivity|split; [reflexivity|left; reflexivity]]]]|]). destruct Hd.
Qed.
Lemma geo_light : light geo_opts.
Proof. intros p Hp En. cbn in Hp |- *. repeat (destruct Hp as [<-|Hp]; [try discriminate En; tauto|]). destruct Hp. Qed.
Lemma geo_ok : digits_ok geo_opts.
Proof. intros p Hp. cbn in Hp. intuition (subst p; Lia.lia). Qed.
Example C57_instance : light geo_opts /\ o_apply_transform_to_gradients geo_opts = false /\ digits_ok geo_opts /\ prepared (digits_of geo_opts) shade_doc /\ gradient_hrefs shade_doc /\
  (exists d, In d (flat shade_doc) /\ key d = 24 /\ gradient_node d /\ effective (written shade_doc) (vis d) AGradientTransform (Some (tr 3 4)) /\ effective (written shade_doc) (vis d) AX2 (Some (px 9))) /\
  match clean_doc lib geo_opts shade_doc with
  | Some (Ok t') => map (fun k => option_map (fun d => (d_has d AGradientTransform, d_has d AX2, d_has d ACx)) (find_data k t')) [20; 23; 24] = [Some (false, true, false); Some (false, false, true); Some (true, true, false)]
  | _ => False
  end.
Proof.
  split; [exact geo_light|]. split; [reflexivity|]. split; [exact geo_ok|]. split; [exact shade_prepared|]. split; [exact shade_hrefs|]. split.
  - eexists. split; [do 8 right; left; reflexivity|]. split; [reflexivity|]. split; [left; reflexivity|]. split; apply eff_found, ah_own; reflexivity.
  - vm_compute. reflexivity.
Qed.

(** An instance: as before, with the transform of gradient 24 applied to its vector. *)
Lemma shade_plain : plain_gradients shade_doc.
Proof.
  split.
  - exact shade_hrefs.
  - intros x y Hx Hy E T. cbn in Hx. repeat (destruct Hx as [<-|Hx]; [first [discriminate E|reflexivity|injection E as E; cbn in Hy; repeat (destruct Hy as [<-|Hy]; [first [discriminate E|discriminate T]|]); destruct Hy]|]). destruct Hx.
  - intros d y Hd G Hy. cbn in Hd. repeat (destruct Hd as [<-|Hd]; [cbn in Hy; repeat (destruct Hy as [<-|Hy]; [reflexivity|]); destruct Hy|]). destruct Hd.
  - intros d a v Hd G Ha E. cbn in Hd. repeat (destruct Hd as [<-|Hd]; [first [destruct G as [G|G]; discriminate G|cbn in Ha; repeat (destruct Ha as [<-|Ha]; [first [discriminate E|injection E as <-; eexists; reflexivity]|]); destruct Ha]|]). destruct Hd.
  - intros d Hd T. cbn in Hd. repeat (destruct Hd as [<-|Hd]; [first [discriminate T|right; intros v E]|]); [|destruct Hd].
    assert (N : NoDup (keys shade_doc)) by apply shade_gready. left. match type of E with effective _ ?d0 _ _ => assert (A : effective shade_doc d0 AGradientTransform None) end.
    { change None with (gradient_default AGradientTransform). apply eff_default; [|cbn; intuition discriminate]. eapply (ah_next _ _ _ 20); [reflexivity|reflexivity|do 4 right; left; reflexivity|reflexivity|apply ah_end; reflexivity]. }
    exact (Props_coords.effective_fun _ _ _ _ _ N E A).
Qed.
Definition length_at (t : tree) (k : nat) (a : aid) : option Q := match find_data k t with Some d => match d_get d a with Some (VLen (Len n UNone)) => Some (this n) | _ => None end | None => None end.
Example C57_vectors_instance : light light_opts /\ o_join_style_attributes light_opts = JoinNone /\ digits_ok light_opts /\ prepared (digits_of light_opts) shade_doc /\ solvable shade_doc /\ plain_gradients shade_doc /\
  match clean_doc lib light_opts shade_doc with
  | Some (Ok t') => map (fun a => length_at t' 24 a) [AX1; AY1; AX2; AY2] = [Some (3 # 1); Some (4 # 1); Some (12 # 1); Some (4 # 1)]%Q /\ option_map (fun d => d_has d AGradientTransform) (find_data 24 t') = Some false
  | _ => False
  end.
Proof.
  split; [exact light_opts_light|]. split; [reflexivity|]. split; [exact shade_ok|]. split; [exact shade_prepared|]. split; [exact shade_solvable|]. split; [exact shade_plain|]. vm_compute. split; reflexivity.
Qed.
