(** Theorems about cleaning as a whole: the picture stays the same. *)
From Coq Require Import List Bool NArith Arith ZArith String QArith Qcanon Lia.
From Verif Require Import Names Num Value Dom DomFacts DomOps Outcome SpecDom SpecStyle SpecText SpecPaint SpecUse SpecUngroup SpecGroupStyle Cli Clean SpecClean Props_clean WfAll SpecPicture PictureSim PictureEnd.
From Verif Require Round RoundProofs JoinStyle.
From Verif Require Import Props_use Props_wf Props_ungroup SpecRound SpecPrepared PictureTwin PictureServers PicturePrep.
Import ListNotations.
Local Open Scope nat_scope.

(** The passes that are always run before the work begins. *)
Definition preparation : list pass := [PLinear; PRadial; PStops; PInherit; PFix; PGroupDefs; PRound].
(** Options with which nothing but these passes is run. *)
Definition light (o : cleaning_options) : Prop := forall p, In p pipeline -> enabled o p = true ->
  In p preparation \/ In p [PTitle; PDesc; PMetadata; PInvalidStops; PGradTransforms; PUngroup; PGroupStyle; PIds; PTrimIds; PVersion; PEmptyDefs; PXmlns; PDefaultTransform; PJoinStyle].
Lemma pipeline_parts : pipeline = preparation ++ work ++ [PJoinStyle]. Proof. reflexivity. Qed.
Lemma light_quiet o : light o -> forall p, In p work -> enabled o p = true -> In p quiet.
Proof.
  intros L p Hp En. assert (H : In p pipeline) by (rewrite pipeline_parts; apply in_or_app; right; apply in_or_app; now left). destruct (L p H En) as [A|A].
  - cbn in Hp, A. intuition congruence.
  - cbn in Hp, A |- *. intuition congruence.
Qed.
Lemma prep_on o : filter (enabled o) preparation = preparation. Proof. reflexivity. Qed.
Lemma runs_det x o l : forall t r r', runs x o l t r -> runs x o l t r' -> r = r'.
Proof. induction l as [|p l IH]; intros t r r' H H'; inversion H; subst; inversion H'; subst; try congruence. assert (t1 = t2) by congruence. subst t2. eauto. Qed.
Theorem C51_clean_partial uu x o t t1 t' : light o -> runs x o preparation t (Some (Ok t1)) ->
  gready t1 -> sready t1 -> remarks_apart t1 -> defs_apart t1 -> servers_apart t1 -> clean_doc x o t = Some (Ok t') ->
  exists t2, same_picture uu t1 t2 /\ t' = JoinStyle.join_style_attributes (x_write x) (o_join_style_attributes o) t2.
Proof.
  intros L Rp G S A D V E. destruct (TasksSimple.preclean_checks t) as [[]|err|] eqn:P; [|unfold clean_doc in E; rewrite P in E; discriminate..]. pose proof (proj2 (C45_pipeline x o t P _) eq_refl) as R. rewrite E, pipeline_parts in R.
  destruct (runs_parts _ _ _ _ _ _ R) as (u & R1 & R2). rewrite prep_on in R1. assert (u = t1) by (pose proof (runs_det _ _ _ _ _ _ R1 Rp) as Q; congruence). subst u. destruct (runs_parts _ _ _ _ _ _ R2) as (t2 & R3 & R4). exists t2. split.
  - apply (work_same uu x o t1 t2 (light_quiet o L)); [split; assumption|exact R3].
  - cbn [filter enabled] in R4. inversion R4 as [|? ? ? u ? E4 R5| | |]; subst. inversion R5; subst. cbn [perform] in E4. now injection E4 as <-.
Qed.
Print Assumptions C51_clean_partial.
(** For a document that the preparation leaves as it is, and without joining of style attributes: the saved document looks like the
    one that was read. *)
Corollary C51_prepared_partial uu x o t t' : light o -> o_join_style_attributes o = JoinNone ->
  (forall p, In p preparation -> perform x o p t = Some (Ok t)) ->
  gready t -> sready t -> remarks_apart t -> defs_apart t -> servers_apart t -> clean_doc x o t = Some (Ok t') -> same_picture uu t t'.
Proof.
  intros L J P G S A D V E. destruct (C51_clean_partial uu x o t t t' L) as (t2 & Q & ->); auto.
  - revert P. generalize preparation. intros l P. induction l as [|p l IH]; [constructor|]. apply (runs_next x o p l t t); [apply P; now left|]. apply IH. intros q Hq. apply P. now right.
  - rewrite J. exact Q.
Qed.
Print Assumptions C51_prepared_partial.


(** The documents of [prepared], whose description does not mention the program. *)
Lemma nonserver_back t0 t d : twin (side t0) t0 t -> In d (flat t) -> ~ server d -> In d (flat t0).
Proof. intros W Hd V. destruct (f2_back _ _ _ _ (tw_flat _ _ _ W) Hd) as (c & Hc & S). assert (d = c) by (apply S; intros X; apply V; apply (server_tag d c); [symmetry; apply S|exact X]). now subst c. Qed.
Lemma tag_nonserver d e : tag d = TEl e -> ~ In e [ELinearGradient; ERadialGradient; EStop] -> ~ server d.
Proof. intros E N [[H|H]|H]; rewrite E in H; inversion H; subst; cbn in N; tauto. Qed.
Lemma prep_inherit t u precs : prepared precs t -> twin (side t) t u -> Inherit.resolve_inherit u = Ok u.
Proof.
  intros D W. apply inherit_id. pose proof (tw_stale t _ _ W (stale_self t)) as St. intros d y Hd Hy Wd. destruct (St d y Hd Hy) as [[(c & z & Hc & Hz & Ez)|[_ Nw]] _]; [|exact (Nw Wd)]. rewrite <- Ez in Wd. destruct (pd_words _ _ D c z Hc Hz) as [W1 W2]. destruct Wd; auto.
Qed.
Lemma prep_group t u precs : prepared precs t -> twin (side t) t u -> GroupDefs.group_defs u = Ok u.
Proof. intros D W. apply group_id. apply (tw_main t t u); [|exact W|exact (pd_main _ _ D)]. exact (wf_keys t (g_wf t (pd_groups _ _ D))). Qed.
Lemma prep_step x o t p u u' : (forall p, In p (digits (Clean.round_opts o)) -> 1 <= p <= 12) -> prepared (digits (Clean.round_opts o)) t ->
  In p preparation -> twin (side t) t u /\ fine u -> perform x o p u = Some (Ok u') -> twin (side t) t u' /\ fine u'.
Proof.
  intros U D Hp [W F] E. pose proof (wf_keys u (fine_wf u F)) as N. pose proof (tw_stale t _ _ W (stale_self t)) as St. assert (A : servers_apart u) by (exact (st_servers t u W (pd_servers _ _ D))).
  split; [|apply (fine_silent x o p u u'); auto; cbn in Hp; intuition (subst p; exact I)]. apply (tw_trans t _ _ _ W). destruct Hp as [<-|[<-|[<-|[<-|[<-|[<-|[<-|[]]]]]]]]; cbn [perform] in E.
    - exact (tw_linear t u u' N St E).
    - exact (tw_radial t u u' N St E).
    - injection E as E. exact (tw_stops t u u' (sa_stops u A) E).
    - rewrite (prep_inherit t u _ D W) in E. injection E as <-. apply tw_refl.
    - injection E as E. apply (tw_fix t u u' (sa_stops u A)); [| | |exact E].
      + intros d Hd Tg. apply (pd_rect _ _ D d); [|exact Tg]. apply (nonserver_back t u d W Hd), (tag_nonserver d _ Tg). cbn. intuition discriminate.
      + intros d l Hd Tg. apply (pd_poly _ _ D d l); [|exact Tg]. apply (nonserver_back t u d W Hd). destruct Tg as [Tg|Tg]; apply (tag_nonserver d _ Tg); cbn; intuition discriminate.
      + intros d Hd. destruct (st_back t u W d Hd) as (c & Hc & S). rewrite (sd_get _ _ _ S) by (cbn; intuition discriminate). exact (pd_marker _ _ D c Hc).
    - rewrite (prep_group t u _ D W) in E. injection E as <-. apply tw_refl.
    - injection E as <-. apply (tw_round t (Clean.round_opts o) U); [|exact W]. intros d y Hd Hy n p Hn Hp. exact (pd_short _ _ D d y n p Hd Hy Hn Hp).
Qed.
Lemma prep_twin x o t t1 : (forall p, In p (digits (Clean.round_opts o)) -> 1 <= p <= 12) -> prepared (digits (Clean.round_opts o)) t ->
  runs x o preparation t (Some (Ok t1)) -> twin (side t) t t1 /\ fine t1.
Proof.
  intros U D R. assert (F0 : fine t) by (apply gready_fine, D).
  assert (G : forall l u r, incl l preparation -> twin (side t) t u /\ fine u -> runs x o l u (Some (Ok r)) -> twin (side t) t r /\ fine r).
  { induction l as [|p l IH]; intros u r I Iu Ru; inversion Ru; subst; [exact Iu|]. apply (IH t2 r); [intros q Hq; apply I; now right| |assumption]. apply (prep_step x o t p u t2 U D); [apply I; now left|exact Iu|assumption]. }
  exact (G preparation t t1 (incl_refl _) (conj (tw_refl t t) F0) R).
Qed.
(** The options that concern the digits are those of the command line. *)
Definition digits_ok (o : cleaning_options) : Prop :=
  forall p, In p [o_coordinates_precision o; o_properties_precision o; o_paths_coordinates_precision o; o_transforms_precision o] -> (1 <= p <= 12)%Z.
Definition digits_of (o : cleaning_options) : list nat :=
  map Z.to_nat [o_coordinates_precision o; o_properties_precision o; o_paths_coordinates_precision o; o_transforms_precision o].
Lemma digits_nat o : digits_ok o -> forall p, In p (digits_of o) -> 1 <= p <= 12.
Proof. intros H p Hp. unfold digits_of in Hp. apply in_map_iff in Hp. destruct Hp as (z & <- & Hz). specialize (H z Hz). lia. Qed.
Lemma digits_eq o : digits (Clean.round_opts o) = digits_of o. Proof. reflexivity. Qed.
Theorem C51_document_partial uu x o t t' : light o -> digits_ok o -> prepared (digits_of o) t -> clean_doc x o t = Some (Ok t') ->
  exists t2, same_picture uu t t2 /\ t' = JoinStyle.join_style_attributes (x_write x) (o_join_style_attributes o) t2.
Proof.
  intros L U D E. destruct (TasksSimple.preclean_checks t) as [[]|err|] eqn:P; [|unfold clean_doc in E; rewrite P in E; discriminate..]. pose proof (proj2 (C45_pipeline x o t P _) eq_refl) as R. rewrite E, pipeline_parts in R.
  destruct (runs_parts _ _ _ _ _ _ R) as (t1 & R1 & R2). rewrite prep_on in R1. rewrite <- digits_eq in D. destruct (prep_twin x o t t1 (digits_nat o U) D R1) as [W F1]. pose proof (pd_groups _ _ D) as G. pose proof (pd_styles _ _ D) as S.
  destruct (C51_clean_partial uu x o t t1 t' L R1 (st_gready t t1 W F1 G) (st_sready t t1 W F1 S) (st_remarks t t1 W (pd_remarks _ _ D)) (st_defs t t1 W (pd_defs _ _ D)) (st_servers t t1 W (pd_servers _ _ D)) E) as (t2 & Q & ->). exists t2. split; [|reflexivity].
  apply (same_picture_trans uu t t1 t2); [|exact Q]. apply (side_same t uu t t1); [apply G|exact (pd_servers _ _ D)|exact W].
Qed.
Print Assumptions C51_document_partial.
(** Without joining of style attributes: the saved document looks like the one that was read. *)
Corollary C51_saved_partial uu x o t t' : light o -> o_join_style_attributes o = JoinNone -> digits_ok o -> prepared (digits_of o) t ->
  clean_doc x o t = Some (Ok t') -> same_picture uu t t'.
Proof. intros L J U D E. destruct (C51_document_partial uu x o t t' L U D E) as (t2 & Q & ->). rewrite J. exact Q. Qed.
Print Assumptions C51_saved_partial.

(** An instance: titles, a description in a shape, groups with and without attributes, equal styles, a used element. *)
Definition light_opts : cleaning_options := {|
  o_remove_unused_defs := false; o_convert_shapes := false; o_remove_title := true; o_remove_desc := true; o_remove_metadata := true;
  o_remove_dupl_linear_gradients := false; o_remove_dupl_radial_gradients := false; o_remove_dupl_fe_gaussian_blur := false;
  o_ungroup_groups := true; o_ungroup_defs := false; o_group_by_style := true; o_merge_gradients := false; o_regroup_gradient_stops := false;
  o_remove_invalid_stops := true; o_remove_invisible_elements := false; o_resolve_use := false; o_remove_version := true;
  o_remove_unreferenced_ids := true; o_trim_ids := true; o_remove_text_attributes := false; o_remove_unused_coordinates := false;
  o_remove_default_attributes := false; o_remove_xmlns_xlink_attribute := true; o_remove_needless_attributes := false;
  o_remove_gradient_attributes := false; o_apply_transform_to_gradients := true; o_apply_transform_to_shapes := false;
  o_paths_to_relative := false; o_remove_unused_segments := false; o_convert_segments := false; o_append_newline := false;
  o_apply_transform_to_paths := false; o_join_style_attributes := JoinNone;
  o_coordinates_precision := 6; o_properties_precision := 6; o_paths_coordinates_precision := 8; o_transforms_precision := 8 |}%Z.
Definition blue := at_ AFill (VColor 0 0 255).
Definition pic_doc : tree := doc [el 1 ESvg [at_ AVersion (VStr "1.1")] [
  el 2 EDefs [] [eli 3 ECircle "left" [] []];
  el 4 ETitle [] [];
  el 5 EG [] [eli 6 EPath "lost" [blue] [el 7 EDesc [] []]; el 8 EG [blue; at_ ATransform (tr 10 20)] [el 9 EPath [at_ ATransform (tr 1 2)] []]];
  el 10 ELine [blue; at_ ATransform (tr 0 0)] []; el 11 EUse [at_ AXlinkHref (VLink 3)] []]].
Lemma round_int p z : (1 <= p <= 12)%nat -> Round.round_number p (zq z) = zq z.
Proof.
  intros H. apply Qc_is_canon. rewrite RoundProofs.round_number_val by exact H. pose proof (RoundProofs.pow_pos p) as Pp. assert (E : (this (zq z) == inject_Z z)%Q) by apply Qred_correct.
  assert (X : (this (zq z) * inject_Z (10 ^ Z.of_nat p) == inject_Z (z * 10 ^ Z.of_nat p))%Q) by (rewrite E, inject_Z_mult; reflexivity).
  assert (Y : Round.qround (this (zq z) * inject_Z (10 ^ Z.of_nat p)) = (z * 10 ^ Z.of_nat p)%Z).
  { rewrite <- (RoundProofs.qround_Z (z * 10 ^ Z.of_nat p)) at 1. apply Z.le_antisymm; apply RoundProofs.qround_mono; rewrite X; apply Qle_refl. }
  rewrite Y, inject_Z_mult, E. field. intros Q. rewrite Q in Pp. discriminate Pp.
Qed.
Lemma tr_round o x y : (1 <= Round.pr_ts o <= 12)%nat -> (1 <= Round.pr_coord o <= 12)%nat -> Round.round_value o ATransform (tr x y) = tr x y.
Proof.
  intros A B. unfold tr, Round.round_value. cbn [Round.is_coord_attr Round.is_prop_attr Round.is_ts_attr existsb aid_eqb orb]. cbn [ta tb tc td te tf]. change q1 with (zq 1). change q0 with (zq 0). now rewrite !round_int.
Qed.
Lemma pic_refs k : referenced pic_doc k -> k = 3.
Proof. intros (d & Hd & x & Hx & E). cbn in Hd. repeat (destruct Hd as [<-|Hd]; [cbn in Hx; repeat (destruct Hx as [<-|Hx]; [first [discriminate E|cbn in E; now inversion E]|]); destruct Hx|]). destruct Hd. Qed.
Lemma round_nothing o t : (forall d x, In d (flat t) -> In x (attrs d) -> Round.round_attr o x = x) -> Round.round_numbers o t = t.
Proof.
  intros H. unfold Round.round_numbers. apply tmap_id. intros d Hd. destruct (is_svg_el d); [|reflexivity]. rewrite (map_ext_in _ (fun x => x)), map_id by (intros x Hx; exact (H d x Hd Hx)). now destruct d.
Qed.
Lemma pic_prepared p : In p preparation -> perform lib light_opts p pic_doc = Some (Ok pic_doc).
Proof.
  intros [<-|[<-|[<-|[<-|[<-|[<-|[<-|[]]]]]]]]; try (vm_compute; reflexivity).
  cbn [perform]. do 2 f_equal. apply round_nothing. intros d x Hd Hx. cbn in Hd. repeat (destruct Hd as [<-|Hd]; [cbn in Hx; repeat (destruct Hx as [<-|Hx]; [first [reflexivity|unfold Round.round_attr, at_; cbn [a_name a_val a_vis]; rewrite tr_round by (vm_compute; split; repeat constructor); reflexivity]|]); destruct Hx|]). destruct Hd.
Qed.
Lemma light_opts_light : light light_opts.
Proof. intros p Hp En. cbn in Hp |- *. repeat (destruct Hp as [<-|Hp]; [try discriminate En; tauto|]). destruct Hp. Qed.
Example C51_instance : light light_opts /\ (forall p, In p preparation -> perform lib light_opts p pic_doc = Some (Ok pic_doc)) /\
  gready pic_doc /\ sready pic_doc /\ remarks_apart pic_doc /\ defs_apart pic_doc /\ servers_apart pic_doc /\
  match clean_doc lib light_opts pic_doc with
  | Some (Ok t') => map (fun s => (root_key s, map root_key (kids s))) (subs t') = [(0, [1]); (1, [2; 12; 11]); (2, [3]); (3, []); (12, [6; 9; 10]); (6, []); (9, []); (10, []); (11, [])]
  | _ => False
  end.
Proof.
  split; [exact light_opts_light|]. split; [exact pic_prepared|]. split; [|split; [|split; [|split; [|split]]]].
  - split.
    + split; [cbn; repeat constructor; cbn; intuition discriminate|]. intros k Hk. cbn in *. intuition.
    + wfa.
    + reflexivity.
    + eexists. reflexivity.
    + intros c [<-|[]]. discriminate.
    + intros d n Hd Hn R. assert (K : key n = 3) by (apply pic_refs; exists d; auto). cbn in Hn. repeat (destruct Hn as [<-|Hn]; [first [discriminate K|split; [discriminate|intros y Hy; cbn in Hy; repeat (destruct Hy as [<-|Hy]; [first [discriminate|reflexivity]|]); destruct Hy]]|]). destruct Hn.
    + intros a s p P G Hp (e & E & I). cbn in P. repeat (destruct P as [P|P]; [first [inversion P; subst; discriminate G|inversion P; subst; cbn in Hp; repeat (destruct Hp as [<-|Hp]; [inversion E; subst; cbn in I; intuition discriminate|]); destruct Hp]|]). destruct P.
    + intros a s p P G Hp E. exfalso. cbn in P. repeat (destruct P as [P|P]; [first [inversion P; subst; discriminate G|inversion P; subst; cbn in Hp; repeat (destruct Hp as [<-|Hp]; [discriminate E|]); destruct Hp]|]). destruct P.
    + intros s Hs G R. apply pic_refs in R. cbn in Hs. repeat (destruct Hs as [<-|Hs]; [first [discriminate R|discriminate G]|]). destruct Hs.
    + intros d a v Hd G E. cbn in Hd. repeat (destruct Hd as [<-|Hd]; [first [discriminate G|apply only_attrs in E; cbn in E; repeat (destruct E as [[E1 E2]|E]; [inversion E1; inversion E2; subst; split; [reflexivity|split; [cbn; intuition discriminate|split; [intros; first [discriminate|reflexivity]|cbn; intuition discriminate]]]|]); destruct E]|]). destruct Hd.
    + intros d v Hd E. cbn in Hd. repeat (destruct Hd as [<-|Hd]; [discriminate E|]). destruct Hd.
    + intros d v Hd E. cbn in Hd. repeat (destruct Hd as [<-|Hd]; [first [discriminate E|injection E as <-; eexists; reflexivity]|]). destruct Hd.
    + intros s d Hs G Hd (e & E & I). cbn in Hs. repeat (destruct Hs as [<-|Hs]; [first [discriminate G|cbn in Hd; repeat (destruct Hd as [<-|Hd]; [inversion E; subst; cbn in I; intuition discriminate|]); destruct Hd]|]). destruct Hs.
    + intros s d Hs G Ht Hd. cbn in Hs. repeat (destruct Hs as [<-|Hs]; [first [discriminate G|destruct (Ht eq_refl)|cbn in Hd; repeat (destruct Hd as [<-|Hd]; [split; [discriminate|intros R; apply pic_refs in R; discriminate R]|]); destruct Hd]|]). destruct Hs.
  - split.
    + split; [cbn; repeat constructor; cbn; intuition discriminate|]. intros k Hk. cbn in *. intuition.
    + wfa.
    + reflexivity.
    + eexists. split; [reflexivity|]. intros R. apply pic_refs in R. discriminate R.
    + intros d n Hd Hn R. assert (K : key n = 3) by (apply pic_refs; exists d; auto). cbn in Hn. repeat (destruct Hn as [<-|Hn]; [first [discriminate K|split; [discriminate|intros y Hy; cbn in Hy; repeat (destruct Hy as [<-|Hy]; [first [discriminate|reflexivity]|]); destruct Hy]]|]). destruct Hn.
    + intros a s p P G Hp (e & E & I). cbn in P. repeat (destruct P as [P|P]; [first [inversion P; subst; destruct G; discriminate|inversion P; subst; cbn in Hp; repeat (destruct Hp as [<-|Hp]; [inversion E; subst; cbn in I; intuition discriminate|]); destruct Hp]|]). destruct P.
    + intros d v Hd E. cbn in Hd. repeat (destruct Hd as [<-|Hd]; [first [discriminate E|injection E as <-; eexists; reflexivity]|]). destruct Hd.
    + intros d a v Hd G I E. cbn in Hd. repeat (destruct Hd as [<-|Hd]; [first [discriminate G|exfalso; cbn in I; repeat (destruct I as [<-|I]; [discriminate E|]); destruct I]|]). destruct Hd.
    + intros a s P (e & E & I). exfalso. cbn in P. repeat (destruct P as [P|P]; [inversion P; subst; inversion E; subst; cbn in I; intuition discriminate|]). destruct P.
    + intros d Hd G. cbn in Hd. repeat (destruct Hd as [<-|Hd]; [first [discriminate G|reflexivity]|]). destruct Hd.
    + intros s Hs G. cbn in Hs. repeat (destruct Hs as [<-|Hs]; [first [discriminate G|left; eexists; split; [left; reflexivity|reflexivity]]|]). destruct Hs.
  - split.
    + intros s k Hs Rm Hk R. apply pic_refs in R. subst k. cbn in Hs. repeat (destruct Hs as [<-|Hs]; [first [discriminate Rm|cbn in Hk; intuition discriminate]|]). destruct Hs.
    + intros s c Hs Hc Rm. cbn in Hs. repeat (destruct Hs as [<-|Hs]; [cbn in Hc; repeat (destruct Hc as [<-|Hc]; [first [discriminate Rm|split; discriminate]|]); destruct Hc|]). destruct Hs.
  - intros d Hd E R. apply pic_refs in R. cbn in Hd. repeat (destruct Hd as [<-|Hd]; [first [discriminate E|discriminate R]|]). destruct Hd.
  - split.
    + intros s c Hs G Hc. cbn in Hs. repeat (destruct Hs as [<-|Hs]; [destruct G as [G|G]; discriminate G|]). destruct Hs.
    + intros a s p P V _. cbn in P. repeat (destruct P as [P|P]; [inversion P; subst; destruct V as [[V|V]|V]; discriminate V|]). destruct P.
    + intros s k Hs Tg. cbn in Hs. repeat (destruct Hs as [<-|Hs]; [discriminate Tg|]). destruct Hs.
  - vm_compute. reflexivity.
Qed.

(** An instance with a gradient, whose first stop has no offset. *)
Definition shade_doc : tree := doc [el 1 ESvg [at_ AVersion (VStr "1.1")] [
  el 2 EDefs [] [eli 3 ECircle "left" [] []; eli 20 ELinearGradient "shade" [] [el 21 EStop [] []; el 22 EStop [at_ AOffset (VLen (Len (zq 1) UNone)); at_ AStopColor (VColor 255 0 0)] []];
    eli 23 ERadialGradient "round" [at_ AXlinkHref (VLink 20)] [];
    eli 24 ELinearGradient "moved" [at_ AX1 (px 0); at_ AY1 (px 0); at_ AX2 (px 9); at_ AY2 (px 0); at_ AGradientTransform (tr 3 4)]
      [el 25 EStop [] []; el 26 EStop [at_ AOffset (VLen (Len (zq 1) UNone)); at_ AStopColor (VColor 255 0 0)] []; el 27 EStop [at_ AOffset (VLen (Len (zq 1) UNone)); at_ AStopColor (VColor 255 0 0)] []]];
  el 4 ETitle [] [];
  el 5 EG [] [eli 6 EPath "lost" [at_ AFill (VFunc 20)] [el 7 EDesc [] []]; el 8 EG [blue; at_ ATransform (tr 10 20)] [el 9 EPath [at_ ATransform (tr 1 2)] []]];
  el 12 ERect [at_ AWidth (px 10); at_ AHeight (px 5)] [];
  el 10 ELine [blue; at_ ATransform (tr 0 0)] []; el 11 EUse [at_ AXlinkHref (VLink 3)] []]].
Lemma shade_refs k : referenced shade_doc k -> k = 3 \/ k = 20.
Proof. intros (d & Hd & x & Hx & E). cbn in Hd. repeat (destruct Hd as [<-|Hd]; [cbn in Hx; repeat (destruct Hx as [<-|Hx]; [first [discriminate E|cbn in E; inversion E; tauto]|]); destruct Hx|]). destruct Hd. Qed.
Lemma short_int p z : short p (zq z).
Proof. exists (z * 10 ^ Z.of_nat p)%Z. assert (E : (this (zq z) == inject_Z z)%Q) by apply Qred_correct. rewrite E, inject_Z_mult. field. intros Q. pose proof (RoundProofs.pow_pos p) as Pp. rewrite Q in Pp. discriminate Pp. Qed.
Lemma shade_gready : gready shade_doc.
Proof.
  split.
  - split; [cbn; repeat constructor; cbn; intuition discriminate|]. intros k Hk. cbn in *. intuition.
  - wfa.
  - reflexivity.
  - eexists. reflexivity.
  - intros c [<-|[]]. discriminate.
  - intros d n Hd Hn R. assert (K : key n = 3 \/ key n = 20) by (apply shade_refs; exists d; auto). cbn in Hn. repeat (destruct Hn as [<-|Hn]; [first [destruct K as [K|K]; discriminate K|split; [discriminate|intros y Hy; cbn in Hy; repeat (destruct Hy as [<-|Hy]; [first [discriminate|reflexivity]|]); destruct Hy]]|]). destruct Hn.
  - intros a s p P G Hp (e & E & I). cbn in P. repeat (destruct P as [P|P]; [first [inversion P; subst; discriminate G|inversion P; subst; cbn in Hp; repeat (destruct Hp as [<-|Hp]; [inversion E; subst; cbn in I; intuition discriminate|]); destruct Hp]|]). destruct P.
  - intros a s p P G Hp E. exfalso. cbn in P. repeat (destruct P as [P|P]; [first [inversion P; subst; discriminate G|inversion P; subst; cbn in Hp; repeat (destruct Hp as [<-|Hp]; [discriminate E|]); destruct Hp]|]). destruct P.
  - intros s Hs G R. apply shade_refs in R. cbn in Hs. repeat (destruct Hs as [<-|Hs]; [first [destruct R as [R|R]; discriminate R|discriminate G]|]). destruct Hs.
  - intros d a v Hd G E. cbn in Hd. repeat (destruct Hd as [<-|Hd]; [first [discriminate G|apply only_attrs in E; cbn in E; repeat (destruct E as [[E1 E2]|E]; [inversion E1; inversion E2; subst; split; [reflexivity|split; [cbn; intuition discriminate|split; [intros; first [discriminate|reflexivity]|cbn; intuition discriminate]]]|]); destruct E]|]). destruct Hd.
  - intros d v Hd E. cbn in Hd. repeat (destruct Hd as [<-|Hd]; [discriminate E|]). destruct Hd.
  - intros d v Hd E. cbn in Hd. repeat (destruct Hd as [<-|Hd]; [first [discriminate E|injection E as <-; eexists; reflexivity]|]). destruct Hd.
  - intros s d Hs G Hd (e & E & I). cbn in Hs. repeat (destruct Hs as [<-|Hs]; [first [discriminate G|cbn in Hd; repeat (destruct Hd as [<-|Hd]; [inversion E; subst; cbn in I; intuition discriminate|]); destruct Hd]|]). destruct Hs.
  - intros s d Hs G Ht Hd. cbn in Hs. repeat (destruct Hs as [<-|Hs]; [first [discriminate G|destruct (Ht eq_refl)|cbn in Hd; repeat (destruct Hd as [<-|Hd]; [split; [discriminate|intros R; apply shade_refs in R; destruct R as [R|R]; discriminate R]|]); destruct Hd]|]). destruct Hs.
Qed.
Lemma shade_sready : sready shade_doc.
Proof.
  split.
  - apply shade_gready.
  - wfa.
  - reflexivity.
  - eexists. split; [reflexivity|]. intros R. apply shade_refs in R. destruct R as [R|R]; discriminate R.
  - apply shade_gready.
  - intros a s p P G Hp (e & E & I). cbn in P. repeat (destruct P as [P|P]; [first [inversion P; subst; destruct G; discriminate|inversion P; subst; cbn in Hp; repeat (destruct Hp as [<-|Hp]; [inversion E; subst; cbn in I; intuition discriminate|]); destruct Hp]|]). destruct P.
  - intros d v Hd E. cbn in Hd. repeat (destruct Hd as [<-|Hd]; [first [discriminate E|injection E as <-; eexists; reflexivity]|]). destruct Hd.
  - intros d a v Hd G I E. cbn in Hd. repeat (destruct Hd as [<-|Hd]; [first [discriminate G|exfalso; cbn in I; repeat (destruct I as [<-|I]; [discriminate E|]); destruct I]|]). destruct Hd.
  - intros a s P (e & E & I). exfalso. cbn in P. repeat (destruct P as [P|P]; [inversion P; subst; inversion E; subst; cbn in I; intuition discriminate|]). destruct P.
  - intros d Hd G. cbn in Hd. repeat (destruct Hd as [<-|Hd]; [first [discriminate G|reflexivity]|]). destruct Hd.
  - intros s Hs G. cbn in Hs. repeat (destruct Hs as [<-|Hs]; [first [discriminate G|left; eexists; split; [left; reflexivity|reflexivity]]|]). destruct Hs.
Qed.
Lemma shade_prepared : prepared (digits_of light_opts) shade_doc.
Proof.
  split.
  - exact shade_gready.
  - exact shade_sready.
  - split.
    + intros s k Hs Rm Hk R. apply shade_refs in R. cbn in Hs. repeat (destruct Hs as [<-|Hs]; [first [discriminate Rm|cbn in Hk; destruct R as [-> | ->]; intuition discriminate]|]). destruct Hs.
    + intros s c Hs Hc Rm. cbn in Hs. repeat (destruct Hs as [<-|Hs]; [cbn in Hc; repeat (destruct Hc as [<-|Hc]; [first [discriminate Rm|split; discriminate]|]); destruct Hc|]). destruct Hs.
  - intros d Hd E R. apply shade_refs in R. cbn in Hd. repeat (destruct Hd as [<-|Hd]; [first [discriminate E|destruct R as [R|R]; discriminate R]|]). destruct Hd.
  - split.
    + intros s c Hs G Hc. cbn in Hs. repeat (destruct Hs as [<-|Hs]; [first [destruct G as [G|G]; discriminate G|cbn in Hc; repeat (destruct Hc as [<-|Hc]; [reflexivity|]); destruct Hc]|]). destruct Hs.
    + intros a s p P V Hp (e & E & I). cbn in P. repeat (destruct P as [P|P]; [first [inversion P; subst; destruct V as [[V|V]|V]; discriminate V|inversion P; subst; cbn in Hp; repeat (destruct Hp as [<-|Hp]; [inversion E; subst; cbn in I; intuition discriminate|]); destruct Hp]|]). destruct P.
    + intros s k Hs Tg Hk R. apply shade_refs in R. cbn in Hs. repeat (destruct Hs as [<-|Hs]; [first [discriminate Tg|cbn in Hk; destruct R as [-> | ->]; intuition discriminate]|]). destruct Hs.
  - intros d y Hd Hy. cbn in Hd. repeat (destruct Hd as [<-|Hd]; [cbn in Hy; repeat (destruct Hy as [<-|Hy]; [split; discriminate|]); destruct Hy|]). destruct Hd.
  - intros d Hd Tg. cbn in Hd. repeat (destruct Hd as [<-|Hd]; [first [discriminate Tg|split; [discriminate|split; [discriminate|intros a Ha l E; cbn in Ha; repeat (destruct Ha as [<-|Ha]; [first [discriminate E|injection E as <-; vm_compute; discriminate]|]); destruct Ha]]]|]). destruct Hd.
  - intros d l Hd Tg. cbn in Hd. repeat (destruct Hd as [<-|Hd]; [destruct Tg as [Tg|Tg]; discriminate Tg|]). destruct Hd.
  - intros d Hd. cbn in Hd. repeat (destruct Hd as [<-|Hd]; [reflexivity|]). destruct Hd.
  - eexists _, _, _. split; [reflexivity|]. split; [reflexivity|]. split; [reflexivity|]. split.
    + intros d Hd Tg. cbn in Hd. repeat (destruct Hd as [<-|Hd]; [first [discriminate Tg|reflexivity]|]). destruct Hd.
    + intros a s e P E I. cbn in P. repeat (destruct P as [P|P]; [inversion P; subst; cbn in E; first [discriminate E|injection E as <-]; first [eexists; reflexivity|cbn in I; intuition discriminate]|]). destruct P.
  - intros d y n p Hd Hy Hn _. cbn in Hd. repeat (destruct Hd as [<-|Hd]; [cbn in Hy; repeat (destruct Hy as [<-|Hy]; [cbn in Hn; repeat (destruct Hn as [<-|Hn]; [apply short_int|]); destruct Hn|]); destruct Hy|]). destruct Hd.
Qed.
Lemma shade_ok : digits_ok light_opts.
Proof. intros p Hp. cbn in Hp. intuition (subst p; lia). Qed.
Example C51_document_instance : light light_opts /\ digits_ok light_opts /\ prepared (digits_of light_opts) shade_doc /\
  match clean_doc lib light_opts shade_doc with
  | Some (Ok t') => map (fun s => (root_key s, map root_key (kids s))) (subs t') = [(0, [1]); (1, [2; 6; 9; 12; 10; 11]); (2, [3; 20; 23; 24]); (3, []); (20, [21; 22]); (21, []); (22, []); (23, []); (24, [25; 26]); (25, []); (26, []); (6, []); (9, []); (12, []); (10, []); (11, [])] /\
      option_map (fun d => (d_has d AGradientTransform, d_has d AX1)) (find_data 24 t') = Some (false, true)
  | _ => False
  end.
Proof. split; [exact light_opts_light|]. split; [exact shade_ok|]. split; [exact shade_prepared|]. vm_compute. split; reflexivity. Qed.
