(** Theorems about cleaning as a whole: prepared documents are cleaned without an error, a panic or an endless loop. *)
From Coq Require Import List Bool NArith Arith ZArith String QArith Qcanon Lia.
From Verif Require Import Names Num Value Dom DomFacts DomOps IdNum Outcome DomRemove Stops SpecStops SpecGradients TasksSimple TasksSimpleProofs SpecDom SpecStyle SpecText SpecPaint SpecUse SpecUngroup SpecGroupStyle UngroupKeep UngroupEnd StyleMove StyleHoist StyleEnd Ungroup GroupStyle Cli Clean SpecClean Props_clean WfAll SpecPicture SpecRound SpecPrepared PictureSim PictureTwin PictureServers PicturePrep PictureRemarks PictureEnd PictureRun Props_picture.
From Verif Require JoinStyle PlainEnd Melt SpecPanic Props_panic.
From Verif Require Import Props_simple Props_stops.
Import ListNotations.
Local Open Scope nat_scope.

(** ** The preparation *)
Lemma prep_run x o t : (forall p, In p (digits (Clean.round_opts o)) -> 1 <= p <= 12) -> prepared (digits (Clean.round_opts o)) t -> solvable t ->
  exists t1, runs x o preparation t (Some (Ok t1)).
Proof.
  intros U D S. assert (F0 : fine t) by (apply gready_fine, D). pose proof (wf_keys t (fine_wf t F0)) as N0. pose proof (fun p u u' => prep_step x o t p u u' U D) as Step.
  assert (A0 : all_stops t) by (exact (sa_stops t (pd_servers _ _ D))).
  (* linear gradients *)
  destruct (grad_run ELinearGradient _ t N0 linear_run (sv_linear t S)) as (ks1 & t1 & G1 & E1 & W1). { intros d Hd Td. apply (sv_chains t S d Hd). now left. }
  assert (P1 : perform x o PLinear t = Some (Ok t1)) by (cbn [perform]; unfold Gradients.resolve_linear_gradient_attributes; now rewrite G1, E1).
  destruct (Step PLinear t t1 ltac:(cbn; tauto) (conj (tw_refl t t) F0) P1) as [T1 F1]. pose proof (wf_keys t1 (fine_wf t1 F1)) as N1.
  destruct (stops_keep ELinearGradient t t1 ltac:(cbn; tauto) W1 A0) as (A1 & B1 & C1). specialize (B1 (sv_first t S)). specialize (C1 (sv_units t S)).
  (* radial gradients *)
  destruct (grad_run ERadialGradient _ t1 N1 radial_run) as (ks2 & t2 & G2 & E2 & W2).
  { apply (acyclic_other ELinearGradient ERadialGradient t t1); [discriminate|exact W1|exact (sv_radial t S)]. }
  { apply (kw_chains ELinearGradient t t1 (fun d => tag d = TEl ERadialGradient)); [intros; congruence|exact W1|]. intros d Hd Td. apply (sv_chains t S d Hd). now right. }
  assert (P2 : perform x o PRadial t1 = Some (Ok t2)) by (cbn [perform]; unfold Gradients.resolve_radial_gradient_attributes; now rewrite G2, E2).
  destruct (Step PRadial t1 t2 ltac:(cbn; tauto) (conj T1 F1) P2) as [T2 F2]. destruct (stops_keep ERadialGradient t1 t2 ltac:(cbn; tauto) W2 A1) as (A2 & B2 & C2). specialize (B2 B1). specialize (C2 C1).
  (* stops *)
  destruct (stops_run t2 B2) as (t3 & E3). assert (P3 : perform x o PStops t2 = Some (Ok t3)) by (cbn [perform]; now rewrite E3). destruct (Step PStops t2 t3 ltac:(cbn; tauto) (conj T2 F2) P3) as [T3 F3].
  assert (P4 : perform x o PInherit t3 = Some (Ok t3)) by (cbn [perform]; now rewrite (prep_inherit t t3 _ D T3)).
  destruct (C18_no_panic_after_resolution t2 t3 E3 C2) as (t5 & E5). assert (P5 : perform x o PFix t3 = Some (Ok t5)) by (cbn [perform]; now rewrite E5). destruct (Step PFix t3 t5 ltac:(cbn; tauto) (conj T3 F3) P5) as [T5 F5].
  assert (P6 : perform x o PGroupDefs t5 = Some (Ok t5)) by (cbn [perform]; now rewrite (prep_group t t5 _ D T5)).
  eexists. unfold preparation. apply (runs_next x o _ _ _ t1 _ P1), (runs_next x o _ _ _ t2 _ P2), (runs_next x o _ _ _ t3 _ P3), (runs_next x o _ _ _ t3 _ P4), (runs_next x o _ _ _ t5 _ P5), (runs_next x o _ _ _ t5 _ P6).
  eapply runs_next; [cbn [perform]; reflexivity|constructor].
Qed.

(** ** The work *)
Definition few (N : list nat) (t : tree) : Prop := forall d, In d (flat t) -> svg_with_id d = true -> In (key d) N.
Lemma few_back N t t' : (forall d', In d' (flat t') -> svg_with_id d' = true -> exists d, In d (flat t) /\ key d = key d' /\ svg_with_id d = true) -> few N t -> few N t'.
Proof. intros H F d' Hd' S. destruct (H d' Hd' S) as (d & Hd & <- & Sd). now apply F. Qed.
Lemma with_id_tag d d' : tag d' = tag d -> nid d' = nid d -> svg_with_id d' = svg_with_id d.
Proof. intros A B. unfold svg_with_id, is_svg_el, has_id. now rewrite A, B. Qed.
Lemma steps_back t t' : steps t t' -> forall d', In d' (flat t') -> exists d, In d (flat t) /\ key d = key d' /\ tag d = tag d' /\ nid d = nid d'.
Proof.
  intros H. induction H as [t|t G f t' R HG TG M _ IH|t G t' R HG TG Fr _ IH]; intros d' Hd'; [eauto| |]; destruct (IH d' Hd') as (d & Hd & K & Tg & I).
  - rewrite flat_tmap in Hd. apply in_map_iff in Hd. destruct Hd as (c & <- & Hc). exists c. rewrite (mv_key _ _ _ M) in K. rewrite (mv_tag _ _ _ M) in Tg. rewrite (mv_id _ _ _ M) in I. auto.
  - apply (ml_flat t G R HG TG) in Hd. exists d. tauto.
Qed.
Lemma few_steps N t t' : steps t t' -> few N t -> few N t'.
Proof. intros H. apply few_back. intros d' Hd' S. destruct (steps_back t t' H d' Hd') as (d & Hd & K & Tg & I). exists d. split; [exact Hd|]. split; [exact K|]. now rewrite (with_id_tag d' d). Qed.
Lemma few_added N t t' : NoDup (keys t') -> only_groups_added t t' -> few N t -> few N t'.
Proof.
  intros Nd [A B]. apply few_back. intros d' Hd' S. destruct (B d' Hd') as [K|[_ K]].
  - unfold keys in K. apply in_map_iff in K. destruct K as (d & K & Hd). destruct (A d Hd) as (d2 & Hd2 & K2 & T2 & I2). assert (d2 = d') by (apply (data_unique t'); auto; congruence). subst d2. exists d. split; [exact Hd|]. split; [exact K|]. now rewrite <- (with_id_tag d d').
  - unfold svg_with_id, has_id in S. rewrite K in S. rewrite andb_false_r in S. discriminate.
Qed.
Lemma few_trim N t : NoDup (keys t) -> few N t -> (Z.of_nat (List.length N) < 780965692)%Z -> exists t', trim_ids t = Ok t'.
Proof.
  intros Nd F Sz. assert (P : trim_ids t <> Panic).
  { intros E. apply C10_trim_ids_panics_only_when_exhausted in E. assert (L : List.length (filter svg_with_id (flat t)) <= List.length N); [|lia].
    rewrite <- (map_length key). apply NoDup_incl_length.
    + unfold keys in Nd. clear - Nd. induction (flat t) as [|d l IH]; [constructor|]. cbn in *. inversion Nd as [|? ? X Y]; subst. destruct (svg_with_id d); [|auto]. cbn. constructor; [|auto]. intros Z. apply X. apply in_map_iff in Z. destruct Z as (y & <- & Hy). apply filter_In in Hy. now apply in_map.
    + intros k Hk. apply in_map_iff in Hk. destruct Hk as (d & <- & Hd). apply filter_In in Hd. apply F; tauto. }
  unfold trim_ids in *. destruct (smap _ _ t) as [t1 [n|]]; [eauto|contradiction].
Qed.
Section Run.
  Variable x : svgdom.
  Variable o : cleaning_options.
  Lemma runs_join l1 : forall l2 t t1 r, runs x o l1 t (Some (Ok t1)) -> runs x o l2 t1 r -> runs x o (l1 ++ l2) t r.
  Proof. induction l1 as [|p l IH]; intros l2 t t1 r R1 R2; inversion R1; subst; [exact R2|]. cbn [app]. eapply runs_next; [eassumption|]. eapply IH; eassumption. Qed.
  Lemma phase_run (J : tree -> Prop) l : (forall p t, In p l -> enabled o p = true -> J t -> exists t', perform x o p t = Some (Ok t') /\ J t') ->
    forall t, J t -> exists t', runs x o (filter (enabled o) l) t (Some (Ok t')) /\ J t'.
  Proof.
    induction l as [|p l IH]; intros H t Jt; [exists t; split; [constructor|exact Jt]|]. cbn [filter]. destruct (enabled o p) eqn:E; [|apply IH; auto; intros q u Hq; apply H; now right].
    destruct (H p t (or_introl eq_refl) E Jt) as (t1 & P & J1). destruct (IH (fun q u Hq => H q u (or_intror Hq)) t1 J1) as (t2 & R & J2). exists t2. split; [|exact J2]. exact (runs_next x o p _ t t1 _ P R).
  Qed.
  Lemma part_run l1 l2 t t1 t2 : runs x o (filter (enabled o) l1) t (Some (Ok t1)) -> runs x o (filter (enabled o) l2) t1 (Some (Ok t2)) -> runs x o (filter (enabled o) (l1 ++ l2)) t (Some (Ok t2)).
  Proof. intros A B. rewrite filter_app. exact (runs_join _ _ _ _ _ A B). Qed.
  Variable N : list nat.
  Hypothesis Sz : (Z.of_nat (List.length N) < 780965692)%Z.
  Variable uu : aid -> len -> Qc.
  Lemma svg_has t s : svg_element t = Some s -> PlainEnd.has_svg t.
  Proof. intros E. apply svg_kid in E. destruct E as [A B]. exists s. split; [exact A|]. now apply is_tag_iff. Qed.
  Lemma work_run t : (forall p, In p work -> enabled o p = true -> In p quiet) -> ready1 t -> few N t -> trans_all t -> exists t', runs x o (filter (enabled o) work) t (Some (Ok t')) /\ PlainEnd.has_svg t'.
  Proof.
    intros Q R1 F1 V1. assert (Q1 : forall p l, In p l -> incl l work -> enabled o p = true -> In p quiet) by (intros p l Hp Il; apply Q; auto).
    destruct (phase_run (fun u => ready1 u /\ few N u /\ trans_all u) first_passes) with (t := t) as (t1 & Ra & A1 & B1 & V2); [|auto|].
    { intros p u Hp _ (Ru & Fu & Vu). pose proof (wf_keys u (g_wf u (r1_g u Ru))) as Nu. destruct Hp as [<-|[<-|[<-|[]]]]; cbn [perform]; (eexists; split; [reflexivity|]; split; [eapply (remark_step uu); [cbn; tauto|exact Ru]|]; (rewrite remove_remark by (first [exact Nu|exact (r1_remarks u Ru)|cbn; tauto])); (split; [apply (few_back N u); [|exact Fu]; intros d' Hd' Sd; exists d'; split; [exact (pr_flat _ u d' Hd')|auto]|intros d' y Hd'; exact (Vu d' y (pr_flat _ u d' Hd'))])). }
    assert (As : readyS t1) by (destruct A1; split; assumption).
    destruct (phase_run (fun u => readyS u /\ few N u /\ trans_all u) server_passes) with (t := t1) as (t1' & Rs & As' & Bs & _); [|auto|].
    { intros p u Hp En (Ru & Fu & Vu). assert (C : p = PInvalidStops \/ p = PGradTransforms). { assert (Hq : In p quiet) by (apply (Q1 p server_passes); auto; intros q Hq; unfold work; rewrite !in_app_iff; tauto). clear - Hp Hq. cbn in Hp, Hq. intuition congruence. }
      pose proof (wf_keys u (g_wf u (rS_g u Ru))) as Nu. destruct C as [-> | ->].
      - exists (remove_invalid_stops u). split; [reflexivity|]. split; [exact (proj1 (stops_step uu u Ru))|]. rewrite (PictureGrad.invalid_stops_pruned u Nu (rS_servers u Ru)). split.
        + apply (few_back N u); [|exact Fu]. intros d' Hd' Sd. exists d'. split; [exact (pr_flat _ u d' Hd')|auto].
        + intros d' y Hd'. exact (Vu d' y (pr_flat _ u d' Hd')).
      - destruct (PictureGrad.grad_transforms_run u u Vu Nu (stale_self u)) as (u' & E). assert (P : perform x o PGradTransforms u = Some (Ok u')) by (cbn [perform]; now rewrite E). exists u'. split; [exact P|]. split; [exact (proj1 (trans_step uu u u' Ru (fine_silent x o PGradTransforms u u' I (gready_fine _ (rS_g _ Ru)) P) E))|].
        pose proof (PictureGrad.tw_grad_transforms u u u' Nu (stale_self u) E) as W. split.
        + intros d Hd Sd. destruct (f2_back _ _ _ _ (tw_flat u _ _ W) Hd) as (c & Hc & S). rewrite (sd_key _ _ _ S). apply Fu; [exact Hc|]. rewrite <- Sd. symmetry. apply with_id_tag; apply S.
        + intros d y Hd Hy Ny. exact (proj2 (tw_stale u _ _ W (stale_self u) d y Hd Hy) Vu Ny). }
    assert (A1' : ready2 t1') by (destruct As'; split; assumption).
    destruct (phase_run (fun u => ready2 u /\ few N u) middle_passes) with (t := t1') as (t2 & Rb & [A2 B2]); [|auto|].
    { intros p u Hp En [Ru Fu]. assert (p = PUngroup) as ->. { assert (Hq : In p quiet) by (apply (Q1 p middle_passes); auto; intros q Hq; unfold work; rewrite !in_app_iff; tauto). clear - Hp Hq. cbn in Hp, Hq. intuition congruence. }
      cbn [perform]. match goal with |- context [ungroup_groups ?a ?b u] => destruct (ungroup_groups_steps uu a b u (r2_g u Ru)) as (u' & E & G2 & Dr & St & _) end. exists u'. split; [exact E|]. split; [exact (proj1 (ungroup_ready uu _ _ u u' Ru E))|exact (few_steps N u u' St Fu)]. }
    assert (A3 : exists t3, runs x o (filter (enabled o) [PGroupStyle]) t2 (Some (Ok t3)) /\ ready3 t3 /\ PlainEnd.has_svg t3 /\ few N t3).
    { cbn [filter]. destruct (enabled o PGroupStyle).
      - destruct (group_by_style_ok uu t2 (r2_s t2 A2)) as (t3 & E & St). exists t3. split; [apply (runs_next x o PGroupStyle [] t2 t3); [cbn [perform]; now rewrite E|constructor]|]. split; [exact (proj1 (style_ready uu t2 t3 A2 E))|]. pose proof (st_ready _ _ _ St) as S3. split.
        + destruct (s_svg t3 S3) as (s & Es & _). exact (svg_has t3 s Es).
        + apply (few_added N t2 t3); [exact (wf_keys _ (s_wf _ S3))|exact (st_kept _ _ _ St)|exact B2].
      - exists t2. split; [constructor|]. split; [split; [apply gready_fine, A2|apply A2]|]. split; [|exact B2]. destruct (g_svg t2 (r2_g t2 A2)) as (s & Es). exact (svg_has t2 s Es). }
    destruct A3 as (t3 & Rc & A3 & S3 & B3).
    destruct (phase_run (fun u => ready3 u /\ PlainEnd.has_svg u /\ few N u) [PIds]) with (t := t3) as (t4 & Rd & A4 & S4 & B4); [|auto|].
    { intros p u [<-|[]] _ (Ru & Su & Fu). eexists. split; [cbn [perform]; reflexivity|]. split; [apply (tail1 uu x o PIds u); [now left|exact Ru|reflexivity]|]. split.
      - unfold remove_unreferenced_ids. apply PlainEnd.svg_tmap; [|exact Su]. intros d _. now destruct (_ && _).
      - apply (few_back N u); [|exact Fu]. intros d' Hd' Sd. unfold remove_unreferenced_ids in Hd'. rewrite flat_tmap in Hd'. apply in_map_iff in Hd'. destruct Hd' as (d & <- & Hd). exists d. split; [exact Hd|]. destruct (_ && _); [|auto]. exfalso. unfold svg_with_id, has_id in Sd. cbn in Sd. rewrite andb_false_r in Sd. discriminate. }
    assert (A5 : exists t5, runs x o (filter (enabled o) [PTrimIds]) t4 (Some (Ok t5)) /\ ready3 t5 /\ PlainEnd.has_svg t5).
    { destruct (few_trim N t4 (wf_keys _ (fine_wf _ (r3_fine _ A4))) B4 Sz) as (t5 & E). cbn [filter]. destruct (enabled o PTrimIds); [|exists t4; split; [constructor|auto]]. exists t5. assert (P : perform x o PTrimIds t4 = Some (Ok t5)) by (cbn [perform]; now rewrite E). split; [apply (runs_next x o PTrimIds [] t4 t5 _ P); constructor|]. split; [apply (tail1 uu x o PTrimIds t4 t5); [cbn; tauto|exact A4|exact P]|].
      unfold trim_ids in E. assert (X : PlainEnd.has_svg (fst (smap trim_node (Some num_new) t4))) by (apply PlainEnd.smap_svg; [|exact S4]; intros [n|] d; cbn; [destruct (_ && _)|]; reflexivity). destruct (smap trim_node (Some num_new) t4) as [u [n|]]; [|discriminate]. injection E as <-. exact X. }
    destruct A5 as (t5 & Re & A5 & S5).
    destruct (phase_run (fun u => ready3 u /\ PlainEnd.has_svg u) [PVersion]) with (t := t5) as (t6 & Rf & A6 & S6); [|auto|].
    { intros p u [<-|[]] _ (Ru & Su). destruct (PlainEnd.end_version u Su) as (u' & E & Su'). exists u'. assert (P : perform x o PVersion u = Some (Ok u')) by (cbn [perform]; now rewrite E). split; [exact P|]. split; [apply (tail1 uu x o PVersion u u'); [cbn; tauto|exact Ru|exact P]|exact Su']. }
    destruct (phase_run (fun u => ready3 u /\ PlainEnd.has_svg u) [PUngroupDefs]) with (t := t6) as (t7 & Rg & A7 & S7); [|auto|].
    { intros p u [<-|[]] En _. exfalso. assert (X : In PUngroupDefs quiet) by (apply Q; [unfold work; rewrite !in_app_iff; do 5 right; left; now left|exact En]). cbn in X. intuition discriminate. }
    assert (A8 : exists t8, runs x o (filter (enabled o) [PEmptyDefs]) t7 (Some (Ok t8)) /\ PlainEnd.has_svg t8).
    { destruct (PlainEnd.end_empty_defs t7 (wf_keys _ (fine_wf _ (r3_fine _ A7))) S7) as (t8 & E & S8). exists t8. split; [|exact S8]. cbn [filter enabled]. apply (runs_next x o PEmptyDefs [] t7 t8); [cbn [perform]; now rewrite E|constructor]. }
    destruct A8 as (t8 & Rh & S8).
    destruct (phase_run PlainEnd.has_svg [PXmlns; PDefaultTransform]) with (t := t8) as (t9 & Ri & S9); [|exact S8|].
    { intros p u [<-|[<-|[]]] _ Su; cbn [perform].
      - destruct (PlainEnd.end_xmlns (o_remove_xmlns_xlink_attribute o) u Su) as (u' & E & Su'). exists u'. split; [now rewrite E|exact Su'].
      - eexists. split; [reflexivity|now apply PlainEnd.end_default_transform]. }
    exists t9. split; [|exact S9]. unfold work. apply (part_run _ _ _ _ _ Ra), (part_run _ _ _ _ _ Rs), (part_run _ _ _ _ _ Rb), (part_run _ _ _ _ _ Rc). change [PIds; PTrimIds; PVersion] with ([PIds] ++ [PTrimIds] ++ [PVersion]).
    apply (part_run _ _ _ t6 _); [exact (part_run _ _ _ _ _ Rd (part_run _ _ _ _ _ Re Rf))|]. apply (part_run _ _ _ _ _ Rg), (part_run _ _ _ _ _ Rh). exact Ri.
  Qed.
End Run.
(** ** The whole program *)
Definition ids_fit (t : tree) : Prop := (Z.of_nat (List.length (filter svg_with_id (flat t))) < 780965692)%Z.
Lemma clean_run x o t : light o -> digits_ok o -> prepared (digits_of o) t -> solvable t -> supported t -> ids_fit t -> exists t', clean_doc x o t = Some (Ok t').
Proof.
  intros L U D S P Z. pose proof D as D0. rewrite <- digits_eq in D. destruct (prep_run x o t (digits_nat o U) D S) as (t1 & R1). destruct (prep_twin x o t t1 (digits_nat o U) D R1) as [W F1].
  set (N := map key (filter svg_with_id (flat t))). assert (F : few N t1).
  { intros d Hd Sd. destruct (f2_back _ _ _ _ (tw_flat t _ _ W) Hd) as (c & Hc & Q). unfold N. rewrite (sd_key _ _ _ Q). apply in_map, filter_In. split; [exact Hc|]. rewrite <- Sd. symmetry. apply with_id_tag; apply Q. }
  assert (R : ready1 t1). { pose proof (pd_groups _ _ D) as G. pose proof (pd_styles _ _ D) as St. split; [exact (st_gready t t1 W F1 G)|exact (st_sready t t1 W F1 St)|exact (st_remarks t t1 W (pd_remarks _ _ D))|exact (st_defs t t1 W (pd_defs _ _ D))|exact (st_servers t t1 W (pd_servers _ _ D))]. }
  assert (V1 : trans_all t1) by (intros d y Hd Hy Ny; exact (proj2 (tw_stale t _ _ W (stale_self t) d y Hd Hy) (sv_transforms t S) Ny)).
  assert (ZN : (Z.of_nat (List.length N) < 780965692)%Z) by (unfold N; rewrite map_length; exact Z).
  destruct (work_run x o N ZN (fun _ _ => q0) t1 (light_quiet o L) R F V1) as (t2 & R2 & _). exists (JoinStyle.join_style_attributes (x_write x) (o_join_style_attributes o) t2).
  symmetry. apply (proj1 (C45_pipeline x o t (proj2 (C07_accepts_iff_supported t) P) _)). rewrite pipeline_parts. apply (part_run x o _ _ _ t1); [rewrite prep_on; exact R1|]. apply (part_run x o _ _ _ t2 _ R2). cbn [filter enabled]. apply (runs_next x o PJoinStyle [] t2 (JoinStyle.join_style_attributes (x_write x) (o_join_style_attributes o) t2)); [reflexivity|constructor].
Qed.
Theorem C44_prepared_partial x o t : light o -> digits_ok o -> prepared (digits_of o) t -> solvable t -> supported t -> ids_fit t ->
  exists t', clean_doc x o t = Some (Ok t').
Proof. exact (clean_run x o t). Qed.
Print Assumptions C44_prepared_partial.
(** The document is cleaned, and the saved one looks like the one that was read. *)
Theorem C51_whole_partial uu x o t : light o -> o_join_style_attributes o = JoinNone -> digits_ok o -> prepared (digits_of o) t -> solvable t -> supported t -> ids_fit t ->
  exists t', clean_doc x o t = Some (Ok t') /\ same_picture uu t t'.
Proof. intros L J U D S P Z. destruct (clean_run x o t L U D S P Z) as (t' & E). exists t'. split; [exact E|]. exact (C51_saved_partial uu x o t t' L J U D E). Qed.
Print Assumptions C51_whole_partial.

Lemma shade_solvable : solvable shade_doc.
Proof.
  assert (Rank : forall e, acyclic_kind e shade_doc). { intros e. exists (fun k => k). intros d y Hd Hy Td Ty (a & Ha & E). exfalso. cbn in Hd. repeat (destruct Hd as [<-|Hd]; [cbn in Ha; repeat (destruct Ha as [<-|Ha]; [first [discriminate E|cbn in E; injection E as E; cbn in Hy; repeat (destruct Hy as [<-|Hy]; [first [discriminate E|cbn in Td, Ty; congruence]|]); destruct Hy]|]); destruct Ha|]). destruct Hd. }
  split; [apply Rank|apply Rank| | | |].
  - intros d Hd G. cbn in Hd. repeat (destruct Hd as [<-|Hd]; [first [destruct G as [G|G]; discriminate G|apply ce_end; reflexivity|apply (ce_next shade_doc _ 20 (data (eli 20 ELinearGradient "shade" [] []))); [reflexivity|cbn; tauto|reflexivity|apply ce_end; reflexivity]]|]). destruct Hd.
  - intros s i c Hs G E. cbn in Hs. repeat (destruct Hs as [<-|Hs]; [first [destruct G as [G|G]; discriminate G|destruct i as [|[|[|i]]]; cbn in E; try discriminate E; injection E as <-; eexists; reflexivity]|]). destruct Hs.
  - intros s c l Hs G Hc E. cbn in Hs. repeat (destruct Hs as [<-|Hs]; [first [destruct G as [G|G]; discriminate G|cbn in Hc; repeat (destruct Hc as [<-|Hc]; [first [discriminate E|injection E as <-; now left]|]); destruct Hc]|]). destruct Hs.
  - intros d y Hd Hy Ny. cbn in Hd. repeat (destruct Hd as [<-|Hd]; [cbn in Hy; repeat (destruct Hy as [<-|Hy]; [first [discriminate Ny|eexists; reflexivity]|]); destruct Hy|]). destruct Hd.
Qed.
Example C51_whole_instance : light light_opts /\ o_join_style_attributes light_opts = JoinNone /\ digits_ok light_opts /\ prepared (digits_of light_opts) shade_doc /\ solvable shade_doc /\ supported shade_doc /\ ids_fit shade_doc.
Proof.
  split; [exact light_opts_light|]. split; [reflexivity|]. split; [intros p Hp; cbn in Hp; intuition lia|]. split; [exact shade_prepared|]. split; [exact shade_solvable|]. split; [apply C07_accepts_iff_supported; reflexivity|reflexivity].
Qed.
