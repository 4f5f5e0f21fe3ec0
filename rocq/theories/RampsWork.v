(** Lemmas: the colours of gradients in everything that follows the preparation. *)
From Coq Require Import List Bool NArith Arith ZArith String QArith Qcanon Lia.
From Verif Require Import Names Num Value Dom DomFacts DomOps Outcome SpecStops SpecDom SpecPaint PaintFacts SpecUngroup SpecGroupStyle SpecPrepared SpecShading Shading SpecRamps SpecPicture SpecClean Cli Clean WfAll Props_wf PictureTwin PictureTail PictureEnd PictureShades RampsRun.
From Verif Require UngroupEnd StyleEnd PictureRemarks PictureGrad PicturePrep Stops Transforms.
Import ListNotations.
Local Open Scope nat_scope.

Section Phase.
  Variable x : svgdom.
  Variable o : cleaning_options.
  Variable I : tree -> Prop.
  Variable K : tree -> tree -> Prop.
  Hypothesis Kr : forall t, K t t.
  Hypothesis Kt : forall a b c, K a b -> K b c -> K a c.
  Lemma kept_phase l : (forall p t t', In p l -> enabled o p = true -> I t -> perform x o p t = Some (Ok t') -> I t' /\ K t t') ->
    forall t t', I t -> runs x o (filter (enabled o) l) t (Some (Ok t')) -> I t' /\ K t t'.
  Proof.
    induction l as [|p l IH]; intros H t t' It R; [inversion R; subst; split; [exact It|apply Kr]|]. cbn [filter] in R. destruct (enabled o p) eqn:E; [|apply IH; auto; intros q; intros; apply (H q); auto; now right].
    inversion R as [|? ? ? t1 ? P R1| | |]; subst. destruct (H p t t1 (or_introl eq_refl) E It P) as [I1 S1]. destruct (IH (fun q a b Hq => H q a b (or_intror Hq)) t1 t' I1 R1) as [I2 S2]. split; [exact I2|exact (Kt _ _ _ S1 S2)].
  Qed.
End Phase.
Definition no_unit : aid -> len -> Qc := fun _ l => num l.
Lemma quiet_servers x o u u' p : In p server_passes -> In p quiet -> readyS u /\ gradients_seen u -> perform x o p u = Some (Ok u') -> readyS u' /\ gradients_seen u' /\
  ((p = PInvalidStops /\ u' = Stops.remove_invalid_stops u) \/ (p = PGradTransforms /\ Transforms.apply_transform_to_gradients u = Ok u')).
Proof.
  intros Hp Hq [Iu Su] E. assert (C : p = PInvalidStops \/ p = PGradTransforms) by (clear - Hp Hq; cbn in Hp, Hq; intuition congruence).
  pose proof (wf_keys u (SpecUngroup.g_wf u (rS_g u Iu))) as N. destruct C as [-> | ->].
  - cbn [perform] in E. injection E as <-. pose proof (stops_step no_unit u Iu) as [A _]. split; [exact A|]. split; [|left; auto]. rewrite (PictureGrad.invalid_stops_pruned u N (rS_servers u Iu)). now apply seen_pruned.
  - assert (F' : fine u') by (exact (fine_silent x o PGradTransforms u u' Logic.I (gready_fine _ (rS_g _ Iu)) E)). cbn [perform] in E. injection E as E. destruct (trans_step no_unit u u' Iu F' E) as [A _]. pose proof (trans_gside u u' N E) as W. split; [exact A|]. split; [exact (seen_gside u u' W Su)|right; auto].
Qed.
Lemma work_shades x o t t' : (forall p, In p work -> enabled o p = true -> In p quiet) -> ready1 t -> gradients_seen t ->
  runs x o (filter (enabled o) work) t (Some (Ok t')) ->
  exists t1 t1', runs x o (filter (enabled o) first_passes) t (Some (Ok t1)) /\ shades_kept t t1 /\ readyS t1 /\ gradients_seen t1 /\ runs x o (filter (enabled o) server_passes) t1 (Some (Ok t1')) /\ readyS t1' /\ shades_kept t1' t' /\ fine t'.
Proof.
  intros Q R1 Sn R. unfold work in R. assert (Q1 : forall p l, In p l -> incl l work -> enabled o p = true -> In p quiet) by (intros p l Hp Il; apply Q; auto).
  destruct (runs_parts _ _ _ _ _ _ R) as (t1 & Ra & R0). clear R. destruct (runs_parts _ _ _ _ _ _ R0) as (t1' & Rs & R'). clear R0. destruct (runs_parts _ _ _ _ _ _ R') as (t2 & Rb & R''). clear R'. destruct (runs_parts _ _ _ _ _ _ R'') as (t3 & Rc & R'). clear R''. destruct (runs_parts _ _ _ _ _ _ R') as (t4 & Rd & R''). clear R'. destruct (runs_parts _ _ _ _ _ _ R'') as (t5 & Re & R'). clear R''. destruct (runs_parts _ _ _ _ _ _ R') as (t6 & Rf & Rg). clear R'.
  destruct (kept_phase x o (fun u => ready1 u /\ gradients_seen u) shades_kept shades_refl shades_trans first_passes) with (t := t) (t' := t1) as [[A1 Sn1] S1]; [|split; assumption|exact Ra|].
  { intros p u u' Hp _ [Iu Su] E. assert (exists e, In e [ETitle; EDesc; EMetadata] /\ u' = TasksSimple.remove_element e u) as (e & He & ->).
    { destruct Hp as [<-|[<-|[<-|[]]]]; cbn [perform] in E; injection E as <-; eexists; (split; [|reflexivity]); cbn; auto. }
    pose proof (remark_step no_unit e u He Iu) as [A _]. pose proof (wf_keys u (SpecUngroup.g_wf u (r1_g u Iu))) as N. split; [split; [exact A|]|].
    - rewrite (PictureRemarks.remove_remark e u He N (r1_remarks u Iu)). now apply seen_pruned.
    - rewrite (PictureRemarks.remove_remark e u He N (r1_remarks u Iu)). now apply remarks_shades. }
  assert (B1 : readyS t1) by (destruct A1; split; assumption).
  destruct (kept_phase x o (fun u => readyS u /\ gradients_seen u) (fun _ _ => True) (fun _ => Logic.I) (fun _ _ _ _ _ => Logic.I) server_passes) with (t := t1) (t' := t1') as [[As Sns] _]; [|split; assumption|exact Rs|].
  { intros p u u' Hp En Iu E. assert (Hq : In p quiet) by (apply (Q1 p server_passes); auto; intros q Hq; unfold work; rewrite !in_app_iff; tauto). destruct (quiet_servers x o u u' p Hp Hq Iu E) as (A & B & _). auto. }
  assert (A1' : ready2 t1') by (destruct As; split; assumption).
  destruct (kept_phase x o ready2 shades_kept shades_refl shades_trans middle_passes) with (t := t1') (t' := t2) as [A2 S2]; [|exact A1'|exact Rb|].
  { intros p u u' Hp En Iu E. assert (p = PUngroup) as ->. { assert (Hq : In p quiet) by (apply (Q1 p middle_passes); auto; intros q Hq; unfold work; rewrite !in_app_iff; tauto). clear - Hp Hq. cbn in Hp, Hq. intuition congruence. }
    cbn [perform] in E. split; [exact (proj1 (ungroup_ready no_unit _ _ u u' Iu E))|]. apply steps_shades. destruct (UngroupEnd.ungroup_groups_steps no_unit (group_opts o) (x_self x) u (r2_g u Iu)) as (w & E2 & _ & _ & St & _). rewrite E in E2. injection E2 as <-. exact St. }
  assert (A3 : ready3 t3 /\ shades_kept t2 t3).
  { cbn [filter] in Rc. destruct (enabled o PGroupStyle); [|inversion Rc; subst; split; [|apply shades_refl]; split; [apply gready_fine, A2|apply A2]]. inversion Rc as [|? ? ? u ? E Ru| | |]; subst. inversion Ru; subst. cbn [perform] in E. injection E as E.
    split; [exact (proj1 (style_ready no_unit t2 t3 A2 E))|]. destruct (StyleEnd.group_by_style_ok no_unit t2 (r2_s t2 A2)) as (w & E2 & St). rewrite E in E2. injection E2 as <-. apply (StyleMove.st_shades _ _ _ St). }
  destruct A3 as [A3 S3]. destruct (kept_phase x o ready3 shades_kept shades_refl shades_trans [PIds; PTrimIds; PVersion]) with (t := t3) (t' := t4) as [A4 S4]; [|exact A3|exact Rd|].
  { intros p u u' Hp _ Iu E. split; [exact (proj1 (tail1 no_unit x o p u u' Hp Iu E))|]. pose proof (wf_keys u (fine_wf u (r3_fine u Iu))) as N. apply cosmetic_shades.
    destruct Hp as [<-|[<-|[<-|[]]]]; cbn [perform] in E; injection E as E; [subst u'; apply twin_ids|now apply twin_trim|now apply twin_version]. }
  assert (t5 = t4). { assert (En : enabled o PUngroupDefs = false). { destruct (enabled o PUngroupDefs) eqn:En; [|reflexivity]. exfalso. assert (X : In PUngroupDefs quiet) by (apply Q; [unfold work; rewrite !in_app_iff; do 5 right; left; now left|exact En]). cbn in X. intuition discriminate. } cbn [filter] in Re. rewrite En in Re. now inversion Re. } subst t5.
  assert (A6 : fine t6 /\ shades_kept t4 t6). { cbn [filter enabled] in Rf. inversion Rf as [|? ? ? u ? E Ru| | |]; subst. inversion Ru; subst. destruct A4 as [F4 D4]. split; [exact (fine_silent x o PEmptyDefs _ _ Logic.I F4 E)|]. cbn [perform] in E. injection E as E. exact (empty_defs_shades _ _ F4 D4 E). }
  destruct A6 as [A6 S6]. destruct (kept_phase x o fine shades_kept shades_refl shades_trans [PXmlns; PDefaultTransform]) with (t := t6) (t' := t') as [A7 S7]; [|exact A6|exact Rg|].
  { intros p u u' Hp _ Iu E. split; [exact (proj1 (tail3 no_unit x o p u u' Hp Iu E))|]. pose proof (wf_keys u (fine_wf u Iu)) as N. apply cosmetic_shades.
    destruct Hp as [<-|[<-|[]]]; cbn [perform] in E; injection E as E; [exact (twin_xmlns _ _ _ N E)|subst u'; apply twin_default, Iu]. }
  pose proof shades_trans as Tr. exists t1, t1'. split; [exact Ra|]. split; [exact S1|]. split; [exact B1|]. split; [exact Sn1|]. split; [exact Rs|]. split; [exact As|]. split; [exact (Tr _ _ _ S2 (Tr _ _ _ S3 (Tr _ _ _ S4 (Tr _ _ _ S6 S7))))|exact A7].
Qed.
Lemma work_ramps x o t t' : (forall p, In p work -> enabled o p = true -> In p quiet) -> ready1 t -> gradients_seen t ->
  runs x o (filter (enabled o) work) t (Some (Ok t')) -> ramps_kept t t'.
Proof.
  intros Q R1 Sn R. destruct (work_shades x o t t' Q R1 Sn R) as (t1 & t1' & _ & S1 & A1 & Sn1 & Rs & _ & S2 & _).
  assert (S : ramps_kept t1 t1').
  { destruct (kept_phase x o (fun u => readyS u /\ gradients_seen u) ramps_kept ramps_refl ramps_trans server_passes) with (t := t1) (t' := t1') as [_ S]; [|split; assumption|exact Rs|exact S].
    intros p u u' Hp En Iu E. assert (Hq : In p quiet) by (apply Q; auto; unfold work; rewrite !in_app_iff; tauto). destruct (quiet_servers x o u u' p Hp Hq Iu E) as (A & B & C). split; [auto|]. destruct Iu as [Iu Su]. pose proof (wf_keys u (SpecUngroup.g_wf u (rS_g u Iu))) as N.
    destruct C as [[_ ->]|[_ C]]; [apply stops_ramps; [exact N|now apply rS_servers|exact Su]|exact (gside_ramps u u' (trans_gside u u' N C))]. }
  exact (ramps_trans _ _ _ (shades_ramps _ _ S1) (ramps_trans _ _ _ S (shades_ramps _ _ S2))).
Qed.
