(** Lemmas: the attributes of gradients in the preparation and in a run without changes of transforms. *)
From Coq Require Import List Bool NArith Arith ZArith String QArith Qcanon Lia.
From Verif Require Import Names Num Value Dom DomFacts DomOps Outcome DomRemove Stops SpecStops StopsProofs Props_stops AttrFacts SpecDom SpecRound SpecGradients SpecWritten SpecPaint SpecUngroup SpecGroupStyle SpecPrepared SpecShading Shading SpecGeometry SpecPicture SpecClean Cli Clean WfAll Props_wf PictureTwin PictureTail PictureEnd PictureShades RampsRun RampsWork RampsPrep Geometry GeoPasses GradTransProofs Props_picture Props_ramps.
From Verif Require PicturePrep PictureServers PictureRemarks PictureGrad Round Push Gradients Transforms.
Import ListNotations.
Local Open Scope nat_scope.

Definition tracked (t t' : tree) : Prop := tracks t t' /\ tracks t' t.
Lemma tracked_trans a b c : tracked a b -> tracked b c -> tracked a c.
Proof. intros [A B] [C D]. split; eapply tracks_trans; eauto. Qed.
Lemma tracked_refl a : tracked a a. Proof. split; apply tracks_refl. Qed.
Lemma tracked_written t t' : fine t -> fine t' -> tracked t t' -> tracked (written t) (written t').
Proof. intros F F' [A B]. split; apply tracks_written; auto; [apply F|apply F'|apply F'|apply F]. Qed.
(** Where the preparation begins to change other things than hidden attributes, and what it leaves alone. *)
Lemma prep_split x o t t1 : (forall p, In p (PicturePrep.digits (Clean.round_opts o)) -> 1 <= p <= 12) -> prepared (PicturePrep.digits (Clean.round_opts o)) t ->
  runs x o preparation t (Some (Ok t1)) -> exists u1 u2 u5,
    Gradients.resolve_linear_gradient_attributes t = Some (Ok u1) /\ Gradients.resolve_radial_gradient_attributes u1 = Some (Ok u2) /\ fine t /\ fine u1 /\ fine u2 /\ fine u5 /\
    tracked u2 u5 /\ t1 = Round.round_numbers (Clean.round_opts o) u5.
Proof.
  intros U D R. assert (F0 : fine t) by (apply gready_fine, D). pose proof (fun p u u' => prep_step x o t p u u' U D) as Step. unfold preparation in R.
  inversion R as [|? ? ? u1 ? P1 R1| | |]; subst. destruct (Step _ _ _ (or_introl eq_refl) (conj (PicturePrep.tw_refl t t) F0) P1) as [W1 F1]. clear R. cbn [perform] in P1.
  inversion R1 as [|? ? ? u2 ? P2 R2| | |]; subst. destruct (Step _ _ _ (or_intror (or_introl eq_refl)) (conj W1 F1) P2) as [W2 F2]. clear R1. cbn [perform] in P2.
  inversion R2 as [|? ? ? u3 ? P3 R3| | |]; subst. destruct (Step _ _ _ (or_intror (or_intror (or_introl eq_refl))) (conj W2 F2) P3) as [W3 F3]. clear R2. cbn [perform] in P3. injection P3 as P3.
  inversion R3 as [|? ? ? u4 ? P4 R4| | |]; subst. clear R3. cbn [perform] in P4. rewrite (prep_inherit t u3 _ D W3) in P4. injection P4 as <-.
  inversion R4 as [|? ? ? u5 ? P5 R5| | |]; subst. destruct (Step PFix u3 u5 ltac:(cbn; tauto) (conj W3 F3) P5) as [W5 F5]. clear R4. cbn [perform] in P5. injection P5 as P5.
  inversion R5 as [|? ? ? u6 ? P6 R6| | |]; subst. clear R5. cbn [perform] in P6. rewrite (prep_group t u5 _ D W5) in P6. injection P6 as <-.
  inversion R6 as [|? ? ? u7 ? P7 R7| | |]; subst. clear R6. cbn [perform] in P7. injection P7 as <-. inversion R7; subst. clear R7.
  pose proof (PicturePrep.st_servers t u2 W2 (pd_servers _ _ D)) as V2. pose proof (PicturePrep.st_servers t u3 W3 (pd_servers _ _ D)) as V3.
  assert (Rt : tag (data u2) = TRoot) by (rewrite (PictureServers.sd_tag _ _ _ (twin_data _ _ _ W2)); apply (g_root t (pd_groups _ _ D))).
  exists u1, u2, u5. repeat (split; [assumption|]). split; [|reflexivity]. apply (tracked_trans _ u3); [exact (stops_tracks u2 u3 V2 V3 Rt P3)|exact (fix_tracks u3 u5 P5)].
Qed.
Lemma get_value_short precs t d a y : prepared precs t -> In d (flat t) -> get_attr (attrs d) a = Some y -> forall n p, In n (nums (a_val y)) -> In p precs -> short p n.
Proof. intros D Hd E n p Hn Hp. apply get_attr_some in E. apply (pd_short _ _ D d y n p); auto. apply E. Qed.
(** In the saved document, gradients are as they were. *)
Lemma prep_tracked x o t t1 : (forall p, In p (PicturePrep.digits (Clean.round_opts o)) -> 1 <= p <= 12) -> prepared (PicturePrep.digits (Clean.round_opts o)) t ->
  runs x o preparation t (Some (Ok t1)) -> tracked (written t) (written t1).
Proof.
  intros U D R. destruct (prep_split x o t t1 U D R) as (u1 & u2 & u5 & P1 & P2 & F & F1 & F2 & F5 & T & ->). pose proof (wf_keys t (fine_wf t F)) as N. pose proof (wf_keys u1 (fine_wf u1 F1)) as N1.
  assert (E : written u2 = written t) by (rewrite (radial_written u1 u2 N1 P2); apply (linear_written t u1 N P1)).
  apply (tracked_written u2 u5 F2 F5) in T. rewrite E in T. apply (tracked_trans _ _ _ T). rewrite round_written. apply round_tracks.
  intros d a y Hd G Ha Q. destruct (proj2 T d Hd G) as (d0 & Hd0 & L). rewrite <- (proj2 (proj2 L) a Ha) in Q. rewrite flat_written in Hd0. apply in_map_iff in Hd0. destruct Hd0 as (c & <- & Hc).
  apply (PicturePrep.round_value_short (Clean.round_opts o) U). rewrite vis_get in Q by exact (proj1 (Forall_forall _ _) (fine_wfa t F) c Hc). destruct (get_attr (attrs c) a) as [z|] eqn:Ez; [|discriminate]. destruct (a_vis z); [|discriminate]. injection Q as <-. exact (get_value_short _ _ _ _ _ D Hc Ez).
Qed.
(** The work, without changes of transforms. *)
Lemma server_tracked x o : enabled o PGradTransforms = false -> (forall p, In p work -> enabled o p = true -> In p quiet) -> forall t t', readyS t -> gradients_seen t ->
  runs x o (filter (enabled o) server_passes) t (Some (Ok t')) -> tracked t t'.
Proof.
  intros G Q t t' A Sn R. destruct (kept_phase x o (fun u => readyS u /\ gradients_seen u) tracked tracked_refl tracked_trans server_passes) with (t := t) (t' := t') as [_ S]; [|split; assumption|exact R|exact S].
  intros p u u' Hp En Iu E. assert (Hq : In p quiet) by (apply Q; auto; unfold work; rewrite !in_app_iff; tauto). destruct (quiet_servers x o u u' p Hp Hq Iu E) as (A1 & B1 & C). split; [auto|]. destruct Iu as [Iu Su]. pose proof (wf_keys u (SpecUngroup.g_wf u (rS_g u Iu))) as N.
  destruct C as [[_ ->]|[-> _]]; [apply stops_pass_tracks; [exact N|now apply rS_servers|exact Su]|congruence].
Qed.
Lemma prep_ready x o t t1 : (forall p, In p (PicturePrep.digits (Clean.round_opts o)) -> 1 <= p <= 12) -> prepared (PicturePrep.digits (Clean.round_opts o)) t ->
  runs x o preparation t (Some (Ok t1)) -> ready1 t1 /\ gradients_seen t1 /\ servers_apart t1.
Proof.
  intros U D R. destruct (prep_twin x o t t1 U D R) as [W F1]. split; [|split; [exact (seen_side t t1 W (prepared_seen _ t D))|exact (PicturePrep.st_servers t t1 W (pd_servers _ _ D))]].
  split; [exact (PicturePrep.st_gready t t1 W F1 (pd_groups _ _ D))|exact (PicturePrep.st_sready t t1 W F1 (pd_styles _ _ D))|exact (PicturePrep.st_remarks t t1 W (pd_remarks _ _ D))|exact (PicturePrep.st_defs t t1 W (pd_defs _ _ D))|exact (PicturePrep.st_servers t t1 W (pd_servers _ _ D))].
Qed.
