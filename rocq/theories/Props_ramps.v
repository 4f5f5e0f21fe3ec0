(** Theorems about the colours of gradients over a whole run of the program. *)
From Coq Require Import List Bool NArith Arith ZArith String QArith Qcanon Lia.
From Verif Require Import Names Num Value Dom DomFacts DomOps Outcome DomRemove Stops SpecStops StopsProofs SpecRound SpecDom TasksSimpleProofs MoveFacts SpecText SpecUngroup SpecGroupStyle SpecPrepared SpecShading Shading SpecRamps SpecPicture SpecClean Cli Clean Props_clean WfAll Props_wf PictureSim PictureTwin PictureEnd PictureShades RampsRun RampsWork RampsPrep Props_picture.
From Verif Require PicturePrep PictureServers Round JoinStyle PlainDefs SteppedReady PictureRemarks TasksSimple.
Import ListNotations.
Local Open Scope nat_scope.

(** ** Offsets *)
Lemma settle_offsets l : forall p, map so (settle p l) = maxes p (map so l).
Proof. induction l as [|s l IH]; intros p; [reflexivity|]. cbn [settle map maxes so]. unfold larger, qmax. fold (clamp (so s)) (between01 (so s)). change (between01 (so s)) with (clamp (so s)). f_equal. apply IH. Qed.
Lemma settle_in_order l : in_order (settle q0 l).
Proof. unfold in_order. rewrite settle_offsets. destruct (maxes_spec q0 (map so l)) as [A B]. split; [exact A|]. apply B. unfold q0, q1. qlra. Qed.
Lemma settle_same l : in_order l -> settle q0 l = l.
Proof.
  unfold in_order. intros [A B]. pose proof (maxes_id q0 (map so l) A B ltac:(unfold q0; qlra)) as M. revert M. rewrite <- settle_offsets. generalize q0. clear. induction l as [|s l IH]; intros p; [reflexivity|]. cbn [settle map so]. intros E. injection E as E1 E2. f_equal; [rewrite E1; now destruct s|now apply IH].
Qed.
Lemma settle_alpha p q l : Forall (fun s => Round.round_number p (ca (sc s)) = ca (sc s)) l -> map (round_alpha p) (settle q l) = settle q l.
Proof.
  revert q. induction l as [|s l IH]; intros q H; [reflexivity|]. cbn [settle map]. rewrite (IH _ (Forall_inv_tail H)). f_equal. unfold round_alpha. cbn [so sc]. rewrite (Forall_inv H). now destruct (sc s).
Qed.
(** ** The preparation *)
Lemma opacities o t s : (forall p, In p (PicturePrep.digits (Clean.round_opts o)) -> 1 <= p <= 12) -> prepared (PicturePrep.digits (Clean.round_opts o)) t -> In s (subs t) -> stops_only s ->
  Forall (fun x => Round.round_number (Round.pr_prop (Clean.round_opts o)) (ca (sc x)) = ca (sc x)) (own_stops s).
Proof.
  intros U D Hs O. rewrite own_all by exact O. apply Forall_forall. intros x Hx. apply in_map_iff in Hx. destruct Hx as (d & <- & Hd). apply in_map_iff in Hd. destruct Hd as (c & <- & Hc). assert (Hd : In (data c) (flat t)) by (apply data_of_sub; exact (Push.kid_sub s c t Hs Hc)).
  assert (P : In (Round.pr_prop (Clean.round_opts o)) (PicturePrep.digits (Clean.round_opts o))) by (cbn; auto). assert (Q : Round.round_number (Round.pr_prop (Clean.round_opts o)) q1 = q1) by (apply round_one; now apply U).
  unfold stop_of. cbn [sc]. assert (G : forall n, d_get (data c) AStopOpacity = Some (VNum n) -> Round.round_number (Round.pr_prop (Clean.round_opts o)) n = n).
  { intros n E. destruct (PicturePrep.get_at _ _ _ E) as (y & Hy & _ & Ey). apply PicturePrep.round_short; [now apply U|]. apply (pd_short _ _ D (data c) y n); auto. rewrite Ey. cbn. auto. }
  destruct (d_get (data c) AStopColor) as [v|]; [destruct v|]; cbn [ca]; (destruct (d_get (data c) AStopOpacity) as [w|]; [destruct w|]; cbn [ca]; try exact Q; now apply G).
Qed.
Lemma round_by o t : (1 <= Round.pr_prop o <= 12) -> stops_by (map (round_alpha (Round.pr_prop o))) t (Round.round_numbers o t).
Proof.
  intros U. unfold stops_by, Round.round_numbers. rewrite subs_tmap. set (f := fun d => if is_svg_el d then with_attrs d (map (Round.round_attr o) (attrs d)) else d). generalize (subs t). induction l as [|s l IH]; cbn; constructor; [|exact IH]. intros G O.
  assert (P : forall d, tag (f d) = tag d) by (intros d; unfold f; destruct (is_svg_el d); reflexivity). assert (O' : stops_only (tmap f s)). { intros c Hc. rewrite kids_tmap in Hc. apply in_map_iff in Hc. destruct Hc as (y & <- & Hy). rewrite data_tmap, P. now apply O. }
  split; [rewrite data_tmap; apply P|]. split; [exact O'|]. rewrite !own_all by auto. rewrite kids_tmap, !map_map. apply map_ext_in. intros c Hc. rewrite data_tmap. unfold f. unfold is_svg_el. rewrite (O c Hc). now apply stop_round.
Qed.
Lemma prep_stops x o t t1 : (forall p, In p (PicturePrep.digits (Clean.round_opts o)) -> 1 <= p <= 12) -> prepared (PicturePrep.digits (Clean.round_opts o)) t ->
  runs x o preparation t (Some (Ok t1)) -> stops_by (fun l => map (round_alpha (Round.pr_prop (Clean.round_opts o))) (settle q0 l)) t t1.
Proof.
  intros U D R. assert (F0 : fine t) by (apply gready_fine, D). pose proof (fun p u u' => prep_step x o t p u u' U D) as Step. pose proof (wf_keys t (fine_wf t F0)) as N0. unfold preparation in R.
  inversion R as [|? ? ? u1 ? P1 R1| | |]; subst. destruct (Step _ _ _ (or_introl eq_refl) (conj (PicturePrep.tw_refl t t) F0) P1) as [W1 F1]. clear R. cbn [perform] in P1.
  inversion R1 as [|? ? ? u2 ? P2 R2| | |]; subst. destruct (Step _ _ _ (or_intror (or_introl eq_refl)) (conj W1 F1) P2) as [W2 F2]. clear R1. cbn [perform] in P2.
  inversion R2 as [|? ? ? u3 ? P3 R3| | |]; subst. destruct (Step _ _ _ (or_intror (or_intror (or_introl eq_refl))) (conj W2 F2) P3) as [W3 F3]. clear R2. cbn [perform] in P3. injection P3 as P3.
  inversion R3 as [|? ? ? u4 ? P4 R4| | |]; subst. clear R3. cbn [perform] in P4. rewrite (prep_inherit t u3 _ D W3) in P4. injection P4 as <-.
  inversion R4 as [|? ? ? u5 ? P5 R5| | |]; subst. destruct (Step PFix u3 u5 ltac:(cbn; tauto) (conj W3 F3) P5) as [W5 F5]. clear R4. cbn [perform] in P5. injection P5 as P5.
  inversion R5 as [|? ? ? u6 ? P6 R6| | |]; subst. clear R5. cbn [perform] in P6. rewrite (prep_group t u5 _ D W5) in P6. injection P6 as <-.
  inversion R6 as [|? ? ? u7 ? P7 R7| | |]; subst. clear R6. cbn [perform] in P7. injection P7 as <-. inversion R7; subst. clear R7.
  pose proof (PicturePrep.st_servers t u2 W2 (pd_servers _ _ D)) as V2. pose proof (PicturePrep.st_servers t u3 W3 (pd_servers _ _ D)) as V3.
  assert (B1 := linear_by t u1 N0 P1). assert (B2 := radial_by u1 u2 (wf_keys u1 (fine_wf u1 F1)) P2). assert (B3 := stops_by_resolve u2 u3 V2 P3).
  assert (B5 : stops_by (settle q0) u3 u5).
  { apply stops_by_fix; [exact V3| | | |exact P5].
    - intros d Hd Tg. apply (pd_rect _ _ D d); [|exact Tg]. apply (nonserver_back t u3 d W3 Hd), (tag_nonserver d _ Tg). cbn. intuition discriminate.
    - intros d l Hd Tg. apply (pd_poly _ _ D d l); [|exact Tg]. apply (nonserver_back t u3 d W3 Hd). destruct Tg as [Tg|Tg]; apply (tag_nonserver d _ Tg); cbn; intuition discriminate.
    - intros d Hd. destruct (PicturePrep.st_back t u3 W3 d Hd) as (c & Hc & S). rewrite (PictureServers.sd_get _ _ _ S) by (cbn; intuition discriminate). exact (pd_marker _ _ D c Hc). }
  assert (B7 : stops_by (map (round_alpha (Round.pr_prop (Clean.round_opts o)))) u5 (Round.round_numbers (Clean.round_opts o) u5)) by (apply round_by, U; cbn; auto).
  exact (by_trans _ _ _ _ _ B1 (by_trans _ _ _ _ _ B2 (by_trans _ _ _ _ _ B3 (by_trans _ _ _ _ _ B5 B7)))).
Qed.
(** ** Gradients are in the main defs element *)
Lemma remark_tags d : remark d = true -> tag d = TEl ETitle \/ tag d = TEl EDesc \/ tag d = TEl EMetadata.
Proof. unfold remark. rewrite !orb_true_iff, !is_tag_iff. tauto. Qed.
Lemma prepared_seen precs t : prepared precs t -> gradients_seen t.
Proof.
  intros D a d Ha Q Hd Gd. pose proof (g_wf t (pd_groups _ _ D)) as Wf. pose proof (wf_keys t Wf) as N. destruct (pd_main _ _ D) as (svg & m & l & Es & Ek & Tm & _ & Pl).
  assert (Hsvg : In svg (kids t) /\ tag (data svg) = TEl ESvg) by (apply svg_kid, Es). destruct Hsvg as [Hk Tsvg]. pose proof (Push.kid_sub t svg t (subs_self t) Hk) as Hsvg. assert (Hm : In m (kids svg)) by (rewrite Ek; now left). pose proof (Push.kid_sub svg m t Hsvg Hm) as Hm'.
  assert (Nq : forall e, tag (data a) = TEl e -> In e [ETitle; EDesc; EMetadata; EStop]). { intros e E. destruct Q as [Q|Q]; [|rewrite E in Q; injection Q as ->; cbn; tauto]. apply remark_tags in Q. rewrite E in Q. cbn. destruct Q as [Q|[Q|Q]]; injection Q as ->; tauto. }
  assert (Sub : exists s, In s (subs a) /\ data s = d). { rewrite <- map_data_subs in Hd. apply in_map_iff in Hd. destruct Hd as (s & E & Hs). eauto. } destruct Sub as (s & Hsa & Ed). pose proof (subs_trans t a s Ha Hsa) as Hs.
  assert (Ge : exists e, tag (data s) = TEl e /\ (e = ELinearGradient \/ e = ERadialGradient)) by (rewrite Ed; destruct Gd as [G|G]; rewrite G; eauto). destruct Ge as (e & Te & Ce).
  destruct (sub_place s t [] Hs) as (anc & Pa). destruct (Pl anc s e Pa Te) as (b & ->); [destruct Ce as [-> | ->]; cbn; tauto|].
  destruct (PlainDefs.place_parent t [] b (data m) s Pa) as [[X _]|(p & Hp & Ep & Hsp)]; [discriminate|]. assert (p = m) by (apply (sub_unique t); auto; unfold root_key; now rewrite Ep). subst p.
  assert (Ne : forall w, In w (subs t) -> (forall e, tag (data w) = TEl e -> ~ In e [ETitle; EDesc; EMetadata; EStop]) -> a <> w). { intros w _ Hw ->. destruct Q as [Q|Q]; [|apply (Hw EStop Q); cbn; tauto]. apply remark_tags in Q. destruct Q as [Q|[Q|Q]]; apply (Hw _ Q); cbn; tauto. }
  assert (I1 : In (data s) (inside a)).
  { destruct a as [da ca]. cbn in Hsa. destruct Hsa as [<-|Hsa]; [exfalso; specialize (Nq e Te); destruct Ce as [-> | ->]; cbn in Nq; intuition discriminate|]. unfold inside. cbn [kids]. apply in_flat_map in Hsa. destruct Hsa as (c & Hc & Hx). apply in_flat_map. exists c. split; [exact Hc|]. now apply data_of_sub. }
  assert (I2 : In (data m) (inside a)). { apply (SteppedReady.parent_inside t m a (data s) N Hm' Ha); [|now apply in_map|exact I1]. apply Ne; [exact Hm'|]. intros e0 E. rewrite Tm in E. injection E as <-. cbn. intuition discriminate. }
  assert (I3 : In (data svg) (inside a)). { apply (SteppedReady.parent_inside t svg a (data m) N Hsvg Ha); [|now apply in_map|exact I2]. apply Ne; [exact Hsvg|]. intros e0 E. rewrite Tsvg in E. injection E as <-. cbn. intuition discriminate. }
  apply (root_not_inside t a N Ha). apply (SteppedReady.parent_inside t t a (data svg) N (subs_self t) Ha); [|now apply in_map|exact I3]. apply Ne; [apply subs_self|]. intros e0 E. rewrite (g_root t (pd_groups _ _ D)) in E. discriminate.
Qed.
Lemma seen_side t t' : twin (PictureServers.side t) t t' -> gradients_seen t -> gradients_seen t'.
Proof.
  intros W H a' d' Ha Q Hd. destruct (twin_subs' _ t t' a' W Ha) as (a & Ha0 & X). pose proof (PictureServers.sd_tag _ _ _ (twin_data _ _ _ X)) as D. unfold remark, is_tag in Q. rewrite D in Q. fold (is_tag ETitle (data a)) (is_tag EDesc (data a)) (is_tag EMetadata (data a)) in Q.
  apply tg_flat in X. destruct (PicturePrep.f2_back _ _ _ _ X Hd) as (d & Hd0 & Y). intros Z. apply (H a d Ha0 Q Hd0). unfold gradient_el in *. now rewrite <- (PictureServers.sd_tag _ _ _ Y).
Qed.
(** ** The whole run *)
Lemma ramp_nil l l' : (forall x, ramp l' x = ramp l x) -> l = [] -> l' = [].
Proof. intros H ->. specialize (H q0). destruct l'; [reflexivity|discriminate]. Qed.
Lemma shown_nil s : shown_stops s = [] <-> own_stops s = [].
Proof. unfold shown_stops. destruct (own_stops s); cbn; split; intros E; try reflexivity; discriminate. Qed.
Theorem C56_ramps_partial x o t t' : light o -> digits_ok o -> prepared (digits_of o) t -> clean_doc x o t = Some (Ok t') ->
  exists t2, same_ramps t t2 /\ t' = JoinStyle.join_style_attributes (x_write x) (o_join_style_attributes o) t2.
Proof.
  intros L U D E. destruct (TasksSimple.preclean_checks t) as [[]|err|] eqn:P; [|unfold clean_doc in E; rewrite P in E; discriminate..]. pose proof (proj2 (C45_pipeline x o t P _) eq_refl) as R. rewrite E, pipeline_parts in R.
  destruct (runs_parts _ _ _ _ _ _ R) as (t1 & R1 & R2). rewrite prep_on in R1. rewrite <- digits_eq in D. destruct (prep_twin x o t t1 (digits_nat o U) D R1) as [W F1]. pose proof (prep_stops x o t t1 (digits_nat o U) D R1) as B.
  destruct (runs_parts _ _ _ _ _ _ R2) as (t2 & R3 & R4). exists t2. split.
  2:{ cbn [filter enabled] in R4. inversion R4 as [|? ? ? u ? E4 R5| | |]; subst. inversion R5; subst. cbn [perform] in E4. now injection E4 as <-. }
  assert (K : ramps_kept t1 t2).
  { apply (work_ramps x o t1 t2 (light_quiet o L)); [|exact (seen_side t t1 W (prepared_seen _ t D))|exact R3].
    split; [exact (PicturePrep.st_gready t t1 W F1 (pd_groups _ _ D))|exact (PicturePrep.st_sready t t1 W F1 (pd_styles _ _ D))|exact (PicturePrep.st_remarks t t1 W (pd_remarks _ _ D))|exact (PicturePrep.st_defs t t1 W (pd_defs _ _ D))|exact (PicturePrep.st_servers t t1 W (pd_servers _ _ D))]. }
  assert (Z : forall s, In s (subs t) -> gradient s -> exists s', In s' (subs t2) /\ root_key s' = root_key s /\ tag (data s') = tag (data s) /\ d_get (data s') AXlinkHref = d_get (data s) AXlinkHref /\
    in_order (own_stops s') /\ forall z, ramp (own_stops s') z = ramp (shown_stops s) z).
  { intros s Hs G. assert (O : stops_only s) by (intros c Hc; exact (sa_stops t (pd_servers _ _ D) s c Hs G Hc)). pose proof (tg_subs _ _ _ W) as Ws. destruct (f2_both _ _ _ _ s Ws B Hs) as (s1 & Hs1 & A & C). pose proof (twin_data _ _ _ A) as S. destruct (C G O) as (T1 & O1 & E1).
    rewrite settle_alpha in E1 by exact (opacities o t s (digits_nat o U) D Hs O). assert (G1 : gradient s1) by (unfold gradient; now rewrite T1). destruct (K s1 Hs1 G1 O1) as (s2 & Hs2 & Sh); [rewrite E1; apply settle_in_order|]. exists s2. split; [exact Hs2|].
    split; [rewrite (sh_key _ _ Sh); apply S|]. split; [rewrite (sh_tag _ _ Sh); exact T1|]. split; [rewrite (sh_href _ _ Sh); apply (PictureServers.sd_get _ _ _ S); cbn; intuition discriminate|]. split; [apply Sh|]. intros z. rewrite (sh_ramp _ _ Sh z), E1. reflexivity. }
  intros s l Hs G Ps. revert Hs G. induction Ps as [s Ne|s En Eh|s k x0 l En Eh Hx Kx Gx Px IH]; intros Hs G; destruct (Z s Hs G) as (s' & Hs' & K' & T' & H' & I' & R').
  - exists s', (shown_stops s'). split; [exact Hs'|]. split; [exact K'|]. split; [exact T'|]. split.
    + apply ps_own. intros Q. apply Ne, shown_nil. apply (ramp_nil (own_stops s')); [|exact Q]. intros z. now rewrite R'.
    + intros z. unfold shown_stops at 1. rewrite (settle_same _ I'). apply R'.
  - exists s', []. repeat (split; [assumption|]). split; [|reflexivity]. apply ps_none; [|now rewrite H']. apply (ramp_nil (shown_stops s) _ R'). now apply shown_nil.
  - destruct (IH Hx Gx) as (x' & l' & Hx' & Kx' & Tx' & Px' & Rx'). exists s', l'. repeat (split; [assumption|]). split; [|exact Rx']. apply (ps_href t2 s' k x' l'); auto; [|now rewrite H'|congruence|unfold gradient; now rewrite Tx']. apply (ramp_nil (shown_stops s) _ R'). now apply shown_nil.
Qed.
Print Assumptions C56_ramps_partial.
(** Without joining of style attributes: every gradient of the saved document is painted with the colours it had. *)
Corollary C56_saved_partial x o t t' : light o -> o_join_style_attributes o = JoinNone -> digits_ok o -> prepared (digits_of o) t -> clean_doc x o t = Some (Ok t') -> same_ramps t t'.
Proof. intros L J U D E. destruct (C56_ramps_partial x o t t' L U D E) as (t2 & Q & ->). rewrite J. exact Q. Qed.
Print Assumptions C56_saved_partial.
(** An instance: gradient 23 has no stops and takes those of 20; gradient 24 loses a repeated stop and its transform. *)
Example C56_instance : light light_opts /\ digits_ok light_opts /\ prepared (digits_of light_opts) shade_doc /\
  (exists s, In s (subs shade_doc) /\ root_key s = 23 /\ gradient s /\ own_stops s = [] /\ exists l, painted_stops shade_doc s l /\ List.length l = 2) /\
  (exists s, In s (subs shade_doc) /\ root_key s = 24 /\ gradient s /\ exists l, painted_stops shade_doc s l /\ List.length l = 3) /\
  match clean_doc lib light_opts shade_doc with
  | Some (Ok t') => map (fun k => option_map (fun s => List.length (own_stops s)) (find_sub k t')) [20; 23; 24] = [Some 2; Some 0; Some 2]
  | _ => False
  end.
Proof.
  split; [exact light_opts_light|]. split; [exact shade_ok|]. split; [exact shade_prepared|]. split; [|split].
  - eexists. split; [do 7 right; left; reflexivity|]. split; [reflexivity|]. split; [right; reflexivity|]. split; [reflexivity|]. eexists. split; [eapply ps_href; [reflexivity|reflexivity|do 4 right; left; reflexivity|reflexivity|left; reflexivity|apply ps_own; discriminate]|reflexivity].
  - eexists. split; [do 8 right; left; reflexivity|]. split; [reflexivity|]. split; [left; reflexivity|]. eexists. split; [apply ps_own; discriminate|reflexivity].
  - vm_compute. reflexivity.
Qed.
