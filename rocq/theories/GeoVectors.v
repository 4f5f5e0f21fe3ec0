(** Lemmas: gradients over a whole run in which transforms are applied to gradients. *)
From Coq Require Import List Bool NArith Arith ZArith String QArith Qcanon Lia.
From Verif Require Import Names Num Value Dom DomFacts DomOps Outcome AttrFacts SpecStops SpecTransforms TransformsProofs SpecDom SpecRound SpecGradients GradProofs SpecWritten SpecPaint SpecUngroup SpecGroupStyle SpecPrepared SpecShading Shading SpecGeometry SpecPicture SpecClean Cli Clean Transforms VLoop WfAll Props_wf PictureTwin PictureTail PictureEnd PictureShades RampsRun RampsWork RampsPrep Geometry GeoPasses GradTransProofs Props_gradtrans Props_picture Props_ramps GeoRun GeoResolve.
From Verif Require PicturePrep PictureServers PictureRemarks PictureGrad Round Push Props_transforms Props_coords.
Import ListNotations.
Local Open Scope nat_scope.

(** A document whose gradients carry their values, as the pass that applies transforms asks for. *)
Record carried_state (t : tree) : Prop := {
  cs_fine : fine t;
  cs_complete : complete_gradients t;
  cs_resolved : resolved t;
  cs_hrefs : gradient_hrefs t;
  cs_radii : written_radii t
}.
Lemma positions_galike d d' : galike d d' -> positions d' = positions d /\ sizes d' = sizes d /\ gradient_attrs d' = gradient_attrs d.
Proof. intros (_ & T & _). unfold positions, sizes, gradient_attrs. now rewrite T. Qed.
Lemma position_geo d ax ay : gradient_node d -> In (ax, ay) (positions d) -> In ax (gradient_attrs d) /\ In ay (gradient_attrs d).
Proof. unfold positions, gradient_attrs. intros [T|T]; rewrite T; cbn; intros H; repeat (destruct H as [H|H]; [injection H as <- <-; tauto|]); contradiction. Qed.
Lemma size_geo d a : gradient_node d -> In a (sizes d) -> In a (gradient_attrs d).
Proof. unfold sizes, gradient_attrs. intros [T|T]; rewrite T; cbn; tauto. Qed.
Lemma transform_geo d : gradient_node d -> In AGradientTransform (gradient_attrs d).
Proof. unfold gradient_attrs. intros [T|T]; rewrite T; cbn; tauto. Qed.
Lemma state_tracked t t' : fine t' -> tracked t t' -> carried_state t -> carried_state t'.
Proof.
  intros F' T [F C R H Wr]. pose proof (wf_keys t (fine_wf t F)) as N. assert (B : forall d', In d' (flat t') -> gradient_node d' -> exists d, In d (flat t) /\ galike d d' /\ gradient_node d).
  { intros d' Hd' G. destruct (proj2 T d' Hd' G) as (d & Hd & L). exists d. split; [exact Hd|]. split; [apply galike_sym, L|exact (galike_node _ _ L G)]. }
  assert (nd : forall d, In d (flat t) -> attrs_nodup d) by (intros d; exact (proj1 (Forall_forall _ _) (fine_wfa t F) d)).
  assert (nd' : forall d, In d (flat t') -> attrs_nodup d) by (intros d; exact (proj1 (Forall_forall _ _) (fine_wfa t' F') d)).
  split; [exact F'|..].
  - intros d' Hd' G. destruct (B d' Hd' G) as (d & Hd & L & Gd). destruct (positions_galike _ _ L) as (P & S & Ga). destruct (C d Hd Gd) as (C1 & C2 & C3 & C4). rewrite P, S.
    split; [|split; [|split]].
    + intros ax ay Hp. destruct (position_geo d ax ay Gd Hp) as [I1 I2]. rewrite (galike_get _ _ ax L (geo_incl _ _ I1)), (galike_get _ _ ay L (geo_incl _ _ I2)). now apply C1.
    + intros a Ha. rewrite (galike_get _ _ a L (geo_incl _ _ (size_geo _ _ Gd Ha))). now apply C2.
    + intros v. rewrite (galike_get _ _ _ L (geo_incl _ _ (transform_geo _ Gd))). apply C3.
    + intros x Hx Nx. pose proof (get_attr_in _ x AXlinkHref (nd' d' Hd') Hx Nx) as E. rewrite (proj2 (proj2 L) AXlinkHref) in E by (cbn; tauto). apply get_attr_some in E. now apply (C4 x).
  - intros d' a Hd' G Ha. destruct (B d' Hd' G) as (d & Hd & L & Gd). destruct (positions_galike _ _ L) as (_ & _ & Ga). rewrite Ga in Ha. rewrite (galike_get _ _ a L (geo_incl _ _ Ha)).
    apply (effective_tracks (written t) (written t') a (vis d)); [now rewrite keys_written|apply (proj1 (tracked_written t t' F F' T))|apply hrefs_written; [apply F|exact H]|exact Ha|apply (R d a Hd Gd Ha)|rewrite flat_written; now apply in_map|exact Gd|apply vis_alike; auto].
  - intros d' v Hd' G E. destruct (B d' Hd' G) as (d & Hd & L & Gd). rewrite (galike_get _ _ AXlinkHref L) in E by (cbn; tauto). destruct (H d v Hd Gd E) as (k & x & -> & Hx & Kx & Gx). destruct (proj1 T x Hx Gx) as (x' & Hx' & Lx). exists k, x'. split; [reflexivity|]. split; [exact Hx'|]. split; [rewrite (proj1 Lx); exact Kx|exact (galike_node _ _ Lx Gx)].
  - intros d' Hd' Td'. destruct (B d' Hd' (or_intror Td')) as (d & Hd & L & Gd). assert (Td : tag d = TEl ERadialGradient) by (rewrite <- (proj1 (proj2 L)); exact Td'). unfold radius_written. rewrite (galike_get _ _ _ L (geo_incl _ _ (transform_geo _ Gd))).
    destruct (Wr d Hd Td) as [Q|[Q|Q]]; [now left|right; now left|right; right]. intros x Hx Nx. pose proof (get_attr_in _ x AR (nd' d' Hd') Hx Nx) as E. rewrite (proj2 (proj2 L) AR) in E by (cbn; tauto). apply get_attr_some in E. now apply (Q x).
Qed.
(** ** One application of transforms *)
Lemma state_applied t : carried_state t -> fine (tmap (grad_change t) t) -> carried_state (tmap (grad_change t) t).
Proof.
  intros [F C R H Wr] F'. set (t' := tmap (grad_change t) t) in *. pose proof (fine_wf t F) as W. pose proof (fine_wfa t F) as A. pose proof (wf_keys t W) as N.
  assert (nd : forall d, In d (flat t) -> attrs_nodup d) by (intros d; exact (proj1 (Forall_forall _ _) A d)).
  assert (B : forall d', In d' (flat t') -> exists d, In d (flat t) /\ d' = grad_change t d) by (intros d' Hd'; unfold t' in Hd'; rewrite flat_tmap in Hd'; apply in_map_iff in Hd'; destruct Hd' as (d & <- & Hd); eauto).
  assert (Tg : forall d, In d (flat t) -> tag (grad_change t d) = tag d) by (intros d Hd; apply (change_node t W A C d Hd)).
  assert (Kg : forall d, In d (flat t) -> key (grad_change t d) = key d) by (intros d Hd; apply (change_node t W A C d Hd)).
  assert (Gg : forall d, In d (flat t) -> gradient_node (grad_change t d) -> gradient_node d) by (intros d Hd; unfold gradient_node; rewrite (Tg d Hd); auto).
  assert (Hg : forall d, In d (flat t) -> gradient_node d -> get_attr (attrs (grad_change t d)) AXlinkHref = get_attr (attrs d) AXlinkHref).
  { intros d Hd G. destruct (change_cases t W A C d Hd) as (_ & Nd' & [(k & e & f & Ap & Ad & _)|[_ ->]]); [|reflexivity]. eapply (applied_get t); eauto. apply geometry_not; [exact G|cbn; tauto]. }
  split; [exact F'|..].
  - intros d' Hd' G. destruct (B d' Hd') as (d & Hd & ->). pose proof (Gg d Hd G) as Gd. destruct (C d Hd Gd) as (C1 & C2 & C3 & C4). destruct (change_cases t W A C d Hd) as (_ & Nd' & [(k & e & f & Ap & Ad & _)|[_ ->]]); [|auto].
    destruct Ap as (_ & _ & _ & _ & [P1 P2]). destruct Ad as (_ & Hn & [M1 M2] & _). unfold positions, sizes. rewrite (Tg d Hd). fold (positions d). fold (sizes d). split; [|split; [|split]].
    + intros ax ay Hp. destruct (P1 ax ay Hp) as [(x & Ex) (y & Ey)]. destruct (M1 ax ay x y Hp Ex Ey) as [E1 E2]. unfold plain in *. eauto.
    + intros a Ha. destruct (P2 a Ha) as (x & Ex). specialize (M2 a x Ha Ex). unfold plain in *. eauto.
    + intros v E. rewrite d_has_get, E in Hn. discriminate.
    + intros x Hx Nx. pose proof (get_attr_in _ x AXlinkHref Nd' Hx Nx) as E. rewrite (Hg d Hd Gd) in E. apply get_attr_some in E. now apply (C4 x).
  - intros d' a Hd' G Ha. destruct (B d' Hd') as (d & Hd & ->). pose proof (Gg d Hd G) as Gd. assert (Ha' : In a (gradient_attrs d)) by (unfold gradient_attrs in *; rewrite (Tg d Hd) in Ha; exact Ha). destruct (change_cases t W A C d Hd) as (_ & Nd' & [(k & e & f & Ap & Ad & Eq)|[_ E]]).
    + pose proof (changed_paint t W A C R H d k e f Hd Ap Ad Eq (Wr d Hd)) as M. fold t' in M. destruct M as (k' & e' & f' & _ & Mt & M0 & M1 & M2 & M3).
      assert (NW0 : NoDup (keys (written t))) by now rewrite keys_written. pose proof (Props_coords.effective_fun _ _ _ _ _ NW0 (R d _ Hd Gd (transform_geo d Gd)) Mt) as Q0.
      pose proof Ap as (_ & (_ & U0) & _). rewrite U0 in Q0. assert (k' = k /\ e' = e /\ f' = f) as (-> & -> & ->) by (split; [|split]; congruence).
      destruct Ap as (_ & _ & _ & _ & [P1 P2]). pose proof Ad as Ad0. destruct Ad as (_ & Hn & [V1 V2] & Se).
      assert (Dec : a = AGradientTransform \/ In a [AGradientUnits; ASpreadMethod] \/ (exists ax ay, In (ax, ay) (positions d) /\ (a = ax \/ a = ay)) \/ In a (sizes d)).
      { clear - Ha' Gd. unfold gradient_attrs, positions, sizes in *. destruct Gd as [T|T]; rewrite T in *; cbn [In linear_attrs radial_attrs] in *.
        - repeat (destruct Ha' as [<-|Ha']; [first [now left|right; left; cbn; tauto|right; right; left; eexists _, _; split; [left; reflexivity|auto; fail]|right; right; left; eexists _, _; split; [right; left; reflexivity|auto; fail]]|]). destruct Ha'.
        - repeat (destruct Ha' as [<-|Ha']; [first [now left|right; left; cbn; tauto|right; right; left; eexists _, _; split; [left; reflexivity|auto; fail]|right; right; left; eexists _, _; split; [right; left; reflexivity|auto; fail]|right; right; right; cbn; tauto]|]). destruct Ha'. }
      destruct Dec as [->|[Ia|[(ax & ay & Hp & Ia)|Ia]]].
      * assert (E0 : d_get (grad_change t d) AGradientTransform = None) by (rewrite d_has_get in Hn; destruct (d_get _ _); [discriminate|reflexivity]). now rewrite E0.
      * assert (E0 : d_get (grad_change t d) a = d_get d a). { unfold d_get, get_value. rewrite (applied_get t d k e f a (nd d Hd) Nd' Ad0); [reflexivity|apply geometry_not; [exact Gd|cbn in Ia |- *; tauto]]. }
        rewrite E0. apply M3; [exact Ia|]. exact (R d a Hd Gd Ha').
      * destruct (P1 ax ay Hp) as [(x & Ex) (y & Ey)]. destruct (V1 ax ay x y Hp Ex Ey) as [E1 E2]. destruct (M1 ax ay Hp) as (x' & y' & X1 & Y1 & X2 & Y2). pose proof (position_geo d ax ay Gd Hp) as [I1 I2].
        assert (NW : NoDup (keys (written t))) by now rewrite keys_written.
        pose proof (Props_coords.effective_fun _ _ _ _ _ NW (R d ax Hd Gd I1) X1) as Q1. pose proof (Props_coords.effective_fun _ _ _ _ _ NW (R d ay Hd Gd I2) Y1) as Q2. unfold plain in *.
        assert (x' = x) by congruence. assert (y' = y) by congruence. subst x' y'. destruct Ia as [-> | ->]; [rewrite E1; exact X2|rewrite E2; exact Y2].
      * destruct (P2 a Ia) as (x & Ex). pose proof (V2 a x Ia Ex) as E1. destruct (M2 a Ia) as (x' & X1 & X2).
        assert (NW : NoDup (keys (written t))) by now rewrite keys_written.
        pose proof (Props_coords.effective_fun _ _ _ _ _ NW (R d a Hd Gd Ha') X1) as Q1. unfold plain in *. assert (x' = x) by congruence. subst x'. rewrite E1. exact X2.
    + rewrite E. exact (effective_unchanged t W A C H a _ d Hd Gd E (R d a Hd Gd Ha')).
  - intros d' v Hd' G E. destruct (B d' Hd') as (d & Hd & ->). pose proof (Gg d Hd G) as Gd. rewrite (get_href _ _ (Hg d Hd Gd)) in E. destruct (H d v Hd Gd E) as (k & x & -> & Hx & Kx & Gx). exists k, (grad_change t x). split; [reflexivity|]. split; [unfold t'; rewrite flat_tmap; now apply in_map|]. split; [rewrite (Kg x Hx); exact Kx|]. unfold gradient_node. rewrite (Tg x Hx). exact Gx.
  - intros d' Hd' Td'. destruct (B d' Hd') as (d & Hd & ->). destruct (change_cases t W A C d Hd) as (_ & _ & [(k & e & f & _ & (_ & Hn & _) & _)|[_ E]]); [left; rewrite d_has_get in Hn; destruct (d_get _ _); [discriminate|reflexivity]|]. rewrite E in *. exact (Wr d Hd Td').
Qed.
(** ** Composition *)
Definition forwards (t t' : tree) : Prop := forall d, In d (flat t) -> gradient_node d ->
  exists d', In d' (flat t') /\ key d' = key d /\ tag d' = tag d /\ same_gradient (written t) (vis d) (written t') (vis d').
Lemma same_attrs d d' : tag d' = tag d -> positions d' = positions d /\ sizes d' = sizes d /\ gradient_attrs d' = gradient_attrs d.
Proof. intros T. unfold positions, sizes, gradient_attrs. now rewrite T. Qed.
Lemma forwards_trans a b c : carried_state a -> NoDup (keys b) -> forwards a b -> forwards b c -> forwards a c.
Proof.
  intros Sa Nb H1 H2 d Hd G. destruct (H1 d Hd G) as (d1 & Hd1 & K1 & T1 & S1). assert (G1 : gradient_node d1) by (unfold gradient_node; rewrite T1; exact G). destruct (H2 d1 Hd1 G1) as (d2 & Hd2 & K2 & T2 & S2).
  exists d2. split; [exact Hd2|]. split; [congruence|]. split; [congruence|]. assert (NW : NoDup (keys (written b))) by now rewrite keys_written.
  destruct (same_attrs (vis d) (vis d1) T1) as (P & Z & Q). assert (Ga : gradient_attrs (vis d) = gradient_attrs d) by reflexivity.
  assert (IP : forall ax ay, In (ax, ay) (positions (vis d)) -> In ax (gradient_attrs (vis d)) /\ In ay (gradient_attrs (vis d))) by (intros ax ay; exact (position_geo d ax ay G)).
  assert (IZ : forall x, In x (sizes (vis d)) -> In x (gradient_attrs (vis d))) by (intros x; exact (size_geo d x G)).
  assert (IT : In AGradientTransform (gradient_attrs (vis d))) by exact (transform_geo d G).
  assert (IU : forall x, In x [AGradientUnits; ASpreadMethod] -> In x (gradient_attrs (vis d))).
  { unfold gradient_attrs. intros x. destruct G as [T|T]; change (tag (vis d)) with (tag d); rewrite T; cbn; tauto. }
  destruct S1 as [S1|(k & e & f & Kp & Mt & M0 & M1 & M2 & M3)], S2 as [S2|(k' & e' & f' & Kp' & Mt' & M0' & M1' & M2' & M3')].
  - left. intros x v Hx E. apply S2; [rewrite Q; exact Hx|]. now apply S1.
  - right. assert (Back : forall x v, In x (gradient_attrs (vis d)) -> effective (written b) (vis d1) x v -> effective (written a) (vis d) x v).
    { intros x v Hx E. pose proof (cs_resolved a Sa d x Hd G Hx) as E0. pose proof (Props_coords.effective_fun _ _ _ _ _ NW (S1 x _ Hx E0) E) as <-. exact E0. }
    exists k', e', f'. split; [exact Kp'|]. split; [now apply Back|]. split; [exact M0'|]. rewrite P in M1'. rewrite Z in M2'. split; [|split].
    + intros ax ay Hp. destruct (IP ax ay Hp) as [I1 I2]. destruct (M1' ax ay Hp) as (x & y & X1 & Y1 & X2 & Y2). exists x, y. auto.
    + intros x Hx. destruct (M2' x Hx) as (r & R1 & R2). exists r. auto.
    + intros x v Hx E. apply M3'; auto.
  - right. exists k, e, f. split; [exact Kp|]. split; [exact Mt|]. unfold same_values in S2. rewrite Q in S2. split; [now apply S2|]. split; [|split].
    + intros ax ay Hp. destruct (IP ax ay Hp) as [I1 I2]. destruct (M1 ax ay Hp) as (x & y & X1 & Y1 & X2 & Y2). exists x, y. auto 6.
    + intros x Hx. destruct (M2 x Hx) as (r & R1 & R2). exists r. auto.
    + intros x v Hx E. apply S2; auto.
  - pose proof (Props_coords.effective_fun _ _ _ _ _ NW M0 Mt') as X. discriminate X.
Qed.
Lemma tracks_forwards t t' : fine t -> fine t' -> gradient_hrefs t -> tracks t t' -> forwards t t'.
Proof.
  intros F F' H T d Hd G. destruct (T d Hd G) as (d' & Hd' & L). exists d'. split; [exact Hd'|]. split; [apply L|]. split; [apply L|]. left. intros a v Ha E.
  apply (effective_tracks (written t) (written t') a (vis d) v); auto; [rewrite keys_written; apply wf_keys, F|apply tracks_written; [apply F|apply F'|exact T]|apply hrefs_written; [apply F|exact H]|rewrite flat_written; now apply in_map|].
  apply vis_alike; [exact (proj1 (Forall_forall _ _) (fine_wfa t F) d Hd)|exact (proj1 (Forall_forall _ _) (fine_wfa t' F') d' Hd')|exact L].
Qed.
Lemma applied_forwards t t' : carried_state t -> fine t' -> apply_transform_to_gradients t = Ok t' -> carried_state t' /\ forwards t t'.
Proof.
  intros S F' E. pose proof S as [F C R H Wr]. pose proof (gradients_pass t (fine_wf t F) (fine_wfa t F) C) as E'. rewrite E in E'. injection E' as ->. split; [now apply state_applied|].
  destruct (C24_same_gradient_partial t (fine_wf t F) (fine_wfa t F) C R H Wr) as (t' & E' & M). rewrite E in E'. injection E' as <-.
  intros d Hd G. rewrite flat_tmap. exists (grad_change t d). split; [now apply in_map|]. destruct (change_node t (fine_wf t F) (fine_wfa t F) C d Hd) as (K & T & _). split; [exact K|]. split; [exact T|].
  rewrite flat_tmap in M. clear - M Hd G. set (t'' := tmap _ _) in *. clearbody t''. revert Hd M. generalize (flat t). induction l as [|x l IH]; cbn [map]; intros Hd M; [contradiction|]. inversion M; subst. destruct Hd as [<-|Hd]; auto.
Qed.
(** The passes on servers. *)
Lemma servers_forwards x o : (forall p, In p work -> enabled o p = true -> In p quiet) -> forall t t', readyS t -> gradients_seen t -> carried_state t ->
  runs x o (filter (enabled o) server_passes) t (Some (Ok t')) -> carried_state t' /\ forwards t t'.
Proof.
  intros Q t t' A Sn S R. pose (I := fun u => readyS u /\ gradients_seen u). 
  assert (K : forall l u u', (forall p, In p l -> In p server_passes) -> I u -> carried_state u -> runs x o (filter (enabled o) l) u (Some (Ok u')) -> carried_state u' /\ forwards u u').
  { induction l as [|p l IH]; intros u u' Hl Iu Su Ru.
    - cbn [filter] in Ru. inversion Ru; subst. split; [exact Su|]. apply tracks_forwards; [apply Su|apply Su|apply Su|apply tracks_refl].
    - cbn [filter] in Ru. destruct (enabled o p) eqn:En; [|apply IH; auto; intros q Hq; apply Hl; now right]. inversion Ru as [|? ? ? u1 ? E R1| | |]; subst.
      assert (Hp : In p server_passes) by (apply Hl; now left). assert (Hq : In p quiet) by (apply Q; auto; unfold work; rewrite !in_app_iff; tauto).
      destruct (quiet_servers x o u u1 p Hp Hq Iu E) as (A1 & B1 & C). assert (F1 : fine u1) by (apply gready_fine, A1).
      assert (St : carried_state u1 /\ forwards u u1).
      { destruct C as [[_ ->]|[_ E1]].
        - destruct Iu as [Iu Sq]. pose proof (stops_pass_tracks u (wf_keys u (SpecUngroup.g_wf u (rS_g u Iu))) (rS_servers u Iu) Sq) as T. split; [exact (state_tracked u _ F1 T Su)|]. apply tracks_forwards; [apply Su|exact F1|apply Su|apply T].
        - exact (applied_forwards u u1 Su F1 E1). }
      destruct St as [S1 W1]. destruct (IH u1 u' (fun q Hq0 => Hl q (or_intror Hq0)) (conj A1 B1) S1 R1) as [S2 W2]. split; [exact S2|]. apply (forwards_trans u u1 u'); auto. apply wf_keys, F1. }
  exact (K server_passes t t' (fun p H => H) (conj A Sn) S R).
Qed.
(** ** The state after the attributes of gradients are resolved *)
Lemma along_origin t a d r : gradient_hrefs t -> along_href t a d r -> In d (flat t) -> gradient_node d -> NoDup (keys t) ->
  r = None \/ exists x, In x (flat t) /\ gradient_node x /\ d_get x a = r.
Proof.
  intros H A Hd G N. induction A as [d v E|d E1 E2|d k x r E1 E2 Hx Kx A IH]; [right; eauto|now left|].
  destruct (H d _ Hd G E2) as (k' & y & Ek & Hy & Ky & Gy). injection Ek as <-. assert (x = y) by (apply (data_unique t); auto; congruence). subst y. auto.
Qed.
Lemma effective_origin t a d v : gradient_hrefs t -> NoDup (keys t) -> effective t d a v -> In d (flat t) -> gradient_node d ->
  exists a', (a' = a \/ (a = AFx /\ a' = ACx) \/ (a = AFy /\ a' = ACy)) /\ ((exists x, In x (flat t) /\ gradient_node x /\ d_get x a' = v /\ v <> None) \/ (v = gradient_default a' /\ ~ In a' [AFx; AFy])).
Proof.
  intros H N E Hd G. induction E as [a v A|a A Nf|a v Ea A E IH|a v Ea A E IH].
  - exists a. split; [now left|]. left. destruct (along_origin t a d _ H A Hd G N) as [X|(x & Hx & Gx & X)]; [discriminate|]. exists x. repeat (split; [assumption|]). discriminate.
  - exists a. split; [now left|]. right. auto.
  - destruct (IH) as (a' & C & X). exists a'. split; [|exact X]. destruct C as [->|[[C _]|[C _]]]; [|discriminate C|discriminate C]. right. left. auto.
  - destruct (IH) as (a' & C & X). exists a'. split; [|exact X]. destruct C as [->|[[C _]|[C _]]]; [|discriminate C|discriminate C]. right. right. auto.
Qed.
Lemma along_some t a d r : along_href t a d r -> forall v, r = Some v -> exists x, In x (d :: flat t) /\ d_get x a = Some v.
Proof. intros A. induction A as [d v E|d E1 E2|d k x r E1 E2 Hx Kx A IH]; intros w Q; [injection Q as <-; exists d; cbn; auto|discriminate|]. destruct (IH w Q) as (y & [<-|Hy] & E); eexists; (split; [|exact E]); cbn; auto. Qed.
Section State.
  Variables t u1 u2 : tree.
  Hypothesis F0 : fine t.
  Hypothesis F1 : fine u1.
  Hypothesis F2 : fine u2.
  Hypothesis Sv : solvable t.
  Hypothesis Pg : plain_gradients t.
  Hypothesis P1 : Gradients.resolve_linear_gradient_attributes t = Some (Ok u1).
  Hypothesis P2 : Gradients.resolve_radial_gradient_attributes u1 = Some (Ok u2).
  Let N0 := wf_keys t (fine_wf t F0).
  Let N1 := wf_keys u1 (fine_wf u1 F1).
  Let nd0 d : In d (flat t) -> attrs_nodup d := proj1 (Forall_forall _ _) (fine_wfa t F0) d.
  Let nd2 d : In d (flat u2) -> attrs_nodup d := proj1 (Forall_forall _ _) (fine_wfa u2 F2) d.
  Lemma same_written : written u2 = written t.
  Proof. rewrite (radial_written u1 u2 N1 P2). exact (linear_written t u1 N0 P1). Qed.
  Let C := carried t u1 u2 F0 F1 F2 Sv Pg P1 P2.
  Lemma back_u2 d2 : In d2 (flat u2) -> gradient_node d2 -> exists d, In d (flat t) /\ gradient_node d /\ carries t d d2.
  Proof.
    intros Hd2 G. destruct (PicturePrep.f2_back _ _ _ d2 C Hd2) as (d & Hd & H). specialize (H (or_intror G)). exists d. split; [exact Hd|]. split; [|exact H]. unfold gradient_node in *. rewrite <- (proj1 (proj2 H)). exact G.
  Qed.
  Lemma all_vis d : In d (flat t) -> gradient_node d -> vis d = d.
  Proof.
    intros Hd G. unfold vis. destruct d as [k tg i l]. unfold with_attrs. cbn [key tag nid attrs]. f_equal.
    assert (A : forall y, In y l -> a_vis y = true) by (intros y Hy; exact (pg_visible t Pg (ND k tg i l) y Hd G Hy)). clear - A. induction l as [|x l IH]; [reflexivity|]. cbn [filter]. rewrite (A x (or_introl eq_refl)), IH; [reflexivity|]. intros y Hy. apply A. now right.
  Qed.
  Lemma vis_u2 d d2 : In d (flat t) -> gradient_node d -> In d2 (flat u2) -> key d2 = key d -> vis d2 = d.
  Proof.
    intros Hd G Hd2 K. assert (I : In (vis d2) (flat (written t))) by (rewrite <- same_written, flat_written; now apply in_map). rewrite flat_written in I. apply in_map_iff in I. destruct I as (x & E & Hx).
    assert (x = d) by (apply (data_unique t); auto; rewrite <- K; change (key x) with (key (vis x)); rewrite E; reflexivity). subst x. rewrite <- E. now apply all_vis.
  Qed.
  Lemma to_written d a v : In d (flat t) -> gradient_node d -> In a (gradient_attrs d) -> effective t d a v -> effective (written t) d a v.
  Proof.
    intros Hd G Ha E. apply (effective_tracks t (written t) a d v); auto using galike_refl; [|apply Pg]. intros x Hx Gx. exists x. split; [|apply galike_refl]. rewrite flat_written. rewrite <- (all_vis x Hx Gx) at 1. now apply in_map.
  Qed.
  Lemma eff_length d a v : In d (flat t) -> gradient_node d -> In a [AX1; AY1; AX2; AY2; ACx; ACy; AR; AFx; AFy] -> effective t d a v -> exists l, v = Some (VLen l).
  Proof.
    intros Hd G Ha E. destruct (effective_origin t a d v (pg_hrefs t Pg) N0 E Hd G) as (a' & R & Q). assert (Ha' : In a' [AX1; AY1; AX2; AY2; ACx; ACy; AR; AFx; AFy]) by (destruct R as [->|[[_ ->]|[_ ->]]]; [exact Ha|cbn; tauto|cbn; tauto]).
    destruct Q as [(x & Hx & Gx & E' & Nn)|[-> Nf]].
    - destruct v as [v|]; [|now destruct Nn]. destruct (pg_lengths t Pg x a' v Hx Gx Ha' E') as (l & ->). eauto.
    - clear - Ha' Nf. cbn in Ha', Nf. repeat (destruct Ha' as [<-|Ha']; [first [eexists; reflexivity|exfalso; apply Nf; tauto]|]). destruct Ha'.
  Qed.
  Lemma state_u2 : carried_state u2.
  Proof.
    assert (Ga : forall d d2, carries t d d2 -> positions d2 = positions d /\ sizes d2 = sizes d /\ gradient_attrs d2 = gradient_attrs d) by (intros d d2 H; apply same_attrs, H).
    split; [exact F2|..].
    - intros d2 Hd2 G. destruct (back_u2 d2 Hd2 G) as (d & Hd & Gd & H). destruct (Ga d d2 H) as (P & S & _). rewrite P, S.
      assert (L : forall a, In a (gradient_attrs d) -> In a [AX1; AY1; AX2; AY2; ACx; ACy; AR; AFx; AFy] -> exists l, d_get d2 a = Some (VLen l)) by (intros a I1 I2; apply (eff_length d a); auto; now apply carries_eff).
      split; [|split; [|split]].
      + intros ax ay Hp. destruct (position_geo d ax ay Gd Hp) as [I1 I2]. split; apply L; auto; clear - Hp Gd; unfold positions in Hp; destruct Gd as [T|T]; rewrite T in Hp; cbn in Hp; repeat (destruct Hp as [Hp|Hp]; [injection Hp as <- <-; cbn; tauto|]); contradiction.
      + intros a Ha. apply L; [exact (size_geo d a Gd Ha)|]. clear - Ha Gd. unfold sizes in Ha. destruct Gd as [T|T]; rewrite T in Ha; cbn in Ha |- *; tauto.
      + intros v E. pose proof (carries_eff t d d2 AGradientTransform H (transform_geo d Gd)) as Ef. rewrite E in Ef. destruct (effective_origin t _ d _ (pg_hrefs t Pg) N0 Ef Hd Gd) as (a' & R & Q). assert (a' = AGradientTransform) by (destruct R as [R|[[R _]|[R _]]]; [exact R|discriminate R|discriminate R]). subst a'.
        destruct Q as [(x & Hx & Gx & E' & _)|[Q _]]; [|discriminate Q]. unfold d_get, get_value in E'. destruct (get_attr (attrs x) AGradientTransform) as [y|] eqn:Ey; [|discriminate]. injection E' as <-. apply get_attr_some in Ey. exact (sv_transforms t Sv x y Hx (proj1 Ey) (proj2 Ey)).
      + intros x Hx Nx. pose proof (get_attr_in _ x AXlinkHref (nd2 d2 Hd2) Hx Nx) as E. rewrite (carries_href t d d2 H) in E. apply get_attr_some in E. exact (pg_visible t Pg d x Hd Gd (proj1 E)).
    - intros d2 a Hd2 G Ha. destruct (back_u2 d2 Hd2 G) as (d & Hd & Gd & H). destruct (Ga d d2 H) as (_ & _ & Q). rewrite Q in Ha. rewrite same_written, (vis_u2 d d2 Hd Gd Hd2 (proj1 H)). apply to_written; auto. now apply carries_eff.
    - intros d2 v Hd2 G E. destruct (back_u2 d2 Hd2 G) as (d & Hd & Gd & H). rewrite (get_href _ _ (carries_href t d d2 H)) in E. destruct (pg_hrefs t Pg d v Hd Gd E) as (k & x & -> & Hx & Kx & Gx). destruct (f2_both_l _ _ _ x C Hx) as (x2 & Hx2 & L). specialize (L (or_introl Gx)). exists k, x2. split; [reflexivity|]. split; [exact Hx2|]. split; [rewrite (proj1 L); exact Kx|]. unfold gradient_node. rewrite (proj1 (proj2 L)). exact Gx.
    - intros d2 Hd2 Td2. destruct (back_u2 d2 Hd2 (or_intror Td2)) as (d & Hd & Gd & H). assert (Td : tag d = TEl ERadialGradient) by (rewrite <- (proj1 (proj2 H)); exact Td2). destruct (pg_radii t Pg d Hd Td) as [R|R].
      + right. right. intros x Hx Nx. pose proof (get_attr_in _ x AR (nd2 d2 Hd2) Hx Nx) as E.  destruct (get_attr (attrs d) AR) as [y|] eqn:Ey.
        * rewrite (proj1 (proj2 (proj2 H)) AR y Ey) in E. injection E as <-. apply get_attr_some in Ey. exact (pg_visible t Pg d y Hd Gd (proj1 Ey)).
        * exfalso. rewrite d_has_get in R. unfold d_get, get_value in R. rewrite Ey in R. discriminate.
      + destruct (R _ (carries_eff t d d2 AGradientTransform H (transform_geo d Gd))) as [Q|Q]; [now left|right; now left].
  Qed.
  (** Its values are short, if those of the document are. *)
  Lemma state_short (P : Qc -> Prop) : (forall d a y n, In d (flat t) -> get_attr (attrs d) a = Some y -> In n (nums (a_val y)) -> P n) -> (forall z, P (zq z)) ->
    forall d2 a y n, In d2 (flat u2) -> gradient_node d2 -> In a geo_attrs -> get_attr (attrs d2) a = Some y -> In n (nums (a_val y)) -> P n.
  Proof.
    intros S Z d2 a y n Hd2 G Ha Ey Hn. destruct (back_u2 d2 Hd2 G) as (d & Hd & Gd & H). pose proof H as (_ & _ & H1 & H2 & H3). destruct (get_attr (attrs d) a) as [x|] eqn:Ex.
    - rewrite (H1 a x Ex) in Ey. injection Ey as <-. exact (S d a x n Hd Ex Hn).
    - destruct (in_dec (fun a b => match aid_eqb_spec a b with ReflectT _ e => left e | ReflectF _ n => right n end) a (gradient_attrs d)) as [I|I]; [|rewrite (H2 a Ha I), Ex in Ey; discriminate].
      destruct (H3 a I Ex) as (v & Ev & Q). rewrite Ey in Q. destruct v as [v|]; [|discriminate]. injection Q as ->. cbn [a_val] in Hn. destruct (effective_origin t a d _ (pg_hrefs t Pg) N0 Ev Hd Gd) as (a' & _ & [(z & Hz & Gz & E' & _)|[E' _]]).
      + unfold d_get, get_value in E'. destruct (get_attr (attrs z) a') as [w|] eqn:Ew; [|discriminate]. injection E' as <-. exact (S z a' w n Hz Ew Hn).
      + destruct a'; cbn in E'; try discriminate E'; injection E' as ->; cbn in Hn; repeat (destruct Hn as [<-|Hn]; [apply Z|]); try contradiction.
  Qed.
End State.
(** ** The whole preparation, and the removal of remarks *)
Lemma prep_state x o t t1 : (forall p, In p (PicturePrep.digits (Clean.round_opts o)) -> 1 <= p <= 12) -> prepared (PicturePrep.digits (Clean.round_opts o)) t ->
  solvable t -> plain_gradients t -> fine t1 -> runs x o preparation t (Some (Ok t1)) ->
  exists u2, written u2 = written t /\ carried_state u2 /\ carried_state t1 /\ forwards u2 t1.
Proof.
  intros U D Sv Pg Ft1 R. destruct (prep_split x o t t1 U D R) as (u1 & u2 & u5 & P1 & P2 & F & F1 & F2 & F5 & T & E). exists u2. split; [exact (same_written t u1 u2 F F1 P1 P2)|].
  pose proof (state_u2 t u1 u2 F F1 F2 Sv Pg P1 P2) as S2. split; [exact S2|]. assert (T' : tracked u2 t1).
  { apply (tracked_trans _ u5); [exact T|]. rewrite E. apply round_tracks. intros d a y Hd G Ha Q. destruct (proj2 T d Hd G) as (d2 & Hd2 & L). rewrite <- (proj2 (proj2 L) a Ha) in Q.
    apply (PicturePrep.round_value_short (Clean.round_opts o) U). intros n p Hn Hp. refine (state_short t u1 u2 F F1 F2 Sv Pg P1 P2 (short p) _ (short_int p) d2 a y n Hd2 (galike_node _ _ L G) Ha Q Hn).
    intros d0 a0 y0 n0 Hd0 Ey0 Hn0. exact (get_value_short _ _ _ _ _ D Hd0 Ey0 n0 p Hn0 Hp). }
  split; [exact (state_tracked u2 t1 Ft1 T' S2)|]. apply tracks_forwards; [exact F2|exact Ft1|apply S2|apply T'].
Qed.
Lemma first_tracked x o t t' : ready1 t -> gradients_seen t -> runs x o (filter (enabled o) first_passes) t (Some (Ok t')) -> tracked t t'.
Proof.
  intros A Sn R. destruct (kept_phase x o (fun u => ready1 u /\ gradients_seen u) tracked tracked_refl tracked_trans first_passes) with (t := t) (t' := t') as [_ S]; [|split; assumption|exact R|exact S].
  intros p u u' Hp _ [Iu Su] E. assert (exists e, In e [ETitle; EDesc; EMetadata] /\ u' = TasksSimple.remove_element e u) as (e & He & ->).
  { destruct Hp as [<-|[<-|[<-|[]]]]; cbn [perform] in E; injection E as <-; eexists; (split; [|reflexivity]); cbn; auto. }
  pose proof (remark_step no_unit e u He Iu) as [B _]. pose proof (wf_keys u (SpecUngroup.g_wf u (r1_g u Iu))) as N. split; [split; [exact B|]|].
  - rewrite (PictureRemarks.remove_remark e u He N (r1_remarks u Iu)). now apply seen_pruned.
  - rewrite (PictureRemarks.remove_remark e u He N (r1_remarks u Iu)). apply pruned_tracks. intros a Ha Pa d Hd. apply (Su a d Ha); [left|exact Hd]. unfold remark. cbn in He. destruct He as [<-|[<-|[<-|[]]]]; rewrite Pa, ?orb_true_r; reflexivity.
Qed.
