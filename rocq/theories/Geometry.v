(** Lemmas: the attributes of gradients over a whole run. *)
From Coq Require Import List Bool NArith Arith ZArith String QArith Qcanon Lia.
From Verif Require Import Names Num Value Dom DomFacts DomOps Outcome DomRemove Stops SpecStops StopsProofs Props_stops AttrFacts SpecDom SpecGradients SpecWritten SpecPaint SpecPrepared SpecShading Shading SpecGeometry PictureShades RampsRun RampsPrep Gradients Transforms VLoop GradTransProofs.
From Verif Require PicturePrep PictureServers Round Push MergeProofs.
Import ListNotations.
Local Open Scope nat_scope.

Definition geo_attrs : list aid := [AGradientUnits; ASpreadMethod; AX1; AY1; AX2; AY2; ACx; ACy; AR; AFx; AFy; AGradientTransform; AXlinkHref].
Definition galike (d d' : ndata) : Prop := key d' = key d /\ tag d' = tag d /\ forall a, In a geo_attrs -> get_attr (attrs d') a = get_attr (attrs d) a.
Definition tracks (t t' : tree) : Prop := forall d, In d (flat t) -> gradient_node d -> exists d', In d' (flat t') /\ galike d d'.
Lemma galike_refl d : galike d d. Proof. repeat split. Qed.
Lemma galike_trans a b c : galike a b -> galike b c -> galike a c.
Proof. intros (A1 & A2 & A3) (B1 & B2 & B3). split; [congruence|split; [congruence|]]. intros x Hx. now rewrite (B3 x Hx), (A3 x Hx). Qed.
Lemma galike_sym a b : galike a b -> galike b a.
Proof. intros (A1 & A2 & A3). split; [congruence|split; [congruence|]]. intros x Hx. now rewrite (A3 x Hx). Qed.
Lemma galike_get d d' a : galike d d' -> In a geo_attrs -> d_get d' a = d_get d a.
Proof. intros (_ & _ & H) Ha. unfold d_get, get_value. now rewrite (H a Ha). Qed.
Lemma galike_node d d' : galike d d' -> gradient_node d -> gradient_node d'.
Proof. intros (_ & E & _). unfold gradient_node. now rewrite E. Qed.
Lemma tracks_refl t : tracks t t. Proof. intros d Hd _. exists d. split; [exact Hd|apply galike_refl]. Qed.
Lemma tracks_trans a b c : tracks a b -> tracks b c -> tracks a c.
Proof. intros H1 H2 d Hd G. destruct (H1 d Hd G) as (d1 & Hd1 & A). destruct (H2 d1 Hd1 (galike_node _ _ A G)) as (d2 & Hd2 & B). exists d2. split; [exact Hd2|exact (galike_trans _ _ _ A B)]. Qed.
(** ** Values in effect *)
Lemma geo_incl d a : In a (gradient_attrs d) -> In a geo_attrs.
Proof. unfold gradient_attrs, geo_attrs. destruct (tag d) as [|e| | | |]; try (intros H; destruct H; fail). destruct e; intros H; cbn in H; try (destruct H; fail); cbn [In]; tauto. Qed.
Lemma along_tracks t t' a d r : NoDup (keys t) -> tracks t t' -> gradient_hrefs t -> In a geo_attrs -> along_href t a d r -> In d (flat t) -> gradient_node d ->
  forall d', galike d d' -> along_href t' a d' r.
Proof.
  intros N T H Ha A. induction A as [d v E|d E1 E2|d k x r E1 E2 Hx Kx A IH]; intros Hd G d' L.
  - apply ah_own. now rewrite (galike_get _ _ _ L Ha).
  - apply ah_end; rewrite (galike_get _ _ _ L); auto. cbn. tauto.
  - destruct (H d (VLink k) Hd G E2) as (k' & y & Ek & Hy & Ky & Gy). injection Ek as <-.
    destruct (T x Hx) as (x' & Hx' & Lx).
    { assert (x = y) by (apply (data_unique t); auto; congruence). now subst y. }
    apply (ah_next t' a d' k x'); [now rewrite (galike_get _ _ _ L Ha)|rewrite (galike_get _ _ _ L); [exact E2|cbn; tauto]|exact Hx'|rewrite (proj1 Lx); exact Kx|].
    apply IH; auto. assert (x = y) by (apply (data_unique t); auto; congruence). now subst y.
Qed.
Lemma effective_tracks t t' a d v : NoDup (keys t) -> tracks t t' -> gradient_hrefs t -> In a (gradient_attrs d) -> effective t d a v -> In d (flat t) -> gradient_node d ->
  forall d', galike d d' -> effective t' d' a v.
Proof.
  intros N T H Ha0 E Hd G. pose proof (geo_incl d a Ha0) as Ha. clear Ha0. revert Hd G Ha. induction E as [a v A|a A Nf|a v Ea A E IH|a v Ea A E IH]; intros Hd G Ha d1 L.
  - apply eff_found. exact (along_tracks t t' a d _ N T H Ha A Hd G d1 L).
  - apply eff_default; [exact (along_tracks t t' a d _ N T H Ha A Hd G d1 L)|exact Nf].
  - apply eff_fx; [exact Ea|exact (along_tracks t t' a d _ N T H Ha A Hd G d1 L)|]. apply IH; auto. cbn. tauto.
  - apply eff_fy; [exact Ea|exact (along_tracks t t' a d _ N T H Ha A Hd G d1 L)|]. apply IH; auto. cbn. tauto.
Qed.
(** ** What is written *)
Lemma flat_written t : flat (written t) = map vis (flat t). Proof. apply flat_tmap. Qed.
Lemma keys_written t : keys (written t) = keys t.
Proof. unfold keys. rewrite flat_written, map_map. reflexivity. Qed.
Lemma vis_alike d d' : attrs_nodup d -> attrs_nodup d' -> galike d d' -> galike (vis d) (vis d').
Proof. intros N N' (A1 & A2 & A3). split; [exact A1|split; [exact A2|]]. intros a Ha. rewrite !vis_get by assumption. now rewrite (A3 a Ha). Qed.
Lemma node_vis d : gradient_node (vis d) <-> gradient_node d. Proof. reflexivity. Qed.
Lemma tracks_written t t' : WFA t -> WFA t' -> tracks t t' -> tracks (written t) (written t').
Proof.
  intros A A' T d Hd G. rewrite flat_written in Hd. apply in_map_iff in Hd. destruct Hd as (c & <- & Hc). destruct (T c Hc G) as (c' & Hc' & L). exists (vis c'). split; [rewrite flat_written; now apply in_map|].
  apply vis_alike; [exact (proj1 (Forall_forall _ _) A c Hc)|exact (proj1 (Forall_forall _ _) A' c' Hc')|exact L].
Qed.
Lemma hrefs_written t : WFA t -> gradient_hrefs t -> gradient_hrefs (written t).
Proof.
  intros A H d v Hd G E. rewrite flat_written in Hd. apply in_map_iff in Hd. destruct Hd as (c & <- & Hc). rewrite vis_dget in E by exact (proj1 (Forall_forall _ _) A c Hc).
  assert (E' : d_get c AXlinkHref = Some v) by (unfold d_get, get_value; destruct (get_attr (attrs c) AXlinkHref) as [x|]; [destruct (a_vis x); [exact E|discriminate]|discriminate]).
  destruct (H c v Hc G E') as (k & x & -> & Hx & Kx & Gx). exists k, (vis x). split; [reflexivity|]. split; [rewrite flat_written; now apply in_map|]. split; [exact Kx|exact Gx].
Qed.
Lemma written_geometry t t' : WFA t -> NoDup (keys t) -> gradient_hrefs t -> tracks (written t) (written t') -> same_geometry t t'.
Proof.
  intros A N H T d Hd G. destruct (T (vis d)) as (e & He & L); [rewrite flat_written; now apply in_map|exact G|]. rewrite flat_written in He. apply in_map_iff in He. destruct He as (d' & <- & Hd'). exists d'. split; [exact Hd'|]. split; [exact (proj1 L)|]. split; [exact (proj1 (proj2 L))|].
  intros a v Ha E. apply (effective_tracks (written t) (written t') a (vis d) v); auto; [now rewrite keys_written|now apply hrefs_written|rewrite flat_written; now apply in_map].
Qed.
(** ** Gradients get hidden attributes only *)
Lemma hidden_vis d a v : d_has d a = false -> vis (d_set_hidden d a v) = vis d.
Proof.
  intros H. apply d_has_false in H. unfold vis, d_set_hidden. destruct d as [k tg i l]. unfold with_attrs. cbn [key tag nid attrs] in *. f_equal. unfold get_attr in H. induction l as [|x l IH]; [reflexivity|]. cbn [find] in H. cbn [set_hidden]. destruct (has_name (AN a) x); [discriminate|]. cbn [filter]. now rewrite IH.
Qed.
Lemma check_vis u a o d d' : check_attr u a o d = Ok d' -> vis d' = vis d.
Proof.
  unfold check_attr. destruct (d_has d a) eqn:H; [intros E; now injection E as <-|]. destruct (lookup _ u a d); [| |discriminate].
  - intros E. injection E as <-. now apply hidden_vis.
  - destruct o; intros E; injection E as <-; [now apply hidden_vis|reflexivity].
Qed.
Ltac chk H := match type of H with
  | bind (check_attr _ _ _ _) _ = Ok _ => let e := fresh "e" in let E := fresh "E" in apply bind_ok in H; destruct H as (e & E & H); apply check_vis in E; cbv beta zeta in H; chk H
  | check_attr _ _ _ _ = Ok _ => apply check_vis in H
  end.
Lemma linear_vis u d d' : resolve_linear_node u d = Ok d' -> vis d' = vis d.
Proof. unfold resolve_linear_node. intros H. chk H. congruence. Qed.
Lemma radial_vis u d d' : resolve_radial_node u d = Ok d' -> vis d' = vis d.
Proof. unfold resolve_radial_node. cbv zeta. intros H. chk H. congruence. Qed.
Lemma vis_loop f ks : (forall u d d', f u d = Ok d' -> vis d' = vis d) -> forall t t', NoDup (keys t) -> vloop f ks t = Ok t' -> written t' = written t.
Proof.
  intros H. induction ks as [|k ks IH]; intros t t' N; cbn [vloop]; [intros E; now injection E as <-|]. destruct (find_data k t) as [d|] eqn:F; [|now apply IH].
  intros E. apply bind_ok in E. destruct E as (d1 & E1 & E). destruct (find_data_some _ _ _ F) as [Hd K]. apply H in E1. assert (K1 : key d1 = key d) by exact (f_equal key E1).
  assert (W : written (upd k (fun _ => d1) t) = written t).
  { unfold written, upd. rewrite tmap_tmap. apply tmap_ext. intros x Hx. destruct (Nat.eqb_spec (key x) k) as [Ex|Ex]; [|reflexivity]. assert (x = d) by (apply (data_unique t); auto; congruence). now subst x. }
  rewrite <- W. apply IH; [|exact E]. rewrite <- (keys_written (upd _ _ _)), W, keys_written. exact N.
Qed.
Lemma linear_written t t' : NoDup (keys t) -> resolve_linear_gradient_attributes t = Some (Ok t') -> written t' = written t.
Proof. intros N. unfold resolve_linear_gradient_attributes. destruct (gen_order _ t) as [ks|]; [|discriminate]. intros E. injection E as E. exact (vis_loop _ _ linear_vis t t' N E). Qed.
Lemma radial_written t t' : NoDup (keys t) -> resolve_radial_gradient_attributes t = Some (Ok t') -> written t' = written t.
Proof. intros N. unfold resolve_radial_gradient_attributes. destruct (gen_order _ t) as [ks|]; [|discriminate]. intros E. injection E as E. exact (vis_loop _ _ radial_vis t t' N E). Qed.
