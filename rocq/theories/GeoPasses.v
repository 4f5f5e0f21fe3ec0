(** Lemmas: the attributes of gradients, pass by pass. *)
From Coq Require Import List Bool NArith Arith ZArith String QArith Qcanon Lia.
From Verif Require Import Names Num Value Dom DomFacts DomOps Outcome DomRemove Stops SpecStops StopsProofs Props_stops AttrFacts SpecDom SpecGradients SpecWritten SpecPaint SpecUngroup SpecGroupStyle SpecPrepared SpecShading Shading SpecGeometry SpecPicture SpecClean Cli Clean WfAll Props_wf PictureTwin PictureTail PictureEnd PictureShades RampsRun RampsWork RampsPrep Geometry.
From Verif Require PicturePrep PictureServers PictureRemarks PictureGrad UngroupEnd StyleMove StyleEnd Round Push.
Import ListNotations.
Local Open Scope nat_scope.

Lemma f2_tracks t t' : Forall2 (fun d d' => gradient_node d \/ gradient_node d' -> galike d d') (flat t) (flat t') -> tracks t t' /\ tracks t' t.
Proof.
  intros F. split; intros d Hd G.
  - apply In_nth_error in Hd. destruct Hd as (i & Hi). revert i Hi. induction F as [|x y l l' H F IH]; intros i Hi; [destruct i; discriminate|]. destruct i as [|i]; cbn in Hi.
    + injection Hi as ->. exists y. split; [now left|]. apply H. now left.
    + destruct (IH i Hi) as (z & Hz & L). exists z. split; [now right|exact L].
  - apply In_nth_error in Hd. destruct Hd as (i & Hi). revert i Hi. induction F as [|x y l l' H F IH]; intros i Hi; [destruct i; discriminate|]. destruct i as [|i]; cbn in Hi.
    + injection Hi as ->. exists x. split; [now left|]. apply galike_sym, H. now right.
    + destruct (IH i Hi) as (z & Hz & L). exists z. split; [now right|exact L].
Qed.
Lemma flat_by_subs t : flat t = map data (subs t). Proof. symmetry. apply map_data_subs. Qed.
(** ** Corrections *)
Lemma fix_tracks t t' : fix_invalid_attributes t = Ok t' -> tracks t t' /\ tracks t' t.
Proof.
  intros E. apply f2_tracks. rewrite !flat_by_subs. apply C18_changes in E. induction E as [|s s' l l' F E IH]; cbn [map]; constructor; [|exact IH].
  intros _. destruct (fx_node _ _ F) as (K & T & _). split; [exact K|]. split; [exact T|]. intros a Ha. apply (fx_others _ _ F). cbn in Ha |- *. clear - Ha. repeat (destruct Ha as [<-|Ha]; [intuition discriminate|]). destruct Ha.
Qed.
(** ** Stops *)
Lemma flat_cases t d : In d (flat t) -> d = data t \/ exists s c, In s (subs t) /\ In c (kids s) /\ data c = d.
Proof.
  induction t as [e ch IH] using tree_ind'. intros [<-|H]; [now left|]. right. apply in_flat_map in H. destruct H as (c & Hc & Hd). destruct (proj1 (Forall_forall _ _) IH c Hc Hd) as [->|(s & k & Hs & Hk & E)].
  - exists (T e ch), c. split; [apply subs_self|]. split; [exact Hc|reflexivity].
  - exists s, k. split; [cbn [subs]; right; apply in_flat_map; eauto|]. auto.
Qed.
Lemma stop_not_node d : tag d = TEl EStop -> ~ gradient_node d. Proof. intros E [H|H]; congruence. Qed.
Lemma f2_both_l {A B} (P : A -> B -> Prop) l l' x : Forall2 P l l' -> In x l -> exists y, In y l' /\ P x y.
Proof. intros F. induction F as [|a b l l' H F IH]; intros Hx; [destruct Hx|]. destruct Hx as [<-|Hx]; [exists b; split; [now left|exact H]|]. destruct (IH Hx) as (y & Hy & Q). exists y. split; [now right|exact Q]. Qed.
Lemma stops_tracks t t' : servers_apart t -> servers_apart t' -> tag (data t) = TRoot -> resolve_stop_attributes t = Ok t' -> tracks t t' /\ tracks t' t.
Proof.
  intros A A' Rt E. pose proof (PicturePrep.tw_stops t t t' (sa_stops t A) E) as W. destruct (C17_resolves t t' E) as (_ & Er & F). apply tg_subs in W.
  assert (Z : Forall2 (fun s s' => tag (data s') = tag (data s) /\ (~ gradient s -> map data (kids s') = map data (kids s))) (subs t) (subs t')).
  { eapply f2_zip; [|exact W|exact F]. intros s s' _ X [_ Y]. split; [apply (twin_data _ _ _ X)|exact Y]. }
  assert (Nr : ~ gradient_node (data t)) by (intros [H|H]; congruence).
  assert (Gd : forall s, {gradient s} + {~ gradient s}). { intros s. unfold gradient. destruct (tag (data s)) as [|e| | | |]; try (right; intros [H|H]; discriminate H). destruct e; try (right; intros [H|H]; discriminate H); left; auto. }
  split; intros d Hd G.
  - destruct (flat_cases t d Hd) as [->|(s & c & Hs & Hc & Ec)]; [contradiction|]. destruct (Gd s) as [Gs|Gs].
    + exfalso. subst d. exact (stop_not_node _ (sa_stops t A s c Hs Gs Hc) G).
    + destruct (f2_both_l _ _ _ s Z Hs) as (s' & Hs' & _ & Y). assert (I : In d (map data (kids s'))) by (rewrite (Y Gs), <- Ec; now apply in_map). apply in_map_iff in I. destruct I as (c' & Ec' & Hc'). exists d. split; [|apply galike_refl]. rewrite <- Ec'. apply data_of_sub. exact (Push.kid_sub s' c' t' Hs' Hc').
  - destruct (flat_cases t' d Hd) as [->|(s' & c & Hs & Hc & Ec)]; [rewrite Er in G; contradiction|]. destruct (PicturePrep.f2_back _ _ _ _ Z Hs) as (s & Hs0 & T & Y). destruct (Gd s) as [Gs|Gs].
    + exfalso. subst d. refine (stop_not_node _ (sa_stops t' A' s' c Hs _ Hc) G). unfold gradient_el. rewrite T. exact Gs.
    + assert (I : In d (map data (kids s))) by (rewrite <- (Y Gs), <- Ec; now apply in_map). apply in_map_iff in I. destruct I as (c' & Ec' & Hc'). exists d. split; [|apply galike_refl]. rewrite <- Ec'. apply data_of_sub. exact (Push.kid_sub s c' t Hs0 Hc').
Qed.
(** ** Numbers *)
Lemma round_get_attr o l a : get_attr (map (Round.round_attr o) l) a = option_map (Round.round_attr o) (get_attr l a).
Proof.
  unfold get_attr. induction l as [|x l IH]; [reflexivity|]. cbn [map find]. assert (N : has_name (AN a) (Round.round_attr o x) = has_name (AN a) x) by (unfold Round.round_attr, has_name; now destruct (a_name x) eqn:E; cbn; rewrite ?E). rewrite N. destruct (has_name (AN a) x); [reflexivity|exact IH].
Qed.
Lemma round_tracks o t : (forall d a x, In d (flat t) -> gradient_node d -> In a geo_attrs -> get_attr (attrs d) a = Some x -> Round.round_value o a (a_val x) = a_val x) -> tracks t (Round.round_numbers o t) /\ tracks (Round.round_numbers o t) t.
Proof.
  intros H. apply f2_tracks. unfold Round.round_numbers. rewrite flat_tmap. assert (Z : forall d, In d (flat t) -> In d (flat t)) by auto. revert Z. generalize (flat t) at 1 3 4. induction l as [|d l IH]; intros Z; cbn [map]; constructor; [|apply IH; intros x Hx; apply Z; now right].
  assert (Hd : In d (flat t)) by (apply Z; now left). intros G. assert (G' : gradient_node d) by (destruct G as [G|G]; [exact G|]; destruct (is_svg_el d); exact G). clear G. destruct (is_svg_el d); [|apply galike_refl]. split; [reflexivity|]. split; [reflexivity|]. intros a Ha. cbn [attrs with_attrs]. rewrite round_get_attr. destruct (get_attr (attrs d) a) as [x|] eqn:E; [|reflexivity].
  cbn [option_map]. f_equal. pose proof (H d a x Hd G' Ha E) as Q. apply get_attr_some in E. destruct E as [_ E]. unfold Round.round_attr. rewrite E. destruct x as [n v b]. cbn [a_name a_val a_vis] in *. rewrite Q, E. reflexivity.
Qed.
Lemma round_written o t : written (Round.round_numbers o t) = Round.round_numbers o (written t).
Proof.
  unfold written, Round.round_numbers. rewrite !tmap_tmap. apply tmap_ext. intros d _. unfold vis, is_svg_el. cbn [tag with_attrs]. destruct (tag d) eqn:T; cbn [attrs with_attrs]; rewrite ?T; try reflexivity.
  unfold with_attrs. cbn [key tag nid attrs]. f_equal. induction (attrs d) as [|x l IH]; [reflexivity|]. cbn [map filter]. assert (V : a_vis (Round.round_attr o x) = a_vis x) by (unfold Round.round_attr; now destruct (a_name x)). rewrite V. destruct (a_vis x); cbn [map]; now rewrite IH.
Qed.
(** ** What leaves gradients alone *)
Lemma shades_tracks t t' : (forall s, In s (subs t) -> gradient s -> stops_only s) -> shades_kept t t' -> tracks t t'.
Proof.
  intros O H d Hd G. rewrite flat_by_subs in Hd. apply in_map_iff in Hd. destruct Hd as (s & <- & Hs). destruct (H s Hs G (O s Hs G)) as (s' & Hs' & A & _). exists (data s'). split; [now apply data_of_sub|]. destruct A as (A1 & A2 & A3). split; [exact A1|]. split; [exact A2|].
  intros a Ha. apply A3. clear - Ha. cbn in Ha |- *. tauto.
Qed.
Lemma apart_stops t s : servers_apart t -> In s (subs t) -> gradient s -> stops_only s.
Proof. intros A Hs G c Hc. exact (sa_stops t A s c Hs G Hc). Qed.
Lemma pruned_tracks p t : (forall a, In a (subs t) -> p (data a) = true -> forall d, In d (flat a) -> ~ gradient_el d) -> tracks t (pruned p t) /\ tracks (pruned p t) t.
Proof.
  intros H. split; intros d Hd G; (exists d; split; [|apply galike_refl]).
  - rewrite flat_by_subs in Hd. apply in_map_iff in Hd. destruct Hd as (s & <- & Hs). rewrite <- (data_pruned p s). apply data_of_sub. now apply pruned_kept.
  - exact (PictureRemarks.pr_flat p t d Hd).
Qed.
Lemma stops_pass_tracks t : NoDup (keys t) -> servers_apart t -> gradients_seen t -> tracks t (remove_invalid_stops t) /\ tracks (remove_invalid_stops t) t.
Proof.
  intros N V Sn. rewrite (PictureGrad.invalid_stops_pruned t N V). apply pruned_tracks. intros a Ha Pa d Hd. apply (Sn a d Ha); [right|exact Hd]. exact (PictureGrad.gone_stop t N V a Ha Pa).
Qed.
