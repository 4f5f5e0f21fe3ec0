(** Documents with references: invisible elements are removed. *)
From Coq Require Import List Bool NArith Arith ZArith String Lia QArith Qcanon Permutation.
From Verif Require Import Names Num Value Dom DomFacts DomOps Outcome DomRemove SpecDom SpecWritten Stops TasksSimple Links Move MoveFacts RmUnusedDefs RmInvisible WfAll WfStruct UseStep WfUse WfGrad PlainMove Mild MildPasses MildMove.
Import ListNotations.
Local Open Scope nat_scope.

Lemma below_clip stops : forall ks t empty, below t (fst (clip_rounds stops ks t empty)).
Proof.
  induction ks as [|k ks IH]; intros t empty; cbn [clip_rounds]; [apply below_refl|]. destruct (find_sub k t) as [s|]; [|apply IH]. destruct (stops && _); [apply below_remove_nodes|]. exact (below_trans _ _ _ (below_remove_nodes _ _) (IH _ _)).
Qed.
Lemma below_linked ks : forall t, below t (fold_left remove_linked ks t).
Proof. induction ks as [|k ks IH]; intros t; [apply below_refl|]. cbn. refine (below_trans _ _ _ _ (IH _)). unfold remove_linked. exact (below_trans _ _ _ (below_remove_nodes _ _) (below_remove _ _)). Qed.
(** The xlink:href of a use element or group does not lead to [k]. *)
Definition nolink (k : nat) (d : ndata) : Prop := use_or_g d -> forall x, In x (attrs d) -> hname x -> refers k x = false.
Lemma nolink_M k d d' : M d d' -> nolink k d -> nolink k d'.
Proof. intros Md N G x Hx Hn. apply (M_uog _ _ Md) in G. destruct (M_attrs _ _ Md x Hx) as [X|[_ X]]; [exact (N G x X Hn)|]. exfalso. now apply X. Qed.
Lemma link_attrs_ok k d a : nolink k d -> In a (link_attrs k d) -> use_or_g d -> a <> AXlinkHref.
Proof.
  intros N H G E. unfold link_attrs in H. apply in_flat_map in H. destruct H as (x & Hx & H). destruct (a_name x) as [b|] eqn:En; [|destruct H]. destruct (refers k x) eqn:R; [|destruct H]. destruct H as [<-|[]]. rewrite (N G x Hx) in R; [discriminate|]. unfold hname. congruence.
Qed.
Lemma M_no_paint k d : nolink k d -> M d (no_paint k d).
Proof.
  intros N. unfold no_paint. assert (H : forall a, In a (link_attrs k d) -> use_or_g d -> a <> AXlinkHref) by (intros a Ha; now apply (link_attrs_ok k d)). revert H. generalize (link_attrs k d) as l. intros l H. assert (G : forall l', incl l' l -> forall x, M d x -> M d (fold_left (fun d a => d_set d a (VPre Vid_none)) l' x)); [|apply (G l (incl_refl l) d (M_refl d))].
  induction l' as [|a l' IH]; intros I x Mx; [exact Mx|]. cbn. apply IH; [intros z Hz; apply I; now right|]. apply M_with; [exact Mx|]. intros y Hy. apply set_attr_from in Hy. destruct Hy as [Hy| ->]; [now left|right]. split; [intros _; cbn; repeat split; discriminate|]. intros U X. apply (H a (I a (or_introl eq_refl)) U). unfold hname in X. cbn in X. congruence.
Qed.
Lemma M_solid k r g b o d : nolink k d -> ~ gradient_node d -> M d (solid k (VColor r g b) o d).
Proof.
  intros N Ng. unfold solid. assert (H : forall a, In a (link_attrs k d) -> use_or_g d -> a <> AXlinkHref) by (intros a Ha; now apply (link_attrs_ok k d)). revert H. generalize (link_attrs k d) as l. intros l H. assert (G : forall l', incl l' l -> forall x, M d x -> M d (fold_left (one_color (VColor r g b) o) l' x)); [|apply (G l (incl_refl l) d (M_refl d))].
  induction l' as [|a l' IH]; intros I x Mx; [exact Mx|]. cbn [fold_left]. apply IH; [intros z Hz; apply I; now right|].
  assert (M1 : M d (d_set x a (VColor r g b))). { apply M_with; [exact Mx|]. intros y Hy. apply set_attr_from in Hy. destruct Hy as [Hy| ->]; [now left|right]. split; [intros X; contradiction|]. intros U X. apply (H a (I a (or_introl eq_refl)) U). unfold hname in X. cbn in X. congruence. }
  unfold one_color. cbv zeta. destruct (qeqb o q1); [exact M1|]. destruct a; try exact M1; (apply M_set; [exact M1|discriminate|intros X; contradiction]).
Qed.
Lemma below_unpaint ks : forall t, (forall k d, In k ks -> In d (flat t) -> nolink k d) -> shr M t (unpaint ks t).
Proof.
  unfold unpaint. induction ks as [|k ks IH]; intros t H; cbn [fold_left]; [apply shr_id|]. assert (S : shr M t (tmap (no_paint k) t)) by (apply shr_tmap; intros d Hd; apply M_no_paint, H; [now left|exact Hd]).
  apply (shr_trans M M_trans _ _ _ S). apply IH. intros j d Hj Hd. rewrite flat_tmap in Hd. apply in_map_iff in Hd. destruct Hd as (d0 & <- & Hd). apply (nolink_M j d0); [apply M_no_paint, H; [now left|exact Hd]|apply H; [now right|exact Hd]].
Qed.
Lemma shr_nolink k t t' : shr M t t' -> (forall d, In d (flat t) -> nolink k d) -> forall d, In d (flat t') -> nolink k d.
Proof. intros S H d Hd. destruct (desc_shr _ _ S) as [D _]. destruct (D d Hd) as (d0 & H0 & M0). exact (nolink_M k _ _ M0 (H d0 H0)). Qed.
Lemma below_paint ks : forall t t', (forall k d, In k ks -> In d (flat t) -> nolink k d) -> fold_left (fun r k => bind r (fun t => paint_solid t k)) ks (Ok t) = Ok t' -> shr M t t'.
Proof.
  induction ks as [|k ks IH]; intros t t' H E; cbn [fold_left] in E; [injection E as <-; apply shr_id|]. cbn [bind] in E. destruct (paint_solid t k) as [t1|e|] eqn:E1.
  - assert (S : shr M t t1).
    { unfold paint_solid in E1. destruct (find_sub k t) as [[d [|c l]]|]; try (injection E1 as <-; apply shr_id). destruct (d_get (data c) AStopColor) as [[]|]; try discriminate. destruct (d_get (data c) AStopOpacity) as [[]|]; try discriminate. injection E1 as <-.
      apply shr_tmap. intros x Hx. destruct (is_grad x) eqn:Q; [apply M_refl|]. apply M_solid; [apply H; [now left|exact Hx]|]. intros [X|X]; unfold is_grad, tag_sat in Q; rewrite X in Q; discriminate. }
    apply (shr_trans M M_trans _ _ _ S). apply IH; [|exact E]. intros j d Hj. apply (shr_nolink j t t1 S). intros x Hx. apply H; [now right|exact Hx].
  - exfalso. clear - E. induction ks; cbn in E; [discriminate|auto].
  - exfalso. clear - E. induction ks; cbn in E; [discriminate|auto].
Qed.
Section I.
Variables (U : nat -> Prop) (ur : nat -> nat) (GK : nat -> Prop).
Lemma tame_nolink t g : tame U ur GK t -> In g (flat t) -> gradient_node g -> forall d, In d (flat t) -> nolink (key g) d.
Proof.
  intros Tm Hg G d Hd [Td|Td] x Hx Hn.
  - destruct (tm_use _ _ _ _ Tm d x Hd Td Hx Hn) as (k & E & Uk & _). unfold refers. rewrite E. cbn [link_of]. apply Nat.eqb_neq. intros ->. now destruct (tm_kind _ _ _ _ Tm g Hg Uk).
  - exfalso. exact (tm_g _ _ _ _ Tm d x Hd Td Hx Hn).
Qed.
Lemma gradient_keys_in n t k : In k (gradient_keys n t) -> exists g, In g (flat t) /\ gradient_node g /\ key g = k.
Proof.
  intros H. unfold gradient_keys in H. apply in_map_iff in H. destruct H as (s & <- & H). apply filter_In in H. destruct H as [Hs H]. exists (data s). split; [now apply data_of_sub|]. split; [|reflexivity]. apply andb_prop in H. destruct H as [H _]. apply andb_prop in H. destruct H as [H _]. unfold is_grad, tag_sat in H. unfold gradient_node. destruct (tag (data s)) as [|e| | | |]; try discriminate. destruct e; try discriminate; auto.
Qed.
Lemma below_invisible stops t t' : fine t -> tame U ur GK t -> remove_invisible stops t = Some (Ok t') -> below t t'.
Proof.
  intros F Tm E. unfold remove_invisible in E. cbv zeta in E.
  set (x1 := process_display (t, false)) in E. assert (F1 : fine (fst x1)) by (now apply fine_remove_nodes). assert (B1 : below t (fst x1)) by (apply below_remove_nodes). clearbody x1.
  set (x2 := RmInvisible.process_paths x1) in E. assert (F2 : fine (fst x2)) by (now apply fine_drain). assert (B2 : below t (fst x2)) by (exact (below_trans _ _ _ B1 (below_drain _ _))). clearbody x2. clear B1 F1.
  set (x3 := process_clip_paths stops x2) in E. assert (F3 : fine (fst x3)).
  { unfold x3, process_clip_paths. destruct x2 as [t2 b2]. pose proof (fine_clip_rounds stops (tag_keys EClipPath t2) t2 [] F2) as Q. destruct (clip_rounds _ _ _ _) as [u e]. cbn [fst] in *. now apply fine_remove_linked. }
  assert (B3 : below t (fst x3)). { apply (below_trans _ _ _ B2). unfold x3, process_clip_paths. destruct x2 as [t2 b2]. pose proof (below_clip stops (tag_keys EClipPath t2) t2 []) as Q. destruct (clip_rounds _ _ _ _) as [u e]. cbn [fst] in *. exact (below_trans _ _ _ Q (below_linked _ _)). } clearbody x3. clear B2 F2.
  set (x4 := process_empty_filter x3) in E. assert (F4 : fine (fst x4)) by (unfold x4, process_empty_filter; destruct x3; now apply fine_remove_linked). assert (B4 : below t (fst x4)) by (apply (below_trans _ _ _ B3); unfold x4, process_empty_filter; destruct x3; apply below_linked). clearbody x4. clear B3 F3.
  set (x5 := process_fe_color_matrix x4) in E. assert (F5 : fine (fst x5)) by (now apply fine_drain). assert (B5 : below t (fst x5)) by (exact (below_trans _ _ _ B4 (below_drain _ _))). clearbody x5. clear B4 F4.
  set (x6 := process_use x5) in E. assert (F6 : fine (fst x6)) by (now apply fine_drain). assert (B6 : below t (fst x6)) by (exact (below_trans _ _ _ B5 (below_drain _ _))). clearbody x6. clear B5 F5.
  destruct (process_gradients x6) as [x7| |] eqn:E7; try discriminate. assert (F7 : fine (fst x7)).
  { unfold process_gradients in E7. destruct x6 as [t6 b6]. apply bind_ok in E7. destruct E7 as (t7 & P & E7). injection E7 as <-. cbn [fst]. apply fine_remove_nodes. refine (fine_paint _ _ _ _ P). intros y Hy. injection Hy as <-. now apply fine_unpaint. }
  assert (B7 : below t (fst x7)).
  { pose proof (tame_desc _ _ _ _ _ Tm (below_desc _ _ B6)) as T6. apply (below_trans _ _ _ B6). unfold process_gradients in E7. destruct x6 as [t6 b6]. cbn [fst] in *. apply bind_ok in E7. destruct E7 as (t7 & P & E7). injection E7 as <-. cbn [fst]. refine (below_trans _ _ _ _ (below_remove_nodes _ _)). apply below_shr.
    assert (N : forall n k d, In k (gradient_keys n t6) -> In d (flat t6) -> nolink k d) by (intros n k d Hk Hd; destruct (gradient_keys_in _ _ _ Hk) as (g & Hg & Gg & <-); now apply (tame_nolink t6)).
    pose proof (below_unpaint (gradient_keys 0 t6) t6 (N 0)) as S. apply (shr_trans M M_trans _ _ _ S). refine (below_paint _ _ _ _ P). intros k d Hk. apply (shr_nolink k t6 _ S). intros x Hx. exact (N 1 k x Hk Hx). }
  assert (F8 : fine (fst (process_rect x7))) by (now apply fine_drain). assert (B8 : below t (fst (process_rect x7))) by (exact (below_trans _ _ _ B7 (below_drain _ _))). destruct (snd _); [exact (below_trans _ _ _ B8 (below_unused_defs _ _ F8 E))|]. injection E as <-. exact B8.
Qed.
End I.
