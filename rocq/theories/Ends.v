(** Which of the passes come to an end. *)
From Coq Require Import List Bool NArith Arith ZArith String Lia QArith Qcanon Permutation.
From Verif Require Import Names Num Value Dom DomFacts DomOps Outcome DomRemove SpecDom VLoop Transforms Gradients SpecGradients GradProofs GradUnits SpecWritten SpecGradUnits GradUnitsProofs Move MoveFacts RmUnusedDefs Props_defs MergeGradients Regroup Ungroup RmInvisible Clean WfAll UseStep WfStruct WfUse WfGrad.
Import ListNotations.
Local Open Scope nat_scope.

(** ** ungroup_groups *)
Lemma keys_prepare o self rec p t t' : prepare o self rec p t = Ok t' -> keys t' = keys t.
Proof.
  unfold prepare. destruct (valid_elems o); [intros E; now injection E as <-|]. destruct (find_sub p t) as [s|]; [|intros E; now injection E as <-]. generalize (if self then keys s else tl (keys s)). intros ks. revert t. induction ks as [|k ks IH]; intros t E; cbn in E; [now injection E as <-|].
  apply bind_ok in E. destruct E as (r & E1 & E). assert (K : keys (fst r) = keys t).
  { unfold prep_one in E1. destruct (find_sub k t) as [s0|]; [|injection E1 as <-; reflexivity]. destruct (ancestors k [] t); [|injection E1 as <-; reflexivity]. destruct (_ && _); [|injection E1 as <-; reflexivity].
    apply bind_ok in E1. destruct E1 as (b & _ & E1). destruct (_ || _); [injection E1 as <-; reflexivity|]. apply bind_ok in E1. destruct E1 as (ok & _ & E1). destruct ok; [|injection E1 as <-; reflexivity]. destruct (d_get _ _) as [[]|]; try discriminate. injection E1 as <-. cbn [fst]. unfold push_ts. apply keys_tmap. intros d. destruct (Nat.eqb _ _); [reflexivity|]. destruct (existsb _ _); reflexivity. }
  destruct (_ && _); [injection E as <-; exact K|]. rewrite <- K. exact (IH _ E).
Qed.
Lemma give_all_count t l : forall ch ch', give_all t l ch = Ok ch' -> List.length (flat_map flat ch') = List.length (flat_map flat ch).
Proof.
  induction ch as [|c ch IH]; intros ch' E; cbn in E; [now injection E as <-|]. apply bind_ok in E. destruct E as (d & _ & E). apply bind_ok in E. destruct E as (r & E2 & E). injection E as <-. destruct c as [dc cc]. cbn. rewrite !app_length, (IH r E2). reflexivity.
Qed.
Lemma ungroup_one_less o self t p g t' : fine t -> In g (keys t) -> g <> root_key t -> ungroup_one o self t p g = Ok t' -> List.length (keys t') < List.length (keys t).
Proof.
  intros F Hg Ng E. pose proof (wf_keys t (fine_wf t F)) as Nd. unfold ungroup_one in E. destruct (find_sub g t) as [s|] eqn:Es; [|apply find_sub_none in Es; contradiction]. apply bind_ok in E. destruct E as (ch & E1 & E). rewrite (keys_prepare _ _ _ _ _ _ E). apply find_sub_some in Es. destruct Es as [Hs <-].
  destruct (flat_split t s Nd Hs) as (pre & post & S1 & S2).
  assert (Fl : fine (lift (root_key s) ch t)).
  { apply (fine_forall2 t); [exact F|]. rewrite flat_lift by exact Ng. rewrite S1, S2. apply Forall2_app; [apply forall2_refl|]. apply Forall2_app; [|apply forall2_refl]. destruct s as [d l]. cbn [flat data kids] in *. constructor; [apply ext_refl|]. refine (give_all_ext t _ _ _ _ _ E1). intros x k Hx X. apply (wf_links t (fine_wf t F)).
    apply (node_links_in t d); [exact (data_of_sub _ _ Hs)|exact (link_in d x k Hx X)]. }
  assert (C : List.length (keys (lift (root_key s) ch t)) = List.length (keys t)).
  { unfold keys. rewrite !map_length, flat_lift by exact Ng. rewrite S1, S2. destruct s as [d l]. cbn [flat data kids] in *. rewrite !app_length. cbn. rewrite ?app_length, (give_all_count _ _ _ _ E1). reflexivity. }
  rewrite <- C. clear E. set (u := lift (root_key s) ch t) in *. unfold remove. rewrite unlink_eq.
  set (v := tmap (unlink_data (sub_keys (root_key s) u)) u). assert (Kv : keys v = keys u) by (apply keys_tmap; reflexivity).
  assert (Hv : In (root_key s) (keys v)). { rewrite Kv. unfold u, keys. rewrite flat_lift by exact Ng. rewrite S2. destruct s as [d l]. cbn. rewrite map_app. apply in_or_app. right. now left. }
  apply sub_of_key in Hv. destruct Hv as (w & Hw & Kw). rewrite <- Kw.
  assert (P : Permutation (flat v) (flat w ++ flat (detach (root_key w) v))).
  { apply detach_perm; [rewrite Kv; apply (wf_keys u (fine_wf u Fl))|exact Hw|]. rewrite Kw. unfold v. unfold root_key at 2. rewrite data_tmap. unfold unlink_data. cbn. intros X. apply Ng. rewrite X. unfold u, lift. destruct t; reflexivity. }
  apply Permutation_length in P. rewrite app_length in P. rewrite <- Kv. unfold keys. rewrite !map_length. destruct w as [dw cw]. cbn [flat List.length] in P. lia.
Qed.
Lemma ungroup_loop_ends o self : forall n t, fine t -> List.length (keys t) <= n -> ungroup_loop n o self t <> None.
Proof.
  induction n as [|n IH]; intros t F L; cbn [ungroup_loop].
  - destruct t as [d ch]. cbn in L. lia.
  - destruct (svg_element t) as [s|] eqn:Es; [|discriminate]. destruct (find_group t s) as [[p g]|] eqn:Eg; [|discriminate].
    destruct (ungroup_one o self t p g) as [t1| |] eqn:E1; try discriminate. apply find_group_sub in Eg. apply svg_sub in Es. pose proof (wf_keys t (fine_wf t F)) as N.
    assert (Hg : In g (flat_map keys (kids t))) by (apply in_flat_map; exists s; split; [exact Es|]; rewrite keys_kids; now right).
    assert (Ng : g <> root_key t) by (intros ->; rewrite keys_kids in N; inversion N; subst; contradiction).
    apply IH; [exact (fine_ungroup_one _ _ _ _ _ _ F Ng E1)|]. assert (List.length (keys t1) < List.length (keys t)); [|lia]. apply (ungroup_one_less o self t p g t1 F); [rewrite keys_kids; now right|exact Ng|exact E1].
Qed.
Lemma ungroup_ends o self t : fine t -> ungroup_groups o self t <> None.
Proof.
  intros F. unfold ungroup_groups. destruct (svg_element t) as [s|]; [|discriminate]. destruct (prepare _ _ _ _ t) as [t1| |] eqn:E1; try discriminate. apply ungroup_loop_ends; [exact (fine_prepare _ _ _ _ _ _ F E1)|]. now rewrite (keys_prepare _ _ _ _ _ _ E1).
Qed.
(** ** remove_unused_defs, remove_invisible_elements *)
Lemma unused_defs_ends t : WF t -> remove_unused_defs t <> None.
Proof.
  intros W. destruct (first_defs t) as [d|] eqn:E; [|unfold remove_unused_defs; now rewrite E].
  destruct (defs_fixpoint t W) as (t' & _ & _ & E' & _); [|now rewrite E']. unfold first_defs in E. apply find_some in E. destruct E as [Hd Td]. exists d. split; [exact Hd|]. unfold is_tag in Td. destruct (tag d) as [|e| | | |]; try discriminate. destruct (eid_eqb_spec e EDefs); [now subst|discriminate].
Qed.
Lemma invisible_ends stops t : fine t -> remove_invisible stops t <> None.
Proof.
  intros F. unfold remove_invisible. cbv zeta.
  set (x1 := process_display (t, false)). assert (F1 : fine (fst x1)) by (now apply fine_remove_nodes). clearbody x1.
  set (x2 := RmInvisible.process_paths x1). assert (F2 : fine (fst x2)) by (now apply fine_drain). clearbody x2.
  set (x3 := process_clip_paths stops x2). assert (F3 : fine (fst x3)).
  { unfold x3, process_clip_paths. destruct x2 as [t2 b2]. pose proof (fine_clip_rounds stops (tag_keys EClipPath t2) t2 [] F2) as Q. destruct (clip_rounds _ _ _ _) as [u e]. cbn [fst] in *. now apply fine_remove_linked. } clearbody x3.
  set (x4 := process_empty_filter x3). assert (F4 : fine (fst x4)) by (unfold x4, process_empty_filter; destruct x3; now apply fine_remove_linked). clearbody x4.
  set (x5 := process_fe_color_matrix x4). assert (F5 : fine (fst x5)) by (now apply fine_drain). clearbody x5.
  set (x6 := process_use x5). assert (F6 : fine (fst x6)) by (now apply fine_drain). clearbody x6.
  destruct (process_gradients x6) as [x7| |] eqn:E7; try discriminate. assert (F7 : fine (fst x7)).
  { unfold process_gradients in E7. destruct x6 as [t6 b6]. apply bind_ok in E7. destruct E7 as (t7 & P & E7). injection E7 as <-. cbn [fst]. apply fine_remove_nodes. refine (fine_paint _ _ _ _ P). intros y Hy. injection Hy as <-. now apply fine_unpaint. }
  assert (F8 : fine (fst (process_rect x7))) by (now apply fine_drain). destruct (snd _); [|discriminate]. apply unused_defs_ends, F8.
Qed.
(** ** merge_gradients: the number of elements with xlink:href goes down. *)
Definition hc (l : list ndata) : nat := List.length (filter (fun d => d_has d AXlinkHref) l).
Lemma hc_app l m : hc (l ++ m) = hc l + hc m. Proof. unfold hc. now rewrite filter_app, app_length. Qed.
Lemma hc_map_le f l : (forall d, d_has (f d) AXlinkHref = true -> d_has d AXlinkHref = true) -> hc (map f l) <= hc l.
Proof. intros H. unfold hc. induction l as [|d l IH]; [cbn; lia|]. cbn. destruct (d_has (f d) AXlinkHref) eqn:E; [rewrite (H d E); cbn; lia|destruct (d_has d AXlinkHref); cbn; lia]. Qed.
Lemma hc_map_lt f l d : (forall d, d_has (f d) AXlinkHref = true -> d_has d AXlinkHref = true) -> In d l -> d_has d AXlinkHref = true -> d_has (f d) AXlinkHref = false -> hc (map f l) < hc l.
Proof.
  intros H Hd P Q. induction l as [|x l IH]; [destruct Hd|]. pose proof (hc_map_le f l H) as L. change (map f (x :: l)) with ([f x] ++ map f l). change (x :: l) with ([x] ++ l). rewrite !hc_app. destruct Hd as [->|Hd].
  - unfold hc at 1 3. cbn [filter]. rewrite P, Q. cbn. lia.
  - specialize (IH Hd). assert (hc [f x] <= hc [x]); [|lia]. change [f x] with (map f [x]). now apply hc_map_le.
Qed.
Lemma hc_in d l : In d l -> d_has d AXlinkHref = true -> 0 < hc l.
Proof. intros Hd P. unfold hc. destruct (filter _ l) eqn:E; [|cbn; lia]. assert (In d []) as []. rewrite <- E. apply filter_In. auto. Qed.
Lemma hc_perm l m : Permutation l m -> hc l = hc m.
Proof. intros P. unfold hc. apply Permutation_length. induction P; cbn; repeat (destruct (d_has _ _)); eauto using Permutation. Qed.
Lemma show_has l a b : has_attr (show_attr l a) b = has_attr l b.
Proof.
  unfold has_attr, get_attr, show_attr. induction l as [|x l IH]; [reflexivity|]. cbn [map find]. assert (X : has_name (AN b) (if has_name (AN a) x then {| a_name := a_name x; a_val := a_val x; a_vis := true |} else x) = has_name (AN b) x) by (destruct (has_name (AN a) x); reflexivity). rewrite X. destruct (has_name (AN b) x); [reflexivity|exact IH].
Qed.
Lemma fkeys l : flat_map keys l = map key (flat_map flat l).
Proof. induction l as [|c l IH]; [reflexivity|]. cbn. rewrite map_app, IH. reflexivity. Qed.
Lemma take_href l d : d_has (take_attrs l d) AXlinkHref = false.
Proof.
  unfold take_attrs. unfold d_has. cbn [attrs with_attrs]. set (as0 := rm_attr (attrs d) AXlinkHref). assert (H : has_attr as0 AXlinkHref = false).
  { unfold as0, has_attr, get_attr, rm_attr. destruct (find _ _) as [x|] eqn:E; [|reflexivity]. apply find_some in E. destruct E as [Hx E]. apply filter_In in Hx. destruct Hx as [_ X]. rewrite E in X. discriminate. }
  clearbody as0. generalize (if is_tag ELinearGradient d then lg_attributes else rg_attributes). intros al. revert as0 H. induction al as [|a al IH]; intros as0 H; [exact H|]. cbn [fold_left]. apply IH. unfold show_linked. destruct (get_attr (attrs l) a) as [x|]; [|exact H]. destruct (a_vis x); [|exact H].
  rewrite show_has. exact H.
Qed.
Lemma upd_hc k l t : hc (flat (upd k (take_attrs l) t)) <= hc (flat t).
Proof. unfold upd. rewrite flat_tmap. apply hc_map_le. intros d. destruct (Nat.eqb _ _); [rewrite take_href; discriminate|auto]. Qed.
Lemma upd_hc_lt k l t d : In d (flat t) -> key d = k -> d_has d AXlinkHref = true -> hc (flat (upd k (take_attrs l) t)) < hc (flat t).
Proof. intros Hd Kd P. unfold upd. rewrite flat_tmap. apply (hc_map_lt _ _ d); auto; [intros x; destruct (Nat.eqb _ _); [rewrite take_href; discriminate|auto]|]. rewrite Kd, Nat.eqb_refl. apply take_href. Qed.
Lemma visit_hc t ks k t' ks' : NoDup (keys t) -> merge_visit (t, ks) k = (t', ks') -> NoDup (keys t') /\ hc (flat t') + List.length ks' <= hc (flat t) + List.length ks.
Proof.
  intros Nd E. unfold merge_visit in E. destruct (find_sub k t) as [s|] eqn:Es; [|injection E as <- <-; auto]. destruct (d_get (data s) AXlinkHref) as [v|] eqn:Ev; [|injection E as <- <-; auto]. destruct v; try (injection E as <- <-; auto; fail). rename k0 into j.
  destruct (find_sub j t) as [l|] eqn:El; [|injection E as <- <-; auto]. destruct (_ && _) eqn:Q; [|injection E as <- <-; auto]. injection E as <- <-. apply andb_prop in Q. destruct Q as [_ Q]. apply negb_true_iff in Q.
  apply find_sub_some in Es. destruct Es as [Hs Ks]. apply find_sub_some in El. destruct El as [Hl Kl].
  assert (Hr : d_has (data s) AXlinkHref = true) by (rewrite d_has_get; now rewrite Ev). assert (Nj : k <> j). { intros X. assert (s = l) by (apply (sub_unique t); auto; congruence). subst l. congruence. }
  assert (KU : forall u, keys (upd k (take_attrs (data l)) u) = keys u) by (intros u; apply keys_tmap; intros d; destruct (Nat.eqb _ _); reflexivity). rewrite KU. rewrite app_length. cbn [List.length].
  destruct (kids s) as [|c0 cs] eqn:Kk; [|split; [exact Nd|]; pose proof (upd_hc_lt k (data l) t (data s) (data_of_sub s t Hs) Ks Hr); lia].
  destruct (flat_split t l Nd Hl) as (pre & post & S1 & S2). specialize (S2 (fun _ => [])). rewrite Kl in S2. set (t1 := set_kids j (fun _ => []) t) in *.
  assert (P1 : Permutation (flat t) (flat t1 ++ flat_map flat (kids l))). { rewrite S1, S2. destruct l as [dl cl]. cbn [flat data kids flat_map app]. rewrite <- app_assoc. apply Permutation_app_head. cbn. apply perm_skip. apply Permutation_app_comm. }
  assert (N1 : NoDup (keys t1 ++ flat_map keys (kids l))). { rewrite fkeys. unfold keys. rewrite <- map_app. apply (Permutation_NoDup (Permutation_map key P1)). exact Nd. }
  destruct (in_dec Nat.eq_dec k (keys t1)) as [Hk|Hk].
  - apply sub_of_key in Hk. destruct Hk as (s1 & Hs1 & Ks1).
    assert (X : data s1 = data s /\ kids s1 = []). { unfold t1 in Hs1. apply set_kids_subs in Hs1. destruct Hs1 as [[]|(s0 & Hs0 & ->)]. rewrite data_set_kids. rewrite root_set_kids in Ks1. assert (s0 = s) by (apply (sub_unique t); auto; congruence). subst s0. split; [reflexivity|]. destruct s as [ds cs]. cbn in *. subst cs. destruct (Nat.eqb _ _); reflexivity. }
    destruct X as [D1 K1]. destruct (flat_split t1 s1 (proj1 (NoDup_app_inv _ _ N1)) Hs1) as (p1 & q1 & T1 & T2). specialize (T2 (fun _ => kids l)). rewrite Ks1 in T2. set (t2 := set_kids k (fun _ => kids l) t1) in *.
    assert (P2 : Permutation (flat t2) (flat t1 ++ flat_map flat (kids l))). { rewrite T1, T2. destruct s1 as [d1 c1]. cbn in K1. subst c1. cbn [flat data kids flat_map app]. rewrite <- app_assoc. apply Permutation_app_head. cbn. apply perm_skip. apply Permutation_app_comm. }
    assert (P3 : Permutation (flat t) (flat t2)) by (etransitivity; [exact P1|symmetry; exact P2]). split.
    + unfold keys. apply (Permutation_NoDup (Permutation_map key P3)). exact Nd.
    + rewrite (hc_perm _ _ P3). assert (Hd : In (data s) (flat t2)) by (apply (Permutation_in _ P3), data_of_sub, Hs). pose proof (upd_hc_lt k (data l) t2 (data s) Hd Ks Hr). lia.
  - rewrite (set_kids_out k _ t1 Hk). split; [exact (proj1 (NoDup_app_inv _ _ N1))|]. rewrite (hc_perm _ _ P1), hc_app. pose proof (upd_hc k (data l) t1).
    assert (Hd : In (data s) (flat_map flat (kids l))). { pose proof (data_of_sub s t Hs) as Y. apply (Permutation_in _ P1) in Y. apply in_app_or in Y. destruct Y as [Y|Y]; [|exact Y]. exfalso. apply Hk. rewrite <- Ks. unfold keys. apply in_map with (f := key) in Y. exact Y. }
    pose proof (hc_in _ _ Hd Hr). lia.
Qed.
Lemma fold_hc : forall l t ks t' ks', NoDup (keys t) -> fold_left merge_visit l (t, ks) = (t', ks') -> NoDup (keys t') /\ hc (flat t') + List.length ks' <= hc (flat t) + List.length ks.
Proof.
  induction l as [|k l IH]; intros t ks t' ks' Nd E; [injection E as <- <-; auto|]. cbn [fold_left] in E. destruct (merge_visit (t, ks) k) as [t1 ks1] eqn:E1. destruct (visit_hc _ _ _ _ _ Nd E1) as [N1 L1]. destruct (IH _ _ _ _ N1 E) as [N2 L2]. split; [exact N2|lia].
Qed.
Lemma sublist_hc l m : sublist l m -> hc l <= hc m.
Proof. intros S. unfold hc. induction S; cbn; try destruct (d_has _ _); cbn; lia. Qed.
Lemma detach_sub k t : sublist (flat (detach k t)) (flat t).
Proof. exact (flat_prune_sublist _ t). Qed.
Lemma remove_hc ks : forall t, NoDup (keys t) -> NoDup (keys (remove_nodes ks t)) /\ hc (flat (remove_nodes ks t)) <= hc (flat t).
Proof.
  induction ks as [|k ks IH]; intros t Nd; [auto|]. unfold remove_nodes in *. cbn [fold_left]. destruct (IH (remove k t)) as [A B]; [exact (sublist_NoDup _ _ (remove_keys_sublist k t) Nd)|]. split; [exact A|]. etransitivity; [exact B|]. unfold remove. etransitivity; [apply sublist_hc, detach_sub|]. rewrite unlink_eq, flat_tmap. apply hc_map_le.
  intros d H. unfold d_has, has_attr, get_attr, unlink_data in *. cbn [attrs with_attrs] in H. destruct (find _ (filter _ _)) as [x|] eqn:E in H; [|discriminate]. apply find_some in E. destruct E as [Hx E]. apply filter_In in Hx. destruct (find _ (attrs d)) as [y|] eqn:E2; [reflexivity|]. pose proof (find_none _ _ E2 x (proj1 Hx)). congruence.
Qed.
Lemma merge_gradients_ends n : forall t, NoDup (keys t) -> hc (flat t) < n -> merge_gradients n t <> None.
Proof.
  induction n as [|n IH]; intros t Nd L; [lia|]. cbn [merge_gradients]. destruct (merge_round t) as [t1 ks] eqn:E. unfold merge_round in E. destruct (fold_hc _ _ _ _ _ Nd E) as [N1 L1]. cbn [List.length] in L1. destruct ks as [|k ks]; [discriminate|]. destruct (remove_hc (k :: ks) t1 N1) as [N2 L2]. apply IH; [exact N2|]. cbn [List.length] in L1. lia.
Qed.
Lemma merge_all_ends t : NoDup (keys t) -> merge_all t <> None.
Proof.
  intros Nd. unfold merge_all. assert (X : hc (flat t) <= List.length (flat t)) by (apply sublist_length, sublist_filter). pose proof (merge_gradients_ends (S (List.length (flat t))) t Nd) as Y. destruct (merge_gradients _ t); [discriminate|]. exfalso. apply Y; [lia|reflexivity].
Qed.
(** ** The gradient passes *)
Lemma linear_ends t : NoDup (keys t) -> acyclic_kind ELinearGradient t <-> resolve_linear_gradient_attributes t <> None.
Proof.
  intros Nd. unfold resolve_linear_gradient_attributes. rewrite <- (gen_order_iff ELinearGradient t Nd). destruct (gen_order ELinearGradient t) as [ks|]; split; intros H; try discriminate; eauto; [destruct H as (ks & H); discriminate|contradiction].
Qed.
Lemma radial_ends t : NoDup (keys t) -> acyclic_kind ERadialGradient t <-> resolve_radial_gradient_attributes t <> None.
Proof.
  intros Nd. unfold resolve_radial_gradient_attributes. rewrite <- (gen_order_iff ERadialGradient t Nd). destruct (gen_order ERadialGradient t) as [ks|]; split; intros H; try discriminate; eauto; [destruct H as (ks & H); discriminate|contradiction].
Qed.
Lemma check_node t a def d d' : check_attr t a def d = Ok d' -> key d' = key d /\ tag d' = tag d.
Proof. unfold check_attr. destruct (d_has d a); [intros E; now injection E as <-|]. destruct (lookup _ t a d); [| |discriminate]; intros E; injection E as <-; [split; reflexivity|]. destruct def; split; reflexivity. Qed.
Lemma linear_node t d d' : resolve_linear_node t d = Ok d' -> key d' = key d /\ tag d' = tag d.
Proof.
  unfold resolve_linear_node. intros E. do 6 (apply bind_ok in E; destruct E as (? & ? & E)). repeat match goal with H : check_attr _ _ _ _ = Ok _ |- _ => apply check_node in H end. intuition congruence.
Qed.
Lemma linear_others e : e <> ELinearGradient -> forall ks t t', NoDup (keys t) -> (forall d, In d (flat t) -> In (key d) ks -> tag d = TEl ELinearGradient) -> vloop resolve_linear_node ks t = Ok t' ->
  keys t' = keys t /\ forall d, tag d = TEl e -> (In d (flat t') <-> In d (flat t)).
Proof.
  intros He. induction ks as [|k ks IH]; intros t t' Nd H E; [injection E as <-; split; [reflexivity|tauto]|]. cbn [vloop] in E.
  destruct (find_data k t) as [d|] eqn:Ed; [|apply (IH t t' Nd); [intros x Hx Kx; apply H; [exact Hx|now right]|exact E]].
  apply bind_ok in E. destruct E as (d' & E1 & E). apply linear_node in E1. destruct E1 as [K1 T1]. apply find_data_some in Ed. destruct Ed as [Hd Kd].
  assert (KU : keys (upd k (fun _ => d') t) = keys t). { apply keys_tmap. intros x. destruct (Nat.eqb_spec (key x) k); congruence. }
  assert (Td : tag d' = TEl ELinearGradient) by (rewrite T1; apply H; [exact Hd|now left]).
  assert (U : forall x, In x (flat (upd k (fun _ => d') t)) <-> (In x (flat t) /\ key x <> k) \/ x = d').
  { intros x. unfold upd. rewrite flat_tmap, in_map_iff. split.
    - intros (y & <- & Hy). destruct (Nat.eqb_spec (key y) k); auto.
    - intros [(Hx & Nx)|Ex]; [exists x; destruct (Nat.eqb_spec (key x) k); [contradiction|auto]|subst x; exists d; rewrite Kd, Nat.eqb_refl; auto]. }
  destruct (IH (upd k (fun _ => d') t) t') as [A B]; [now rewrite KU| |exact E|].
  - intros x Hx Kx. apply U in Hx. destruct Hx as [(Hx & _)|Ex]; [apply H; [exact Hx|now right]|subst x; exact Td].
  - split; [congruence|]. intros x Tx. rewrite (B x Tx), U. split.
    + intros [(Hx & _)|Ex]; [exact Hx|]. exfalso. subst x. rewrite Tx in Td. congruence.
    + intros Hx. left. split; [exact Hx|]. intros Kx. assert (x = d) by (apply (data_unique t); auto; congruence). subst x. congruence.
Qed.
Lemma linear_radial t t' : NoDup (keys t) -> resolve_linear_gradient_attributes t = Some (Ok t') -> acyclic_kind ERadialGradient t' <-> acyclic_kind ERadialGradient t.
Proof.
  intros Nd E. unfold resolve_linear_gradient_attributes in E. destruct (gen_order ELinearGradient t) as [ks|] eqn:G; [|discriminate]. injection E as E.
  destruct (linear_others ERadialGradient ltac:(discriminate) ks t t' Nd) as [_ B]; [|exact E|].
  - intros d Hd Kd. unfold gen_order in G. destruct (order_loop_some _ t _ _ _ (ordered_nil _ t) G) as [O L]. pose proof (ordered_all _ t ks Nd O L) as All. apply All, kind_nodes_in in Kd. destruct Kd as (x & Hx & Tx & Ex). assert (x = d) by (apply (data_unique t); congruence). now subst x.
  - unfold acyclic_kind. split; intros (rank & R); exists rank; intros d x Hd Hx Td Tx; apply R; auto; now apply B.
Qed.
(** regroup_gradient_stops *)
Definition leads (n : nat) (t t' : tree) : Prop := forall d', In d' (flat t') -> (key d' = n /\ node_links d' = []) \/ exists d, In d (flat t) /\ key d' = key d /\ tag d' = tag d /\ incl (node_links d') (node_links d ++ [n]).
Lemma refers_links d k : refers_to d k <-> In k (node_links d).
Proof.
  unfold refers_to, node_links. rewrite in_flat_map. split; intros (x & Hx & H); exists x; (split; [exact Hx|]); destruct (link_of (a_val x)); cbn in *; try discriminate; [injection H as ->; auto|destruct H as [->|[]]; reflexivity|contradiction].
Qed.
Lemma leads_acyclic n t t' : ~ In n (keys t) -> leads n t t' -> acyclic_kind ELinearGradient t -> acyclic_kind ELinearGradient t'.
Proof.
  intros Nn L (rank & R). exists (fun k => if Nat.eqb k n then 0 else S (rank k)). intros d x Hd Hx Td Tx Rf. apply refers_links in Rf. destruct (L d Hd) as [[_ Z]|(d0 & Hd0 & K & Tg & I)]; [rewrite Z in Rf; destruct Rf|].
  assert (Nd : key d <> n) by (intros X; apply Nn; rewrite <- X, K; now apply in_map). apply Nat.eqb_neq in Nd. rewrite Nd. destruct (Nat.eqb_spec (key x) n) as [E|E]; [lia|]. apply I, in_app_or in Rf. destruct Rf as [Rf|[Rf|[]]]; [|congruence].
  destruct (L x Hx) as [[X _]|(x0 & Hx0 & Kx & Tgx & _)]; [contradiction|]. assert (rank (key x0) < rank (key d0)); [|rewrite Kx, K; lia]. apply R; auto; try congruence. apply refers_links. now rewrite <- Kx.
Qed.
Lemma leads_node n t t' f : leads n t t' -> (forall d, key (f d) = key d /\ tag (f d) = tag d /\ (key d = n -> node_links d = [] -> node_links (f d) = []) /\ incl (node_links (f d)) (node_links d ++ [n])) -> leads n t (tmap f t').
Proof.
  intros L H d' Hd'. rewrite flat_tmap in Hd'. apply in_map_iff in Hd'. destruct Hd' as (d & <- & Hd). destruct (H d) as (A & B & C & D). destruct (L d Hd) as [[K Z]|(d0 & Hd0 & K & Tg & I)].
  - left. split; [congruence|auto].
  - right. exists d0. split; [exact Hd0|]. split; [congruence|]. split; [congruence|]. intros k Hk. apply D, in_app_or in Hk. destruct Hk as [Hk|Hk]; [now apply I|apply in_or_app; now right].
Qed.
Lemma leads_incl n t t' t2 : leads n t t' -> incl (flat t2) (flat t') -> leads n t t2.
Proof. intros L I d Hd. apply L, I, Hd. Qed.
Lemma flat_cut k t : incl (flat (set_kids k (fun _ => []) t)) (flat t).
Proof.
  induction t as [d ch IH] using tree_ind'. cbn [set_kids]. destruct (Nat.eqb (key d) k); cbn [flat flat_map]; [intros x [<-|[]]; now left|]. intros x [<-|Hx]; [now left|right]. rewrite in_flat_map in *. destruct Hx as (c & Hc & Hx). apply in_map_iff in Hc. destruct Hc as (c0 & <- & Hc). exists c0. split; [exact Hc|]. rewrite Forall_forall in IH. exact (IH c0 Hc x Hx).
Qed.
Lemma flat_before k u t : incl (flat (insert_before k u t)) (flat u ++ flat t).
Proof.
  induction t as [d ch IH] using tree_ind'. rewrite before_T. cbn [flat]. intros x [<-|Hx]; [apply in_or_app; right; now left|]. rewrite in_flat_map in Hx. destruct Hx as (c & Hc & Hx). rewrite in_flat_map in Hc. destruct Hc as (c0 & Hc0 & Hc). rewrite Forall_forall in IH. specialize (IH c0 Hc0).
  assert (Q : In x (flat u) \/ In x (flat (insert_before k u c0))). { destruct (Nat.eqb _ _); [destruct Hc as [<-|[<-|[]]]; auto|destruct Hc as [<-|[]]; auto]. }
  apply in_or_app. destruct Q as [Q|Q]; [now left|]. apply IH, in_app_or in Q. destruct Q as [Q|Q]; [now left|right]. right. apply in_flat_map. eauto.
Qed.
Lemma leads_link n j t t' : j <> n -> leads n t t' -> leads n t (upd j (fun d => d_set d AXlinkHref (VLink n)) t').
Proof.
  intros Nj L. apply leads_node; [exact L|]. intros d. destruct (Nat.eqb_spec (key d) j) as [E|E]; [|repeat split; auto; intros k Hk; apply in_or_app; now left]. split; [reflexivity|]. split; [reflexivity|]. split; [intros X; exfalso; apply Nj; congruence|].
  assert (X : ext [n] d (d_set d AXlinkHref (VLink n))) by (apply ext_set; intros k Q; injection Q as <-; apply in_or_app; right; now left). apply X.
Qed.
Lemma sub_flat s t d : In s (subs t) -> In d (flat s) -> In d (flat t).
Proof. intros Hs Hd. rewrite <- map_data_subs in Hd. apply in_map_iff in Hd. destruct Hd as (x & <- & Hx). apply data_of_sub, (subs_trans t s); assumption. Qed.
Lemma share_leads k1 js t t' : In k1 (keys t) -> incl js (keys t) -> share k1 js t = Ok t' -> leads (fresh t) t t'.
Proof.
  intros Hk Hj E. unfold share in E. destruct (forallb _ _); [|discriminate]. injection E as <-. cbn [key]. pose proof (GroupDefsEnd.fresh_not t) as Fr. set (n := fresh t) in *. set (t1 := insert_before _ _ _).
  assert (L0 : leads n t t) by (intros d Hd; right; exists d; repeat split; auto; intros k Q; apply in_or_app; now left).
  assert (L1 : leads n t t1).
  { intros d Hd. apply flat_before, in_app_or in Hd. destruct Hd as [[<-|Hd]|Hd].
    - left. split; reflexivity.
    - apply L0. unfold kids_of in Hd. destruct (find_sub k1 t) as [s|] eqn:Es; [|destruct Hd]. apply find_sub_some in Es. apply (sub_flat s t d (proj1 Es)). destruct s as [ds cs]. right. exact Hd.
    - refine (leads_link n k1 t _ _ (leads_incl n t t _ L0 (flat_cut k1 t)) d Hd). intros ->. contradiction. }
  clearbody t1. revert t1 L1. induction js as [|j js IH]; intros t1 L1; [exact L1|]. cbn [fold_left]. apply IH; [intros y Hy; apply Hj; now right|].
  apply leads_link; [intros ->; apply Fr, Hj; now left|]. unfold remove_kids. refine (leads_incl _ _ _ _ _ (flat_cut _ _)). rewrite unlink_eq. apply leads_node; [exact L1|]. intros d. split; [reflexivity|]. split; [reflexivity|].
  assert (I : incl (node_links (unlink_data (flat_map keys (kids_of j t1)) d)) (node_links d)) by apply links_filter. split; [|intros k Q; apply in_or_app; left; now apply I].
  intros _ Z. destruct (node_links (unlink_data _ d)) as [|k l]; [reflexivity|]. exfalso. pose proof (I k (or_introl eq_refl)) as X. rewrite Z in X. destruct X.
Qed.
Lemma loop_acyclic m : forall l t p, regroup_loop m l t = Ok p -> acyclic_kind ELinearGradient t -> acyclic_kind ELinearGradient (snd p).
Proof.
  induction m as [|m IH]; intros l t p E A; [cbn in E; injection E as <-; exact A|]. destruct l as [|k1 rest]; cbn [regroup_loop] in E; [injection E as <-; exact A|]. cbv zeta in E.
  destruct (filter (equal_stops t k1) rest) as [|j js] eqn:Ej; [exact (IH _ _ _ E A)|]. apply bind_ok in E. destruct E as (t1 & E1 & E). apply bind_ok in E. destruct E as (q & E2 & E). injection E as <-. cbn [snd].
  assert (Eq : forall i, In i (j :: js) -> In k1 (keys t) /\ In i (keys t)).
  { intros i Hi. rewrite <- Ej in Hi. apply filter_In in Hi. destruct Hi as [_ Q]. unfold equal_stops in Q. destruct (find_sub k1 t) as [s1|] eqn:Q1; [|discriminate]. destruct (find_sub i t) as [s2|] eqn:Q2; [|discriminate]. apply find_sub_some in Q1, Q2. destruct Q1 as [Q1 <-], Q2 as [Q2 <-]. split; now apply key_in_sub. }
  refine (IH _ _ _ E2 _). apply (leads_acyclic (fresh t) t); [apply GroupDefsEnd.fresh_not| |exact A]. apply (share_leads k1 (j :: js) t t1); [apply (Eq j); now left|intros i Hi; now apply Eq|exact E1].
Qed.
Lemma regroup_ends t : fine t -> nonest t -> acyclic_kind ELinearGradient t -> regroup_gradient_stops t <> None.
Proof.
  intros F U A. unfold regroup_gradient_stops. destruct (regroup_loop _ _ t) as [[b t1]| |] eqn:E; try discriminate. pose proof (loop_acyclic _ _ _ _ E A) as A1. apply (fine_regroup_loop _ _ _ _ F U) in E.
  - cbn [snd] in *. destruct b; [|discriminate]. apply (linear_ends t1); [apply E|exact A1].
  - intros k d Hk Hd Kd. unfold stop_owners in Hk. apply in_map_iff in Hk. destruct Hk as (s & Ks & Hs). apply filter_In in Hs. destruct Hs as [Hs Q]. apply andb_true_iff in Q. destruct Q as [Q _]. apply andb_true_iff in Q. destruct Q as [Q _]. apply is_gradient_iff. assert (d = data s) by (apply (data_unique t); [apply F|exact Hd|now apply data_of_sub|unfold root_key in Ks; congruence]). now subst d.
Qed.
Lemma gradient_attrs_end t : NoDup (keys t) -> WFA t -> href_acyclic t -> plain_links t -> remove_gradient_attributes t <> None.
Proof.
  intros N A (rank & R) PL. unfold remove_gradient_attributes, rm_equal. destruct (sequence_ok rank t N R (List.length (units_order t)) (units_order t) (counted_start t N A PL) (le_n _)) as (ks & -> & _). discriminate.
Qed.
