(** C08: no pass leaves a dangling link or a duplicated identity. *)
From Coq Require Import List Bool NArith Arith ZArith String Lia QArith Qcanon.
From Verif Require Import Names Num Value Dom DomFacts Outcome Cli TasksSimple SpecDom SpecText SpecWritten APass SpecUse Clean SpecClean Props_clean Visit MoveFacts Img Regroup ResolveUse UseStep UseEnd
  WfAll WfPasses WfPasses2 WfStruct WfUse WfGrad SpecWf.
Import ListNotations.
Local Open Scope nat_scope.

Lemma well_formed_fine t : well_formed t <-> fine t.
Proof.
  split.
  - intros [I D A R]. split; [split| |exact R].
    + apply NoDup_nth_error. intros i j Hi E. unfold keys in *. rewrite map_length in Hi. rewrite !nth_error_map in E.
      destruct (nth_error (flat t) i) as [d|] eqn:Ed; [|apply nth_error_None in Ed; lia]. destruct (nth_error (flat t) j) as [e|] eqn:Ee; [|discriminate]. cbn in E. injection E as E. exact (I i j d e Ed Ee E).
    + intros k Hk. rewrite targets_flat in Hk. apply in_flat_map in Hk. destruct Hk as (d & Hd & Hk). apply node_links_iff in Hk. destruct (D k) as (e & He & <-); [exists d; auto|]. now apply (in_map key).
    + apply Forall_forall. intros d Hd. apply NoDup_nth_error. intros i j Hi E. rewrite map_length in Hi. rewrite !nth_error_map in E.
      destruct (nth_error (attrs d) i) as [a|] eqn:Ea; [|apply nth_error_None in Ea; lia]. destruct (nth_error (attrs d) j) as [b|] eqn:Eb; [|discriminate]. cbn in E. injection E as E. exact (A d i j a b Hd Ea Eb E).
  - intros [[N W] A R]. split; [| | |exact R].
    + intros i j d e Hi Hj E. rewrite NoDup_nth_error in N. apply N.
      * unfold keys. rewrite map_length. apply nth_error_Some. congruence.
      * unfold keys. rewrite !nth_error_map, Hi, Hj. cbn. congruence.
    + intros k (d & Hd & Q). assert (X : In k (keys t)). { apply W. rewrite targets_flat. apply in_flat_map. exists d. split; [exact Hd|]. now apply node_links_iff. } apply in_map_iff in X. destruct X as (e & <- & He). eauto.
    + intros d i j a b Hd Hi Hj E. pose proof (proj1 (Forall_forall _ _) A d Hd) as X. unfold attrs_nodup in X. rewrite NoDup_nth_error in X. apply X.
      * rewrite map_length. apply nth_error_Some. congruence.
      * rewrite !nth_error_map, Hi, Hj. cbn. congruence.
Qed.

(** Something strictly inside of an element has that element among its ancestors. *)
Lemma inside_ctx t j k x : NoDup (keys t) -> In x (flat t) -> key x = j -> inside t j k -> j = k \/ exists anc p, In (anc, x) (ctx [] t) /\ In p anc /\ key p = k.
Proof.
  intros N Hx Kx (s & Hs & <- & Hj). destruct (Nat.eq_dec j (root_key s)) as [E|E]; [now left|right].
  apply sub_of_key in Hj. destruct Hj as (u & Hu & Ku). destruct s as [d ch]. cbn [subs] in Hu. destruct Hu as [<-|Hu]; [now destruct E|].
  destruct (under_place t (T d ch) u Hs Hu) as (a & P & Ha). exists a, d. split; [|auto]. apply ctx_place. exists u. split; [exact P|].
  apply (data_unique t); auto; [exact (place_in _ _ _ _ P)|unfold root_key in Ku; congruence].
Qed.
Lemma nonest_spec t : fine t -> no_nested_gradients t -> nonest t.
Proof.
  intros F C g g' Hg Hg' G G' I. destruct (inside_ctx t (key g) (key g') g (wf_keys t (fine_wf t F)) Hg eq_refl I) as [E|(anc & p & Hc & Hp & Kp)]; [exact E|]. exfalso.
  assert (P : In p (flat t)). { apply ctx_place in Hc. destruct Hc as (s & Hc & _). destruct (place_anc _ _ _ _ Hc) as (l & E & L). rewrite app_nil_r in E. subst l. apply in_split in Hp. destruct Hp as (l1 & l2 & ->). destruct (L l1 p l2 eq_refl) as (s' & Q & <- & _). rewrite app_nil_r in Q. exact (place_in _ _ _ _ Q). }
  assert (p = g') by (apply (data_unique t); auto; apply (fine_wf t F)). subst. exact (C anc g g' Hc Hp G' G).
Qed.
Lemma bare_spec t : fine t -> no_gradients_in_templates t -> bare t.
Proof.
  intros F C d g k Hd Gd Hk Hg Gg I. destruct (inside_ctx t (key g) k g (wf_keys t (fine_wf t F)) Hg eq_refl I) as [E|(anc & p & Hc & Hp & <-)]; [exact E|]. exfalso.
  apply node_links_iff in Hk. exact (C d anc g p Hd Gd Hc Hp Hk Gg).
Qed.

Lemma fine_perform x o p t t' : fine t -> calm p t -> perform x o p t = Some (Ok t') -> fine t'.
Proof.
  intros F C E. destruct p; cbn [perform calm] in *; try (injection E as <-);
    eauto using fine_round, fine_element, fine_ids, fine_invalid_stops, fine_default_transform, fine_needless, fine_join, fine_ungroup_defs.
  - now apply (fine_linear t).
  - now apply (fine_radial t).
  - injection E as E. now apply (fine_stops t).
  - injection E as E. now apply (fine_inherit t).
  - injection E as E. now apply (fine_fix t).
  - injection E as E. now apply (fine_group_defs t).
  - now apply (fine_unused_defs t).
  - injection E as E. now apply (fine_grad_transforms t).
  - injection E as E. exact (fine_rm_loop _ _ t t' F E).
  - injection E as E. exact (fine_rm_loop _ _ t t' F E).
  - injection E as E. exact (fine_rm_loop _ _ t t' F E).
  - unfold merge_all in E. destruct (MergeGradients.merge_gradients _ t) as [u|] eqn:M; [|discriminate]. injection E as <-. apply (fine_merge _ t u F (bare_spec t F C) M).
  - exact (fine_ungroup _ _ t t' F E).
  - injection E as E. now apply (fine_shape_transforms t).
  - injection E as E. now apply (fine_shapes t).
  - injection E as E. exact (fine_paths _ t t' F E).
  - exact (fine_invisible _ t t' F E).
  - exact (fine_regroup t t' F (nonest_spec t F C) E).
  - injection E as E. exact (fine_resolve_use t t' F C E).
  - injection E as E. exact (fine_default _ t t' F E).
  - injection E as E. exact (fine_text t t' F E).
  - exact (fine_gradient_attrs t t' F E).
  - injection E as E. exact (fine_coords t t' F E).
  - injection E as E. exact (fine_group_style t t' F E).
  - injection E as E. exact (fine_trim t t' F E).
  - injection E as E. exact (fine_version t t' F E).
  - injection E as E. exact (fine_empty_defs t t' F E).
  - injection E as E. exact (fine_xmlns _ t t' F E).
Qed.

(** C08, one pass: if the pass succeeds, identities are still unique, and every link leads to an element that is there.
    Three passes need a condition ([calm]). Missing: the part of the claim about redirected links (see C21-C23 for the
    passes that redirect links). *)
Theorem C08_pass_partial x o p t t' : well_formed t -> calm p t -> perform x o p t = Some (Ok t') -> well_formed t'.
Proof. rewrite !well_formed_fine. apply fine_perform. Qed.
Lemma runs_prefix x o : forall l t r, runs x o l t r -> forall t', r = Some (Ok t') -> fine t ->
  (forall pre p post t1, l = pre ++ p :: post -> runs x o pre t (Some (Ok t1)) -> calm p t1) -> fine t'.
Proof.
  intros l t r H. induction H as [t|p l t t1 r E H IH| | |]; intros t' Q F C; try discriminate; [now injection Q as <-|].
  apply (IH t' Q); [exact (fine_perform x o p t t1 F (C [] p l t eq_refl (runs_done _ _ _)) E)|]. intros pre q post t2 -> R. apply (C (p :: pre) q post t2 eq_refl). now apply (runs_next x o p pre t t1).
Qed.
(** C08, the whole program: what is saved has unique identities and no dangling link. *)
Theorem C08_clean_partial x o t t' : well_formed t -> calm_run x o t -> clean_doc x o t = Some (Ok t') -> well_formed t'.
Proof.
  rewrite !well_formed_fine. intros F C E. destruct (preclean_checks t) as [[]|e|] eqn:P.
  - apply (runs_prefix x o (filter (enabled o) pipeline) t (Some (Ok t'))); auto. now apply C45_pipeline.
  - unfold clean_doc in E. rewrite P in E. discriminate.
  - unfold clean_doc in E. rewrite P in E. discriminate.
Qed.
(** With the three options off there are no conditions. *)
Theorem C08_clean_without x o t t' : o_merge_gradients o = false -> o_regroup_gradient_stops o = false -> o_resolve_use o = false ->
  well_formed t -> clean_doc x o t = Some (Ok t') -> well_formed t'.
Proof.
  intros H1 H2 H3 W E. apply (C08_clean_partial x o t t' W); [|exact E]. intros pre p post t1 Q _. assert (H : In p (filter (enabled o) pipeline)) by (rewrite Q; apply in_or_app; right; now left).
  apply filter_In in H. destruct H as [_ H]. destruct p; cbn in H; try exact I; congruence.
Qed.

(** An instance: gradients that are merged, duplicates, a use element, links that are removed with their elements. *)
Definition all_on : cleaning_options := {|
  o_remove_unused_defs := true; o_convert_shapes := true; o_remove_title := true; o_remove_desc := true; o_remove_metadata := true;
  o_remove_dupl_linear_gradients := true; o_remove_dupl_radial_gradients := true; o_remove_dupl_fe_gaussian_blur := true;
  o_ungroup_groups := true; o_ungroup_defs := true; o_group_by_style := true; o_merge_gradients := true; o_regroup_gradient_stops := true;
  o_remove_invalid_stops := true; o_remove_invisible_elements := true; o_resolve_use := true; o_remove_version := true;
  o_remove_unreferenced_ids := true; o_trim_ids := true; o_remove_text_attributes := true; o_remove_unused_coordinates := true;
  o_remove_default_attributes := true; o_remove_xmlns_xlink_attribute := true; o_remove_needless_attributes := true;
  o_remove_gradient_attributes := true; o_apply_transform_to_gradients := true; o_apply_transform_to_shapes := true;
  o_paths_to_relative := true; o_remove_unused_segments := true; o_convert_segments := true; o_append_newline := false;
  o_apply_transform_to_paths := true; o_join_style_attributes := JoinNone;
  o_coordinates_precision := 6; o_properties_precision := 6; o_paths_coordinates_precision := 8; o_transforms_precision := 8 |}%Z.
Definition lib : svgdom := {| x_default := fun _ => None; x_write := fun _ => EmptyString; x_self := true; x_stops := true |}.
Definition stop_ (k : nat) (z : Z) : tree := el k EStop [at_ AOffset (px z); at_ AStopColor (VColor 0 0 (Z.to_N z))] [].
Definition link_doc : tree := doc [el 1 ESvg [] [
  el 2 ETitle [] [];
  eli 3 ELinearGradient "a" [at_ AXlinkHref (VLink 4)] [];
  el 15 EG [] [eli 4 ELinearGradient "b" [] [stop_ 5 0; stop_ 6 1]];
  eli 7 ELinearGradient "c" [at_ AX1 (VLen (Len (zq 1) UNone))] [stop_ 8 0; stop_ 9 1];
  eli 10 ELinearGradient "d" [at_ AX1 (VLen (Len (zq 1) UNone))] [stop_ 11 0; stop_ 12 1];
  eli 14 EClipPath "e" [] [];
  el 21 EDefs [] [eli 22 ERect "k" [at_ AWidth (px 7); at_ AHeight (px 5)] []];
  el 23 EUse [at_ AXlinkHref (VLink 22); at_ AX (px 6)] [];
  el 13 ERect [at_ AWidth (px 5); at_ AHeight (px 5); at_ AFill (VFunc 3); at_ AStroke (VFunc 10)] [];
  el 16 ERect [at_ AWidth (px 4); at_ AHeight (px 5); at_ AFill (VFunc 3); at_ AStroke (VFunc 7)] [];
  el 17 ERect [at_ AWidth (px 4); at_ AHeight (px 5); at_ AClipPath (VFunc 14)] []]].
Definition summary (r : outcome) : option (list (nat * list nat)) :=
  match r with Some (Ok t) => Some (map (fun d => (key d, node_links d)) (flat t)) | _ => None end.
(** ** Checks for instances *)
Definition grad_b (d : ndata) : bool := match tag d with TEl ELinearGradient | TEl ERadialGradient => true | _ => false end.
Lemma grad_b_spec d : grad_b d = true <-> gradient_node d.
Proof. unfold grad_b, gradient_node. destruct (tag d) as [|[]| | | |]; intuition (try discriminate; auto). Qed.
Definition templates_b (t : tree) : bool :=
  forallb (fun g => negb (grad_b g) || forallb (fun c => negb (grad_b (snd c)) || negb (existsb (fun p => existsb (Nat.eqb (key p)) (node_links g)) (fst c))) (ctx [] t)) (flat t).
Lemma templates_b_spec t : templates_b t = true -> no_gradients_in_templates t.
Proof.
  intros H g anc x p Hg G Hc Hp R X. unfold templates_b in H. rewrite forallb_forall in H. specialize (H g Hg). apply grad_b_spec in G, X. rewrite G in H. cbn [negb orb] in H. rewrite forallb_forall in H. specialize (H _ Hc). cbn [fst snd] in H. rewrite X in H. cbn [negb orb] in H.
  apply negb_true_iff in H. rewrite <- not_true_iff_false in H. apply H. apply existsb_exists. exists p. split; [exact Hp|]. apply existsb_exists. exists (key p). split; [|apply Nat.eqb_refl]. now apply node_links_iff.
Qed.
Definition nested_b (t : tree) : bool := forallb (fun c => negb (grad_b (snd c)) || negb (existsb grad_b (fst c))) (ctx [] t).
Lemma nested_b_spec t : nested_b t = true -> no_nested_gradients t.
Proof.
  intros H anc g p Hc Hp P G. unfold nested_b in H. rewrite forallb_forall in H. specialize (H _ Hc). cbn [fst snd] in H. apply grad_b_spec in G, P. rewrite G in H. cbn [negb orb] in H. apply negb_true_iff in H. rewrite <- not_true_iff_false in H. apply H. apply existsb_exists. eauto.
Qed.
(** The elements that are shown, in the order of their keys. *)
Definition order_b (t : tree) : bool :=
  forallb (fun p => match find_sub (snd p) t with Some l => forallb (fun q => negb (existsb (Nat.eqb (fst q)) (keys l)) || (snd q <? snd p)) (use_pairs t) | None => true end) (use_pairs t).
Lemma order_b_spec t : fine t -> order_b t = true -> no_recursion t.
Proof.
  intros F H. exists (fun k => k). intros u v u' v' R R' I. pose proof (fine_wf t F) as W. pose proof (fine_wfa t F) as A. pose proof (r_use _ _ _ R) as [Hu _]. pose proof (r_use _ _ _ R') as [Hu' _]. pose proof (r_link _ _ _ R) as [Hv _].
  assert (P : In (root_key u, root_key v) (use_pairs t)) by (apply in_pairs; exists u; split; [exact Hu|]; split; [reflexivity|]; now apply target_complete).
  assert (P' : In (root_key u', root_key v') (use_pairs t)) by (apply in_pairs; exists u'; split; [exact Hu'|]; split; [reflexivity|]; now apply target_complete).
  unfold order_b in H. rewrite forallb_forall in H. specialize (H _ P). cbn [fst snd] in H. rewrite (proj2 (find_sub_iff (root_key v) t v (wf_keys t W)) (conj Hv eq_refl)) in H || (assert (E : find_sub (root_key v) t = Some v) by (apply find_sub_iff; [apply W|exact Hv]); rewrite E in H).
  rewrite forallb_forall in H. specialize (H _ P'). cbn [fst snd] in H. apply orb_true_iff in H. destruct H as [H|H]; [|now apply Nat.ltb_lt]. exfalso. apply negb_true_iff in H. rewrite <- not_true_iff_false in H. apply H. apply existsb_exists. exists (root_key u'). split; [|apply Nat.eqb_refl]. now apply key_in_sub.
Qed.
Definition calm_b (p : pass) (t : tree) : bool :=
  match p with PMerge => templates_b t | PRegroupStops => nested_b t | PResolveUse => order_b t | _ => true end.
Fixpoint calm_steps (x : svgdom) (o : cleaning_options) (l : list pass) (t : tree) : bool :=
  match l with [] => true | p :: l => calm_b p t && match perform x o p t with Some (Ok t1) => calm_steps x o l t1 | _ => true end end.
Lemma calm_steps_spec x o t : fine t -> calm_steps x o (filter (enabled o) pipeline) t = true -> calm_run x o t.
Proof.
  intros F H. unfold calm_run. revert t F H. generalize (filter (enabled o) pipeline) as l. induction l as [|q l IH]; intros t F H pre p post t1 E R; [destruct pre; discriminate|]. cbn [calm_steps] in H. apply andb_true_iff in H. destruct H as [C H].
  assert (Cq : calm q t). { destruct q; try exact I; cbn [calm_b calm] in *; [now apply templates_b_spec|now apply nested_b_spec|now apply order_b_spec]. }
  destruct pre as [|q' pre]; injection E as <- E.
  - inversion R; subst. exact Cq.
  - inversion R as [|? ? ? t2 ? P R'| | |]; subst. rewrite P in H. apply (IH t2 (fine_perform x o q t t2 F Cq P) H pre p post t1 eq_refl R').
Qed.
Definition fine_b (t : tree) : bool :=
  (fix nodup l := match l with [] => true | k :: l => negb (existsb (Nat.eqb k) l) && nodup l end) (keys t) &&
  forallb (fun k => existsb (Nat.eqb k) (keys t)) (targets t) && match tag (data t) with TRoot => true | _ => false end.
Lemma fine_b_spec t : fine_b t = true -> WFA t -> fine t.
Proof.
  unfold fine_b. intros H A. apply andb_true_iff in H. destruct H as [H R]. apply andb_true_iff in H. destruct H as [N W]. split; [split| |].
  - revert N. generalize (keys t) as l. induction l as [|k l IH]; intros N; [constructor|]. apply andb_true_iff in N. destruct N as [N1 N2]. constructor; [|now apply IH]. intros X. apply negb_true_iff in N1. rewrite <- not_true_iff_false in N1. apply N1. apply existsb_exists. exists k. split; [exact X|apply Nat.eqb_refl].
  - rewrite forallb_forall in W. intros k Hk. specialize (W k Hk). apply existsb_exists in W. destruct W as (j & Hj & E). apply Nat.eqb_eq in E. now subst.
  - exact A.
  - destruct (tag (data t)); try discriminate. reflexivity.
Qed.
Ltac wfa := unfold WFA, doc, el, at_; cbn [flat flat_map app]; repeat (apply Forall_cons || apply Forall_nil); unfold attrs_nodup; cbn; repeat constructor; cbn; intuition discriminate.
Example C08_instance : well_formed link_doc /\ calm_run lib all_on link_doc /\
  summary (clean_doc lib all_on link_doc) = Some [(0, []); (1, []); (24, []); (5, []); (6, []); (3, [24]); (7, [24]); (22, []); (25, [3; 7]); (13, []); (16, [])].
Proof.
  assert (F : fine link_doc) by (apply fine_b_spec; [vm_compute; reflexivity|wfa]). split; [now apply well_formed_fine|]. split; [apply calm_steps_spec; [exact F|vm_compute; reflexivity]|]. vm_compute. reflexivity.
Qed.

(** Without the condition on use elements: the element that is shown by a use element inside of it is lost, and with it
    the path of a [textPath]: the saved document has a link that leads nowhere. *)
Definition only_use : cleaning_options := Build_cleaning_options
  false false false false false false false false false false false false false false false true false false false false
  false false false false false false false false false false false false JoinNone 6 6 8 8.
Definition cycle_doc : tree := doc [el 1 ESvg [] [
  el 2 EDefs [] [eli 3 EG "a" [] [el 4 EUse [at_ AXlinkHref (VLink 3)] []; eli 5 EPath "b" [at_ AD (VPath [])] []]];
  el 6 EText [] [el 7 ETextPath [at_ AXlinkHref (VLink 5)] []]]].
Theorem C08_recursive_use_refuted : exists t t' d k, well_formed t /\ clean_doc lib only_use t = Some (Ok t') /\
  In d (flat t') /\ d_get d AXlinkHref = Some (VLink k) /\ forall e, In e (flat t') -> key e <> k.
Proof.
  exists cycle_doc. eexists. exists (ND 7 (TEl ETextPath) EmptyString [at_ AXlinkHref (VLink 5)]), 5. split; [apply well_formed_fine, fine_b_spec; [vm_compute; reflexivity|wfa]|]. split; [vm_compute; reflexivity|]. split; [cbn; auto 10|]. split; [reflexivity|].
  intros e He. cbn in He. repeat (destruct He as [<-|He]; [discriminate|]). destruct He.
Qed.
