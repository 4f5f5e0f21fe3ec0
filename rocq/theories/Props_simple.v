(** Property theorems C07, C09-C12, C43, C46: the small passes. *)
From Coq Require Import List Bool NArith Arith ZArith String Lia.
From Verif Require Import Names Num Value Dom DomFacts DomOps IdNum SpecId IdNumProofs Outcome TasksSimple SpecDom TasksSimpleProofs.
Import ListNotations.

(** C07. The pre-clean check accepts exactly the supported documents, and never panics. *)
Theorem C07_accepts_iff_supported : forall t, preclean_checks t = Ok tt <-> supported t.
Proof. exact preclean_ok. Qed.
Print Assumptions C07_accepts_iff_supported.

Theorem C07_errors_have_a_cause : forall t, preclean_checks t <> Panic /\
  (preclean_checks t = Err Animation -> exists d e, In d (flat t) /\ tag d = TEl e /\ is_animation e) /\
  (preclean_checks t = Err Scripting -> exists d e, In d (flat t) /\ tag d = TEl e /\
     (e = EScript \/ exists a, In a (attrs d) /\ is_event_name (a_name a))) /\
  (preclean_checks t = Err Conditional -> exists d e x s, In d (flat t) /\ tag d = TEl e /\
     In x [ARequiredFeatures; ASystemLanguage] /\ d_get d x = Some (VStr s) /\ s <> ""%string) /\
  (forall s, preclean_checks t = Err (ExternalHref s) -> exists d e, In d (flat t) /\ tag d = TEl e /\
     ~ In e [EA; EImage; EFontFaceUri; EFeImage] /\ d_get d AXlinkHref = Some (VStr s)).
Proof.
  intros t. unfold preclean_checks, bind.
  assert (Hn : forall d, In d (svg_nodes t) -> In d (flat t) /\ exists e, tag d = TEl e) by (intros d; apply svg_nodes_in).
  destruct (first_error bad_element (svg_nodes t)) as [u|e|] eqn:E1; [clear E1| |now apply first_error_panic in E1].
  2:{ apply first_error_err in E1. destruct E1 as (d & Hd & E1). apply Hn in Hd. destruct Hd as (Hd & x & Ht).
      unfold bad_element in E1. rewrite Ht in E1.
      assert (X : (e = Scripting /\ x = EScript) \/ (e = Animation /\ is_animation x)).
      { unfold is_animation. destruct x; try discriminate E1; injection E1 as <-; cbn; tauto. }
      split; [discriminate|]. destruct X as [[-> ->]|[-> Ha]]; repeat split; intros *; intros [=]; exists d; eauto. }
  destruct (first_error bad_event (svg_nodes t)) as [u2|e|] eqn:E2; [clear E2| |now apply first_error_panic in E2].
  2:{ apply first_error_err in E2. destruct E2 as (d & Hd & E2). apply Hn in Hd. destruct Hd as (Hd & x & Ht).
      unfold bad_event in E2. destruct (existsb is_event_attr (attrs d)) eqn:X; [|discriminate]. injection E2 as <-.
      apply existsb_exists in X. destruct X as (a & Ha & X). apply is_event_attr_iff in X.
      split; [discriminate|]. repeat split; intros *; intros [=]. exists d, x. split; [exact Hd|split; [exact Ht|]]. right. eauto. }
  destruct (first_error bad_condition (svg_nodes t)) as [u3|e|] eqn:E3; [clear E3| |now apply first_error_panic in E3].
  2:{ apply first_error_err in E3. destruct E3 as (d & Hd & E3). apply Hn in Hd. destruct Hd as (Hd & x & Ht).
      unfold bad_condition in E3. destruct (nonempty_str _ || nonempty_str _) eqn:X in E3; [|discriminate]. injection E3 as <-.
      split; [discriminate|]. repeat split; intros *; intros [=]. exists d, x.
      assert (G : forall y, nonempty_str (d_get d y) = true -> exists s, d_get d y = Some (VStr s) /\ s <> ""%string).
      { intros y Hy. destruct (d_get d y) as [[s| | | | | | | | | |]|]; try discriminate. exists s. split; [reflexivity|].
        intros ->. discriminate. }
      apply orb_prop in X. destruct X as [X|X]; apply G in X; destruct X as (s & Es & Hs);
        [exists ARequiredFeatures, s|exists ASystemLanguage, s]; cbn; tauto. }
  destruct (first_error bad_href (svg_nodes t)) as [u4|e|] eqn:E4; [split; [discriminate|]; repeat split; discriminate| |now apply first_error_panic in E4].
  apply first_error_err in E4. destruct E4 as (d & Hd & E4). apply Hn in Hd. destruct Hd as (Hd & x & Ht).
  unfold bad_href in E4. rewrite Ht in E4.
  assert (X : ~ In x [EA; EImage; EFontFaceUri; EFeImage] /\ exists s, d_get d AXlinkHref = Some (VStr s) /\ e = ExternalHref s).
  { destruct (d_get d AXlinkHref) as [[s| | | | | | | | | |]|]; try (destruct x; discriminate E4). split.
    - intros H. cbn in H. repeat (destruct H as [<-|H]; [discriminate E4|]). contradiction.
    - exists s. split; [reflexivity|]. destruct x; congruence. }
  destruct X as (X1 & s & X2 & ->). split; [discriminate|]. repeat split; intros *; intros [=]. subst. exists d, x. auto.
Qed.
Print Assumptions C07_errors_have_a_cause.

(** The repo's own cases (src/task/preclean_checks.rs:148-162). *)
Example C07_instances :
  preclean_checks (doc [el 1 ESvg [] [el 2 EScript [] []]]) = Err Scripting /\
  preclean_checks (doc [el 1 ESvg [at_ AOnload (VStr "")] []]) = Err Scripting /\
  preclean_checks (doc [el 1 ESvg [] [el 2 ESet [] []]]) = Err Animation /\
  preclean_checks (doc [el 1 ESvg [] [el 2 ESwitch [at_ ARequiredFeatures (VStr "text")] []]]) = Err Conditional /\
  preclean_checks (doc [el 1 ESvg [] [el 2 ESwitch [at_ ASystemLanguage (VStr "")] []]]) = Ok tt /\
  preclean_checks (doc [el 1 ESvg [] [el 2 EUse [at_ AXlinkHref (VStr "a.svg#b")] []]]) = Err (ExternalHref "a.svg#b").
Proof. repeat split. Qed.

(** C09. The ids handed out by trim-ids: [nth_id n] is the id of the n-th renamed element. *)
Theorem C09_ids_distinct : forall i j s, nth_id i = Some s -> nth_id j = Some s -> i = j.
Proof. exact nth_id_inj. Qed.
Print Assumptions C09_ids_distinct.

(** Valid up to the first five-letter ids that run out of leading letters; see the refutation. *)
Theorem C09_ids_valid_partial : forall n s, nth_id n = Some s -> (Z.of_nat n < 657035132)%Z ->
  valid_id s = true.
Proof.
  intros n s H L. destruct (nth_id_string n s H) as (_ & V & _). rewrite V. apply Z.ltb_lt.
  change valid_capacity with 657035132%Z. exact L.
Qed.
Print Assumptions C09_ids_valid_partial.

Theorem C09_all_letters_and_digits : forall n s, nth_id n = Some s ->
  s <> ""%string /\ all_chars (fun c => is_letter c || is_digit c) s = true.
Proof. intros n s H. split; [now apply (nth_id_nonempty n)|]. now destruct (nth_id_string n s H). Qed.
Print Assumptions C09_all_letters_and_digits.

(** Beyond that index the generator produces ids that start with a digit. *)
Theorem C09_id_starts_with_digit_refuted : exists n s, nth_id n = Some s /\ valid_id s = false.
Proof. exact invalid_id_exists. Qed.
Print Assumptions C09_id_starts_with_digit_refuted.

(** Ids come out shortest first: every valid id of at most four characters is handed out, and before
    any longer one. (Five-character ids ending in a digit are skipped by the code.) *)
Theorem C09_shortest_first : forall s n s', valid_id s = true -> String.length s <= 4 ->
  nth_id n = Some s' -> String.length s < String.length s' -> exists i, i < n /\ nth_id i = Some s.
Proof.
  intros s n s' V L H Hl. destruct (short_id_generated s V L) as (i & Hi). exists i. split; [|exact Hi].
  exact (nth_id_order i n s s' Hi H Hl).
Qed.
Print Assumptions C09_shortest_first.
Theorem C09_lengths_grow : forall i j s t, nth_id i = Some s -> nth_id j = Some t -> i <= j -> String.length s <= String.length t.
Proof.
  intros i j s t Hi Hj L. destruct (le_lt_dec (String.length s) (String.length t)) as [|X]; [assumption|].
  pose proof (nth_id_order j i t s Hj Hi X). lia.
Qed.
Print Assumptions C09_lengths_grow.
(** The generator stops (panics) only after 780965692 ids. *)
Theorem C09_capacity : forall n, nth_id n <> None <-> (Z.of_nat n < 780965692)%Z.
Proof. intros n. rewrite nth_id_total. change capacity with 780965692%Z. reflexivity. Qed.
Print Assumptions C09_capacity.
Example C09_instance : map nth_id [0; 1; 51; 52; 53] = [Some "a"; Some "b"; Some "Z"; Some "aa"; Some "ab"]%string.
Proof. reflexivity. Qed.

(** C10. trim-ids: nothing but ids changes; the SVG elements with an id, in document order, get the
    generated ids in order; every other node keeps its id. *)
Theorem C10_trim_ids : forall t t', trim_ids t = Ok t' ->
  erase_ids t' = erase_ids t /\
  Forall2 (fun d d' => svg_with_id d = false -> d' = d) (flat t) (flat t') /\
  map (fun d => Some (nid d)) (filter svg_with_id (flat t')) =
    map nth_id (seq 0 (List.length (filter svg_with_id (flat t)))) /\
  NoDup (map nid (filter svg_with_id (flat t'))).
Proof.
  intros t t' H. split; [now apply trim_erase|]. split; [|split; [now apply trim_nth|now apply (trim_distinct t)]].
  pose proof (trim_rel t t' H) as R. eapply Forall2_impl; [|exact R]. cbn. intros d d' E P. now rewrite P in E.
Qed.
Print Assumptions C10_trim_ids.
Theorem C10_trim_ids_panics_only_when_exhausted : forall t,
  trim_ids t = Panic <-> (780965692 <= Z.of_nat (List.length (filter svg_with_id (flat t))))%Z.
Proof.
  intros t. rewrite trim_ids_eq. unfold id_count. fold svg_with_id. change capacity with 780965692%Z.
  change (fun d => is_svg_el d && has_id d) with svg_with_id.
  destruct (Z.ltb_spec (Z.of_nat (List.length (filter svg_with_id (flat t)))) 780965692); split; intros; try discriminate; try lia; reflexivity.
Qed.
Print Assumptions C10_trim_ids_panics_only_when_exhausted.
(** Ids of non-SVG elements are kept and can collide with generated ones. *)
Theorem C10_all_ids_distinct_refuted : exists t t', WF t /\ trim_ids t = Ok t' /\
  NoDup (map nid (filter has_id (flat t))) /\ ~ NoDup (map nid (filter has_id (flat t'))).
Proof.
  exists (doc [el 1 ESvg [] [eli 2 ERect "r" [] []; T (ND 3 (TOtherEl "x:y") "a" []) []]]). eexists.
  split; [|split; [reflexivity|split]].
  - split; [cbn; repeat constructor; cbn; intuition discriminate|]. cbn. contradiction.
  - cbn. repeat constructor; cbn; intuition discriminate.
  - cbn. intros N. inversion N as [|? ? H _]; subst. apply H. left. reflexivity.
Qed.
Print Assumptions C10_all_ids_distinct_refuted.
Example C10_instance :
  trim_ids (doc [el 1 ESvg [] [eli 2 ELinearGradient "LinearGradient1" [] []; eli 3 ERect "rectangle" [at_ AFill (VFunc 2)] []; el 4 EG [] []]]) =
  Ok (doc [el 1 ESvg [] [eli 2 ELinearGradient "a" [] []; eli 3 ERect "b" [at_ AFill (VFunc 2)] []; el 4 EG [] []]]).
Proof. reflexivity. Qed.

(** C11. An id is dropped exactly when nothing refers to its node; nothing else changes. *)
Theorem C11_unreferenced_ids : forall t,
  erase_ids (remove_unreferenced_ids t) = erase_ids t /\
  Forall2 (fun d d' => (referenced t (key d) -> nid d' = nid d) /\ (~ referenced t (key d) -> nid d' = ""%string))
    (flat t) (flat (remove_unreferenced_ids t)).
Proof.
  intros t. unfold remove_unreferenced_ids. split.
  - unfold erase_ids. rewrite tmap_tmap. apply tmap_ext. intros d _. now destruct (has_id d && _).
  - rewrite flat_tmap. apply Forall2_map_self. intros d _. rewrite referenced_iff. split.
    + intros ->. now rewrite andb_false_r.
    + intros H. apply not_true_is_false in H. rewrite H, andb_true_r. unfold has_id.
      destruct (String.eqb_spec (nid d) ""); [assumption|reflexivity].
Qed.
Print Assumptions C11_unreferenced_ids.
Example C11_instance :
  remove_unreferenced_ids (doc [el 1 ESvg [] [eli 2 ERadialGradient "lg1" [] []; eli 3 ERadialGradient "lg2" [] [];
    eli 4 ERect "unused" [at_ AFill (VFunc 2)] []]]) =
  doc [el 1 ESvg [] [eli 2 ERadialGradient "lg1" [] []; eli 3 ERadialGradient "" [] []; eli 4 ERect "" [at_ AFill (VFunc 2)] []]].
Proof. reflexivity. Qed.

(** C12. remove-title/-desc/-metadata. [gone]: the node is, or is inside of, an element named [e]. *)
Definition gone (e : eid) (t : tree) (k : nat) : Prop :=
  exists s, In s (subs t) /\ tag (data s) = TEl e /\ In k (keys s).
Theorem C12_remove_element : forall e t, WF t -> tag (data t) = TRoot ->
  let t' := remove_element e t in
  (forall d, In d (flat t') -> tag d <> TEl e) /\
  (forall k, In k (keys t') <-> In k (keys t) /\ ~ gone e t k) /\
  sublist (keys t') (keys t) /\
  (forall d', In d' (flat t') -> exists d, In d (flat t) /\ key d' = key d /\ tag d' = tag d /\ nid d' = nid d /\
     (forall a, In a (attrs d') <-> In a (attrs d) /\ forall k, link_of (a_val a) = Some k -> ~ gone e t k)) /\
  WF t'.
Proof.
  intros e t W Hr. cbn zeta. pose proof (wf_keys t W) as N.
  assert (HP : forall d l, is_tag e (with_attrs d l) = is_tag e d) by reflexivity.
  assert (B : forall k, In k (below (is_tag e) t) <-> gone e t k).
  { intros k. rewrite below_in. unfold cut, gone. split; intros (s & Hs & Et & Hk); exists s.
    - apply is_tag_iff in Et. split; [now apply in_kids_subs|auto].
    - split; [|split; [now apply is_tag_iff|exact Hk]]. destruct t as [d ch]. destruct Hs as [<-|Hs]; [cbn in Hr, Et; congruence|exact Hs]. }
  assert (W' : WF (remove_element e t)) by (apply WF_drain; exact W).
  revert W'. unfold remove_element. rewrite (drain_closed (is_tag e) t N HP). unfold pruned. intros W'.
  assert (NU : NoDup (keys (unlink (below (is_tag e) t) t))) by now rewrite keys_unlink.
  assert (C : forall k, cut (fun c => is_tag e (data c)) (unlink (below (is_tag e) t) t) k <-> gone e t k).
  { intros k. rewrite <- B, below_in. unfold cut. rewrite unlink_eq, kids_tmap, flat_map_map.
    assert (M : flat_map (fun x => subs (tmap (unlink_data (below (is_tag e) t)) x)) (kids t) =
       map (tmap (unlink_data (below (is_tag e) t))) (flat_map subs (kids t))).
    { rewrite map_flat_map. apply flat_map_ext. intros x. apply subs_tmap. }
    rewrite M. clear M. split.
    - intros (s & Hs & Es & Hk). apply in_map_iff in Hs. destruct Hs as (s0 & <- & Hs0). exists s0.
      rewrite data_tmap in Es. rewrite keys_tmap in Hk by reflexivity. auto.
    - intros (s & Hs & Es & Hk). exists (tmap (unlink_data (below (is_tag e) t)) s). split; [now apply in_map|].
      rewrite data_tmap, keys_tmap by reflexivity. auto. }
  assert (K : forall k, In k (keys (prune (fun c => is_tag e (data c)) (unlink (below (is_tag e) t) t))) <-> In k (keys t) /\ ~ gone e t k).
  { intros k. rewrite (prune_keys _ _ NU), C, keys_unlink. reflexivity. }
  split; [|split; [exact K|split; [|split; [|exact W']]]].
  - intros d Hd Ht. apply (prune_flat _ _ d NU) in Hd. destruct Hd as [Hd Hc]. rewrite C in Hc.
    rewrite unlink_eq, flat_tmap in Hd. apply in_map_iff in Hd. destruct Hd as (d0 & <- & Hd0).
    rewrite <- map_data_subs in Hd0. apply in_map_iff in Hd0. destruct Hd0 as (s & <- & Hs).
    apply Hc. exists s. split; [exact Hs|split; [exact Ht|]]. apply root_in_keys.
  - pose proof (keys_prune_sublist (fun c => is_tag e (data c)) (unlink (below (is_tag e) t) t)) as X. rewrite keys_unlink in X. exact X.
  - intros d' Hd'. apply (prune_flat _ _ d' NU) in Hd'. destruct Hd' as [Hd' _].
    rewrite unlink_eq, flat_tmap in Hd'. apply in_map_iff in Hd'. destruct Hd' as (d & <- & Hd). exists d.
    split; [exact Hd|]. do 3 (split; [reflexivity|]). intros a. split.
    + cbn. intros H. apply filter_In in H. destruct H as [Ha H]. apply negb_true_iff in H.
      split; [exact Ha|]. intros k Ek G.
      assert (X : existsb (fun k => refers k a) (below (is_tag e) t) = true); [|congruence].
      apply refers_mem. exists k. split; [exact Ek|]. now apply B.
    + intros [Ha H]. cbn. apply filter_In. split; [exact Ha|]. apply negb_true_iff.
      destruct (existsb (fun k => refers k a) (below (is_tag e) t)) eqn:X; [|reflexivity]. exfalso.
      apply refers_mem in X. destruct X as (k & Ek & Hk). apply (H k Ek). now apply B.
Qed.
Print Assumptions C12_remove_element.
Example C12_instance :
  remove_element ETitle (doc [el 1 ESvg [] [el 2 ETitle [] [el 3 ETitle [] []; el 4 ERect [] []]; el 5 ERect [] []]]) =
  doc [el 1 ESvg [] [el 5 ERect [] []]].
Proof. reflexivity. Qed.

(** C43. Final fixes. *)
(** remove-version: only the version and baseProfile attributes of the root svg element go. *)
Theorem C43_remove_version : forall t s, WF t -> svg_element t = Some s ->
  exists t', remove_version t = Ok t' /\ erase_attrs t' = erase_attrs t /\
  Forall2 (fun d d' => (key d <> root_key s -> d' = d) /\
     (key d = root_key s -> forall a, In a (attrs d') <-> In a (attrs d) /\ a_name a <> AN AVersion /\ a_name a <> AN ABaseProfile))
    (flat t) (flat t').
Proof.
  intros t s W E. unfold remove_version, on_svg. rewrite E. eexists. split; [reflexivity|]. split.
  - unfold erase_attrs. rewrite upd_eq, tmap_tmap. apply tmap_ext. intros d _. now destruct (Nat.eqb (key d) (root_key s)).
  - rewrite upd_eq, flat_tmap. apply Forall2_map_self. intros d _. split.
    + intros H. apply Nat.eqb_neq in H. now rewrite H.
    + intros H. apply Nat.eqb_eq in H. rewrite H. intros a. cbn. unfold rm_attr. rewrite !filter_In, !negb_true_iff, !has_name_false. tauto.
Qed.
Print Assumptions C43_remove_version.

(** The identity transform is dropped, every other attribute of every node stays; the transform in
    effect (identity when there is no transform attribute) is the same. *)
Definition effective_transform (d : ndata) : option transform :=
  match d_get d ATransform with
  | Some (VTransform ts) => Some ts
  | Some _ => None
  | None => Some t_id
  end.
Theorem C43_remove_default_transform : forall t,
  erase_attrs (remove_default_transform t) = erase_attrs t /\
  Forall2 (fun d d' => effective_transform d' = effective_transform d /\ d_get d' ATransform <> Some (VTransform t_id) /\
     (forall a, a_name a <> AN ATransform -> In a (attrs d') <-> In a (attrs d)) /\
     (d_get d ATransform <> Some (VTransform t_id) -> d' = d))
    (flat t) (flat (remove_default_transform t)).
Proof.
  intros t. unfold remove_default_transform. split.
  - unfold erase_attrs. rewrite tmap_tmap. apply tmap_ext. intros d _. now destruct (is_default_transform _).
  - rewrite flat_tmap. apply Forall2_map_self. intros d _. unfold is_default_transform, effective_transform.
    destruct (d_get d ATransform) as [v|] eqn:E; [|rewrite E; repeat split; auto; discriminate].
    destruct v; try (rewrite E; repeat split; auto; discriminate).
    destruct (transform_eqb_spec t0 t_id) as [->|Hn].
    + assert (G : d_get (d_rm d ATransform) ATransform = None) by apply d_get_rm_same.
      rewrite G. repeat split; auto; try discriminate; try congruence.
      * cbn. unfold rm_attr. rewrite filter_In. tauto.
      * intros Ha. cbn. unfold rm_attr. apply filter_In. split; [exact Ha|]. now apply negb_true_iff, has_name_false.
    + rewrite E. repeat split; auto. congruence.
Qed.
Print Assumptions C43_remove_default_transform.

(** xmlns:xlink is declared whenever an SVG element has an xlink:href or is referenced; with the
    removal enabled it is not declared otherwise; no other attribute of any node changes. *)
Definition uses_xlink_href (t : tree) : Prop :=
  exists d e, In d (flat t) /\ tag d = TEl e /\ (d_has d AXlinkHref = true \/ referenced t (key d)).
Lemma has_links_iff t : has_links t = true <-> uses_xlink_href t.
Proof.
  unfold has_links, uses_xlink_href. rewrite existsb_exists. split.
  - intros (d & Hd & H). apply svg_nodes_in in Hd. destruct Hd as (Hd & e & He). exists d, e. apply orb_prop in H.
    rewrite referenced_iff. tauto.
  - intros (d & e & Hd & He & H). exists d. split; [apply svg_nodes_in; eauto|]. apply orb_true_iff. rewrite referenced_iff in H. tauto.
Qed.
Theorem C43_xmlns_xlink : forall b t s, svg_element t = Some s ->
  exists t', fix_xmlns_attribute b t = Ok t' /\ erase_attrs t' = erase_attrs t /\
  Forall2 (fun d d' => (key d <> root_key s -> d' = d) /\
     (forall a, a_name a <> AN AXmlnsXlink -> In a (attrs d') <-> In a (attrs d))) (flat t) (flat t') /\
  (forall d', In d' (flat t') -> key d' = root_key s -> (forall d, In d (flat t) -> key d = root_key s -> d = data s) ->
     (uses_xlink_href t -> d_has d' AXmlnsXlink = true) /\
     (~ uses_xlink_href t -> d_has d' AXmlnsXlink = negb b && d_has (data s) AXmlnsXlink)).
Proof.
  intros b t s E. unfold fix_xmlns_attribute, on_svg. rewrite E. cbn zeta.
  assert (L : uses_xlink_href t -> has_links t = true) by apply has_links_iff.
  assert (NL : ~ uses_xlink_href t -> has_links t = false).
  { intros H. destruct (has_links t) eqn:X; [|reflexivity]. apply has_links_iff in X. contradiction. }
  assert (Gs : forall d, d_has (d_set d AXmlnsXlink (VStr xlink_ns)) AXmlnsXlink = true).
  { intros d. apply d_has_set_same. }
  assert (Gr : forall d, d_has (d_rm d AXmlnsXlink) AXmlnsXlink = false).
  { intros d. apply d_has_rm_same. }
  assert (Hset : forall f : ndata -> ndata, (forall d, exists l, f d = with_attrs d l) ->
     (forall d a, a_name a <> AN AXmlnsXlink -> In a (attrs (f d)) <-> In a (attrs d)) ->
     erase_attrs (upd (root_key s) f t) = erase_attrs t /\
     Forall2 (fun d d' => (key d <> root_key s -> d' = d) /\
        (forall a, a_name a <> AN AXmlnsXlink -> In a (attrs d') <-> In a (attrs d))) (flat t) (flat (upd (root_key s) f t)) /\
     (forall d', In d' (flat (upd (root_key s) f t)) -> key d' = root_key s ->
        exists d, In d (flat t) /\ key d = root_key s /\ d' = f d)).
  { intros f Hf Ha. split; [|split].
    - unfold erase_attrs. rewrite upd_eq, tmap_tmap. apply tmap_ext. intros d _. destruct (Nat.eqb (key d) (root_key s)); [|reflexivity].
      destruct (Hf d) as (l & ->). reflexivity.
    - rewrite upd_eq, flat_tmap. apply Forall2_map_self. intros d _. split.
      + intros H. apply Nat.eqb_neq in H. now rewrite H.
      + intros a Hn. destruct (Nat.eqb (key d) (root_key s)); [now apply Ha|reflexivity].
    - intros d' Hd' Ek. rewrite upd_eq, flat_tmap in Hd'. apply in_map_iff in Hd'. destruct Hd' as (d & <- & Hd).
      exists d. destruct (Nat.eqb_spec (key d) (root_key s)) as [X|X]; auto. contradiction. }
  assert (Hs : forall d a, a_name a <> AN AXmlnsXlink -> In a (attrs (d_set d AXmlnsXlink (VStr xlink_ns))) <-> In a (attrs d)).
  { intros d a Hn. cbn. induction (attrs d) as [|x l IH]; cbn.
    - split; [intros [<-|[]]; contradiction|contradiction].
    - destruct (has_name (AN AXmlnsXlink) x) eqn:X; cbn; [|rewrite IH; tauto]. apply has_name_true in X.
      split; intros [<-|H]; auto; contradiction. }
  assert (Hr : forall d a, a_name a <> AN AXmlnsXlink -> In a (attrs (d_rm d AXmlnsXlink)) <-> In a (attrs d)).
  { intros d a Hn. cbn. unfold rm_attr. rewrite filter_In, negb_true_iff, has_name_false. tauto. }
  assert (Keep : erase_attrs t = erase_attrs t /\ Forall2 (fun d d' => (key d <> root_key s -> d' = d) /\
        (forall a, a_name a <> AN AXmlnsXlink -> In a (attrs d') <-> In a (attrs d))) (flat t) (flat t)).
  { split; [reflexivity|]. clear. induction (flat t) as [|d l IH]; constructor; [|exact IH]. split; [auto|reflexivity]. }
  destruct (has_links t) eqn:HL.
  - cbn [negb andb]. destruct (d_has (data s) AXmlnsXlink) eqn:HX; cbn [negb].
    + exists t. split; [reflexivity|]. split; [apply Keep|]. split; [apply Keep|].
      intros d' Hd' Ek U. rewrite (U d' Hd' Ek). split; [auto|]. intros X. apply NL in X. discriminate.
    + destruct (Hset (fun d => d_set d AXmlnsXlink (VStr xlink_ns))) as (A & B & C); [eexists; reflexivity|exact Hs|].
      eexists. split; [reflexivity|]. split; [exact A|]. split; [exact B|].
      intros d' Hd' Ek U. destruct (C d' Hd' Ek) as (d & Hd & Ed & ->). split; [auto|]. intros X. apply NL in X. discriminate.
  - cbn [negb andb]. destruct b; cbn [andb negb]; [destruct (d_has (data s) AXmlnsXlink) eqn:HX|].
    + destruct (Hset (fun d => d_rm d AXmlnsXlink)) as (A & B & C); [eexists; reflexivity|exact Hr|].
      eexists. split; [reflexivity|]. split; [exact A|]. split; [exact B|].
      intros d' Hd' Ek U. destruct (C d' Hd' Ek) as (d & Hd & Ed & ->). split; [intros X; apply L in X; discriminate|]. intros _. apply Gr.
    + exists t. split; [reflexivity|]. split; [apply Keep|]. split; [apply Keep|].
      intros d' Hd' Ek U. rewrite (U d' Hd' Ek). split; [intros X; apply L in X; discriminate|]. auto.
    + exists t. split; [reflexivity|]. split; [apply Keep|]. split; [apply Keep|].
      intros d' Hd' Ek U. rewrite (U d' Hd' Ek). split; [intros X; apply L in X; discriminate|]. auto.
Qed.
Print Assumptions C43_xmlns_xlink.

(** The declaration is removed although another xlink attribute is still written. *)
Theorem C43_xlink_declared_when_needed_refuted : exists t t' s s', WF t /\ svg_element t = Some s /\
  d_has (data s) AXmlnsXlink = true /\ fix_xmlns_attribute true t = Ok t' /\ svg_element t' = Some s' /\
  d_has (data s') AXmlnsXlink = false /\ exists d, In d (flat t') /\ d_has d AXlinkTitle = true.
Proof.
  exists (doc [el 1 ESvg [at_ AXmlnsXlink (VStr xlink_ns)] [el 2 EA [at_ AXlinkTitle (VStr "t")] []]]).
  eexists. eexists. eexists. repeat split; try reflexivity.
  - cbn. repeat constructor; cbn; intuition discriminate.
  - cbn. contradiction.
  - eexists. split; [right; right; left; reflexivity|reflexivity].
Qed.
Print Assumptions C43_xlink_declared_when_needed_refuted.

(** At most one element is removed: a defs without children that is a child of the svg element. *)
Theorem C43_remove_empty_defs : forall t s, WF t -> svg_element t = Some s ->
  exists t', remove_empty_defs t = Ok t' /\ WF t' /\
  (t' = t /\ (forall c, In c (kids s) -> tag (data c) = TEl EDefs -> kids c <> []) \/
   exists c, In c (kids s) /\ tag (data c) = TEl EDefs /\ kids c = [] /\
     (forall d', In d' (flat t') <-> exists d, In d (flat t) /\ key d <> root_key c /\
        d' = with_attrs d (filter (fun a => negb (refers (root_key c) a)) (attrs d)))).
Proof.
  intros t s W E. unfold remove_empty_defs, on_svg. rewrite E. destruct (find _ (kids s)) as [c|] eqn:F.
  - apply find_some in F. destruct F as [Hc F]. apply andb_prop in F. destruct F as [F1 F2]. apply is_tag_iff in F1.
    assert (Kc : kids c = []) by (destruct (kids c); [reflexivity|discriminate]).
    destruct (svg_element_some t s E) as [Hs _].
    assert (Sc : In c (flat_map subs (kids t))).
    { apply in_flat_map. exists s. split; [exact Hs|]. destruct s as [ds cs]. right. apply in_flat_map. exists c. split; [exact Hc|apply subs_self]. }
    assert (Rc : root_key c <> root_key t).
    { pose proof (wf_keys t W) as N. rewrite keys_kids in N. inversion N as [|? ? Nr _]; subst. intros X. apply Nr. rewrite <- X. now apply in_forest_root. }
    eexists. split; [reflexivity|]. split; [now apply WF_remove|]. right. exists c. split; [exact Hc|split; [exact F1|split; [exact Kc|]]].
    assert (SK : sub_keys (root_key c) t = [root_key c]).
    { unfold sub_keys. rewrite (find_sub_iff t c (wf_keys t W)) by now apply in_kids_subs. rewrite keys_kids, Kc. reflexivity. }
    intros d'. rewrite (remove_flat (root_key c) t d' (wf_keys t W) Rc), SK. split.
    + intros (d & Hd & Hk & ->). exists d. split; [exact Hd|split; [intros X; apply Hk; left; auto|]].
      unfold unlink_data. f_equal. apply filter_ext. intros a. cbn. now rewrite orb_false_r.
    + intros (d & Hd & Hk & ->). exists d. split; [exact Hd|split; [intros [X|[]]; auto|]].
      unfold unlink_data. f_equal. apply filter_ext. intros a. cbn. now rewrite orb_false_r.
  - exists t. split; [reflexivity|split; [exact W|left]]. split; [reflexivity|]. intros c Hc Ht Kc.
    apply find_none with (x := c) in F; [|exact Hc]. apply is_tag_iff in Ht. rewrite Ht, Kc in F. discriminate.
Qed.
Print Assumptions C43_remove_empty_defs.
Example C43_instances :
  remove_empty_defs (doc [el 1 ESvg [] [el 2 ERect [] []; el 3 EDefs [] []]]) = Ok (doc [el 1 ESvg [] [el 2 ERect [] []]]) /\
  fix_xmlns_attribute true (doc [el 1 ESvg [] [eli 2 ERect "rect1" [] []; el 3 EUse [at_ AXlinkHref (VLink 2)] []]]) =
  Ok (doc [el 1 ESvg [at_ AXmlnsXlink (VStr xlink_ns)] [eli 2 ERect "rect1" [] []; el 3 EUse [at_ AXlinkHref (VLink 2)] []]]).
Proof. split; reflexivity. Qed.

(** C46. ungroup-defs: the directly rendered nodes are the same, in the same order; all nodes but some
    defs elements stay, in document order, and only references to the removed defs vanish. *)
Theorem C46_ungroup_defs : forall t, WF t ->
  let t' := ungroup_defs t in
  WF t' /\ map key (rendered t') = map key (rendered t) /\
  exists ds, (forall d, In d (flat t) -> In (key d) ds -> tag d = TEl EDefs) /\
    flat t' = map (fun d => with_attrs d (filter (fun a => negb (existsb (fun k => refers k a) ds)) (attrs d)))
      (filter (fun d => negb (existsb (Nat.eqb (key d)) ds)) (flat t)).
Proof.
  intros t W. cbn zeta. unfold ungroup_defs.
  set (Inv := fun c : tree => root_key c = root_key t /\ WF c /\ map key (rendered c) = map key (rendered t) /\
    exists ds, (forall d, In d (flat t) -> In (key d) ds -> tag d = TEl EDefs) /\
    flat c = map (unlink_data ds) (filter (fun d => negb (existsb (Nat.eqb (key d)) ds)) (flat t))).
  assert (G : forall l c b, ~ In (root_key t) l -> Inv c -> Inv (fst (fold_left ungroup_defs_step l (c, b)))).
  { induction l as [|k l IH]; intros c b Hl HI; [exact HI|]. cbn [fold_left].
    assert (Hl' : ~ In (root_key t) l) by (intros X; apply Hl; right; exact X).
    unfold ungroup_defs_step at 2. destruct b; [|apply IH; auto]. cbn [negb].
    destruct (find_sub k c) as [s|] eqn:F; [|apply IH; auto].
    destruct (is_tag EDefs (data s) && forallb (fun c => tag_sat is_referenced (data c)) (kids s)) eqn:P; [|apply IH; auto].
    apply andb_prop in P. destruct P as [P1 P2]. destruct HI as (R & Wc & Rn & ds & Hds & Hf).
    assert (Hk : k <> root_key c) by (rewrite R; intros ->; apply Hl; left; reflexivity).
    apply IH; [exact Hl'|]. split; [|split; [|split]].
    - unfold root_key. rewrite unlink_eq, data_tmap, data_splice. exact R.
    - now apply WF_splice_unlink.
    - rewrite unlink_eq, rendered_tmap by reflexivity. rewrite map_map. cbn [key unlink_data with_attrs].
      rewrite (rendered_splice k c s); auto. apply Wc.
    - exists (ds ++ [k]). split.
      + intros d Hd Hin. apply in_app_or in Hin. destruct Hin as [Hin|[Ekd|[]]]; [now apply Hds|].
        apply find_sub_some in F. destruct F as [F1 F2]. apply data_of_sub in F1. rewrite Hf in F1.
        apply in_map_iff in F1. destruct F1 as (d0 & E0 & F1). apply filter_In in F1. destruct F1 as [F1 _].
        assert (Kd : key d0 = key d) by (rewrite <- Ekd, <- F2; unfold root_key; rewrite <- E0; reflexivity).
        assert (d0 = d) by (eapply data_unique; [apply W| | |]; eauto). subst d0.
        apply is_tag_iff in P1. rewrite <- E0 in P1. exact P1.
      + rewrite unlink_eq, flat_tmap, flat_splice by (auto; apply Wc). rewrite Hf.
        rewrite <- (map_id (flat t)) at 1. rewrite map_id.
        assert (FM : forall (f : ndata -> ndata) p l, (forall d, p (f d) = p d) -> filter p (map f l) = map f (filter p l)).
        { clear. intros f p l H. induction l as [|x l IH]; cbn; [reflexivity|]. rewrite H. destruct (p x); cbn; congruence. }
        rewrite FM by reflexivity. rewrite filter_filter, map_map.
        assert (FE : filter (fun d => negb (existsb (Nat.eqb (key d)) ds) && negb (Nat.eqb (key d) k)) (flat t) =
                     filter (fun d => negb (existsb (Nat.eqb (key d)) (ds ++ [k]))) (flat t)).
        { apply filter_ext. intros d. rewrite existsb_app. cbn. now rewrite orb_false_r, negb_orb. }
        rewrite FE. apply map_ext. intros d. unfold unlink_data, with_attrs. cbn. f_equal. rewrite filter_filter.
        apply filter_ext. intros a. rewrite existsb_app. cbn [existsb]. now destruct (existsb _ ds), (refers k a). }
  destruct (G (tl (keys t)) t true) as (_ & A & B & ds & C & D).
  - apply root_not_tl. apply W.
  - split; [reflexivity|split; [exact W|split; [reflexivity|]]]. exists []. split; [contradiction|].
    rewrite (filter_all _ (flat t)) by reflexivity. rewrite <- (map_id (flat t)) at 1. apply map_ext. intros d.
    destruct d as [k g i l]. unfold unlink_data, with_attrs. cbn. f_equal. symmetry. apply filter_all. reflexivity.
  - split; [exact A|split; [exact B|]]. exists ds. split; [exact C|exact D].
Qed.
Print Assumptions C46_ungroup_defs.

(** A document with a single defs that holds never-rendered elements only loses it. *)
Theorem C46_single_defs_is_ungrouped : forall t k s, WF t -> find_sub k t = Some s -> k <> root_key t ->
  tag (data s) = TEl EDefs -> (forall d, In d (flat t) -> tag d = TEl EDefs -> key d = k) ->
  (forall c, In c (kids s) -> tag_sat is_referenced (data c) = true) ->
  ungroup_defs t = unlink [k] (splice k t).
Proof.
  intros t k s W F Hk Hs Hu Hc. unfold ungroup_defs. pose proof (wf_keys t W) as N.
  assert (Kin : In k (tl (keys t))).
  { assert (I : In k (keys t)) by (apply find_sub_some in F; destruct F as [F <-]; now apply in_subs_root).
    rewrite keys_kids in *. destruct I as [I|I]; [congruence|exact I]. }
  assert (Idle : forall l c b, (forall d, In d (flat c) -> tag d = TEl EDefs -> ~ In (key d) l) ->
     fold_left ungroup_defs_step l (c, b) = (c, b)).
  { induction l as [|j l IH]; intros c b H; [reflexivity|]. cbn [fold_left].
    assert (E : ungroup_defs_step (c, b) j = (c, b)).
    { unfold ungroup_defs_step. destruct b; [|reflexivity]. cbn. destruct (find_sub j c) as [x|] eqn:Fx; [|reflexivity].
      destruct (is_tag EDefs (data x)) eqn:T; [|reflexivity]. exfalso. apply find_sub_some in Fx. destruct Fx as [Fx Kx].
      apply (H (data x)); [now apply data_of_sub|now apply is_tag_iff|]. left. symmetry. exact Kx. }
    rewrite E. apply IH. intros d Hd Ht X. apply (H d Hd Ht). right. exact X. }
  apply in_split in Kin. destruct Kin as (l1 & l2 & El). 
  assert (Ntl : NoDup (tl (keys t))) by (rewrite tl_keys; rewrite keys_kids in N; inversion N; assumption).
  rewrite El in Ntl. rewrite El. apply NoDup_remove_2 in Ntl. rewrite fold_left_app.
  rewrite (Idle l1). 2:{ intros d Hd Ht X. apply Ntl. apply in_or_app. left. rewrite (Hu d Hd Ht) in X. exact X. }
  cbn [fold_left]. unfold ungroup_defs_step at 2. cbn [negb]. rewrite F.
  assert (T : is_tag EDefs (data s) = true) by now apply is_tag_iff. rewrite T.
  assert (FA : forallb (fun c => tag_sat is_referenced (data c)) (kids s) = true) by (apply forallb_forall; exact Hc).
  rewrite FA. cbn [andb]. rewrite Idle; [reflexivity|].
  intros d Hd Ht X. rewrite unlink_eq, flat_tmap, flat_splice in Hd by auto. apply in_map_iff in Hd. destruct Hd as (d0 & <- & Hd).
  apply filter_In in Hd. destruct Hd as [Hd Hn]. apply negb_true_iff, Nat.eqb_neq in Hn. apply Hn. now apply Hu.
Qed.
Print Assumptions C46_single_defs_is_ungrouped.
Example C46_instance :
  ungroup_defs (doc [el 1 ESvg [] [el 2 EDefs [] [el 3 ELinearGradient [] []; el 4 ERadialGradient [] []]]]) =
    doc [el 1 ESvg [] [el 3 ELinearGradient [] []; el 4 ERadialGradient [] []]] /\
  (let t := doc [el 1 ESvg [] [el 2 EDefs [] [el 3 ELinearGradient [] []; el 4 ERect [] []]]] in ungroup_defs t = t).
Proof. split; reflexivity. Qed.

(** What the moved elements inherit can change: attributes of the defs itself are dropped. *)
Theorem C46_keeps_inherited_style_refuted : exists t d, WF t /\
  In d (flat t) /\ tag d = TEl EDefs /\ d_get d AFill = Some (VColor 255 0 0) /\
  (exists p, In p (flat t) /\ tag p = TEl ERect /\ d_get p AFill = None) /\
  forall d', In d' (flat (ungroup_defs t)) -> d_get d' AFill = None.
Proof.
  exists (doc [el 1 ESvg [] [el 2 EDefs [at_ AFill (VColor 255 0 0)] [el 3 EPattern [] [el 4 ERect [] []]]]]).
  eexists. split; [|split; [right; right; left; reflexivity|repeat split]].
  - split; [cbn; repeat constructor; cbn; intuition discriminate|cbn; contradiction].
  - eexists. split; [do 4 right; left; reflexivity|split; reflexivity].
  - cbn. intros d' H. repeat (destruct H as [<-|H]; [reflexivity|]). contradiction.
Qed.
Print Assumptions C46_keeps_inherited_style_refuted.
