(** Proofs about TasksSimple.v. *)
From Coq Require Import List Bool NArith Arith ZArith String Lia.
From Verif Require Import Names Num Value Dom DomFacts DomOps IdNum SpecId IdNumProofs Outcome TasksSimple SpecDom.
Import ListNotations.

Lemma first_error_ok f l : first_error f l = Ok tt <-> forall d, In d l -> f d = None.
Proof.
  induction l as [|d l IH]; cbn; [split; [contradiction|reflexivity]|]. destruct (f d) eqn:E.
  - split; [discriminate|]. intros H. rewrite (H d) in E by auto. discriminate.
  - rewrite IH. split; intros H; [intros x [<-|Hx]; auto|auto].
Qed.
Lemma first_error_err f l e : first_error f l = Err e -> exists d, In d l /\ f d = Some e.
Proof.
  induction l as [|d l IH]; cbn; [discriminate|]. destruct (f d) eqn:E.
  - intros [= <-]. eauto.
  - intros H. destruct (IH H) as (x & Hx & Ex). eauto.
Qed.
Lemma first_error_panic f l : first_error f l <> Panic.
Proof. induction l as [|d l IH]; cbn; [discriminate|]. destruct (f d); [discriminate|exact IH]. Qed.

Lemma is_event_attr_iff a : is_event_attr a = true <-> is_event_name (a_name a).
Proof.
  unfold is_event_attr, is_event_name. destruct (a_name a) as [x|s].
  - rewrite in_map_iff. split.
    + intros H. exists x. split; [reflexivity|]. destruct x; cbn in H; try discriminate H; cbn; tauto.
    + intros (y & [= ->] & H). cbn in H. repeat (destruct H as [<-|H]; [reflexivity|]). contradiction.
  - split; [discriminate|]. intros H. apply in_map_iff in H. destruct H as (y & [=] & _).
Qed.

Lemma node_ok_iff d e : tag d = TEl e ->
  (bad_element d = None /\ bad_event d = None /\ bad_condition d = None /\ bad_href d = None) <-> supported_element e d.
Proof.
  intros Ht. unfold bad_element, bad_event, bad_condition, bad_href. rewrite Ht. split.
  - intros (H1 & H2 & H3 & H4). split.
    + intros ->. discriminate.
    + intros H. cbn in H. repeat (destruct H as [<-|H]; [discriminate H1|]). contradiction.
    + intros a Ha He. apply is_event_attr_iff in He. destruct (existsb is_event_attr (attrs d)) eqn:X; [discriminate|].
      assert (Y : existsb is_event_attr (attrs d) = true) by (apply existsb_exists; eauto). congruence.
    + intros x s Hx Hg. destruct (nonempty_str _ || nonempty_str _) eqn:X in H3; [discriminate|].
      apply orb_false_iff in X. destruct X as [X1 X2].
      assert (G : nonempty_str (d_get d x) = false) by (destruct Hx as [<-|[<-|[]]]; assumption).
      rewrite Hg in G. cbn in G. destruct (String.eqb_spec s ""); [assumption|discriminate].
    + intros He s Hs. rewrite Hs in H4. apply He. destruct e; try discriminate H4; cbn; tauto.
  - intros [S1 S2 S3 S4 S5]. repeat split.
    + unfold is_animation in S2. destruct e; try reflexivity; try congruence; exfalso; apply S2; cbn; tauto.
    + destruct (existsb is_event_attr (attrs d)) eqn:X; [|reflexivity]. exfalso.
      apply existsb_exists in X. destruct X as (a & Ha & X). apply is_event_attr_iff in X. exact (S3 a Ha X).
    + assert (G : forall x, In x [ARequiredFeatures; ASystemLanguage] -> nonempty_str (d_get d x) = false).
      { intros x Hx. destruct (d_get d x) as [v|] eqn:Ev; [|reflexivity]. destruct v; try reflexivity.
        cbn. rewrite (S4 x s Hx Ev). reflexivity. }
      rewrite !G by (cbn; tauto). reflexivity.
    + destruct (d_get d AXlinkHref) as [v|] eqn:Ev; [|now destruct e].
      destruct v; try (now destruct e).
      assert (In e [EA; EImage; EFontFaceUri; EFeImage] \/ ~ In e [EA; EImage; EFontFaceUri; EFeImage]) as [H|H].
      { destruct (in_dec (fun x y => reflect_dec _ _ (eid_eqb_spec x y)) e [EA; EImage; EFontFaceUri; EFeImage]); auto. }
      * cbn in H. repeat (destruct H as [<-|H]; [reflexivity|]). contradiction.
      * exfalso. exact (S5 H s eq_refl).
Qed.

Lemma svg_nodes_in t d : In d (svg_nodes t) <-> In d (flat t) /\ exists e, tag d = TEl e.
Proof.
  unfold svg_nodes. rewrite filter_In. unfold is_svg_el. split; intros [H1 H2]; (split; [exact H1|]).
  - destruct (tag d); try discriminate. eauto.
  - destruct H2 as (e & ->). reflexivity.
Qed.

Lemma preclean_ok t : preclean_checks t = Ok tt <-> supported t.
Proof.
  unfold preclean_checks, bind.
  assert (D : forall f, first_error f (svg_nodes t) = Ok tt \/ exists e, first_error f (svg_nodes t) = Err e).
  { intros f. destruct (first_error f (svg_nodes t)) as [[]|e|] eqn:E; eauto. now apply first_error_panic in E. }
  assert (G : (first_error bad_element (svg_nodes t) = Ok tt /\ first_error bad_event (svg_nodes t) = Ok tt /\
    first_error bad_condition (svg_nodes t) = Ok tt /\ first_error bad_href (svg_nodes t) = Ok tt) <-> supported t).
  { rewrite !first_error_ok. unfold supported. split.
    - intros (H1 & H2 & H3 & H4) d e Hd Ht. apply node_ok_iff; [exact Ht|].
      assert (I : In d (svg_nodes t)) by (apply svg_nodes_in; eauto). auto.
    - intros H. assert (X : forall d, In d (svg_nodes t) -> bad_element d = None /\ bad_event d = None /\ bad_condition d = None /\ bad_href d = None).
      { intros d Hd. apply svg_nodes_in in Hd. destruct Hd as (Hd & e & He). apply (node_ok_iff d e He). now apply H. }
      repeat split; intros d Hd; now apply X in Hd as (? & ? & ? & ?). }
  rewrite <- G. clear G.
  destruct (D bad_element) as [-> | (e & ->)]; [|split; [discriminate|intros [? _]; discriminate]].
  destruct (D bad_event) as [-> | (e & ->)]; [|split; [discriminate|intros (_ & ? & _); discriminate]].
  destruct (D bad_condition) as [-> | (e & ->)]; [|split; [discriminate|intros (_ & _ & ? & _); discriminate]].
  tauto.
Qed.

(** * Trimming *)
Fixpoint trim_list (n : nat) (l : list ndata) : list ndata :=
  match l with
  | [] => []
  | d :: l' => if is_svg_el d && has_id d
               then match nth_id n with Some s => with_id d s :: trim_list (S n) l' | None => d :: l' end
               else d :: trim_list n l'
  end.
Definition id_count (l : list ndata) : nat := List.length (filter (fun d => is_svg_el d && has_id d) l).

Lemma nth_id_after n num : num_after n = Some num -> nth_id n = Some (num_to_string num).
Proof. unfold nth_id. now intros ->. Qed.
Lemma trim_list_none n l : num_after n = None -> trim_list n l = l.
Proof.
  intros E. induction l as [|x l IH]; cbn; [reflexivity|]. unfold nth_id. rewrite E. cbn.
  destruct (is_svg_el x && has_id x); [reflexivity|now rewrite IH].
Qed.
Lemma smap_none l : smap_list trim_node None l = (l, None).
Proof. induction l as [|d l IH]; cbn; [reflexivity|]. now rewrite IH. Qed.
Lemma trim_smap l n : num_after n <> None ->
  smap_list trim_node (num_after n) l = (trim_list n l, num_after (n + id_count l)).
Proof.
  revert n. induction l as [|d l IH]; intros n Hn; cbn.
  - unfold id_count. cbn. now rewrite Nat.add_0_r.
  - destruct (num_after n) as [num|] eqn:E; [|contradiction]. cbn [trim_node]. unfold id_count. cbn [filter].
    destruct (is_svg_el d && has_id d) eqn:P.
    + rewrite (nth_id_after n num E). cbn [List.length]. fold (id_count l).
      assert (E1 : num_after (S n) = plus_one num) by (cbn; now rewrite E).
      rewrite <- E1. destruct (num_after (S n)) as [num'|] eqn:E2.
      * rewrite <- E2, IH by congruence. replace (n + S (id_count l))%nat with (S n + id_count l)%nat by lia. reflexivity.
      * rewrite smap_none. f_equal; [f_equal|].
        -- symmetry. now apply trim_list_none.
        -- assert (Z.of_nat (S n) >= capacity)%Z as HC.
           { destruct (Z_lt_le_dec (Z.of_nat (S n)) capacity) as [L|L]; [|lia].
             destruct (num_after_state (S n) L) as (x & Ex & _). congruence. }
           symmetry. apply num_after_none. lia.
    + rewrite <- E, IH by congruence. reflexivity.
Qed.
Lemma trim_ids_eq t : trim_ids t =
  if (Z.of_nat (id_count (flat t)) <? capacity)%Z then Ok (fst (smap trim_node (Some num_new) t)) else Panic.
Proof.
  unfold trim_ids. destruct (smap trim_node (Some num_new) t) as [t' s] eqn:E.
  destruct (flat_smap trim_node t (Some num_new)) as [_ H]. rewrite E in H. cbn [snd] in H.
  change (Some num_new) with (num_after 0) in H. rewrite trim_smap in H by (cbn; discriminate).
  cbn [snd plus] in H. subst s. destruct (Z.ltb_spec (Z.of_nat (id_count (flat t))) capacity) as [L|L].
  - destruct (num_after_state _ L) as (x & -> & _). reflexivity.
  - rewrite num_after_none by lia. reflexivity.
Qed.
Lemma trim_ids_flat t t' : trim_ids t = Ok t' -> flat t' = trim_list 0 (flat t).
Proof.
  rewrite trim_ids_eq. destruct (_ <? _)%Z; [|discriminate]. intros [= <-].
  destruct (flat_smap trim_node t (Some num_new)) as [H _]. rewrite H.
  change (Some num_new) with (num_after 0). rewrite trim_smap by (cbn; discriminate). reflexivity.
Qed.

Definition svg_with_id (d : ndata) : bool := is_svg_el d && has_id d.
Lemma nth_id_nonempty n s : nth_id n = Some s -> s <> ""%string.
Proof.
  intros H ->. apply nth_id_string in H. destruct H as (_ & _ & H). cbn in H.
  repeat match type of H with context [(?a <? ?b)%Z] => destruct (a <? b)%Z end; discriminate.
Qed.
Lemma nonempty_has_id d s : s <> ""%string -> has_id (with_id d s) = true.
Proof. intros H. unfold has_id. cbn. destruct (String.eqb_spec s ""); [contradiction|reflexivity]. Qed.
Lemma trim_list_ids l n : (Z.of_nat (n + id_count l) <= capacity)%Z ->
  map (fun d => Some (nid d)) (filter svg_with_id (trim_list n l)) = map nth_id (seq n (id_count l)).
Proof.
  revert n. induction l as [|d l IH]; intros n Hn; [reflexivity|].
  unfold id_count in *. cbn [trim_list filter] in *. fold (svg_with_id d) in *. destruct (svg_with_id d) eqn:P.
  - cbn [List.length] in *. destruct (nth_id n) as [s|] eqn:E.
    + unfold svg_with_id at 1. cbn [filter].
      assert (Q : svg_with_id (with_id d s) = true).
      { unfold svg_with_id in *. apply andb_prop in P. destruct P as [P _]. unfold is_svg_el in *. cbn. rewrite P. cbn.
        apply nonempty_has_id. now apply (nth_id_nonempty n). }
      fold (svg_with_id (with_id d s)). rewrite Q. cbn [map seq]. rewrite E. f_equal. apply IH. lia.
    + exfalso. assert (nth_id n <> None); [|congruence]. apply nth_id_total. lia.
  - cbn [filter]. rewrite P. apply IH. exact Hn.
Qed.
Lemma trim_list_rel l n : (Z.of_nat (n + id_count l) <= capacity)%Z ->
  Forall2 (fun d d' => d' = if svg_with_id d then with_id d (nid d') else d) l (trim_list n l).
Proof.
  revert n. induction l as [|d l IH]; intros n Hn; [constructor|].
  unfold id_count in *. cbn [trim_list filter] in *. fold (svg_with_id d) in *. destruct (svg_with_id d) eqn:P.
  - cbn [List.length] in *. destruct (nth_id n) as [s|] eqn:E.
    + constructor; [rewrite P; reflexivity|]. apply IH. lia.
    + exfalso. assert (nth_id n <> None); [|congruence]. apply nth_id_total. lia.
  - constructor; [rewrite P; reflexivity|]. apply IH. lia.
Qed.
Lemma trim_count t t' : trim_ids t = Ok t' -> (Z.of_nat (id_count (flat t)) < capacity)%Z.
Proof. rewrite trim_ids_eq. destruct (Z.ltb_spec (Z.of_nat (id_count (flat t))) capacity); [auto|discriminate]. Qed.

Lemma trim_erase t t' : trim_ids t = Ok t' -> erase_ids t' = erase_ids t.
Proof.
  rewrite trim_ids_eq. destruct (_ <? _)%Z; [|discriminate]. intros [= <-]. unfold erase_ids. apply smap_erase.
  intros [num|] d; cbn; [|reflexivity]. now destruct (is_svg_el d && has_id d).
Qed.
Lemma NoDup_some {A} (l : list A) : NoDup (map Some l) -> NoDup l.
Proof. intros H. eapply NoDup_map_inv. exact H. Qed.
Lemma NoDup_nth_id n m : (Z.of_nat (n + m) <= capacity)%Z -> NoDup (map nth_id (seq n m)).
Proof.
  revert n. induction m as [|m IH]; intros n H; [constructor|]. cbn [seq map]. constructor; [|apply IH; lia].
  intros I. apply in_map_iff in I. destruct I as (j & Ej & Hj). apply in_seq in Hj.
  assert (X : nth_id n <> None) by (apply nth_id_total; lia). destruct (nth_id n) as [s|] eqn:E; [|contradiction].
  assert (j = n) by (eapply nth_id_inj; eauto). lia.
Qed.
Lemma trim_distinct t t' : trim_ids t = Ok t' -> NoDup (map nid (filter svg_with_id (flat t'))).
Proof.
  intros H. pose proof (trim_count t t' H) as C. rewrite (trim_ids_flat t t' H). apply NoDup_some. rewrite map_map.
  rewrite trim_list_ids by lia. apply NoDup_nth_id. lia.
Qed.
Lemma trim_nth t t' : trim_ids t = Ok t' ->
  map (fun d => Some (nid d)) (filter svg_with_id (flat t')) = map nth_id (seq 0 (id_count (flat t))).
Proof.
  intros H. pose proof (trim_count t t' H) as C. rewrite (trim_ids_flat t t' H). apply trim_list_ids. lia.
Qed.
Lemma trim_rel t t' : trim_ids t = Ok t' -> 
  Forall2 (fun d d' => d' = if svg_with_id d then with_id d (nid d') else d) (flat t) (flat t').
Proof.
  intros H. pose proof (trim_count t t' H) as C. rewrite (trim_ids_flat t t' H). apply trim_list_rel. lia.
Qed.

(** * References and simple in-place passes *)
Lemma referenced_iff t k : referenced t k <-> is_used k t = true.
Proof.
  rewrite is_used_iff, targets_in. unfold referenced, refers_to. split.
  - intros (d & Hd & a & Ha & E). eauto.
  - intros (d & a & Hd & Ha & E). eauto.
Qed.
Lemma Forall2_map_self {A} (R : A -> A -> Prop) (f : A -> A) l : (forall x, In x l -> R x (f x)) -> Forall2 R l (map f l).
Proof. induction l as [|x l IH]; cbn; intros H; constructor; auto. Qed.

Lemma upd_eq k f t : upd k f t = tmap (fun d => if Nat.eqb (key d) k then f d else d) t.
Proof. reflexivity. Qed.
Lemma svg_element_some t s : svg_element t = Some s -> In s (kids t) /\ tag (data s) = TEl ESvg.
Proof.
  intros H. apply find_some in H. destruct H as [H1 H2]. split; [exact H1|]. unfold is_tag in H2.
  destruct (tag (data s)); try discriminate. destruct (eid_eqb_spec e ESvg); congruence.
Qed.
Lemma is_tag_iff e d : is_tag e d = true <-> tag d = TEl e.
Proof.
  unfold is_tag. destruct (tag d); try (split; discriminate). destruct (eid_eqb_spec e0 e); split; congruence.
Qed.

(** * ungroup_defs *)
Lemma rendered_flat_map_nil ch : forallb (fun c => tag_sat is_referenced (data c)) ch = true -> flat_map rendered ch = [].
Proof.
  induction ch as [|c ch IH]; cbn; [reflexivity|]. intros H. apply andb_prop in H. destruct H as [H1 H2].
  rewrite (IH H2), app_nil_r. destruct c as [d cc]. cbn in *. unfold tag_sat in *. destruct (tag d); try discriminate.
  assert (never_rendered e = true) as ->; [|reflexivity]. destruct e; try discriminate H1; reflexivity.
Qed.
Lemma rendered_splice k t s : NoDup (keys t) -> k <> root_key t -> find_sub k t = Some s ->
  is_tag EDefs (data s) = true -> forallb (fun c => tag_sat is_referenced (data c)) (kids s) = true ->
  rendered (splice k t) = rendered t.
Proof.
  intros N Hk F Hd Hr. apply find_sub_some in F. destruct F as [Hs Ek]. revert N Hk Hs.
  induction t as [d ch IH] using tree_ind'. intros N Hk Hs. cbn [rendered splice].
  destruct (tag_sat never_rendered d); [reflexivity|]. f_equal. rewrite flat_map_flat_map.
  rewrite keys_cons in N. inversion N as [|? ? _ N']; subst. rewrite Forall_forall in IH.
  apply flat_map_ext_Forall, Forall_forall. intros c Hc.
  destruct Hs as [<-|Hs]; [exfalso; apply Hk; reflexivity|].
  destruct (Nat.eqb_spec (root_key c) (root_key s)) as [E|E].
  - assert (c = s).
    { eapply (sub_unique (T d ch)); [now rewrite keys_cons| | |exact E].
      - right. apply in_flat_map. exists c. split; [exact Hc|apply subs_self].
      - right. exact Hs. }
    subst c. rewrite rendered_flat_map_nil by exact Hr. destruct s as [ds cs]. cbn in *.
    apply is_tag_iff in Hd. unfold tag_sat. rewrite Hd. reflexivity.
  - cbn [flat_map]. rewrite app_nil_r. pose proof (child_NoDup c ch Hc N') as Nc.
    destruct (in_dec Nat.eq_dec (root_key s) (keys c)) as [I|I].
    + apply IH; auto.
      assert (exists s', In s' (subs c) /\ root_key s' = root_key s) as (s' & Hs' & Es').
      { unfold keys in I. rewrite <- map_data_subs, map_map in I. apply in_map_iff in I. destruct I as (s' & E' & H'). eauto. }
      replace s with s'; [exact Hs'|]. eapply (sub_unique (T d ch)); [now rewrite keys_cons| | |exact Es'].
      * right. apply in_flat_map. eauto.
      * right. exact Hs.
    + f_equal. clear -I. assert (G : forall t k, ~ In k (keys t) -> splice k t = t).
      { clear. induction t as [d ch IH] using tree_ind'. intros k H. cbn. f_equal. rewrite keys_cons in H.
        rewrite <- (map_id ch) at 2. induction IH as [|c ch Hc F IH2]; [reflexivity|]. cbn in *.
        destruct (Nat.eqb_spec (root_key c) k) as [E|E].
        - exfalso. apply H. right. apply in_or_app. left. rewrite <- E. apply root_in_keys.
        - cbn. rewrite Hc.
          + f_equal. apply IH2. intros [X|X]; apply H; [left; exact X|right; apply in_or_app; right; exact X].
          + intros X. apply H. right. apply in_or_app. left. exact X. }
      symmetry. now rewrite G.
Qed.
Lemma rendered_tmap f t : (forall d, tag (f d) = tag d) -> rendered (tmap f t) = map f (rendered t).
Proof.
  intros H. induction t as [d ch IH] using tree_ind'. cbn. unfold tag_sat at 1. rewrite H. fold (tag_sat never_rendered d).
  destruct (tag_sat never_rendered d); [reflexivity|]. cbn. f_equal. rewrite flat_map_map, map_flat_map. now apply flat_map_ext_Forall.
Qed.
Lemma splice_NoDup k t : NoDup (keys t) -> k <> root_key t -> NoDup (keys (splice k t)).
Proof. intros N H. rewrite keys_splice by assumption. now apply NoDup_filter. Qed.
Lemma WF_splice_unlink k t : WF t -> k <> root_key t -> WF (unlink [k] (splice k t)).
Proof.
  intros [N L] Hk. split.
  - rewrite keys_unlink. now apply splice_NoDup.
  - intros j. rewrite keys_unlink, keys_splice by assumption. rewrite targets_flat, unlink_eq, flat_tmap, flat_map_map, in_flat_map.
    intros (d & Hd & Hj). apply unlink_links in Hj. destruct Hj as [Hj1 Hj2]. rewrite flat_splice in Hd by assumption.
    apply filter_In in Hd. destruct Hd as [Hd _]. apply filter_In. split.
    + apply L. eapply node_links_in; eauto.
    + apply negb_true_iff, Nat.eqb_neq. intros ->. apply Hj2. left. reflexivity.
Qed.
