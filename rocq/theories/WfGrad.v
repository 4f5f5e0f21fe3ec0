(** Merging gradients keeps a document well-formed. *)
From Coq Require Import List Bool NArith Arith ZArith String Lia QArith Qcanon Permutation.
From Verif Require Import Names Num Value Dom DomFacts DomOps Outcome DomRemove VLoop SpecDom SpecText SpecWritten Visit Move MoveFacts GroupDefsEnd Gradients GradUnits Dupl MergeGradients MergeProofs Regroup RegroupProofs UseStep Wrap WfAll WfPasses WfPasses2 WfStruct WfUse.
Import ListNotations.
Local Open Scope nat_scope.

(** ** Nodes of the new document and where they come from *)
Definition kept (d d' : ndata) : Prop := key d' = key d /\ tag d' = tag d /\ incl (node_links d') (node_links d).
Definition stems (t t' : tree) : Prop := forall d', In d' (flat t') -> exists d, In d (flat t) /\ kept d d'.
Lemma kept_refl d : kept d d. Proof. repeat split. intros k Hk. exact Hk. Qed.
Lemma stems_trans a b c : stems a b -> stems b c -> stems a c.
Proof. intros H1 H2 z Hz. destruct (H2 z Hz) as (y & Hy & A1 & A2 & A3). destruct (H1 y Hy) as (x & Hx & B1 & B2 & B3). exists x. split; [exact Hx|]. repeat split; try congruence. intros k Hk. auto. Qed.
Lemma stems_refl a : stems a a. Proof. intros d Hd. exists d. split; [exact Hd|apply kept_refl]. Qed.
Lemma stems_incl a b : (forall d, In d (flat b) -> In d (flat a)) -> stems a b.
Proof. intros H d Hd. exists d. split; [auto|apply kept_refl]. Qed.
Lemma stems_tmap f t : (forall d, In d (flat t) -> kept d (f d)) -> stems t (tmap f t).
Proof. intros H d' Hd'. rewrite flat_tmap in Hd'. apply in_map_iff in Hd'. destruct Hd' as (d & <- & Hd). eauto. Qed.
Lemma flat_detach_incl k t : incl (flat (detach k t)) (flat t).
Proof.
  induction t as [d ch IH] using tree_ind'. rewrite detach_T. rewrite Forall_forall in IH. intros j. cbn [flat]. intros [<-|H]; [now left|right]. apply in_flat_map in H. destruct H as (y & Hy & H). apply in_flat_map in Hy. destruct Hy as (c & Hc & Hy). destruct (Nat.eqb _ _); [destruct Hy|]. destruct Hy as [<-|[]].
  apply in_flat_map. exists c. split; [exact Hc|]. now apply (IH c Hc).
Qed.
Lemma links_filter p d : incl (node_links (with_attrs d (filter p (attrs d)))) (node_links d).
Proof. intros k Hk. apply node_links_iff in Hk. destruct Hk as (a & Ha & E). apply filter_In in Ha. exact (link_in d a k (proj1 Ha) E). Qed.
Lemma stems_unlink L t : stems t (unlink L t).
Proof. rewrite unlink_eq. apply stems_tmap. intros d _. split; [reflexivity|]. split; [reflexivity|]. apply links_filter. Qed.
Lemma stems_remove k t : stems t (remove k t).
Proof. unfold remove. eapply stems_trans; [apply stems_unlink|]. apply stems_incl. apply flat_detach_incl. Qed.
Lemma stems_remove_nodes ks : forall t, stems t (remove_nodes ks t).
Proof. unfold remove_nodes. induction ks as [|k ks IH]; intros t; [apply stems_refl|]. cbn. eapply stems_trans; [apply stems_remove|apply IH]. Qed.
Lemma inside_remove_nodes ks : forall t a b, inside (remove_nodes ks t) a b -> inside t a b.
Proof. unfold remove_nodes. induction ks as [|k ks IH]; intros t a b H; [exact H|]. cbn in H. apply IH in H. now apply inside_remove in H. Qed.
Lemma set_kids_subs k ch t s : In s (subs (set_kids k (fun _ => ch) t)) -> In s (flat_map subs ch) \/ exists s0, In s0 (subs t) /\ s = set_kids k (fun _ => ch) s0.
Proof.
  induction t as [d l IH] using tree_ind'. rewrite Forall_forall in IH. cbn [set_kids]. destruct (Nat.eqb (key d) k) eqn:E.
  - intros [<-|H]; [right; exists (T d l); split; [apply subs_self|cbn; now rewrite E]|now left].
  - intros [<-|H]; [right; exists (T d l); split; [apply subs_self|cbn; now rewrite E]|]. apply in_flat_map in H. destruct H as (y & Hy & H). apply in_map_iff in Hy. destruct Hy as (c & <- & Hc). destruct (IH c Hc H) as [Q|(s0 & Q & ->)]; [now left|]. right. exists s0. split; [right; apply in_flat_map; eauto|reflexivity].
Qed.
Lemma set_kids_keys k ch t : incl (keys (set_kids k (fun _ => ch) t)) (keys t ++ flat_map keys ch).
Proof.
  induction t as [d l IH] using tree_ind'. rewrite Forall_forall in IH. intros j. cbn [set_kids]. destruct (Nat.eqb (key d) k).
  - rewrite !keys_cons. intros [<-|H]; [now left|]. apply in_or_app. now right.
  - rewrite !keys_cons. intros [<-|H]; [now left|]. apply in_flat_map in H. destruct H as (y & Hy & H). apply in_map_iff in Hy. destruct Hy as (c & <- & Hc). apply (IH c Hc), in_app_or in H. destruct H as [H|H]; [|apply in_or_app; now right]. apply in_or_app. left. right. apply in_flat_map. eauto.
Qed.
Lemma inside_set_kids k ch t a b : inside (set_kids k (fun _ => ch) t) a b -> inside t a b \/ In a (flat_map keys ch).
Proof.
  intros (s & Hs & Kb & Ha). apply set_kids_subs in Hs. destruct Hs as [Hs|(s0 & Hs & ->)].
  - right. apply in_flat_map in Hs. destruct Hs as (c & Hc & Hs). apply in_flat_map. exists c. split; [exact Hc|]. apply sub_of_key in Ha. destruct Ha as (x & Hx & <-). apply key_in_sub. exact (subs_trans c s x Hs Hx).
  - apply set_kids_keys, in_app_or in Ha. destruct Ha as [Ha|Ha]; [left|now right]. exists s0. rewrite root_set_kids in Kb. auto.
Qed.
Lemma set_kids_none k f t s : In s (subs t) -> root_key s <> k -> (forall x, In x (subs t) -> root_key x = k -> ~ In (root_key s) (keys x)) -> In (set_kids k f s) (subs (set_kids k f t)).
Proof.
  induction t as [d l IH] using tree_ind'. rewrite Forall_forall in IH. intros [<-|Hs] Nk H; [apply subs_self|]. cbn [set_kids]. destruct (Nat.eqb_spec (key d) k) as [E|E].
  - exfalso. apply (H (T d l)); [apply subs_self|exact E|]. rewrite keys_cons. right. apply in_flat_map in Hs. destruct Hs as (c & Hc & Hs). apply in_flat_map. exists c. split; [exact Hc|]. now apply key_in_sub.
  - right. apply in_flat_map in Hs. destruct Hs as (c & Hc & Hs). apply in_flat_map. exists (set_kids k f c). split; [now apply in_map|]. apply (IH c Hc); [exact Hs|exact Nk|]. intros x Hx. apply H. right. apply in_flat_map. eauto.
Qed.

(** ** merge_gradients *)
(** No gradient is inside an element that a gradient refers to. *)
Definition bare (t : tree) : Prop :=
  forall d g k, In d (flat t) -> gradient_node d -> In k (node_links d) -> In g (flat t) -> gradient_node g -> inside t (key g) k -> key g = k.
Lemma bare_stems t t' : bare t -> stems t t' -> (forall g b, In g (flat t') -> gradient_node g -> inside t' (key g) b -> inside t (key g) b) -> bare t'.
Proof.
  intros B S I d g k Hd Gd Hk Hg Gg H. pose proof (I g k Hg Gg H) as X. destruct (S d Hd) as (d0 & Hd0 & A1 & A2 & A3), (S g Hg) as (g0 & Hg0 & B1 & B2 & B3). rewrite B1. apply (B d0 g0 k); auto.
  - unfold gradient_node in *. now rewrite <- A2.
  - unfold gradient_node in *. now rewrite <- B2.
  - now rewrite <- B1.
Qed.
Lemma take_kept l d : kept d (take_attrs l d).
Proof.
  split; [reflexivity|]. split; [reflexivity|]. intros k Hk. apply node_links_iff in Hk. destruct Hk as (a & Ha & E). apply take_in in Ha. destruct Ha as (x & Hx & _ & ->). rewrite shown_val in E. exact (link_in d x k Hx E).
Qed.
Lemma take_ext L l d : ext L d (take_attrs l d).
Proof. destruct (take_kept l d) as (A & B & C). split; [exact A|]. split; [congruence|]. split; [apply take_nodup|]. intros k Hk. apply in_or_app. left. auto. Qed.
Lemma is_gradient_iff d : is_gradient d = true <-> gradient_node d.
Proof. unfold is_gradient, gradient_node. rewrite orb_true_iff, !TasksSimpleProofs.is_tag_iff. reflexivity. Qed.
Lemma inside_root t s a : NoDup (keys t) -> In s (subs t) -> inside t a (root_key s) -> In a (keys s).
Proof. intros N Hs (x & Hx & K & Ha). assert (x = s) by (now apply (sub_unique t)). now subst. Qed.
Lemma fine_merge_visit t ks k t' ks' : fine t -> bare t -> (forall d, In d (flat t) -> key d = k -> gradient_node d) -> merge_visit (t, ks) k = (t', ks') -> fine t' /\ bare t' /\ stems t t'.
Proof.
  intros F B Gk E. cbn [merge_visit] in E. destruct (find_sub k t) as [s|] eqn:Es; [|injection E as <- <-; auto using stems_refl]. destruct (d_get (data s) AXlinkHref) as [[]|] eqn:Eh; try (injection E as <- <-; auto using stems_refl; fail).
  match type of Eh with _ = Some (VLink ?j) => destruct (find_sub j t) as [l|] eqn:El end; [|injection E as <- <-; auto using stems_refl]. destruct (Nat.eqb _ 1 && _) eqn:C; [|injection E as <- <-; auto using stems_refl]. apply andb_true_iff in C. destruct C as [_ C]. apply negb_true_iff in C.
  apply find_sub_some in Es, El. destruct Es as [Hs Ks], El as [Hl Kl]. pose proof (wf_keys t (fine_wf t F)) as N. pose proof (data_of_sub s t Hs) as Ds.
  assert (Gs : gradient_node (data s)) by (apply Gk; [exact Ds|exact Ks]).
  assert (Lk : In (root_key l) (node_links (data s))) by (rewrite Kl; exact (d_get_link _ _ _ _ Eh eq_refl)).
  assert (Ne : root_key s <> root_key l). { intros X. assert (s = l) by (now apply (sub_unique t)). subst l. unfold d_has, has_attr in C. unfold d_get, get_value in Eh. destruct (get_attr _ _); [cbn in C; discriminate|discriminate]. }
  assert (Nl : ~ In (root_key s) (keys l)). { intros X. apply Ne. apply (B (data s) (data s) (root_key l)); auto. exists l. auto. }
  set (t1 := match kids s with [] => set_kids k (fun _ => kids l) (set_kids _ (fun _ => []) t) | _ => t end) in E.
  assert (Q : fine t1 /\ (forall d, In d (flat t1) -> In d (flat t)) /\ (forall g b, In g (flat t1) -> gradient_node g -> inside t1 (key g) b -> inside t (key g) b)).
  { unfold t1. destruct (kids s) as [|c0 l0] eqn:K0; [|auto]. rewrite <- Kl, <- Ks. set (t0 := set_kids (root_key l) (fun _ => []) t).
    destruct (flat_split t l N Hl) as (pre & post & E1 & E2). specialize (E2 (fun _ => [])). fold t0 in E2. cbn [flat_map] in E2.
    assert (N0 : NoDup (keys t0)). { unfold keys in *. rewrite E1 in N. rewrite E2. destruct l as [dl cl]. cbn [flat data] in *. rewrite !map_app in *. cbn [map app] in *. clear - N. apply NoDup_app_inv in N. destruct N as (A1 & A2 & A3). inversion A2 as [|? ? A4 A5]; subst. apply NoDup_app_inv in A5. destruct A5 as (A5 & A6 & A7). apply NoDup_app_intro; [exact A1| |].
      - constructor; [|exact A6]. intros X. apply A4. apply in_or_app. now right.
      - intros x Hx [<-|X]; [apply (A3 (key dl) Hx); now left|]. apply (A3 x Hx). right. apply in_or_app. now right. }
    assert (H0 : In s (subs t0)).
    { replace s with (set_kids (root_key l) (fun _ => []) s); [apply set_kids_none; [exact Hs|exact Ne|]|].
      - intros x Hx Kx. assert (x = l) by (now apply (sub_unique t)). now subst x.
      - destruct s as [ds cs]. cbn in K0. subst cs. cbn. destruct (Nat.eqb_spec (key ds) (root_key l)) as [X|X]; reflexivity. }
    destruct (flat_split t0 s N0 H0) as (pre2 & post2 & E3 & E4). specialize (E4 (fun _ => kids l)).
    assert (P : Permutation (flat t) (flat (set_kids (root_key s) (fun _ => kids l) t0))).
    { rewrite E4. assert (P1 : Permutation (flat t) (flat_map flat (kids l) ++ flat t0)). { rewrite E1, E2. destruct l as [dl cl]. cbn [flat data kids]. apply (perm_mid pre post (flat_map flat cl) [] (flat_map flat cl) dl). rewrite app_nil_r. apply Permutation_refl. }
      eapply Permutation_trans; [exact P1|]. rewrite E3. destruct s as [ds cs]. cbn in K0. subst cs. cbn [flat flat_map data]. apply Permutation_sym. apply (perm_mid pre2 post2 (flat_map flat (kids l)) [] (flat_map flat (kids l)) ds). rewrite app_nil_r. apply Permutation_refl. }
    assert (R : tag (data (set_kids (root_key s) (fun _ => kids l) t0)) = TRoot) by (unfold t0; rewrite !data_set_kids; apply F).
    assert (I : forall d, In d (flat (set_kids (root_key s) (fun _ => kids l) t0)) -> In d (flat t)) by (intros d; apply (Permutation_in d (Permutation_sym P))).
    split; [exact (fine_perm t _ F R P)|]. split; [exact I|]. intros g b Hg Gg H. apply inside_set_kids in H. destruct H as [H|H].
    - apply inside_set_kids in H. destruct H as [H|[]]. exact H.
    - exfalso. assert (X : key g = root_key l). { apply (B (data s) g (root_key l)); auto. exists l. split; [exact Hl|]. split; [reflexivity|]. rewrite keys_kids. now right. }
      pose proof (sub_NoDup l t N Hl) as Nn. rewrite keys_kids in Nn. inversion Nn as [|? ? Y _]; subst. apply Y. rewrite <- X. exact H. }
  destruct Q as (F1 & I1 & J1). injection E as <- _. split; [|split].
  - apply fine_upd; [exact F1|]. intros d _ _. apply take_ext.
  - apply (bare_stems t); [exact B| |].
    + eapply stems_trans; [exact (stems_incl t t1 I1)|]. apply stems_tmap. intros d _. destruct (Nat.eqb _ _); [apply take_kept|apply kept_refl].
    + intros g b Hg Gg H. unfold upd in *. apply inside_tmap in H; [|intros d; now destruct (Nat.eqb _ _)]. rewrite flat_tmap in Hg. apply in_map_iff in Hg. destruct Hg as (g0 & <- & Hg).
      assert (Kg : key (if Nat.eqb (key g0) k then take_attrs (data l) g0 else g0) = key g0) by (now destruct (Nat.eqb _ _)). rewrite Kg in *. apply J1; [exact Hg| |exact H]. unfold gradient_node in *. destruct (Nat.eqb _ _); exact Gg.
  - eapply stems_trans; [exact (stems_incl t t1 I1)|]. apply stems_tmap. intros d _. destruct (Nat.eqb _ _); [apply take_kept|apply kept_refl].
Qed.
Lemma fine_merge_fold : forall ls t ks t' ks', fine t -> bare t -> (forall k d, In k ls -> In d (flat t) -> key d = k -> gradient_node d) -> fold_left merge_visit ls (t, ks) = (t', ks') -> fine t' /\ bare t'.
Proof.
  induction ls as [|k ls IH]; intros t ks t' ks' F B G E; [injection E as <- _; auto|]. cbn [fold_left] in E. destruct (merge_visit (t, ks) k) as [t1 ks1] eqn:E1. destruct (fine_merge_visit t ks k t1 ks1 F B) as (F1 & B1 & S1); [intros d; apply G; now left|exact E1|].
  apply (IH t1 ks1 t' ks' F1 B1); [|exact E]. intros j d Hj Hd Kd. destruct (S1 d Hd) as (d0 & Hd0 & A1 & A2 & _). unfold gradient_node. rewrite A2. apply (G j d0); [now right|exact Hd0|congruence].
Qed.
Lemma fine_merge_round t t' ks : fine t -> bare t -> merge_round t = (t', ks) -> fine t' /\ bare t'.
Proof.
  intros F B E. apply (fine_merge_fold _ _ _ _ _ F B) in E; [exact E|]. intros k d Hk Hd Kd. apply in_map_iff in Hk. destruct Hk as (d0 & K0 & H0). apply filter_In in H0. destruct H0 as [H0 G0]. assert (d0 = d) by (apply (data_unique t); [apply F|assumption..|congruence]). subst d0. now apply is_gradient_iff.
Qed.
Lemma fine_merge n : forall t t', fine t -> bare t -> merge_gradients n t = Some t' -> fine t' /\ bare t'.
Proof.
  induction n as [|n IH]; intros t t' F B E; [discriminate|]. cbn [merge_gradients] in E. destruct (merge_round t) as [t1 ks] eqn:E1. destruct (fine_merge_round t t1 ks F B E1) as [F1 B1]. destruct ks as [|k ks]; [injection E as <-; auto|]. refine (IH _ t' _ _ E); [now apply fine_remove_nodes|].
  apply (bare_stems t1); [exact B1|apply stems_remove_nodes|]. intros g b _ _ H. now apply inside_remove_nodes in H.
Qed.

(** ** regroup_gradient_stops *)
(** No gradient is inside of a gradient. *)
Definition nonest (t : tree) : Prop := forall g g', In g (flat t) -> In g' (flat t) -> gradient_node g -> gradient_node g' -> inside t (key g) (key g') -> key g = key g'.
Lemma fine_from t t' : fine t -> NoDup (keys t') -> tag (data t') = TRoot -> incl (keys t) (keys t') ->
  (forall d', In d' (flat t') -> attrs d' = [] \/ exists d, In d (flat t) /\ ext (keys t') d d') -> fine t'.
Proof.
  intros [[N W] A R] N' R' I H. split; [split| |]; auto.
  - intros k Hk. rewrite targets_flat in Hk. apply in_flat_map in Hk. destruct Hk as (d' & Hd' & Hk). destruct (H d' Hd') as [E|(d & Hd & E)]; [apply node_links_iff in Hk; destruct Hk as (a & Ha & _); rewrite E in Ha; destruct Ha|]. apply E, in_app_or in Hk. destruct Hk as [Hk|Hk]; [|exact Hk]. apply I, W. exact (node_links_in t d k Hd Hk).
  - apply Forall_forall. intros d' Hd'. destruct (H d' Hd') as [E|(d & Hd & E)]; [unfold attrs_nodup; rewrite E; constructor|]. apply E. exact (proj1 (Forall_forall _ _) A d Hd).
Qed.
Lemma before_T u x d ch : insert_before u x (T d ch) = T d (flat_map (fun c => if Nat.eqb (root_key c) u then [x; insert_before u x c] else [insert_before u x c]) ch).
Proof. reflexivity. Qed.
Lemma before_perm u x t : NoDup (keys t) -> In u (keys t) -> u <> root_key t -> Permutation (flat (insert_before u x t)) (flat x ++ flat t).
Proof.
  induction t as [d ch IH] using tree_ind'. intros N Hu Nr. rewrite keys_cons in N, Hu. destruct Hu as [Hu|Hu]; [contradiction Nr; symmetry; exact Hu|]. apply in_flat_map in Hu. destruct Hu as (c & Hc & Hu). inversion N as [|? ? N1 N2]; subst. rewrite Forall_forall in IH. specialize (IH c Hc (child_NoDup c ch Hc N2)). pose proof (child_NoDup c ch Hc N2) as Nc. apply in_split in Hc. destruct Hc as (l & r & ->).
  rewrite flat_map_app in N2. cbn [flat_map] in N2. apply NoDup_app_inv in N2. destruct N2 as (_ & N3 & N4). apply NoDup_app_inv in N3. destruct N3 as (_ & _ & N5).
  assert (O : forall y, In y l \/ In y r -> (if Nat.eqb (root_key y) u then [x; insert_before u x y] else [insert_before u x y]) = [y]).
  { intros y Hy. assert (Q : ~ In u (keys y)). { intros Z. destruct Hy as [Hy|Hy]; [apply (N4 u); [apply in_flat_map; eauto|apply in_or_app; auto]|apply (N5 u); [exact Hu|apply in_flat_map; eauto]]. }
    rewrite keys_kids in Q. destruct (Nat.eqb_spec (root_key y) u) as [E|E]; [contradiction Q; now left|]. f_equal. apply insert_out. intros Z. apply Q. now right. }
  rewrite before_T. cbn [flat]. rewrite flat_map_app. cbn [flat_map]. rewrite (Img.flat_map_one _ l) by (intros y Hy; apply O; auto). rewrite (Img.flat_map_one _ r) by (intros y Hy; apply O; auto).
  rewrite !flat_map_app. cbn [flat_map]. eapply Permutation_trans; [|apply Permutation_middle]. apply perm_skip. eapply Permutation_trans; [|apply Permutation_app_swap_app]. apply Permutation_app_head. rewrite app_assoc. apply Permutation_app_tail.
  destruct (Nat.eqb_spec (root_key c) u) as [E|E]; cbn [flat_map]; rewrite app_nil_r.
  - rewrite insert_out; [apply Permutation_refl|]. rewrite keys_kids in Nc. inversion Nc as [|? ? Z _]; subst. exact Z.
  - apply IH; [exact Hu|congruence].
Qed.
Lemma before_subs u x t s : In s (subs (insert_before u x t)) -> In s (subs x) \/ exists s0, In s0 (subs t) /\ s = insert_before u x s0.
Proof.
  induction t as [d ch IH] using tree_ind'. rewrite before_T. rewrite Forall_forall in IH. intros [<-|H]; [right; exists (T d ch); split; [apply subs_self|reflexivity]|]. apply in_flat_map in H. destruct H as (y & Hy & H). apply in_flat_map in Hy. destruct Hy as (c & Hc & Hy).
  assert (Q : y = x \/ y = insert_before u x c) by (destruct (Nat.eqb _ _); cbn in Hy; intuition auto). destruct Q as [->| ->]; [now left|]. destruct (IH c Hc H) as [Q|(s0 & Q & ->)]; [now left|]. right. exists s0. split; [right; apply in_flat_map; eauto|reflexivity].
Qed.
Lemma before_keys u x t k : In k (keys (insert_before u x t)) -> In k (keys t) \/ In u (flat_map keys (kids t)) /\ In k (keys x).
Proof.
  induction t as [d ch IH] using tree_ind'. rewrite before_T, !keys_cons. cbn [kids]. rewrite Forall_forall in IH. intros [<-|H]; [left; now left|]. apply in_flat_map in H. destruct H as (y & Hy & H). apply in_flat_map in Hy. destruct Hy as (c & Hc & Hy).
  assert (Q : (y = x /\ root_key c = u) \/ y = insert_before u x c) by (destruct (Nat.eqb_spec (root_key c) u); cbn in Hy; intuition auto). destruct Q as [[-> E]| ->].
  - right. split; [|exact H]. apply in_flat_map. exists c. split; [exact Hc|]. rewrite keys_kids. now left.
  - destruct (IH c Hc H) as [Q|[Q1 Q2]]; [left; right; apply in_flat_map; eauto|right]. split; [|exact Q2]. apply in_flat_map. exists c. split; [exact Hc|]. rewrite keys_kids. now right.
Qed.
Lemma root_before u x t : root_key (insert_before u x t) = root_key t. Proof. destruct t; reflexivity. Qed.
Lemma inside_before u x t a b : inside (insert_before u x t) a b -> inside t a b \/ inside x a b \/ exists s, In s (subs t) /\ root_key s = b /\ In u (flat_map keys (kids s)).
Proof.
  intros (s & Hs & Ks & Ha). apply before_subs in Hs. destruct Hs as [Hs|(s0 & Hs & ->)]; [right; left; exists s; auto|]. rewrite root_before in Ks. apply before_keys in Ha. destruct Ha as [Ha|[H1 H2]]; [left; exists s0; auto|right; right; exists s0; auto].
Qed.
Lemma strict_ne t s a : NoDup (keys t) -> In s (subs t) -> In a (flat_map keys (kids s)) -> a <> root_key s.
Proof. intros N Hs Ha ->. pose proof (sub_NoDup s t N Hs) as Q. rewrite keys_kids in Q. now inversion Q. Qed.
(** Removing the children of a node. *)
Lemma fine_remove_kids j t : fine t -> fine (remove_kids j t) /\
  (forall a b, inside (remove_kids j t) a b -> inside t a b) /\ (forall k, In k (keys t) -> In k (keys (remove_kids j t)) \/ exists s, In s (subs t) /\ root_key s = j /\ In k (flat_map keys (kids s))) /\
  (forall d', In d' (flat (remove_kids j t)) -> exists d, In d (flat t) /\ key d' = key d /\ tag d' = tag d).
Proof.
  intros F. unfold remove_kids. set (K := flat_map keys (kids_of j t)). set (u := unlink K t). assert (Fu : fine u) by (now apply fine_unlink).
  assert (Iu : forall a b, inside u a b -> inside t a b) by (intros a b H; unfold u in H; rewrite unlink_eq in H; now apply inside_tmap in H).
  assert (Su : forall d', In d' (flat u) -> exists d, In d (flat t) /\ key d' = key d /\ tag d' = tag d). { intros d' Hd'. unfold u in Hd'. rewrite unlink_eq, flat_tmap in Hd'. apply in_map_iff in Hd'. destruct Hd' as (d & <- & Hd). exists d. auto. }
  assert (I2 : forall a b, inside (set_kids j (fun _ => []) u) a b -> inside t a b). { intros a b H. apply inside_set_kids in H. destruct H as [H|[]]. now apply Iu. }
  destruct (find_sub j t) as [s|] eqn:E.
  - apply find_sub_some in E as E'. destruct E' as [Hs Ks]. assert (Kk : K = flat_map keys (kids s)) by (unfold K, kids_of; now rewrite E).
    assert (Hu : In (unlink K s) (subs u)) by (unfold u; rewrite !unlink_eq, subs_tmap; now apply in_map).
    assert (Ru : root_key (unlink K s) = j) by (unfold root_key; rewrite unlink_eq, data_tmap; exact Ks).
    assert (Ku : flat_map keys (kids (unlink K s)) = K). { rewrite Kk. pose proof (keys_unlink K s) as Q. rewrite !keys_kids in Q. rewrite Kk in Q. injection Q as _ Q. exact Q. }
    destruct (flat_split u (unlink K s) (wf_keys u (fine_wf u Fu)) Hu) as (pre & post & E1 & E2). specialize (E2 (fun _ => [])). rewrite Ru in E2. cbn [flat_map] in E2. set (X := flat_map flat (kids (unlink K s))).
    assert (P : Permutation (flat u) (flat (set_kids j (fun _ => []) u) ++ X)).
    { rewrite E1, E2. rewrite <- !app_assoc. apply Permutation_app_head. destruct (unlink K s) as [ds cs] eqn:Q. subst X. cbn [flat data kids app]. apply perm_skip. apply Permutation_app_comm. }
    assert (XK : map key X = K). { rewrite <- Ku. unfold X. clear. induction (kids (unlink K s)) as [|c l IH]; [reflexivity|]. cbn. rewrite map_app, IH. reflexivity. }
    split; [|split; [exact I2|split]].
    + apply (fine_drop u _ X Fu); [rewrite data_set_kids; apply Fu|exact P|]. intros x Hx Q. assert (Kx : In (key x) K) by (rewrite <- XK; now apply in_map). unfold u in Q. rewrite targets_flat, unlink_eq, flat_tmap, flat_map_map in Q. apply in_flat_map in Q. destruct Q as (d & Hd & Q). apply unlink_links in Q. now apply (proj2 Q).
    + intros k Hk. assert (Q : In k (keys u)) by (unfold u; now rewrite keys_unlink). unfold keys in Q. apply (Permutation_in k (Permutation_map key P)) in Q. rewrite map_app in Q. apply in_app_or in Q. destruct Q as [Q|Q]; [now left|right]. rewrite XK, Kk in Q. eauto.
    + intros d' Hd'. apply Su. apply (Permutation_in d' (Permutation_sym P)). apply in_or_app. now left.
  - assert (Z : set_kids j (fun _ => []) u = u). { apply set_kids_out. unfold u. rewrite keys_unlink. now apply find_sub_none. } rewrite Z in *. split; [exact Fu|]. split; [exact I2|]. split; [|exact Su]. intros k Hk. left. unfold u. now rewrite keys_unlink.
Qed.
Definition ready_for (l : list nat) (t : tree) : Prop := forall k d, In k l -> In d (flat t) -> key d = k -> gradient_node d.
Lemma nonest_tags t t' : nonest t -> (forall d', In d' (flat t') -> exists d, In d (flat t) /\ key d' = key d /\ tag d' = tag d) -> (forall a b, inside t' a b -> inside t a b) -> nonest t'.
Proof.
  intros U S I g g' Hg Hg' G G' H. destruct (S g Hg) as (x & Hx & A1 & A2), (S g' Hg') as (y & Hy & B1 & B2). rewrite A1, B1. apply U; auto; unfold gradient_node in *; try (now rewrite <- A2); try (now rewrite <- B2). apply I in H. now rewrite <- A1, <- B1.
Qed.
Lemma in_inside t k : In k (keys t) -> inside t k k.
Proof. intros H. apply sub_of_key in H. destruct H as (s & Hs & <-). exists s. split; [exact Hs|]. split; [reflexivity|]. rewrite keys_kids. now left. Qed.
Lemma inside_keys t a b : inside t a b -> In a (keys t) /\ In b (keys t).
Proof. intros (s & Hs & <- & Ha). split; [|now apply key_in_sub]. apply sub_of_key in Ha. destruct Ha as (x & Hx & <-). apply key_in_sub. exact (subs_trans t s x Hs Hx). Qed.
Lemma fine_share_rest n : forall js t, fine t -> nonest t -> ready_for js t -> ~ In n js -> (exists d, In d (flat t) /\ key d = n /\ gradient_node d) ->
  fine (fold_left (fun t j => upd j (fun d => d_set d AXlinkHref (VLink n)) (remove_kids j t)) js t) /\ nonest (fold_left (fun t j => upd j (fun d => d_set d AXlinkHref (VLink n)) (remove_kids j t)) js t) /\
  (forall d', In d' (flat (fold_left (fun t j => upd j (fun d => d_set d AXlinkHref (VLink n)) (remove_kids j t)) js t)) -> exists d, In d (flat t) /\ key d' = key d /\ tag d' = tag d).
Proof.
  induction js as [|j js IH]; intros t F U R Nn (dn & Hn & Kn & Gn); [cbn; repeat split; eauto; apply F|]. cbn [fold_left]. set (t2 := upd j _ (remove_kids j t)). destruct (fine_remove_kids j t F) as (F1 & I1 & K1 & S1).
  assert (Kn1 : In n (keys (remove_kids j t))).
  { destruct (K1 n) as [Q|(s & Hs & Ks & Q)]; [rewrite <- Kn; now apply in_map|exact Q|]. exfalso. pose proof (data_of_sub s t Hs) as Ds. assert (Gs : gradient_node (data s)) by (apply (R j (data s)); [now left|exact Ds|exact Ks]).
    apply (strict_ne t s n (wf_keys t (fine_wf t F)) Hs Q). rewrite <- Kn. apply (U dn (data s) Hn Ds Gn Gs). exists s. split; [exact Hs|]. split; [reflexivity|]. rewrite Kn, keys_kids. now right. }
  assert (F2 : fine t2). { apply fine_upd; [exact F1|]. intros d _ _. apply ext_set. intros k Q. cbn in Q. injection Q as <-. apply in_or_app. now right. }
  assert (S2 : forall d', In d' (flat t2) -> exists d, In d (flat t) /\ key d' = key d /\ tag d' = tag d).
  { intros d' Hd'. unfold t2, upd in Hd'. rewrite flat_tmap in Hd'. apply in_map_iff in Hd'. destruct Hd' as (d & <- & Hd). destruct (S1 d Hd) as (d0 & H0 & A & B). exists d0. destruct (Nat.eqb _ _); auto. }
  assert (U2 : nonest t2). { apply (nonest_tags t); [exact U|exact S2|]. intros a b H. apply I1. unfold t2, upd in H. apply inside_tmap in H; [exact H|]. intros d. now destruct (Nat.eqb _ _). }
  destruct (IH t2 F2 U2) as (A & B & C).
  - intros k d Hk Hd Kd. destruct (S2 d Hd) as (d0 & H0 & E1 & E2). unfold gradient_node. rewrite E2. apply (R k d0); [now right|exact H0|congruence].
  - intros Q. apply Nn. now right.
  - assert (Q : In n (keys t2)). { unfold t2. unfold upd. rewrite keys_tmap; [exact Kn1|]. intros d. now destruct (Nat.eqb _ _). } apply in_map_iff in Q. destruct Q as (d2 & E2 & H2). exists d2. split; [exact H2|]. split; [exact E2|]. destruct (S2 d2 H2) as (d0 & H0 & X1 & X2). assert (d0 = dn) by (apply (data_unique t); [apply F|assumption..|congruence]). subst d0. unfold gradient_node in *. now rewrite X2.
  - split; [exact A|]. split; [exact B|]. intros d' Hd'. destruct (C d' Hd') as (d & Hd & A1 & A2). destruct (S2 d Hd) as (d0 & H0 & B1 & B2). exists d0. split; [exact H0|]. split; congruence.
Qed.
Lemma fine_share k1 js t t' : fine t -> nonest t -> ready_for (k1 :: js) t -> In k1 (keys t) -> incl js (keys t) -> share k1 js t = Ok t' ->
  fine t' /\ nonest t' /\ forall d', In d' (flat t') -> gradient_node d' \/ exists d, In d (flat t) /\ key d' = key d /\ tag d' = tag d.
Proof.
  intros F U R Hk1 Hjs E. unfold share in E. destruct (forallb _ _); [|discriminate]. injection E as <-. set (n := ND (fresh t) _ _ []). cbn [key]. set (link := fun d => d_set d AXlinkHref (VLink (fresh t))).
  pose proof (wf_keys t (fine_wf t F)) as N. pose proof (fresh_not t) as Fr. assert (Gn : gradient_node n) by (now left).
  destruct (find_sub k1 t) as [s|] eqn:E; [|apply find_sub_none in E; contradiction]. unfold kids_of. rewrite E. apply find_sub_some in E. destruct E as [Hs Ks]. pose proof (data_of_sub s t Hs) as Ds. assert (Gs : gradient_node (data s)) by (apply (R k1 (data s)); [now left|exact Ds|exact Ks]).
  set (t0 := set_kids k1 (fun _ => []) t). set (t0' := upd k1 link t0). set (x := T n (kids s)). set (t1 := insert_before k1 x t0').
  assert (Kl : forall d, key (if Nat.eqb (key d) k1 then link d else d) = key d) by (intros d; now destruct (Nat.eqb _ _)).
  assert (Nr : k1 <> root_key t). { intros X. assert (s = t) by (apply (sub_unique t); auto using subs_self; congruence). subst s. pose proof (fine_root t F) as Q. destruct Gs as [Q2|Q2]; rewrite Q in Q2; discriminate. }
  destruct (flat_split t s N Hs) as (pre & post & E1 & E2). specialize (E2 (fun _ => [])). rewrite Ks in E2. fold t0 in E2. cbn [flat_map] in E2.
  assert (P0 : Permutation (flat t) (flat_map flat (kids s) ++ flat t0)). { rewrite E1, E2. destruct s as [ds cs]. cbn [flat data kids]. apply (perm_mid pre post (flat_map flat cs) [] (flat_map flat cs) ds). rewrite app_nil_r. apply Permutation_refl. }
  assert (K0 : keys t0' = keys t0) by (apply keys_tmap, Kl). assert (R0 : root_key t0' = root_key t) by (unfold root_key, t0', upd; rewrite data_tmap, Kl; unfold t0; now rewrite data_set_kids).
  assert (N0 : NoDup (keys t0)). { unfold keys in *. pose proof (Permutation_NoDup (Permutation_map key P0) N) as Q. rewrite map_app in Q. apply NoDup_app_inv in Q. apply Q. }
  assert (H0 : In k1 (keys t0')). { rewrite K0. unfold keys. rewrite E2. rewrite !map_app. apply in_or_app. right. left. exact Ks. }
  assert (P1 : Permutation (flat t1) (n :: flat_map flat (kids s) ++ flat t0')). { unfold t1. eapply Permutation_trans; [apply before_perm; [now rewrite K0|exact H0|now rewrite R0]|]. apply Permutation_refl. }
  assert (MK : forall l, map key (flat_map flat l) = flat_map keys l) by (induction l as [|c l IHl]; [reflexivity|]; cbn; rewrite map_app, IHl; reflexivity).
  assert (PK : Permutation (keys t1) (fresh t :: keys t)).
  { unfold keys. eapply Permutation_trans; [exact (Permutation_map key P1)|]. cbn [map key n]. apply perm_skip. eapply Permutation_trans; [|exact (Permutation_map key (Permutation_sym P0))]. rewrite !map_app. apply Permutation_app_head. fold (keys t0'). rewrite K0. apply Permutation_refl. }
  assert (D1 : forall d', In d' (flat t1) -> d' = n \/ exists d, In d (flat t) /\ (d' = d \/ d' = link d)).
  { intros d' Hd'. apply (Permutation_in d' P1) in Hd'. destruct Hd' as [<-|Hd']; [now left|right]. apply in_app_or in Hd'. destruct Hd' as [Hd'|Hd'].
    - exists d'. split; [|now left]. apply (Permutation_in d' (Permutation_sym P0)), in_or_app. now left.
    - unfold t0', upd in Hd'. rewrite flat_tmap in Hd'. apply in_map_iff in Hd'. destruct Hd' as (d & <- & Hd). exists d. split; [apply (Permutation_in d (Permutation_sym P0)), in_or_app; now right|]. destruct (Nat.eqb _ _); auto. }
  assert (F1 : fine t1).
  { apply (fine_from t); [exact F| | | |].
    - apply (Permutation_NoDup (Permutation_sym PK)). constructor; assumption.
    - unfold t1. replace (data (insert_before k1 x t0')) with (data t0') by (destruct t0'; reflexivity). unfold t0', upd. rewrite data_tmap. unfold t0. rewrite data_set_kids. destruct (Nat.eqb _ _); exact (fine_root t F).
    - intros k Hk. apply (Permutation_in k (Permutation_sym PK)). now right.
    - intros d' Hd'. destruct (D1 d' Hd') as [->|(d & Hd & [->| ->])]; [now left|right; exists d; split; [exact Hd|apply ext_refl]|right]. exists d. split; [exact Hd|]. apply ext_set. intros k Q. cbn in Q. injection Q as <-. apply in_or_app. right. apply (Permutation_in _ (Permutation_sym PK)). now left. }
  assert (T1 : forall d', In d' (flat t1) -> d' = n \/ exists d, In d (flat t) /\ key d' = key d /\ tag d' = tag d). { intros d' Hd'. destruct (D1 d' Hd') as [->|(d & Hd & [->| ->])]; [now left|right; eauto|right; eauto]. }
  assert (I0 : forall a b, inside t0' a b -> inside t a b). { intros a b H. unfold t0', upd in H. apply inside_tmap in H; [|exact Kl]. apply inside_set_kids in H. destruct H as [H|[]]. exact H. }
  assert (Old : forall g, In g (flat t1) -> gradient_node g -> In (key g) (keys t) -> exists g0, In g0 (flat t) /\ key g0 = key g /\ gradient_node g0).
  { intros g Hg G Kg. destruct (T1 g Hg) as [->|(d & Hd & A & B)]; [contradiction|]. exists d. split; [exact Hd|]. split; [congruence|]. unfold gradient_node in *. now rewrite <- B. }
  assert (NoIn : forall g, In g (flat t1) -> gradient_node g -> ~ In (key g) (flat_map keys (kids s))).
  { intros g Hg G Q. assert (I : inside t (key g) k1) by (exists s; split; [exact Hs|]; split; [exact Ks|]; rewrite keys_kids; now right). destruct (Old g Hg G (proj1 (inside_keys _ _ _ I))) as (g0 & A1 & A2 & A3). apply (strict_ne t s (key g) N Hs Q). rewrite <- A2. apply (U g0 (data s) A1 Ds A3 Gs). rewrite A2. unfold root_key in Ks. now rewrite Ks. }
  assert (U1 : nonest t1).
  { intros g g' Hg Hg' G G' H. apply inside_before in H. destruct H as [H|[H|(s0 & Hs0 & Kb & Hk)]].
    - apply I0 in H. destruct (inside_keys _ _ _ H) as [Q1 Q2]. destruct (Old g Hg G Q1) as (g0 & A1 & A2 & A3). destruct (Old g' Hg' G' Q2) as (g1 & B1 & B2 & B3). rewrite <- A2, <- B2 in *. now apply U.
    - destruct H as (s1 & [<-|Hs1] & K' & Ha).
      + rewrite keys_kids in Ha. destruct Ha as [Ha|Ha]; [congruence|]. exfalso. exact (NoIn g Hg G Ha).
      + exfalso. apply (NoIn g' Hg' G'). rewrite <- K'. apply in_flat_map in Hs1. destruct Hs1 as (c & Hc & Hs1). apply in_flat_map. exists c. split; [exact Hc|]. now apply key_in_sub.
    - exfalso. assert (H : inside t0' k1 (key g')) by (exists s0; split; [exact Hs0|]; split; [exact Kb|]; rewrite keys_kids; now right). apply I0 in H. destruct (Old g' Hg' G' (proj2 (inside_keys _ _ _ H))) as (g0 & A1 & A2 & A3).
      assert (X : root_key s = key g0) by (apply (U (data s) g0 Ds A1 Gs A3); rewrite A2; unfold root_key in Ks; now rewrite Ks). apply (strict_ne t0' s0 k1); [now rewrite K0|exact Hs0|exact Hk|]. congruence. }
  destruct (fine_share_rest (fresh t) js t1 F1 U1) as (A & B & C).
  - intros k d Hk Hd Kd. destruct (T1 d Hd) as [->|(d0 & Hd0 & X1 & X2)]; [exact Gn|]. unfold gradient_node. rewrite X2. apply (R k d0); [now right|exact Hd0|congruence].
  - intros Q. apply Fr. now apply Hjs.
  - exists n. split; [apply (Permutation_in n (Permutation_sym P1)); now left|]. split; [reflexivity|exact Gn].
  - split; [exact A|]. split; [exact B|]. intros d' Hd'. destruct (C d' Hd') as (d & Hd & X1 & X2). destruct (T1 d Hd) as [->|(d0 & Hd0 & Y1 & Y2)]; [left; unfold gradient_node; now rewrite X2|right]. exists d0. split; [exact Hd0|]. split; congruence.
Qed.
Lemma fine_regroup_loop m : forall l t p, fine t -> nonest t -> ready_for l t -> regroup_loop m l t = Ok p -> fine (snd p).
Proof.
  induction m as [|m IH]; intros l t p F U R E; [cbn in E; injection E as <-; exact F|]. destruct l as [|k1 rest]; cbn [regroup_loop] in E; [injection E as <-; exact F|]. cbv zeta in E.
  assert (Rr : ready_for (filter (fun k => negb (equal_stops t k1 k)) rest) t) by (intros k d Hk; apply filter_In in Hk; apply R; right; apply Hk).
  destruct (filter (equal_stops t k1) rest) as [|j js] eqn:Ej; [exact (IH _ _ _ F U Rr E)|]. apply bind_ok in E. destruct E as (t1 & E1 & E). apply bind_ok in E. destruct E as (q & E2 & E). injection E as <-. cbn [snd].
  assert (Eq : forall i, In i (j :: js) -> In i rest /\ In k1 (keys t) /\ In i (keys t)).
  { intros i Hi. rewrite <- Ej in Hi. apply filter_In in Hi. destruct Hi as [Hi Q]. split; [exact Hi|]. unfold equal_stops in Q. destruct (find_sub k1 t) as [s1|] eqn:Q1; [|discriminate]. destruct (find_sub i t) as [s2|] eqn:Q2; [|discriminate]. apply find_sub_some in Q1, Q2. destruct Q1 as [X1 <-], Q2 as [X2 <-]. split; now apply key_in_sub. }
  destruct (fine_share k1 (j :: js) t t1 F U) as (F1 & U1 & S1); [|apply (Eq j); now left|intros i Hi; now apply Eq|exact E1|].
  - intros k d [<-|Hk]; [apply R; now left|]. apply R. right. now apply Eq.
  - refine (IH _ _ _ F1 U1 _ E2). intros k d Hk Hd Kd. destruct (S1 d Hd) as [Q|(d0 & Hd0 & A & B)]; [exact Q|]. unfold gradient_node. rewrite B. apply (Rr k d0); [exact Hk|exact Hd0|congruence].
Qed.
Lemma fine_regroup t t' : fine t -> nonest t -> regroup_gradient_stops t = Some (Ok t') -> fine t'.
Proof.
  intros F U E. unfold regroup_gradient_stops in E. destruct (regroup_loop _ _ t) as [[b t1]| |] eqn:E1; try discriminate. apply (fine_regroup_loop _ _ _ _ F U) in E1.
  - cbn [snd] in E1. destruct b; [exact (fine_linear _ _ E1 E)|injection E as <-; exact E1].
  - intros k d Hk Hd Kd. unfold stop_owners in Hk. apply in_map_iff in Hk. destruct Hk as (s & Ks & Hs). apply filter_In in Hs. destruct Hs as [Hs Q]. apply andb_true_iff in Q. destruct Q as [Q _]. apply andb_true_iff in Q. destruct Q as [Q _]. assert (d = data s) by (apply (data_unique t); [apply F|exact Hd|now apply data_of_sub|unfold root_key in Ks; congruence]). subst d. now apply is_gradient_iff.
Qed.
