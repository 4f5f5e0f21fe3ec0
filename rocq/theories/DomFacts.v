(** Lemmas about Dom.v. *)
From Coq Require Import List Bool NArith Arith String Lia.
From Verif Require Import Names Num Value Dom.
Import ListNotations.

(** Induction over rose trees. *)
Fixpoint tree_ind' (P : tree -> Prop) (H : forall d ch, Forall P ch -> P (T d ch)) (t : tree) : P t :=
  match t with
  | T d ch => H d ch ((fix go (l : list tree) : Forall P l :=
       match l with [] => Forall_nil P | c :: l' => Forall_cons c (tree_ind' P H c) (go l') end) ch)
  end.

(** * Lists *)
Lemma flat_map_ext_Forall {A B} (f g : A -> list B) l : Forall (fun x => f x = g x) l -> flat_map f l = flat_map g l.
Proof. induction 1 as [|x l Hx F IH]; cbn; congruence. Qed.
Lemma map_ext_Forall' {A B} (f g : A -> B) l : Forall (fun x => f x = g x) l -> map f l = map g l.
Proof. induction 1 as [|x l Hx F IH]; cbn; congruence. Qed.
Lemma flat_map_map {A B C} (f : A -> B) (g : B -> list C) l : flat_map g (map f l) = flat_map (fun x => g (f x)) l.
Proof. induction l; cbn; congruence. Qed.
Lemma map_flat_map {A B C} (f : A -> list B) (g : B -> C) l : map g (flat_map f l) = flat_map (fun x => map g (f x)) l.
Proof. induction l; cbn; rewrite ?map_app; congruence. Qed.
Lemma flat_map_flat_map {A B C} (f : A -> list B) (g : B -> list C) l :
  flat_map g (flat_map f l) = flat_map (fun x => flat_map g (f x)) l.
Proof. induction l; cbn; rewrite ?flat_map_app; congruence. Qed.
Lemma NoDup_app_inv {A} (l m : list A) : NoDup (l ++ m) -> NoDup l /\ NoDup m /\ (forall x, In x l -> In x m -> False).
Proof.
  induction l as [|x l IH]; cbn; intros H; [split; [constructor|]; auto|].
  inversion H as [|? ? Hx N]; subst. destruct (IH N) as (A1 & A2 & A3). split; [|split; [exact A2|]].
  - constructor; [|exact A1]. intros Hx'. apply Hx. apply in_or_app. auto.
  - intros y [<-|Hy] Hm; [|eauto]. apply Hx. apply in_or_app. auto.
Qed.
Lemma NoDup_app_intro {A} (l m : list A) : NoDup l -> NoDup m -> (forall x, In x l -> In x m -> False) -> NoDup (l ++ m).
Proof.
  induction 1 as [|x l Hx N IH]; cbn; intros Hm D; [exact Hm|]. constructor.
  - intros H. apply in_app_or in H. destruct H as [H|H]; [auto|]. apply (D x); [left; reflexivity|exact H].
  - apply IH; [exact Hm|]. intros y Hy. apply D. right. exact Hy.
Qed.

Inductive sublist {A} : list A -> list A -> Prop :=
| sub_nil : sublist [] []
| sub_skip x l m : sublist l m -> sublist l (x :: m)
| sub_cons x l m : sublist l m -> sublist (x :: l) (x :: m).
Lemma sublist_refl {A} (l : list A) : sublist l l.
Proof. induction l; [apply sub_nil|apply sub_cons; assumption]. Qed.
Lemma sublist_nil {A} (l : list A) : sublist [] l.
Proof. induction l; constructor; assumption. Qed.
Lemma sublist_app {A} (l l' m m' : list A) : sublist l m -> sublist l' m' -> sublist (l ++ l') (m ++ m').
Proof. induction 1; cbn; intros; [assumption|apply sub_skip; auto|apply sub_cons; auto]. Qed.
Lemma sublist_incl {A} (l m : list A) : sublist l m -> incl l m.
Proof. induction 1; intros y Hy; [contradiction|right; auto|]. destruct Hy as [<-|Hy]; [left|right]; auto. Qed.
Lemma sublist_NoDup {A} (l m : list A) : sublist l m -> NoDup m -> NoDup l.
Proof.
  induction 1 as [|x l m S IH|x l m S IH]; intros N; [constructor| |]; inversion N; subst; [auto|].
  constructor; [|auto]. intros Hx. apply sublist_incl in S. auto.
Qed.
Lemma sublist_map {A B} (f : A -> B) l m : sublist l m -> sublist (map f l) (map f m).
Proof. induction 1; cbn; [apply sub_nil|apply sub_skip; assumption|apply sub_cons; assumption]. Qed.
Lemma sublist_trans {A} (l m n : list A) : sublist l m -> sublist m n -> sublist l n.
Proof.
  intros H1 H2. revert l H1. induction H2; intros l0 H1; [assumption|apply sub_skip; auto|].
  inversion H1; subst; [apply sub_skip; auto|apply sub_cons; auto].
Qed.
Lemma sublist_filter {A} p (l : list A) : sublist (filter p l) l.
Proof. induction l; cbn; [apply sub_nil|]. destruct (p a); [apply sub_cons|apply sub_skip]; assumption. Qed.
Lemma sublist_length {A} (l m : list A) : sublist l m -> List.length l <= List.length m.
Proof. induction 1; cbn; lia. Qed.

(** * Maps over the tree *)
Lemma flat_tmap f t : flat (tmap f t) = map f (flat t).
Proof.
  induction t as [d ch IH] using tree_ind'. cbn. f_equal.
  rewrite flat_map_map, map_flat_map. now apply flat_map_ext_Forall.
Qed.
Lemma keys_tmap f t : (forall d, key (f d) = key d) -> keys (tmap f t) = keys t.
Proof. intros H. unfold keys. rewrite flat_tmap, map_map. apply map_ext. exact H. Qed.
Lemma tmap_id f t : (forall d, In d (flat t) -> f d = d) -> tmap f t = t.
Proof.
  induction t as [d ch IH] using tree_ind'. cbn. intros H. f_equal; [apply H; auto|].
  rewrite <- (map_id ch) at 2. apply map_ext_Forall'. rewrite Forall_forall in *. intros c Hc.
  apply IH; [exact Hc|]. intros x Hx. apply H. right. apply in_flat_map. eauto.
Qed.
Lemma tmap_ext f g t : (forall d, In d (flat t) -> f d = g d) -> tmap f t = tmap g t.
Proof.
  induction t as [d ch IH] using tree_ind'. cbn. intros H. f_equal; [apply H; auto|].
  apply map_ext_Forall'. rewrite Forall_forall in *. intros c Hc.
  apply IH; [exact Hc|]. intros x Hx. apply H. right. apply in_flat_map. eauto.
Qed.
Lemma tmap_tmap f g t : tmap f (tmap g t) = tmap (fun d => f (g d)) t.
Proof.
  induction t as [d ch IH] using tree_ind'. cbn. f_equal. rewrite map_map. now apply map_ext_Forall'.
Qed.
Lemma data_tmap f t : data (tmap f t) = f (data t).
Proof. destruct t; reflexivity. Qed.
Lemma kids_tmap f t : kids (tmap f t) = map (tmap f) (kids t).
Proof. destruct t; reflexivity. Qed.
Lemma subs_tmap f t : subs (tmap f t) = map (tmap f) (subs t).
Proof.
  induction t as [d ch IH] using tree_ind'. cbn. f_equal.
  rewrite flat_map_map, map_flat_map. now apply flat_map_ext_Forall.
Qed.
Lemma root_key_tmap f t : (forall d, key (f d) = key d) -> root_key (tmap f t) = root_key t.
Proof. intros H. destruct t. apply H. Qed.

(** * Subtrees and keys *)
Lemma map_data_subs t : map data (subs t) = flat t.
Proof.
  induction t as [d ch IH] using tree_ind'. cbn. f_equal. rewrite map_flat_map. now apply flat_map_ext_Forall.
Qed.
Lemma subs_self t : In t (subs t).
Proof. destruct t. left. reflexivity. Qed.
Lemma flat_self t : In (data t) (flat t).
Proof. destruct t. left. reflexivity. Qed.
Lemma in_subs_flat s t : In s (subs t) -> incl (flat s) (flat t).
Proof.
  induction t as [d ch IH] using tree_ind'. intros [<-|H]; [apply incl_refl|].
  apply in_flat_map in H. destruct H as (c & Hc & Hs). rewrite Forall_forall in IH.
  intros x Hx. cbn. right. apply in_flat_map. exists c. split; [exact Hc|]. now apply (IH c Hc Hs).
Qed.
Lemma keys_cons d ch : keys (T d ch) = key d :: flat_map keys ch.
Proof. unfold keys. cbn. f_equal. now rewrite map_flat_map. Qed.
Lemma root_in_keys t : In (root_key t) (keys t).
Proof. destruct t. rewrite keys_cons. left. reflexivity. Qed.
Lemma in_subs_keys s t : In s (subs t) -> incl (keys s) (keys t).
Proof.
  intros H k Hk. unfold keys in *. apply in_map_iff in Hk. destruct Hk as (d & <- & Hd).
  apply in_map. now apply (in_subs_flat s t).
Qed.
Lemma in_subs_root s t : In s (subs t) -> In (root_key s) (keys t).
Proof. intros H. apply (in_subs_keys s t H). apply root_in_keys. Qed.
Lemma in_forest_root s ch : In s (flat_map subs ch) -> In (root_key s) (flat_map keys ch).
Proof.
  intros Hs. apply in_flat_map in Hs. destruct Hs as (c & Hc & Hs). apply in_flat_map. exists c.
  split; [exact Hc|]. now apply in_subs_root.
Qed.
Lemma in_forest_keys s ch : In s (flat_map subs ch) -> incl (keys s) (flat_map keys ch).
Proof.
  intros Hs j Hj. apply in_flat_map in Hs. destruct Hs as (c & Hc & Hs). apply in_flat_map. exists c.
  split; [exact Hc|]. now apply (in_subs_keys s c).
Qed.

Lemma sub_unique t a b : NoDup (keys t) -> In a (subs t) -> In b (subs t) -> root_key a = root_key b -> a = b.
Proof.
  revert a b. induction t as [d ch IH] using tree_ind'. intros a b N Ha Hb E.
  rewrite keys_cons in N. inversion N as [|? ? Nk Nc]; subst.
  cbn in Ha, Hb. destruct Ha as [<-|Ha], Hb as [<-|Hb]; auto.
  - exfalso. apply Nk. apply in_forest_root in Hb. rewrite <- E in Hb. exact Hb.
  - exfalso. apply Nk. apply in_forest_root in Ha. rewrite E in Ha. exact Ha.
  - clear Nk N. induction IH as [|c ch Hc F IH2]; [contradiction|].
    cbn in Nc. apply NoDup_app_inv in Nc. destruct Nc as (N1 & N2 & N3).
    cbn in Ha, Hb. apply in_app_or in Ha, Hb. destruct Ha as [Ha|Ha], Hb as [Hb|Hb].
    + now apply Hc.
    + exfalso. apply (N3 (root_key a)); [now apply in_subs_root|]. rewrite E. now apply in_forest_root.
    + exfalso. apply (N3 (root_key b)); [now apply in_subs_root|]. rewrite <- E. now apply in_forest_root.
    + apply IH2; auto.
Qed.
Lemma data_unique t a b : NoDup (keys t) -> In a (flat t) -> In b (flat t) -> key a = key b -> a = b.
Proof.
  intros N Ha Hb E. rewrite <- map_data_subs in Ha, Hb. apply in_map_iff in Ha, Hb.
  destruct Ha as (x & <- & Hx), Hb as (y & <- & Hy). f_equal. eapply sub_unique; eauto.
Qed.

Lemma find_sub_some k t s : find_sub k t = Some s -> In s (subs t) /\ root_key s = k.
Proof. intros H. apply find_some in H. destruct H as [H E]. apply Nat.eqb_eq in E. auto. Qed.
Lemma find_sub_none k t : find_sub k t = None <-> ~ In k (keys t).
Proof.
  unfold find_sub. split.
  - intros H Hk. unfold keys in Hk. rewrite <- map_data_subs, map_map in Hk. apply in_map_iff in Hk.
    destruct Hk as (s & E & Hs). apply find_none with (x := s) in H; [|exact Hs].
    apply Nat.eqb_neq in H. unfold root_key in H. congruence.
  - intros H. destruct (find _ (subs t)) as [s|] eqn:E; [|reflexivity]. exfalso.
    apply find_some in E. destruct E as [E1 E2]. apply Nat.eqb_eq in E2. apply H. subst k. now apply in_subs_root.
Qed.
Lemma find_sub_in k t : In k (keys t) -> exists s, find_sub k t = Some s.
Proof.
  intros H. destruct (find_sub k t) as [s|] eqn:E; [eauto|]. apply find_sub_none in E. contradiction.
Qed.
Lemma find_sub_iff t s : NoDup (keys t) -> In s (subs t) -> find_sub (root_key s) t = Some s.
Proof.
  intros N Hs. destruct (find_sub_in (root_key s) t (in_subs_root s t Hs)) as (s' & E). rewrite E. f_equal.
  apply find_sub_some in E. destruct E. eapply sub_unique; eauto.
Qed.
Lemma in_doc_iff k t : in_doc k t = true <-> In k (keys t).
Proof.
  unfold in_doc, keys. rewrite existsb_exists, in_map_iff. split.
  - intros (d & Hd & E). apply Nat.eqb_eq in E. eauto.
  - intros (d & E & Hd). exists d. split; [exact Hd|]. now apply Nat.eqb_eq.
Qed.
Lemma find_data_in t d : NoDup (keys t) -> In d (flat t) -> find_data (key d) t = Some d.
Proof.
  intros N Hd. unfold find_data. destruct (find _ (flat t)) as [d'|] eqn:E.
  - apply find_some in E. destruct E as [E1 E2]. apply Nat.eqb_eq in E2. f_equal. eapply data_unique; eauto.
  - apply find_none with (x := d) in E; [|exact Hd]. now rewrite Nat.eqb_refl in E.
Qed.

(** * Links *)
Definition node_links (d : ndata) : list nat :=
  flat_map (fun a => match link_of (a_val a) with Some k => [k] | None => [] end) (attrs d).
Lemma targets_flat t : targets t = flat_map node_links (flat t).
Proof. reflexivity. Qed.
Lemma node_links_iff d k : In k (node_links d) <-> exists a, In a (attrs d) /\ link_of (a_val a) = Some k.
Proof.
  unfold node_links. rewrite in_flat_map. split.
  - intros (a & Ha & H). exists a. destruct (link_of (a_val a)); cbn in H; [|contradiction].
    destruct H as [->|[]]. auto.
  - intros (a & Ha & E). exists a. rewrite E. split; [exact Ha|left; reflexivity].
Qed.
Lemma targets_in t k : In k (targets t) <->
  exists d a, In d (flat t) /\ In a (attrs d) /\ link_of (a_val a) = Some k.
Proof.
  rewrite targets_flat, in_flat_map. split.
  - intros (d & Hd & H). apply node_links_iff in H. destruct H as (a & Ha & E). eauto.
  - intros (d & a & Hd & Ha & E). exists d. split; [exact Hd|]. apply node_links_iff. eauto.
Qed.
Lemma refers_iff k a : refers k a = true <-> link_of (a_val a) = Some k.
Proof.
  unfold refers. destruct (link_of (a_val a)) as [j|]; [|split; discriminate].
  rewrite Nat.eqb_eq. split; congruence.
Qed.
Lemma is_used_iff k t : is_used k t = true <-> In k (targets t).
Proof.
  unfold is_used. rewrite existsb_exists, targets_in. split.
  - intros (d & Hd & H). apply existsb_exists in H. destruct H as (a & Ha & H). apply refers_iff in H. eauto.
  - intros (d & a & Hd & Ha & E). exists d. split; [exact Hd|]. apply existsb_exists. exists a.
    split; [exact Ha|]. now apply refers_iff.
Qed.
Lemma linked_nodes_in k t j n : In (j, n) (linked_nodes k t) <->
  exists d a, In d (flat t) /\ In a (attrs d) /\ link_of (a_val a) = Some k /\ j = key d /\ n = a_name a.
Proof.
  unfold linked_nodes. rewrite in_flat_map. split.
  - intros (d & Hd & H). apply in_map_iff in H. destruct H as (a & E & H). injection E as <- <-.
    apply filter_In in H. destruct H as [H1 H2]. apply refers_iff in H2. exists d, a. auto.
  - intros (d & a & Hd & Ha & E & -> & ->). exists d. split; [exact Hd|]. apply in_map_iff. exists a.
    split; [reflexivity|]. apply filter_In. split; [exact Ha|]. now apply refers_iff.
Qed.
Lemma is_used_linked k t : is_used k t = true <-> linked_nodes k t <> [].
Proof.
  rewrite is_used_iff, targets_in. split.
  - intros (d & a & Hd & Ha & E) N.
    assert (I : In (key d, a_name a) (linked_nodes k t)) by (apply linked_nodes_in; exists d, a; auto).
    rewrite N in I. contradiction.
  - intros N. destruct (linked_nodes k t) as [|[j n] l] eqn:E; [contradiction|].
    assert (I : In (j, n) (linked_nodes k t)) by (rewrite E; left; reflexivity).
    apply linked_nodes_in in I. destruct I as (d & a & Hd & Ha & El & _). eauto.
Qed.
Lemma is_used_count k t : is_used k t = false <-> uses_count k t = 0.
Proof.
  unfold uses_count. destruct (is_used k t) eqn:E.
  - apply is_used_linked in E. destruct (linked_nodes k t); [contradiction|]. cbn. split; discriminate.
  - split; [|reflexivity]. intros _. destruct (linked_nodes k t) eqn:L; [reflexivity|].
    assert (X : is_used k t = true) by (apply is_used_linked; rewrite L; discriminate). congruence.
Qed.

(** * Well-formedness *)
Lemma node_links_in t d k : In d (flat t) -> In k (node_links d) -> In k (targets t).
Proof. intros Hd Hk. rewrite targets_flat. apply in_flat_map. eauto. Qed.
Lemma WF_tmap f t : WF t -> (forall d, key (f d) = key d) ->
  (forall d, In d (flat t) -> incl (node_links (f d)) (keys t)) -> WF (tmap f t).
Proof.
  intros [Hk Hl] Hf Hi. split.
  - now rewrite keys_tmap.
  - intros k. rewrite keys_tmap by assumption. rewrite targets_flat, flat_tmap, flat_map_map, in_flat_map.
    intros (d & Hd & H). exact (Hi d Hd k H).
Qed.
Lemma WF_tmap_incl f t : WF t -> (forall d, key (f d) = key d) ->
  (forall d, In d (flat t) -> incl (node_links (f d)) (node_links d)) -> WF (tmap f t).
Proof.
  intros H Hf Hi. apply WF_tmap; [exact H|exact Hf|]. intros d Hd k Hk.
  apply (wf_links t H). eapply node_links_in; [exact Hd|]. now apply Hi.
Qed.

(** * Pruning and removal *)
Lemma flat_prune_sublist p t : sublist (flat (prune p t)) (flat t).
Proof.
  induction t as [d ch IH] using tree_ind'. cbn. apply sub_cons.
  induction IH as [|c ch Hc F IH2]; cbn; [constructor|].
  destruct (p c); cbn.
  - rewrite <- (app_nil_l (flat_map flat (flat_map _ ch))). apply sublist_app; [apply sublist_nil|exact IH2].
  - apply sublist_app; assumption.
Qed.
Lemma keys_prune_sublist p t : sublist (keys (prune p t)) (keys t).
Proof. unfold keys. apply sublist_map. apply flat_prune_sublist. Qed.
Lemma data_prune p t : data (prune p t) = data t.
Proof. destruct t. reflexivity. Qed.

Lemma flat_map_incl_sub {A B} (f g : A -> list B) l : Forall (fun x => sublist (f x) (g x)) l -> sublist (flat_map f l) (flat_map g l).
Proof. induction 1; cbn; [constructor|]. now apply sublist_app. Qed.

(** The node [k] is in a pruned subtree. *)
Definition cut (p : tree -> bool) (t : tree) (j : nat) : Prop :=
  exists s, In s (flat_map subs (kids t)) /\ p s = true /\ In j (keys s).

(** With unique keys, pruning keeps exactly the nodes that are not below a pruned one. *)
Lemma prune_keys p t : NoDup (keys t) -> forall j, In j (keys (prune p t)) <-> In j (keys t) /\ ~ cut p t j.
Proof.
  intros N j. revert N. induction t as [d ch IH] using tree_ind'. intros N.
  unfold cut. cbn [prune kids]. rewrite !keys_cons in *. inversion N as [|? ? Nk Nc]; subst.
  assert (L : In j (flat_map keys (flat_map (fun c => if p c then [] else [prune p c]) ch)) <->
     In j (flat_map keys ch) /\ ~ (exists s, In s (flat_map subs ch) /\ p s = true /\ In j (keys s))).
  { clear N Nk d. induction IH as [|c ch Hc F IH2]; cbn [flat_map].
    - cbn. split; [contradiction|tauto].
    - cbn [flat_map] in Nc. apply NoDup_app_inv in Nc. destruct Nc as (N1 & N2 & N3).
      specialize (IH2 N2). rewrite flat_map_app, in_app_iff, IH2, in_app_iff. clear IH2.
      destruct (p c) eqn:E.
      + cbn [flat_map]. split.
        * intros [[]|[H1 H2]]. split; [auto|]. intros (s & Hs & Es & Hj). apply in_app_or in Hs.
          destruct Hs as [Hs|Hs]; [|eauto]. apply (N3 j); [|exact H1]. now apply (in_subs_keys s c).
        * intros [[H1|H1] H2].
          -- exfalso. apply H2. exists c. split; [apply in_or_app; left; apply subs_self|auto].
          -- right. split; [exact H1|]. intros (s & Hs & Es & Hj). apply H2. exists s. rewrite in_app_iff. auto.
      + cbn [flat_map]. rewrite app_nil_r. specialize (Hc N1). rewrite Hc. unfold cut. split.
        * intros [[H1 H2]|[H1 H2]].
          -- split; [auto|]. intros (s & Hs & Es & Hj). apply in_app_or in Hs. destruct Hs as [Hs|Hs].
             ++ apply H2. exists s. destruct c as [dc cc]. cbn in Hs. destruct Hs as [<-|Hs]; [congruence|]. auto.
             ++ apply (N3 j); [exact H1|]. now apply (in_forest_keys s ch).
          -- split; [auto|]. intros (s & Hs & Es & Hj). apply in_app_or in Hs. destruct Hs as [Hs|Hs]; [|eauto].
             apply (N3 j); [|exact H1]. now apply (in_subs_keys s c).
        * intros [[H1|H1] H2]; [left|right]; (split; [exact H1|]); intros (s & Hs & Es & Hj); apply H2; exists s;
            rewrite in_app_iff; (split; [|auto]); [left|right; exact Hs].
          destruct c as [dc cc]. cbn in *. auto. }
  cbn [In]. rewrite L. split.
  - intros [<-|[H1 H2]]; [|auto]. split; [auto|]. intros (s & Hs & Es & Hj). apply Nk. now apply (in_forest_keys s ch).
  - intros [[<-|H1] H2]; [left; reflexivity|auto].
Qed.

(** Unique keys: membership of data follows membership of keys. *)
Lemma prune_flat p t d : NoDup (keys t) -> In d (flat (prune p t)) <-> In d (flat t) /\ ~ cut p t (key d).
Proof.
  intros N. split.
  - intros H. split; [exact (sublist_incl _ _ (flat_prune_sublist p t) d H)|].
    apply (prune_keys p t N). unfold keys. now apply in_map.
  - intros [H1 H2]. assert (K : In (key d) (keys (prune p t))).
    { apply prune_keys; [exact N|]. split; [unfold keys; now apply in_map|exact H2]. }
    unfold keys in K. apply in_map_iff in K. destruct K as (d' & E & Hd').
    assert (d' = d); [|congruence]. apply (data_unique t); auto. exact (sublist_incl _ _ (flat_prune_sublist p t) d' Hd').
Qed.

Lemma cut_detach k t j : NoDup (keys t) -> k <> root_key t ->
  (cut (fun c => Nat.eqb (root_key c) k) t j <-> In j (sub_keys k t)).
Proof.
  intros N Hr. unfold cut, sub_keys. split.
  - intros (s & Hs & Es & Hj). apply Nat.eqb_eq in Es.
    assert (S : In s (subs t)) by (destruct t; right; exact Hs).
    rewrite <- Es, (find_sub_iff t s N S). exact Hj.
  - destruct (find_sub k t) as [s|] eqn:E; [|contradiction]. intros Hj.
    apply find_sub_some in E. destruct E as [E1 E2]. exists s. split; [|split; [now apply Nat.eqb_eq|exact Hj]].
    destruct t as [d ch]. cbn in E1. destruct E1 as [<-|E1]; [congruence|exact E1].
Qed.

Lemma detach_keys k t : NoDup (keys t) -> k <> root_key t ->
  forall j, In j (keys (detach k t)) <-> In j (keys t) /\ ~ In j (sub_keys k t).
Proof.
  intros N Hr j. unfold detach. rewrite (prune_keys _ t N), (cut_detach k t j N Hr). reflexivity.
Qed.
Lemma detach_flat k t d : NoDup (keys t) -> k <> root_key t ->
  In d (flat (detach k t)) <-> In d (flat t) /\ ~ In (key d) (sub_keys k t).
Proof. intros N Hr. unfold detach. rewrite (prune_flat _ t d N), (cut_detach k t _ N Hr). reflexivity. Qed.

Definition unlink_data (ks : list nat) (d : ndata) : ndata :=
  with_attrs d (filter (fun a => negb (existsb (fun k => refers k a) ks)) (attrs d)).
Lemma unlink_eq ks t : unlink ks t = tmap (unlink_data ks) t.
Proof. reflexivity. Qed.
Lemma keys_unlink ks t : keys (unlink ks t) = keys t.
Proof. apply keys_tmap. reflexivity. Qed.
Lemma unlink_links ks d k : In k (node_links (unlink_data ks d)) <-> In k (node_links d) /\ ~ In k ks.
Proof.
  rewrite !node_links_iff. cbn. split.
  - intros (a & Ha & E). apply filter_In in Ha. destruct Ha as [Ha F]. split; [eauto|].
    intros Hk. apply negb_true_iff in F. assert (X : existsb (fun k => refers k a) ks = true); [|congruence].
    apply existsb_exists. exists k. split; [exact Hk|]. now apply refers_iff.
  - intros ((a & Ha & E) & Hk). exists a. split; [|exact E]. apply filter_In. split; [exact Ha|].
    apply negb_true_iff. destruct (existsb (fun k => refers k a) ks) eqn:X; [|reflexivity]. exfalso.
    apply existsb_exists in X. destruct X as (j & Hj & R). apply refers_iff in R. congruence.
Qed.

(** The effect of [remove] on nodes: those outside of the subtree stay, without the attributes that
    referred into the subtree. *)
Lemma sub_keys_unlink ks k t : sub_keys k (unlink ks t) = sub_keys k t.
Proof.
  unfold sub_keys, find_sub. rewrite unlink_eq, subs_tmap.
  assert (G : forall l, find (fun s => Nat.eqb (root_key s) k) (map (tmap (unlink_data ks)) l) =
     option_map (tmap (unlink_data ks)) (find (fun s => Nat.eqb (root_key s) k) l)).
  { induction l as [|s l IH]; cbn; [reflexivity|]. rewrite root_key_tmap by reflexivity.
    destruct (Nat.eqb (root_key s) k); [reflexivity|exact IH]. }
  rewrite G. destruct (find _ (subs t)); cbn; [|reflexivity]. now apply keys_tmap.
Qed.
Lemma remove_keys k t : NoDup (keys t) -> k <> root_key t ->
  forall j, In j (keys (remove k t)) <-> In j (keys t) /\ ~ In j (sub_keys k t).
Proof.
  intros N Hr j. unfold remove. rewrite detach_keys.
  - now rewrite keys_unlink, sub_keys_unlink.
  - now rewrite keys_unlink.
  - rewrite unlink_eq, root_key_tmap; [exact Hr|reflexivity].
Qed.
Lemma remove_flat k t d : NoDup (keys t) -> k <> root_key t ->
  In d (flat (remove k t)) <->
  exists d0, In d0 (flat t) /\ ~ In (key d0) (sub_keys k t) /\ d = unlink_data (sub_keys k t) d0.
Proof.
  intros N Hr. unfold remove. rewrite detach_flat.
  - rewrite sub_keys_unlink, unlink_eq, flat_tmap, in_map_iff. split.
    + intros ((d0 & <- & H0) & Hd). exists d0. auto.
    + intros (d0 & H0 & Hd & ->). split; [eauto|exact Hd].
  - now rewrite keys_unlink.
  - rewrite unlink_eq, root_key_tmap; [exact Hr|reflexivity].
Qed.
Lemma remove_keys_sublist k t : sublist (keys (remove k t)) (keys t).
Proof.
  unfold remove, detach. pose proof (keys_prune_sublist (fun c => Nat.eqb (root_key c) k) (unlink (sub_keys k t) t)) as H.
  rewrite keys_unlink in H. exact H.
Qed.
Lemma root_key_remove k t : root_key (remove k t) = root_key t.
Proof. unfold remove, detach, root_key. rewrite data_prune, unlink_eq, data_tmap. reflexivity. Qed.

Lemma WF_remove k t : WF t -> k <> root_key t -> WF (remove k t).
Proof.
  intros [N L] Hr. split.
  - exact (sublist_NoDup _ _ (remove_keys_sublist k t) N).
  - intros j. rewrite targets_flat, in_flat_map. intros (d & Hd & Hj).
    apply (remove_flat k t d N Hr) in Hd. destruct Hd as (d0 & Hd0 & Hn & ->).
    apply unlink_links in Hj. destruct Hj as [Hj1 Hj2]. apply remove_keys; [exact N|exact Hr|]. split; [|exact Hj2].
    apply L. eapply node_links_in; eauto.
Qed.

Lemma sub_keys_self k t : In k (keys t) -> In k (sub_keys k t).
Proof.
  intros H. unfold sub_keys. destruct (find_sub_in k t H) as (s & E). rewrite E.
  apply find_sub_some in E. destruct E as [_ <-]. apply root_in_keys.
Qed.
Lemma remove_shrinks k t : NoDup (keys t) -> k <> root_key t -> In k (keys t) ->
  List.length (keys (remove k t)) < List.length (keys t).
Proof.
  intros N Hr Hk. pose proof (remove_keys_sublist k t) as S.
  pose proof (sublist_length _ _ S) as L. destruct (Nat.eq_dec (List.length (keys (remove k t))) (List.length (keys t))) as [E|]; [|lia].
  exfalso. assert (G : forall l m : list nat, sublist l m -> List.length l = List.length m -> l = m).
  { clear. induction 1 as [|x l m S IH|x l m S IH]; cbn; intros E; [reflexivity| |].
    - apply sublist_length in S. lia.
    - f_equal. apply IH. lia. }
  assert (X : In k (keys (remove k t))) by (rewrite (G _ _ S E); exact Hk).
  apply (remove_keys k t N Hr) in X. destruct X as [_ X]. apply X. now apply sub_keys_self.
Qed.

(** * Attribute lists *)
Lemma has_name_true n a : has_name n a = true <-> a_name a = n.
Proof. unfold has_name. destruct (aname_eqb_spec (a_name a) n); split; congruence. Qed.
Lemma has_name_false n a : has_name n a = false <-> a_name a <> n.
Proof. unfold has_name. destruct (aname_eqb_spec (a_name a) n); split; congruence. Qed.
Lemma get_attr_some l a x : get_attr l a = Some x -> In x l /\ a_name x = AN a.
Proof. intros H. apply find_some in H. destruct H as [H1 H2]. apply has_name_true in H2. auto. Qed.
Lemma get_attr_none l a : get_attr l a = None <-> forall x, In x l -> a_name x <> AN a.
Proof.
  unfold get_attr. split.
  - intros H x Hx. apply find_none with (x := x) in H; [|exact Hx]. now apply has_name_false in H.
  - intros H. destruct (find _ l) as [x|] eqn:E; [|reflexivity]. apply find_some in E. destruct E as [E1 E2].
    apply has_name_true in E2. now apply H in E1.
Qed.
Lemma get_attr_in l x a : NoDup (map a_name l) -> In x l -> a_name x = AN a -> get_attr l a = Some x.
Proof.
  unfold get_attr. induction l as [|y l IH]; cbn; intros N Hx E; [contradiction|]. destruct Hx as [->|Hx].
  - apply has_name_true in E. now rewrite E.
  - inversion N as [|? ? Hy Nl]; subst. destruct (has_name (AN a) y) eqn:Ey; [|auto].
    apply has_name_true in Ey. exfalso. apply Hy. rewrite Ey, <- E. now apply in_map.
Qed.
Lemma get_set_same l a v : get_attr (set_attr l a v) a = Some (At (AN a) v true).
Proof.
  induction l as [|x l IH]; cbn.
  - unfold get_attr. cbn. unfold has_name. cbn. now rewrite aid_eqb_refl.
  - destruct (has_name (AN a) x) eqn:E; cbn.
    + unfold get_attr. cbn. unfold has_name. cbn. now rewrite aid_eqb_refl.
    + unfold get_attr in *. cbn. now rewrite E.
Qed.
Lemma aid_neq_name a b : a <> b -> has_name (AN b) (At (AN a) (VStr EmptyString) true) = false.
Proof. intros H. apply has_name_false. cbn. congruence. Qed.
Lemma get_set_other l a b v : a <> b -> get_attr (set_attr l a v) b = get_attr l b.
Proof.
  intros H. assert (F : forall w, has_name (AN b) (At (AN a) w true) = false).
  { intros w. apply has_name_false. cbn. congruence. }
  unfold get_attr. induction l as [|x l IH]; cbn.
  - now rewrite F.
  - destruct (has_name (AN a) x) eqn:E; cbn.
    + rewrite F. apply has_name_true in E. assert (X : has_name (AN b) x = false) by (apply has_name_false; congruence).
      now rewrite X.
    + destruct (has_name (AN b) x); [reflexivity|exact IH].
Qed.
Lemma get_rm_same l a : get_attr (rm_attr l a) a = None.
Proof.
  apply get_attr_none. intros x Hx. apply filter_In in Hx. destruct Hx as [_ Hx].
  apply negb_true_iff in Hx. now apply has_name_false in Hx.
Qed.
Lemma get_rm_other l a b : a <> b -> get_attr (rm_attr l a) b = get_attr l b.
Proof.
  intros H. unfold get_attr, rm_attr. induction l as [|x l IH]; cbn; [reflexivity|].
  destruct (has_name (AN a) x) eqn:E; cbn.
  - apply has_name_true in E. assert (X : has_name (AN b) x = false) by (apply has_name_false; congruence).
    now rewrite X.
  - destruct (has_name (AN b) x); [reflexivity|exact IH].
Qed.
Lemma set_attr_names l a v : map a_name (set_attr l a v) =
  if existsb (has_name (AN a)) l then map a_name l else map a_name l ++ [AN a].
Proof.
  induction l as [|x l IH]; cbn; [reflexivity|]. destruct (has_name (AN a) x) eqn:E; cbn.
  - apply has_name_true in E. now rewrite E.
  - rewrite IH. now destruct (existsb (has_name (AN a)) l).
Qed.
Lemma set_attr_nodup l a v : NoDup (map a_name l) -> NoDup (map a_name (set_attr l a v)).
Proof.
  intros N. rewrite set_attr_names. destruct (existsb (has_name (AN a)) l) eqn:E; [exact N|].
  apply NoDup_app_intro; [exact N|constructor; [auto|constructor]|].
  intros x Hx [<-|[]]. apply in_map_iff in Hx. destruct Hx as (y & Ey & Hy).
  assert (X : existsb (has_name (AN a)) l = true); [|congruence].
  apply existsb_exists. exists y. split; [exact Hy|]. now apply has_name_true.
Qed.
Lemma filter_nodup {A B} (f : A -> B) p l : NoDup (map f l) -> NoDup (map f (filter p l)).
Proof. intros N. eapply sublist_NoDup; [|exact N]. apply sublist_map, sublist_filter. Qed.
Lemma set_attr_in l a v x : In x (set_attr l a v) -> In x l \/ x = At (AN a) v true.
Proof.
  induction l as [|y l IH]; cbn; [intuition|]. destruct (has_name (AN a) y); cbn; intuition.
Qed.
Lemma Forall2_impl {A B} (P Q : A -> B -> Prop) l m : (forall x y, P x y -> Q x y) -> Forall2 P l m -> Forall2 Q l m.
Proof. intros H F. induction F; constructor; auto. Qed.

Lemma d_get_set_same d a v : d_get (d_set d a v) a = Some v.
Proof. unfold d_get, get_value, d_set. cbn [attrs with_attrs]. now rewrite get_set_same. Qed.
Lemma d_get_set_other d a b v : a <> b -> d_get (d_set d a v) b = d_get d b.
Proof. intros H. unfold d_get, get_value, d_set. cbn [attrs with_attrs]. now rewrite get_set_other. Qed.
Lemma d_get_rm_same d a : d_get (d_rm d a) a = None.
Proof. unfold d_get, get_value, d_rm. cbn [attrs with_attrs]. now rewrite get_rm_same. Qed.
Lemma d_get_rm_other d a b : a <> b -> d_get (d_rm d a) b = d_get d b.
Proof. intros H. unfold d_get, get_value, d_rm. cbn [attrs with_attrs]. now rewrite get_rm_other. Qed.
Lemma d_has_get d a : d_has d a = match d_get d a with Some _ => true | None => false end.
Proof. unfold d_has, has_attr, d_get, get_value. now destruct (get_attr (attrs d) a). Qed.
Lemma d_has_set_same d a v : d_has (d_set d a v) a = true.
Proof. now rewrite d_has_get, d_get_set_same. Qed.
Lemma d_has_set_other d a b v : a <> b -> d_has (d_set d a v) b = d_has d b.
Proof. intros H. rewrite !d_has_get. now rewrite d_get_set_other. Qed.
Lemma d_has_rm_same d a : d_has (d_rm d a) a = false.
Proof. now rewrite d_has_get, d_get_rm_same. Qed.
Lemma d_has_rm_other d a b : a <> b -> d_has (d_rm d a) b = d_has d b.
Proof. intros H. rewrite !d_has_get. now rewrite d_get_rm_other. Qed.
Lemma d_has_true d a : d_has d a = true <-> exists v, d_get d a = Some v.
Proof. rewrite d_has_get. destruct (d_get d a); split; eauto; try discriminate. intros (v & [=]). Qed.
Arguments get_attr : simpl never.
Arguments rm_attr : simpl never.
Arguments get_value : simpl never.
Arguments d_get : simpl never.
Arguments d_has : simpl never.
Lemma attrs_with d l : attrs (with_attrs d l) = l.
Proof. reflexivity. Qed.
