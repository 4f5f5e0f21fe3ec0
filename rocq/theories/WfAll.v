(** Every pass keeps a document well-formed: tools. *)
From Coq Require Import List Bool NArith Arith ZArith String Lia QArith Qcanon Permutation.
From Verif Require Import Names Num Value Dom DomFacts DomOps Outcome DomRemove Stops Transforms VLoop Shapes NPass APass TasksSimple TasksSimpleProofs.
Import ListNotations.
Local Open Scope nat_scope.

Record fine (t : tree) : Prop := { fine_wf : WF t; fine_wfa : WFA t; fine_root : tag (data t) = TRoot }.

(** A node may be changed to a node with the same key whose links are its own or in [L]. *)
Definition ext (L : list nat) (d d' : ndata) : Prop :=
  key d' = key d /\ (tag d = TRoot -> tag d' = TRoot) /\ (attrs_nodup d -> attrs_nodup d') /\ incl (node_links d') (node_links d ++ L).
Lemma ext_refl L d : ext L d d.
Proof. repeat split; auto. intros k H. apply in_or_app. auto. Qed.
Lemma ext_trans L a b c : ext L a b -> ext L b c -> ext L a c.
Proof.
  intros (K1 & T1 & N1 & I1) (K2 & T2 & N2 & I2). repeat split; auto; [congruence|]. intros k H. apply I2, in_app_or in H. destruct H as [H|H]; [now apply I1|apply in_or_app; auto].
Qed.
Lemma ext_weak L L' d d' : incl L L' -> ext L d d' -> ext L' d d'.
Proof. intros I (K & T1 & N & J). repeat split; auto. intros k H. apply J, in_app_or in H. apply in_or_app. destruct H; auto. Qed.

Lemma fine_forall2 t t' : fine t -> Forall2 (ext (keys t)) (flat t) (flat t') -> fine t'.
Proof.
  intros [[N W] A R] F.
  assert (K : keys t' = keys t).
  { unfold keys at 1 2. clear - F. induction F as [|d d' l l' E F IH]; [reflexivity|]. cbn. rewrite IH. f_equal. apply E. }
  split.
  - split; rewrite K; [exact N|]. intros k Hk. rewrite targets_flat in Hk. apply in_flat_map in Hk. destruct Hk as (d' & Hd' & Hk).
    destruct (Forall2_in_r _ _ _ _ F Hd') as (d & Hd & E). apply E, in_app_or in Hk. destruct Hk as [Hk|Hk]; [|exact Hk]. apply W. now apply (node_links_in t d).
  - apply Forall_forall. intros d' Hd'. destruct (Forall2_in_r _ _ _ _ F Hd') as (d & Hd & E). apply E. exact (proj1 (Forall_forall _ _) A d Hd).
  - destruct t as [d ch], t' as [d' ch']. cbn in *. inversion F as [|? ? ? ? E _]; subst. now apply E.
Qed.
Lemma fine_tmap f t : fine t -> (forall d, In d (flat t) -> ext (keys t) d (f d)) -> fine (tmap f t).
Proof.
  intros F H. apply (fine_forall2 t); [exact F|]. rewrite flat_tmap. clear F. revert H. generalize (keys t). generalize (flat t). induction l as [|d l IH]; intros L H; constructor; [apply H; now left|]. apply IH. intros x Hx. apply H. now right.
Qed.
Lemma fine_upd k f t : fine t -> (forall d, In d (flat t) -> key d = k -> ext (keys t) d (f d)) -> fine (upd k f t).
Proof. intros F H. apply fine_tmap; [exact F|]. intros d Hd. destruct (Nat.eqb_spec (key d) k); [now apply H|apply ext_refl]. Qed.

(** Attributes. *)
Lemma link_in d a k : In a (attrs d) -> link_of (a_val a) = Some k -> In k (node_links d).
Proof. intros Ha E. apply node_links_iff. eauto. Qed.
Lemma d_get_link d a v k : d_get d a = Some v -> link_of v = Some k -> In k (node_links d).
Proof.
  unfold d_get, get_value. destruct (get_attr (attrs d) a) as [x|] eqn:E; [|discriminate]. intros H L. injection H as <-. apply get_attr_some in E. apply (link_in d x); [apply E|exact L].
Qed.
(** The new list of attributes: unique names again, links own or in [L]. *)
Lemma ext_attrs L d l : (attrs_nodup d -> NoDup (map a_name l)) -> (forall a k, In a l -> link_of (a_val a) = Some k -> In k (node_links d ++ L)) -> ext L d (with_attrs d l).
Proof. intros N I. repeat split; auto. intros k H. apply node_links_iff in H. destruct H as (a & Ha & E). exact (I a k Ha E). Qed.
Lemma ext_filter L d p : ext L d (with_attrs d (filter p (attrs d))).
Proof. apply ext_attrs; [intros N; now apply filter_nodup|]. intros a k Ha E. apply filter_In in Ha. apply in_or_app. left. exact (link_in d a k (proj1 Ha) E). Qed.
Lemma ext_rm L d a : ext L d (d_rm d a). Proof. apply ext_filter. Qed.
Lemma ext_map L d f : (forall a, In a (attrs d) -> a_name (f a) = a_name a) -> (forall a k, In a (attrs d) -> link_of (a_val (f a)) = Some k -> In k (node_links d ++ L)) -> ext L d (with_attrs d (map f (attrs d))).
Proof.
  intros Hn Hl. apply ext_attrs.
  - intros N. rewrite map_map. unfold attrs_nodup in N. replace (map (fun x => a_name (f x)) (attrs d)) with (map a_name (attrs d)); [exact N|]. apply map_ext_in. intros a Ha. now rewrite Hn.
  - intros a k Ha E. apply in_map_iff in Ha. destruct Ha as (b & <- & Hb). now apply (Hl b).
Qed.
Lemma ext_id L d s : ext L d (with_id d s).
Proof. repeat split; auto. intros k H. apply in_or_app. left. exact H. Qed.
Lemma ext_tag L d g : tag d <> TRoot -> ext L d (with_tag d g).
Proof. intros T1. split; [reflexivity|]. split; [intros X; contradiction|]. split; [intros X; exact X|]. intros k H. apply in_or_app. left. exact H. Qed.
Fixpoint put (vis : bool) (l : list attr) (a : aid) (v : value) : list attr :=
  match l with [] => [At (AN a) v vis] | x :: t => if has_name (AN a) x then At (AN a) v vis :: t else x :: put vis t a v end.
Lemma put_set l a v : set_attr l a v = put true l a v. Proof. induction l as [|x l IH]; [reflexivity|]. cbn. destruct (has_name _ _); [reflexivity|now rewrite IH]. Qed.
Lemma put_hidden l a v : set_hidden l a v = put false l a v. Proof. induction l as [|x l IH]; [reflexivity|]. cbn. destruct (has_name _ _); [reflexivity|now rewrite IH]. Qed.
Lemma put_in vis l a v : forall x, In x (put vis l a v) -> In x l \/ x = At (AN a) v vis.
Proof. induction l as [|y l IH]; intros x; cbn; [intros [<-|[]]; auto|]. destruct (has_name (AN a) y); cbn; intros [<-|H]; auto. destruct (IH x H); auto. Qed.
Lemma put_names vis l a v : NoDup (map a_name l) -> NoDup (map a_name (put vis l a v)).
Proof.
  induction l as [|x l IH]; intros N; cbn; [constructor; [intros []|constructor]|]. inversion N as [|? ? Nx Nl]; subst. destruct (has_name (AN a) x) eqn:E; cbn.
  - apply has_name_true in E. constructor; [congruence|exact Nl].
  - constructor; [|now apply IH]. intros X. apply in_map_iff in X. destruct X as (y & Ey & Hy). destruct (put_in _ _ _ _ _ Hy) as [Y| ->]; [apply Nx; rewrite <- Ey; now apply in_map|]. apply has_name_false in E. cbn in Ey. congruence.
Qed.
Lemma ext_put L vis d a v : (forall k, link_of v = Some k -> In k (node_links d ++ L)) -> ext L d (with_attrs d (put vis (attrs d) a v)).
Proof.
  intros H. apply ext_attrs; [apply put_names|]. intros x k Hx E. destruct (put_in _ _ _ _ _ Hx) as [Y| ->]; [|now apply H]. apply in_or_app. left. exact (link_in d x k Y E).
Qed.
Lemma ext_set L d a v : (forall k, link_of v = Some k -> In k (node_links d ++ L)) -> ext L d (d_set d a v).
Proof. unfold d_set. rewrite put_set. apply ext_put. Qed.
Lemma ext_set_hidden L d a v : (forall k, link_of v = Some k -> In k (node_links d ++ L)) -> ext L d (d_set_hidden d a v).
Proof. unfold d_set_hidden. rewrite put_hidden. apply ext_put. Qed.
Lemma ext_map_value L d a v : (forall k, link_of v = Some k -> In k (node_links d ++ L)) -> ext L d (map_value d a v).
Proof. intros H. apply ext_map; [intros x _; now destruct (has_name _ _)|]. intros x k Hx. destruct (has_name _ _); cbn; [apply H|]. intros E. apply in_or_app. left. exact (link_in d x k Hx E). Qed.
Lemma no_link v L : link_of v = None -> forall k, link_of v = Some k -> In k L.
Proof. intros -> k. discriminate. Qed.

(** Passes over the nodes. *)
Lemma fine_kpass f t t' : fine t ->
  (forall d l r, f d l = Ok r -> ext (keys t) d (fst r) /\ Forall2 (ext (keys t)) l (snd r)) -> kpass f t = Ok t' -> fine t'.
Proof.
  intros F H E. apply (fine_forall2 t); [exact F|]. clear F. revert H. generalize (keys t). intros L H. unfold kpass in E.
  assert (G : forall s d s', ext L (data s) d -> kmap f d s = Ok s' -> Forall2 (ext L) (flat s) (flat s')).
  { clear E. induction s as [d0 ch IH] using tree_ind'. intros d s' X E. rewrite kmap_T in E. apply bind_ok in E. destruct E as (r & Er & E). apply bind_ok in E. destruct E as (ch' & Ec & E). injection E as <-.
    destruct (H _ _ _ Er) as [H1 H2]. cbn [data] in X. cbn [flat]. constructor; [exact (ext_trans _ _ _ _ X H1)|].
    clear Er H1 X. revert H2 Ec. generalize (snd r). clear r. revert ch'. induction IH as [|c ch Hc F IH2]; intros ch' ds H2 Ec.
    - inversion H2; subst. cbn in Ec. injection Ec as <-. constructor.
    - inversion H2 as [|? d1 ? ds' E1 E2]; subst. cbn in Ec. apply bind_ok in Ec. destruct Ec as (c' & C1 & Ec). apply bind_ok in Ec. destruct Ec as (r' & C2 & Ec). injection Ec as <-. cbn [flat_map].
      apply Forall2_app; [exact (Hc _ _ E1 C1)|]. exact (IH2 _ _ E2 C2). }
  exact (G t (data t) t' (ext_refl _ _) E).
Qed.
Lemma fine_npass f t t' : fine t -> (forall d d', In d (flat t) -> f d = Ok d' -> ext (keys t) d d') -> (forall d d', f d = Ok d' -> key d' = key d) -> npass f t = Ok t' -> fine t'.
Proof.
  intros F H Hk E. apply (fine_forall2 t); [exact F|]. destruct (npass_ok f t t' Hk E) as [_ G]. clear E F. revert G H. generalize (keys t). generalize (flat t') (flat t). intros l' l L G. induction G as [|d d' l l' X G IH]; intros H; constructor; [apply H; [now left|exact X]|]. apply IH. intros x x' Hx. apply H. now right.
Qed.
Lemma fine_vloop f ks : (forall t d d', fine t -> In d (flat t) -> f t d = Ok d' -> ext (keys t) d d') -> forall t t', fine t -> vloop f ks t = Ok t' -> fine t'.
Proof.
  intros H. induction ks as [|k ks IH]; intros t t' F E; cbn in E; [injection E as <-; exact F|].
  destruct (find_data k t) as [d|] eqn:D; [|exact (IH t t' F E)]. apply bind_ok in E. destruct E as (d' & E1 & E2).
  refine (IH _ t' _ E2). apply fine_upd; [exact F|]. intros x Hx Ex. destruct (find_data_some _ _ _ D) as [Hd Ed]. assert (x = d) by (apply (data_unique t); [apply F|assumption..|congruence]). subst x. now apply H.
Qed.
Lemma fine_apass f t t' : fine t -> (forall a d d', f a d = Ok d' -> ext (flat_map node_links a) d d') -> apass f [] t = Ok t' -> fine t'.
Proof.
  intros F H E. apply (fine_forall2 t); [exact F|].
  assert (G : forall s anc s', incl (flat_map node_links anc) (keys t) -> incl (flat_map node_links (flat s)) (keys t) -> apass f anc s = Ok s' -> Forall2 (ext (keys t)) (flat s) (flat s')).
  { clear E t'. induction s as [d ch IH] using tree_ind'. intros anc s' I1 I2 E. rewrite apass_T in E. apply bind_ok in E. destruct E as (d' & E1 & E). apply bind_ok in E. destruct E as (ch' & E2 & E). injection E as <-.
    cbn [flat flat_map] in *. pose proof (ext_weak _ _ _ _ I1 (H _ _ _ E1)) as X. constructor; [exact X|].
    assert (I3 : incl (flat_map node_links (d' :: anc)) (keys t)). { intros k Hk. cbn in Hk. apply in_app_or in Hk. destruct Hk as [Hk|Hk]; [|now apply I1]. apply X, in_app_or in Hk. destruct Hk as [Hk|Hk]; [apply I2; apply in_or_app; auto|exact Hk]. }
    assert (I4 : incl (flat_map node_links (flat_map flat ch)) (keys t)) by (intros k Hk; apply I2; apply in_or_app; auto). clear I2 X E1 I1.
    revert ch' E2 I4. induction IH as [|c ch Hc _ IH2]; intros ch' E2 I4.
    - cbn in E2. injection E2 as <-. constructor.
    - rewrite aforest_cons in E2. apply bind_ok in E2. destruct E2 as (c' & C1 & E2). apply bind_ok in E2. destruct E2 as (r' & C2 & E2). injection E2 as <-. cbn [flat_map] in *. rewrite flat_map_app in I4.
      apply Forall2_app; [apply (Hc (d' :: anc) _ I3); [intros k Hk; apply I4; apply in_or_app; auto|exact C1]|]. apply IH2; [exact C2|]. intros k Hk. apply I4. apply in_or_app. auto. }
  apply (G t []); [intros k []| |exact E]. intros k Hk. apply (wf_links t (fine_wf t F)). rewrite targets_flat. exact Hk.
Qed.

(** Removals. *)
Lemma fine_sub t t' : fine t -> WF t' -> data t' = data t \/ tag (data t') = TRoot -> (forall d', In d' (flat t') -> exists d, In d (flat t) /\ ext (keys t) d d') -> fine t'.
Proof.
  intros [W A R] W' D H. split; [exact W'| |destruct D as [->|D]; auto]. apply Forall_forall. intros d' Hd'. destruct (H d' Hd') as (d & Hd & E). apply E. exact (proj1 (Forall_forall _ _) A d Hd).
Qed.
Lemma fine_unlink L t : fine t -> fine (unlink L t).
Proof. intros F. apply fine_tmap; [exact F|]. intros d _. apply ext_filter. Qed.
Lemma fine_remove k t : fine t -> fine (remove k t).
Proof.
  intros F. destruct (Nat.eq_dec k (root_key t)) as [->|Nk].
  - pose proof (fine_unlink (sub_keys (root_key t) t) t F) as U. unfold remove, detach. rewrite prune_false; [exact U|]. intros s Hs. apply Nat.eqb_neq. intros E.
    pose proof (wf_keys _ (fine_wf _ U)) as N. rewrite keys_kids in N. inversion N as [|? ? X _]; subst. apply X.
    assert (R : root_key (unlink (sub_keys (root_key t) t) t) = root_key t) by (unfold root_key; rewrite unlink_eq, data_tmap; reflexivity). pose proof (in_forest_root _ _ Hs) as Q. rewrite E in Q. rewrite R. exact Q.
  - destruct F as [W A R]. split; [now apply WF_remove| |].
    + apply Forall_forall. intros d' Hd'. apply (remove_flat k t d' (wf_keys t W) Nk) in Hd'. destruct Hd' as (d & Hd & _ & ->). now apply filter_nodup, (proj1 (Forall_forall _ _) A d Hd).
    + unfold remove, detach. rewrite data_prune, unlink_eq, data_tmap. exact R.
Qed.
Lemma fine_remove_nodes ks : forall t, fine t -> fine (remove_nodes ks t).
Proof. unfold remove_nodes. induction ks as [|k ks IH]; intros t F; [exact F|]. cbn. now apply IH, fine_remove. Qed.
Lemma fine_drain p t : fine t -> fine (fst (drain p t)).
Proof.
  intros F. unfold drain. assert (G : forall ks st, fine (fst st) -> fine (fst (fold_left (drain_step p) ks st))).
  { induction ks as [|k ks IH]; intros [s n] Fs; [exact Fs|]. cbn [fold_left]. apply IH. unfold drain_step. cbn in Fs. destruct (find_sub k s); [|exact Fs]. destruct (p s _); [now apply fine_remove|exact Fs]. }
  now apply G.
Qed.
