(** What is kept from the first document to the current one, and the removal of a subtree. *)
From Coq Require Import List Bool NArith Arith ZArith String Lia QArith Qcanon.
From Verif Require Import Names Num Value Dom DomFacts DomOps DomRemove AttrFacts VLoop SpecDom SpecText SpecWritten Visit MoveFacts UseStep Push Props_stops SpecVisible VisStep VisKeep.
Import ListNotations.
Local Open Scope nat_scope.

Definition part_attrs : list aid := [AType; AValues; AIn; AX; AY; AWidth; AHeight; AStopColor; AStopOpacity].
Definition same_part (c0 c : tree) : Prop := tag (data c) = tag (data c0) /\ root_key c = root_key c0 /\ forall a, In a part_attrs -> d_get (data c) a = d_get (data c0) a.
Definition base (t0 t : tree) : Prop := forall s, In s (subs t) -> holder (data s) ->
  exists s0, In s0 (subs t0) /\ root_key s0 = root_key s /\ tag (data s0) = tag (data s) /\ d_get (data s0) AXlinkHref = d_get (data s) AXlinkHref /\ Forall2 same_part (kids s0) (kids s).
Lemma Forall2_self {A} (P : A -> A -> Prop) l : (forall x, P x x) -> Forall2 P l l.
Proof. intros H. induction l; constructor; auto. Qed.
Lemma Forall2_trans' {A B C} (P : A -> B -> Prop) (Q : B -> C -> Prop) (R : A -> C -> Prop) l m n : (forall a b c, P a b -> Q b c -> R a c) -> Forall2 P l m -> Forall2 Q m n -> Forall2 R l n.
Proof. intros H F. revert n. induction F; intros n F'; inversion F'; subst; constructor; eauto. Qed.
Lemma base_self t : base t t.
Proof. intros s Hs _. exists s. repeat (split; [auto; fail|]). apply Forall2_self. split; auto. Qed.
Lemma base_trans t0 t1 t2 : base t0 t1 -> base t1 t2 -> base t0 t2.
Proof.
  intros B1 B2 s Hs Hh. destruct (B2 s Hs Hh) as (s1 & H1 & K1 & T1 & D1 & F1). destruct (B1 s1 H1) as (s0 & H0 & K0 & T0 & D0 & F0); [unfold holder, gradient_node in *; now rewrite T1|].
  exists s0. split; [exact H0|]. split; [congruence|]. split; [congruence|]. split; [congruence|]. refine (Forall2_trans' _ _ _ _ _ _ _ F0 F1). intros a b c (P1 & P3 & P2) (Q1 & Q3 & Q2). split; [congruence|]. split; [congruence|]. intros x Hx. rewrite Q2, P2; auto.
Qed.
Lemma base_identity t0 t k : base t0 t -> identity_filter t k -> identity_filter t0 k.
Proof.
  intros B (s & c & Hs & Ks & Ts & Kd & Tc & Ty & Va & Ab). destruct (B s Hs (or_introl Ts)) as (s0 & H0 & K0 & T0 & _ & F). rewrite Kd in F. inversion F as [|c0 ? ? ? (P1 & P3 & P2) F' Q1 Q2]; subst. inversion F'; subst. exists s0, c0.
  repeat (split; [congruence || assumption|]). split; [now rewrite <- P2 by (cbn; tauto)|]. split; [now rewrite <- P2 by (cbn; tauto)|]. intros a Ha. rewrite <- P2; [now apply Ab|]. cbn in *. tauto.
Qed.
Lemma base_no_stops t0 t k : base t0 t -> no_stops t k -> no_stops t0 k.
Proof.
  intros B (s & Hs & Ks & Ts & Kd & Hh). destruct (B s Hs (or_intror Ts)) as (s0 & H0 & K0 & T0 & D0' & F). assert (D0 : d_has (data s0) AXlinkHref = d_has (data s) AXlinkHref) by (now rewrite !d_has_get, D0'). rewrite Kd in F. inversion F; subst. exists s0. split; [exact H0|]. split; [congruence|]. split; [unfold gradient_node in *; now rewrite T0|]. split; [congruence|congruence].
Qed.
Lemma base_one_stop t0 t k color o : base t0 t -> one_stop t k color o -> one_stop t0 k color o.
Proof.
  intros B (s & c & Hs & Ks & Ts & Kd & Hh & C & V & O). destruct (B s Hs (or_intror Ts)) as (s0 & H0 & K0 & T0 & D0' & F). assert (D0 : d_has (data s0) AXlinkHref = d_has (data s) AXlinkHref) by (now rewrite !d_has_get, D0'). rewrite Kd in F. inversion F as [|c0 ? ? ? (P1 & P3 & P2) F' Q1 Q2]; subst. inversion F'; subst. exists s0, c0.
  split; [exact H0|]. split; [congruence|]. split; [unfold gradient_node in *; now rewrite T0|]. split; [congruence|]. split; [congruence|]. rewrite <- !P2 by (cbn; tauto). auto.
Qed.
Lemma paint_trans t0 t a d1 d2 d3 : base t0 t -> In a [AFill; AStroke] -> kind_of d2 = kind_of d1 -> same_paint t0 a d1 d2 -> same_paint t a d2 d3 -> same_paint t0 a d1 d3.
Proof.
  intros B Ha K S1 S2.
  assert (Hard : forall v, d_get d2 a = Some v -> link_of v = None -> d_get d3 a = d_get d2 a /\ d_get d3 (opacity_attr a) = d_get d2 (opacity_attr a)).
  { intros v Ev L. destruct S2 as [|k E|k c E|k c o E]; auto; rewrite Ev in E; injection E as ->; discriminate. }
  assert (Nc : forall k c o, one_stop t0 k c o -> link_of c = None). { intros k c o (s & c0 & _ & _ & _ & _ & _ & _ & (r & g & b & ->) & _). reflexivity. }
  destruct S1 as [E1 E2|k E1 N1 E2 E3|k c E1 O1 E2 E3|k c o E1 O1 No E2 Kd E3 E4].
  - destruct S2 as [F1 F2|k F1 N1 F2 F3|k c F1 O1 F2 F3|k c o F1 O1 No F2 Kd F3 F4].
    + apply sp_same; congruence.
    + apply (sp_none _ _ _ _ k); try congruence. now apply (base_no_stops t0 t).
    + apply (sp_color _ _ _ _ k c); try congruence. now apply (base_one_stop t0 t).
    + apply (sp_opacity _ _ _ _ k c o); try congruence. now apply (base_one_stop t0 t).
  - destruct (Hard _ E2 eq_refl). apply (sp_none _ _ _ _ k); congruence.
  - destruct (Hard _ E2 (Nc _ _ _ O1)). apply (sp_color _ _ _ _ k c); congruence.
  - destruct (Hard _ E2 (Nc _ _ _ O1)). apply (sp_opacity _ _ _ _ k c o); congruence.
Qed.
Lemma looks_trans t0 t d1 d2 d3 : base t0 t -> looks t0 d1 d2 -> looks t d2 d3 -> looks t0 d1 d3.
Proof.
  intros B L1 L2. assert (K : kind_of d2 = kind_of d1) by (unfold kind_of; now rewrite (lk_tag _ _ _ L1)). destruct L1 as [a1 a2 a3 a4 a5 a6 a7], L2 as [b1 b2 b3 b4 b5 b6 b7]. split; try congruence.
  - destruct a4 as [E1|(k & E1 & E2 & E3)], b4 as [F1|(j & F1 & F2 & F3)]; try (left; congruence); try congruence.
    + right. exists j. split; [congruence|]. split; [now apply (base_identity t0 t)|exact F3].
    + right. exists k. split; [exact E1|]. split; [exact E2|congruence].
  - exact (paint_trans t0 t AFill d1 d2 d3 B (or_introl eq_refl) K a5 b5).
  - exact (paint_trans t0 t AStroke d1 d2 d3 B (or_intror (or_introl eq_refl)) K a6 b6).
  - intros a Ha. rewrite b7, a7; auto.
Qed.
Lemma looks_self t d : looks t d d. Proof. split; auto; now apply sp_same. Qed.
Definition pictures := list (list ndata).
Definition alike (t : tree) : pictures -> pictures -> Prop := Forall2 (Forall2 (looks t)).
Lemma alike_trans t0 t l m n : base t0 t -> alike t0 l m -> alike t m n -> alike t0 l n.
Proof. intros B. apply Forall2_trans'. intros a b c. apply Forall2_trans'. intros x y z. now apply looks_trans. Qed.
Lemma alike_self t l : alike t l l.
Proof. apply Forall2_self. intros x. apply Forall2_self. apply looks_self. Qed.

(** Every element that is left keeps all its other attributes. *)
Definition steady (d d' : ndata) : Prop := key d' = key d /\ tag d' = tag d /\ nid d' = nid d /\
  forall a, ~ In a [AFilter; AFill; AStroke; AFillOpacity; AStrokeOpacity; AXlinkHref] -> d_get d' a = d_get d a.
Record Shown (t0 t : tree) : Prop := {
  v_base : base t0 t;
  v_root : root_key t = root_key t0;
  v_keys : incl (keys t) (keys t0);
  v_nodes : forall d', In d' (flat t) -> exists d, In d (flat t0) /\ steady d d';
  v_drawing : forall l, drawing t0 l -> exists l', drawing t l' /\ alike t0 l l';
  v_inside : forall j l, In j (keys t) -> inside_of t0 j l -> exists l', inside_of t j l' /\ alike t0 l l';
  v_clip : forall j l, In j (keys t) -> clip_of t0 j l -> exists l', clip_of t j l' /\ alike t0 l l'
}.
Lemma shown_self t : Shown t t.
Proof. split; [apply base_self|reflexivity|apply incl_refl|intros d' H; exists d'; split; [exact H|repeat split; auto]| | |]; intros; eexists; (split; [eassumption|apply alike_self]). Qed.
Lemma shown_trans t0 t1 t2 : Shown t0 t1 -> Shown t1 t2 -> Shown t0 t2.
Proof.
  intros A B. split.
  - exact (base_trans _ _ _ (v_base _ _ A) (v_base _ _ B)).
  - now rewrite (v_root _ _ B), (v_root _ _ A).
  - intros j Hj. apply (v_keys _ _ A), (v_keys _ _ B), Hj.
  - intros d2 H. destruct (v_nodes _ _ B d2 H) as (d1 & H1 & P1 & P2 & P3 & P4). destruct (v_nodes _ _ A d1 H1) as (d & H0 & Q1 & Q2 & Q3 & Q4). exists d. split; [exact H0|]. repeat (split; [congruence|]). intros a Ha. rewrite P4, Q4; auto.
  - intros l H. destruct (v_drawing _ _ A l H) as (m & Hm & Am). destruct (v_drawing _ _ B m Hm) as (n & Hn & An). exists n. split; [exact Hn|exact (alike_trans _ _ _ _ _ (v_base _ _ A) Am An)].
  - intros j l Hj H. destruct (v_inside _ _ A j l (v_keys _ _ B _ Hj) H) as (m & Hm & Am). destruct (v_inside _ _ B j m Hj Hm) as (n & Hn & An). exists n. split; [exact Hn|exact (alike_trans _ _ _ _ _ (v_base _ _ A) Am An)].
  - intros j l Hj H. destruct (v_clip _ _ A j l (v_keys _ _ B _ Hj) H) as (m & Hm & Am). destruct (v_clip _ _ B j m Hj Hm) as (n & Hn & An). exists n. split; [exact Hn|exact (alike_trans _ _ _ _ _ (v_base _ _ A) Am An)].
Qed.

(** The general step. *)
Lemma shown_sv t k G f : iready t ->
  (exists s, In s (subs t) /\ root_key s = k /\ G = keys s) \/ (~ In k (keys t) /\ G = []) ->
  (forall d, key (f d) = key d) -> (forall d, tag (f d) = tag d) -> ~ In (root_key t) G ->
  (forall d, In d (flat t) -> ~ In (key d) G -> chg t G d (f d)) ->
  (forall u c, In u (subs t) -> ~ In (root_key u) G -> In c (kids u) -> root_key c = k ->
    (opens (data u) = true -> blank t c) /\ (tag (data u) = TEl EClipPath -> clip_counts t (data c) = false) /\ ~ holder (data u)) ->
  attrs (f (data t)) = [] ->
  iready (sv k f t) /\ Shown t (sv k f t).
Proof.
  intros I HG Hkey Htag Hroot Hchg Hseen Ha. pose proof (wf_keys _ (i_wf _ I)) as N. split.
  - apply (keep_ready t k G f I HG Hkey Htag Hroot Hchg Hseen). rewrite Ha. auto.
  - assert (Nj : forall j, In j (keys (sv k f t)) -> ~ In j G) by (intros j Hj; now apply (keys_sv t k G f N HG Hkey Hroot) in Hj). split.
    + intros s' Hs Hh. apply (sub_sv t k G f N HG Hkey Hroot) in Hs. destruct Hs as (s & Hs & -> & Ns). rewrite data_sv in Hh. pose proof (data_of_sub _ _ Hs) as Hd. apply (proj1 (hf f Htag _)) in Hh. destruct (kids_holder t k G f I HG Hkey Hroot Hseen s Hs Ns Hh) as [Ek Nk].
      exists s. split; [exact Hs|]. split; [symmetry; apply root_sv, Hkey|]. rewrite data_sv, Htag. split; [reflexivity|]. split.
      * assert (Hh' : d_has (f (data s)) AXlinkHref = d_has (data s) AXlinkHref). { destruct Hh as [Tf|Gs]; [|now apply (has_href_iff t G f I Hchg)]. rewrite (i_filters _ I s Hs Tf). apply (has_href_f t G f Hchg); auto. now apply (i_filters _ I). } rewrite !d_has_get in Hh'. destruct (ch_href _ _ _ _ (Hchg _ Hd Ns)) as [X|(n & _ & _ & X1 & X2)]; [now symmetry|]. rewrite X1, X2 in Hh'. discriminate.
      * rewrite Ek. assert (Q : forall c, In c (kids s) -> same_part c (sv k f c)).
        { intros c Hc. unfold same_part. rewrite data_sv, Htag. split; [reflexivity|]. split; [apply root_sv, Hkey|]. intros a Hin. assert (Hdc : In (data c) (flat t)) by (apply data_of_sub; exact (kid_sub s c t Hs Hc)). apply (ch_other _ _ _ _ (Hchg _ Hdc (Nk c Hc))). unfold part_attrs in Hin. cbn in *. intuition (subst; discriminate). }
        revert Q. clear. induction (kids s) as [|c l IH]; intros Q; cbn; constructor; [apply Q; now left|]. apply IH. intros; apply Q; now right.
    + apply root_sv, Hkey.
    + intros j Hj. now apply (keys_sv t k G f N HG Hkey Hroot) in Hj.
    + intros d' Hd'. apply (flat_sv t k G f N HG Hkey Hroot) in Hd'. destruct Hd' as (d & Hd & Nd & ->). exists d. split; [exact Hd|]. destruct (Hchg d Hd Nd). repeat split; auto.
    + intros l H. exact (keep_drawing t k G f I HG Hkey Htag Hroot Hchg Hseen l H).
    + intros j l Hj H. exact (keep_inside t k G f I HG Hkey Htag Hroot Hchg Hseen j l (Nj j Hj) H).
    + intros j l Hj H. exact (keep_clip t k G f I HG Hkey Htag Hroot Hchg Hseen j l (Nj j Hj) H).
Qed.

(** The removal of a subtree. *)
Lemma remove_out k t : ~ In k (keys t) -> remove k t = t.
Proof.
  intros H. unfold remove. unfold sub_keys. rewrite (proj2 (find_sub_none k t) H). rewrite detach_out; [|now rewrite keys_unlink]. rewrite unlink_eq. apply tmap_id. intros d _. unfold unlink_data. destruct d as [a b c l]. unfold with_attrs. cbn. f_equal. induction l; cbn; congruence.
Qed.
Lemma shown_remove t s : iready t -> In s (subs t) -> root_key s <> root_key t ->
  (forall d x n, In d (flat t) -> ~ In (key d) (keys s) -> In x (attrs d) -> In n (flat s) -> link_of (a_val x) = Some (key n) ->
    (a_name x = AN AXlinkHref /\ vanishing n = true) \/ (a_name x = AN AFilter /\ identity_filter t (key n))) ->
  (forall u, In u (subs t) -> In s (kids u) -> (opens (data u) = true -> blank t s) /\ (tag (data u) = TEl EClipPath -> clip_counts t (data s) = false) /\ ~ holder (data u)) ->
  iready (remove (root_key s) t) /\ Shown t (remove (root_key s) t).
Proof.
  intros I Hs Nr Refs Seen. pose proof (wf_keys _ (i_wf _ I)) as N. assert (Eg : sub_keys (root_key s) t = keys s) by (unfold sub_keys; now rewrite (find_sub_iff t s N Hs)).
  unfold remove. rewrite Eg, unlink_eq. change (detach (root_key s) (tmap (unlink_data (keys s)) t)) with (sv (root_key s) (unlink_data (keys s)) t). apply (shown_sv t _ (keys s)); auto.
  - left. exists s. auto.
  - intros X. apply sub_of_key in X. destruct X as (x & Hx & Kx). assert (x = t) by (apply (sub_unique t); auto; [exact (subs_trans t s x Hs Hx)|apply subs_self]). subst x. apply Nr. f_equal.
    destruct (in_subs_kids t s Hs) as [E|E]; [exact E|]. exfalso.
    rewrite keys_kids in N. inversion N as [|? ? N1 _]. apply N1. apply in_flat_map in E. destruct E as (c & Hc & E). apply in_flat_map. exists c. split; [exact Hc|]. apply key_in_sub. exact (subs_trans c s t E Hx).
  - intros d Hd Nd. assert (W : attrs_nodup d) by exact (proj1 (Forall_forall _ _) (i_wfa _ I) d Hd).
    assert (Sub : forall n, In n (flat s) -> In n (flat t)). { intros n Hn. rewrite <- map_data_subs in Hn |- *. apply in_map_iff in Hn. destruct Hn as (z & <- & Hz). apply in_map. exact (subs_trans t s z Hs Hz). }
    assert (Get : forall a, d_get (unlink_data (keys s) d) a = d_get d a \/ d_get (unlink_data (keys s) d) a = None /\ exists n, In n (flat s) /\ (d_get d a = Some (VLink (key n)) \/ d_get d a = Some (VFunc (key n))) /\ ((a = AXlinkHref /\ vanishing n = true) \/ (a = AFilter /\ identity_filter t (key n)))).
    { intros a. destruct (unlink_d_get (keys s) d a W) as [E|(E & j & Hj & V)]; [now left|right]. split; [exact E|]. unfold keys in Hj. apply in_map_iff in Hj. destruct Hj as (n & <- & Hn). exists n. split; [exact Hn|]. split; [exact V|].
      assert (X : exists x, In x (attrs d) /\ a_name x = AN a /\ link_of (a_val x) = Some (key n)) by (destruct V as [V|V]; destruct (get_some_in _ _ _ V) as (x & Hx & Nx & Vx); exists x; rewrite Vx; auto). destruct X as (x & Hx & Nx & L).
      destruct (Refs d x n Hd Nd Hx Hn L) as [[R1 R2]|[R1 R2]]; rewrite Nx in R1; injection R1 as ->; auto. }
    assert (Oth : forall a, a <> AXlinkHref -> a <> AFilter -> d_get (unlink_data (keys s) d) a = d_get d a). { intros a N1 N2. destruct (Get a) as [E|(_ & n & _ & _ & [[E _]|[E _]])]; [exact E|contradiction|contradiction]. }
    split; try reflexivity.
    + destruct (Get AFilter) as [E|(E & n & Hn & V & [[X _]|[_ Q]])]; [now left|discriminate|]. right. exists (key n). split; [|split; [exact Q|exact E]].
      destruct V as [V|V]; [|exact V]. exfalso. destruct (get_some_in _ _ _ V) as (x & Hx & Nx & Vx). assert (L : link_of (a_val x) = Some (key n)) by (now rewrite Vx). pose proof (i_links _ I d x n Hd Hx (Sub n Hn) L) as Y. unfold link_ok in Y. rewrite Nx in Y. destruct Y as [Y _]. congruence.
    + apply sp_same; apply Oth; discriminate.
    + apply sp_same; apply Oth; discriminate.
    + destruct (Get AXlinkHref) as [E|(E & n & Hn & V & [[_ Q]|[X _]])]; [now left| |discriminate]. right. exists n. split; [now apply Sub|]. split; [exact Q|]. split; [|exact E].
      destruct V as [V|V]; [exact V|]. exfalso. destruct (get_some_in _ _ _ V) as (x & Hx & Nx & Vx). assert (L : link_of (a_val x) = Some (key n)) by (now rewrite Vx). pose proof (i_links _ I d x n Hd Hx (Sub n Hn) L) as Y. unfold link_ok in Y. rewrite Nx in Y. destruct Y as [Y _]. congruence.
    + intros a Ha. apply Oth; intros ->; apply Ha; cbn; tauto.
    + intros x j Hx L. cbn in Hx. apply filter_In in Hx. destruct Hx as [Hx F]. split; [exact Hx|]. intros Hj. apply negb_true_iff in F. assert (X : existsb (fun k => refers k x) (keys s) = true) by (apply existsb_exists; exists j; split; [exact Hj|now apply refers_iff]). congruence.
    + intros Wd. now apply filter_nodup.
  - intros u c Hu Nu Hc Ec. assert (c = s) by (apply (sub_unique t); auto; exact (kid_sub u c t Hu Hc)). subst c. now apply Seen.
  - cbn. now rewrite (proj2 (i_root _ I)).
Qed.
