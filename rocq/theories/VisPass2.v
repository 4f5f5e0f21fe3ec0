(** Clip paths, filters and what refers to them. *)
From Coq Require Import List Bool NArith Arith ZArith String Lia QArith Qcanon.
From Verif Require Import Names Num Value Dom DomFacts DomOps DomRemove AttrFacts VLoop SpecDom SpecText SpecWritten Visit MoveFacts UseStep Push Props_stops SpecVisible VisStep VisKeep VisInv Outcome RmUnusedDefs Props_defs RmInvisible VisPass.
Import ListNotations.
Local Open Scope nat_scope.

(** ** Invalid children of clip paths *)
Definition bad (t : tree) (d : ndata) : Prop := clip_shape_el d = false /\
  (tag d = TEl EUse -> forall l, In l (flat t) -> d_get d AXlinkHref = Some (VLink (key l)) -> clip_shape_el l = false).
Definition bad_at (t : tree) (k : nat) : Prop := forall s u, In s (subs t) -> root_key s = k -> In u (subs t) -> In s (kids u) -> tag (data u) = TEl EClipPath /\ bad t (data s).
Lemma bad_counts t d : bad t d -> clip_counts t d = false.
Proof.
  intros [B1 B2]. unfold clip_counts. rewrite B1. cbn [andb orb]. destruct (tagged EUse d) eqn:U; [|now rewrite andb_false_r]. apply tagged_iff in U. unfold target. destruct (d_get d AXlinkHref) as [[]|] eqn:E; try (now rewrite andb_false_r). destruct (find_data _ t) as [l|] eqn:F; [|now rewrite andb_false_r]. apply find_data_some in F. destruct F as [Hl <-].
  rewrite (B2 U l Hl eq_refl). now rewrite andb_false_r.
Qed.
Lemma step_bad t s : iready t -> In s (subs t) -> root_key s <> root_key t -> bad_at t (root_key s) -> iready (remove (root_key s) t) /\ Shown t (remove (root_key s) t).
Proof.
  intros I Hs Nr B. assert (P : exists u, In u (subs t) /\ In s (kids u)).
  { destruct (in_subs_kids t s Hs) as [->|X]; [contradiction|]. now apply strict_parent. }
  destruct P as (p & Hp & Cp). destruct (B s p Hs eq_refl Hp Cp) as [Tp Bs]. pose proof (i_invalid _ I p s Hp Cp Tp (proj1 Bs)) as Cl. apply shown_remove; auto.
  - intros d x n Hd Nd Hx Hn L. exfalso. apply Nd. unfold keys. apply in_map. apply (Cl n d Hn Hd). exists x. auto.
  - intros u Hu Hc. destruct (B s u Hs eq_refl Hu Hc) as [Tu _]. split; [intros O; exfalso; unfold opens, kind_of, inner, tagged in O; rewrite Tu in O; discriminate|]. split; [intros _; now apply bad_counts|]. unfold holder, gradient_node. rewrite Tu. intros [X|[X|X]]; discriminate.
Qed.
Lemma bad_keep t k j : iready t -> k <> root_key t -> bad_at t j -> bad_at (remove k t) j.
Proof.
  intros I Nr B s' u' Hs' Ks Hu' Hc'. pose proof (iready_nodup _ I) as N. destruct (rm_sub t _ N Nr u' Hu') as (u & Hu & Nu & ->). destruct (rm_kid t k u s' Hu Hc') as (s & Hc & _ & ->). rewrite root_sv in Ks by reflexivity. rewrite !data_sv. pose proof (kid_sub u s t Hu Hc) as Hs.
  destruct (B s u Hs Ks Hu Hc) as (Tu & B1 & B2). split; [exact Tu|]. split; [exact B1|]. intros U l' Hl' E. destruct (rm_flat t k N Nr l' Hl') as (l & Hl & _ & ->). apply unlink_keep in E; [|apply (iready_attrs t); auto; now apply data_of_sub]. exact (B2 U l Hl E).
Qed.
Lemma clip_shape_same d : clip_shape d = clip_shape_el d.
Proof. unfold clip_shape, clip_shape_el, tag_sat, is_tag. destruct (tag d) as [|e| | | |]; try reflexivity. destruct e; try reflexivity. cbn [existsb is_basic_shape orb]. assert (Q : forall e', match e' with EOther _ => False | _ => True end -> eid_eqb (EOther n) e' = false) by (intros e' H; destruct (eid_eqb_spec (EOther n) e') as [<-|]; [contradiction|reflexivity]). now rewrite !Q. Qed.
Lemma invalid_bad t d : NoDup (keys t) -> valid_clip_elem t d = false -> bad t d.
Proof.
  intros N H. unfold valid_clip_elem in H. destruct (is_tag EUse d) eqn:U.
  - apply is_tag_iff in U. split; [unfold clip_shape_el; now rewrite U|]. intros _ l Hl E. rewrite E, (find_data_in t l N Hl) in H. now rewrite <- clip_shape_same.
  - split; [now rewrite <- clip_shape_same|]. intros X. apply is_tag_iff in X. congruence.
Qed.

(** ** Something empty, and its users *)
Section Linked.
  Variables (e : eid) (a : aid).
  Hypothesis Hea : e = EClipPath /\ a = AClipPath \/ e = EFilter /\ a = AFilter.
  Definition empty_at (t : tree) (k : nat) : Prop := forall s, In s (subs t) -> root_key s = k -> tag (data s) = TEl e /\ kids s = [].
  Definition user_at (k : nat) (t : tree) (j : nat) : Prop := empty_at t k /\ forall s, In s (subs t) -> root_key s = j -> d_get (data s) a = Some (VFunc k).
  Lemma empty_keep t k j : iready t -> k <> root_key t -> empty_at t j -> empty_at (remove k t) j.
  Proof.
    intros I Nr B s' Hs' Ks. pose proof (iready_nodup _ I) as N. destruct (rm_sub t _ N Nr s' Hs') as (s & Hs & Nu & ->). rewrite root_sv in Ks by reflexivity. destruct (B s Hs Ks) as [B1 B2]. rewrite data_sv. split; [exact B1|]. rewrite kids_sv by reflexivity. now rewrite B2.
  Qed.
  Lemma user_key k t s : iready t -> In s (subs t) -> d_get (data s) a = Some (VFunc k) -> exists n, In n (subs t) /\ root_key n = k.
  Proof.
    intros I Hs E. destruct (get_some_in _ _ _ E) as (x & Hx & Nx & Vx). assert (X : In k (keys t)); [|apply sub_of_key in X; exact X]. apply (wf_links _ (i_wf _ I)). unfold targets. apply in_flat_map. exists (data s). split; [now apply data_of_sub|]. apply in_flat_map. exists x. split; [exact Hx|]. rewrite Vx. now left.
  Qed.
  Lemma user_dead k t s : iready t -> In s (subs t) -> empty_at t k -> d_get (data s) a = Some (VFunc k) -> dead t (data s) = true.
  Proof.
    intros I Hs Em E. destruct (user_key k t s I Hs E) as (n & Hn & Kn). destruct (Em n Hn Kn) as [Tn Ek]. unfold dead. pose proof (find_sub_iff t n (iready_nodup _ I) Hn) as F. rewrite Kn in F. destruct Hea as [[-> ->]|[-> ->]]; rewrite E.
    - unfold empty_clip. rewrite F, Ek, (proj2 (tagged_iff _ _) Tn). reflexivity.
    - unfold empty_filter. rewrite F, Ek, (proj2 (tagged_iff _ _) Tn), (i_filters _ I n Hn Tn). apply orb_true_r.
  Qed.
  Lemma step_user k t s : iready t -> In s (subs t) -> root_key s <> root_key t -> user_at k t (root_key s) -> iready (remove (root_key s) t) /\ Shown t (remove (root_key s) t).
  Proof.
    intros I Hs Nr [Em U]. specialize (U s Hs eq_refl). pose proof (user_dead k t s I Hs Em U) as D. pose proof (i_dead _ I s Hs D) as Cl. apply shown_remove; auto.
    - intros d x n Hd Nd Hx Hn L. exfalso. apply Nd. unfold keys. apply in_map. apply (Cl n d Hn Hd). exists x. auto.
    - intros u Hu Hc. split; [intros _; now apply blank_dead|]. split.
      + intros Tu. destruct (i_clips _ I u s Hu Hc Tu) as [X1 X2]. exfalso. destruct Hea as [[-> ->]|[-> ->]]; [exact (X1 k U)|exact (X2 k U)].
      + intros Hh. destruct (i_parts _ I u s Hu Hc Hh) as (_ & _ & _ & _ & _ & _ & X1 & X2). destruct Hea as [[-> ->]|[-> ->]]; [exact (X1 k U)|exact (X2 k U)].
  Qed.
  Lemma user_keep k t s j : iready t -> In s (subs t) -> root_key s <> root_key t -> user_at k t (root_key s) -> user_at k t j -> user_at k (remove (root_key s) t) j.
  Proof.
    intros I Hs Nr [Em U] [_ Uj]. specialize (U s Hs eq_refl). pose proof (i_dead _ I s Hs (user_dead k t s I Hs Em U)) as Cl. split; [now apply empty_keep|]. intros u' Hu' Ku. pose proof (iready_nodup _ I) as N. destruct (rm_sub t _ N Nr u' Hu') as (u & Hu & Nu & ->). rewrite root_sv in Ku by reflexivity. specialize (Uj u Hu Ku). rewrite data_sv.
    pose proof (data_of_sub _ _ Hu) as Hd. destruct (unlink_d_get (sub_keys (root_key s) t) (data u) a (iready_attrs _ _ I Hd)) as [E|(_ & q & Hq & V)]; [congruence|]. exfalso. assert (q = k) by (destruct V; congruence). subst q.
    assert (Eg : sub_keys (root_key s) t = keys s) by (unfold sub_keys; now rewrite (find_sub_iff t s N Hs)). rewrite Eg in *. unfold keys in Hq. apply in_map_iff in Hq. destruct Hq as (n & Kn & Hn). apply Nu. unfold keys. change (root_key u) with (key (data u)). apply in_map. apply (Cl n (data u) Hn Hd).
    destruct (get_some_in _ _ _ Uj) as (x & Hx & _ & Vx). exists x. split; [exact Hx|]. rewrite Vx, Kn. reflexivity.
  Qed.
  Lemma step_empty k t : iready t -> empty_at t k -> ~ referenced t k -> In k (keys t) -> iready (remove k t) /\ Shown t (remove k t).
  Proof.
    intros I Em NR Hk. apply sub_of_key in Hk. destruct Hk as (s & Hs & <-). destruct (Em s Hs eq_refl) as [Ts Ek]. assert (K : kind_of (data s) = KOther) by (unfold kind_of; rewrite Ts; destruct Hea as [[-> _]|[-> _]]; reflexivity). apply shown_remove; auto.
    - intros E. assert (s = t) by (apply (sub_unique t); auto using iready_nodup, subs_self). subst s. rewrite (proj1 (i_root _ I)) in Ts. discriminate.
    - intros d x n Hd Nd Hx Hn L. exfalso. rewrite (flat_cons s), Ek in Hn. cbn in Hn. destruct Hn as [<-|[]]. apply NR. exists d. split; [exact Hd|]. exists x. auto.
    - intros u Hu Hc. split; [intros _; now apply blank_other|]. split; [intros _; apply (counts_other t _ _ Ts); destruct Hea as [[-> _]|[-> _]]; cbn; intuition discriminate|]. intros Hh. destruct (i_parts _ I u s Hu Hc Hh) as (_ & _ & X1 & X2 & _). destruct Hea as [[-> _]|[-> _]]; congruence.
  Qed.
  (** After the removal of all users there are no references. *)
  Lemma nodes_shrink ks : forall t, NoDup (keys t) -> ~ In (root_key t) ks -> NoDup (keys (remove_nodes ks t)) /\ root_key (remove_nodes ks t) = root_key t /\
    forall d', In d' (flat (remove_nodes ks t)) -> ~ In (key d') ks /\ exists d, In d (flat t) /\ key d = key d' /\ incl (attrs d') (attrs d).
  Proof.
    induction ks as [|k ks IH]; intros t N Nr; [cbn; split; [exact N|split; [reflexivity|]]; intros d Hd; split; [tauto|exists d; split; [exact Hd|split; [reflexivity|apply incl_refl]]]|].
    cbn [remove_nodes fold_left]. change (fold_left (fun t k => remove k t) ks (remove k t)) with (remove_nodes ks (remove k t)). assert (Nk : k <> root_key t) by (intros E; apply Nr; left; exact E).
    assert (N' : NoDup (keys (remove k t))) by (apply nodup_sv with (k := k) (f := unlink_data (sub_keys k t)); auto). destruct (IH (remove k t) N') as (A & B & C); [rewrite root_key_remove; intros X; apply Nr; now right|]. split; [exact A|]. split; [now rewrite B, root_key_remove|].
    intros d' Hd'. destruct (C d' Hd') as (C1 & d1 & Hd1 & K1 & I1). pose proof Hd1 as Hd1'. apply rm_flat in Hd1; auto. destruct Hd1 as (d & Hd & Nd & ->). split.
    - intros [E|E]; [|exact (C1 E)]. apply (rm_gone t k N Nk (key d')); [congruence|]. rewrite <- K1. unfold keys. now apply in_map.
    - exists d. split; [exact Hd|]. split; [exact K1|]. intros x Hx. apply I1, unlink_attr in Hx. exact Hx.
  Qed.
  Lemma linked_user t k j : iready t -> empty_at t k -> In k (keys t) -> In j (map fst (linked_nodes k t)) -> forall s, In s (subs t) -> root_key s = j -> d_get (data s) a = Some (VFunc k).
  Proof.
    intros I Em Hk H s Hs Ks. apply in_map_iff in H. destruct H as ((j' & nm) & E & H). cbn in E. subst j'. unfold linked_nodes in H. apply in_flat_map in H. destruct H as (d & Hd & H). apply in_map_iff in H. destruct H as (x & E & H). injection E as E1 E2. apply filter_In in H. destruct H as [Hx R]. apply refers_iff in R.
    assert (d = data s) by (apply (data_unique t); auto using iready_nodup; [now apply data_of_sub|unfold root_key in Ks; congruence]). subst d. apply sub_of_key in Hk. destruct Hk as (n & Hn & <-). destruct (Em n Hn eq_refl) as [Tn _].
    pose proof (i_links _ I (data s) x (data n) Hd Hx (data_of_sub _ _ Hn) R) as Q. unfold link_ok, gradient_node in Q. destruct (a_name x) as [b|] eqn:Nx; [|contradiction].
    assert (B : b = a /\ a_val x = VFunc (root_key n)). { clear - Hea Q Tn. rewrite Tn in Q. destruct Hea as [[-> ->]|[-> ->]]; destruct b; try contradiction; intuition discriminate. }
    destruct B as [-> B]. unfold d_get, get_value. rewrite (get_attr_in (attrs (data s)) x a); auto; [now rewrite B|]. now apply (iready_attrs t).
  Qed.
  Lemma good_linked t0 t k : good t0 t -> empty_at t k -> good t0 (remove_linked t k) /\ forall j, empty_at t j -> empty_at (remove_linked t k) j.
  Proof.
    intros Gt Em. pose proof (iready_nodup _ (proj1 Gt)) as N. unfold remove_linked. set (ks := map fst (linked_nodes k t)).
    assert (Lk : forall j, In j ks -> exists d, In d (flat t) /\ key d = j /\ refers_to d k). { intros j H. unfold ks in H. apply in_map_iff in H. destruct H as ((j' & nm) & E & H). cbn in E. subst j'. unfold linked_nodes in H. apply in_flat_map in H. destruct H as (d & Hd & H). apply in_map_iff in H. destruct H as (x & E & H). injection E as E1 E2. apply filter_In in H. destruct H as [Hx R]. apply refers_iff in R. exists d. split; [exact Hd|]. split; [exact E1|]. exists x. auto. }
    assert (Nr : ~ In (root_key t) ks). { intros H. destruct (Lk _ H) as (d & Hd & Kd & x & Hx & _). assert (d = data t) by (apply (data_unique t); auto; apply data_of_sub, subs_self). subst d. rewrite (proj2 (i_root _ (proj1 Gt))) in Hx. destruct Hx. }
    destruct (nodes_shrink ks t N Nr) as (N1 & R1 & F1).
    assert (Hk : forall j, In j ks -> In k (keys t)). { intros j Hj. destruct (Lk j Hj) as (d & Hd & _ & x & Hx & L). apply (wf_links _ (i_wf _ (proj1 Gt))). unfold targets. apply in_flat_map. exists d. split; [exact Hd|]. apply in_flat_map. exists x. split; [exact Hx|]. rewrite L. now left. }
    assert (G1 : good t0 (remove_nodes ks t)). { apply (good_nodes (user_at k)); auto; [exact (step_user k)|exact (user_keep k)|]. intros j Hj. split; [exact Em|]. intros s Hs Ks. apply (linked_user t k j (proj1 Gt) Em (Hk j Hj) Hj s Hs Ks). }
    assert (E1 : forall j, empty_at t j -> empty_at (remove_nodes ks t) j).
    { intros j Ej. assert (Q : forall l t, good t0 t -> empty_at t k -> empty_at t j -> ~ In (root_key t) l -> (forall i, In i l -> user_at k t i) -> empty_at (remove_nodes l t) j).
      { induction l as [|i l IH]; intros u Gu Eu Ej' Nl Ul; [exact Ej'|]. cbn [remove_nodes fold_left]. change (fold_left (fun t k => remove k t) l (remove i u)) with (remove_nodes l (remove i u)). assert (Ni : i <> root_key u) by (intros E; apply Nl; left; exact E). assert (Nl' : ~ In (root_key u) l) by (intros X; apply Nl; now right).
        destruct (in_dec Nat.eq_dec i (keys u)) as [X|X]; [|rewrite remove_out by exact X; apply IH; auto; intros; apply Ul; now right]. apply sub_of_key in X. destruct X as (s & Hs & <-). apply IH.
        - exact (good_trans _ _ _ Gu (step_user k u s (proj1 Gu) Hs Ni (Ul _ (or_introl eq_refl)))).
        - apply empty_keep; auto. apply Gu.
        - apply empty_keep; auto. apply Gu.
        - now rewrite root_key_remove.
        - intros q Hq. apply user_keep; auto; [apply Gu|apply Ul; now left|apply Ul; now right]. }
      apply Q; auto. intros i Hi. split; [exact Em|]. intros s Hs Ks. apply (linked_user t k i (proj1 Gt) Em (Hk i Hi) Hi s Hs Ks). }
    assert (NR : ~ referenced (remove_nodes ks t) k).
    { intros (d' & Hd' & x & Hx & L). destruct (F1 d' Hd') as (Nk & d & Hd & Kd & Id). apply Nk. rewrite <- Kd. unfold ks. apply in_map_iff. exists (key d, a_name x). split; [reflexivity|]. unfold linked_nodes. apply in_flat_map. exists d. split; [exact Hd|]. apply in_map_iff. exists x. split; [reflexivity|]. apply filter_In. split; [now apply Id|]. now apply refers_iff. }
    destruct (in_dec Nat.eq_dec k (keys (remove_nodes ks t))) as [X|X].
    - split; [exact (good_trans _ _ _ G1 (step_empty k _ (proj1 G1) (E1 k Em) NR X))|]. intros j Ej. apply empty_keep; [apply G1| |now apply E1]. rewrite R1. intros ->.
      assert (In t (subs t)) by apply subs_self. destruct (Em t H eq_refl) as [Tt _]. rewrite (proj1 (i_root _ (proj1 Gt))) in Tt. discriminate.
    - rewrite remove_out by exact X. auto.
  Qed.
  Lemma good_linked_all t0 ks : forall t, good t0 t -> (forall k, In k ks -> empty_at t k) -> good t0 (fold_left remove_linked ks t).
  Proof.
    induction ks as [|k ks IH]; intros t Gt E; [exact Gt|]. cbn [fold_left]. destruct (good_linked t0 t k Gt (E k (or_introl eq_refl))) as [G1 E1]. apply IH; [exact G1|]. intros j Hj. apply E1, E. now right.
  Qed.
End Linked.

(** ** Clip paths *)
Lemma good_rounds stops t0 : forall ks t empty t1 empty1, good t0 t -> (forall k, In k empty -> empty_at EClipPath t k) ->
  (forall k, In k ks -> forall s, In s (subs t) -> root_key s = k -> tag (data s) = TEl EClipPath) ->
  clip_rounds stops ks t empty = (t1, empty1) -> good t0 t1 /\ forall k, In k empty1 -> empty_at EClipPath t1 k.
Proof.
  induction ks as [|k ks IH]; intros t empty t1 empty1 Gt He Hk E; cbn [clip_rounds] in E; [injection E as <- <-; auto|].
  destruct (find_sub k t) as [s|] eqn:F; [|apply (IH t empty); auto; intros j Hj; apply Hk; now right]. apply find_sub_some in F. destruct F as [Hs Ks]. pose proof (Hk k (or_introl eq_refl) s Hs Ks) as Ts.
  set (bads := map root_key (filter (fun c => negb (valid_clip_elem t (data c))) (kids s))) in *. pose proof (iready_nodup _ (proj1 Gt)) as N.
  assert (Nr : ~ In (root_key t) bads). { intros X. unfold bads in X. apply in_map_iff in X. destruct X as (c & Kc & Hc). apply filter_In in Hc. destruct Hc as [Hc _]. exact (root_not_kid t s c N Hs Hc Kc). }
  assert (Bd : forall j, In j bads -> bad_at t j).
  { intros j Hj s0 u Hs0 Ks0 Hu Hc0. unfold bads in Hj. apply in_map_iff in Hj. destruct Hj as (c & Kc & Hc). apply filter_In in Hc. destruct Hc as [Hc V]. apply negb_true_iff in V. pose proof (kid_sub s c t Hs Hc) as Hct. assert (c = s0) by (apply (sub_unique t); auto; congruence). subst s0. assert (u = s) by exact (parent_unique t u s c N Hu Hs Hc0 Hc). subst u. split; [exact Ts|]. now apply invalid_bad. }
  assert (Q : forall l t, good t0 t -> ~ In (root_key t) l -> (forall j, In j l -> bad_at t j) -> good t0 (remove_nodes l t) /\ (forall j, empty_at EClipPath t j -> empty_at EClipPath (remove_nodes l t) j) /\ (forall j, (forall s, In s (subs t) -> root_key s = j -> tag (data s) = TEl EClipPath) -> forall s, In s (subs (remove_nodes l t)) -> root_key s = j -> tag (data s) = TEl EClipPath)).
  { clear - N. induction l as [|i l IHl]; intros u Gu Nl Bl; [auto|]. cbn [remove_nodes fold_left]. change (fold_left (fun t k => remove k t) l (remove i u)) with (remove_nodes l (remove i u)). assert (Ni : i <> root_key u) by (intros E; apply Nl; left; exact E). assert (Nl' : ~ In (root_key u) l) by (intros X; apply Nl; now right).
    destruct (in_dec Nat.eq_dec i (keys u)) as [X|X]; [|rewrite remove_out by exact X; apply IHl; auto; intros; apply Bl; now right]. apply sub_of_key in X. destruct X as (s & Hs & <-).
    destruct (IHl (remove (root_key s) u)) as (A & B & C).
    - exact (good_trans _ _ _ Gu (step_bad u s (proj1 Gu) Hs Ni (Bl _ (or_introl eq_refl)))).
    - now rewrite root_key_remove.
    - intros j Hj. apply bad_keep; [apply Gu|exact Ni|]. apply Bl. now right.
    - split; [exact A|]. split; [intros j Ej; apply B, empty_keep; auto; apply Gu|]. intros j Tj. apply C. intros s' Hs' Ks'. destruct (rm_sub u _ (iready_nodup _ (proj1 Gu)) Ni s' Hs') as (s1 & Hs1 & _ & ->). rewrite data_sv. rewrite root_sv in Ks' by reflexivity. exact (Tj s1 Hs1 Ks'). }
  destruct (Q bads t Gt Nr Bd) as (G1 & E1 & T1). set (t2 := remove_nodes bads t) in *.
  assert (He' : forall j, In j (match find_sub k t2 with Some (T _ []) => (empty ++ [k])%list | _ => empty end) -> empty_at EClipPath t2 j).
  { assert (He2 : forall j, In j empty -> empty_at EClipPath t2 j) by (intros j Hj; apply E1, He, Hj). destruct (find_sub k t2) as [[d0 [|]]|] eqn:F2; auto. intros j Hj. apply in_app_or in Hj. destruct Hj as [Hj|[<-|[]]]; [now apply He2|]. apply find_sub_some in F2. destruct F2 as [F2 K2]. intros x Hx Kx. assert (x = T d0 []) by (apply (sub_unique t2); auto; [apply iready_nodup, G1|congruence]). subst x. split; [|reflexivity]. apply (T1 k); auto. apply Hk. now left. }
  destruct (stops && _) in E; [injection E as <- <-; auto|]. refine (IH _ _ _ _ G1 He' _ E). intros j Hj. apply T1. apply Hk. now right.
Qed.
Lemma tag_keys_in e t k : NoDup (keys t) -> In k (tag_keys e t) -> forall s, In s (subs t) -> root_key s = k -> tag (data s) = TEl e.
Proof. intros N H s Hs Ks. unfold tag_keys in H. apply in_map_iff in H. destruct H as (d & Kd & H). apply filter_In in H. destruct H as [Hd Td]. assert (d = data s) by (apply (data_unique t); auto; [now apply data_of_sub|unfold root_key in Ks; congruence]). subst d. now apply is_tag_iff. Qed.
Lemma good_clips stops t0 x : good t0 (fst x) -> good t0 (fst (process_clip_paths stops x)).
Proof.
  destruct x as [t b]. cbn [fst]. intros Gt. cbn [process_clip_paths]. destruct (clip_rounds stops (tag_keys EClipPath t) t []) as [t1 empty] eqn:E. cbn [fst].
  destruct (good_rounds stops t0 _ _ _ _ _ Gt (fun k (X : In k []) => False_ind _ X) (fun k Hk => tag_keys_in EClipPath t k (iready_nodup _ (proj1 Gt)) Hk) E) as [G1 E1].
  apply (good_linked_all EClipPath AClipPath); auto. intros k Hk. apply in_rev in Hk. now apply E1.
Qed.
Lemma good_filters t0 x : good t0 (fst x) -> good t0 (fst (process_empty_filter x)).
Proof.
  destruct x as [t b]. cbn [fst]. intros Gt. cbn [process_empty_filter fst]. apply (good_linked_all EFilter AFilter); auto. intros k Hk s Hs Ks. unfold filter_keys in Hk. apply in_map_iff in Hk. destruct Hk as (s0 & Ks0 & H). apply filter_In in H. destruct H as [Hs0 H]. apply andb_true_iff in H. destruct H as [H1 H2].
  assert (s0 = s) by (apply (sub_unique t); auto; [apply iready_nodup, Gt|congruence]). subst s0. split; [now apply is_tag_iff|]. destruct (kids s); [reflexivity|discriminate].
Qed.
