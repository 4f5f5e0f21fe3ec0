(** The steps of remove_invisible_elements, one after the other. *)
From Coq Require Import List Bool NArith Arith ZArith String Lia QArith Qcanon.
From Verif Require Import Names Num Value Dom DomFacts DomOps DomRemove AttrFacts VLoop SpecDom SpecText SpecWritten Visit MoveFacts UseStep Push Props_stops SpecVisible VisStep VisKeep VisInv Outcome RmUnusedDefs Props_defs RmInvisible.
Import ListNotations.
Local Open Scope nat_scope.

Definition good (t0 t : tree) : Prop := iready t /\ Shown t0 t.
Lemma good_trans t0 t t' : good t0 t -> iready t' /\ Shown t t' -> good t0 t'.
Proof. intros [_ S] [I S']. split; [exact I|exact (shown_trans _ _ _ S S')]. Qed.

(** ** What is in a document after a removal *)
Lemma sub_keys_cases t k : NoDup (keys t) -> (exists s, In s (subs t) /\ root_key s = k /\ sub_keys k t = keys s) \/ (~ In k (keys t) /\ sub_keys k t = []).
Proof.
  intros N. unfold sub_keys. destruct (find_sub k t) as [s|] eqn:E.
  - apply find_sub_some in E. left. exists s. tauto.
  - right. split; [now apply find_sub_none|reflexivity].
Qed.
Lemma root_alone t s : NoDup (keys t) -> In s (subs t) -> In (root_key t) (keys s) -> root_key s = root_key t.
Proof.
  intros N Hs X. apply sub_of_key in X. destruct X as (x & Hx & Kx). assert (x = t) by (apply (sub_unique t); auto; [exact (subs_trans t s x Hs Hx)|apply subs_self]). subst x.
  destruct (in_subs_kids t s Hs) as [E|E]; [now rewrite E|]. exfalso.
  rewrite keys_kids in N. inversion N as [|? ? N1 _]. apply N1. apply in_flat_map in E. destruct E as (c & Hc & E). apply in_flat_map. exists c. split; [exact Hc|]. apply key_in_sub. exact (subs_trans c s t E Hx).
Qed.
Section Removed.
  Variables (t : tree) (k : nat).
  Hypothesis N : NoDup (keys t).
  Hypothesis Nr : k <> root_key t.
  Let G := sub_keys k t.
  Let f := unlink_data G.
  Lemma rm_root : ~ In (root_key t) G.
  Proof. intros X. unfold G in X. destruct (sub_keys_cases t k N) as [(s & Hs & Ks & E)|[_ E]]; rewrite E in X; [|destruct X]. apply root_alone in X; auto. congruence. Qed.
  Let HG := sub_keys_cases t k N.
  Lemma rm_sub u' : In u' (subs (remove k t)) -> exists u, In u (subs t) /\ ~ In (root_key u) G /\ u' = sv k f u.
  Proof. intros H. apply (sub_sv t k G f N HG (fun d => eq_refl) rm_root) in H. destruct H as (u & Hu & E & Nu). eauto. Qed.
  Lemma rm_flat d' : In d' (flat (remove k t)) -> exists d, In d (flat t) /\ ~ In (key d) G /\ d' = unlink_data G d.
  Proof. intros H. apply (flat_sv t k G f N HG (fun d => eq_refl) rm_root) in H. exact H. Qed.
  Lemma rm_keys j : In j (keys (remove k t)) <-> In j (keys t) /\ ~ In j G.
  Proof. apply (keys_sv t k G f N HG (fun d => eq_refl) rm_root). Qed.
  Lemma rm_flat_in v d' : In v (subs t) -> ~ In (root_key v) G -> In d' (flat (sv k f v)) -> exists d, In d (flat v) /\ ~ In (key d) G /\ d' = unlink_data G d.
  Proof. intros Hv Nv H. now apply (flat_sv_in t k G f N HG (fun d => eq_refl) rm_root v) in H. Qed.
  Lemma rm_kid u c' : In u (subs t) -> In c' (kids (sv k f u)) -> exists c, In c (kids u) /\ root_key c <> k /\ c' = sv k f c.
  Proof. intros Hu H. rewrite kids_sv in H by reflexivity. apply in_flat_map in H. destruct H as (c & Hc & H). destruct (Nat.eqb_spec (root_key c) k) as [E|E]; [destruct H|]. destruct H as [<-|[]]. eauto. Qed.
  Lemma rm_gone j : j = k -> ~ In j (keys (remove k t)).
  Proof. intros ->. rewrite rm_keys. intros [H X]. apply X. unfold G. destruct HG as [(s & Hs & Ks & E)|[E _]]; [|contradiction]. rewrite E, <- Ks, keys_kids. now left. Qed.
End Removed.
Lemma unlink_attr ks d x : In x (attrs (unlink_data ks d)) -> In x (attrs d).
Proof. cbn. intros H. now apply filter_In in H. Qed.
Lemma unlink_keep ks d a v : attrs_nodup d -> d_get (unlink_data ks d) a = Some v -> d_get d a = Some v.
Proof. intros W E. destruct (unlink_d_get ks d a W) as [X|[X _]]; congruence. Qed.
Lemma rm_referenced t k j : NoDup (keys t) -> k <> root_key t -> referenced (remove k t) j -> referenced t j.
Proof. intros N Nr (e & He & x & Hx & L). apply rm_flat in He; auto. destruct He as (e0 & He & _ & ->). apply unlink_attr in Hx. exists e0. split; [exact He|]. exists x. auto. Qed.
Lemma iready_nodup t : iready t -> NoDup (keys t). Proof. intros I. apply (wf_keys _ (i_wf _ I)). Qed.
Lemma iready_attrs t d : iready t -> In d (flat t) -> attrs_nodup d.
Proof. intros I Hd. exact (proj1 (Forall_forall _ _) (i_wfa _ I) d Hd). Qed.

(** ** A list of nodes with a property that removals keep *)
Lemma good_nodes (P : tree -> nat -> Prop) t0 ks : 
  (forall t s, iready t -> In s (subs t) -> root_key s <> root_key t -> P t (root_key s) -> iready (remove (root_key s) t) /\ Shown t (remove (root_key s) t)) ->
  (forall t s j, iready t -> In s (subs t) -> root_key s <> root_key t -> P t (root_key s) -> P t j -> P (remove (root_key s) t) j) ->
  forall t, good t0 t -> ~ In (root_key t) ks -> (forall k, In k ks -> P t k) -> good t0 (remove_nodes ks t).
Proof.
  intros H1 H2. induction ks as [|k ks IH]; intros t Gt Nr Pk; [exact Gt|]. cbn [remove_nodes fold_left]. change (fold_left (fun t k => remove k t) ks (remove k t)) with (remove_nodes ks (remove k t)). assert (Nk : k <> root_key t) by (intros E; apply Nr; left; exact E). assert (Nr' : ~ In (root_key t) ks) by (intros X; apply Nr; now right).
  destruct (in_dec Nat.eq_dec k (keys t)) as [X|X].
  - apply sub_of_key in X. destruct X as (s & Hs & <-). assert (Ps : P t (root_key s)) by (apply Pk; now left). destruct (H1 t s (proj1 Gt) Hs Nk Ps) as [I' S']. apply IH.
    + exact (good_trans _ _ _ Gt (conj I' S')).
    + now rewrite root_key_remove.
    + intros j Hj. apply H2; auto; [apply Gt|apply Pk; now right].
  - rewrite remove_out by exact X. apply IH; auto. intros; apply Pk; now right.
Qed.
Lemma good_drain (p : tree -> tree -> bool) t0 :
  (forall t s, iready t -> In s (subs t) -> root_key s <> root_key t -> p t s = true -> iready (remove (root_key s) t) /\ Shown t (remove (root_key s) t)) ->
  forall t, good t0 t -> good t0 (fst (drain p t)).
Proof.
  intros H t Gt. unfold drain. pose proof (root_not_tl t (iready_nodup _ (proj1 Gt))) as R. revert R. generalize (tl (keys t)) as l. intros l.
  assert (Q : forall l c n, root_key c = root_key t -> good t0 c -> ~ In (root_key t) l -> good t0 (fst (fold_left (drain_step p) l (c, n)))).
  { clear l. induction l as [|k l IH]; intros c n Hc Gc Nl; [exact Gc|]. cbn [fold_left drain_step]. assert (Nl' : ~ In (root_key t) l) by (intros X; apply Nl; now right). destruct (find_sub k c) as [s|] eqn:E; [|now apply IH]. destruct (p c s) eqn:Ep; [|now apply IH].
    apply find_sub_some in E. destruct E as [Hs <-]. apply IH; auto; [now rewrite root_key_remove|]. apply (good_trans _ _ _ Gc). apply H; auto; [apply Gc|]. rewrite Hc. intros X. apply Nl. left. exact X. }
  intros R. now apply Q.
Qed.

(** ** What is never drawn where it stands *)
Lemma blank_other t s : kind_of (data s) = KOther -> blank t s.
Proof. intros K. apply blank_not. unfold drawn. now rewrite K. Qed.
Lemma blank_hidden t s : displays (data s) = false -> blank t s.
Proof. intros K. apply blank_not. unfold drawn. rewrite K. now destruct (kind_of (data s)). Qed.
Lemma blank_dead t s : dead t (data s) = true -> blank t s.
Proof. intros K. apply blank_not. unfold drawn. rewrite K. cbn. rewrite !andb_false_r. now destruct (kind_of (data s)). Qed.
Lemma counts_other t d e : tag d = TEl e -> ~ In e [EPath; ERect; ECircle; EEllipse; ELine; EPolyline; EPolygon; EText; EUse] -> clip_counts t d = false.
Proof.
  intros E H. unfold clip_counts, clip_shape_el, tagged. rewrite E. destruct (existsb (eid_eqb e) _) eqn:X.
  - exfalso. apply existsb_exists in X. destruct X as (y & Hy & Ey). destruct (eid_eqb_spec e y); [subst y|discriminate]. apply H. cbn in *. tauto.
  - destruct (eid_eqb_spec e EUse) as [->|]; [exfalso; apply H; cbn; tauto|]. cbn. now rewrite andb_false_r.
Qed.

(** ** display *)
Definition hidden_at (t : tree) (k : nat) : Prop := forall s, In s (subs t) -> root_key s = k -> displays (data s) = false /\ forall n, In n (flat s) -> ~ referenced t (key n).
Lemma disp_displays d : disp_none d = negb (displays d).
Proof. unfold disp_none, displays. destruct (d_get d ADisplay); [now rewrite negb_involutive|reflexivity]. Qed.
Lemma display_nodes_in t : forall v k, In k (display_nodes t v) -> exists c, In c (flat_map subs (kids v)) /\ root_key c = k /\ displays (data c) = false /\ forall n, In n (flat c) -> is_used (key n) t = false.
Proof.
  induction v as [d ch IH] using tree_ind'. intros k H. cbn [display_nodes] in H. apply in_flat_map in H. destruct H as (c & Hc & H). rewrite Forall_forall in IH. cbn [kids].
  destruct (negb (is_svg_el (data c))); [destruct H|]. destruct (disp_none (data c) && negb (is_used (root_key c) t)) eqn:D.
  - destruct (existsb _ (flat c)) eqn:E; [destruct H|]. destruct H as [<-|[]]. exists c. split; [apply in_flat_map; exists c; split; [exact Hc|apply subs_self]|]. split; [reflexivity|]. apply andb_true_iff in D. destruct D as [D _]. rewrite disp_displays in D. apply negb_true_iff in D. split; [exact D|].
    intros n Hn. destruct (is_used (key n) t) eqn:U; [|reflexivity]. assert (X : existsb (fun n => is_used (key n) t) (flat c) = true) by (apply existsb_exists; eauto). congruence.
  - destruct (IH c Hc k H) as (x & Hx & R). exists x. split; [|exact R]. apply in_flat_map. exists c. split; [exact Hc|]. apply in_kids_subs. exact Hx.
Qed.
Lemma step_hidden t s : iready t -> In s (subs t) -> root_key s <> root_key t -> hidden_at t (root_key s) -> iready (remove (root_key s) t) /\ Shown t (remove (root_key s) t).
Proof.
  intros I Hs Nr H. destruct (H s Hs eq_refl) as [D U]. apply shown_remove; auto.
  - intros d x n Hd Nd Hx Hn L. exfalso. apply (U n Hn). exists d. split; [exact Hd|]. exists x. auto.
  - intros u Hu Hc. split; [intros _; now apply blank_hidden|]. split; [intros _; unfold clip_counts; now rewrite D|]. intros Hh. destruct (i_parts _ I u s Hu Hc Hh) as (_ & X & _). congruence.
Qed.
Lemma hidden_keep t s j : iready t -> In s (subs t) -> root_key s <> root_key t -> hidden_at t (root_key s) -> hidden_at t j -> hidden_at (remove (root_key s) t) j.
Proof.
  intros I Hs Nr _ H u' Hu' Ku. pose proof (iready_nodup _ I) as N. destruct (rm_sub t _ N Nr u' Hu') as (u & Hu & Nu & ->). rewrite root_sv in Ku by reflexivity. destruct (H u Hu Ku) as [D U]. split.
  - rewrite data_sv. revert D. unfold displays. destruct (unlink_d_get (sub_keys (root_key s) t) (data u) ADisplay (iready_attrs _ _ I (data_of_sub _ _ Hu))) as [-> |(_ & q & _ & [-> | ->])]; auto; discriminate.
  - intros n' Hn' R. destruct (rm_flat_in t _ N Nr u n' Hu Nu Hn') as (n & Hn & _ & ->). apply rm_referenced in R; auto. now apply (U n).
Qed.
Lemma good_display t0 t b : good t0 t -> good t0 (fst (process_display (t, b))).
Proof.
  intros Gt. cbn [process_display fst]. pose proof (iready_nodup _ (proj1 Gt)) as N. apply (good_nodes hidden_at); auto using step_hidden, hidden_keep.
  - intros X. apply display_nodes_in in X. destruct X as (c & Hc & Kc & _). rewrite keys_kids in N. inversion N as [|? ? N1 _]. apply N1. apply in_flat_map in Hc. destruct Hc as (y & Hy & Hc). apply in_flat_map. exists y. split; [exact Hy|]. rewrite <- Kc. now apply key_in_sub.
  - intros k Hk s Hs Ks. apply display_nodes_in in Hk. destruct Hk as (c & Hc & Kc & D & U). assert (c = s) by (apply (sub_unique t); auto; [now apply in_kids_subs|congruence]). subst c. split; [exact D|]. intros n Hn R. apply used_iff in R. rewrite U in R; [discriminate|exact Hn].
Qed.

(** ** Paths, rectangles and use elements *)
Lemma step_vanishing t s : iready t -> In s (subs t) -> root_key s <> root_key t -> vanishing (data s) = true -> iready (remove (root_key s) t) /\ Shown t (remove (root_key s) t).
Proof.
  intros I Hs Nr V. pose proof (vanishing_kind _ V) as K. apply shown_remove; auto.
  - intros d x n Hd Nd Hx Hn L. left. rewrite (flat_cons s) in Hn. destruct Hn as [<-|Hn].
    + split; [|exact V]. pose proof (i_links _ I d x (data s) Hd Hx (data_of_sub _ _ Hs) L) as Q. unfold link_ok, gradient_node in Q. destruct (a_name x) as [a|]; [|contradiction].
      destruct a; try reflexivity; try contradiction; exfalso; destruct K as [K|[K|K]]; rewrite K in Q; intuition discriminate.
    + exfalso. apply in_flat_map in Hn. destruct Hn as (c & Hc & Hn). apply (i_inside _ I s c n Hs Hc Hn); [tauto|]. exists d. split; [exact Hd|]. exists x. auto.
  - intros u Hu Hc. split; [intros _; now apply vanishing_blank|]. split.
    + intros _. unfold vanishing in V. apply orb_true_iff in V. unfold clip_counts. destruct (degenerate (data s)) eqn:D.
      * unfold degenerate in D. apply orb_true_iff in D. rewrite !andb_true_iff, !tagged_iff in D. assert (U : tagged EUse (data s) = false) by (unfold tagged; destruct D as [[-> _]|[-> _]]; reflexivity). rewrite U. cbn. now rewrite andb_false_r, andb_false_r.
      * destruct V as [V|V]; [discriminate|]. apply andb_true_iff in V. destruct V as [U H]. apply negb_true_iff in H. rewrite d_has_get in H. apply tagged_iff in U. unfold clip_shape_el, tagged, target. rewrite U. destruct (d_get (data s) AXlinkHref); [discriminate|]. cbn. now rewrite andb_false_r.
    + intros Hh. destruct (i_parts _ I u s Hu Hc Hh) as (X & _). unfold kind_of in X. destruct K as [K|[K|K]]; rewrite K in X; discriminate.
Qed.
Lemma is_tag_iff e d : is_tag e d = true <-> tag d = TEl e.
Proof. rewrite <- tagged_iff. unfold is_tag, tagged. destruct (tag d) as [|e'| | | |]; try tauto. Qed.
Lemma good_paths t0 x : good t0 (fst x) -> good t0 (fst (process_paths x)).
Proof.
  intros Gt. cbn [process_paths drained fst]. apply (good_drain _ t0); [|exact Gt]. intros t s I Hs Nr H. apply step_vanishing; auto. unfold path_invisible in H. apply andb_true_iff in H. destruct H as [H1 H2]. apply is_tag_iff, tagged_iff in H1. unfold vanishing, degenerate. rewrite H1. unfold segments. unfold has_data in H2. now rewrite H2.
Qed.
Lemma good_use t0 x : good t0 (fst x) -> good t0 (fst (process_use x)).
Proof.
  intros Gt. cbn [process_use drained fst]. apply (good_drain _ t0); [|exact Gt]. intros t s I Hs Nr H. apply step_vanishing; auto. unfold use_invisible in H. apply andb_true_iff in H. destruct H as [H1 H2]. apply is_tag_iff, tagged_iff in H1. unfold vanishing. rewrite H1, H2. apply orb_true_r.
Qed.
Lemma good_rect t0 x : good t0 (fst x) -> good t0 (fst (process_rect x)).
Proof.
  intros Gt. cbn [process_rect drained fst]. apply (good_drain _ t0); [|exact Gt]. intros t s I Hs Nr H. apply step_vanishing; auto. unfold rect_invisible in H. apply andb_true_iff in H. destruct H as [H1 H2]. apply is_tag_iff, tagged_iff in H1. unfold vanishing, degenerate. rewrite H1. unfold zero. unfold zero_len in H2. rewrite H2. cbn. now rewrite orb_true_r.
Qed.

(** ** The colour matrix *)
Lemma step_matrix t s : iready t -> In s (subs t) -> root_key s <> root_key t -> default_matrix s = true -> iready (remove (root_key s) t) /\ Shown t (remove (root_key s) t).
Proof.
  intros I Hs Nr M. unfold default_matrix in M. apply andb_true_iff in M. destruct M as [Tf M]. apply is_tag_iff in Tf. destruct (kids s) as [|c [|]] eqn:Ek; try discriminate. apply andb_true_iff in M. destruct M as [Tc M]. apply is_tag_iff in Tc.
  destruct (d_get (data c) AType) as [[ty| | | | | | | | | |]|] eqn:Ety; try discriminate. destruct (d_get (data c) AValues) as [[vs| | | | | | | | | |]|] eqn:Evs; try discriminate. apply andb_true_iff in M. destruct M as [M1 M2]. apply String.eqb_eq in M1. apply String.eqb_eq in M2.
  assert (Id : identity_filter t (root_key s)). { exists s, c. split; [exact Hs|]. split; [reflexivity|]. split; [exact Tf|]. split; [exact Ek|]. split; [exact Tc|]. split; [now rewrite Ety, M1|]. split; [rewrite Evs, M2; reflexivity|]. intros a Ha. now apply (i_matrix _ I s c). }
  apply shown_remove; auto.
  - intros d x n Hd Nd Hx Hn L. right. rewrite (flat_cons s) in Hn. destruct Hn as [<-|Hn].
    + split; [|exact Id]. pose proof (i_links _ I d x (data s) Hd Hx (data_of_sub _ _ Hs) L) as Q. unfold link_ok, gradient_node in Q. destruct (a_name x) as [a|]; [|contradiction].
      destruct a; try reflexivity; try contradiction; exfalso; rewrite Tf in Q; intuition discriminate.
    + exfalso. apply in_flat_map in Hn. destruct Hn as (c' & Hc & Hn). apply (i_inside _ I s c' n Hs Hc Hn); [tauto|]. exists d. split; [exact Hd|]. exists x. auto.
  - intros u Hu Hc. split; [intros _; apply blank_other; unfold kind_of; now rewrite Tf|]. split; [intros _; apply (counts_other t _ _ Tf); cbn; intuition discriminate|]. intros Hh. destruct (i_parts _ I u s Hu Hc Hh) as (_ & _ & _ & X & _). congruence.
Qed.
Lemma good_matrix t0 x : good t0 (fst x) -> good t0 (fst (process_fe_color_matrix x)).
Proof. intros Gt. cbn [process_fe_color_matrix fst]. apply (good_drain _ t0); [|exact Gt]. intros t s I Hs Nr H. now apply step_matrix. Qed.
