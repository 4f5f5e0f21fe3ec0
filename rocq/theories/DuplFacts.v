(** Facts about redirecting the users of a node to another node and removing it. *)
From Coq Require Import List Bool NArith Arith ZArith String Lia Permutation.
From Verif Require Import Names Num Value Dom DomFacts DomOps DomRemove Outcome APass SpecDom SpecText TextProofs Visit Move MoveFacts GroupDefsProofs Dupl SpecGradients SpecWritten SpecGradUnits SpecDupl.
Import ListNotations.
Local Open Scope nat_scope.

Definition rl (k2 k1 : nat) (d : ndata) : ndata := with_attrs d (map (relink_attr k2 k1) (attrs d)).
Lemma rl_sig k2 k1 d : sig (rl k2 k1 d) = sig d. Proof. reflexivity. Qed.
Definition ren (k2 k1 k : nat) : nat := if Nat.eqb k k2 then k1 else k.
Lemma forallb_filter_id {A} (p : A -> bool) l : forallb p l = true -> filter p l = l.
Proof. induction l as [|x l IH]; [reflexivity|]. cbn. intros H. apply andb_prop in H. destruct H as [H1 H2]. rewrite H1. f_equal. auto. Qed.
Lemma relink_none k2 k1 l : (forall x, In x l -> refers k2 x = false) -> map (relink_attr k2 k1) l = l.
Proof. induction l as [|x l IH]; intros H; [reflexivity|]. cbn. unfold relink_attr at 1. rewrite (H x (or_introl eq_refl)), IH; [reflexivity|]. intros y Hy. apply H. now right. Qed.
Lemma refers_to_iff d k : refers_to d k <-> existsb (refers k) (attrs d) = true.
Proof. unfold refers_to. rewrite existsb_exists. split; intros (x & Hx & H); exists x; (split; [exact Hx|]); now apply refers_iff. Qed.

Section step.
Variables (t s2 : tree) (a2 : list ndata) (n1 : ndata).
Notation k2 := (root_key s2).
Notation k1 := (key n1).
Hypothesis W : WF t.
Hypothesis P2 : In (a2, s2) (places [] t).
Hypothesis N2 : k2 <> root_key t.
Hypothesis H1 : In n1 (flat t).
Hypothesis K1 : ~ In k1 (keys s2).
Hypothesis Typed : forall d x k, In d (flat t) -> In x (attrs d) -> link_of (a_val x) = Some k -> exists a, a_name x = AN a /\ a_val x = link_value a k /\ a_vis x = true.
Hypothesis Users : forall d, In d (flat t) -> refers_to d k2 -> nid d <> nid n1 /\ nid n1 <> ""%string /\ ~ refers_to n1 (key d).
Hypothesis Inner : forall j d, In j (keys s2) -> j <> k2 -> In d (flat t) -> ~ refers_to d j.
Notation f := (rl k2 k1).
Definition merged : tree := detach k2 (tmap f t).
Lemma k12 : k1 <> k2.
Proof. intros E. apply K1. rewrite E. rewrite keys_kids. now left. Qed.
Lemma relink_ok : relink k2 n1 t = Ok (tmap f t).
Proof.
  unfold relink. set (users := filter (fun d => existsb (refers k2) (attrs d)) (flat t)). assert (Hu : forall d, In d users -> In d (flat t) /\ refers_to d k2) by (intros d Hd; apply filter_In in Hd; destruct Hd as [X Y]; split; [exact X|now apply refers_to_iff]).
  assert (F1 : forallb (fun d => forallb (fun x => negb (refers k2 x) || named x) (attrs d)) users = true).
  { apply forallb_forall. intros d Hd. apply forallb_forall. intros x Hx. destruct (refers k2 x) eqn:E; [|reflexivity]. apply refers_iff in E. destruct (Typed d x k2 (proj1 (Hu d Hd)) Hx E) as (a & Ea & _). unfold named. now rewrite Ea. }
  assert (F2 : forallb (fun d => String.eqb (nid d) (nid n1) || (has_id n1 && negb (existsb (refers (key d)) (attrs n1)))) users = true).
  { apply forallb_forall. intros d Hd. destruct (Hu d Hd) as [X Y]. destruct (Users d X Y) as (_ & I & Nr). apply orb_true_iff. right. unfold has_id. destruct (String.eqb_spec (nid n1) ""); [contradiction|]. cbn. apply negb_true_iff. destruct (existsb _ (attrs n1)) eqn:E; [|reflexivity]. exfalso. apply Nr. now apply refers_to_iff. }
  rewrite F1, F2. f_equal. apply tmap_ext. intros d Hd. destruct (String.eqb_spec (nid d) (nid n1)) as [E|E]; [|reflexivity].
  unfold rl. rewrite relink_none; [now destruct d|]. intros x Hx. destruct (refers k2 x) eqn:R; [|reflexivity]. exfalso. destruct (Users d Hd) as (Z & _); [|now apply Z]. apply refers_to_iff. apply existsb_exists. eauto.
Qed.
Lemma rl_link d x k : In d (flat t) -> In x (attrs (f d)) -> link_of (a_val x) = Some k -> exists y j, In y (attrs d) /\ link_of (a_val y) = Some j /\ k = ren k2 k1 j /\ x = relink_attr k2 k1 y.
Proof.
  intros Hd Hx L. cbn in Hx. apply in_map_iff in Hx. destruct Hx as (y & <- & Hy). exists y. unfold relink_attr in *. destruct (refers k2 y) eqn:R.
  - apply refers_iff in R. destruct (Typed d y _ Hd Hy R) as (a & Ea & _). rewrite Ea in *. cbn in L. exists k2. split; [exact Hy|]. split; [exact R|]. split; [|reflexivity]. unfold ren. rewrite Nat.eqb_refl. unfold link_value in L. destruct (aid_eqb a AXlinkHref); cbn in L; congruence.
  - exists k. split; [exact Hy|]. split; [exact L|]. split; [|reflexivity]. unfold ren. destruct (Nat.eqb_spec k k2) as [E|E]; [|reflexivity]. subst k. apply refers_iff in L. congruence.
Qed.
Lemma keys_f : keys (tmap f t) = keys t. Proof. apply keys_tmap. reflexivity. Qed.
Lemma sub2_f : In (tmap f s2) (subs (tmap f t)). Proof. rewrite subs_tmap. apply in_map. exact (place_sub _ _ _ _ P2). Qed.
Lemma root_f s : root_key (tmap f s) = root_key s. Proof. unfold root_key. now rewrite data_tmap. Qed.
Lemma remove_merged : remove k2 (tmap f t) = merged.
Proof.
  unfold remove, merged. f_equal. assert (SK : sub_keys k2 (tmap f t) = keys s2).
  { unfold sub_keys. rewrite <- (root_f s2) at 1. rewrite (find_sub_iff (tmap f t) (tmap f s2)); [|rewrite keys_f; apply W|apply sub2_f]. apply keys_tmap. reflexivity. }
  rewrite SK. unfold unlink. rewrite tmap_tmap. apply tmap_ext. intros d Hd.
  assert (E : filter (fun x => negb (existsb (fun k => refers k x) (keys s2))) (attrs (f d)) = attrs (f d)).
  { apply forallb_filter_id. apply forallb_forall. intros x Hx. apply negb_true_iff. destruct (existsb _ (keys s2)) eqn:E; [|reflexivity]. exfalso. apply existsb_exists in E. destruct E as (j & Hj & R). apply refers_iff in R.
    destruct (rl_link d x j Hd Hx R) as (y & i & Hy & Li & -> & _). unfold ren in Hj. destruct (Nat.eqb_spec i k2) as [X|X]; [contradiction|]. apply (Inner i d Hj X Hd). exists y. auto. }
  rewrite E. unfold rl, with_attrs. reflexivity.
Qed.
Lemma ctx_split : exists pre post, ctx [] t = pre ++ ctx a2 s2 ++ post /\ ctx [] merged = map (fun p => (map f (fst p), f (snd p))) (pre ++ post).
Proof.
  destruct (ctx_detach t s2 a2 [] (wf_keys t W) P2 N2) as (pre & post & E1 & E2). exists pre, post. split; [exact E1|]. unfold merged. rewrite detach_pruned, pruned_tmap by reflexivity. rewrite <- detach_pruned. rewrite ctx_tmap0. now rewrite E2.
Qed.
Lemma ctx_merged p : In p (ctx [] merged) <-> exists q, In q (ctx [] t) /\ ~ In (key (snd q)) (keys s2) /\ p = (map f (fst q), f (snd q)).
Proof.
  destruct ctx_split as (pre & post & E1 & E2). pose proof (wf_keys t W) as N. rewrite <- (ctx_keys t []), E1 in N. assert (P : Permutation (pre ++ ctx a2 s2 ++ post) (ctx a2 s2 ++ pre ++ post)) by apply Permutation_app_swap_app. apply (Permutation_NoDup (Permutation_map _ P)) in N. rewrite map_app, ctx_keys in N. apply NoDup_app_inv in N. destruct N as (_ & _ & D).
  rewrite E2, in_map_iff. split.
  - intros (q & <- & Hq). exists q. split; [rewrite E1; apply (Permutation_in _ (Permutation_sym P)), in_or_app; now right|]. split; [|reflexivity]. intros X. apply (D _ X). apply in_map_iff. eauto.
  - intros (q & Hq & Nq & ->). exists q. split; [reflexivity|]. rewrite E1 in Hq. apply (Permutation_in _ P) in Hq. apply in_app_or in Hq. destruct Hq as [Hq|Hq]; [|exact Hq]. exfalso. apply Nq. rewrite <- (ctx_keys s2 a2). apply in_map_iff. eauto.
Qed.
Lemma flat_merged d' : In d' (flat merged) <-> exists d, In d (flat t) /\ ~ In (key d) (keys s2) /\ d' = f d.
Proof.
  rewrite <- (map_snd_ctx [] merged), in_map_iff. split.
  - intros (p & <- & Hp). apply ctx_merged in Hp. destruct Hp as (q & Hq & Nq & ->). exists (snd q). split; [apply (ctx_in_flat t [] _ Hq)|auto].
  - intros (d & Hd & Nd & ->). rewrite <- (map_snd_ctx [] t) in Hd. apply in_map_iff in Hd. destruct Hd as (q & <- & Hq). exists (map f (fst q), f (snd q)). split; [reflexivity|]. apply ctx_merged. eauto.
Qed.
Lemma keys_merged j : In j (keys merged) <-> In j (keys t) /\ ~ In j (keys s2).
Proof.
  unfold keys at 1 2. rewrite !in_map_iff. split.
  - intros (d' & <- & Hd'). apply flat_merged in Hd'. destruct Hd' as (d & Hd & Nd & ->). split; [exists d; auto|exact Nd].
  - intros [(d & <- & Hd) Nd]. exists (f d). split; [reflexivity|]. apply flat_merged. eauto.
Qed.
Lemma nodup_merged : NoDup (keys merged).
Proof.
  unfold merged. pose proof (wf_keys t W) as N. rewrite <- keys_f in N. apply (sublist_NoDup _ _ (keys_prune_sublist _ _) N).
Qed.
Lemma WF_merged : WF merged.
Proof.
  split; [apply nodup_merged|]. intros k Hk. apply targets_in in Hk. destruct Hk as (d' & x & Hd' & Hx & L). apply flat_merged in Hd'. destruct Hd' as (d & Hd & Nd & ->). destruct (rl_link d x k Hd Hx L) as (y & j & Hy & Lj & -> & _). unfold ren. destruct (Nat.eqb_spec j k2) as [E|E].
  - apply keys_merged. split; [now apply (in_map key)|exact K1].
  - apply keys_merged. split; [apply W, targets_in; eauto|]. intros X. apply (Inner j d X E Hd). exists y. auto.
Qed.
Lemma subs_merged s' : In s' (subs merged) <-> exists s, In s (subs t) /\ ~ In (root_key s) (keys s2) /\ s' = detach k2 (tmap f s).
Proof.
  assert (Fw : In s' (subs merged) -> exists s, In s (subs t) /\ s' = detach k2 (tmap f s)).
  { unfold merged. rewrite detach_pruned. intros H. apply subs_pruned_incl in H. destruct H as (s0 & H & ->). rewrite subs_tmap in H. apply in_map_iff in H. destruct H as (s & <- & H). exists s. split; [exact H|]. now rewrite detach_pruned. }
  split.
  - intros H. destruct (Fw H) as (s & Hs & E). exists s. split; [exact Hs|]. split; [|exact E]. assert (X : In (root_key s') (keys merged)) by (unfold root_key; apply (in_map key), data_of_sub; exact H). subst s'. rewrite root_detach, root_f in X. now apply keys_merged in X.
  - intros (s & Hs & Ns & ->). assert (X : In (root_key s) (keys merged)) by (apply keys_merged; split; [unfold root_key; apply (in_map key), data_of_sub; exact Hs|exact Ns]). unfold keys in X. apply in_map_iff in X. destruct X as (d & Kd & Hd). rewrite <- (map_snd_ctx [] merged) in Hd. apply in_map_iff in Hd. destruct Hd as ([a d0] & E & Hd). cbn in E. subst d0. apply ctx_place in Hd. destruct Hd as (s0 & H0 & E0). apply place_sub in H0.
    assert (Z : exists s3, In s3 (subs t) /\ s0 = detach k2 (tmap f s3)). { clear Fw. revert H0. unfold merged. rewrite detach_pruned. intros H. apply subs_pruned_incl in H. destruct H as (s4 & H & ->). rewrite subs_tmap in H. apply in_map_iff in H. destruct H as (s5 & <- & H). exists s5. split; [exact H|]. now rewrite detach_pruned. }
    destruct Z as (s3 & H3 & ->). assert (s3 = s); [|now subst]. apply (sub_unique t); [apply W|exact H3|exact Hs|]. rewrite data_detach, data_tmap in E0. unfold root_key in *. rewrite <- Kd, <- E0. reflexivity.
Qed.
Lemma relink_name x : a_name (relink_attr k2 k1 x) = a_name x.
Proof. unfold relink_attr. destruct (refers k2 x); [|reflexivity]. destruct (a_name x) eqn:E; [reflexivity|exact E]. Qed.
Lemma WFA_merged : WFA t -> WFA merged.
Proof.
  intros A. apply Forall_forall. intros d' Hd'. apply flat_merged in Hd'. destruct Hd' as (d & Hd & _ & ->). pose proof (proj1 (Forall_forall _ _) A d Hd) as N. unfold attrs_nodup in *. cbn. rewrite map_map. replace (map (fun x => a_name (relink_attr k2 k1 x)) (attrs d)) with (map a_name (attrs d)); [exact N|]. apply map_ext. intros x. symmetry. apply relink_name.
Qed.
(** Values. *)
Lemma relink_val d x : In d (flat t) -> In x (attrs d) -> a_val (relink_attr k2 k1 x) = redirect_value (ren k2 k1) (a_val x) /\ a_vis (relink_attr k2 k1 x) = a_vis x.
Proof.
  intros Hd Hx. unfold relink_attr. destruct (refers k2 x) eqn:R.
  - apply refers_iff in R. destruct (Typed d x _ Hd Hx R) as (a & -> & Ev & V). cbn. rewrite Ev, V. unfold link_value. destruct (aid_eqb a AXlinkHref); cbn; unfold ren; rewrite Nat.eqb_refl; auto.
  - split; [|reflexivity]. unfold refers in R. destruct (a_val x) eqn:E; try reflexivity; cbn in *; unfold ren; now rewrite R.
Qed.
Lemma get_attr_rl d a : get_attr (attrs (f d)) a = option_map (relink_attr k2 k1) (get_attr (attrs d) a).
Proof.
  unfold rl. cbn. unfold get_attr. induction (attrs d) as [|x l IH]; [reflexivity|]. cbn. unfold has_name at 1 3. rewrite relink_name. destruct (aname_eqb (a_name x) (AN a)); [reflexivity|exact IH].
Qed.
Lemma d_get_rl d a : In d (flat t) -> d_get (f d) a = option_map (redirect_value (ren k2 k1)) (d_get d a).
Proof.
  intros Hd. unfold d_get, get_value. rewrite get_attr_rl. destruct (get_attr (attrs d) a) as [x|] eqn:E; [|reflexivity]. cbn. f_equal. apply get_attr_some in E. apply (relink_val d x Hd (proj1 E)).
Qed.
Lemma d_get_vis_rl d a : In d (flat t) -> d_get (vis (f d)) a = option_map (redirect_value (ren k2 k1)) (d_get (vis d) a).
Proof.
  intros Hd. assert (V : attrs (vis (f d)) = map (relink_attr k2 k1) (attrs (vis d))).
  { cbn. assert (G : forall l, incl l (attrs d) -> filter a_vis (map (relink_attr k2 k1) l) = map (relink_attr k2 k1) (filter a_vis l)); [|apply G, incl_refl].
    induction l as [|x l IH]; intros I; [reflexivity|]. cbn. rewrite (proj2 (relink_val d x Hd (I x (or_introl eq_refl)))). destruct (a_vis x); cbn; rewrite IH; auto; intros y Hy; apply I; now right. }
  unfold d_get, get_value. rewrite V. unfold get_attr.
  assert (G : forall l, incl l (attrs d) -> option_map a_val (find (has_name (AN a)) (map (relink_attr k2 k1) l)) = option_map (redirect_value (ren k2 k1)) (option_map a_val (find (has_name (AN a)) l))).
  { induction l as [|x l IH]; intros I; [reflexivity|]. cbn. unfold has_name at 1 3. rewrite relink_name. destruct (aname_eqb (a_name x) (AN a)); [cbn; f_equal; apply (relink_val d x Hd (I x (or_introl eq_refl)))|]. apply IH. intros y Hy. apply I. now right. }
  specialize (G (attrs (vis d))). assert (I : incl (attrs (vis d)) (attrs d)) by (intros x Hx; cbn in Hx; now apply filter_In in Hx). specialize (G I). destruct (find _ (map _ _)), (find _ (attrs (vis d))); cbn in *; congruence.
Qed.
Lemma redirects_step (kind : ndata -> Prop) : tag n1 = tag (data s2) -> kind (data s2) -> (forall d, In d (flat t) -> kind d -> key d <> k2 -> ~ In (key d) (keys s2)) -> redirects kind (ren k2 k1) t merged.
Proof.
  intros Qt Q2 Qn. split.
  - intros d' Hd'. apply flat_merged in Hd'. destruct Hd' as (d & Hd & Nd & ->). exists d. split; [exact Hd|]. do 3 (split; [reflexivity|]). cbn.
    assert (G : forall l, incl l (attrs d) -> Forall2 (redirected (ren k2 k1)) l (map (relink_attr k2 k1) l)); [|apply G, incl_refl]. induction l as [|x l IH]; intros I; [constructor|]. cbn. constructor; [|apply IH; intros y Hy; apply I; now right].
    split; [apply relink_name|]. split; [apply (relink_val d x Hd (I x (or_introl eq_refl)))|]. intros L. unfold relink_attr. destruct (refers k2 x) eqn:R; [|reflexivity]. apply refers_iff in R. congruence.
  - intros a' d' H. apply ctx_merged in H. destruct H as ([a d] & Hq & _ & E). cbn in E. inversion E; subst. exists a, d. split; [exact Hq|]. split; [reflexivity|]. rewrite map_map. apply map_ext. reflexivity.
  - intros a d H. destruct (in_dec Nat.eq_dec (key d) (keys s2)) as [X|X].
    + right. exists (data s2). assert (Hin : In (data s2) (d :: a)).
      { destruct ctx_split as (pre & post & E1 & _). assert (Hp : In (a, d) (ctx a2 s2)). { rewrite <- (ctx_keys s2 a2) in X. apply in_map_iff in X. destruct X as (p & Kp & Hp). assert (p = (a, d)); [|now subst]. apply (ctx_unique t []); [apply W|rewrite E1; apply in_or_app; right; apply in_or_app; now left|exact H|exact Kp]. }
        assert (G : forall u B p, In p (ctx B u) -> p = (B, data u) \/ exists q, fst p = q ++ data u :: B).
        { clear. induction u as [d ch IH] using tree_ind'. intros B p [<-|H]; [now left|]. right. apply in_flat_map in H. destruct H as (c & Hc & H). rewrite Forall_forall in IH. destruct (IH c Hc (d :: B) p H) as [->|(q & ->)]; [exists []; reflexivity|exists (q ++ [data c]); now rewrite <- app_assoc]. }
        destruct (G s2 a2 _ Hp) as [E|(q & E)]; [inversion E; now left|]. cbn in E. right. rewrite E. apply in_elt. }
      split; [exact Hin|]. split; [exact Q2|]. unfold ren. change (key (data s2)) with k2. rewrite Nat.eqb_refl. apply k12.
    + left. apply keys_merged. split; [apply (in_map key), (ctx_in_flat t [] _ H)|exact X].
  - intros k Hk. apply keys_merged in Hk. unfold ren. destruct (Nat.eqb_spec k k2) as [->|]; [|reflexivity]. exfalso. apply Hk. rewrite keys_kids. now left.
  - intros d Hd Qd. unfold ren. destruct (Nat.eqb_spec (key d) k2) as [E|E].
    + exists (f n1). split; [apply flat_merged; exists n1; auto|]. split; [reflexivity|]. cbn. assert (d = data s2) by (apply (data_unique t); [apply W|exact Hd|apply data_of_sub, (place_sub _ _ _ _ P2)|exact E]). now subst.
    + exists (f d). split; [apply flat_merged; exists d; auto|]. auto.
  - intros k Nq. unfold ren. destruct (Nat.eqb_spec k k2) as [E|E]; [|reflexivity]. exfalso. apply (Nq (data s2)); [apply data_of_sub, (place_sub _ _ _ _ P2)|now symmetry|exact Q2].
Qed.
End step.
