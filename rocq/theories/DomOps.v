(** Further document operations and their laws: removal of all nodes with a property, replacement of
    a node with its children, stateful maps. *)
From Coq Require Import List Bool NArith Arith String Lia.
From Verif Require Import Names Num Value Dom DomFacts.
Import ListNotations.

(** Pruning by a property of the node data. *)
Definition pruned (p : ndata -> bool) (t : tree) : tree := prune (fun c => p (data c)) t.
(** The keys of all nodes with the property and everything below them. *)
Definition below (p : ndata -> bool) (t : tree) : list nat :=
  flat_map (fun s => if p (data s) then keys s else []) (flat_map subs (kids t)).

(** A pass that carries a state through the nodes in document order. *)
Fixpoint smap {S : Type} (f : S -> ndata -> ndata * S) (s : S) (t : tree) : tree * S :=
  match t with
  | T d ch =>
      let (d', s1) := f s d in
      let fix go (s : S) (l : list tree) : list tree * S :=
        match l with
        | [] => ([], s)
        | c :: l' => let (c', s') := smap f s c in let (r, s'') := go s' l' in (c' :: r, s'')
        end in
      let (ch', s2) := go s1 ch in
      (T d' ch', s2)
  end.
Fixpoint smap_list {S : Type} (f : S -> ndata -> ndata * S) (s : S) (l : list ndata) : list ndata * S :=
  match l with
  | [] => ([], s)
  | d :: l' => let (d', s') := f s d in let (r, s'') := smap_list f s' l' in (d' :: r, s'')
  end.

(** Replace the node [k] with its children (they are moved before it and it is removed). *)
Fixpoint splice (k : nat) (t : tree) : tree :=
  match t with T d ch => T d (flat_map (fun c => if Nat.eqb (root_key c) k then kids c else [splice k c]) ch) end.

(** * Laws *)
Lemma prune_ext p q t : (forall s, In s (flat_map subs (kids t)) -> p s = q s) -> prune p t = prune q t.
Proof.
  induction t as [d ch IH] using tree_ind'. cbn [prune kids]. intros H. f_equal.
  apply flat_map_ext_Forall. rewrite Forall_forall in *. intros c Hc.
  assert (E : p c = q c) by (apply H; apply in_flat_map; exists c; split; [exact Hc|apply subs_self]).
  rewrite E. destruct (q c); [reflexivity|]. f_equal. apply IH; [exact Hc|]. intros s Hs. apply H.
  apply in_flat_map. exists c. split; [exact Hc|]. destruct c. right. exact Hs.
Qed.
Lemma prune_false p t : (forall s, In s (flat_map subs (kids t)) -> p s = false) -> prune p t = t.
Proof.
  induction t as [d ch IH] using tree_ind'. cbn [prune kids]. intros H. f_equal.
  rewrite <- (map_id ch) at 2. induction IH as [|c ch Hc F IH2]; [reflexivity|]. cbn.
  assert (E : p c = false) by (apply H; apply in_or_app; left; apply subs_self).
  rewrite E. cbn. f_equal.
  - apply Hc. intros s Hs. apply H. cbn. apply in_or_app. left. destruct c. right. exact Hs.
  - apply IH2. intros s Hs. apply H. cbn. apply in_or_app. right. exact Hs.
Qed.
Lemma pruned_pruned p q t : pruned p (pruned q t) = pruned (fun d => q d || p d) t.
Proof.
  unfold pruned. induction t as [d ch IH] using tree_ind'. cbn. f_equal.
  induction IH as [|c ch Hc F IH2]; [reflexivity|]. cbn. rewrite flat_map_app, IH2. f_equal.
  destruct (q (data c)); cbn; [reflexivity|]. rewrite data_prune. destruct (p (data c)); cbn; [reflexivity|].
  now rewrite Hc.
Qed.
Lemma pruned_tmap p f t : (forall d, p (f d) = p d) -> pruned p (tmap f t) = tmap f (pruned p t).
Proof.
  intros H. unfold pruned. induction t as [d ch IH] using tree_ind'. cbn. f_equal.
  induction IH as [|c ch Hc F IH2]; [reflexivity|]. cbn. rewrite map_app, IH2. f_equal.
  rewrite data_tmap, H. destruct (p (data c)); cbn; [reflexivity|]. now rewrite Hc.
Qed.
Lemma detach_pruned k t : detach k t = pruned (fun d => Nat.eqb (key d) k) t.
Proof. reflexivity. Qed.

Lemma refers_mem ks a : existsb (fun k => refers k a) ks = true <-> exists k, link_of (a_val a) = Some k /\ In k ks.
Proof.
  rewrite existsb_exists. split.
  - intros (k & Hk & R). apply refers_iff in R. eauto.
  - intros (k & E & Hk). exists k. split; [exact Hk|]. now apply refers_iff.
Qed.
Lemma unlink_data_ext ks ks' d : (forall k, In k (node_links d) -> In k ks <-> In k ks') ->
  unlink_data ks d = unlink_data ks' d.
Proof.
  intros H. unfold unlink_data. f_equal. apply filter_ext_in. intros a Ha. f_equal. apply eq_true_iff_eq.
  rewrite !refers_mem. split; intros (k & E & Hk); exists k; (split; [exact E|]); apply H; try exact Hk; apply node_links_iff; eauto.
Qed.
Lemma unlink_ext ks ks' t : (forall k, In k ks <-> In k ks') -> unlink ks t = unlink ks' t.
Proof. intros H. rewrite !unlink_eq. apply tmap_ext. intros d _. apply unlink_data_ext. intros k _. apply H. Qed.
Lemma unlink_nil t : unlink [] t = t.
Proof.
  rewrite unlink_eq. apply tmap_id. intros d _. unfold unlink_data. destruct d as [k g i l]. unfold with_attrs. cbn. f_equal.
  induction l as [|a l IH]; cbn; congruence.
Qed.
Lemma filter_filter {A} (p q : A -> bool) l : filter p (filter q l) = filter (fun x => q x && p x) l.
Proof. induction l as [|x l IH]; cbn; [reflexivity|]. destruct (q x); cbn; [|exact IH]. destruct (p x); cbn; congruence. Qed.
Lemma unlink_unlink ks ks' t : unlink ks (unlink ks' t) = unlink (ks' ++ ks) t.
Proof.
  rewrite !unlink_eq, tmap_tmap. apply tmap_ext. intros d _. unfold unlink_data, with_attrs. cbn. f_equal.
  rewrite filter_filter. apply filter_ext. intros a. now rewrite existsb_app, negb_orb.
Qed.
Lemma unlink_pruned ks p t : (forall d l, p (with_attrs d l) = p d) -> unlink ks (pruned p t) = pruned p (unlink ks t).
Proof. intros H. rewrite !unlink_eq, pruned_tmap; [reflexivity|]. intros d. apply H. Qed.
Lemma subs_pruned_incl p t : forall s, In s (subs (pruned p t)) -> exists s0, In s0 (subs t) /\ s = pruned p s0.
Proof.
  induction t as [d ch IH] using tree_ind'. intros s [<-|Hs].
  - exists (T d ch). split; [left; reflexivity|reflexivity].
  - fold (prune (fun c => p (data c))) in Hs. apply in_flat_map in Hs. destruct Hs as (c & Hc & Hs).
    apply in_flat_map in Hc. destruct Hc as (c0 & Hc0 & Hc). destruct (p (data c0)); [contradiction|].
    destruct Hc as [<-|[]]. rewrite Forall_forall in IH. destruct (IH c0 Hc0 s Hs) as (s0 & H0 & ->).
    exists s0. split; [|reflexivity]. right. apply in_flat_map. eauto.
Qed.

Lemma subs_trans t s0 x : In s0 (subs t) -> In x (subs s0) -> In x (subs t).
Proof.
  revert s0 x. induction t as [d ch IH] using tree_ind'. intros s0 x [<-|H] Hx; [exact Hx|].
  apply in_flat_map in H. destruct H as (c & Hc & H). right. apply in_flat_map. exists c. split; [exact Hc|].
  rewrite Forall_forall in IH. eapply IH; eauto.
Qed.
Lemma child_NoDup c ch : In c ch -> NoDup (flat_map keys ch) -> NoDup (keys c).
Proof.
  intros Hc N. apply in_split in Hc. destruct Hc as (l1 & l2 & ->).
  rewrite flat_map_app in N. apply NoDup_app_inv in N. destruct N as (_ & N & _). cbn in N.
  apply NoDup_app_inv in N. tauto.
Qed.
Lemma sub_NoDup s t : NoDup (keys t) -> In s (subs t) -> NoDup (keys s).
Proof.
  induction t as [d ch IH] using tree_ind'. intros N [<-|H]; [exact N|].
  rewrite keys_cons in N. inversion N as [|? ? _ N']; subst. apply in_flat_map in H. destruct H as (c & Hc & H).
  rewrite Forall_forall in IH. apply (IH c Hc); [|exact H]. now apply (child_NoDup c ch).
Qed.

(** * drain *)
Lemma tl_keys t : tl (keys t) = flat_map keys (kids t).
Proof. destruct t. now rewrite keys_cons. Qed.
Lemma keys_kids t : keys t = root_key t :: flat_map keys (kids t).
Proof. destruct t. apply keys_cons. Qed.

Lemma root_not_tl t : NoDup (keys t) -> ~ In (root_key t) (tl (keys t)).
Proof. rewrite keys_kids. cbn. intros N. now inversion N. Qed.

Lemma drain_inv (P : tree -> Prop) p t :
  (forall c k, P c -> k <> root_key c -> In k (keys c) -> P (remove k c)) ->
  NoDup (keys t) -> P t -> P (fst (drain p t)).
Proof.
  intros Hs N Ht. unfold drain. pose proof (root_not_tl t N) as R.
  revert R. generalize (tl (keys t)) as l. intros l R.
  assert (G : forall l c n, root_key c = root_key t -> P c -> ~ In (root_key t) l ->
     P (fst (fold_left (drain_step p) l (c, n)))).
  { clear l R. induction l as [|k l IH]; intros c n Hc HP Hl; cbn; [exact HP|]. destruct (find_sub k c) as [s|] eqn:E.
    - destruct (p c s); [|apply IH; auto; intros H; apply Hl; right; exact H].
      apply IH; [now rewrite root_key_remove| |intros H; apply Hl; right; exact H].
      apply Hs; [exact HP| |].
      + intros ->. apply Hl. left. exact Hc.
      + apply find_sub_some in E. destruct E as [E <-]. now apply in_subs_root.
    - apply IH; auto. intros H. apply Hl. right. exact H. }
  apply G; auto.
Qed.
Lemma WF_drain p t : WF t -> WF (fst (drain p t)).
Proof.
  intros H. apply drain_inv; [|apply H|exact H]. intros c k Hc Hk _. now apply WF_remove.
Qed.
Lemma drain_root p t : root_key (fst (drain p t)) = root_key t.
Proof.
  unfold drain. generalize (tl (keys t)) as l.
  assert (G : forall l c n, root_key (fst (fold_left (drain_step p) l (c, n))) = root_key c).
  { induction l as [|k l IH]; intros c n; cbn; [reflexivity|].
    destruct (find_sub k c); [|apply IH]. destruct (p c t0); rewrite IH; [apply root_key_remove|reflexivity]. }
  intros l. apply G.
Qed.

Lemma data_of_sub s t : In s (subs t) -> In (data s) (flat t).
Proof. intros H. apply (in_subs_flat s t H), flat_self. Qed.
Lemma existsb_mem_app k l m : existsb (Nat.eqb k) (l ++ m) = existsb (Nat.eqb k) l || existsb (Nat.eqb k) m.
Proof. apply existsb_app. Qed.
Lemma mem_in k l : existsb (Nat.eqb k) l = true <-> In k l.
Proof.
  rewrite existsb_exists. split; [intros (j & Hj & E); apply Nat.eqb_eq in E; now subst|].
  intros H. exists k. split; [exact H|apply Nat.eqb_refl].
Qed.

Lemma in_kids_subs s t : In s (flat_map subs (kids t)) -> In s (subs t).
Proof. destruct t. intros H. right. exact H. Qed.
Lemma below_in p t j : In j (below p t) <-> cut (fun c => p (data c)) t j.
Proof.
  unfold below, cut. rewrite in_flat_map. split.
  - intros (s & Hs & Hj). exists s. destruct (p (data s)); [auto|contradiction].
  - intros (s & Hs & E & Hj). exists s. rewrite E. auto.
Qed.

(** When the predicate looks at the tag, key and id of a node only, [drain] removes exactly the nodes
    with the property together with what is below them, and the references to all of these. *)
Lemma drain_closed pd t : NoDup (keys t) -> (forall d l, pd (with_attrs d l) = pd d) ->
  fst (drain (fun _ s => pd (data s)) t) = pruned pd (unlink (below pd t) t).
Proof.
  intros N Hp. set (p := fun (_ : tree) s => pd (data s)).
  set (Inv := fun c => exists Ks R, c = pruned (fun d => existsb (Nat.eqb (key d)) Ks) (unlink R t) /\
     (forall k, In k Ks -> exists s, In s (flat_map subs (kids t)) /\ root_key s = k /\ pd (data s) = true) /\
     (forall k, In k R <-> exists s, In s (subs t) /\ In (root_key s) Ks /\ In k (keys s))).
  (* any current document is a restriction of t *)
  assert (SubKeys : forall Ks R k s, ~ In k (@nil nat) ->
     find_sub k (pruned (fun d => existsb (Nat.eqb (key d)) Ks) (unlink R t)) = Some s ->
     exists s0, find_sub k t = Some s0 /\ s = pruned (fun d => existsb (Nat.eqb (key d)) Ks) (unlink R s0)).
  { intros Ks R k s _ E. apply find_sub_some in E. destruct E as [Hs Ek].
    apply subs_pruned_incl in Hs. destruct Hs as (s1 & Hs1 & ->). rewrite unlink_eq, subs_tmap in Hs1.
    apply in_map_iff in Hs1. destruct Hs1 as (s0 & <- & Hs0). exists s0. split; [|reflexivity].
    assert (K : root_key s0 = k).
    { unfold root_key, pruned in *. rewrite data_prune, data_tmap in Ek. exact Ek. }
    rewrite <- K. now apply find_sub_iff. }
  assert (Step : forall c k, Inv c -> k <> root_key t -> forall s, find_sub k c = Some s -> pd (data s) = true -> Inv (remove k c)).
  { intros c k (Ks & R & -> & HK & HR) Hk s E Es. destruct (SubKeys Ks R k s (fun x => x) E) as (s0 & E0 & ->).
    assert (E0' := E0). apply find_sub_some in E0'. destruct E0' as [Hs0 Rs0].
    exists (Ks ++ [k]), (R ++ keys s0). split; [|split].
    - unfold remove. rewrite detach_pruned.
      rewrite unlink_pruned by reflexivity. rewrite unlink_unlink, pruned_pruned.
      assert (U : unlink (R ++ sub_keys k (pruned (fun d => existsb (Nat.eqb (key d)) Ks) (unlink R t))) t = unlink (R ++ keys s0) t).
      { apply unlink_ext. intros j. rewrite !in_app_iff. unfold sub_keys. rewrite E.
        assert (NI : NoDup (keys s0)).
        { now apply (sub_NoDup s0 t). }
        split; intros [H|H]; auto.
        - right. apply (sublist_incl _ _ (keys_prune_sublist _ _)) in H. now rewrite keys_unlink in H.
        - (* either still there or already in R *)
          destruct (in_dec Nat.eq_dec j (keys (pruned (fun d => existsb (Nat.eqb (key d)) Ks) (unlink R s0)))) as [I|I]; [auto|].
          left. unfold pruned in I. rewrite prune_keys in I by (rewrite keys_unlink; exact NI).
          rewrite keys_unlink in I.
          destruct (in_dec Nat.eq_dec j R) as [?|nR]; [assumption|]. exfalso. apply I. split; [exact H|].
          intros (x & Hx & Ex & Hj). apply nR. apply HR.
          rewrite unlink_eq, kids_tmap, flat_map_map in Hx. apply in_flat_map in Hx. destruct Hx as (c & Hc & Hx).
          rewrite subs_tmap in Hx. apply in_map_iff in Hx. destruct Hx as (x0 & <- & Hx0).
          rewrite data_tmap in Ex. apply mem_in in Ex. exists x0. split; [|split].
          + clear -Hs0 Hc Hx0.
            apply (subs_trans t s0 x0 Hs0). apply in_kids_subs. apply in_flat_map. eauto.
          + exact Ex.
          + rewrite keys_tmap in Hj by reflexivity. exact Hj. }
      rewrite U. unfold pruned. apply prune_ext. intros x _. rewrite existsb_app. cbn. now rewrite orb_false_r, (Nat.eqb_sym (key (data x))).
    - intros j Hj. apply in_app_or in Hj. destruct Hj as [Hj|[<-|[]]]; [auto|]. exists s0. split; [|split; [exact Rs0|]].
      + destruct t as [d ch]. destruct Hs0 as [<-|Hs0]; [|exact Hs0]. exfalso. apply Hk. symmetry. exact Rs0.
      + unfold pruned in Es. rewrite data_prune, unlink_eq, data_tmap in Es. unfold unlink_data in Es. now rewrite Hp in Es.
    - intros j. rewrite in_app_iff, HR. split.
      + intros [(s & Hs & HK' & Hj)|Hj]; [exists s; split; [exact Hs|split; [apply in_or_app; auto|exact Hj]]|].
        exists s0. split; [exact Hs0|split; [apply in_or_app; right; left; auto|exact Hj]].
      + intros (s & Hs & HK' & Hj). apply in_app_or in HK'. destruct HK' as [HK'|[HK'|[]]]; [left; eauto|right].
        replace s0 with s; [exact Hj|]. eapply sub_unique; eauto; congruence. }
  (* the whole run *)
  assert (Run : forall l c n, root_key c = root_key t -> NoDup (keys c) -> Inv c -> ~ In (root_key t) l ->
     let c' := fst (fold_left (drain_step p) l (c, n)) in
     Inv c' /\ incl (keys c') (keys c) /\
     (forall s, In s (subs c') -> In (root_key s) l -> pd (data s) = false)).
  { induction l as [|k l IH]; intros c n Hc Nc HI Hl; cbn.
    - split; [exact HI|split; [apply incl_refl|contradiction]].
    - assert (Hl' : ~ In (root_key t) l) by (intros H; apply Hl; right; exact H).
      assert (Hk : k <> root_key t) by (intros ->; apply Hl; left; reflexivity).
      destruct (find_sub k c) as [s|] eqn:E.
      + assert (Ep : p c s = pd (data s)) by reflexivity. rewrite Ep. clear Ep. destruct (pd (data s)) eqn:Es.
        * assert (Nc' : NoDup (keys (remove k c))) by (apply (sublist_NoDup _ _ (remove_keys_sublist k c)); exact Nc).
          destruct (IH (remove k c) (S n)) as (I1 & I2 & I3); auto.
          { now rewrite root_key_remove. } { now apply (Step c k HI Hk s). }
          split; [exact I1|split].
          -- intros j Hj. apply I2 in Hj. now apply (sublist_incl _ _ (remove_keys_sublist k c)).
          -- intros x Hx [Hk'|Hl'']; [|auto]. exfalso.
             pose proof (in_subs_root x _ Hx) as X. rewrite <- Hk' in X. apply I2 in X.
             apply remove_keys in X; [|exact Nc|congruence]. destruct X as [X1 X2]. apply X2. now apply sub_keys_self.
        * destruct (IH c n) as (I1 & I2 & I3); auto. split; [exact I1|split; [exact I2|]].
          intros x Hx [Hk'|Hl'']; [|auto].
          (* x has key k; its data is that of the node of t with key k up to attributes *)
          destruct I1 as (Ks & R & EqC & _). destruct HI as (Ks0 & R0 & EqC0 & _).
          assert (D : forall Ks R s k, In s (subs (pruned (fun d => existsb (Nat.eqb (key d)) Ks) (unlink R t))) -> root_key s = k ->
             exists s0, find_sub k t = Some s0 /\ pd (data s) = pd (data s0)).
          { clear - N Hp. intros Ks R s k Hs Ek. apply subs_pruned_incl in Hs. destruct Hs as (s1 & Hs1 & ->).
            rewrite unlink_eq, subs_tmap in Hs1. apply in_map_iff in Hs1. destruct Hs1 as (s0 & <- & Hs0).
            exists s0. unfold pruned, root_key in *. rewrite data_prune, data_tmap in *. split.
            - rewrite <- Ek. now apply (find_sub_iff t s0).
            - apply Hp. }
          fold p in EqC. rewrite EqC in Hx. destruct (D Ks R x k Hx (eq_sym Hk')) as (s0 & F0 & ->).
          apply find_sub_some in E. destruct E as [E1 E2]. rewrite EqC0 in E1.
          destruct (D Ks0 R0 s k E1 E2) as (s0' & F0' & Es'). congruence.
      + destruct (IH c n) as (I1 & I2 & I3); auto. split; [exact I1|split; [exact I2|]].
        intros x Hx [Hk'|Hl'']; [|auto]. exfalso. apply find_sub_none in E. apply E. apply I2. pose proof (in_subs_root x _ Hx) as X. rewrite <- Hk' in X. exact X. }
  unfold drain. destruct (Run (tl (keys t)) t 0) as (I1 & I2 & I3); auto.
  { exists [], []. split; [|split].
    - rewrite unlink_nil. unfold pruned. symmetry. apply prune_false. reflexivity.
    - contradiction.
    - intros k. split; [contradiction|]. intros (s & _ & [] & _). }
  { now apply root_not_tl. }
  fold p in I1, I2, I3 |- *. set (c' := fst (fold_left (drain_step p) (tl (keys t)) (t, 0))) in *.
  destruct I1 as (Ks & R & EqC & HK & HR).
  set (q := fun d => existsb (Nat.eqb (key d)) Ks) in *.
  assert (Hq : forall d l, q (with_attrs d l) = q d) by reflexivity.
  assert (A : pruned pd (pruned q (unlink R t)) = pruned q (unlink R t)).
  { unfold pruned at 1. apply prune_false. intros s Hs. rewrite <- EqC in Hs. apply I3.
    - now apply in_kids_subs.
    - rewrite tl_keys. rewrite EqC in Hs. 
      assert (In s (subs (pruned q (unlink R t)))) as Hs' by now apply in_kids_subs.
      apply in_forest_root in Hs. 
      assert (B : incl (flat_map keys (kids (pruned q (unlink R t)))) (flat_map keys (kids t))).
      { clear. intros j. pose proof (keys_prune_sublist (fun c => q (data c)) (unlink R t)) as S.
        rewrite keys_unlink in S. fold (pruned q (unlink R t)) in S. rewrite !keys_kids in S.
        replace (root_key (pruned q (unlink R t))) with (root_key t) in S
          by (unfold root_key, pruned; rewrite data_prune, unlink_eq, data_tmap; reflexivity).
        intros Hj. inversion S as [|x l m S' E1 E2|x l m S' E1 E2]; subst.
        - apply (sublist_incl _ _ S'). right. exact Hj.
        - apply (sublist_incl _ _ S'). exact Hj. }
      now apply B. }
  rewrite EqC, <- A, pruned_pruned.
  transitivity (pruned pd (unlink R t)).
  - unfold pruned. apply prune_ext. intros s Hs. destruct (q (data s)) eqn:Q; [|reflexivity]. cbn. symmetry.
    unfold q in Q. apply mem_in in Q. destruct (HK _ Q) as (s0 & Hs0 & K0 & P0).
    rewrite unlink_eq, kids_tmap, flat_map_map in Hs. apply in_flat_map in Hs. destruct Hs as (c & Hc & Hs).
    rewrite subs_tmap in Hs. apply in_map_iff in Hs. destruct Hs as (s1 & <- & Hs1). rewrite data_tmap in *.
    unfold unlink_data. rewrite Hp. replace s1 with s0; [exact P0|]. eapply sub_unique; [exact N| | |].
    + now apply in_kids_subs. + apply in_kids_subs. apply in_flat_map. eauto. + exact K0.
  - f_equal. apply unlink_ext. intros j. rewrite HR, below_in. unfold cut. split.
    + intros (s & Hs & Hr & Hj). destruct (HK _ Hr) as (s' & Hs' & Er & Ep). exists s'. split; [exact Hs'|split; [exact Ep|]].
      replace s' with s; [exact Hj|]. eapply sub_unique; [exact N|exact Hs|now apply in_kids_subs|congruence].
    + intros (s & Hs & Ep & Hj).
      (* s is not in the result, so it is below a removed node *)
      destruct (in_dec Nat.eq_dec (root_key s) (keys c')) as [I|I].
      * exfalso. unfold keys in I. rewrite <- map_data_subs, map_map in I. apply in_map_iff in I. destruct I as (x & Ex & Hx).
        assert (F : pd (data x) = false).
        { apply I3; [exact Hx|]. rewrite tl_keys. change (root_key x) with (key (data x)). rewrite Ex. now apply in_forest_root. }
        rewrite EqC in Hx. apply subs_pruned_incl in Hx. destruct Hx as (s1 & Hs1 & ->).
        rewrite unlink_eq, subs_tmap in Hs1. apply in_map_iff in Hs1. destruct Hs1 as (s0 & <- & Hs0).
        unfold pruned in *. rewrite data_prune, data_tmap in *. unfold unlink_data in F. rewrite Hp in F.
        replace s0 with s in F; [congruence|]. eapply sub_unique; [exact N|now apply in_kids_subs|exact Hs0|symmetry; exact Ex].
      * rewrite EqC in I. unfold pruned in I. rewrite prune_keys in I by (now rewrite keys_unlink).
        rewrite keys_unlink in I.
        destruct (existsb (fun x => q (data x) && existsb (Nat.eqb (root_key s)) (keys x)) (flat_map subs (kids t))) eqn:X.
        -- apply existsb_exists in X. destruct X as (x & Hx & X). apply andb_prop in X. destruct X as [X1 X2].
           apply mem_in in X2. unfold q in X1. apply mem_in in X1. exists x. split; [now apply in_kids_subs|split; [exact X1|]].
           (* s is inside x *)
           assert (exists s', In s' (subs x) /\ root_key s' = root_key s) as (s' & Hs' & Es').
           { unfold keys in X2. rewrite <- map_data_subs, map_map in X2. apply in_map_iff in X2. destruct X2 as (s' & E' & H'). eauto. }
           assert (s' = s) by (eapply sub_unique; [exact N|apply (subs_trans t x s'); [now apply in_kids_subs|exact Hs']|now apply in_kids_subs|exact Es']).
           subst s'. now apply (in_subs_keys s x Hs').
        -- exfalso. apply I. split; [now apply in_subs_root, in_kids_subs|].
           intros (x & Hx & Ex & Hj'). rewrite unlink_eq, kids_tmap, flat_map_map in Hx. apply in_flat_map in Hx.
           destruct Hx as (c & Hc & Hx). rewrite subs_tmap in Hx. apply in_map_iff in Hx. destruct Hx as (x0 & <- & Hx0).
           rewrite data_tmap, keys_tmap in * by reflexivity.
           assert (T : existsb (fun x => q (data x) && existsb (Nat.eqb (root_key s)) (keys x)) (flat_map subs (kids t)) = true); [|congruence].
           apply existsb_exists. exists x0. split; [apply in_flat_map; eauto|]. apply andb_true_intro. split; [exact Ex|now apply mem_in].
Qed.

(** * smap *)
Definition smap_forest {S : Type} (f : S -> ndata -> ndata * S) : S -> list tree -> list tree * S :=
  fix go (s : S) (l : list tree) : list tree * S :=
    match l with
    | [] => ([], s)
    | c :: l' => let (c', s') := smap f s c in let (r, s'') := go s' l' in (c' :: r, s'')
    end.
Lemma smap_T {S} (f : S -> ndata -> ndata * S) s d ch :
  smap f s (T d ch) = (T (fst (f s d)) (fst (smap_forest f (snd (f s d)) ch)), snd (smap_forest f (snd (f s d)) ch)).
Proof.
  cbn. fold (smap_forest f). destruct (f s d) as [d' s1]. cbn. now destruct (smap_forest f s1 ch).
Qed.
Lemma smap_forest_cons {S} (f : S -> ndata -> ndata * S) s c ch :
  smap_forest f s (c :: ch) = (fst (smap f s c) :: fst (smap_forest f (snd (smap f s c)) ch), snd (smap_forest f (snd (smap f s c)) ch)).
Proof. cbn. destruct (smap f s c) as [c' s1]. cbn. now destruct (smap_forest f s1 ch). Qed.
Lemma smap_list_cons {S} (f : S -> ndata -> ndata * S) s d l :
  smap_list f s (d :: l) = (fst (f s d) :: fst (smap_list f (snd (f s d)) l), snd (smap_list f (snd (f s d)) l)).
Proof. cbn. destruct (f s d) as [d' s1]. cbn. now destruct (smap_list f s1 l). Qed.
Lemma smap_list_app {S} (f : S -> ndata -> ndata * S) l m s :
  smap_list f s (l ++ m) = (fst (smap_list f s l) ++ fst (smap_list f (snd (smap_list f s l)) m), snd (smap_list f (snd (smap_list f s l)) m)).
Proof.
  revert s. induction l as [|d l IH]; intros s.
  - cbn. now destruct (smap_list f s m).
  - rewrite <- app_comm_cons, !smap_list_cons, IH. reflexivity.
Qed.
Lemma flat_smap {S} (f : S -> ndata -> ndata * S) t s :
  flat (fst (smap f s t)) = fst (smap_list f s (flat t)) /\ snd (smap f s t) = snd (smap_list f s (flat t)).
Proof.
  revert s. induction t as [d ch IH] using tree_ind'. intros s. rewrite smap_T. cbn [fst snd flat]. rewrite smap_list_cons.
  cbn [fst snd]. generalize (snd (f s d)) as s1. intros s1.
  assert (G : flat_map flat (fst (smap_forest f s1 ch)) = fst (smap_list f s1 (flat_map flat ch)) /\
              snd (smap_forest f s1 ch) = snd (smap_list f s1 (flat_map flat ch))).
  { clear s d. revert s1. induction IH as [|c ch Hc F IH2]; intros s1; [split; reflexivity|].
    rewrite smap_forest_cons. cbn [fst snd flat_map]. rewrite smap_list_app. cbn [fst snd].
    destruct (Hc s1) as [A B]. rewrite A, B. destruct (IH2 (snd (smap_list f s1 (flat c)))) as [C D].
    rewrite C, D. auto. }
  destruct G as [-> ->]. auto.
Qed.
Lemma smap_erase {S} (f : S -> ndata -> ndata * S) e t s : (forall s d, e (fst (f s d)) = e d) ->
  tmap e (fst (smap f s t)) = tmap e t.
Proof.
  intros H. revert s. induction t as [d ch IH] using tree_ind'. intros s. rewrite smap_T. cbn [fst tmap]. rewrite H. f_equal.
  generalize (snd (f s d)) as s1. induction IH as [|c ch Hc F IH2]; intros s1; [reflexivity|].
  rewrite smap_forest_cons. cbn [fst map]. now rewrite Hc, IH2.
Qed.

(** * splice *)
Lemma filter_all {A} (p : A -> bool) l : (forall x, In x l -> p x = true) -> filter p l = l.
Proof.
  induction l as [|x l IH]; cbn; intros H; [reflexivity|]. rewrite H by auto. f_equal. apply IH. auto.
Qed.
Lemma flat_map_filter {A B} (f : A -> list B) p l : filter p (flat_map f l) = flat_map (fun x => filter p (f x)) l.
Proof. induction l as [|x l IH]; cbn; [reflexivity|]. now rewrite filter_app, IH. Qed.
Lemma flat_cons t : flat t = data t :: flat_map flat (kids t).
Proof. destruct t. reflexivity. Qed.
Lemma flat_splice k t : NoDup (keys t) -> k <> root_key t ->
  flat (splice k t) = filter (fun d => negb (Nat.eqb (key d) k)) (flat t).
Proof.
  induction t as [d ch IH] using tree_ind'. intros N Hk. cbn [splice flat filter].
  unfold root_key in Hk. cbn in Hk. destruct (Nat.eqb_spec (key d) k) as [E|_]; [congruence|]. cbn [negb]. f_equal.
  rewrite keys_cons in N. inversion N as [|? ? _ N']; subst. clear N.
  rewrite flat_map_flat_map, flat_map_filter.
  rewrite Forall_forall in IH. apply flat_map_ext_Forall, Forall_forall. intros c Hc.
  pose proof (child_NoDup c ch Hc N') as Nc. destruct (Nat.eqb_spec (root_key c) k) as [E|E].
  - rewrite (flat_cons c). cbn [filter]. change (key (data c)) with (root_key c). rewrite E, Nat.eqb_refl. cbn [negb].
    symmetry. apply filter_all. intros x Hx. apply negb_true_iff, Nat.eqb_neq. intros Ex.
    rewrite keys_kids in Nc. inversion Nc as [|? ? Nr _]; subst. apply Nr. rewrite <- Ex.
    apply in_flat_map in Hx. destruct Hx as (y & Hy & Hx). apply in_flat_map. exists y. split; [exact Hy|].
    unfold keys. now apply in_map.
  - cbn [flat_map]. rewrite app_nil_r. apply IH; auto.
Qed.
Lemma data_splice k t : data (splice k t) = data t.
Proof. destruct t. reflexivity. Qed.
Lemma keys_splice k t : NoDup (keys t) -> k <> root_key t -> keys (splice k t) = filter (fun j => negb (Nat.eqb j k)) (keys t).
Proof.
  intros N Hk. unfold keys. rewrite flat_splice by assumption. induction (flat t) as [|d l IH]; cbn; [reflexivity|].
  destruct (negb (Nat.eqb (key d) k)); cbn; congruence.
Qed.
