(** Removing a list of nodes, and passes that look at a node together with its children. *)
From Coq Require Import List Bool NArith Arith String Lia.
From Verif Require Import Names Num Value Dom DomFacts DomOps Outcome.
Import ListNotations.

(** src/task/utils.rs:90-95 [remove_nodes]: a node that is already gone has nothing left to remove. *)
Definition remove_nodes (ks : list nat) (t : tree) : tree := fold_left (fun t k => remove k t) ks t.

Definition mem_key (ks : list nat) (d : ndata) : bool := existsb (Nat.eqb (key d)) ks.

(** A pass that visits the nodes in document order; the visit of a node may change the node and its
    children (each child is visited later). [d] is the current data of the root of [t]. *)
Fixpoint kmap (f : ndata -> list ndata -> result (ndata * list ndata)) (d : ndata) (t : tree) : result tree :=
  match t with
  | T _ ch =>
      bind (f d (map data ch)) (fun r =>
      bind ((fix go (ds : list ndata) (l : list tree) {struct l} : result (list tree) :=
               match ds, l with
               | d' :: ds', c :: l' => bind (kmap f d' c) (fun c' => bind (go ds' l') (fun r' => Ok (c' :: r')))
               | _, _ => Ok []
               end) (snd r) ch) (fun ch' => Ok (T (fst r) ch')))
  end.
Definition kpass (f : ndata -> list ndata -> result (ndata * list ndata)) (t : tree) : result tree := kmap f (data t) t.

(** * Laws of remove_nodes *)
Lemma find_sub_pruned Ks R t k : NoDup (keys t) ->
  find_sub k (pruned (mem_key Ks) (unlink R t)) =
  match find_sub k t with
  | Some s => if existsb (Nat.eqb k) (keys (pruned (mem_key Ks) (unlink R t))) then Some (pruned (mem_key Ks) (unlink R s)) else None
  | None => None
  end.
Proof.
  intros N. destruct (find_sub k (pruned (mem_key Ks) (unlink R t))) as [s|] eqn:E.
  - apply find_sub_some in E. destruct E as [Hs Ek].
    assert (Hk : In k (keys (pruned (mem_key Ks) (unlink R t)))) by (rewrite <- Ek; now apply in_subs_root).
    apply subs_pruned_incl in Hs. destruct Hs as (s1 & Hs1 & ->). rewrite unlink_eq, subs_tmap in Hs1.
    apply in_map_iff in Hs1. destruct Hs1 as (s0 & <- & Hs0).
    assert (K : root_key s0 = k).
    { unfold root_key, pruned in *. rewrite data_prune, data_tmap in Ek. exact Ek. }
    rewrite <- K, (find_sub_iff t s0 N Hs0). rewrite K. apply mem_in in Hk. now rewrite Hk.
  - apply find_sub_none in E. destruct (find_sub k t); [|reflexivity].
    destruct (existsb (Nat.eqb k) (keys (pruned (mem_key Ks) (unlink R t)))) eqn:X; [|reflexivity]. apply mem_in in X. contradiction.
Qed.
Lemma pruned_nil t : pruned (mem_key []) t = t.
Proof. unfold pruned. apply prune_false. reflexivity. Qed.

Lemma below_tmap p f t : (forall d, key (f d) = key d) -> (forall d, p (f d) = p d) -> below p (tmap f t) = below p t.
Proof.
  intros Hk Hp. unfold below. rewrite kids_tmap, flat_map_map.
  assert (E : flat_map (fun x => subs (tmap f x)) (kids t) = map (tmap f) (flat_map subs (kids t))).
  { rewrite map_flat_map. apply flat_map_ext. intros a. apply subs_tmap. }
  rewrite E, flat_map_map. apply flat_map_ext. intros a. rewrite data_tmap, Hp, keys_tmap by exact Hk. reflexivity.
Qed.
Lemma in_subs_kids t s : In s (subs t) -> s = t \/ In s (flat_map subs (kids t)).
Proof. destruct t. intros [H|H]; auto. Qed.
Lemma key_sub j x : In j (keys x) -> exists s, In s (subs x) /\ root_key s = j.
Proof. unfold keys. rewrite <- map_data_subs, map_map. intros H. apply in_map_iff in H. destruct H as (s & E & H). eauto. Qed.

Lemma remove_step Ks t k : NoDup (keys t) -> k <> root_key t ->
  remove k (pruned (mem_key Ks) (unlink (below (mem_key Ks) t) t)) =
  pruned (mem_key (Ks ++ [k])) (unlink (below (mem_key (Ks ++ [k])) t) t).
Proof.
  intros N Hk. set (R := below (mem_key Ks) t). unfold remove. rewrite detach_pruned.
  rewrite unlink_pruned by reflexivity. rewrite unlink_unlink, pruned_pruned.
  assert (P : forall c, pruned (fun d => mem_key Ks d || Nat.eqb (key d) k) c = pruned (mem_key (Ks ++ [k])) c).
  { intros c. unfold pruned. apply prune_ext. intros s _. unfold mem_key. rewrite existsb_app. cbn. now rewrite orb_false_r. }
  rewrite P. f_equal. apply unlink_ext. intros j. rewrite in_app_iff.
  assert (B : forall Ks j, In j (below (mem_key Ks) t) <-> exists s, In s (flat_map subs (kids t)) /\ In (root_key s) Ks /\ In j (keys s)).
  { intros K i. rewrite below_in. unfold cut, mem_key. split; intros (s & H1 & H2 & H3); exists s; repeat split; auto; now apply mem_in. }
  unfold R at 1. rewrite !B. unfold sub_keys. rewrite find_sub_pruned by exact N.
  destruct (find_sub k t) as [s0|] eqn:F.
  - apply find_sub_some in F. destruct F as [Hs0 E0].
    assert (Hs0' : In s0 (flat_map subs (kids t))).
    { destruct (in_subs_kids t s0 Hs0) as [->|?]; [congruence|assumption]. }
    split.
    + intros [(s & H1 & H2 & H3)|H].
      * exists s. repeat split; auto. apply in_or_app. auto.
      * destruct (existsb (Nat.eqb k) _) in H; [|contradiction]. exists s0. split; [exact Hs0'|]. split; [apply in_or_app; right; left; auto|].
        apply (sublist_incl _ _ (keys_prune_sublist _ _)) in H. now rewrite keys_unlink in H.
    + intros (s & H1 & H2 & H3). apply in_app_or in H2. destruct H2 as [H2|[H2|[]]]; [left; eauto|].
      assert (s = s0) by (apply (sub_unique t); auto; [now apply in_kids_subs|congruence]). subst s.
      destruct (in_dec Nat.eq_dec j R) as [I|I]; [left; now apply B|]. right.
      assert (NR : ~ In k R).
      { intros HR. apply I. apply B. apply B in HR. destruct HR as (x & X1 & X2 & X3). exists x. repeat split; auto.
        destruct (key_sub _ _ X3) as (s' & Hs' & Es'). assert (s' = s0).
        { apply (sub_unique t); auto; [|congruence]. apply (subs_trans t x); [now apply in_kids_subs|exact Hs']. }
        subst s'. now apply (in_subs_keys s0 x). }
      assert (Hkk : In k (keys (pruned (mem_key Ks) (unlink R t)))).
      { unfold pruned. apply prune_keys; [now rewrite keys_unlink|]. rewrite keys_unlink. split; [rewrite <- E0; now apply in_subs_root|].
        rewrite <- (below_in (mem_key Ks)). rewrite unlink_eq, below_tmap by reflexivity. exact NR. }
      apply mem_in in Hkk. rewrite Hkk. unfold pruned. apply prune_keys; [rewrite keys_unlink; now apply (sub_NoDup s0 t)|].
      rewrite keys_unlink. split; [exact H3|]. rewrite <- (below_in (mem_key Ks)), unlink_eq, below_tmap by reflexivity.
      intros X. apply I. apply B. apply below_in in X. destruct X as (x & X1 & X2 & X3). exists x.
      assert (Hx : In x (flat_map subs (kids t))).
      { assert (Hx' : In x (subs t)) by (apply (subs_trans t s0); [exact Hs0|now apply in_kids_subs]).
        destruct (in_subs_kids t x Hx') as [->|?]; [|assumption]. exfalso. apply in_forest_root in X1.
        assert (Nt : In (root_key t) (keys s0)) by (rewrite keys_kids; right; exact X1).
        rewrite keys_kids in N. inversion N as [|? ? Nr _]; subst. apply Nr. now apply (in_forest_keys s0 _ Hs0'). }
      split; [exact Hx|]. split; [|exact X3]. unfold mem_key in X2. now apply mem_in in X2.
  - split.
    + intros [(s & H1 & H2 & H3)|[]]. exists s. repeat split; auto. apply in_or_app. auto.
    + intros (s & H1 & H2 & H3). apply in_app_or in H2. destruct H2 as [H2|[H2|[]]]; [left; eauto|].
      exfalso. apply find_sub_none in F. apply F. rewrite H2. now apply in_subs_root, in_kids_subs.
Qed.

Theorem remove_nodes_closed ks t : NoDup (keys t) -> ~ In (root_key t) ks ->
  remove_nodes ks t = pruned (mem_key ks) (unlink (below (mem_key ks) t) t).
Proof.
  intros N Hr. unfold remove_nodes.
  assert (G : forall l Ks, ~ In (root_key t) l ->
     fold_left (fun t k => remove k t) l (pruned (mem_key Ks) (unlink (below (mem_key Ks) t) t)) =
     pruned (mem_key (Ks ++ l)) (unlink (below (mem_key (Ks ++ l)) t) t)).
  { induction l as [|k l IH]; intros Ks Hl; cbn; [now rewrite app_nil_r|].
    rewrite remove_step; [|exact N|intros ->; apply Hl; left; reflexivity].
    rewrite IH by (intros X; apply Hl; right; exact X). now rewrite <- app_assoc. }
  specialize (G ks [] Hr). rewrite pruned_nil in G. cbn in G.
  replace (below (mem_key []) t) with (@nil nat) in G; [now rewrite unlink_nil in G|].
  symmetry. destruct (below (mem_key []) t) as [|j l] eqn:E; [reflexivity|]. exfalso.
  assert (In j (below (mem_key []) t)) by (rewrite E; left; reflexivity). apply below_in in H. destruct H as (s & _ & X & _). discriminate.
Qed.
Lemma WF_remove_nodes ks t : WF t -> ~ In (root_key t) ks -> WF (remove_nodes ks t).
Proof.
  unfold remove_nodes. revert t. induction ks as [|k ks IH]; intros t W H; cbn; [exact W|].
  apply IH; [|rewrite root_key_remove; intros X; apply H; right; exact X]. apply WF_remove; [exact W|].
  intros ->. apply H. left. reflexivity.
Qed.
(** The nodes that stay: those outside the removed subtrees, with the same data but for references
    into the removed subtrees. *)
Lemma subs_pruned_iff p t s : In s (subs (pruned p t)) -> In s (map (pruned p) (filter (fun c => true) (subs t))).
Proof. intros H. apply subs_pruned_incl in H. destruct H as (s0 & H & ->). apply in_map. apply filter_In. auto. Qed.
Lemma subs_pruned_keep p t s : In s (subs t) -> (forall a, In a (flat_map subs (kids t)) -> p (data a) = true -> ~ In s (subs a)) ->
  In (pruned p s) (subs (pruned p t)).
Proof.
  revert s. induction t as [d ch IH] using tree_ind'. intros s Hs Ha. destruct Hs as [<-|Hs]; [apply subs_self|].
  apply in_flat_map in Hs. destruct Hs as (c & Hc & Hs). rewrite Forall_forall in IH. unfold pruned at 2. cbn. right.
  apply in_flat_map. exists (pruned p c). split.
  - apply in_flat_map. exists c. split; [exact Hc|]. destruct (p (data c)) eqn:E; [|left; reflexivity]. exfalso.
    apply (Ha c); auto. cbn. apply in_flat_map. exists c. split; [exact Hc|apply subs_self].
  - apply IH; [exact Hc|exact Hs|]. intros a Hin E. apply Ha; [|exact E]. cbn. apply in_flat_map. exists c. split; [exact Hc|].
    now apply in_kids_subs.
Qed.
Lemma kids_pruned p t : kids (pruned p t) = map (pruned p) (filter (fun c => negb (p (data c))) (kids t)).
Proof.
  destruct t as [d ch]. unfold pruned. cbn. induction ch as [|c ch IH]; [reflexivity|]. cbn.
  destruct (p (data c)); cbn; [exact IH|]. now rewrite IH.
Qed.
Lemma data_pruned p t : data (pruned p t) = data t.
Proof. apply data_prune. Qed.

(** * Laws of kmap *)
Definition kforest (f : ndata -> list ndata -> result (ndata * list ndata)) : list ndata -> list tree -> result (list tree) :=
  fix go (ds : list ndata) (l : list tree) {struct l} : result (list tree) :=
    match ds, l with
    | d' :: ds', c :: l' => bind (kmap f d' c) (fun c' => bind (go ds' l') (fun r' => Ok (c' :: r')))
    | _, _ => Ok []
    end.
Lemma kmap_T f d d0 ch : kmap f d (T d0 ch) =
  bind (f d (map data ch)) (fun r => bind (kforest f (snd r) ch) (fun ch' => Ok (T (fst r) ch'))).
Proof. reflexivity. Qed.
Lemma bind_ok {A B} (x : result A) (f : A -> result B) b : bind x f = Ok b -> exists a, x = Ok a /\ f a = Ok b.
Proof. destruct x; cbn; intros H; try discriminate. eauto. Qed.
Lemma bind_err {A B} (x : result A) (f : A -> result B) e : bind x f = Err e -> x = Err e \/ exists a, x = Ok a /\ f a = Err e.
Proof. destruct x; cbn; intros H; try discriminate; eauto. left. congruence. Qed.
Lemma bind_panic {A B} (x : result A) (f : A -> result B) : bind x f = Panic -> x = Panic \/ exists a, x = Ok a /\ f a = Panic.
Proof. destruct x; cbn; intros H; try discriminate; eauto. Qed.
(** Visits keep the number of children. *)
Definition keeps_length (f : ndata -> list ndata -> result (ndata * list ndata)) : Prop :=
  forall d l d' l', f d l = Ok (d', l') -> List.length l' = List.length l.
Lemma kforest_forall f ds ch r : List.length ds = List.length ch -> kforest f ds ch = Ok r ->
  Forall2 (fun p c' => kmap f (fst p) (snd p) = Ok c') (combine ds ch) r.
Proof.
  revert ds r. induction ch as [|c ch IH]; intros [|d ds] r L H; cbn in *; try discriminate.
  - injection H as <-. constructor.
  - apply bind_ok in H. destruct H as (c' & H1 & H). apply bind_ok in H. destruct H as (r' & H2 & H).
    injection H as <-. constructor; [exact H1|]. apply IH; [lia|exact H2].
Qed.

Section Kmap.
Variable f : ndata -> list ndata -> result (ndata * list ndata).
Variable Q : ndata -> ndata -> Prop.
Hypothesis Len : keeps_length f.
Hypothesis HQ : forall d l d' l', f d l = Ok (d', l') -> Forall2 Q l l'.

Lemma kmap_subs : forall t d t', Q (data t) d -> kmap f d t = Ok t' ->
  data t' = match f d (map data (kids t)) with Ok r => fst r | _ => d end /\
  Forall2 (fun s s' => exists d0 ks, Q (data s) d0 /\ f d0 (map data (kids s)) = Ok (data s', ks) /\
     Forall2 (fun k k' => exists l l', f k l = Ok (k', l')) ks (map data (kids s'))) (subs t) (subs t').
Proof.
  induction t as [d0 ch IH] using tree_ind'. intros d t' Hd H. rewrite kmap_T in H. cbn [data kids] in *.
  apply bind_ok in H. destruct H as ((d', ks) & Hf & H). apply bind_ok in H. destruct H as (ch' & Hc & H).
  injection H as <-. cbn [fst snd] in *. rewrite Hf. cbn. split; [reflexivity|].
  pose proof (Len _ _ _ _ Hf) as L. rewrite map_length in L.
  pose proof (HQ _ _ _ _ Hf) as QK.
  apply kforest_forall in Hc; [|exact L].
  assert (G : Forall2 (fun k k' => exists l l', f k l = Ok (k', l')) ks (map data ch') /\
    Forall2 (fun s s' => exists d0 ks, Q (data s) d0 /\ f d0 (map data (kids s)) = Ok (data s', ks) /\
     Forall2 (fun k k' => exists l l', f k l = Ok (k', l')) ks (map data (kids s'))) (flat_map subs ch) (flat_map subs ch')).
  { clear Hf Hd. revert ks ch' L QK Hc. induction IH as [|c ch Hc' F IH2]; intros [|k ks] ch' L QK Hc; cbn in *; try discriminate.
    - inversion Hc. subst. cbn. split; constructor.
    - inversion Hc as [|? c' ? r' Hk Hr]; subst. cbn in Hk. inversion QK as [|? ? ? ? QK1 QK2]; subst.
      destruct (Hc' k c' QK1 Hk) as [D S]. destruct (IH2 ks r' ltac:(lia) QK2 Hr) as [G1 G2]. cbn. split.
      + constructor; [|exact G1]. destruct c as [dc chc]. rewrite kmap_T in Hk. apply bind_ok in Hk. destruct Hk as ((x, y) & Hk & _).
        cbn [kids] in D. rewrite Hk in D. cbn in D. rewrite D. eauto.
      + apply Forall2_app; assumption. }
  destruct G as [G1 G2]. constructor; [|exact G2]. exists d, ks. auto.
Qed.
Lemma kmap_fail : forall t d, Q (data t) d ->
  (forall e, kmap f d t = Err e -> exists s d0, In s (subs t) /\ Q (data s) d0 /\ f d0 (map data (kids s)) = Err e) /\
  (kmap f d t = Panic -> exists s d0, In s (subs t) /\ Q (data s) d0 /\ f d0 (map data (kids s)) = Panic).
Proof.
  induction t as [d0 ch IH] using tree_ind'. intros d Hd. rewrite kmap_T. cbn [data kids] in *.
  assert (G : forall ks, List.length ks = List.length ch -> Forall2 Q (map data ch) ks ->
    (forall e, kforest f ks ch = Err e -> exists s d0, In s (flat_map subs ch) /\ Q (data s) d0 /\ f d0 (map data (kids s)) = Err e) /\
    (kforest f ks ch = Panic -> exists s d0, In s (flat_map subs ch) /\ Q (data s) d0 /\ f d0 (map data (kids s)) = Panic)).
  { clear Hd d0. induction IH as [|c ch Hc F IH2]; intros [|k ks] L QK; cbn in *; try discriminate.
    - split; [intros e|]; intros H; discriminate.
    - inversion QK as [|? ? ? ? QK1 QK2]; subst. destruct (Hc k QK1) as [C1 C2]. destruct (IH2 ks ltac:(lia) QK2) as [I1 I2]. split.
      + intros e H. apply bind_err in H. destruct H as [H|(c' & Hk & H)].
        * destruct (C1 e H) as (s & x & Hs & R). exists s, x. split; [apply in_or_app; auto|exact R].
        * apply bind_err in H. destruct H as [H|(r & _ & H)]; [|discriminate].
          destruct (I1 e H) as (s & x & Hs & R). exists s, x. split; [apply in_or_app; auto|exact R].
      + intros H. apply bind_panic in H. destruct H as [H|(c' & Hk & H)].
        * destruct (C2 H) as (s & x & Hs & R). exists s, x. split; [apply in_or_app; auto|exact R].
        * apply bind_panic in H. destruct H as [H|(r & _ & H)]; [|discriminate].
          destruct (I2 H) as (s & x & Hs & R). exists s, x. split; [apply in_or_app; auto|exact R]. }
  split.
  - intros e H. apply bind_err in H. destruct H as [H|((d', ks) & Hf & H)].
    + exists (T d0 ch), d. split; [apply subs_self|]. auto.
    + apply bind_err in H. destruct H as [H|(r & _ & H)]; [|discriminate]. cbn in H.
      destruct (G ks) as [G1 _]; [apply Len in Hf; now rewrite map_length in Hf|now apply (HQ _ _ _ _ Hf)|].
      destruct (G1 e H) as (s & x & Hs & R). exists s, x. split; [right; exact Hs|exact R].
  - intros H. apply bind_panic in H. destruct H as [H|((d', ks) & Hf & H)].
    + exists (T d0 ch), d. split; [apply subs_self|]. auto.
    + apply bind_panic in H. destruct H as [H|(r & _ & H)]; [|discriminate]. cbn in H.
      destruct (G ks) as [_ G2]; [apply Len in Hf; now rewrite map_length in Hf|now apply (HQ _ _ _ _ Hf)|].
      destruct (G2 H) as (s & x & Hs & R). exists s, x. split; [right; exact Hs|exact R].
Qed.
End Kmap.
Lemma kmap_erase f (e : ndata -> ndata) t : keeps_length f ->
  (forall d l d' l', f d l = Ok (d', l') -> e d' = e d /\ map e l' = map e l) ->
  forall d t', e d = e (data t) -> kmap f d t = Ok t' -> tmap e t' = tmap e t.
Proof.
  intros Len He. induction t as [d0 ch IH] using tree_ind'. intros d t' Hd H. rewrite kmap_T in H. cbn [data] in *.
  apply bind_ok in H. destruct H as ((d', ks) & Hf & H). apply bind_ok in H. destruct H as (ch' & Hc & H).
  injection H as <-. cbn [fst snd] in *. destruct (He _ _ _ _ Hf) as [E1 E2]. cbn. f_equal; [congruence|].
  pose proof (Len _ _ _ _ Hf) as L. rewrite map_length in L. apply kforest_forall in Hc; [|exact L]. clear Hf E1.
  revert ks ch' L E2 Hc. induction IH as [|c ch Hc' F IH2]; intros [|k ks] ch' L E2 Hc; cbn in *; try discriminate.
  - now inversion Hc.
  - inversion Hc as [|? c' ? r' Hk Hr]; subst. cbn in *. injection E2 as E2 E3. f_equal; [now apply (Hc' k)|].
    apply (IH2 ks r'); auto.
Qed.

Lemma kmap_noop f t : (forall s, In s (subs t) -> f (data s) (map data (kids s)) = Ok (data s, map data (kids s))) -> kpass f t = Ok t.
Proof.
  unfold kpass. induction t as [d ch IH] using tree_ind'. intros H. rewrite kmap_T. cbn [data].
  pose proof (H (T d ch) (or_introl eq_refl)) as H0. cbn [data kids] in H0. rewrite H0. cbn [bind fst snd].
  assert (G : kforest f (map data ch) ch = Ok ch).
  { assert (H' : forall s, In s (flat_map subs ch) -> f (data s) (map data (kids s)) = Ok (data s, map data (kids s))) by (intros s Hs; apply H; right; exact Hs).
    clear H H0. induction IH as [|c ch Hc F IH2]; [reflexivity|]. cbn [map kforest].
    assert (E1 : kmap f (data c) c = Ok c) by (apply Hc; intros s Hs; apply H'; cbn; apply in_or_app; auto).
    assert (E2 : kforest f (map data ch) ch = Ok ch) by (apply IH2; intros s Hs; apply H'; cbn; apply in_or_app; auto).
    rewrite E1. cbn [bind]. change (bind (kforest f (map data ch) ch) (fun r' => Ok (c :: r')) = Ok (c :: ch)). rewrite E2. reflexivity. }
  now rewrite G.
Qed.
Lemma Forall2_in_l {A B} (P : A -> B -> Prop) l m x : Forall2 P l m -> In x l -> exists y, In y m /\ P x y.
Proof. intros F H. induction F as [|a b l m H1 F IH]; [contradiction|]. destruct H as [<-|H]; [exists b; cbn; auto|]. destruct (IH H) as (y & Hy & Py). exists y. cbn. auto. Qed.
Lemma Forall2_in_r {A B} (P : A -> B -> Prop) l m y : Forall2 P l m -> In y m -> exists x, In x l /\ P x y.
Proof. intros F H. induction F as [|a b l m H1 F IH]; [contradiction|]. destruct H as [<-|H]; [exists a; cbn; auto|]. destruct (IH H) as (x & Hx & Py). exists x. cbn. auto. Qed.

Lemma kid_sub s c t : In s (subs t) -> In c (kids s) -> In c (flat_map subs (kids t)).
Proof.
  intros Hs Hc. assert (X : In c (flat_map subs (kids s))) by (apply in_flat_map; exists c; split; [exact Hc|apply subs_self]).
  destruct t as [d ch]. destruct Hs as [<-|Hs]; [exact X|]. cbn. apply in_flat_map in Hs. destruct Hs as (x & Hx & Hs).
  apply in_flat_map. exists x. split; [exact Hx|]. apply (subs_trans x s); [exact Hs|now apply in_kids_subs].
Qed.
Lemma root_not_kid t s c : NoDup (keys t) -> In s (subs t) -> In c (kids s) -> root_key c <> root_key t.
Proof.
  intros N Hs Hc E. pose proof (kid_sub s c t Hs Hc) as X. apply in_forest_root in X. rewrite keys_kids in N. inversion N; subst. congruence.
Qed.
(** Two nodes with a common child are the same node. *)
Lemma kid_parent t : NoDup (keys t) -> forall s1 s2 c1 c2, In s1 (subs t) -> In s2 (subs t) -> In c1 (kids s1) -> In c2 (kids s2) -> root_key c1 = root_key c2 -> s1 = s2.
Proof.
  induction t as [d ch IH] using tree_ind'. intros N s1 s2 c1 c2 H1 H2 K1 K2 E. rewrite Forall_forall in IH.
  assert (Nc : NoDup (flat_map keys ch)) by (rewrite keys_cons in N; now inversion N).
  assert (Top : forall s c c', In s (flat_map subs ch) -> In c (kids s) -> In c' ch -> root_key c = root_key c' -> False).
  { intros s c c' Hs Hc Hc' Ek. apply in_flat_map in Hs. destruct Hs as (x & Hx & Hs).
    assert (X : x = c').
    { assert (Kx : In (root_key c) (keys x)) by (apply in_subs_root, (subs_trans x s); [exact Hs|]; apply in_kids_subs, in_flat_map; exists c; split; [exact Hc|apply subs_self]).
      clear - Nc Hx Hc' Kx Ek. induction ch as [|y ch IHc]; [contradiction|]. cbn in Nc. apply NoDup_app_inv in Nc. destruct Nc as (N1 & N2 & N3).
      destruct Hx as [->|Hx], Hc' as [->|Hc']; auto.
      - exfalso. apply (N3 (root_key c)); [exact Kx|]. rewrite Ek. apply in_flat_map. exists c'. split; [exact Hc'|apply root_in_keys].
      - exfalso. apply (N3 (root_key c)); [rewrite Ek; apply root_in_keys|]. apply in_flat_map. eauto. }
    subst x. apply (root_not_kid c' s c); auto. now apply (child_NoDup c' ch). }
  destruct H1 as [<-|H1], H2 as [<-|H2]; auto.
  - exfalso. now apply (Top s2 c2 c1).
  - exfalso. now apply (Top s1 c1 c2).
  - apply in_flat_map in H1, H2. destruct H1 as (x1 & X1 & H1), H2 as (x2 & X2 & H2).
    assert (X : x1 = x2).
    { assert (Kx1 : In (root_key c1) (keys x1)) by (apply in_subs_root, (subs_trans x1 s1); [exact H1|]; apply in_kids_subs, in_flat_map; exists c1; split; [exact K1|apply subs_self]).
      assert (Kx2 : In (root_key c1) (keys x2)) by (rewrite E; apply in_subs_root, (subs_trans x2 s2); [exact H2|]; apply in_kids_subs, in_flat_map; exists c2; split; [exact K2|apply subs_self]).
      clear - Nc X1 X2 Kx1 Kx2. induction ch as [|y ch IHc]; [contradiction|]. cbn in Nc. apply NoDup_app_inv in Nc. destruct Nc as (N1 & N2 & N3).
      destruct X1 as [->|X1], X2 as [->|X2]; auto; exfalso.
      - apply (N3 (root_key c1)); [exact Kx1|]. apply in_flat_map. eauto.
      - apply (N3 (root_key c1)); [exact Kx2|]. apply in_flat_map. eauto. }
    subst x2. apply (IH x1 X1) with (c1 := c1) (c2 := c2); auto. now apply (child_NoDup x1 ch).
Qed.
Lemma unlink_get ks d a : attrs_nodup d -> get_attr (attrs (unlink_data ks d)) a =
  match get_attr (attrs d) a with Some x => if existsb (fun k => refers k x) ks then None else Some x | None => None end.
Proof.
  unfold attrs_nodup, unlink_data. cbn [attrs with_attrs]. intros N. destruct (get_attr (attrs d) a) as [x|] eqn:E.
  - apply get_attr_some in E. destruct E as [E1 E2]. destruct (existsb _ ks) eqn:X.
    + apply get_attr_none. intros y Hy Ny. apply filter_In in Hy. destruct Hy as [Hy1 Hy2].
      assert (y = x).
      { clear - N E1 Hy1 E2 Ny. induction (attrs d) as [|z l IH]; [contradiction|]. inversion N as [|? ? Nz N']; subst.
        destruct E1 as [->|E1], Hy1 as [->|Hy1]; auto; exfalso; apply Nz; rewrite ?E2, ?Ny; [rewrite <- Ny|rewrite <- E2]; now apply in_map. }
      subst y. rewrite X in Hy2. discriminate.
    + apply get_attr_in; [now apply filter_nodup| |exact E2]. apply filter_In. split; [exact E1|]. now rewrite X.
  - apply get_attr_none. intros y Hy. apply filter_In in Hy. apply (proj1 (get_attr_none _ _) E). tauto.
Qed.
