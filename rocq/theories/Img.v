(** Replacing subtrees by lists of subtrees. *)
From Coq Require Import List Bool NArith Arith ZArith String Lia Permutation.
From Verif Require Import Names Num Value Dom DomFacts DomOps SpecText Visit MoveFacts.
Import ListNotations.
Local Open Scope nat_scope.

Section Img.
Variable g : tree -> option (list tree).
Fixpoint img (t : tree) : tree :=
  match t with T d ch => T d (flat_map (fun c => match g c with Some l => l | None => [img c] end) ch) end.
Definition rpl (c : tree) : list tree := match g c with Some l => l | None => [img c] end.
(** The outermost replaced subtrees. *)
Fixpoint reps (t : tree) : list tree :=
  match t with T d ch => flat_map (fun c => match g c with Some _ => [c] | None => reps c end) ch end.

Lemma img_T d ch : img (T d ch) = T d (flat_map rpl ch). Proof. reflexivity. Qed.
Lemma data_img t : data (img t) = data t. Proof. destruct t; reflexivity. Qed.
Lemma kids_img t : kids (img t) = flat_map rpl (kids t). Proof. destruct t; reflexivity. Qed.
Lemma root_img t : root_key (img t) = root_key t. Proof. destruct t; reflexivity. Qed.
Lemma flat_map_one {A} (f : A -> list A) l : (forall x, In x l -> f x = [x]) -> flat_map f l = l.
Proof. induction l as [|x l IH]; intros H; [reflexivity|]. cbn. rewrite H by now left. cbn. f_equal. apply IH. intros y Hy. apply H. now right. Qed.
Lemma img_id t : (forall s, In s (flat_map subs (kids t)) -> g s = None) -> img t = t.
Proof.
  induction t as [d ch IH] using tree_ind'. intros H. rewrite img_T. f_equal. rewrite Forall_forall in IH. apply flat_map_one. intros c Hc. unfold rpl. rewrite H by (cbn; apply in_flat_map; exists c; split; [exact Hc|apply subs_self]). f_equal. apply IH; [exact Hc|].
  intros s Hs. apply H. cbn. apply in_flat_map. exists c. split; [exact Hc|]. now apply in_kids_subs.
Qed.
Lemma rpl_id c : (forall s, In s (subs c) -> g s = None) -> rpl c = [c].
Proof. intros H. unfold rpl. rewrite H by apply subs_self. f_equal. apply img_id. intros s Hs. apply H. now apply in_kids_subs. Qed.
Lemma rpls_id l : (forall s, In s (flat_map subs l) -> g s = None) -> flat_map rpl l = l.
Proof. intros H. apply flat_map_one. intros c Hc. apply rpl_id. intros s Hs. apply H. apply in_flat_map. eauto. Qed.
Lemma reps_spec t r : In r (reps t) -> In r (flat_map subs (kids t)) /\ g r <> None.
Proof.
  induction t as [d ch IH] using tree_ind'. cbn [reps kids]. rewrite Forall_forall in IH. intros H. apply in_flat_map in H. destruct H as (c & Hc & H). destruct (g c) eqn:E.
  - destruct H as [<-|[]]. split; [apply in_flat_map; exists c; split; [exact Hc|apply subs_self]|congruence].
  - destruct (IH c Hc H) as [A B]. split; [|exact B]. apply in_flat_map. exists c. split; [exact Hc|now apply in_kids_subs].
Qed.
(** A subtree that is not inside a replaced one stays at its place. *)
Lemma img_place t s : forall a0 a, In (a, s) (places a0 t) -> (forall r, In r (flat_map subs (kids t)) -> g r <> None -> ~ In (root_key s) (keys r)) -> In (a, img s) (places a0 (img t)).
Proof.
  induction t as [d ch IH] using tree_ind'. intros a0 a H N. destruct H as [H|H]; [inversion H; subst; destruct (img (T d ch)) eqn:E; now left|]. rewrite img_T. right. apply in_flat_map in H. destruct H as (c & Hc & H). apply in_flat_map. exists (img c).
  rewrite Forall_forall in IH. split.
  - apply in_flat_map. exists c. split; [exact Hc|]. unfold rpl. destruct (g c) eqn:E; [|now left]. exfalso. apply (N c); [cbn; apply in_flat_map; exists c; split; [exact Hc|apply subs_self]|congruence|]. exact (place_key s c _ _ H).
  - apply IH; [exact Hc|exact H|]. intros r Hr. apply N. cbn. apply in_flat_map. exists c. split; [exact Hc|]. now apply in_kids_subs.
Qed.
Lemma img_sub t s : In s (subs t) -> (forall r, In r (flat_map subs (kids t)) -> g r <> None -> ~ In (root_key s) (keys r)) -> In (img s) (subs (img t)).
Proof. intros H N. destruct (sub_place s t [] H) as (a & P). apply (place_sub (img s) _ [] a). now apply img_place. Qed.
Lemma img_flat t d : In d (flat t) -> (forall r, In r (flat_map subs (kids t)) -> g r <> None -> ~ In (key d) (keys r)) -> In d (flat (img t)).
Proof.
  intros H N. rewrite <- map_data_subs in H. apply in_map_iff in H. destruct H as (s & <- & Hs). rewrite <- map_data_subs, <- data_img. apply in_map. apply img_sub; [exact Hs|exact N].
Qed.
Lemma reps_complete t r : In r (flat_map subs (kids t)) -> g r <> None -> (forall r', In r' (flat_map subs (kids t)) -> g r' <> None -> In (root_key r) (keys r') -> r' = r) -> In r (reps t).
Proof.
  induction t as [d ch IH] using tree_ind'. cbn [reps kids]. rewrite Forall_forall in IH. intros H G Q. apply in_flat_map in H. destruct H as (c & Hc & H). apply in_flat_map. exists c. split; [exact Hc|]. destruct (g c) eqn:E.
  - left. apply Q; [apply in_flat_map; exists c; split; [exact Hc|apply subs_self]|congruence|]. unfold keys, root_key. apply in_map. now apply data_of_sub.
  - assert (X : In r (flat_map subs (kids c))). { destruct c as [dc cc]. destruct H as [<-|H]; [congruence|exact H]. }
    apply IH; auto. intros r' Hr'. apply Q. apply in_flat_map. exists c. split; [exact Hc|now apply in_kids_subs].
Qed.
(** Replacements are there. *)
Lemma reps_sub t r l x : In r (reps t) -> g r = Some l -> In x l -> forall s, In s (subs x) -> In s (subs (img t)).
Proof.
  induction t as [d ch IH] using tree_ind'. cbn [reps]. rewrite Forall_forall in IH. intros H E Hx s Hs. apply in_flat_map in H. destruct H as (c & Hc & H). rewrite img_T. right. apply in_flat_map. destruct (g c) eqn:G.
  - destruct H as [<-|[]]. exists x. split; [|exact Hs]. apply in_flat_map. exists c. split; [exact Hc|]. unfold rpl. now rewrite E.
  - exists (img c). split; [apply in_flat_map; exists c; split; [exact Hc|]; unfold rpl; rewrite G; now left|]. now apply IH.
Qed.
Lemma reps_place t r l x : forall a0 a, In r (reps t) -> In (a, r) (places a0 t) -> NoDup (keys t) -> g r = Some l -> In x l -> In (a, x) (places a0 (img t)).
Proof.
  induction t as [d ch IH] using tree_ind'. intros a0 a. cbn [reps]. rewrite Forall_forall in IH. intros H P N E Hx. pose proof N as N0. rewrite keys_cons in N. inversion N as [|? ? N1 N2]; subst.
  destruct P as [P|P].
  { exfalso. inversion P; subst. apply in_flat_map in H. destruct H as (c & Hc & H). apply N1. apply in_flat_map. exists c. split; [exact Hc|]. destruct (g c); [destruct H as [->|[]]; unfold keys; apply (in_map key _ d); now left|]. destruct (reps_spec c _ H) as [H' _].
    unfold keys. apply (in_map key _ d). apply in_kids_subs in H'. apply data_of_sub in H'. exact H'. }
  apply in_flat_map in P. destruct P as (c' & Hc' & P). apply in_flat_map in H. destruct H as (c & Hc & H).
  assert (K : In (root_key r) (keys c)). { destruct (g c); [destruct H as [->|[]]; unfold keys, root_key; apply in_map, flat_self|]. destruct (reps_spec c _ H) as [H' _]. apply in_kids_subs in H'. unfold keys, root_key. apply in_map. now apply data_of_sub. }
  assert (c' = c). { pose proof (place_key r c' _ _ P) as K'. apply in_split in Hc. destruct Hc as (l1 & l2 & ->). rewrite flat_map_app in N2. cbn in N2. apply NoDup_app_inv in N2. destruct N2 as (_ & N3 & N4). apply NoDup_app_inv in N3. destruct N3 as (_ & _ & N5). apply in_app_or in Hc'. destruct Hc' as [Hc'|[->|Hc']]; [exfalso; apply (N4 (root_key r)); [apply in_flat_map; eauto|apply in_or_app; now left]|reflexivity|exfalso; apply (N5 (root_key r)); [exact K|apply in_flat_map; eauto]]. }
  subst c'. rewrite img_T. right. apply in_flat_map. destruct (g c) as [l0|] eqn:G.
  - destruct H as [->|[]]. exists x. split; [apply in_flat_map; exists r; split; [exact Hc|]; unfold rpl; now rewrite E|].
    assert (a = d :: a0). { destruct r as [dr cr]. destruct P as [P|P]; [now inversion P|]. exfalso. pose proof (child_NoDup _ _ Hc N2) as N6. rewrite keys_cons in N6. inversion N6 as [|? ? N7 N8]; subst. apply N7. apply in_flat_map in P. destruct P as (q & Hq & P). apply in_flat_map. exists q. split; [exact Hq|]. exact (place_key _ _ _ _ P). }
    subst a. destruct x. now left.
  - exists (img c). split; [apply in_flat_map; exists c; split; [exact Hc|]; unfold rpl; rewrite G; now left|]. apply (IH c Hc); auto. exact (child_NoDup _ _ Hc N2).
Qed.
(** Every subtree of the result. *)
Lemma subs_img t s' : In s' (subs (img t)) -> (exists s, In s (subs t) /\ s' = img s /\ (s = t \/ g s = None)) \/ exists r l x, In r (reps t) /\ g r = Some l /\ In x l /\ In s' (subs x).
Proof.
  induction t as [d ch IH] using tree_ind'. rewrite img_T. rewrite Forall_forall in IH. intros [<-|H]; [left; exists (T d ch); split; [apply subs_self|split; [reflexivity|now left]]|]. apply in_flat_map in H. destruct H as (x & Hx & H). apply in_flat_map in Hx. destruct Hx as (c & Hc & Hx). unfold rpl in Hx. destruct (g c) as [l|] eqn:E.
  - right. exists c, l, x. split; [cbn; apply in_flat_map; exists c; rewrite E; split; [exact Hc|now left]|auto].
  - destruct Hx as [<-|[]]. destruct (IH c Hc H) as [(s & Hs & -> & Q)|(r & l & x & Hr & E1 & Hx & Hs)].
    + left. exists s. split; [right; apply in_flat_map; eauto|split; [reflexivity|]]. right. destruct Q as [->|Q]; auto.
    + right. exists r, l, x. split; [cbn; apply in_flat_map; exists c; rewrite E; auto|auto].
Qed.
Lemma flat_img t d : In d (flat (img t)) -> In d (flat t) \/ exists r l x, In r (reps t) /\ g r = Some l /\ In x l /\ In d (flat x).
Proof.
  rewrite <- map_data_subs. intros H. apply in_map_iff in H. destruct H as (s' & <- & H). apply subs_img in H. destruct H as [(s & Hs & -> & _)|(r & l & x & Hr & E & Hx & Hs)].
  - left. rewrite data_img. now apply data_of_sub.
  - right. exists r, l, x. repeat (split; [assumption|]). now apply data_of_sub.
Qed.
(** Counting. *)
Lemma count_img t k : count_occ Nat.eq_dec (keys (img t)) k + count_occ Nat.eq_dec (flat_map keys (reps t)) k =
  count_occ Nat.eq_dec (keys t) k + count_occ Nat.eq_dec (flat_map (fun r => flat_map keys (match g r with Some l => l | None => [] end)) (reps t)) k.
Proof.
  induction t as [d ch IH] using tree_ind'. rewrite img_T, !keys_cons. cbn [reps].
  assert (X : count_occ Nat.eq_dec (flat_map keys (flat_map rpl ch)) k + count_occ Nat.eq_dec (flat_map keys (flat_map (fun c => match g c with Some _ => [c] | None => reps c end) ch)) k =
    count_occ Nat.eq_dec (flat_map keys ch) k + count_occ Nat.eq_dec (flat_map (fun r => flat_map keys (match g r with Some l => l | None => [] end)) (flat_map (fun c => match g c with Some _ => [c] | None => reps c end) ch)) k).
  { induction ch as [|c ch IHc]; [reflexivity|]. inversion IH as [|? ? H1 H2]; subst. specialize (IHc H2). cbn [flat_map]. rewrite !flat_map_app, !count_occ_app. unfold rpl at 1. destruct (g c) as [l|] eqn:E.
    - cbn [flat_map]. rewrite E, !app_nil_r. lia.
    - cbn [flat_map]. rewrite !app_nil_r. lia. }
  cbn [count_occ]. destruct (Nat.eq_dec (key d) k); lia.
Qed.
End Img.
Lemma img_ext g h t : (forall s, In s (flat_map subs (kids t)) -> g s = h s) -> img g t = img h t.
Proof.
  induction t as [d ch IH] using tree_ind'. intros H. rewrite !img_T. f_equal. rewrite Forall_forall in IH. assert (X : forall c, In c ch -> rpl g c = rpl h c).
  { intros c Hc. unfold rpl. rewrite (H c) by (cbn; apply in_flat_map; exists c; split; [exact Hc|apply subs_self]). destruct (h c); [reflexivity|]. f_equal. apply IH; [exact Hc|]. intros s Hs. apply H. cbn. apply in_flat_map. exists c. split; [exact Hc|now apply in_kids_subs]. }
  clear -X. induction ch as [|c ch IHc]; [reflexivity|]. cbn. rewrite X by now left. f_equal. apply IHc. intros x Hx. apply X. now right.
Qed.

Lemma places_app t : forall anc, places anc t = map (fun p => (fst p ++ anc, snd p)) (places [] t).
Proof.
  induction t as [d ch IH] using tree_ind'. intros anc. cbn [places map fst snd app]. f_equal. rewrite Forall_forall in IH. induction ch as [|c ch IHc]; [reflexivity|]. cbn [flat_map]. rewrite map_app. rewrite IHc by (intros x Hx; apply IH; now right). f_equal.
  rewrite (IH c (or_introl eq_refl) (d :: anc)), (IH c (or_introl eq_refl) [d]), map_map. apply map_ext. intros [a s]. cbn. now rewrite <- app_assoc.
Qed.
Lemma place_base t a0 a s : In (a, s) (places a0 t) <-> exists b, a = b ++ a0 /\ In (b, s) (places [] t).
Proof.
  rewrite (places_app t a0), in_map_iff. split.
  - intros ([b x] & E & H). cbn in E. inversion E; subst. eauto.
  - intros (b & -> & H). exists (b, s). auto.
Qed.
(** What is inside [s] has [s] among its ancestors. *)
Lemma place_inside t a0 a s b x : In (a, s) (places a0 t) -> In (b, x) (places [] s) -> In (b ++ a, x) (places a0 t).
Proof.
  revert a0. induction t as [d ch IH] using tree_ind'. intros a0 H Hx. destruct H as [H|H].
  - inversion H; subst. apply (place_base (T d ch)). eauto.
  - right. apply in_flat_map in H. destruct H as (c & Hc & H). apply in_flat_map. exists c. split; [exact Hc|]. rewrite Forall_forall in IH. now apply IH.
Qed.
Lemma under_place t s x : In s (subs t) -> In x (flat_map subs (kids s)) -> exists a, In (a, x) (places [] t) /\ In (data s) a.
Proof.
  intros Hs Hx. destruct (sub_place s t [] Hs) as (a & P). destruct s as [d ch]. cbn in Hx. apply in_flat_map in Hx. destruct Hx as (c & Hc & Hx). destruct (sub_place x c [d] Hx) as (b & Q). exists (b ++ a). split.
  - apply (place_inside t [] a (T d ch)); [exact P|]. right. apply in_flat_map. eauto.
  - apply place_base in Q. destruct Q as (b' & -> & _). cbn. apply in_or_app. left. apply in_or_app. right. now left.
Qed.
