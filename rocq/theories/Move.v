(** Replacing the children of one node. *)
From Coq Require Import List Bool NArith Arith String Lia.
From Verif Require Import Names Num Value Dom DomFacts DomOps.
Import ListNotations.
Local Open Scope nat_scope.

Fixpoint set_kids (k : nat) (f : list tree -> list tree) (t : tree) : tree :=
  match t with T d ch => if Nat.eqb (key d) k then T d (f ch) else T d (map (set_kids k f) ch) end.
Definition kids_of (k : nat) (t : tree) : list tree := match find_sub k t with Some s => kids s | None => [] end.

Lemma data_set_kids k f t : data (set_kids k f t) = data t.
Proof. destruct t as [d ch]. cbn. destruct (Nat.eqb _ _); reflexivity. Qed.
Lemma root_set_kids k f t : root_key (set_kids k f t) = root_key t.
Proof. unfold root_key. now rewrite data_set_kids. Qed.
Lemma set_kids_out k f t : ~ In k (keys t) -> set_kids k f t = t.
Proof.
  induction t as [d ch IH] using tree_ind'. intros N. cbn. rewrite keys_cons in N. destruct (Nat.eqb_spec (key d) k) as [E|E]; [exfalso; apply N; now left|]. f_equal.
  rewrite <- (map_id ch) at 2. apply map_ext_in. intros c Hc. rewrite Forall_forall in IH. apply IH; [exact Hc|]. intros X. apply N. right. apply in_flat_map. eauto.
Qed.
Lemma map_set_kids_out k f l : ~ In k (flat_map keys l) -> map (set_kids k f) l = l.
Proof. intros N. rewrite <- (map_id l) at 2. apply map_ext_in. intros c Hc. apply set_kids_out. intros X. apply N. apply in_flat_map. eauto. Qed.
(** The node [s] of [t] and what surrounds it. *)
Lemma flat_split t s : NoDup (keys t) -> In s (subs t) -> exists pre post, flat t = pre ++ flat s ++ post /\
  forall f, flat (set_kids (root_key s) f t) = pre ++ (data s :: flat_map flat (f (kids s))) ++ post.
Proof.
  induction t as [d ch IH] using tree_ind'. intros N Hs. destruct (Nat.eqb_spec (key d) (root_key s)) as [E|E].
  - assert (X : s = T d ch) by (apply (sub_unique (T d ch)); auto using subs_self). subst s. exists [], []. cbn [app]. split; [now rewrite app_nil_r|]. intros f. rewrite app_nil_r. cbn. unfold root_key. cbn. now rewrite Nat.eqb_refl.
  - destruct Hs as [<-|Hs]; [contradiction E; reflexivity|]. apply in_flat_map in Hs. destruct Hs as (c & Hc & Hs). rewrite keys_cons in N. inversion N as [|? ? N1 N2]; subst.
    rewrite Forall_forall in IH. destruct (IH c Hc (child_NoDup c ch Hc N2) Hs) as (pre & post & E1 & E2). apply in_split in Hc. destruct Hc as (l & r & ->).
    assert (Ks : In (root_key s) (keys c)) by (unfold keys; apply in_map_iff; exists (data s); split; [reflexivity|now apply data_of_sub]).
    rewrite flat_map_app in N2. cbn [flat_map] in N2. apply NoDup_app_inv in N2. destruct N2 as (_ & N3 & N4). apply NoDup_app_inv in N3. destruct N3 as (_ & _ & N5).
    exists (d :: flat_map flat l ++ pre), (post ++ flat_map flat r). split.
    + cbn [flat]. rewrite flat_map_app. cbn [flat_map]. rewrite E1. rewrite <- ?app_assoc. cbn [app]. now rewrite <- ?app_assoc.
    + intros f. cbn [set_kids]. destruct (Nat.eqb_spec (key d) (root_key s)); [contradiction|]. cbn [flat]. rewrite map_app. cbn [map]. rewrite (map_set_kids_out _ _ l), (map_set_kids_out _ _ r).
      * rewrite flat_map_app. cbn [flat_map]. rewrite E2. rewrite <- ?app_assoc. cbn [app]. rewrite <- ?app_assoc. reflexivity.
      * intros X. exact (N5 _ Ks X).
      * intros X. apply (N4 _ X). apply in_or_app. now left.
Qed.
Lemma set_kids_id k t : set_kids k (fun l => l) t = t.
Proof. induction t as [d ch IH] using tree_ind'. cbn. destruct (Nat.eqb _ _); [reflexivity|]. f_equal. rewrite <- (map_id ch) at 2. apply map_ext_in. intros c Hc. rewrite Forall_forall in IH. auto. Qed.
Lemma set_kids_set k f g t : set_kids k f (set_kids k g t) = set_kids k (fun l => f (g l)) t.
Proof.
  induction t as [d ch IH] using tree_ind'. cbn. destruct (Nat.eqb (key d) k) eqn:E; cbn; rewrite E; [reflexivity|]. f_equal. rewrite map_map. apply map_ext_in. intros c Hc. rewrite Forall_forall in IH. auto.
Qed.
Lemma find_set_kids t s f : NoDup (keys t) -> In s (subs t) -> In (T (data s) (f (kids s))) (subs (set_kids (root_key s) f t)).
Proof.
  induction t as [d ch IH] using tree_ind'. intros N Hs. cbn [set_kids]. destruct (Nat.eqb_spec (key d) (root_key s)) as [E|E].
  - assert (X : s = T d ch) by (apply (sub_unique (T d ch)); auto using subs_self). subst s. apply subs_self.
  - destruct Hs as [<-|Hs]; [contradiction E; reflexivity|]. apply in_flat_map in Hs. destruct Hs as (c & Hc & Hs). rewrite keys_cons in N. inversion N as [|? ? N1 N2]; subst. rewrite Forall_forall in IH.
    right. apply in_flat_map. exists (set_kids (root_key s) f c). split; [now apply in_map|]. apply IH; auto. exact (child_NoDup c ch Hc N2).
Qed.
Lemma set_kids_ext k f g t : NoDup (keys t) -> f (kids_of k t) = g (kids_of k t) -> set_kids k f t = set_kids k g t.
Proof.
  intros N H. destruct (find_sub k t) as [s|] eqn:E.
  - unfold kids_of in H. rewrite E in H. apply find_sub_some in E. destruct E as [Hs <-]. revert N Hs H. clear. induction t as [d ch IH] using tree_ind'. intros N Hs H. cbn. destruct (Nat.eqb_spec (key d) (root_key s)) as [E|E].
    + assert (X : s = T d ch) by (apply (sub_unique (T d ch)); auto using subs_self). subst s. cbn in H. now rewrite H.
    + destruct Hs as [<-|Hs]; [contradiction E; reflexivity|]. apply in_flat_map in Hs. destruct Hs as (c0 & Hc0 & Hs). rewrite keys_cons in N. inversion N as [|? ? N1 N2]; subst. rewrite Forall_forall in IH.
      f_equal. apply map_ext_in. intros c Hc. destruct (in_dec Nat.eq_dec (root_key s) (keys c)) as [I|I]; [|now rewrite !set_kids_out].
      assert (X : exists s', In s' (subs c) /\ root_key s' = root_key s).
      { unfold keys in I. destruct (find_sub_in (root_key s) c I) as (s' & Es). apply find_sub_some in Es. eauto. }
      destruct X as (s' & Hs' & Ks'). assert (s' = s). { apply (sub_unique (T d ch)); auto; [rewrite keys_cons; now constructor|right; apply in_flat_map; eauto|right; apply in_flat_map; eauto]. }
      subst s'. apply IH; auto. exact (child_NoDup c ch Hc N2).
  - apply find_sub_none in E. now rewrite !set_kids_out.
Qed.
