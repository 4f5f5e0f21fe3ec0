(** Visits in document order: places, prefixes of the document order and stores. *)
From Coq Require Import List Bool NArith Arith ZArith String Lia.
From Verif Require Import Names Num Value Dom DomFacts DomOps Outcome DomRemove SpecText TextProofs Props_text Needless.
Import ListNotations.
Local Open Scope nat_scope.

Lemma places_keys t : forall anc, map (fun p => root_key (snd p)) (places anc t) = keys t.
Proof. intros anc. unfold keys. rewrite <- (flat_places t anc), map_map. reflexivity. Qed.
Lemma place_in anc s t a0 : In (anc, s) (places a0 t) -> In (data s) (flat t).
Proof. intros H. rewrite <- (flat_places t a0). apply in_map_iff. exists (anc, s). auto. Qed.
Lemma in_place d t a0 : In d (flat t) -> exists anc s, In (anc, s) (places a0 t) /\ data s = d.
Proof. rewrite <- (flat_places t a0). intros H. apply in_map_iff in H. destruct H as ((anc, s) & E & H). eauto. Qed.
Lemma place_kid t : forall a0 anc s c, In (anc, s) (places a0 t) -> In c (kids s) -> In (data s :: anc, c) (places a0 t).
Proof.
  induction t as [d ch IH] using tree_ind'. intros a0 anc s c H Hc. cbn [places] in H. destruct H as [E|H].
  - inversion E; subst. cbn [kids data] in *. cbn [places]. right. apply in_flat_map. exists c. split; [exact Hc|]. destruct c. left. reflexivity.
  - apply in_flat_map in H. destruct H as (x & Hx & H). cbn [places]. right. apply in_flat_map. exists x. split; [exact Hx|]. rewrite Forall_forall in IH. eapply IH; eauto.
Qed.
Lemma place_anc t : forall a0 anc s, In (anc, s) (places a0 t) -> exists l, anc = l ++ a0 /\
  forall l1 d l2, l = l1 ++ d :: l2 -> exists s', In (l2 ++ a0, s') (places a0 t) /\ data s' = d /\ kids s' <> [].
Proof.
  induction t as [d ch IH] using tree_ind'. intros a0 anc s H. cbn [places] in H. destruct H as [E|H].
  - inversion E; subst. exists []. split; [reflexivity|]. intros [|] ? ? X; discriminate.
  - apply in_flat_map in H. destruct H as (c & Hc & H). rewrite Forall_forall in IH. destruct (IH c Hc _ _ _ H) as (l & -> & L).
    exists (l ++ [d]). split; [now rewrite <- app_assoc|]. intros l1 x l2 E.
    destruct l2 as [|y l2'] eqn:El2.
    + apply app_inj_tail in E. destruct E as [<- <-]. exists (T d ch). split; [left; reflexivity|]. split; [reflexivity|]. cbn. intros ->. contradiction.
    + destruct (@exists_last _ (y :: l2')) as (m & z & Em); [discriminate|]. rewrite Em in E. assert (E' : l ++ [d] = (l1 ++ x :: m) ++ [z]) by (rewrite E, <- app_assoc; reflexivity).
      apply app_inj_tail in E'. destruct E' as [E1 <-]. destruct (L l1 x m E1) as (s' & P & Q). exists s'. split; [|exact Q]. rewrite Em, <- app_assoc. cbn [places]. right.
      apply in_flat_map. exists c. split; [exact Hc|exact P].
Qed.
Lemma flat_map_split {A B} (f : A -> list B) x : forall l p q, flat_map f l = p ++ x :: q ->
  exists l1 y l2 q1 q2, l = l1 ++ y :: l2 /\ f y = q1 ++ x :: q2 /\ p = flat_map f l1 ++ q1.
Proof.
  induction l as [|y l IH]; intros p q E; [destruct p; discriminate|]. cbn in E.
  assert (C : (exists q2, f y = p ++ x :: q2) \/ exists p2, p = f y ++ p2 /\ flat_map f l = p2 ++ x :: q).
  { revert p E. generalize (f y) as m. induction m as [|z m IHm]; intros p E; [right; exists p; auto|]. destruct p as [|w p]; cbn in E.
    - inversion E; subst. left. eexists. reflexivity.
    - inversion E; subst. destruct (IHm p H1) as [(q2 & ->)|(p2 & -> & H)]; [left; exists q2; reflexivity|right; exists p2; split; [reflexivity|exact H]]. }
  destruct C as [(q2 & E2)|(p2 & -> & E2)].
  - exists [], y, l, p, q2. auto.
  - destruct (IH _ _ E2) as (l1 & y' & l2 & q1 & q2 & -> & H2 & ->). exists (y :: l1), y', l2, q1, q2. cbn. rewrite <- app_assoc. auto.
Qed.
Lemma places_prefix t : forall a0 p anc s q, places a0 t = p ++ (anc, s) :: q -> forall a, In a anc -> In a a0 \/ In a (map (fun p => data (snd p)) p).
Proof.
  induction t as [d ch IH] using tree_ind'. intros a0 p anc s q E a Ha. cbn [places] in E. destruct p as [|x p]; cbn in E.
  - inversion E; subst. auto.
  - inversion E; subst. apply flat_map_split in H1. destruct H1 as (l1 & c & l2 & q1 & q2 & -> & E2 & ->). rewrite Forall_forall in IH.
    destruct (IH c (in_elt _ _ _) _ _ _ _ _ E2 a Ha) as [[<-|H]|H]; [right; left; reflexivity|auto|]. right. cbn. right. rewrite map_app. apply in_or_app. auto.
Qed.
(** Ancestors come first. *)
Lemma keys_prefix t l1 l2 anc s : NoDup (keys t) -> In (anc, s) (places [] t) -> keys t = l1 ++ l2 -> In (root_key s) l1 -> forall a, In a anc -> In (key a) l1.
Proof.
  intros N H E Hs a Ha. apply in_split in H. destruct H as (p & q & H). pose proof (places_keys t []) as K. rewrite H, map_app in K. cbn [map snd] in K.
  assert (X : exists m, l1 = map (fun p => root_key (snd p)) p ++ root_key s :: m).
  { apply in_split in Hs. destruct Hs as (u & v & ->). assert (G : u = map (fun p => root_key (snd p)) p).
    { rewrite E in N, K. clear E H. rewrite <- app_assoc in N, K. cbn [app] in N, K. set (w := v ++ l2) in *. clearbody w. set (r := map _ p) in *. clearbody r. set (r2 := map _ q) in *. clearbody r2.
      revert r K N. induction u as [|x u IHu]; intros [|y r] K N; cbn in *; [reflexivity| | |].
      - exfalso. inversion K; subst. inversion N as [|? ? N1 N2]; subst. apply N1. apply in_elt.
      - exfalso. inversion K; subst. inversion N as [|? ? N1 N2]; subst. apply N1. apply in_elt.
      - inversion K; subst. inversion N; subst. f_equal. now apply IHu. }
    exists v. now rewrite G. }
  destruct X as (m & ->). destruct (places_prefix t [] p anc s q H a Ha) as [[]|P]. apply in_or_app. left. apply in_map_iff in P. destruct P as (z & <- & Hz). apply in_map_iff. exists z. auto.
Qed.

Lemma place_unique t a0 p p' : NoDup (keys t) -> In p (places a0 t) -> In p' (places a0 t) -> root_key (snd p) = root_key (snd p') -> p = p'.
Proof.
  intros N H H' E. rewrite <- (places_keys t a0) in N. revert N H H'. generalize (places a0 t) as l. induction l as [|x l IH]; cbn; [contradiction|]. intros N H H'. inversion N as [|? ? N1 N2]; subst.
  destruct H as [->|H], H' as [->|H']; auto.
  - exfalso. apply N1. rewrite E. apply in_map_iff. eauto.
  - exfalso. apply N1. rewrite <- E. apply in_map_iff. eauto.
Qed.
Lemma find_place_some k t : forall a0 anc s, find_place a0 k t = Some (anc, s) -> In (anc, s) (places a0 t) /\ root_key s = k.
Proof.
  induction t as [d ch IH] using tree_ind'. intros a0 anc s H. cbn [find_place] in H. destruct (Nat.eqb_spec (key d) k) as [E|E].
  - inversion H; subst. split; [left; reflexivity|reflexivity].
  - cbn [places]. assert (G : In (anc, s) (flat_map (places (d :: a0)) ch) /\ root_key s = k); [|destruct G; split; [right; assumption|assumption]].
    clear E. revert H. induction IH as [|c ch Hc F IH2]; [discriminate|]. destruct (find_place (d :: a0) k c) as [p|] eqn:E.
    + intros X. inversion X; subst. destruct (Hc _ _ _ E). split; [cbn; apply in_or_app; auto|assumption].
    + intros X. destruct (IH2 X). split; [cbn; apply in_or_app; auto|assumption].
Qed.
Lemma find_place_none k t : forall a0, find_place a0 k t = None -> ~ In k (keys t).
Proof.
  induction t as [d ch IH] using tree_ind'. intros a0 H. cbn [find_place] in H. rewrite keys_cons. destruct (Nat.eqb_spec (key d) k) as [E|E]; [discriminate|].
  assert (G : ~ In k (flat_map keys ch)); [|intros [X|X]; contradiction].
  clear E. revert H. induction IH as [|c ch Hc F IH2]; cbn; [auto|]. destruct (find_place (d :: a0) k c) as [p|] eqn:E; [discriminate|].
  intros X Y. apply in_app_or in Y. destruct Y as [Y|Y]; [exact (Hc _ E Y)|exact (IH2 X Y)].
Qed.
Lemma find_place_in t a0 anc s : NoDup (keys t) -> In (anc, s) (places a0 t) -> find_place a0 (root_key s) t = Some (anc, s).
Proof.
  intros N H. destruct (find_place a0 (root_key s) t) as [(anc', s')|] eqn:E.
  - apply find_place_some in E. destruct E as [E1 E2]. f_equal. symmetry. eapply place_unique; eauto.
  - apply find_place_none in E. exfalso. apply E. rewrite <- (places_keys t a0). apply in_map_iff. exists (anc, s). auto.
Qed.
