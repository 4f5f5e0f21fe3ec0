(** Laws of [npass]: a pass that changes each node on its own. *)
From Coq Require Import List Bool NArith Arith String Lia.
From Verif Require Import Names Num Value Dom DomFacts DomOps Outcome DomRemove Shapes SpecDom.
Import ListNotations.
Local Open Scope nat_scope.

(** The tree of keys. *)
Definition skeleton (t : tree) : tree := tmap (fun d => ND (key d) TRoot "" []) t.

Lemma kforest_id f ch : kforest (fun d l => bind (f d) (fun d' => Ok (d', l))) (map data ch) ch =
  fold_right (fun c r => bind (npass f c) (fun c' => bind r (fun r' => Ok (c' :: r')))) (Ok []) ch.
Proof. induction ch as [|c ch IH]; [reflexivity|]. cbn. fold (kforest (fun d l => bind (f d) (fun d' => Ok (d', l)))). now rewrite IH. Qed.
Lemma npass_T f d ch : npass f (T d ch) =
  bind (f d) (fun d' => bind (fold_right (fun c r => bind (npass f c) (fun c' => bind r (fun r' => Ok (c' :: r')))) (Ok []) ch) (fun ch' => Ok (T d' ch'))).
Proof.
  unfold npass at 1, kpass. rewrite kmap_T. cbn [data]. destruct (f d) as [d'|e|]; cbn [bind fst snd]; try reflexivity.
  now rewrite kforest_id.
Qed.

Lemma npass_ok f t t' : (forall d d', f d = Ok d' -> key d' = key d) -> npass f t = Ok t' ->
  skeleton t' = skeleton t /\ Forall2 (fun d d' => f d = Ok d') (flat t) (flat t').
Proof.
  intros Hk. revert t'. induction t as [d ch IH] using tree_ind'. intros t' H. rewrite npass_T in H.
  apply bind_ok in H. destruct H as (d' & Hd & H). apply bind_ok in H. destruct H as (ch' & Hch & H). injection H as <-.
  unfold skeleton. cbn [tmap flat]. rewrite (Hk _ _ Hd).
  assert (G : map (tmap (fun d => ND (key d) TRoot "" [])) ch' = map (tmap (fun d => ND (key d) TRoot "" [])) ch /\
              Forall2 (fun d d' => f d = Ok d') (flat_map flat ch) (flat_map flat ch')).
  { clear Hd. revert ch' Hch. induction IH as [|c ch Hc F IH2]; intros ch' Hch; cbn in Hch.
    - injection Hch as <-. split; [reflexivity|constructor].
    - apply bind_ok in Hch. destruct Hch as (c' & H1 & Hch). apply bind_ok in Hch. destruct Hch as (r' & H2 & Hch). injection Hch as <-.
      destruct (Hc _ H1) as [A B]. destruct (IH2 _ H2) as [A2 B2]. cbn. split; [f_equal; assumption|]. apply Forall2_app; assumption. }
  destruct G as [G1 G2]. rewrite G1. split; [reflexivity|]. constructor; assumption.
Qed.
Lemma npass_total f t : (forall d e, In d (flat t) -> f d <> Err e) -> (npass f t = Panic <-> exists d, In d (flat t) /\ f d = Panic) /\ (forall e, npass f t <> Err e).
Proof.
  induction t as [d ch IH] using tree_ind'. intros He. rewrite npass_T.
  assert (Hd : forall e, f d <> Err e) by (intros e; apply He; left; reflexivity).
  set (r := fold_right (fun c r => bind (npass f c) (fun c' => bind r (fun r' => Ok (c' :: r')))) (Ok []) ch).
  assert (G : (r = Panic <-> exists d, In d (flat_map flat ch) /\ f d = Panic) /\ (forall e, r <> Err e)).
  { assert (Hc : forall d e, In d (flat_map flat ch) -> f d <> Err e) by (intros x e Hx; apply He; right; exact Hx).
    clear He Hd. subst r. induction IH as [|c ch H F IH2]; cbn.
    - split; [split; [discriminate|intros (x & [] & _)]|discriminate].
    - destruct (H (fun x e Hx => Hc x e (in_or_app _ _ _ (or_introl Hx)))) as [P1 E1].
      destruct (IH2 (fun x e Hx => Hc x e (in_or_app _ _ _ (or_intror Hx)))) as [P2 E2].
      destruct (npass f c) as [c'|e|] eqn:Ec; cbn.
      + destruct (fold_right _ _ ch) as [ch'|e|] eqn:Er; cbn.
        * split; [|discriminate]. split; [discriminate|]. intros (x & Hx & Px). apply in_app_or in Hx. destruct Hx as [Hx|Hx].
          -- assert (X : Ok c' = @Panic tree) by (apply P1; eauto). discriminate.
          -- assert (X : Ok ch' = @Panic (list tree)) by (apply P2; eauto). discriminate.
        * exfalso. eapply E2; eauto.
        * split; [|discriminate]. split; [|reflexivity]. intros _. destruct (proj1 P2 eq_refl) as (x & Hx & Px). exists x. split; [apply in_or_app; auto|exact Px].
      + exfalso. eapply E1; eauto.
      + split; [|discriminate]. split; [|reflexivity]. intros _. destruct (proj1 P1 eq_refl) as (x & Hx & Px). exists x. split; [apply in_or_app; auto|exact Px]. }
  destruct G as [G1 G2]. destruct (f d) as [d'|e|] eqn:E; cbn.
  - destruct r as [ch'|e|]; cbn.
    + split; [|discriminate]. split; [discriminate|]. intros (x & [<-|Hx] & Px); [congruence|]. assert (X : Ok ch' = @Panic (list tree)) by (apply G1; eauto). discriminate.
    + exfalso. eapply G2; eauto.
    + split; [|discriminate]. split; [|reflexivity]. intros _. destruct (proj1 G1 eq_refl) as (x & Hx & Px). eauto.
  - exfalso. eapply Hd; eauto.
  - split; [|discriminate]. split; [|reflexivity]. intros _. eauto.
Qed.
Lemma skeleton_keys t t' : skeleton t' = skeleton t -> keys t' = keys t.
Proof.
  intros H. rewrite <- (keys_tmap (fun d => ND (key d) TRoot "" []) t'), <- (keys_tmap (fun d => ND (key d) TRoot "" []) t) by reflexivity.
  unfold skeleton in H. now rewrite H.
Qed.
Lemma npass_WF f t t' : WF t -> (forall d d', f d = Ok d' -> key d' = key d /\ incl (node_links d') (node_links d)) -> npass f t = Ok t' -> WF t'.
Proof.
  intros [N L] Hf H. destruct (npass_ok f t t' (fun d d' X => proj1 (Hf d d' X)) H) as [S F]. pose proof (skeleton_keys _ _ S) as K. split; rewrite K; [exact N|].
  intros k Hk. apply L. rewrite targets_flat in *. apply in_flat_map in Hk. destruct Hk as (d' & Hd & Hk).
  destruct (Forall2_in_r _ _ _ _ F Hd) as (d & Hd0 & E). apply in_flat_map. exists d. split; [exact Hd0|]. now apply (proj2 (Hf _ _ E)).
Qed.
