(** A pass that visits the nodes in document order and may look at the ancestors of the visited node
    (which are already processed), nearest first, and its laws. Nodes with their ancestors: [ctx]. *)
From Coq Require Import List Bool NArith Arith String Lia.
From Verif Require Import Names Num Value Dom DomFacts DomOps Outcome DomRemove Shapes SpecDom NPass.
Import ListNotations.
Local Open Scope nat_scope.

(** All nodes in document order, each with its ancestors, nearest first. *)
Fixpoint ctx (anc : list ndata) (t : tree) : list (list ndata * ndata) :=
  match t with T d ch => (anc, d) :: flat_map (ctx (d :: anc)) ch end.

Fixpoint apass (f : list ndata -> ndata -> result ndata) (anc : list ndata) (t : tree) : result tree :=
  match t with
  | T d ch =>
      bind (f anc d) (fun d' =>
      bind ((fix go (l : list tree) : result (list tree) :=
               match l with
               | [] => Ok []
               | c :: l' => bind (apass f (d' :: anc) c) (fun c' => bind (go l') (fun r => Ok (c' :: r)))
               end) ch) (fun ch' => Ok (T d' ch')))
  end.
Definition aforest (f : list ndata -> ndata -> result ndata) (anc : list ndata) : list tree -> result (list tree) :=
  fix go (l : list tree) : result (list tree) :=
    match l with
    | [] => Ok []
    | c :: l' => bind (apass f anc c) (fun c' => bind (go l') (fun r => Ok (c' :: r)))
    end.
Lemma apass_T f anc d ch : apass f anc (T d ch) = bind (f anc d) (fun d' => bind (aforest f (d' :: anc) ch) (fun ch' => Ok (T d' ch'))).
Proof. reflexivity. Qed.
Lemma aforest_cons f anc c l : aforest f anc (c :: l) = bind (apass f anc c) (fun c' => bind (aforest f anc l) (fun r => Ok (c' :: r))).
Proof. reflexivity. Qed.

Lemma map_snd_ctx anc t : map snd (ctx anc t) = flat t.
Proof. revert anc. induction t as [d ch IH] using tree_ind'. intros anc. cbn. f_equal. rewrite map_flat_map. apply flat_map_ext_Forall. eapply Forall_impl; [|exact IH]. cbn. auto. Qed.

Lemma aforest_ok f anc ch ch' : aforest f anc ch = Ok ch' -> Forall2 (fun c c' => apass f anc c = Ok c') ch ch'.
Proof.
  revert ch'. induction ch as [|c ch IH]; intros ch' H; [cbn in H; injection H as <-; constructor|]. rewrite aforest_cons in H.
  apply bind_ok in H. destruct H as (c' & H1 & H). apply bind_ok in H. destruct H as (r & H2 & H). injection H as <-. constructor; auto.
Qed.

(** The main law: node by node, with the old and the new ancestors. *)
Lemma apass_ok f : (forall anc d d', f anc d = Ok d' -> key d' = key d) ->
  forall t anc0 anc t', Forall2 (fun d d' => exists a, f a d = Ok d') anc0 anc -> apass f anc t = Ok t' ->
  skeleton t' = skeleton t /\
  Forall2 (fun c c' => f (fst c') (snd c) = Ok (snd c') /\ Forall2 (fun d d' => exists a, f a d = Ok d') (fst c) (fst c')) (ctx anc0 t) (ctx anc t').
Proof.
  intros Hk. induction t as [d ch IH] using tree_ind'. intros anc0 anc t' Ha H. rewrite apass_T in H.
  apply bind_ok in H. destruct H as (d' & Hd & H). apply bind_ok in H. destruct H as (ch' & Hch & H). injection H as <-.
  apply aforest_ok in Hch. unfold skeleton. cbn [tmap ctx]. rewrite (Hk _ _ _ Hd).
  assert (Ha' : Forall2 (fun d d' => exists a, f a d = Ok d') (d :: anc0) (d' :: anc)) by (constructor; eauto).
  assert (G : map (tmap (fun d => ND (key d) TRoot "" [])) ch' = map (tmap (fun d => ND (key d) TRoot "" [])) ch /\
    Forall2 (fun c c' => f (fst c') (snd c) = Ok (snd c') /\ Forall2 (fun d d' => exists a, f a d = Ok d') (fst c) (fst c'))
      (flat_map (ctx (d :: anc0)) ch) (flat_map (ctx (d' :: anc)) ch')).
  { clear Hd. revert ch' Hch. induction IH as [|c ch Hc F IH2]; intros ch' Hch; inversion Hch; subst; cbn; [split; [reflexivity|constructor]|].
    destruct (Hc _ _ _ Ha' H1) as [A B]. destruct (IH2 _ H3) as [A2 B2]. split; [f_equal; assumption|]. now apply Forall2_app. }
  destruct G as [G1 G2]. rewrite G1. split; [reflexivity|]. constructor; [|exact G2]. cbn. auto.
Qed.
(** Visits that never fail. *)
Lemma apass_total f : (forall anc d, exists d', f anc d = Ok d') -> forall t anc, exists t', apass f anc t = Ok t'.
Proof.
  intros H. induction t as [d ch IH] using tree_ind'. intros anc. rewrite apass_T. destruct (H anc d) as (d' & ->). cbn [bind].
  assert (G : exists ch', aforest f (d' :: anc) ch = Ok ch').
  { clear - IH. induction IH as [|c ch Hc F IH2]; [eexists; reflexivity|]. rewrite aforest_cons. destruct (Hc (d' :: anc)) as (c' & ->). destruct IH2 as (r & ->). eexists. reflexivity. }
  destruct G as (ch' & ->). eexists. reflexivity.
Qed.
(** If the visit of a node fails only because of its own data. *)
Lemma apass_defined f t anc : (forall d a, In d (flat t) -> exists d', f a d = Ok d') -> exists t', apass f anc t = Ok t'.
Proof.
  revert anc. induction t as [d ch IH] using tree_ind'. intros anc H. rewrite apass_T. destruct (H d anc (or_introl eq_refl)) as (d' & ->). cbn [bind].
  assert (G : exists ch', aforest f (d' :: anc) ch = Ok ch').
  { assert (H' : forall d a, In d (flat_map flat ch) -> exists d', f a d = Ok d') by (intros x a Hx; apply H; right; exact Hx).
    clear - IH H'. induction IH as [|c ch Hc F IH2]; [eexists; reflexivity|]. rewrite aforest_cons.
    destruct (Hc (d' :: anc)) as (c' & ->); [intros x a Hx; apply H'; cbn; apply in_or_app; auto|].
    destruct IH2 as (r & ->); [intros x a Hx; apply H'; cbn; apply in_or_app; auto|]. eexists. reflexivity. }
  destruct G as (ch' & ->). eexists. reflexivity.
Qed.
Lemma apass_WF f t t' : WF t -> (forall a d d', f a d = Ok d' -> key d' = key d) ->
  (forall a d d', f a d = Ok d' -> incl (node_links d') (node_links d ++ flat_map node_links a)) ->
  apass f [] t = Ok t' -> WF t'.
Proof.
  intros W Hk Hl H. destruct (apass_ok f Hk t [] [] t' (Forall2_nil _) H) as [S F]. pose proof (skeleton_keys _ _ S) as K.
  split; rewrite K; [apply W|]. intros k Hk'. apply (wf_links t W). rewrite targets_flat in *.
  (* links of processed ancestors come from original nodes *)
  assert (G : forall tt anc0 anc tt', Forall2 (fun d d' => exists a, f a d = Ok d') anc0 anc -> apass f anc tt = Ok tt' ->
     incl (flat_map node_links (flat tt')) (flat_map node_links (flat tt) ++ flat_map node_links anc)).
  { clear - Hl Hk. induction tt as [d ch IH] using tree_ind'. intros anc0 anc tt' Ha H. rewrite apass_T in H.
    apply bind_ok in H. destruct H as (d' & Hd & H). apply bind_ok in H. destruct H as (ch' & Hch & H). injection H as <-. apply aforest_ok in Hch.
    cbn [flat flat_map].
    assert (Q : incl (node_links d') (node_links d ++ flat_map node_links anc)) by (eapply Hl; eauto).
    assert (R : incl (flat_map node_links (flat_map flat ch')) (flat_map node_links (flat_map flat ch) ++ flat_map node_links (d' :: anc))).
    { assert (Ha' : Forall2 (fun d d' => exists a, f a d = Ok d') (d :: anc0) (d' :: anc)) by (constructor; eauto).
      clear Hd Q. remember (d' :: anc) as anc1 eqn:E1. clear E1. revert ch' Hch. induction IH as [|c ch Hc F IH2]; intros ch' Hch; inversion Hch; subst; cbn [flat_map]; [intros x []|].
      rewrite !flat_map_app. intros x Hx. apply in_app_or in Hx. destruct Hx as [Hx|Hx].
      - apply (Hc _ _ _ Ha' H1) in Hx. apply in_app_or in Hx. rewrite !in_app_iff. tauto.
      - apply (IH2 _ H3) in Hx. apply in_app_or in Hx. rewrite !in_app_iff. tauto. }
    intros x Hx. apply in_app_or in Hx. rewrite !in_app_iff. destruct Hx as [Hx|Hx].
    - apply Q in Hx. apply in_app_or in Hx. tauto.
    - apply R in Hx. apply in_app_or in Hx. destruct Hx as [Hx|Hx]; [tauto|]. cbn in Hx. apply in_app_or in Hx. destruct Hx as [Hx|Hx]; [|tauto].
      apply Q in Hx. apply in_app_or in Hx. tauto. }
  pose proof (G t [] [] t' (Forall2_nil _) H k Hk') as X. now rewrite app_nil_r in X.
Qed.

(** [I old new] relates the original ancestors with the processed ones. *)
Lemma apass_inv f (P : ndata -> Prop) (I : list ndata -> list ndata -> Prop) :
  (forall anc0 anc d d', P d -> I anc0 anc -> f anc d = Ok d' -> key d' = key d /\ I (d :: anc0) (d' :: anc)) ->
  forall t anc0 anc t', Forall P (flat t) -> I anc0 anc -> apass f anc t = Ok t' ->
  skeleton t' = skeleton t /\ Forall2 (fun c c' => I (fst c) (fst c') /\ f (fst c') (snd c) = Ok (snd c')) (ctx anc0 t) (ctx anc t').
Proof.
  intros HI. induction t as [d ch IH] using tree_ind'. intros anc0 anc t' HP Ha H. rewrite apass_T in H.
  apply bind_ok in H. destruct H as (d' & Hd & H). apply bind_ok in H. destruct H as (ch' & Hch & H). injection H as <-.
  apply aforest_ok in Hch. unfold skeleton. cbn [tmap ctx]. cbn [flat] in HP. inversion HP as [|? ? Pd Pch]; subst.
  destruct (HI _ _ _ _ Pd Ha Hd) as [Hk Ha']. rewrite Hk.
  assert (G : map (tmap (fun d => ND (key d) TRoot "" [])) ch' = map (tmap (fun d => ND (key d) TRoot "" [])) ch /\
    Forall2 (fun c c' => I (fst c) (fst c') /\ f (fst c') (snd c) = Ok (snd c')) (flat_map (ctx (d :: anc0)) ch) (flat_map (ctx (d' :: anc)) ch')).
  { clear Hd HP Hk. revert ch' Hch. induction IH as [|c ch Hc F IH2]; intros ch' Hch; inversion Hch; subst; cbn; [split; [reflexivity|constructor]|].
    cbn in Pch. apply Forall_app in Pch. destruct Pch as [P1 P2].
    destruct (Hc _ _ _ P1 Ha' H1) as [A B]. destruct (IH2 P2 _ H3) as [A2 B2]. split; [f_equal; assumption|]. now apply Forall2_app. }
  destruct G as [G1 G2]. rewrite G1. split; [reflexivity|]. constructor; [|exact G2]. cbn. auto.
Qed.
(** A failed pass failed at some node. *)
Lemma apass_fails f (P : ndata -> Prop) (I : list ndata -> list ndata -> Prop) :
  (forall anc0 anc d d', P d -> I anc0 anc -> f anc d = Ok d' -> I (d :: anc0) (d' :: anc)) ->
  forall t anc0 anc, Forall P (flat t) -> I anc0 anc ->
  (exists t', apass f anc t = Ok t') \/
  (exists c anc', In c (ctx anc0 t) /\ I (fst c) anc' /\
     ((f anc' (snd c) = Panic /\ apass f anc t = Panic) \/ exists e, f anc' (snd c) = Err e /\ apass f anc t = Err e)).
Proof.
  intros HI. induction t as [d ch IH] using tree_ind'. intros anc0 anc HP Ha. rewrite apass_T. cbn [flat] in HP. inversion HP as [|? ? Pd Pch]; subst.
  destruct (f anc d) as [d'|e|] eqn:Hd; cbn [bind].
  2: { right. exists (anc0, d), anc. cbn. rewrite Hd. eauto 10. }
  2: { right. exists (anc0, d), anc. cbn. rewrite Hd. auto 10. }
  pose proof (HI _ _ _ _ Pd Ha Hd) as Ha'.
  assert (G : (exists r, aforest f (d' :: anc) ch = Ok r) \/ exists c anc', In c (flat_map (ctx (d :: anc0)) ch) /\ I (fst c) anc' /\
     ((f anc' (snd c) = Panic /\ aforest f (d' :: anc) ch = Panic) \/ exists e, f anc' (snd c) = Err e /\ aforest f (d' :: anc) ch = Err e)).
  { clear Hd HP. induction IH as [|c ch Hc F IH2]; [left; eexists; reflexivity|]. rewrite aforest_cons. cbn in Pch. apply Forall_app in Pch. destruct Pch as [P1 P2].
    destruct (Hc _ _ P1 Ha') as [(c' & ->)|(x & ax & Hx & Ix & Fx)]; cbn [bind].
    - destruct (IH2 P2) as [(r & ->)|(x & ax & Hx & Ix & Fx)]; [left; eexists; reflexivity|]. right. exists x, ax. split; [cbn; apply in_or_app; auto|]. split; [exact Ix|].
      destruct Fx as [[F1 ->]|(e & F1 & ->)]; eauto.
    - right. exists x, ax. split; [cbn; apply in_or_app; auto|]. split; [exact Ix|]. destruct Fx as [[F1 ->]|(e & F1 & ->)]; eauto. }
  destruct G as [(r & ->)|(x & ax & Hx & Ix & Fx)]; [left; eexists; reflexivity|].
  right. exists x, ax. split; [right; exact Hx|]. split; [exact Ix|]. destruct Fx as [[F1 ->]|(e & F1 & ->)]; eauto.
Qed.
