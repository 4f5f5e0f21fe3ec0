(** Replacing use elements: the gradients keep their attributes. *)
From Coq Require Import List Bool NArith Arith ZArith String Lia QArith Qcanon Permutation.
From Verif Require Import Names Num Value Dom DomFacts DomOps Outcome DomRemove SpecDom SpecWritten Stops TasksSimple Links Move MoveFacts ResolveUse SpecUse UseStep UseEnd WfAll WfStruct WfUse WfGrad PlainMove Mild MildPasses MildMerge.
Import ListNotations.
Local Open Scope nat_scope.

Definition N (d d' : ndata) : Prop := key d' = key d /\ tag d' = tag d /\ (gradient_node d -> incl (attrs d') (attrs d)).
Definition nodes (t t' : tree) : Prop := forall d', In d' (flat t') -> exists d, In d (flat t) /\ N d d'.
Lemma N_refl d : N d d. Proof. repeat split; auto. intros _ x Hx. exact Hx. Qed.
Lemma N_grad d d' : N d d' -> gradient_node d' <-> gradient_node d. Proof. intros (_ & E & _). unfold gradient_node. rewrite E. tauto. Qed.
Lemma N_trans a b c : N a b -> N b c -> N a c.
Proof. intros H1 H2. pose proof (proj2 (N_grad _ _ H1)) as G. destruct H1 as (A & B & C), H2 as (A' & B' & C'). repeat split; try congruence. intros Ga x Hx. apply C; [exact Ga|]. apply C'; [now apply G|exact Hx]. Qed.
Lemma nodes_refl t : nodes t t. Proof. intros d Hd. exists d. split; [exact Hd|apply N_refl]. Qed.
Lemma nodes_trans a b c : nodes a b -> nodes b c -> nodes a c.
Proof. intros H1 H2 d Hd. destruct (H2 d Hd) as (x & Hx & Nx). destruct (H1 x Hx) as (y & Hy & Ny). exists y. split; [exact Hy|exact (N_trans _ _ _ Ny Nx)]. Qed.
Lemma nodes_tmap f t : (forall d, In d (flat t) -> N d (f d)) -> nodes t (tmap f t).
Proof. intros H d Hd. rewrite flat_tmap in Hd. apply in_map_iff in Hd. destruct Hd as (x & <- & Hx). exists x. auto. Qed.
Lemma nodes_incl t t' : incl (flat t') (flat t) -> nodes t t'.
Proof. intros H d Hd. exists d. split; [auto|apply N_refl]. Qed.
Lemma nodes_filter d p : N d (with_attrs d (filter p (attrs d))).
Proof. repeat split. intros _ x Hx. cbn in Hx. apply filter_In in Hx. apply Hx. Qed.
Lemma flat_after u x : forall t, incl (flat (insert_after u x t)) (flat x ++ flat t).
Proof.
  intros t. induction t as [d ch IH] using tree_ind'. rewrite after_T. intros y Hy. cbn in Hy. destruct Hy as [<-|Hy]; [apply in_or_app; right; now left|].
  apply in_flat_map in Hy. destruct Hy as (c' & Hc' & Hy). apply in_flat_map in Hc'. destruct Hc' as (c & Hc & Hc').
  assert (G : In y (flat x) \/ In y (flat c)).
  { destruct (Nat.eqb (root_key c) u); [destruct Hc' as [<-|[<-|[]]]; auto|]. destruct Hc' as [<-|[]]. rewrite Forall_forall in IH. apply in_app_or. now apply IH. }
  apply in_or_app. destruct G as [G|G]; [now left|right]. right. apply in_flat_map. eauto.
Qed.
Lemma nodes_resolve_one t u k t' : (forall d, In d (flat t) -> key d = k -> ~ gradient_node d) -> resolve_one t (u, k) = Ok t' -> nodes t t'.
Proof.
  intros H E. cbn [resolve_one] in E. set (t1 := upd u (fun d => d_rm d AXlinkHref) t) in *.
  assert (N1 : nodes t t1). { apply nodes_tmap. intros d _. destruct (Nat.eqb _ _); [apply nodes_filter|apply N_refl]. }
  destruct (find_data u t1) as [du|]; [|injection E as <-; exact N1]. destruct (find_sub k t1) as [l|] eqn:L; [|injection E as <-; exact N1]. destruct (shift_use du) as [du'|]; [|injection E as <-; exact N1]. destruct (forallb _ _); [|discriminate]. injection E as <-.
  apply (nodes_trans _ _ _ N1). destruct (find_sub_some _ _ _ L) as [Hl Kl].
  set (l' := T _ _). assert (N2 : nodes t1 (insert_after u l' (detach k t1))).
  { intros d Hd. apply flat_after in Hd. apply in_app_or in Hd. destruct Hd as [Hd|Hd].
    - cbn in Hd. destruct Hd as [<-|Hd].
      + exists (data l). split; [now apply data_of_sub|]. repeat split. intros G. exfalso. destruct (N1 (data l)) as (d0 & H0 & N0); [now apply data_of_sub|]. apply (H d0 H0); [|now apply (N_grad _ _ N0)]. destruct N0 as (K0 & _). rewrite <- K0. exact Kl.
      + exists d. split; [|apply N_refl]. apply (sub_flat_in l t1); [exact Hl|]. destruct l. cbn. right. exact Hd.
    - exists d. split; [exact (flat_detach_incl _ _ _ Hd)|apply N_refl]. }
  apply (nodes_trans _ _ _ N2). unfold remove. apply (nodes_trans _ (unlink (sub_keys u (insert_after u l' (detach k t1))) (insert_after u l' (detach k t1)))); [|apply nodes_incl, flat_detach_incl].
  apply nodes_tmap. intros d _. apply nodes_filter.
Qed.
Lemma nodes_fold ks : forall t t', (forall u k d, In (u, k) ks -> In d (flat t) -> key d = k -> ~ gradient_node d) ->
  fold_left (fun r p => match r with Ok t' => resolve_one t' p | _ => r end) ks (Ok t) = Ok t' -> nodes t t'.
Proof.
  induction ks as [|[u k] ks IH]; intros t t' H E; cbn [fold_left] in E; [injection E as <-; apply nodes_refl|].
  destruct (resolve_one t (u, k)) as [t1|e|] eqn:E1.
  - pose proof (nodes_resolve_one t u k t1 (fun d Hd => H u k d (or_introl eq_refl) Hd) E1) as N1. apply (nodes_trans _ _ _ N1). apply IH; [|exact E]. intros u' k' d Hu Hd Kd. destruct (N1 d Hd) as (d0 & H0 & N0). rewrite (N_grad _ _ N0). apply (H u' k'); [now right|exact H0|]. destruct N0 as (K0 & _). congruence.
  - exfalso. clear - E. induction ks as [|? ks IH]; cbn in E; [discriminate|auto].
  - exfalso. clear - E. induction ks as [|? ks IH]; cbn in E; [discriminate|auto].
Qed.
Lemma nodes_resolve_use U ur GK t t' : fine t -> tame U ur GK t -> resolve_use t = Ok t' -> nodes t t'.
Proof.
  intros F [_ Us Ki _] E. apply (nodes_fold (use_pairs t)); [|exact E]. intros u k d Hu Hd Kd. apply in_pairs in Hu. destruct Hu as (V & HV & <- & Q). destruct (target_sound t V k (fine_wf t F) (fine_wfa t F) HV Q) as (L & EL & R).
  pose proof (proj2 (r_link _ _ _ R)) as L1. pose proof (proj2 (r_use _ _ _ R)) as L2. destruct (d_get_in (data V) AXlinkHref _ L1) as (x & Hx & Nx & Vx). destruct (Us (data V) x (data_of_sub _ _ HV) L2 Hx Nx) as (k' & Ek & Uk & _). rewrite Vx in Ek. injection Ek as Ek. apply (Ki d Hd). congruence.
Qed.
Lemma nodes_okt GK t t' : nodes t t' -> okt GK t -> okt GK t'.
Proof.
  intros H O d' Hd. destruct (H d' Hd) as (d & H0 & N0). destruct (O d H0) as [A B]. pose proof (N_grad _ _ N0) as G. destruct N0 as (K0 & T0 & I0). split.
  - intros G' x Hx. apply (A (proj1 G G')). exact (I0 (proj1 G G') x Hx).
  - rewrite K0. intros X. apply G. auto.
Qed.
Lemma nodes_ranked t t' : nodes t t' -> ranked t -> ranked t'.
Proof.
  intros H (rank & R). exists rank. intros d' x k Hd G Hx V. destruct (H d' Hd) as (d & H0 & N0). apply (N_grad _ _ N0) in G. destruct N0 as (K0 & T0 & I0). rewrite K0. exact (R d x k H0 G (I0 G x Hx) V).
Qed.
