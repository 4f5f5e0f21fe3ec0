(** Documents with references: gradients are merged. *)
From Coq Require Import List Bool NArith Arith ZArith String Lia QArith Qcanon Permutation.
From Verif Require Import Names Num Value Dom DomFacts DomOps Outcome DomRemove SpecDom SpecWritten Stops TasksSimple Links Move MoveFacts Graft MergeGradients MergeProofs WfAll WfStruct UseStep WfUse WfGrad PlainMove Mild MildPasses MildMove MildInvisible.
Import ListNotations.
Local Open Scope nat_scope.

Lemma inside_set_kids2 k ch t a b : inside (set_kids k (fun _ => ch) t) a b -> inside t a b \/ (exists c, In c ch /\ inside c a b) \/ (In a (flat_map keys ch) /\ inside t k b).
Proof.
  intros (s & Hs & Kb & Ha). apply set_kids_subs in Hs. destruct Hs as [Hs|(s0 & Hs & ->)].
  - right. left. apply in_flat_map in Hs. destruct Hs as (c & Hc & Hs). exists c. split; [exact Hc|]. exists s. auto.
  - rewrite root_set_kids in Kb. destruct (in_dec Nat.eq_dec k (keys s0)) as [Hk|Hk].
    + apply set_kids_keys, in_app_or in Ha. destruct Ha as [Ha|Ha]; [left; exists s0; auto|]. right. right. split; [exact Ha|]. exists s0. auto.
    + rewrite (set_kids_out k _ s0 Hk) in Ha. left. exists s0. auto.
Qed.
Lemma inside_trans t s a b : In s (subs t) -> inside s a b -> inside t a b.
Proof. intros Hs (x & Hx & K & I). exists x. split; [exact (subs_trans t s x Hs Hx)|auto]. Qed.
Lemma sub_flat_in s t d : In s (subs t) -> In d (flat s) -> In d (flat t).
Proof. intros Hs Hd. rewrite <- map_data_subs in Hd. apply in_map_iff in Hd. destruct Hd as (x & <- & Hx). apply data_of_sub, (subs_trans t s); assumption. Qed.
Lemma M_take GK l d : okg GK d -> gradient_node d -> M d (take_attrs l d).
Proof.
  intros O G. split; [reflexivity|now left|]. intros y Hy. apply take_in in Hy. destruct Hy as (x & Hx & Nx & ->). right. split.
  - intros _. rewrite shown_val. destruct (og_attrs _ _ O G x Hx) as [[Hn _]|X]; [contradiction|exact X].
  - intros X. exfalso. exact (grad_uog _ G X).
Qed.
Section Me.
Variables (U : nat -> Prop) (ur : nat -> nat) (GK : nat -> Prop).
Lemma tame_bare t : WF t -> tame U ur GK t -> nest U t -> bare t.
Proof.
  intros W Tm N d g k Hd Gd Hk Hg Gg I. apply node_links_iff in Hk. destruct Hk as (x & Hx & E). destruct (og_attrs _ _ (tm_nodes _ _ _ _ Tm d Hd) Gd x Hx) as [(_ & j & Ev & Gj)|[L _]]; [|congruence]. rewrite Ev in E. injection E as ->.
  destruct I as (s & Hs & K & Hi). assert (Gs : gradient_node (data s)) by (apply (og_key GK (data s) (tm_nodes _ _ _ _ Tm _ (data_of_sub _ _ Hs))); unfold root_key in K; now rewrite K).
  destruct (N g (data s) Hg (data_of_sub _ _ Hs) Gg) as [X|[X _]]; [exists s; auto| |contradiction]. unfold root_key in K. congruence.
Qed.
Lemma merge_visit_nodes t ks k t' ks' : fine t -> tame U ur GK t -> nest U t -> (forall d, In d (flat t) -> key d = k -> gradient_node d) -> merge_visit (t, ks) k = (t', ks') ->
  (forall d', In d' (flat t') -> exists d, In d (flat t) /\ M d d') /\ (forall a b, inside t' a b -> inside t a b \/ (~ U b /\ forall d, In d (flat t) -> key d = a -> ~ gradient_node d)).
Proof.
  intros F Tm Ns Gk E. assert (Same : forall u, u = t -> (forall d', In d' (flat u) -> exists d, In d (flat t) /\ M d d') /\ (forall a b, inside u a b -> inside t a b \/ (~ U b /\ forall d, In d (flat t) -> key d = a -> ~ gradient_node d))).
  { intros u ->. split; [|auto]. intros d Hd. exists d. split; [exact Hd|apply M_refl]. }
  pose proof (fine_nodup t F) as N. cbn [merge_visit] in E. destruct (find_sub k t) as [s|] eqn:Es; [|injection E as <- <-; now apply Same]. destruct (d_get (data s) AXlinkHref) as [[]|] eqn:Eh; try (injection E as <- <-; now apply Same).
  match type of Eh with _ = Some (VLink ?j) => destruct (find_sub j t) as [l|] eqn:El end; [|injection E as <- <-; now apply Same]. destruct (Nat.eqb _ 1 && _) eqn:C; [|injection E as <- <-; now apply Same]. clear C.
  apply find_sub_some in Es, El. destruct Es as [Hs Ks], El as [Hl Kl]. pose proof (data_of_sub s t Hs) as Ds. pose proof (data_of_sub l t Hl) as Dl.
  assert (Gs : gradient_node (data s)) by (apply Gk; [exact Ds|exact Ks]).
  assert (Gl : gradient_node (data l)). { apply d_get_in in Eh. destruct Eh as (x & Hx & _ & Ev). destruct (og_attrs _ _ (tm_nodes _ _ _ _ Tm _ Ds) Gs x Hx) as [(_ & j & Ev' & Gj)|[L _]]; [|rewrite Ev in L; discriminate]. apply (og_key GK _ (tm_nodes _ _ _ _ Tm _ Dl)). unfold root_key in Kl. rewrite Kl. congruence. }
  set (t1 := match kids s with [] => set_kids k (fun _ => kids l) (set_kids _ (fun _ => []) t) | _ => t end) in E.
  assert (Q : (forall d, In d (flat t1) -> In d (flat t)) /\ (forall a b, inside t1 a b -> inside t a b \/ (~ U b /\ forall d, In d (flat t) -> key d = a -> ~ gradient_node d))).
  { unfold t1. destruct (kids s) as [|c0 l0] eqn:K0; [|auto]. assert (Fl : forall j u ch d, In d (flat (set_kids j (fun _ => ch) u)) -> In d (flat u) \/ In d (flat_map flat ch)).
    { intros j u ch d Hd. rewrite <- map_data_subs in Hd. apply in_map_iff in Hd. destruct Hd as (x & <- & Hx). apply set_kids_subs in Hx. destruct Hx as [Hx|(x0 & Hx & ->)]; [right|left; rewrite data_set_kids; now apply data_of_sub]. apply in_flat_map in Hx. destruct Hx as (c & Hc & Hx). apply in_flat_map. exists c. split; [exact Hc|now apply data_of_sub]. }
    split.
    - intros d Hd. apply Fl in Hd. destruct Hd as [Hd|Hd]; [apply Fl in Hd; destruct Hd as [Hd|[]]; exact Hd|]. apply in_flat_map in Hd. destruct Hd as (c & Hc & Hd). apply (sub_flat_in c t); [exact (subs_trans t l c Hl (kid_in l c Hc))|exact Hd].
    - intros a b H. apply inside_set_kids2 in H. destruct H as [H|[(c & Hc & H)|[Ha H]]].
      + apply inside_set_kids in H. destruct H as [H|[]]. now left.
      + left. exact (inside_trans t c a b (subs_trans t l c Hl (kid_in l c Hc)) H).
      + right. apply inside_set_kids in H. destruct H as [H|[]]. split.
        * intros Ub. destruct H as (p & Hp & <- & Hi). destruct (Ns (data s) (data p) Ds (data_of_sub _ _ Hp) Gs) as [X|(_ & _ & X)]; [exists p; split; [exact Hp|split; [reflexivity|]]; unfold root_key in Ks; now rewrite Ks| |contradiction].
          destruct (tm_kind _ _ _ _ Tm (data s) Ds) as [Y _]; [now rewrite <- X|contradiction].
        * intros g Hg <- Gg. destruct (Ns g (data l) Hg Dl Gg) as [X|[X _]]; [exists l; split; [exact Hl|]; split; [reflexivity|]; rewrite keys_kids; now right| |contradiction].
          pose proof (sub_NoDup l t N Hl) as Nn. rewrite keys_kids in Nn. inversion Nn as [|? ? Y _]; subst. apply Y. unfold root_key. rewrite X. exact Ha. }
  destruct Q as [I1 J1]. clearbody t1. injection E as <- _. unfold upd. split.
  - intros d' Hd. rewrite flat_tmap in Hd. apply in_map_iff in Hd. destruct Hd as (d & <- & Hd). apply I1 in Hd. exists d. split; [exact Hd|]. destruct (Nat.eqb_spec (key d) k) as [Q|]; [|apply M_refl]. apply (M_take GK); [exact (tm_nodes _ _ _ _ Tm d Hd)|now apply Gk].
  - intros a b H. apply inside_tmap in H; [|intros d; now destruct (Nat.eqb _ _)]. now apply J1.
Qed.
(** All that is kept at every step. *)
Record good (t t' : tree) : Prop := { g_fine : fine t'; g_tame : tame U ur GK t'; g_nest : nest U t'; g_nodes : forall d', In d' (flat t') -> exists d, In d (flat t) /\ M d d' }.
Lemma good_step t t1 t2 : good t t1 -> fine t2 -> (forall d', In d' (flat t2) -> exists d, In d (flat t1) /\ M d d') ->
  (forall a b, inside t2 a b -> inside t1 a b \/ (~ U b /\ forall d, In d (flat t1) -> key d = a -> ~ gradient_node d)) -> good t t2.
Proof.
  intros [F Tm N D] F2 A B. assert (Dm : descm U GK t1 t2) by (split; [|exact B]; intros d Hd; destruct (A d Hd) as (x & Hx & Mx); exists x; split; [exact Hx|now apply M_MG]).
  split; [exact F2|exact (tame_descm _ _ _ _ _ Tm Dm)|exact (nest_descm _ _ _ _ N Dm)|]. intros d Hd. destruct (A d Hd) as (x & Hx & Mx). destruct (D x Hx) as (z & Hz & Mz). exists z. split; [exact Hz|exact (M_trans _ _ _ Mz Mx)].
Qed.
Lemma good_visit t t1 ks k t' ks' : good t t1 -> (forall d, In d (flat t) -> key d = k -> gradient_node d) -> merge_visit (t1, ks) k = (t', ks') -> good t t'.
Proof.
  intros G Gk E. pose proof G as [F Tm N D]. assert (Gk1 : forall d, In d (flat t1) -> key d = k -> gradient_node d) by (intros d Hd Kd; destruct (D d Hd) as (x & Hx & Mx); apply (M_grad _ _ Mx), Gk; [exact Hx|]; rewrite <- (M_key _ _ Mx); exact Kd).
  destruct (fine_merge_visit t1 ks k t' ks' F (tame_bare t1 (fine_wf _ F) Tm N) Gk1 E) as [F' _]. destruct (merge_visit_nodes t1 ks k t' ks' F Tm N Gk1 E) as [A B]. exact (good_step t t1 t' G F' A B).
Qed.
Lemma good_fold : forall ls t t1 ks t' ks', good t t1 -> (forall k d, In k ls -> In d (flat t) -> key d = k -> gradient_node d) -> fold_left merge_visit ls (t1, ks) = (t', ks') -> good t t'.
Proof.
  induction ls as [|k ls IH]; intros t t1 ks t' ks' G H E; [injection E as <- _; exact G|]. cbn [fold_left] in E. destruct (merge_visit (t1, ks) k) as [t2 ks2] eqn:E2. refine (IH t t2 ks2 t' ks' _ (fun j d Hj => H j d (or_intror Hj)) E). apply (good_visit t t1 ks k t2 ks2 G); [|exact E2]. intros d. apply H. now left.
Qed.
Lemma good_refl t : fine t -> tame U ur GK t -> nest U t -> good t t.
Proof. intros F Tm N. split; auto. intros d Hd. exists d. split; [exact Hd|apply M_refl]. Qed.
Lemma good_below t t1 t2 : good t t1 -> fine t2 -> below t1 t2 -> good t t2.
Proof. intros G F B. destruct (below_desc _ _ B) as [A I]. apply (good_step t t1 t2 G F A). intros a b H. left. auto. Qed.
Lemma good_round t t1 t' ks : good t t1 -> merge_round t1 = (t', ks) -> good t t'.
Proof.
  intros [F Tm N D] E. pose proof (good_refl t1 F Tm N) as G1. apply (good_fold _ t1 t1 [] t' ks G1) in E.
  - destruct E as [F' T' N' D']. split; auto. intros d Hd. destruct (D' d Hd) as (x & Hx & Mx). destruct (D x Hx) as (z & Hz & Mz). exists z. split; [exact Hz|exact (M_trans _ _ _ Mz Mx)].
  - intros k d Hk Hd Kd. apply in_map_iff in Hk. destruct Hk as (d0 & K0 & H0). apply filter_In in H0. destruct H0 as [H0 G0]. assert (d0 = d) by (apply (data_unique t1); [apply F|assumption..|congruence]). subst d0. now apply is_gradient_iff.
Qed.
Lemma good_merge n : forall t t1 t', good t t1 -> merge_gradients n t1 = Some t' -> good t t'.
Proof.
  induction n as [|n IH]; intros t t1 t' G E; [discriminate|]. cbn [merge_gradients] in E. destruct (merge_round t1) as [t2 ks] eqn:E1. pose proof (good_round t t1 t2 ks G E1) as G2. destruct ks as [|k ks]; [injection E as <-; exact G2|].
  refine (IH t _ t' _ E). apply (good_below t t2); [exact G2|apply fine_remove_nodes, G2|apply below_remove_nodes].
Qed.
End Me.
