(** What is drawn, and the removal of unused children of defs. *)
From Coq Require Import List Bool NArith Arith ZArith String Lia QArith Qcanon.
From Verif Require Import Names Num Value Dom DomFacts DomOps DomRemove AttrFacts VLoop SpecDom SpecText SpecWritten Visit MoveFacts UseStep Push Move GroupDefsProofs SpecVisible VisStep VisKeep VisInv Outcome RmUnusedDefs Props_defs VisPass.
Import ListNotations.
Local Open Scope nat_scope.

Section Defs.
  Variables (t s : tree) (ch : list tree).
  Notation k := (root_key s).
  Notation g := (set_kids (root_key s) (fun _ => ch)).
  Notation t' := (g t).
  Hypothesis I : iready t.
  Hypothesis Hs : In s (subs t).
  Hypothesis Ts : tag (data s) = TEl EDefs.
  Hypothesis W' : WF t'.
  Hypothesis Hch : forall c, In c ch -> In c (flat_map subs (kids s)).
  Let N : NoDup (keys t) := wf_keys _ (i_wf _ I).

  Lemma g_kids u : root_key u <> k -> kids (g u) = map g (kids u). Proof. apply kids_set_kids. Qed.
  Lemma g_out u : In u (flat_map subs (kids s)) -> g u = u.
  Proof.
    intros Hu. apply set_kids_out. intros X. assert (Nk : NoDup (keys s)) by exact (sub_NoDup s t N Hs). rewrite keys_kids in Nk. inversion Nk as [|? ? N1 _]. apply N1. apply in_flat_map in Hu. destruct Hu as (c & Hc & Hu). apply in_flat_map. exists c. split; [exact Hc|].
    apply sub_of_key in X. destruct X as (y & Hy & <-). apply key_in_sub. exact (subs_trans c u y Hu Hy).
  Qed.
  Lemma g_sub u' : In u' (subs t') -> exists u, In u (subs t) /\ u' = g u.
  Proof.
    assert (Q : forall v, In v (subs t) -> forall u', In u' (subs (g v)) -> exists u, In u (subs t) /\ u' = g u).
    { induction v as [d c IH] using tree_ind'. rewrite Forall_forall in IH. intros Hv w Hw. destruct (in_subs_kids _ _ Hw) as [->|X]; [exists (T d c); auto|]. destruct (Nat.eq_dec (root_key (T d c)) k) as [E|E].
      - assert (T d c = s) by (apply (sub_unique t); auto). rewrite H in X. assert (Ek : kids (g s) = ch) by (destruct s as [ds cs]; cbn; unfold root_key; cbn; now rewrite Nat.eqb_refl). rewrite Ek in X. apply in_flat_map in X. destruct X as (x & Hx & X). apply Hch in Hx. assert (Hw' : In w (flat_map subs (kids s))). { apply in_flat_map in Hx. destruct Hx as (y & Hy & Hx). apply in_flat_map. exists y. split; [exact Hy|exact (subs_trans y x w Hx X)]. }
        exists w. split; [|symmetry; now apply g_out]. apply in_kids_subs in Hw'. exact (subs_trans t s w Hs Hw').
      - rewrite g_kids in X by exact E. cbn [kids] in X. apply in_flat_map in X. destruct X as (z & Hz & X). apply in_map_iff in Hz. destruct Hz as (y & <- & Hy). apply (IH y Hy); [exact (kid_sub (T d c) y t Hv Hy)|exact X]. }
    apply Q, subs_self.
  Qed.
  Lemma g_in u : In u (subs t) -> In (root_key u) (keys t') -> In (g u) (subs t').
  Proof. intros Hu H. apply sub_of_key in H. destruct H as (u' & Hu' & Ku). pose proof Hu' as H'. apply g_sub in H'. destruct H' as (u0 & Hu0 & ->). rewrite root_set_kids in Ku. assert (u0 = u) by (apply (sub_unique t); auto). now subst. Qed.
  Lemma g_flat d : In d (flat t') -> In d (flat t).
  Proof. intros H. rewrite <- map_data_subs in H. apply in_map_iff in H. destruct H as (u' & <- & Hu'). apply g_sub in Hu'. destruct Hu' as (u & Hu & ->). rewrite data_set_kids. now apply data_of_sub. Qed.
  Lemma g_data u : In u (subs t) -> In (root_key u) (keys t') -> In (data u) (flat t').
  Proof. intros Hu H. rewrite <- (data_set_kids k (fun _ => ch) u). apply data_of_sub. now apply g_in. Qed.
  Lemma g_kid u c : In u (subs t) -> In (root_key u) (keys t') -> tag (data u) <> TEl EDefs -> kids (g u) = map g (kids u) /\ (In c (kids u) -> In c (subs t) /\ In (root_key c) (keys t')).
  Proof.
    intros Hu H Tu. assert (Nk : root_key u <> k). { intros E. apply Tu. assert (u = s) by (apply (sub_unique t); auto). now subst. }
    split; [now apply g_kids|]. intros Hc. split; [exact (kid_sub u c t Hu Hc)|]. rewrite <- (root_set_kids k (fun _ => ch) c). apply key_in_sub. apply (kid_sub (g u) (g c) t'); [now apply g_in|]. rewrite g_kids by exact Nk. now apply in_map.
  Qed.
  Lemma g_link d a v j : In d (flat t') -> d_get d a = Some v -> link_of v = Some j -> In j (keys t').
  Proof. intros Hd E L. destruct (get_some_in _ _ _ E) as (x & Hx & _ & <-). apply (wf_links _ W'). unfold targets. apply in_flat_map. exists d. split; [exact Hd|]. apply in_flat_map. exists x. split; [exact Hx|]. rewrite L. now left. Qed.
  Lemma g_find j : In j (keys t') -> find_sub j t' = option_map g (find_sub j t) /\ find_data j t' = find_data j t.
  Proof.
    intros H. pose proof H as H'. apply sub_of_key in H'. destruct H' as (u' & Hu' & <-). pose proof Hu' as G'. apply g_sub in G'. destruct G' as (u & Hu & ->). rewrite (find_sub_iff _ _ (wf_keys _ W') Hu'). rewrite root_set_kids, (find_sub_iff t u N Hu). split; [reflexivity|].
    pose proof (find_data_in t' _ (wf_keys _ W') (data_of_sub _ _ Hu')) as F1. rewrite data_set_kids in F1. pose proof (find_data_in t _ N (data_of_sub _ _ Hu)) as F2. change (root_key u) with (key (data u)). congruence.
  Qed.
  Lemma g_target d : In d (flat t') -> target t' d = target t d.
  Proof. intros Hd. unfold target. destruct (d_get d AXlinkHref) as [[]|] eqn:E; try reflexivity. apply g_find. now apply (g_link d _ _ _ Hd E). Qed.
  Lemma g_counts d : In d (flat t') -> clip_counts t' d = clip_counts t d.
  Proof. intros Hd. unfold clip_counts. now rewrite g_target. Qed.
  Lemma g_path d : In d (flat t') -> on_path t' d = on_path t d.
  Proof. intros Hd. unfold on_path. now rewrite g_target. Qed.
  Lemma g_dead d : In d (flat t') -> dead t' d = dead t d.
  Proof.
    intros Hd. unfold dead. f_equal.
    - destruct (d_get d AClipPath) as [[]|] eqn:E; try reflexivity. pose proof (g_link d _ _ _ Hd E eq_refl) as Hj. unfold empty_clip. rewrite (proj1 (g_find _ Hj)). destruct (find_sub _ t) as [u|] eqn:F; [|reflexivity]. cbn [option_map]. apply find_sub_some in F. destruct F as [Hu Ku]. rewrite data_set_kids. destruct (tagged EClipPath (data u)) eqn:Tu; [|reflexivity]. apply tagged_iff in Tu. cbn [andb].
      rewrite <- Ku in Hj. assert (Nd : tag (data u) <> TEl EDefs) by (rewrite Tu; discriminate). rewrite (proj1 (g_kid u u Hu Hj Nd)). assert (Q : forall c, In c (kids u) -> In (data c) (flat t')) by (intros c Hc; destruct (proj2 (g_kid u c Hu Hj Nd) Hc) as [A B]; now apply g_data).
      revert Q. induction (kids u) as [|c l IH]; intros Q; [reflexivity|]. cbn [map forallb]. rewrite data_set_kids, g_counts by (apply Q; now left). f_equal. apply IH. intros; apply Q; now right.
    - destruct (d_get d AFilter) as [[]|] eqn:E; try reflexivity. pose proof (g_link d _ _ _ Hd E eq_refl) as Hj. unfold empty_filter. rewrite (proj1 (g_find _ Hj)). destruct (find_sub _ t) as [u|] eqn:F; [|reflexivity]. cbn [option_map]. apply find_sub_some in F. destruct F as [Hu Ku]. rewrite data_set_kids. destruct (tagged EFilter (data u)) eqn:Tu; [|reflexivity]. apply tagged_iff in Tu. cbn [andb].
      rewrite <- Ku in Hj. assert (Nd : tag (data u) <> TEl EDefs) by (rewrite Tu; discriminate). rewrite (proj1 (g_kid u u Hu Hj Nd)). now destruct (kids u).
  Qed.
  Lemma g_drawn d : In d (flat t') -> drawn t' d = drawn t d.
  Proof. intros Hd. unfold drawn. now rewrite g_dead, g_path. Qed.
  Lemma kind_defs d : kind_of d <> KOther -> tag d <> TEl EDefs. Proof. intros K E. apply K. unfold kind_of. now rewrite E. Qed.
  Lemma g_draws :
    (forall anc u l, draws t anc u l -> In u (subs t) -> In (root_key u) (keys t') -> draws t' anc (g u) l) /\
    (forall anc c l, draws_all t anc c l -> (forall x, In x c -> In x (subs t) /\ In (root_key x) (keys t')) -> draws_all t' anc (map g c) l).
  Proof.
    assert (Sh : forall u, g u = T (data u) (kids (g u))) by (intros u; pose proof (data_set_kids k (fun _ => ch) u) as E; destruct (g u) as [d0 c0]; cbn [data kids] in *; now rewrite E).
    assert (Hd : forall u, In u (subs t) -> In (root_key u) (keys t') -> In (data u) (flat t')) by (intros; now apply g_data).
    assert (Kd : forall d c, In (T d c) (subs t) -> In (root_key (T d c)) (keys t') -> kind_of d <> KOther -> kids (g (T d c)) = map g c /\ forall x, In x c -> In x (subs t) /\ In (root_key x) (keys t')).
    { intros d c Hu H K. split; [exact (proj1 (g_kid (T d c) (T d c) Hu H (kind_defs _ K)))|]. intros x Hx. exact (proj2 (g_kid (T d c) x Hu H (kind_defs _ K)) Hx). }
    apply (draws_mut t (fun anc u l _ => In u (subs t) -> In (root_key u) (keys t') -> draws t' anc (g u) l) (fun anc c l _ => (forall x, In x c -> In x (subs t) /\ In (root_key x) (keys t')) -> draws_all t' anc (map g c) l)).
    - intros anc u D Hu Hk. apply dr_not. rewrite data_set_kids, g_drawn by auto. exact D.
    - intros anc d c D K Hu Hk. pose proof (Hd _ Hu Hk) as Hdd. cbn [data] in Hdd. rewrite (Sh (T d c)). cbn [data]. apply dr_leaf; [now rewrite g_drawn|exact K].
    - intros anc d c l D K Da IH Hu Hk. pose proof (Hd _ Hu Hk) as Hdd. cbn [data] in Hdd. rewrite (Sh (T d c)). cbn [data]. destruct (Kd d c Hu Hk) as [E Q]; [congruence|]. rewrite E. apply dr_box; [now rewrite g_drawn|exact K|now apply IH].
    - intros anc d c x l D K Eh Hx Kx Da IH Hu Hk. pose proof (Hd _ Hu Hk) as Hdd. cbn [data] in Hdd. rewrite (Sh (T d c)). cbn [data]. pose proof (g_link d _ _ _ Hdd Eh eq_refl) as Hj. apply (dr_use _ _ _ _ (g x)); [now rewrite g_drawn|exact K|now rewrite root_set_kids|now apply g_in|now rewrite data_set_kids|now apply IH].
    - intros anc d c x l D K Eh Hx Kx Dx Da IH Hu Hk. pose proof (Hd _ Hu Hk) as Hdd. cbn [data] in Hdd. rewrite (Sh (T d c)). cbn [data]. pose proof (g_link d _ _ _ Hdd Eh eq_refl) as Hj. destruct x as [dx cx]. cbn [data kids] in *. destruct (Kd dx cx Hx Hj) as [E Q]; [congruence|].
      apply (dr_symbol _ _ _ _ (g (T dx cx))); [now rewrite g_drawn|exact K|now rewrite root_set_kids|now apply g_in|now rewrite data_set_kids|rewrite data_set_kids; cbn [data]; rewrite g_dead; [exact Dx|exact (Hd _ Hx Hj)]|]. rewrite data_set_kids, E. cbn [data]. now apply IH.
    - intros anc d c x D K Eh Hx Kx Dx Hu Hk. pose proof (Hd _ Hu Hk) as Hdd. cbn [data] in Hdd. rewrite (Sh (T d c)). cbn [data]. pose proof (g_link d _ _ _ Hdd Eh eq_refl) as Hj.
      apply (dr_symbol_dead _ _ _ _ (g x)); [now rewrite g_drawn|exact K|now rewrite root_set_kids|now apply g_in|now rewrite data_set_kids|rewrite data_set_kids; now rewrite g_dead by auto].
    - intros anc d c D K Eh Hu Hk. pose proof (Hd _ Hu Hk) as Hdd. cbn [data] in Hdd. rewrite (Sh (T d c)). cbn [data]. apply dr_use_none; [now rewrite g_drawn|exact K|]. intros x' Hx'. apply g_sub in Hx'. destruct Hx' as (x & Hx & ->). rewrite root_set_kids. now apply Eh.
    - intros anc _. constructor.
    - intros anc x l p q D IH Da IHa H. cbn [map]. constructor; [apply IH; apply H; now left|apply IHa; intros; apply H; now right].
  Qed.
  Theorem shown_defs : Shown t t'.
  Proof.
    assert (Rt : tag (data t) <> TEl EDefs) by (rewrite (proj1 (i_root _ I)); discriminate). assert (Rk : In (root_key t) (keys t')) by (rewrite <- (root_set_kids k (fun _ => ch) t); apply key_in_sub, subs_self).
    split.
    - intros u' Hu' Hh. pose proof Hu' as H. apply g_sub in H. destruct H as (u & Hu & ->). rewrite data_set_kids in Hh. assert (Nd : tag (data u) <> TEl EDefs) by (unfold holder, gradient_node in Hh; intros E; rewrite E in Hh; destruct Hh as [X|[X|X]]; discriminate).
      assert (Hk : In (root_key u) (keys t')) by (rewrite <- (root_set_kids k (fun _ => ch) u); now apply key_in_sub). exists u. split; [exact Hu|]. rewrite root_set_kids, data_set_kids. split; [reflexivity|]. split; [reflexivity|]. split; [reflexivity|]. rewrite (proj1 (g_kid u u Hu Hk Nd)).
      induction (kids u) as [|c l IH]; cbn; constructor; [unfold same_part; rewrite data_set_kids, root_set_kids; auto|exact IH].
    - apply root_set_kids.
    - intros j Hj. unfold keys in *. apply in_map_iff in Hj. destruct Hj as (d & <- & Hd). apply in_map. now apply g_flat.
    - intros d' Hd'. exists d'. split; [now apply g_flat|repeat split; auto].
    - intros l H. exists l. split; [|apply alike_self]. unfold drawing in *. destruct (g_kid t t (subs_self t) Rk Rt) as [E _]. rewrite data_set_kids, E. apply (proj2 g_draws); [exact H|]. intros x Hx. exact (proj2 (g_kid t x (subs_self t) Rk Rt) Hx).
    - intros j l Hj (u & Hu & <- & Iu & H). exists l. split; [|apply alike_self]. assert (Nd : tag (data u) <> TEl EDefs) by (intros E; unfold inner, tagged in Iu; rewrite E in Iu; discriminate). exists (g u). split; [now apply g_in|]. split; [apply root_set_kids|]. rewrite data_set_kids. split; [exact Iu|]. rewrite (proj1 (g_kid u u Hu Hj Nd)). apply (proj2 g_draws); [exact H|]. intros x Hx. exact (proj2 (g_kid u x Hu Hj Nd) Hx).
    - intros j l Hj (u & Hu & <- & Iu & H). exists l. split; [|apply alike_self]. assert (Nd : tag (data u) <> TEl EDefs) by (apply tagged_iff in Iu; rewrite Iu; discriminate). exists (g u). split; [now apply g_in|]. split; [apply root_set_kids|]. rewrite data_set_kids. split; [exact Iu|]. rewrite (proj1 (g_kid u u Hu Hj Nd)).
      replace (filter (fun c => clip_counts t' (data c)) (map g (kids u))) with (map g (filter (fun c => clip_counts t (data c)) (kids u))).
      + apply (proj2 g_draws); [exact H|]. intros x Hx. apply filter_In in Hx. destruct Hx as [Hx _]. exact (proj2 (g_kid u x Hu Hj Nd) Hx).
      + assert (Q : forall c, In c (kids u) -> clip_counts t' (data c) = clip_counts t (data c)). { intros c Hc. apply g_counts. destruct (proj2 (g_kid u c Hu Hj Nd) Hc) as [A B]. now apply g_data. }
        clear H. revert Q. induction (kids u) as [|c l0 IH]; intros Q; [reflexivity|]. cbn [map filter]. rewrite data_set_kids, (Q c (or_introl eq_refl)). destruct (clip_counts t (data c)); cbn [map]; rewrite IH by (intros; apply Q; now right); reflexivity.
  Qed.
End Defs.
Lemma defs_shown t t' : iready t -> remove_unused_defs t = Some (Ok t') -> Shown t t'.
Proof.
  intros I E. destruct (first_defs t) as [d|] eqn:F; [|unfold remove_unused_defs in E; rewrite F in E; discriminate]. assert (Ex : exists d, In d (flat t) /\ tag d = TEl EDefs). { unfold first_defs in F. apply find_some in F. destruct F as [Hd Td]. exists d. split; [exact Hd|now apply is_tag_iff]. }
  destruct (defs_fixpoint t (i_wf _ I) Ex) as (t1 & s & ch & E1 & -> & W' & Hs & _ & Ts & _ & _ & Hch & _). rewrite E1 in E. injection E as <-. apply shown_defs; auto. intros c Hc. now apply Hch.
Qed.
