(** Documents without references: the passes that move and remove elements. *)
From Coq Require Import List Bool NArith Arith ZArith String Lia QArith Qcanon Permutation.
From Verif Require Import Names Num Value Dom DomFacts DomOps Outcome DomRemove SpecDom Stops Shapes NPass APass VLoop Transforms Links TasksSimple Move MoveFacts RmUnusedDefs GroupDefs GroupDefsProofs WfAll WfStruct WfGrad PlainTree PlainPasses.
Import ListNotations.
Local Open Scope nat_scope.

(** Removals. *)
Lemma shr_unlink b N K ks t : okt b N t -> shr b K t (unlink ks t).
Proof. intros O. rewrite unlink_eq. apply shr_tmap. intros d Hd. apply R_filter, (R_refl _ (O d Hd)). Qed.
Lemma shr_remove b N K k t : okt b N t -> ~ In k K -> shr b K t (remove k t).
Proof.
  intros O H. unfold remove. pose proof (shr_unlink b N K (sub_keys k t) t O) as S. apply (shr_trans _ _ _ _ _ S). apply (shr_prune (N := N)); [exact (okn_shr b N K _ _ O S)|]. intros s _ E. apply Nat.eqb_eq in E. congruence.
Qed.
Lemma Inv_remove b N ks kd k t : Inv b N ks kd t -> ~ In k (guarded ks kd) -> Inv b N ks kd (remove k t).
Proof. intros I H. apply (Inv_shr _ _ _ _ _ _ I). apply (shr_remove b N); [exact (i_nodes _ _ _ _ _ I)|exact H]. Qed.
Lemma Inv_remove_nodes b N ks kd l : forall t, Inv b N ks kd t -> (forall k, In k l -> ~ In k (guarded ks kd)) -> Inv b N ks kd (remove_nodes l t).
Proof. unfold remove_nodes. induction l as [|k l IH]; intros t I H; [exact I|]. cbn. apply IH; [|intros; apply H; now right]. apply Inv_remove; [exact I|]. apply H. now left. Qed.
(** What the guarded nodes are. *)
Lemma kid_in t c : In c (kids t) -> In c (subs t).
Proof. destruct t as [d ch]. intros H. right. apply in_flat_map. exists c. split; [exact H|apply subs_self]. Qed.
Lemma svg_kid t s : svg_element t = Some s -> In s (kids t) /\ is_tag ESvg (data s) = true.
Proof. unfold svg_element. intros H. apply find_some in H. exact H. Qed.
Lemma guard_tag b N ks kd t d : Inv b N ks kd t -> In d (flat t) -> In (key d) (guarded ks kd) -> (is_tag ESvg d = true \/ is_tag EDefs d = true) /\ d_has d ADisplay = false.
Proof.
  intros [Nd _ _ (s & Es & Ks & Ds & C)] Hd [E|E].
  - destruct (svg_kid _ _ Es) as [Hs Ts]. assert (d = data s). { apply (data_unique t); [exact Nd|exact Hd|apply data_of_sub, kid_in; exact Hs|]. unfold root_key in Ks. congruence. } subst d. auto.
  - destruct kd as [k|]; [|destruct E]. destruct E as [E|[]]. destruct (C k eq_refl) as (c & Hc & Kc & Tc & Dc). assert (d = data c). { apply (data_unique t); [exact Nd|exact Hd| |unfold root_key in Kc; congruence]. apply data_of_sub. destruct (svg_kid _ _ Es) as [Hs _]. apply (subs_trans t s); [now apply kid_in|now apply kid_in]. } subst d. auto.
Qed.
(** drain *)
Lemma Inv_drain b N ks kd p t : Inv b N ks kd t -> (forall u s, Inv b N ks kd u -> In s (subs u) -> p u s = true -> ~ In (root_key s) (guarded ks kd)) -> Inv b N ks kd (fst (drain p t)).
Proof.
  intros I H. unfold drain. generalize (tl (keys t)) 0. intros l n. revert t n I. induction l as [|k l IH]; intros t n I; cbn [fold_left]; [exact I|]. unfold drain_step at 2. destruct (find_sub k t) as [s|] eqn:E; [|now apply IH]. destruct (p t s) eqn:P; [|now apply IH]. apply IH.
  apply find_sub_some in E. destruct E as [Hs <-]. apply Inv_remove; [exact I|]. exact (H t s I Hs P).
Qed.
Lemma not_guard b N ks kd t d : Inv b N ks kd t -> In d (flat t) -> is_tag ESvg d = false -> is_tag EDefs d = false -> ~ In (key d) (guarded ks kd).
Proof. intros I Hd A B G. destruct (guard_tag _ _ _ _ _ _ I Hd G) as [[X|X] _]; congruence. Qed.
Lemma tag_other e e' d : e <> e' -> is_tag e d = true -> is_tag e' d = false.
Proof. unfold is_tag. destruct (tag d) as [|x| | | |]; try discriminate. destruct (eid_eqb_spec x e) as [->|]; [|discriminate]. intros H _. destruct (eid_eqb_spec e e'); [contradiction|reflexivity]. Qed.
Lemma plain_element b N ks kd e t : e <> ESvg -> e <> EDefs -> Inv b N ks kd t -> Inv b N ks kd (remove_element e t).
Proof.
  intros A B I. unfold remove_element. apply Inv_drain; [exact I|]. intros u s Iu Hs E. apply (not_guard b N ks kd u (data s)); auto using data_of_sub; apply (tag_other e); auto.
Qed.

(** New children. *)
Definition gok (s : tree) : Prop := is_tag EG (data s) = true -> forall c, In c (kids s) -> is_svg_el (data c) = true.
Lemma kids_set_other k f s : root_key s <> k -> kids (set_kids k f s) = map (set_kids k f) (kids s).
Proof. apply kids_set_kids. Qed.
Lemma find_map_same {A} (p : A -> bool) (f : A -> A) l : (forall x, p (f x) = p x) -> find p (map f l) = option_map f (find p l).
Proof. intros H. induction l as [|x l IH]; [reflexivity|]. cbn. rewrite H. destruct (p x); [reflexivity|exact IH]. Qed.
Lemma svg_set_kids k f t s : root_key t <> k -> svg_element t = Some s -> svg_element (set_kids k f t) = Some (set_kids k f s).
Proof.
  intros Nk. unfold svg_element. rewrite (kids_set_other k f t Nk). rewrite find_map_same; [|intros x; now rewrite data_set_kids]. now intros ->.
Qed.
Lemma Inv_set b N ks kd k ch t s0 : Inv b N ks kd t -> In s0 (subs t) -> root_key s0 = k -> k <> root_key t -> gok (T (data s0) ch) ->
  (k = ks -> forall c, In c (kids s0) -> is_tag EDefs (data c) = true -> kd = Some (root_key c) -> d_has (data c) ADisplay = false -> exists c', In c' ch /\ root_key c' = root_key c /\ is_tag EDefs (data c') = true /\ d_has (data c') ADisplay = false) ->
  NoDup (keys (set_kids k (fun _ => ch) t)) -> (forall d, In d (flat_map flat ch) -> okn b N d) -> (forall s, In s (flat_map subs ch) -> gok s) -> Inv b N ks kd (set_kids k (fun _ => ch) t).
Proof.
  intros [Nd O G (s & Es & Ks & Ds & C)] H0 K0 Nr T0 Cd Nd' Och Gch. split; [exact Nd'| | |].
  - intros d Hd. rewrite <- map_data_subs in Hd. apply in_map_iff in Hd. destruct Hd as (u & <- & Hu). destruct (set_kids_subs _ _ _ _ Hu) as [X|(u0 & Hu0 & ->)].
    + apply Och. apply in_flat_map in X. destruct X as (c & Hc & X). apply in_flat_map. exists c. split; [exact Hc|now apply data_of_sub].
    + rewrite data_set_kids. apply O. now apply data_of_sub.
  - intros u c Hu Tu Hc. destruct (set_kids_subs _ _ _ _ Hu) as [X|(u0 & Hu0 & ->)]; [exact (Gch u X Tu c Hc)|]. rewrite data_set_kids in Tu. destruct (Nat.eq_dec (root_key u0) k) as [E|E].
    + assert (u0 = s0) by (apply (sub_unique t); auto; congruence). subst u0. apply (T0 Tu c). cbn. rewrite <- K0 in Hc. destruct s0 as [d0 ch0]. cbn in Hc. unfold root_key in Hc. cbn in Hc. now rewrite Nat.eqb_refl in Hc.
    + rewrite (kids_set_other _ _ _ E) in Hc. apply in_map_iff in Hc. destruct Hc as (c0 & <- & Hc0). rewrite data_set_kids. exact (G u0 c0 Hu0 Tu Hc0).
  - exists (set_kids k (fun _ => ch) s). split; [apply svg_set_kids; auto|]. split; [now rewrite root_set_kids|]. split; [now rewrite data_set_kids|].
    intros j Ej. destruct (C j Ej) as (c & Hc & Kc & Tc & Dc). destruct (Nat.eq_dec (root_key s) k) as [E|E].
    + assert (s = s0) by (apply (sub_unique t); auto; [apply kid_in; now destruct (svg_kid _ _ Es)|congruence]). subst s0. destruct (Cd ltac:(congruence) c Hc Tc ltac:(congruence) Dc) as (c' & Hc' & Kc' & Tc' & Dc'). exists c'. split; [|split; [congruence|auto]]. destruct s as [d0 ch0]. cbn in *. unfold root_key in E. cbn in E. now rewrite E, Nat.eqb_refl.
    + exists (set_kids k (fun _ => ch) c). rewrite kids_set_other by congruence. split; [now apply in_map|]. split; [now rewrite root_set_kids|]. now rewrite data_set_kids.
Qed.
Lemma gok_sub b N ks kd t s : Inv b N ks kd t -> In s (subs t) -> gok s.
Proof. intros I Hs T1 c Hc. exact (i_groups _ _ _ _ _ I s c Hs T1 Hc). Qed.
Lemma gok_other d ch e : tag d = TEl e -> e <> EG -> gok (T d ch).
Proof. intros E Ne T1. cbn in T1. unfold is_tag in T1. rewrite E in T1. destruct (eid_eqb_spec e EG); [contradiction|discriminate]. Qed.
Lemma is_tag_tag e d : is_tag e d = true <-> tag d = TEl e.
Proof. unfold is_tag. destruct (tag d) as [|x| | | |]; try (split; discriminate). destruct (eid_eqb_spec x e) as [->|H]; split; congruence. Qed.

(** remove_unused_defs *)
Lemma round_part t c : (forall s, In s (flat_map subs (left_over t c ++ RmUnusedDefs.moved t c)) -> In s (subs c) \/ s = T (data c) []).
Proof.
  intros s H. rewrite flat_map_app in H. apply in_app_or in H. unfold left_over, RmUnusedDefs.moved in H. destruct (unused t c).
  - destruct H as [H|H].
    + destruct (kids c); [destruct H|]. cbn in H. destruct H as [H|[]]. right. now symmetry.
    + left. destruct c. right. exact H.
  - destruct H as [H|[]]. cbn in H. rewrite app_nil_r in H. now left.
Qed.
Lemma round_all t ch s : In s (flat_map subs (flat_map (left_over t) ch ++ flat_map (RmUnusedDefs.moved t) ch)) -> exists c, In c ch /\ (In s (subs c) \/ s = T (data c) []).
Proof.
  intros H. apply in_flat_map in H. destruct H as (x & Hx & H). apply in_app_or in Hx. assert (X : exists c, In c ch /\ In x (left_over t c ++ RmUnusedDefs.moved t c)).
  { destruct Hx as [Hx|Hx]; apply in_flat_map in Hx; destruct Hx as (c & Hc & Hx); exists c; split; auto; apply in_or_app; auto. }
  destruct X as (c & Hc & X). exists c. split; [exact Hc|]. apply (round_part t c). apply in_flat_map. eauto.
Qed.
Lemma fine_round k t : fine t -> fine (set_kids k (fun _ => flat_map (left_over t) (kids_of k t) ++ flat_map (RmUnusedDefs.moved t) (kids_of k t)) t).
Proof.
  intros F. destruct (find_sub k t) as [s|] eqn:Es.
  - assert (Kd : kids_of k t = kids s) by (unfold kids_of; now rewrite Es). rewrite Kd. apply find_sub_some in Es. destruct Es as [Hs <-]. destruct (flat_split t s (wf_keys t (fine_wf t F)) Hs) as (pre & post & E1 & E2).
    apply (fine_drop t _ (flat_map (lost t) (kids s))); [exact F|rewrite data_set_kids; apply F| |apply lost_in]. rewrite E1, E2. rewrite <- !app_assoc. apply Permutation_app_head. destruct s as [d ch]. cbn [kids data flat app]. apply perm_skip.
    eapply Permutation_trans; [apply Permutation_app_tail, (round_perm t ch)|]. rewrite <- !app_assoc. apply Permutation_app_head. apply Permutation_app_comm.
  - apply find_sub_none in Es. now rewrite set_kids_out.
Qed.
Lemma fine_nodup t : fine t -> NoDup (keys t). Proof. intros F. exact (wf_keys t (fine_wf t F)). Qed.
Lemma in_sub_flat s c : In c (flat_map subs (kids s)) -> In c (subs s).
Proof. destruct s. intros H. now right. Qed.
Lemma plain_defs_loop b N ks kd k n : forall t t', fine t -> Inv b N ks kd t -> (exists s, In s (subs t) /\ root_key s = k /\ tag (data s) = TEl EDefs) -> defs_loop n k t = Some t' -> Inv b N ks kd t'.
Proof.
  induction n as [|n IH]; intros t t' F I (s & Hs & Ks & Ts) E; cbn [defs_loop] in E; unfold defs_round in E; destruct (existsb _ _); try discriminate; try (injection E as <-; exact I).
  pose proof (fine_round k t F) as F'. assert (Kd : kids_of k t = kids s). { unfold kids_of. assert (X : find_sub k t = Some s) by (rewrite <- Ks; apply find_sub_iff; [now apply fine_nodup|auto]). now rewrite X. }
  refine (IH _ t' F' _ _ E); rewrite Kd in *.
  - assert (Sub : forall c, In c (flat_map subs (kids s)) -> In c (subs t)) by (intros c Hc; apply (subs_trans t s); [exact Hs|now apply in_sub_flat]).
    assert (Kid : forall c, In c (kids s) -> In c (subs t)) by (intros c Hc; apply (subs_trans t s); [exact Hs|now apply kid_in]).
    apply (Inv_set _ _ _ _ _ _ _ s); auto.
    + intros X. assert (s = t) by (apply (sub_unique t); auto using fine_nodup, subs_self; congruence). subst s. rewrite (fine_root t F) in Ts. discriminate.
    + apply (gok_other _ _ EDefs); [exact Ts|discriminate].
    + intros X. destruct (i_svg _ _ _ _ _ I) as (v & Ev & Kv & _). destruct (svg_kid _ _ Ev) as [Hv Tv]. assert (v = s) by (apply (sub_unique t); auto using fine_nodup, kid_in; congruence). subst v. apply is_tag_tag in Tv. congruence.
    + now apply fine_nodup.
    + intros d Hd. apply in_flat_map in Hd. destruct Hd as (c & Hc & Hd). rewrite <- map_data_subs in Hd. apply in_map_iff in Hd. destruct Hd as (u & <- & Hu). destruct (round_all t (kids s) u) as (c0 & Hc0 & [X|X]); [apply in_flat_map; exists c; split; assumption| |].
      * apply (i_nodes _ _ _ _ _ I). apply data_of_sub. apply (subs_trans t c0); [apply Kid; exact Hc0|exact X].
      * subst u. apply (i_nodes _ _ _ _ _ I). exact (data_of_sub c0 t (Kid c0 Hc0)).
    + intros u Hu. destruct (round_all t (kids s) u Hu) as (c0 & Hc0 & [X|X]); [|subst u; intros _ c []]. apply (gok_sub _ _ _ _ _ _ I). apply (subs_trans t c0); auto.
  - pose proof (find_set_kids t s (fun _ => flat_map (left_over t) (kids s) ++ flat_map (RmUnusedDefs.moved t) (kids s)) (fine_nodup t F) Hs) as X. rewrite Ks in X. eexists. split; [exact X|]. split; [exact Ks|exact Ts].
Qed.
Lemma plain_unused_defs b N ks k t : fine t -> Inv b N ks (Some k) t -> remove_unused_defs t <> Some Panic /\ forall t', remove_unused_defs t = Some (Ok t') -> Inv b N ks (Some k) t'.
Proof.
  intros F I. unfold remove_unused_defs. assert (E : exists d, first_defs t = Some d /\ In d (flat t) /\ is_tag EDefs d = true).
  { destruct (i_svg _ _ _ _ _ I) as (s & Es & _ & _ & C). destruct (C k eq_refl) as (c & Hc & _ & Tc & _). unfold first_defs. destruct (find (is_tag EDefs) (flat t)) as [d|] eqn:X; [exists d; split; [reflexivity|now apply find_some in X]|].
    exfalso. apply (find_none _ _ X) in Tc; [discriminate Tc|] || (pose proof (find_none _ _ X (data c)) as Y; rewrite Y in Tc; [discriminate Tc|]). apply data_of_sub, (subs_trans t s); apply kid_in; [now destruct (svg_kid _ _ Es)|exact Hc]. }
  destruct E as (d & -> & Hd & Td). split; [destruct (defs_loop _ _ t); discriminate|]. intros t' E. destruct (defs_loop _ _ t) as [t1|] eqn:E1; [|discriminate]. injection E as <-.
  refine (plain_defs_loop _ _ _ _ _ _ _ _ F I _ E1). rewrite <- map_data_subs in Hd. apply in_map_iff in Hd. destruct Hd as (s & <- & Hs). exists s. split; [exact Hs|]. split; [reflexivity|]. now apply is_tag_tag.
Qed.
