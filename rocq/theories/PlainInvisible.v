(** Documents without references: invisible elements are removed. *)
From Coq Require Import List Bool NArith Arith ZArith String Lia QArith Qcanon Permutation.
From Verif Require Import Names Num Value Dom DomFacts DomOps Outcome DomRemove SpecDom Stops Shapes NPass APass VLoop Links TasksSimple RmUnusedDefs RmInvisible WfAll WfStruct PlainTree PlainPasses PlainSkip PlainMove.
Import ListNotations.
Local Open Scope nat_scope.

Lemma display_in t s k : In k (display_nodes t s) -> exists c, In c (subs s) /\ root_key c = k /\ disp_none (data c) = true.
Proof.
  induction s as [d ch IH] using tree_ind'. rewrite Forall_forall in IH. cbn [display_nodes]. intros H. apply in_flat_map in H. destruct H as (c & Hc & H). destruct (negb _); [destruct H|]. destruct (disp_none (data c) && _) eqn:E.
  - apply andb_prop in E. destruct E as [E _]. destruct (existsb _ _); [destruct H|]. destruct H as [<-|[]]. exists c. split; [right; apply in_flat_map; exists c; split; [exact Hc|apply subs_self]|auto].
  - destruct (IH c Hc H) as (x & Hx & X). exists x. split; [right; apply in_flat_map; eauto|exact X].
Qed.
Section I.
Variables (b : bool) (N : list nat) (ks k0 : nat).
Notation Inv := (Inv b N ks (Some k0)).
Notation guard := (guarded ks (Some k0)).
Lemma inv_display x : Inv (fst x) -> Inv (fst (process_display x)).
Proof.
  destruct x as [t r]. cbn. intros I. apply Inv_remove_nodes; [exact I|]. intros k Hk G. apply display_in in Hk. destruct Hk as (c & Hc & <- & D). destruct (guard_tag _ _ _ _ t (data c) I (data_of_sub c t Hc) G) as [_ X].
  unfold disp_none in D. destruct (d_get (data c) ADisplay) as [v|] eqn:E; [|discriminate]. apply has_of_get in E. congruence.
Qed.
Lemma no_links t k : okt b N t -> linked_nodes k t = [].
Proof.
  intros O. unfold linked_nodes. assert (H : forall l, (forall d, In d l -> okn b N d) -> flat_map (fun d => map (fun a => (key d, a_name a)) (filter (refers k) (attrs d))) l = []); [|now apply H].
  induction l as [|d l IH]; intros H; [reflexivity|]. cbn. rewrite IH by (intros; apply H; now right). rewrite app_nil_r. assert (E : filter (refers k) (attrs d) = []); [|now rewrite E].
  pose proof (ok_attrs _ _ _ (H d (or_introl eq_refl))) as A. clear - A. induction (attrs d) as [|x l IH]; [reflexivity|]. cbn. destruct (A x (or_introl eq_refl)) as [L _]. unfold refers at 1. rewrite L. apply IH. intros; apply A; now right.
Qed.
Lemma inv_linked l : forall t, Inv t -> (forall k, In k l -> ~ In k guard) -> Inv (fold_left remove_linked l t).
Proof.
  induction l as [|k l IH]; intros t I H; [exact I|]. cbn. apply IH; [|intros; apply H; now right]. unfold remove_linked. rewrite no_links by exact (i_nodes _ _ _ _ _ I). cbn. apply Inv_remove; [exact I|apply H; now left].
Qed.
Lemma kid_guard t s c : Inv t -> In s (subs t) -> root_key s <> ks -> root_key s <> root_key t -> In c (kids s) -> ~ In (root_key c) guard.
Proof.
  intros I Hs N1 N2 Hc G. destruct (i_svg _ _ _ _ _ I) as (v & Ev & Kv & _ & C). destruct (svg_kid _ _ Ev) as [Hv _]. destruct G as [G|[G|[]]].
  - assert (s = t) by (apply (kid_parent t (i_keys _ _ _ _ _ I) s t c v); auto using subs_self; congruence). now subst s.
  - destruct (C k0 eq_refl) as (x & Hx & Kx & _). assert (s = v) by (apply (kid_parent t (i_keys _ _ _ _ _ I) s v c x); auto using kid_in; congruence). now subst s.
Qed.
Lemma root_remove_nodes l : forall t, root_key (remove_nodes l t) = root_key t.
Proof. unfold remove_nodes. induction l as [|k l IH]; intros t; [reflexivity|]. cbn. rewrite IH. apply root_key_remove. Qed.
Lemma inv_clip stops l : forall t empty, Inv t -> (forall k, In k l -> ~ In k guard /\ k <> root_key t) -> (forall k, In k empty -> ~ In k guard) ->
  Inv (fst (clip_rounds stops l t empty)) /\ forall k, In k (snd (clip_rounds stops l t empty)) -> ~ In k guard.
Proof.
  induction l as [|k l IH]; intros t empty I H E; cbn [clip_rounds]; [now split|]. destruct (find_sub k t) as [s|] eqn:Es; [|apply IH; auto; intros; apply H; now right].
  apply find_sub_some in Es. destruct Es as [Hs Ks]. destruct (H k (or_introl eq_refl)) as [G1 G2].
  set (bad := map root_key _). assert (I1 : Inv (remove_nodes bad t)).
  { apply Inv_remove_nodes; [exact I|]. intros j Hj. apply in_map_iff in Hj. destruct Hj as (c & <- & Hc). apply filter_In in Hc. apply (kid_guard t s); [exact I|exact Hs| |congruence|tauto]. intros X. apply G1. left. congruence. }
  cbv zeta. set (e1 := match find_sub k (remove_nodes bad t) with Some (T _ []) => _ | _ => _ end). assert (E1 : forall j, In j e1 -> ~ In j guard).
  { unfold e1. destruct (find_sub k _) as [[d [|c ch]]|]; auto. intros j Hj. apply in_app_or in Hj. destruct Hj as [Hj|[<-|[]]]; auto. }
  destruct (stops && _); [now split|]. apply IH; auto. intros j Hj. rewrite root_remove_nodes. apply H. now right.
Qed.
Lemma inv_clips stops x : Inv (fst x) -> tag (data (fst x)) = TRoot -> Inv (fst (process_clip_paths stops x)).
Proof.
  destruct x as [t r]. cbn [fst]. intros I Rt. unfold process_clip_paths. destruct (inv_clip stops (tag_keys EClipPath t) t [] I) as [I1 E1]; [|intros k []|].
  - intros k Hk. apply in_map_iff in Hk. destruct Hk as (d & <- & Hd). apply filter_In in Hd. destruct Hd as [Hd Td]. split; [apply (not_guard b N ks _ t); auto; apply (tag_other EClipPath); auto; discriminate|].
    intros E. assert (d = data t) by (apply (data_unique t); auto using flat_self; apply I). subst d. unfold is_tag in Td. rewrite Rt in Td. discriminate.
  - destruct (clip_rounds _ _ _ _) as [u e]. cbn [fst snd] in *. apply inv_linked; [exact I1|]. intros k Hk. apply E1. now apply in_rev.
Qed.
Lemma filter_none {A} (p : A -> bool) l : (forall x, In x l -> p x = false) -> filter p l = [].
Proof. induction l as [|x l IH]; intros H; [reflexivity|]. cbn. rewrite (H x (or_introl eq_refl)). apply IH. intros; apply H; now right. Qed.
Lemma not_filter t s : okt b N t -> In s (subs t) -> is_tag EFilter (data s) = false.
Proof. intros O Hs. pose proof (ok_quiet _ _ _ (O (data s) (data_of_sub s t Hs))) as (_ & _ & Q). destruct (is_tag EFilter (data s)) eqn:E; [|reflexivity]. apply is_tag_tag in E. contradiction. Qed.
Lemma inv_filters x : Inv (fst x) -> process_empty_filter x = (fst x, snd x || false).
Proof.
  destruct x as [t r]. cbn. intros I. assert (E : filter_keys t = []); [|now rewrite E]. unfold filter_keys. rewrite filter_none; [reflexivity|]. intros s Hs. now rewrite (not_filter t s (i_nodes _ _ _ _ _ I) Hs).
Qed.
Lemma inv_tag_drain e p t : e <> ESvg -> e <> EDefs -> (forall u s, p u s = true -> is_tag e (data s) = true) -> Inv t -> Inv (fst (drain p t)).
Proof. intros A B H I. apply Inv_drain; [exact I|]. intros u s Iu Hs E. apply H in E. apply (not_guard b N ks _ u (data s)); auto using data_of_sub; apply (tag_other e); auto. Qed.
Lemma inv_gradients x : Inv (fst x) -> process_gradients x = Ok (fst x, snd x || false).
Proof.
  destruct x as [t r]. cbn. intros I. assert (E : forall n, gradient_keys n t = []). { intros n. unfold gradient_keys. rewrite filter_none; [reflexivity|]. intros s Hs. now rewrite (no_grad b N t (i_nodes _ _ _ _ _ I) _ (data_of_sub s t Hs)). }
  now rewrite !E.
Qed.
Lemma plain_invisible stops t : fine t -> Inv t -> remove_invisible stops t <> Some Panic /\ forall t', remove_invisible stops t = Some (Ok t') -> Inv t'.
Proof.
  intros F I. unfold remove_invisible. cbv zeta.
  set (x1 := process_display (t, false)). assert (F1 : fine (fst x1)) by (now apply fine_remove_nodes). assert (I1 : Inv (fst x1)) by (now apply inv_display). clearbody x1.
  set (x2 := RmInvisible.process_paths x1). assert (F2 : fine (fst x2)) by (now apply fine_drain). assert (I2 : Inv (fst x2)).
  { apply (inv_tag_drain EPath); [discriminate|discriminate| |exact I1]. intros u s X. unfold path_invisible in X. now apply andb_prop in X. } clearbody x2.
  set (x3 := process_clip_paths stops x2). assert (F3 : fine (fst x3)).
  { unfold x3, process_clip_paths. destruct x2 as [t2 b2]. pose proof (fine_clip_rounds stops (tag_keys EClipPath t2) t2 [] F2) as Q. destruct (clip_rounds _ _ _ _) as [u e]. cbn [fst] in *. now apply fine_remove_linked. }
  assert (I3 : Inv (fst x3)) by (apply inv_clips; [exact I2|apply F2]). clearbody x3.
  rewrite (inv_filters x3 I3). set (x4 := (fst x3, snd x3 || false)). assert (F4 : fine (fst x4)) by exact F3. assert (I4 : Inv (fst x4)) by exact I3. clearbody x4.
  set (x5 := process_fe_color_matrix x4). assert (F5 : fine (fst x5)) by (now apply fine_drain). assert (I5 : Inv (fst x5)).
  { apply (inv_tag_drain EFilter); [discriminate|discriminate| |exact I4]. intros u s X. unfold default_matrix in X. now apply andb_prop in X. } clearbody x5.
  set (x6 := process_use x5). assert (F6 : fine (fst x6)) by (now apply fine_drain). assert (I6 : Inv (fst x6)).
  { apply (inv_tag_drain EUse); [discriminate|discriminate| |exact I5]. intros u s X. unfold use_invisible in X. now apply andb_prop in X. } clearbody x6.
  rewrite (inv_gradients x6 I6). set (x7 := (fst x6, snd x6 || false)). assert (F7 : fine (fst x7)) by exact F6. assert (I7 : Inv (fst x7)) by exact I6. clearbody x7.
  assert (F8 : fine (fst (process_rect x7))) by (now apply fine_drain). assert (I8 : Inv (fst (process_rect x7))).
  { apply (inv_tag_drain ERect); [discriminate|discriminate| |exact I7]. intros u s X. unfold rect_invisible in X. now apply andb_prop in X. }
  destruct (snd _); [exact (plain_unused_defs b N ks k0 _ F8 I8)|]. split; [discriminate|]. intros t' E. injection E as <-. exact I8.
Qed.
End I.
