(** Documents without references: the last passes. *)
From Coq Require Import List Bool NArith Arith ZArith String Lia QArith Qcanon Permutation.
From Verif Require Import IdNum Names Num Value Dom DomFacts DomOps Outcome DomRemove SpecDom Stops Shapes NPass APass VLoop Transforms Links TasksSimple JoinStyle Move MoveFacts ResolveUse GroupStyle StyleTable StyleMove Wrap GroupDefsProofs GroupDefsEnd TasksSimpleProofs Props_simple WfPasses WfAll WfStruct PlainTree PlainPasses PlainMove.
Import ListNotations.
Local Open Scope nat_scope.

Definition has_svg (t : tree) : Prop := exists s, In s (kids t) /\ is_tag ESvg (data s) = true.
Lemma has_svg_element t : has_svg t -> exists s, svg_element t = Some s.
Proof. intros (s & Hs & Ts). unfold svg_element. destruct (find _ (kids t)) as [v|] eqn:E; [eauto|]. pose proof (find_none _ _ E s Hs) as X. cbn in X. congruence. Qed.
Definition calmd (N : list nat) (d : ndata) : Prop := (forall x, In x (attrs d) -> link_of (a_val x) = None) /\ (has_id d = true -> In (key d) N).
Record J (N : list nat) (t : tree) : Prop := { j_nodes : forall d, In d (flat t) -> calmd N d; j_svg : has_svg t }.
Lemma Inv_J b N ks kd t : Inv b N ks kd t -> J N t.
Proof.
  intros [_ O _ (s & Es & _)]. split.
  - intros d Hd. split; [|apply (O d Hd)]. intros x Hx. apply (ok_attrs _ _ _ (O d Hd) x Hx).
  - exists s. now apply svg_kid.
Qed.
Lemma svg_tmap f t : (forall d, In d (flat t) -> tag (f d) = tag d) -> has_svg t -> has_svg (tmap f t).
Proof.
  intros H (s & Hs & Ts). exists (tmap f s). split; [destruct t; cbn; now apply in_map|]. rewrite data_tmap. unfold is_tag in *. rewrite H; [exact Ts|]. apply data_of_sub, kid_in, Hs.
Qed.
Lemma svg_set k f t : k <> root_key t -> has_svg t -> has_svg (set_kids k f t).
Proof. intros Nk (s & Hs & Ts). exists (set_kids k f s). rewrite kids_set_other by congruence. split; [now apply in_map|now rewrite data_set_kids]. Qed.
Lemma J_tmap N f t : J N t -> (forall d, In d (flat t) -> tag (f d) = tag d /\ calmd N (f d)) -> J N (tmap f t).
Proof.
  intros [A B] H. split; [|apply svg_tmap; [intros d Hd; now apply H|exact B]]. intros d Hd. rewrite flat_tmap in Hd. apply in_map_iff in Hd. destruct Hd as (x & <- & Hx). now apply H.
Qed.
Lemma keys_root a b : keys a = keys b -> root_key a = root_key b.
Proof. rewrite (keys_kids a), (keys_kids b). congruence. Qed.
Section G.
Variable N : list nat.
Lemma J_nodes_perm t t' g : (forall d, In d (flat t) -> calmd N d) -> (Permutation (flat t') (flat t) \/ Permutation (flat t') (ND g (TEl EG) EmptyString [] :: flat t)) -> forall d, In d (flat t') -> calmd N d.
Proof.
  intros H [P|P] d Hd; apply (Permutation_in _ P) in Hd; [auto|]. destruct Hd as [<-|Hd]; [|auto]. split; [intros x []|discriminate].
Qed.
Lemma J_gather p ks t : fine t -> J N t -> p <> root_key t -> J N (gather p ks (fresh t) t).
Proof.
  intros F [A B] Np. split; [|now apply svg_set]. apply (J_nodes_perm t _ (fresh t) A). unfold gather. destruct (find_sub p t) as [s|] eqn:E; [|apply find_sub_none in E; rewrite set_kids_out by exact E; now left].
  apply find_sub_some in E. destruct E as [Hs <-]. destruct (flat_split t s (wf_keys t (fine_wf t F)) Hs) as (pre & post & E1 & E2). destruct s as [d ch]. cbn [data kids flat] in *. rewrite E1, E2. destruct (pull_perm ks (fresh t) ch) as [P|P].
  - left. apply Permutation_app_head, Permutation_app_tail, perm_skip. exact P.
  - right. exact (perm_mid pre post [_] _ _ d P).
Qed.
Lemma J_to_end p ks t : fine t -> J N t -> p <> root_key t -> J N (to_end p ks t).
Proof.
  intros F [A B] Np. split; [|now apply svg_set]. apply (J_nodes_perm t _ 0 A). left. unfold to_end. destruct (find_sub p t) as [s|] eqn:E; [|apply find_sub_none in E; now rewrite set_kids_out by exact E].
  apply find_sub_some in E. destruct E as [Hs <-]. destruct (flat_split t s (wf_keys t (fine_wf t F)) Hs) as (pre & post & E1 & E2). destruct s as [d ch]. cbn [data kids flat] in *. rewrite E1, E2. apply Permutation_app_head, Permutation_app_tail, perm_skip. apply Permutation_flat_map, filter_perm.
Qed.
Lemma give_group_ok t l : (forall x, In x l -> link_of (a_val x) = None) -> forall d, calmd N d -> exists d', fold_left (fun r x => bind r (fun d' => give_group t d' x)) l (Ok d) = Ok d' /\ calmd N d' /\ tag d' = tag d.
Proof.
  induction l as [|x l IH]; intros H d C; [cbn; eauto|]. cbn [fold_left bind].
  assert (P : exists d1, give_group t d x = Ok d1 /\ calmd N d1 /\ tag d1 = tag d).
  { pose proof (H x (or_introl eq_refl)) as Lx. assert (Q : exists d1, (if put_ok t d x then Ok (with_attrs d (put_attr (attrs d) x)) else Panic) = Ok d1 /\ calmd N d1 /\ tag d1 = tag d).
    { rewrite put_ok_plain by exact Lx. eexists. split; [reflexivity|]. split; [|reflexivity]. destruct C as [C1 C2]. split; [|exact C2]. cbn. intros y Hy. unfold put_attr in Hy. destruct (existsb _ _).
      - apply in_map_iff in Hy. destruct Hy as (w & <- & Hw). destruct (has_name _ _); auto.
      - apply in_app_or in Hy. destruct Hy as [Hy|[<-|[]]]; auto. }
    unfold give_group. destruct (a_name x) as [a|]; [|exact Q]. destruct (aid_eqb_spec a ATransform) as [->|Na]; [|destruct a; try exact Q; congruence].
    assert (M : forall m, exists d1, Ok (map_value d ATransform (VTransform m)) = Ok d1 /\ calmd N d1 /\ tag d1 = tag d).
    { intros m. eexists. split; [reflexivity|]. split; [|reflexivity]. destruct C as [C1 C2]. split; [|exact C2]. cbn. intros y Hy. apply in_map_iff in Hy. destruct Hy as (w & <- & Hw). destruct (has_name _ _); auto. }
    destruct (a_val x); destruct (d_get d ATransform) as [[]|]; try exact Q; try apply M; eauto. }
  destruct P as (d1 & -> & C1 & T1). destruct (IH (fun y Hy => H y (or_intror Hy)) d1 C1) as (d' & E & C' & T'). exists d'. split; [exact E|]. split; [exact C'|congruence].
Qed.
Lemma calm_rm_list l : forall d, calmd N d -> calmd N (d_rm_list d l) /\ tag (d_rm_list d l) = tag d.
Proof.
  induction l as [|a l IH]; intros d C; cbn; [auto|]. apply (IH (d_rm d a)). destruct C as [C1 C2]. split; [|exact C2]. cbn. intros x Hx. apply filter_In in Hx. now apply C1.
Qed.
Lemma hoist_ok g ks l t : J N t -> (forall x, In x l -> link_of (a_val x) = None) -> NoDup (keys t) -> exists t', hoist g ks l t = Ok t' /\ J N t'.
Proof.
  intros Jt Hl Nd. unfold hoist. set (t1 := strip ks (attr_ids l) t).
  assert (J1 : J N t1). { apply J_tmap; [exact Jt|]. intros d Hd. pose proof (j_nodes _ _ Jt d Hd) as C. destruct (among _ _); [destruct (calm_rm_list (attr_ids l) d C); auto|auto]. }
  cbv zeta. destruct (find_data g t1) as [d|] eqn:D; [|eauto]. apply find_data_some in D. destruct D as [Hd Kd]. destruct (give_group_ok t1 l Hl d (j_nodes _ _ J1 d Hd)) as (d' & E & C' & T'). rewrite E. cbn [bind]. eexists. split; [reflexivity|].
  apply J_tmap; [exact J1|]. intros x Hx. destruct (Nat.eqb_spec (key x) g) as [Q|Q]; [|split; [reflexivity|now apply J1]]. split; [|exact C']. rewrite T'. f_equal. apply (data_unique t1); auto; [|congruence].
  unfold t1, strip. rewrite keys_tmap; [exact Nd|]. intros y. destruct (among _ _); [exact (proj1 (ext_rm_list [] _ y))|reflexivity].
Qed.
Lemma style_one_ok t k ks all : fine t -> J N t -> exists t', style_one t k ks all = Ok t' /\ J N t'.
Proof.
  intros F Jt. unfold style_one. destruct (find_sub k t) as [s|] eqn:Es; [|eauto]. destruct (ancestors k [] t) as [anc|]; [|eauto]. cbv zeta. destruct (_ && (2 <=? _)) eqn:Et; [|eauto]. apply andb_prop in Et. destruct Et as [Et _]. apply find_sub_some in Es. destruct Es as [Hs <-]. set (cs := filter (picked ks) (kids s)).
  assert (Nr : root_key s <> root_key t). { intros E. assert (s = t) by (apply (sub_unique t); auto using fine_nodup, subs_self). subst s. unfold is_tag in Et. rewrite (fine_root t F) in Et. discriminate. }
  destruct (table_ok anc (data s) (map data cs)) as ((Q & _) & En).
  assert (L : forall r x, In r (table anc (data s) (map data cs)) -> In x (r_attrs r) -> link_of (a_val x) = None).
  { intros r x Hr Hx. destruct (ro_cand _ _ _ (Q r Hr) x Hx) as (c & Hc & Hxc & _). apply in_map_iff in Hc. destruct Hc as (c0 & <- & Hc). apply filter_In in Hc. apply (j_nodes _ _ Jt (data c0)); [|exact Hxc]. apply data_of_sub, (subs_trans t s); [exact Hs|apply kid_in, Hc]. }
  destruct (table anc (data s) (map data cs)) as [|r rs]; [eauto|].
  set (first := if count_flags (r_flags r) =? List.length ks then _ else _).
  assert (Fi : exists t1 p rest, first = Ok (t1, p, rest) /\ J N t1 /\ fine t1 /\ p <> root_key t1 /\ incl rest (r :: rs)).
  { assert (Lk : forall (u : tree) x j, In x (r_attrs r) -> link_of (a_val x) = Some j -> In j (keys u)) by (intros u x j Hx X; exfalso; rewrite (L r x (or_introl eq_refl) Hx) in X; discriminate X).
    unfold first. destruct (_ =? _); [destruct all|].
    - pose proof (fine_to_end (root_key s) ks t F) as F1. destruct (hoist_ok (root_key s) ks (r_attrs r) (to_end (root_key s) ks t) (J_to_end _ _ _ F Jt Nr)) as (t1 & E & J1); [intros x Hx; apply (L r); auto with datatypes|now apply fine_nodup|]. rewrite E. cbn [bind]. exists t1, (root_key s), rs. split; [reflexivity|]. split; [exact J1|].
      destruct (fine_hoist _ _ _ _ _ F1 (Lk _) E) as [F2 K2]. split; [exact F2|]. split; [|apply incl_tl, incl_refl]. rewrite (keys_root _ _ K2). unfold to_end. now rewrite root_set_kids.
    - pose proof (fine_gather (root_key s) ks t F) as F1. destruct (hoist_ok (fresh t) ks (r_attrs r) (gather (root_key s) ks (fresh t) t) (J_gather _ _ _ F Jt Nr)) as (t1 & E & J1); [intros x Hx; apply (L r); auto with datatypes|now apply fine_nodup|]. rewrite E. cbn [bind]. exists t1, (fresh t), rs. split; [reflexivity|]. split; [exact J1|].
      destruct (fine_hoist _ _ _ _ _ F1 (Lk _) E) as [F2 K2]. split; [exact F2|]. split; [|apply incl_tl, incl_refl]. rewrite (keys_root _ _ K2). unfold gather. rewrite root_set_kids. intros X. apply (fresh_not t). rewrite X. rewrite keys_kids. now left.
    - exists t, (root_key s), (r :: rs). refine (conj eq_refl (conj Jt (conj F (conj Nr (incl_refl _))))). }
  destruct Fi as (t1 & p & rest & -> & J1 & F1 & Np & In1). cbn [bind]. destruct rest as [|r2 rest]; [eauto|]. destruct (En r2 (In1 r2 (or_introl eq_refl))) as [En2 (f & Ef)]. destruct (longest_range_ok r2 f En2 Ef) as (i & n & -> & _).
  apply hoist_ok; [now apply J_gather|intros x Hx; apply (L r2); auto with datatypes|]. apply fine_nodup, fine_gather, F1.
Qed.
Lemma visit_style_ok : forall s t, fine t -> J N t -> exists t', visit_style s t = Ok t' /\ J N t'.
Proof.
  induction s as [d ch IH] using tree_ind'. intros t F Jt. cbn [visit_style].
  match goal with |- exists _, bind (?go ch t [] true) _ = _ /\ _ => set (g := go) end.
  assert (G : forall l, incl l ch -> forall t ks all, fine t -> J N t -> exists t' ks' all', g l t ks all = Ok (t', ks', all') /\ fine t' /\ J N t').
  { induction l as [|c l IHl]; intros Inc u ks all Fu Ju; [exists u, ks, all; split; [reflexivity|auto]|]. cbn [g]. fold g. assert (Inc' : incl l ch) by (intros x Hx; apply Inc; now right).
    destruct (negb _); [apply IHl; auto|]. destruct (_ || _); [apply IHl; auto|].
    assert (X : exists u', match kids c with [] => Ok u | _ => visit_style c u end = Ok u' /\ fine u' /\ J N u').
    { destruct (kids c); [eauto|]. rewrite Forall_forall in IH. destruct (IH c (Inc c (or_introl eq_refl)) u Fu Ju) as (u' & E & J'). exists u'. split; [exact E|]. split; [exact (fine_visit_style _ _ _ Fu E)|exact J']. }
    destruct X as (u' & -> & F' & J'). cbn [bind]. apply IHl; auto. }
  destruct (G ch (incl_refl _) t [] true F Jt) as (t' & ks' & all' & -> & F' & J'). cbn [bind]. now apply style_one_ok.
Qed.
Lemma plain_group_style t : fine t -> J N t -> exists t', group_by_style t = Ok t' /\ J N t'.
Proof. intros F Jt. unfold group_by_style. destruct (has_svg_element t (j_svg _ _ Jt)) as (s & ->). now apply visit_style_ok. Qed.
(** ids *)
Lemma plain_ids t : J N t -> J N (remove_unreferenced_ids t).
Proof.
  intros Jt. apply J_tmap; [exact Jt|]. intros d Hd. pose proof (j_nodes _ _ Jt d Hd) as C. destruct (_ && _); [|auto]. split; [reflexivity|]. destruct C as [C1 C2]. split; [exact C1|]. cbn. discriminate.
Qed.
Lemma smap_svg {A} (f : A -> ndata -> ndata * A) : (forall s d, tag (fst (f s d)) = tag d) -> forall t s, has_svg t -> has_svg (fst (smap f s t)).
Proof.
  intros H. assert (D : forall t s, tag (data (fst (smap f s t))) = tag (data t)) by (intros [d ch] s; rewrite smap_T; cbn; apply H).
  assert (G : forall l s c, In c l -> exists c', In c' (fst (smap_forest f s l)) /\ tag (data c') = tag (data c)).
  { induction l as [|x l IH]; intros s c Hc; [destruct Hc|]. rewrite smap_forest_cons. destruct Hc as [<-|Hc]; [eexists; split; [left; reflexivity|apply D]|]. destruct (IH (snd (smap f s x)) c Hc) as (c' & Hc' & T'). exists c'. split; [right; exact Hc'|exact T']. }
  intros [d ch] s (v & Hv & Tv). rewrite smap_T. cbn in Hv. destruct (G ch (snd (f s d)) v Hv) as (v' & Hv' & T'). exists v'. split; [exact Hv'|]. unfold is_tag in *. now rewrite T'.
Qed.
Lemma plain_trim t : NoDup (keys t) -> J N t -> (Z.of_nat (List.length N) < 780965692)%Z -> trim_ids t <> Panic /\ forall t', trim_ids t = Ok t' -> has_svg t'.
Proof.
  intros Nd Jt Sz. split.
  - intros E. apply C10_trim_ids_panics_only_when_exhausted in E. assert (L : List.length (filter svg_with_id (flat t)) <= List.length N); [|lia].
    rewrite <- (map_length key). apply NoDup_incl_length.
    + unfold keys in Nd. clear - Nd. induction (flat t) as [|d l IH]; [constructor|]. cbn in *. inversion Nd as [|? ? X Y]; subst. destruct (svg_with_id d); [|auto]. cbn. constructor; [|auto]. intros Z. apply X. apply in_map_iff in Z. destruct Z as (y & <- & Hy). apply filter_In in Hy. now apply in_map.
    + intros k Hk. apply in_map_iff in Hk. destruct Hk as (d & <- & Hd). apply filter_In in Hd. destruct Hd as [Hd Sd]. apply (j_nodes _ _ Jt d Hd). unfold svg_with_id in Sd. now apply andb_prop in Sd.
  - intros t' E. unfold trim_ids in E. assert (X : has_svg (fst (smap trim_node (Some num_new) t))).
    { apply smap_svg; [|apply Jt]. intros [n|] d; cbn; [destruct (_ && _)|]; reflexivity. }
    destruct (smap trim_node (Some num_new) t) as [t1 [n|]]; [|discriminate]. injection E as <-. exact X.
Qed.
End G.
(** The rest. *)
Lemma upd_svg k f t : (forall d, tag (f d) = tag d) -> has_svg t -> has_svg (upd k f t).
Proof. intros H S. unfold upd. apply svg_tmap; [|exact S]. intros d _. destruct (Nat.eqb _ _); auto. Qed.
Lemma end_version t : has_svg t -> exists t', remove_version t = Ok t' /\ has_svg t'.
Proof. intros S. unfold remove_version, on_svg. destruct (has_svg_element t S) as (s & ->). eexists. split; [reflexivity|]. now apply upd_svg. Qed.
Lemma end_xmlns b t : has_svg t -> exists t', fix_xmlns_attribute b t = Ok t' /\ has_svg t'.
Proof. intros S. unfold fix_xmlns_attribute, on_svg. destruct (has_svg_element t S) as (s & ->). cbv zeta. destruct (_ && _); [eexists; split; [reflexivity|now apply upd_svg]|]. destruct (_ && _); [eexists; split; [reflexivity|now apply upd_svg]|eauto]. Qed.
Lemma remove_svg k t : NoDup (keys t) -> has_svg t -> (forall d, In d (flat t) -> key d = k -> is_tag ESvg d = false) -> has_svg (remove k t).
Proof.
  intros Nd (s & Hs & Ts) H. unfold remove. rewrite unlink_eq. match goal with |- has_svg (detach _ (tmap ?g _)) => set (f := g) end. exists (detach k (tmap f s)). split.
  - rewrite GroupDefsProofs.detach_kids. apply in_flat_map. exists (tmap f s). split; [destruct t; cbn in *; now apply in_map|]. destruct (Nat.eqb_spec (root_key (tmap f s)) k) as [E|_]; [|now left]. exfalso. rewrite (H (data s)) in Ts; [discriminate|apply data_of_sub, kid_in, Hs|]. unfold root_key in E. now rewrite data_tmap in E.
  - rewrite MoveFacts.data_detach, data_tmap. exact Ts.
Qed.
Lemma end_empty_defs t : NoDup (keys t) -> has_svg t -> exists t', remove_empty_defs t = Ok t' /\ has_svg t'.
Proof.
  intros Nd S. unfold remove_empty_defs, on_svg. destruct (has_svg_element t S) as (s & Es). rewrite Es. destruct (find _ (kids s)) as [c|] eqn:E; [|eauto]. eexists. split; [reflexivity|]. apply find_some in E. destruct E as [Hc E]. apply andb_prop in E. destruct E as [Tc _]. destruct (svg_kid _ _ Es) as [Hs _].
  apply remove_svg; [exact Nd|exact S|]. intros d Hd Kd. assert (d = data c). { apply (data_unique t); auto. apply data_of_sub, (subs_trans t s); now apply kid_in. } subst d. apply (tag_other EDefs); [discriminate|exact Tc].
Qed.
Lemma splice_svg k t s : NoDup (keys t) -> In s (subs t) -> root_key s = k -> is_tag EDefs (data s) = true -> has_svg t -> has_svg (unlink [k] (splice k t)).
Proof.
  intros Nd Hs Ks Ts (v & Hv & Tv). rewrite unlink_eq. apply svg_tmap; [reflexivity|]. exists (splice k v). rewrite data_splice. split; [|exact Tv]. destruct t as [d ch]. cbn in *. apply in_flat_map. exists v. split; [exact Hv|]. destruct (Nat.eqb_spec (root_key v) k) as [E|_]; [|now left].
  exfalso. assert (v = s) by (apply (sub_unique (T d ch)); auto; [apply kid_in; exact Hv|congruence]). subst v. rewrite (tag_other EDefs ESvg) in Tv; auto; discriminate.
Qed.
Lemma end_ungroup_defs t : fine t -> has_svg t -> has_svg (ungroup_defs t).
Proof.
  intros F S. unfold ungroup_defs. assert (G : forall ks st, ~ In (root_key (fst st)) ks -> fine (fst st) -> has_svg (fst st) -> has_svg (fst (fold_left ungroup_defs_step ks st))).
  { induction ks as [|k ks IH]; intros [s go] Nk Fs Ss; [exact Ss|]. cbn [fold_left fst] in *. apply IH; unfold ungroup_defs_step; (destruct go; cbn [negb]; [|auto with datatypes]); (destruct (find_sub k s) as [x|] eqn:Ex; [|auto with datatypes]); (destruct (is_tag EDefs (data x) && _) eqn:Q; [|auto with datatypes]); cbn [fst].
    - rewrite root_splice. auto with datatypes.
    - apply fine_splice; [exact Fs|]. intros X. apply Nk. now left.
    - apply find_sub_some in Ex. apply andb_prop in Q. apply (splice_svg k s x); [now apply fine_nodup| | | |exact Ss]; tauto. }
  apply G; [|exact F|exact S]. cbn. pose proof (fine_nodup t F) as Nd. rewrite keys_kids in *. cbn. now inversion Nd.
Qed.
Lemma end_default_transform t : has_svg t -> has_svg (remove_default_transform t).
Proof. apply svg_tmap. intros d _. now destruct (is_default_transform _). Qed.
Lemma end_join wr m t : has_svg t -> has_svg (join_style_attributes wr m t).
Proof. unfold join_style_attributes. destruct m; auto; apply svg_tmap; intros d _; destruct (wants_join _ d); reflexivity. Qed.
