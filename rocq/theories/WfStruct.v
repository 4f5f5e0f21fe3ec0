(** Every pass keeps a document well-formed: the passes that move or remove elements. *)
From Coq Require Import List Bool NArith Arith ZArith String Lia QArith Qcanon Permutation.
From Verif Require Import Names Num Value Dom DomFacts DomOps Outcome DomRemove Stops Transforms VLoop Shapes NPass APass TasksSimple TasksSimpleProofs Move MoveFacts RmUnusedDefs GroupDefs GroupDefsProofs GroupDefsEnd SpecGroupDefs Props_groupdefs Dupl DuplFacts Regroup ResolveUse Ungroup Wrap GroupStyle StyleTable StyleMove RmInvisible WfAll WfPasses WfPasses2.
Import ListNotations.
Local Open Scope nat_scope.

(** ** Tools *)
Lemma fine_drop t t' X : fine t -> tag (data t') = TRoot -> Permutation (flat t) (flat t' ++ X) -> (forall x, In x X -> ~ In (key x) (targets t)) -> fine t'.
Proof.
  intros [[N W] A R] R' P H.
  assert (I : forall d, In d (flat t') -> In d (flat t)) by (intros d Hd; apply (Permutation_in d (Permutation_sym P)), in_or_app; auto).
  split; [split| |exact R'].
  - unfold keys in *. apply (Permutation_NoDup (Permutation_map key P)) in N. rewrite map_app in N. apply NoDup_app_inv in N. apply N.
  - intros k Hk. assert (Hk' : In k (targets t)). { rewrite targets_flat in *. apply in_flat_map in Hk. destruct Hk as (d & Hd & Hk). apply in_flat_map. eauto. }
    pose proof (W k Hk') as Q. apply in_map_iff in Q. destruct Q as (d & Kd & Hd). apply (Permutation_in d P), in_app_or in Hd. destruct Hd as [Hd|Hd]; [rewrite <- Kd; now apply in_map|]. exfalso. apply (H d Hd). now rewrite Kd.
  - apply Forall_forall. intros d Hd. exact (proj1 (Forall_forall _ _) A d (I d Hd)).
Qed.
Lemma fine_perm t t' : fine t -> tag (data t') = TRoot -> Permutation (flat t) (flat t') -> fine t'.
Proof. intros F R P. apply (fine_drop t t' []); [exact F|exact R|now rewrite app_nil_r|intros x []]. Qed.
Lemma fine_add t t' x : fine t -> tag (data t') = TRoot -> ~ In (key x) (keys t) -> attrs x = [] -> Permutation (flat t') (x :: flat t) -> fine t'.
Proof.
  intros [[N W] A R] R' K E P. split; [split| |exact R'].
  - unfold keys. apply (Permutation_NoDup (Permutation_map key (Permutation_sym P))). cbn. constructor; assumption.
  - intros k Hk. rewrite targets_flat in Hk. apply in_flat_map in Hk. destruct Hk as (d & Hd & Hk). apply (Permutation_in d P) in Hd. unfold keys. apply (Permutation_in k (Permutation_map key (Permutation_sym P))). cbn. right.
    destruct Hd as [<-|Hd]; [apply node_links_iff in Hk; destruct Hk as (a & Ha & _); rewrite E in Ha; destruct Ha|]. apply W. exact (node_links_in t d k Hd Hk).
  - apply Forall_forall. intros d Hd. apply (Permutation_in d P) in Hd. destruct Hd as [<-|Hd]; [unfold attrs_nodup; rewrite E; constructor|]. exact (proj1 (Forall_forall _ _) A d Hd).
Qed.

(** ** remove_unused_defs *)
Lemma flat_map_perm_app {A B} (f g : A -> list B) l : Permutation (flat_map (fun x => f x ++ g x) l) (flat_map f l ++ flat_map g l).
Proof.
  induction l as [|x l IH]; [constructor|]. cbn. rewrite <- !app_assoc. apply Permutation_app_head. eapply Permutation_trans; [apply Permutation_app_head, IH|]. apply Permutation_app_swap_app.
Qed.
Definition lost (t c : tree) : list ndata := if RmUnusedDefs.unused t c then match kids c with [] => [data c] | _ => [] end else [].
Lemma round_perm t ch : Permutation (flat_map flat ch) (flat_map flat (flat_map (left_over t) ch ++ flat_map (RmUnusedDefs.moved t) ch) ++ flat_map (lost t) ch).
Proof.
  rewrite flat_map_app. rewrite !flat_map_flat_map. eapply Permutation_trans; [|apply Permutation_app_tail, flat_map_perm_app]. eapply Permutation_trans; [|apply flat_map_perm_app].
  apply Permutation_refl'. apply flat_map_ext. intros c. unfold left_over, RmUnusedDefs.moved, lost. destruct (RmUnusedDefs.unused t c); destruct c as [d [|x l]]; cbn; rewrite ?app_nil_r; reflexivity.
Qed.
Lemma lost_in t ch x : In x (flat_map (lost t) ch) -> ~ In (key x) (targets t).
Proof.
  intros H. apply in_flat_map in H. destruct H as (c & _ & H). unfold lost, RmUnusedDefs.unused in H. destruct (is_used (root_key c) t) eqn:E; [destruct H|]. cbn in H. destruct (negb _); [|destruct H]. destruct (kids c); [|destruct H]. destruct H as [<-|[]].
  intros X. apply is_used_iff in X. unfold root_key in E. congruence.
Qed.
Lemma fine_set_kids k f t : fine t -> (forall ch, Permutation (flat_map flat ch) (flat_map flat (f ch))) -> fine (set_kids k f t).
Proof.
  intros F H. destruct (find_sub k t) as [s|] eqn:E.
  - apply find_sub_some in E. destruct E as [Hs <-]. destruct (flat_split t s (wf_keys t (fine_wf t F)) Hs) as (pre & post & E1 & E2). apply (fine_perm t); [exact F|rewrite data_set_kids; apply F|]. rewrite E1, E2. apply Permutation_app_head, Permutation_app_tail. destruct s as [d ch]. cbn. apply perm_skip, H.
  - apply find_sub_none in E. now rewrite set_kids_out.
Qed.
Lemma fine_defs_loop n k : forall t t', fine t -> defs_loop n k t = Some t' -> fine t'.
Proof.
  induction n as [|n IH]; intros t t' F E; cbn [defs_loop] in E; unfold defs_round in E; destruct (existsb _ _); try discriminate; try (injection E as <-; exact F).
  refine (IH _ t' _ E). destruct (find_sub k t) as [s|] eqn:Es.
  - assert (Kd : kids_of k t = kids s) by (unfold kids_of; now rewrite Es). rewrite Kd. apply find_sub_some in Es. destruct Es as [Hs <-]. destruct (flat_split t s (wf_keys t (fine_wf t F)) Hs) as (pre & post & E1 & E2).
    apply (fine_drop t _ (flat_map (lost t) (kids s))); [exact F|rewrite data_set_kids; apply F| |apply lost_in]. rewrite E1, E2. rewrite <- !app_assoc. apply Permutation_app_head. destruct s as [d ch]. cbn [kids data flat app]. apply perm_skip.
    eapply Permutation_trans; [apply Permutation_app_tail, (round_perm t ch)|]. rewrite <- !app_assoc. apply Permutation_app_head. apply Permutation_app_comm.
  - apply find_sub_none in Es. now rewrite set_kids_out.
Qed.
Lemma fine_unused_defs t t' : fine t -> remove_unused_defs t = Some (Ok t') -> fine t'.
Proof.
  intros F E. unfold remove_unused_defs in E. destruct (first_defs t) as [d|]; [|discriminate]. destruct (defs_loop _ _ t) as [t1|] eqn:E1; [|discriminate]. cbn in E. injection E as <-. exact (fine_defs_loop _ _ _ _ F E1).
Qed.

(** ** group_defs *)
Lemma data_detach k t : data (detach k t) = data t. Proof. destruct t; reflexivity. Qed.
Lemma data_move k m t : data (move k m t) = data t.
Proof. unfold move. destruct (find_sub k t); [|reflexivity]. rewrite data_set_kids. apply data_detach. Qed.
Lemma tag_resolve k t : tag (data (resolve_attrs k t)) = tag (data t).
Proof. rewrite resolve_tmap, data_tmap. exact (sig_tag _ _ (resolver_sig k t (data t))). Qed.
Lemma tag_remove k t : tag (data (remove k t)) = tag (data t).
Proof. unfold remove. rewrite data_detach, unlink_eq, data_tmap. reflexivity. Qed.
Lemma tag_remove_nodes ks : forall t, tag (data (remove_nodes ks t)) = tag (data t).
Proof. unfold remove_nodes. induction ks as [|k ks IH]; intros t; [reflexivity|]. cbn. rewrite IH. apply tag_remove. Qed.
Lemma fine_group_defs t t' : fine t -> group_defs t = Ok t' -> fine t'.
Proof.
  intros F E. destruct (svg_element t) as [svg|] eqn:Es; [|unfold group_defs in E; rewrite Es in E; discriminate].
  assert (Hok : group_defs t <> Panic) by congruence.
  destruct (C13_structure t svg (fine_wf t F) (fine_root t F) Es Hok) as (t1 & svg' & main & rest & E1 & W & _ & _ & _ & _ & _ & _ & Gone & Fw & Bw). rewrite E1 in E. injection E as ->.
  split; [exact W| |].
  - apply Forall_forall. intros d' Hd'. destruct (Bw d' Hd') as [(d & Hd & (K & _) & _)|(_ & N & _)]; [|unfold attrs_nodup; rewrite N; constructor].
    assert (Or : ~ is_defs_el d \/ key d = root_key main).
    { destruct (is_tag EDefs d) eqn:Td; [|left; intros X; apply is_tag_iff in X; congruence]. apply is_tag_iff in Td. destruct (Nat.eq_dec (key d) (root_key main)) as [X|X]; [auto|]. exfalso. apply (Gone d Hd Td X). rewrite <- K. now apply in_map. }
    destruct (Fw d Hd Or) as (d2 & H2 & (K2 & _) & N2 & _). assert (d2 = d') by (apply (data_unique t'); [apply W|assumption..|congruence]). subst d2. apply N2. exact (proj1 (Forall_forall _ _) (fine_wfa t F) d Hd).
  - unfold group_defs in E1. rewrite Es in E1. destruct (main_defs svg t) as [m t1] eqn:Em. destruct (moves_ok _ _ _); [|discriminate]. injection E1 as <-. rewrite tag_remove_nodes.
    assert (G3 : forall ks s, tag (data (fold_left (fun t k => move k m t) ks s)) = tag (data s)) by (induction ks as [|k ks IH]; intros s; [reflexivity|]; cbn; now rewrite IH, data_move).
    assert (G2 : forall ks s, tag (data (fold_left (move_step m) ks s)) = tag (data s)) by (induction ks as [|k ks IH]; intros s; [reflexivity|]; cbn; unfold move_step at 2; now rewrite IH, data_move, tag_resolve).
    rewrite G3, G2. rewrite <- (fine_root t F). f_equal. unfold main_defs in Em. destruct (first_defs t) as [d|]; [|injection Em as <- <-; apply data_set_kids].
    destruct (kids svg) as [|c l]; [|destruct (Nat.eqb _ _)]; injection Em as <- <-; try reflexivity; (destruct (find_sub (key d) t); [rewrite data_set_kids; apply data_detach|reflexivity]).
Qed.

(** ** remove_dupl_* *)
Lemma fine_relink k2 n1 t t' : fine t -> In n1 (flat t) -> relink k2 n1 t = Ok t' -> fine t' /\ keys t' = keys t.
Proof.
  intros F Hn E. unfold relink in E. destruct (forallb _ _); [|discriminate]. destruct (forallb _ _); [|discriminate]. injection E as <-. split; [|apply keys_tmap; intros d; now destruct (String.eqb _ _)].
  apply fine_tmap; [exact F|]. intros d Hd. destruct (String.eqb _ _); [apply ext_refl|]. apply ext_map.
  - intros a _. unfold relink_attr. destruct (refers k2 a); [|reflexivity]. destruct (a_name a) eqn:Q; [reflexivity|exact Q].
  - intros a k Ha. unfold relink_attr. destruct (refers k2 a); [|intros X; apply in_or_app; left; exact (link_in d a k Ha X)]. destruct (a_name a) as [b|]; [|intros X; apply in_or_app; left; exact (link_in d a k Ha X)].
    cbn. unfold link_value. intros X. apply in_or_app. right. assert (k = key n1) by (destruct (aid_eqb _ _); cbn in X; congruence). subst k. now apply in_map.
Qed.
Lemma fine_dupl_inner cmp k1 : forall rest t p, fine t -> dupl_inner cmp k1 rest t = Ok p -> fine (snd p).
Proof.
  induction rest as [|k2 r IH]; intros t p F E; cbn in E; [injection E as <-; exact F|]. destruct (find_sub k1 t) as [s1|] eqn:E1; [|exact (IH t p F E)]. destruct (find_sub k2 t) as [s2|] eqn:E2; [|exact (IH t p F E)].
  apply bind_ok in E. destruct E as (b & _ & E). destruct b.
  - apply bind_ok in E. destruct E as (t1 & R & E). refine (IH _ p _ E). apply fine_remove. apply find_sub_some in E1. refine (proj1 (fine_relink k2 (data s1) t t1 F _ R)). apply data_of_sub. apply E1.
  - apply bind_ok in E. destruct E as (q & R & E). injection E as <-. exact (IH t q F R).
Qed.
Lemma fine_rm_loop cmp l t t' : fine t -> rm_loop cmp l t = Ok t' -> fine t'.
Proof.
  unfold rm_loop. generalize (List.length l). intros n. revert l t. induction n as [|n IH]; intros l t F E; [cbn in E; injection E as <-; exact F|]. destruct l as [|k1 rest]; cbn in E; [injection E as <-; exact F|]. apply bind_ok in E. destruct E as (p & E1 & E). exact (IH _ _ (fine_dupl_inner _ _ _ _ _ F E1) E).
Qed.

(** ** ungroup_defs *)
Lemma fine_splice k t : fine t -> k <> root_key t -> fine (unlink [k] (splice k t)).
Proof.
  intros F Hk. destruct F as [W A R]. split; [now apply WF_splice_unlink| |].
  - apply Forall_forall. intros d' Hd'. rewrite unlink_eq, flat_tmap in Hd'. apply in_map_iff in Hd'. destruct Hd' as (d & <- & Hd). rewrite flat_splice in Hd by (try apply W; exact Hk). apply filter_In in Hd. apply filter_nodup. exact (proj1 (Forall_forall _ _) A d (proj1 Hd)).
  - rewrite unlink_eq, data_tmap. destruct t. exact R.
Qed.
Lemma root_splice k t : root_key (unlink [k] (splice k t)) = root_key t.
Proof. destruct t. reflexivity. Qed.
Lemma fine_ungroup_defs t : fine t -> fine (ungroup_defs t).
Proof.
  intros F. unfold ungroup_defs.
  assert (G : forall ks st, ~ In (root_key (fst st)) ks -> fine (fst st) -> fine (fst (fold_left ungroup_defs_step ks st))).
  { induction ks as [|k ks IH]; intros [s go] Nk Fs; [exact Fs|]. cbn [fold_left fst] in *. apply IH; unfold ungroup_defs_step; (destruct go; cbn [negb]; [|auto with datatypes]).
    - destruct (find_sub k s); [|intros X; apply Nk; now right]. destruct (_ && _); [|intros X; apply Nk; now right]. cbn [fst]. rewrite root_splice. intros X; apply Nk; now right.
    - destruct (find_sub k s); [|exact Fs]. destruct (_ && _); [|exact Fs]. cbn [fst]. apply fine_splice; [exact Fs|]. intros X. apply Nk. now left. }
  apply G; [|exact F]. cbn. pose proof (wf_keys t (fine_wf t F)) as N. rewrite keys_kids in *. cbn. now inversion N.
Qed.

(** ** remove_invisible_elements *)
Lemma fine_set_value a v d L : link_of v = None -> ext L d (d_set d a v).
Proof. intros H. apply ext_set. now apply no_link. Qed.
Lemma ext_fold {A} L (f : ndata -> A -> ndata) l : (forall d x, ext L d (f d x)) -> forall d, ext L d (fold_left f l d).
Proof. intros H. induction l as [|x l IH]; intros d; [apply ext_refl|]. cbn. exact (ext_trans _ _ _ _ (H d x) (IH _)). Qed.
Lemma fine_clip_rounds stops : forall ks t empty, fine t -> fine (fst (clip_rounds stops ks t empty)).
Proof.
  induction ks as [|k ks IH]; intros t empty F; cbn [clip_rounds]; [exact F|]. destruct (find_sub k t) as [s|]; [|now apply IH]. destruct (stops && _); [now apply fine_remove_nodes|]. apply IH. now apply fine_remove_nodes.
Qed.
Lemma fine_remove_linked ks : forall t, fine t -> fine (fold_left remove_linked ks t).
Proof. induction ks as [|k ks IH]; intros t F; [exact F|]. cbn. apply IH. now apply fine_remove, fine_remove_nodes. Qed.
Lemma fine_unpaint ks : forall t, fine t -> fine (unpaint ks t).
Proof.
  unfold unpaint. induction ks as [|k ks IH]; intros t F; [exact F|]. cbn. apply IH. apply fine_tmap; [exact F|]. intros d _. unfold no_paint. apply ext_fold. intros x a. now apply fine_set_value.
Qed.
Lemma fine_paint ks : forall r t', (forall t, r = Ok t -> fine t) -> fold_left (fun r k => bind r (fun t => paint_solid t k)) ks r = Ok t' -> fine t'.
Proof.
  induction ks as [|k ks IH]; intros r t' H E; [cbn in E; now apply H|]. cbn [fold_left] in E. refine (IH _ t' _ E). intros t X. apply bind_ok in X. destruct X as (t0 & R & X). apply H in R. unfold paint_solid in X.
  destruct (find_sub k t0) as [[d [|c l]]|]; try (injection X as <-; exact R). destruct (d_get (data c) AStopColor) as [[]|]; try discriminate. destruct (d_get (data c) AStopOpacity) as [[]|]; try discriminate. injection X as <-.
  apply fine_tmap; [exact R|]. intros x _. destruct (is_grad x); [apply ext_refl|]. unfold solid. apply ext_fold. intros y a. unfold one_color. destruct (qeqb _ _); [now apply fine_set_value|]. destruct a; try (now apply fine_set_value); (eapply ext_trans; now apply fine_set_value).
Qed.
Lemma fine_invisible stops t t' : fine t -> remove_invisible stops t = Some (Ok t') -> fine t'.
Proof.
  intros F E. unfold remove_invisible in E. cbv zeta in E.
  set (x1 := process_display (t, false)) in E. assert (F1 : fine (fst x1)) by (now apply fine_remove_nodes). clearbody x1.
  set (x2 := RmInvisible.process_paths x1) in E. assert (F2 : fine (fst x2)) by (now apply fine_drain). clearbody x2.
  set (x3 := process_clip_paths stops x2) in E. assert (F3 : fine (fst x3)).
  { unfold x3, process_clip_paths. destruct x2 as [t2 b2]. pose proof (fine_clip_rounds stops (tag_keys EClipPath t2) t2 [] F2) as Q. destruct (clip_rounds _ _ _ _) as [u e]. cbn [fst] in *. now apply fine_remove_linked. } clearbody x3.
  set (x4 := process_empty_filter x3) in E. assert (F4 : fine (fst x4)) by (unfold x4, process_empty_filter; destruct x3; now apply fine_remove_linked). clearbody x4.
  set (x5 := process_fe_color_matrix x4) in E. assert (F5 : fine (fst x5)) by (now apply fine_drain). clearbody x5.
  set (x6 := process_use x5) in E. assert (F6 : fine (fst x6)) by (now apply fine_drain). clearbody x6.
  destruct (process_gradients x6) as [x7| |] eqn:E7; try discriminate. assert (F7 : fine (fst x7)).
  { unfold process_gradients in E7. destruct x6 as [t6 b6]. apply bind_ok in E7. destruct E7 as (t7 & P & E7). injection E7 as <-. cbn [fst]. apply fine_remove_nodes. refine (fine_paint _ _ _ _ P). intros y Hy. injection Hy as <-. now apply fine_unpaint. }
  assert (F8 : fine (fst (process_rect x7))) by (now apply fine_drain). destruct (snd _); [exact (fine_unused_defs _ _ F8 E)|]. injection E as <-. exact F8.
Qed.

(** ** ungroup_groups *)
Lemma existsb_false_in {A} (f : A -> bool) l x : existsb f l = false -> In x l -> f x = false.
Proof. intros E H. destruct (f x) eqn:Q; [|reflexivity]. assert (existsb f l = true) by (apply existsb_exists; eauto). congruence. Qed.
Lemma ext_put_attr L d x : (forall k, link_of (a_val x) = Some k -> In k (node_links d ++ L)) -> ext L d (with_attrs d (put_attr (attrs d) x)).
Proof.
  intros H. unfold put_attr. destruct (existsb _ _) eqn:E.
  - apply ext_map; [intros y _; destruct (has_name (a_name x) y) eqn:Q; [apply has_name_true in Q; congruence|reflexivity]|]. intros y k Hy. destruct (has_name (a_name x) y); [apply H|]. intros X. apply in_or_app. left. exact (link_in d y k Hy X).
  - apply ext_attrs.
    + intros N. rewrite map_app. apply NoDup_app_intro; [exact N|constructor; [intros []|constructor]|]. intros n Hn [<-|[]]. cbn in Hn. apply in_map_iff in Hn. destruct Hn as (y & Ey & Hy). apply (existsb_false_in _ _ y E) in Hy. apply has_name_false in Hy. congruence.
    + intros y k Hy X. apply in_app_or in Hy. destruct Hy as [Hy|[<-|[]]]; [|now apply H]. apply in_or_app. left. exact (link_in d y k Hy X).
Qed.
Lemma ext_give t L l c d : (forall x k, In x l -> link_of (a_val x) = Some k -> In k L) -> give_attrs t l c = Ok d -> ext L c d.
Proof.
  unfold give_attrs. intros H. assert (G : forall r, (forall y, r = Ok y -> ext L c y) -> fold_left (fun r x => bind r (give_attr t x)) l r = Ok d -> ext L c d).
  { induction l as [|x l IH]; intros r Hr E; [now apply Hr|]. cbn [fold_left] in E. refine (IH _ _ _ E); [intros y k Hy; apply H; now right|]. intros y Hy. apply bind_ok in Hy. destruct Hy as (c1 & R & Hy). apply Hr in R. refine (ext_trans _ _ _ _ R _).
    unfold give_attr in Hy. destruct (a_name x) as [a|]; [|injection Hy as <-; apply ext_refl].
    assert (P : (if put_ok t c1 x then Ok (with_attrs c1 (put_attr (attrs c1) x)) else Panic) = Ok y -> ext L c1 y).
    { destruct (put_ok t c1 x); [|discriminate]. intros Q. injection Q as <-. apply ext_put_attr. intros k X. apply in_or_app. right. apply (H x k); [now left|exact X]. }
    destruct (aid_eqb a AOpacity && d_has c1 a); [destruct (a_val x); try discriminate; destruct (d_get c1 a) as [[]|]; try discriminate; injection Hy as <-; now apply fine_set_value|].
    destruct (aid_eqb a ATransform && d_has c1 a); [injection Hy as <-; destruct (a_val x); try apply ext_refl; destruct (d_get c1 a) as [[]|]; try apply ext_refl; apply ext_map_value; now apply no_link|].
    destruct (aid_eqb a ADisplay); [now apply P|]. destruct (d_has c1 a); [injection Hy as <-; apply ext_refl|now apply P]. }
  apply G. intros y Hy. injection Hy as <-. apply ext_refl.
Qed.
Lemma flat_lift g ch t : g <> root_key t -> flat (lift g ch t) = flat (set_kids g (fun _ => ch) t).
Proof.
  unfold lift. induction t as [d l IH] using tree_ind'. intros N. rewrite Img.img_T. cbn [set_kids]. unfold root_key in N. cbn in N. destruct (Nat.eqb_spec (key d) g) as [E|_]; [congruence|]. cbn [flat]. f_equal.
  clear N. induction IH as [|c l Hc _ IHl]; [reflexivity|]. cbn [flat_map map]. rewrite flat_map_app, IHl. f_equal. unfold Img.rpl. destruct (Nat.eqb_spec (root_key c) g) as [E|E].
  - destruct c as [dc cc]. unfold root_key in E. cbn in E. cbn. rewrite E, Nat.eqb_refl. reflexivity.
  - cbn [flat_map]. rewrite app_nil_r. apply Hc. auto.
Qed.
Lemma give_all_ext t L l : (forall x k, In x l -> link_of (a_val x) = Some k -> In k L) -> forall ch ch', give_all t l ch = Ok ch' -> Forall2 (ext L) (flat_map flat ch) (flat_map flat ch').
Proof.
  intros H. induction ch as [|c ch IH]; intros ch' E; cbn in E; [injection E as <-; constructor|]. apply bind_ok in E. destruct E as (d & E1 & E). apply bind_ok in E. destruct E as (r & E2 & E). injection E as <-. cbn [flat_map]. apply Forall2_app; [|exact (IH r E2)]. destruct c as [dc cc]. cbn in *. constructor; [exact (ext_give t L l dc d H E1)|].
  clear. induction (flat_map flat cc); constructor; [apply ext_refl|assumption].
Qed.
Lemma forall2_refl L l : Forall2 (ext L) l l. Proof. induction l; constructor; [apply ext_refl|assumption]. Qed.
Lemma fine_add_ts m s t : fine t -> fine (push_ts m s t).
Proof. intros F. apply fine_tmap; [exact F|]. intros d _. destruct (Nat.eqb _ _); [apply ext_rm|]. destruct (existsb _ _); [now apply fine_set_value|apply ext_refl]. Qed.
Lemma fine_prep_one o t k r : fine t -> prep_one o t k = Ok r -> fine (fst r).
Proof.
  intros F E. unfold prep_one in E. destruct (find_sub k t) as [s|]; [|injection E as <-; exact F]. destruct (ancestors k [] t); [|injection E as <-; exact F]. destruct (_ && _); [|injection E as <-; exact F].
  apply bind_ok in E. destruct E as (b & _ & E). destruct (_ || _); [injection E as <-; exact F|]. apply bind_ok in E. destruct E as (ok & _ & E). destruct ok; [|injection E as <-; exact F]. destruct (d_get _ _) as [[]|]; try discriminate. injection E as <-. now apply fine_add_ts.
Qed.
Lemma fine_prepare o self rec p t t' : fine t -> prepare o self rec p t = Ok t' -> fine t'.
Proof.
  intros F E. unfold prepare in E. destruct (valid_elems o); [injection E as <-; exact F|]. destruct (find_sub p t) as [s|]; [|injection E as <-; exact F]. revert E. generalize (if self then keys s else tl (keys s)). intros ks. revert t F. induction ks as [|k ks IH]; intros t F E; cbn in E; [injection E as <-; exact F|].
  apply bind_ok in E. destruct E as (r & E1 & E). apply (fine_prep_one _ _ _ _ F) in E1. destruct (_ && _); [injection E as <-; exact E1|]. exact (IH _ E1 E).
Qed.
Lemma find_group_sub t s p g : find_group t s = Some (p, g) -> In g (flat_map keys (kids s)).
Proof.
  induction s as [d ch IH] using tree_ind'. cbn [find_group kids]. induction IH as [|c l Hc _ IHl]; [discriminate|]. cbn [flat_map]. intros E. apply in_or_app. destruct (_ && _); [injection E as _ <-; left; destruct c; now left|].
  destruct (find_group t c) as [r|] eqn:Q; [injection E as ->; left; specialize (Hc eq_refl); rewrite keys_kids; now right|]. right. exact (IHl E).
Qed.
Lemma fine_ungroup_one o self t p g t' : fine t -> g <> root_key t -> ungroup_one o self t p g = Ok t' -> fine t'.
Proof.
  intros F Ng E. unfold ungroup_one in E. destruct (find_sub g t) as [s|] eqn:Es; [|injection E as <-; exact F]. apply bind_ok in E. destruct E as (ch & E1 & E). refine (fine_prepare _ _ _ _ _ _ _ E). apply fine_remove. apply find_sub_some in Es. destruct Es as [Hs <-].
  destruct (flat_split t s (wf_keys t (fine_wf t F)) Hs) as (pre & post & S1 & S2). apply (fine_forall2 t); [exact F|]. rewrite flat_lift by exact Ng. rewrite S1, S2. apply Forall2_app; [apply forall2_refl|]. apply Forall2_app; [|apply forall2_refl]. destruct s as [d l]. cbn [flat data kids] in *. constructor; [apply ext_refl|]. refine (give_all_ext t _ _ _ _ _ E1). intros x k Hx X. apply (wf_links t (fine_wf t F)).
  apply (node_links_in t d); [exact (data_of_sub _ _ Hs)|exact (link_in d x k Hx X)].
Qed.
Lemma svg_sub t s : svg_element t = Some s -> In s (kids t).
Proof. unfold svg_element. intros E. now apply find_some in E. Qed.
Lemma fine_ungroup o self t t' : fine t -> ungroup_groups o self t = Some (Ok t') -> fine t'.
Proof.
  intros F E. unfold ungroup_groups in E. destruct (svg_element t) as [s|]; [|discriminate]. destruct (prepare _ _ _ _ t) as [t1| |] eqn:E1; try discriminate. apply (fine_prepare _ _ _ _ _ _ F) in E1. clear F. revert E. generalize (List.length (keys t)). intros n. revert t1 E1. clear. induction n as [|n IH]; intros t F E; cbn in E; (destruct (svg_element t) as [s|] eqn:Es; [|discriminate]); (destruct (find_group t s) as [[p g]|] eqn:Eg; [|injection E as <-; exact F]); [discriminate|].
  destruct (ungroup_one o self t p g) as [t1| |] eqn:E1; try discriminate. refine (IH t1 _ E). refine (fine_ungroup_one _ _ _ _ _ _ F _ E1). apply find_group_sub in Eg. apply svg_sub in Es. intros ->.
  pose proof (wf_keys t (fine_wf t F)) as N. rewrite keys_kids in N. inversion N as [|? ? X _]; subst. apply X. apply in_flat_map. exists s. split; [exact Es|]. rewrite keys_kids. now right.
Qed.

(** ** group_by_style *)
Lemma pull_perm ks g ch : Permutation (flat_map flat (pull ks g ch)) (flat_map flat ch) \/ Permutation (flat_map flat (pull ks g ch)) (ND g (TEl EG) EmptyString [] :: flat_map flat ch).
Proof.
  induction ch as [|c l IH]; [left; constructor|]. cbn [pull]. destruct (picked ks c) eqn:P.
  - right. cbn [flat_map flat]. rewrite <- app_comm_cons. apply perm_skip. rewrite <- flat_map_app. cbn [filter]. rewrite P. cbn [app flat_map]. apply Permutation_app_head. apply Permutation_flat_map. eapply Permutation_trans; [apply Permutation_app_comm|]. apply filter_perm.
  - cbn [flat_map]. destruct IH as [IH|IH]; [left; now apply Permutation_app_head|right]. eapply Permutation_trans; [apply Permutation_app_head, IH|]. apply Permutation_sym, Permutation_middle.
Qed.
Lemma fine_gather p ks t : fine t -> fine (gather p ks (fresh t) t).
Proof.
  intros F. unfold gather. destruct (find_sub p t) as [s|] eqn:E; [|apply find_sub_none in E; now rewrite set_kids_out]. apply find_sub_some in E. destruct E as [Hs <-]. destruct (flat_split t s (wf_keys t (fine_wf t F)) Hs) as (pre & post & E1 & E2). destruct s as [d ch]. cbn [data kids flat] in *.
  destruct (pull_perm ks (fresh t) ch) as [P|P].
  - apply (fine_perm t); [exact F|rewrite data_set_kids; apply F|]. rewrite E1, E2. apply Permutation_app_head, Permutation_app_tail, perm_skip. now apply Permutation_sym.
  - apply (fine_add t _ (ND (fresh t) (TEl EG) EmptyString [])); [exact F|rewrite data_set_kids; apply F|apply fresh_not|reflexivity|]. rewrite E1, E2. exact (perm_mid pre post [_] _ _ d P).
Qed.
Lemma fine_to_end p ks t : fine t -> fine (to_end p ks t).
Proof. intros F. apply fine_set_kids; [exact F|]. intros ch. apply Permutation_flat_map, Permutation_sym, filter_perm. Qed.
Lemma ext_give_group t L l d d' : (forall x k, In x l -> link_of (a_val x) = Some k -> In k L) -> fold_left (fun r x => bind r (fun d' => give_group t d' x)) l (Ok d) = Ok d' -> ext L d d'.
Proof.
  intros H. assert (G : forall r, (forall y, r = Ok y -> ext L d y) -> fold_left (fun r x => bind r (fun d' => give_group t d' x)) l r = Ok d' -> ext L d d').
  { induction l as [|x l IH]; intros r Hr E; [now apply Hr|]. cbn [fold_left] in E. refine (IH _ _ _ E); [intros y k Hy; apply H; now right|]. intros y Hy. apply bind_ok in Hy. destruct Hy as (c1 & R & Hy). apply Hr in R. refine (ext_trans _ _ _ _ R _).
    assert (P : (if put_ok t c1 x then Ok (with_attrs c1 (put_attr (attrs c1) x)) else Panic) = Ok y -> ext L c1 y).
    { destruct (put_ok t c1 x); [|discriminate]. intros Q. injection Q as <-. apply ext_put_attr. intros k X. apply in_or_app. right. apply (H x k); [now left|exact X]. }
    unfold give_group in Hy. destruct (a_name x) as [a|]; [|now apply P]. destruct (aid_eqb_spec a ATransform) as [->|Na]; [|destruct a; now try apply P].
    destruct (a_val x); destruct (d_get c1 ATransform) as [[]|]; try (now apply P); injection Hy as <-; try apply ext_refl. apply ext_map_value. now apply no_link. }
  apply G. intros y Hy. injection Hy as <-. apply ext_refl.
Qed.
Lemma fine_hoist g ks l t t' : fine t -> (forall x k, In x l -> link_of (a_val x) = Some k -> In k (keys t)) -> hoist g ks l t = Ok t' -> fine t' /\ keys t' = keys t.
Proof.
  intros F H E. unfold hoist in E. set (t1 := strip ks (attr_ids l) t) in E. assert (F1 : fine t1) by (apply fine_tmap; [exact F|]; intros d _; destruct (among _ _); [exact (ext_rm_list _ _ d)|apply ext_refl]).
  assert (K1 : keys t1 = keys t) by (apply keys_tmap; intros d; destruct (among _ _); [exact (proj1 (ext_rm_list [] _ d))|reflexivity]).
  destruct (find_data g t1) as [d|] eqn:D; [|injection E as <-; auto]. apply bind_ok in E. destruct E as (d' & E1 & E). injection E as <-. apply find_data_some in D. destruct D as [Hd Kd].
  assert (X : ext (keys t1) d d') by (rewrite K1; exact (ext_give_group _ _ _ _ _ H E1)).
  split; [|rewrite keys_tmap; [exact K1|]; intros y; destruct (Nat.eqb_spec (key y) g) as [Q|Q]; [destruct X as [X _]; congruence|reflexivity]].
  apply fine_tmap; [exact F1|]. intros y Hy. destruct (Nat.eqb_spec (key y) g) as [Q|Q]; [|apply ext_refl]. assert (y = d) by (apply (data_unique t1); [apply F1|assumption..|congruence]). now subst y.
Qed.

Lemma keys_gather p ks t : fine t -> incl (keys t) (keys (gather p ks (fresh t) t)).
Proof.
  intros F k Hk. unfold gather. destruct (find_sub p t) as [s|] eqn:E; [|apply find_sub_none in E; now rewrite set_kids_out]. apply find_sub_some in E. destruct E as [Hs <-]. destruct (flat_split t s (wf_keys t (fine_wf t F)) Hs) as (pre & post & E1 & E2). destruct s as [d ch]. cbn [data kids flat] in *. unfold keys in *. rewrite E2. rewrite E1 in Hk.
  destruct (pull_perm ks (fresh t) ch) as [P|P].
  - refine (Permutation_in k (Permutation_map key _) Hk). apply Permutation_app_head, Permutation_app_tail, perm_skip. now apply Permutation_sym.
  - refine (Permutation_in k (Permutation_map key (Permutation_sym (perm_mid pre post [_] _ _ d P))) _). right. exact Hk.
Qed.
Lemma keys_to_end p ks t : fine t -> incl (keys t) (keys (to_end p ks t)).
Proof.
  intros F k Hk. unfold to_end. destruct (find_sub p t) as [s|] eqn:E; [|apply find_sub_none in E; now rewrite set_kids_out]. apply find_sub_some in E. destruct E as [Hs <-]. destruct (flat_split t s (wf_keys t (fine_wf t F)) Hs) as (pre & post & E1 & E2). destruct s as [d ch]. cbn [data kids flat] in *. unfold keys in *. rewrite E2. rewrite E1 in Hk.
  refine (Permutation_in k (Permutation_map key _) Hk). apply Permutation_app_head, Permutation_app_tail, perm_skip. apply Permutation_flat_map, Permutation_sym, filter_perm.
Qed.
Lemma fine_style_one t k ks all t' : fine t -> style_one t k ks all = Ok t' -> fine t'.
Proof.
  intros F E. unfold style_one in E. destruct (find_sub k t) as [s|] eqn:Es; [|injection E as <-; exact F]. destruct (ancestors k [] t) as [anc|]; [|injection E as <-; exact F]. destruct (_ && _); [|injection E as <-; exact F].
  apply find_sub_some in Es. destruct Es as [Hs <-]. set (cs := filter (picked ks) (kids s)) in E.
  assert (L : forall r x k, In r (table anc (data s) (map data cs)) -> In x (r_attrs r) -> link_of (a_val x) = Some k -> In k (keys t)).
  { intros r x k Hr Hx X. destruct (table_ok anc (data s) (map data cs)) as ((Q & _) & _). destruct (ro_cand _ _ _ (Q r Hr) x Hx) as (c & Hc & Hxc & _). apply in_map_iff in Hc. destruct Hc as (c0 & <- & Hc). apply filter_In in Hc. apply (wf_links t (fine_wf t F)). apply (node_links_in t (data c0)); [|exact (link_in _ _ _ Hxc X)].
    apply data_of_sub. exact (Push.kid_sub s c0 t Hs (proj1 Hc)). }
  destruct (table anc (data s) (map data cs)) as [|r rs]; [injection E as <-; exact F|]. cbv zeta in E. apply bind_ok in E. destruct E as ([[t1 p] rest] & E1 & E).
  assert (Q : fine t1 /\ incl (keys t) (keys t1) /\ incl rest (r :: rs)).
  { destruct (_ =? _); [|injection E1 as <- _ <-; repeat split; auto using incl_refl; apply F]. destruct all; apply bind_ok in E1; destruct E1 as (t2 & H2 & E1); injection E1 as <- _ <-.
    - destruct (fine_hoist _ _ _ _ _ (fine_to_end (root_key s) ks t F) (fun x k Hx X => keys_to_end (root_key s) ks t F k (L r x k (or_introl eq_refl) Hx X)) H2) as [A B]. split; [exact A|]. split; [rewrite B; exact (keys_to_end _ _ t F)|apply incl_tl, incl_refl].
    - destruct (fine_hoist _ _ _ _ _ (fine_gather (root_key s) ks t F) (fun x k Hx X => keys_gather (root_key s) ks t F k (L r x k (or_introl eq_refl) Hx X)) H2) as [A B]. split; [exact A|]. split; [rewrite B; exact (keys_gather _ _ t F)|apply incl_tl, incl_refl]. }
  destruct Q as (F1 & I1 & I2). destruct rest as [|r2 rest]; [injection E as <-; exact F1|]. destruct (longest_range (r_flags r2)) as [[i n]|]; [|discriminate].
  refine (proj1 (fine_hoist _ _ _ _ _ (fine_gather p _ t1 F1) _ E)). intros x j Hx X. apply (keys_gather p _ t1 F1), I1. exact (L r2 x j (I2 r2 (or_introl eq_refl)) Hx X).
Qed.
Lemma fine_visit_style : forall s t t', fine t -> visit_style s t = Ok t' -> fine t'.
Proof.
  induction s as [d ch IH] using tree_ind'. intros t t' F E. cbn [visit_style] in E. apply bind_ok in E. destruct E as ([[t1 ks] all] & E1 & E). refine (fine_style_one _ _ _ _ _ _ E). clear E. revert F E1. generalize (@nil nat) at 3. generalize true. revert t. induction IH as [|c l Hc _ IHl]; intros t b l0 F E; [injection E as <- _ _; exact F|].
  destruct (negb _); [exact (IHl _ _ _ F E)|]. destruct (_ || _); [exact (IHl _ _ _ F E)|]. apply bind_ok in E. destruct E as (t2 & E2 & E). refine (IHl _ _ _ _ E). destruct (kids c); [injection E2 as <-; exact F|exact (Hc _ _ F E2)].
Qed.
Lemma fine_group_style t t' : fine t -> group_by_style t = Ok t' -> fine t'.
Proof. intros F E. unfold group_by_style in E. destruct (svg_element t); [|discriminate]. exact (fine_visit_style _ _ _ F E). Qed.
