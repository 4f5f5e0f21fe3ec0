(** Proofs about ungroup_groups: the whole pass. *)
From Coq Require Import List Bool NArith Arith ZArith String Lia QArith Qcanon Permutation.
From Verif Require Import Names Num Value Dom DomFacts DomOps Outcome Stops MoveFacts SpecDom SpecStyle SpecText Visit Transforms Regroup ResolveUse SpecPaint PaintFacts SpecUse Img UseProofs UseStep Push Melt Ungroup SpecUngroup TasksSimpleProofs UngroupProofs UngroupKeep UseEnd SpecShading.
From Verif Require MergeProofs VLoop.
Import ListNotations.
Local Open Scope nat_scope.

Lemma inherited_not a : inherited a = true -> a <> ATransform /\ a <> AOpacity /\ a <> ADisplay.
Proof. intros H. repeat split; intros ->; discriminate H. Qed.
Lemma effects_ext d d' : (forall a, In a effect_attrs -> d_get d' a = d_get d a) -> effects d' = effects d.
Proof. intros H. unfold effects. now apply given_ext. Qed.
Lemma effect_not a : In a effect_attrs -> a <> ATransform /\ a <> AOpacity /\ a <> ADisplay.
Proof. cbn. intuition (subst; discriminate). Qed.
Lemma elsewhere_moved a : elsewhere (AN a) = false -> a <> ATransform /\ a <> AOpacity /\ a <> ADisplay.
Proof. intros H. repeat split; intros ->; discriminate H. Qed.
Lemma lookup_set n a v d : lookup n (d_set d a v) = if aname_eqb n (AN a) then Some v else lookup n d.
Proof. rewrite !lookup_lk. unfold d_set. cbn [attrs with_attrs]. apply lk_set. Qed.
Lemma lk_rm n a l : lk n (rm_attr l a) = if aname_eqb n (AN a) then None else lk n l.
Proof.
  induction l as [|x l IH]; [now destruct (aname_eqb n (AN a))|]. unfold rm_attr in *. cbn [filter]. rewrite (hn (AN a) _ x eq_refl). destruct (aname_eqb_spec (a_name x) (AN a)) as [E|E]; cbn [negb]; rewrite ?lk_cons, IH, (hn n _ x eq_refl).
  - rewrite E. destruct (aname_eqb_spec (AN a) n), (aname_eqb_spec n (AN a)); congruence.
  - destruct (aname_eqb_spec (a_name x) n), (aname_eqb_spec n (AN a)); congruence.
Qed.
Lemma is_svg_painted d : painted_el d -> is_svg_el d = true.
Proof. intros [(e & E & _)|[[E|E]|[E|[E|E]]]]; unfold is_svg_el; now rewrite E. Qed.
Lemma unref_key t c : ~ referenced t (root_key c) -> forall d, In d (flat t) -> ~ refers_to d (root_key c).
Proof. intros H d Hd R. apply H. exists d. auto. Qed.
Lemma kid_inside c s : In c (kids s) -> In (data c) (inside s).
Proof. intros H. apply in_flat_map. exists c. split; [exact H|apply flat_self]. Qed.
Lemma ts_get d m : d_get d ATransform = Some (VTransform m) -> ts_of d = m. Proof. unfold ts_of. now intros ->. Qed.
Lemma ts_none d : d_get d ATransform = None -> ts_of d = t_id. Proof. unfold ts_of. now intros ->. Qed.

Lemma shade_elsewhere a : In a shade_attrs -> elsewhere (AN a) = false /\ a <> ATransform.
Proof. cbn [shade_attrs In]. intros H. repeat (destruct H as [<-|H]; [split; [reflexivity|discriminate]|]). destruct H. Qed.
(** ** prepare_transforms *)
Section Prep.
  Variable uu : aid -> len -> Qc.
  Variables t G : tree.
  Variable m : transform.
  Hypothesis R : gready t.
  Hypothesis HG : In G (subs t).
  Hypothesis TG : group G.
  Hypothesis Tm : d_get (data G) ATransform = Some (VTransform m).
  Hypothesis Eff : forall a v, In (a, v) (effects (data G)) -> In a condition_attrs \/ v = VPre Vid_none.
  Let f := fun d => if Nat.eqb (key d) (root_key G) then d_rm d ATransform else if existsb (fun c => Nat.eqb (key d) (root_key c)) (svg_kids G) then add_ts m d else d.
  Let N := wf_keys t (g_wf t R).
  Lemma f_G : f (data G) = d_rm (data G) ATransform. Proof. unfold f, root_key. now rewrite Nat.eqb_refl. Qed.
  Lemma pkid_key c : In c (kids G) -> root_key c <> root_key G.
  Proof. intros Hc E. apply (kid_ne t G N HG c Hc). apply (sub_unique t); auto. exact (kid_sub G c t HG Hc). Qed.
  Lemma f_kid c : In c (kids G) -> is_svg_el (data c) = true -> f (data c) = add_ts m (data c).
  Proof.
    intros Hc E. unfold f. destruct (Nat.eqb_spec (key (data c)) (root_key G)) as [Q|_]; [destruct (pkid_key c Hc Q)|]. assert (X : existsb (fun c0 => Nat.eqb (key (data c)) (root_key c0)) (svg_kids G) = true); [|now rewrite X]. apply existsb_exists. exists c. split; [|apply Nat.eqb_refl]. apply filter_In. auto.
  Qed.
  Lemma f_kid_not c : In c (kids G) -> is_svg_el (data c) = false -> f (data c) = data c.
  Proof.
    intros Hc E. unfold f. destruct (Nat.eqb_spec (key (data c)) (root_key G)) as [Q|_]; [destruct (pkid_key c Hc Q)|]. destruct (existsb _ _) eqn:X; [|reflexivity]. exfalso. apply existsb_exists in X. destruct X as (c0 & H0 & E0). apply Nat.eqb_eq in E0. apply filter_In in H0. destruct H0 as [H0 E1]. assert (c = c0); [|congruence]. apply (sub_unique t); auto; [exact (kid_sub G c t HG Hc)|exact (kid_sub G c0 t HG H0)].
  Qed.
  Lemma f_cases d : In d (flat t) -> d = data G \/ (exists c, In c (kids G) /\ d = data c) \/ f d = d.
  Proof.
    intros Hd. unfold f. destruct (Nat.eqb_spec (key d) (root_key G)) as [E|E]; [left; apply (data_unique t); auto; now apply data_of_sub|]. right. destruct (existsb _ _) eqn:X; [|now right]. left. apply existsb_exists in X. destruct X as (c & Hc & Ec). apply Nat.eqb_eq in Ec. apply filter_In in Hc. destruct Hc as [Hc _]. exists c. split; [exact Hc|]. apply (data_unique t); auto. apply data_of_sub. exact (kid_sub G c t HG Hc).
  Qed.
  Lemma f_kid_cases c : In c (kids G) -> f (data c) = data c \/ f (data c) = add_ts m (data c).
  Proof. intros Hc. destruct (is_svg_el (data c)) eqn:E; [right; now apply f_kid|left; now apply f_kid_not]. Qed.
  Lemma f_key d : key (f d) = key d. Proof. unfold f. destruct (Nat.eqb _ _); [reflexivity|]. destruct (existsb _ _); reflexivity. Qed.
  Lemma f_tag d : tag (f d) = tag d. Proof. unfold f. destruct (Nat.eqb _ _); [reflexivity|]. destruct (existsb _ _); reflexivity. Qed.
  Lemma f_id d : nid (f d) = nid d. Proof. unfold f. destruct (Nat.eqb _ _); [reflexivity|]. destruct (existsb _ _); reflexivity. Qed.
  Lemma kid_other c n : In c (kids G) -> n <> AN ATransform -> lookup n (f (data c)) = lookup n (data c).
  Proof.
    intros Hc Q. destruct (f_kid_cases c Hc) as [-> | ->]; [reflexivity|]. unfold add_ts. rewrite lookup_set. destruct (aname_eqb_spec n (AN ATransform)); [contradiction|reflexivity].
  Qed.
  Lemma kid_g c a : In c (kids G) -> a <> ATransform -> d_get (f (data c)) a = d_get (data c) a.
  Proof. intros Hc Q. rewrite <- !lookup_get. apply kid_other; [exact Hc|]. intros X. now inversion X. Qed.
  Lemma G_g a : a <> ATransform -> d_get (f (data G)) a = d_get (data G) a.
  Proof. intros Q. rewrite f_G. now apply dg_rm_other. Qed.
  Lemma prep_moves : moves t G f.
  Proof.
    split; [exact f_key|exact f_tag|exact f_id| | |].
    - intros d Hd. pose proof (nd t R d Hd) as Nd. unfold f. destruct (Nat.eqb _ _); [now apply nodup_rm|]. destruct (existsb _ _); [now apply set_attr_nodup|exact Nd].
    - intros d n v Hd L. destruct (f_cases d Hd) as [->|[(c & Hc & ->)|E]]; [| |left; now rewrite <- E].
      + left. rewrite f_G in L. unfold d_rm in L. cbn [attrs with_attrs] in L. rewrite lk_rm in L. destruct (aname_eqb n (AN ATransform)); [discriminate|exact L].
      + destruct (f_kid_cases c Hc) as [E|E]; [left; now rewrite <- E|]. rewrite E in L. unfold add_ts, d_set in L. cbn [attrs with_attrs] in L. rewrite lk_set in L. destruct (aname_eqb_spec n (AN ATransform)) as [->|Q]; [|now left]. right. split; [right; now apply in_map|]. exists ATransform. split; [reflexivity|]. right. right. split; [reflexivity|]. split; [inversion L; eauto|right; congruence].
    - intros d a Hd Td Ha. destruct (shade_elsewhere a Ha) as [_ Nt]. destruct (f_cases d Hd) as [->|[(c & Hc & ->)|E]]; [destruct (Td TG)| |now rewrite E].
      destruct (f_kid_cases c Hc) as [-> | ->]; [reflexivity|]. unfold add_ts, d_set. cbn [attrs with_attrs]. apply get_set_other. congruence.
  Qed.
  Lemma prep_drawing : same_drawing uu t (tmap f t).
  Proof.
    assert (Hk : forall c, In c (kids G) -> In c (subs t)) by (intros c Hc; exact (kid_sub G c t HG Hc)).
    assert (Hmv : forall c, In c (kids G) -> tag (data c) <> TEl ESvg /\ ~ referenced t (root_key c)).
    { intros c Hc. apply (g_moved t R G (data c) HG TG); [congruence|]. now apply kid_inside. }
    assert (EG : effects (f (data G)) = effects (data G)) by (apply effects_ext; intros a Ha; apply G_g; now apply effect_not).
    apply (push_drawing uu t G f N HG TG f_key f_tag).
    - intros d Hd A B. destruct (f_cases d Hd) as [->|[(c & Hc & ->)|E]]; [destruct (A eq_refl)|destruct (B c Hc eq_refl)|exact E].
    - intros c Hc. apply unref_key. now apply Hmv.
    - intros c Hc a I. apply inherited_not in I. cbn. rewrite kid_g, G_g by (try exact Hc; apply I). reflexivity.
    - intros c Hc. unfold like. rewrite f_key, f_tag, f_id. repeat split. intros n E. apply kid_other; [exact Hc|]. intros ->. discriminate E.
    - intros c Hc P Ns. rewrite f_G, (f_kid c Hc (is_svg_painted _ P)). rewrite (ts_get _ _ Tm). rewrite (ts_none (d_rm _ _)) by apply dg_rm_same. rewrite t_mul_id_l. unfold add_ts. unfold ts_of at 2. rewrite dg_set_same. destruct (d_get (data c) ATransform) as [v|] eqn:E.
      + destruct (g_trans t R _ _ (data_of_sub _ _ (Hk c Hc)) E) as (n & ->). rewrite (ts_get _ _ E). now rewrite t_append_mul.
      + rewrite (ts_none _ E). now rewrite t_mul_id_r.
    - intros c Hc X. destruct (Hmv c Hc) as [Q _]. contradiction.
    - apply given_ext. intros a Ha. apply G_g. intros ->. cbn in Ha. intuition discriminate.
    - intros c Hc. apply (g_below t R G); auto. now apply kid_inside.
    - intros a p P Hp. exact (g_shape t R a G p P TG Hp).
    - left. unfold keeps, displayed, opacity_of. rewrite !G_g by discriminate. split; [tauto|]. split; [reflexivity|]. split; [exact EG|]. split; [exact Eff|]. intros c Hc. rewrite !(kid_g c) by (auto; discriminate). split; [tauto|]. split; [reflexivity|]. apply effects_ext. intros a Ha. apply kid_g; auto. now apply effect_not.
    - exact (g_root t R).
  Qed.
End Prep.
Lemma others_tmap f t : (forall d, key (f d) = key d) -> (forall d, tag (f d) = tag d) -> (forall d, nid (f d) = nid d) -> others (tmap f t) = others t.
Proof.
  intros K Tg I. unfold others. rewrite flat_tmap. induction (flat t) as [|d l IH]; [reflexivity|]. cbn [map filter]. assert (E : is_tag EG (f d) = is_tag EG d) by (unfold is_tag; now rewrite Tg). rewrite E. destruct (is_tag EG d); cbn [negb]; [exact IH|]. cbn [map]. now rewrite IH, K, Tg, I.
Qed.
Definition others_l (l : list ndata) := map (fun d => (key d, tag d, nid d)) (filter (fun d => negb (is_tag EG d)) l).
Lemma others_app a b : others_l (a ++ b) = others_l a ++ others_l b. Proof. unfold others_l. now rewrite filter_app, map_app. Qed.
Lemma others_melt k t : (forall s, In s (subs t) -> root_key s = k -> group s) -> others (img (melt k) t) = others t.
Proof.
  unfold others. fold (others_l (flat (img (melt k) t))) (others_l (flat t)). induction t as [d ch IH] using tree_ind'. intros H. rewrite img_T. cbn [flat]. change (d :: flat_map flat (flat_map (rpl (melt k)) ch)) with ([d] ++ flat_map flat (flat_map (rpl (melt k)) ch)). change (d :: flat_map flat ch) with ([d] ++ flat_map flat ch). rewrite !others_app. f_equal.
  assert (H' : forall c, In c ch -> forall s, In s (subs c) -> root_key s = k -> group s) by (intros c Hc s Hs; apply H; right; apply in_flat_map; eauto). clear H. rewrite Forall_forall in IH. induction ch as [|c ch IHc]; [reflexivity|]. cbn [flat_map]. rewrite flat_map_app, !others_app, IHc; [|intros x Hx; apply IH; now right|intros x Hx; apply H'; now right]. f_equal. rewrite rpl_melt. destruct (Nat.eqb_spec (root_key c) k) as [E|E].
  - pose proof (H' c (or_introl eq_refl) c (subs_self c) E) as Gc. rewrite (tree_split c) at 2. cbn [flat]. change (data c :: flat_map flat (kids c)) with ([data c] ++ flat_map flat (kids c)). rewrite others_app. assert (X : others_l [data c] = []) by (unfold others_l; cbn [filter]; now rewrite (proj2 (tag_true EG (data c)) Gc)). now rewrite X.
  - cbn [flat_map]. rewrite app_nil_r. apply (IH c (or_introl eq_refl)). exact (H' c (or_introl eq_refl)).
Qed.
(** The steps of which the pass consists: giving attributes of a group away, and replacing a group by its children. *)
Inductive steps : tree -> tree -> Prop :=
| st_refl t : steps t t
| st_moved t G f t' : gready t -> In G (subs t) -> group G -> moves t G f -> steps (tmap f t) t' -> steps t t'
| st_melted t G t' : gready t -> In G (subs t) -> group G -> ~ referenced t (root_key G) -> steps (melted t G) t' -> steps t t'.
Lemma steps_trans a b c : steps a b -> steps b c -> steps a c.
Proof. intros H. induction H; [tauto| |]; intros Q; [eapply st_moved|eapply st_melted]; eauto. Qed.
Lemma steps_others t t' : steps t t' -> others t' = others t.
Proof.
  intros H. induction H as [|t G f t' R HG TG M _ IH|t G t' R HG TG Fr _ IH]; [reflexivity| |]; rewrite IH.
  - apply others_tmap; apply M.
  - apply others_melt. intros s Hs E. assert (s = G) by (apply (sub_unique t); auto; exact (wf_keys t (g_wf t R))). now subst s.
Qed.
Definition good uu (t t' : tree) : Prop := gready t' /\ same_drawing uu t t' /\ steps t t' /\ List.length (keys t') <= List.length (keys t).
Lemma good_refl uu t : gready t -> good uu t t. Proof. intros R. split; [exact R|split; [apply same_drawing_refl|split; [apply st_refl|lia]]]. Qed.
Lemma good_trans uu a b c : good uu a b -> good uu b c -> good uu a c.
Proof. intros (A1 & A2 & A4 & A3) (B1 & B2 & B4 & B3). split; [exact B1|]. split; [exact (same_drawing_trans uu a b c A2 B2)|split; [exact (steps_trans a b c A4 B4)|lia]]. Qed.
Lemma valid_ts_ok t d : gready t -> In d (flat t) -> exists b, valid_transform d = Ok b.
Proof. intros R Hd. unfold valid_transform. destruct (d_has d ATransform) eqn:E; [|eauto]. apply has_get in E. destruct (d_get d ATransform) as [v|] eqn:V; [|congruence]. destruct (g_trans t R d v Hd V) as (m & ->). eauto. Qed.
Lemma all_ok_ok {A} (f : A -> result bool) l : (forall x, In x l -> exists b, f x = Ok b) -> exists b, all_ok f l = Ok b.
Proof. induction l as [|x l IH]; intros H; [cbn; eauto|]. cbn. destruct (H x (or_introl eq_refl)) as (b & ->). cbn. destruct b; [|eauto]. apply IH. intros y Hy. apply H. now right. Qed.
Lemma child_ok_ok o t anc d : gready t -> In d (flat t) -> exists b, child_ok o anc d = Ok b.
Proof. intros R Hd. unfold child_ok. destruct (tag d) as [|e| | | |]; eauto. destruct (existsb _ _); [|eauto]. destruct (valid_ts_ok t d R Hd) as (b & ->). cbn. eauto. Qed.
Lemma valid_attrs_eff t anc d : gready t -> In d (flat t) -> tag d = TEl EG -> valid_attrs anc d = true -> forall a v, In (a, v) (effects d) -> In a condition_attrs \/ v = VPre Vid_none.
Proof.
  intros R Hd Td V a v H. unfold effects, given in H. apply in_flat_map in H. destruct H as (b & Hb & H). destruct (d_get d b) as [w|] eqn:E; [|destruct H]. destruct H as [H|[]]. inversion H; subst b w. unfold effect_attrs in Hb. apply in_app_or in Hb. destruct Hb as [Hb|Hb]; [|now left]. right.
  destruct (g_attrs t R d a v Hd Td E) as (_ & _ & _ & Q). destruct (Q Hb) as [->|(k & ->)]; [reflexivity|]. exfalso. unfold valid_attrs in V. rewrite forallb_forall in V. specialize (V a). assert (I : In a [AFill; AStroke; AFilter; AMask; AClipPath]) by (cbn in Hb |- *; tauto). specialize (V I). cbn [valid_attr] in V. rewrite E in V. discriminate.
Qed.
Lemma prep_one_ok uu o t k : gready t -> exists t' b, prep_one o t k = Ok (t', b) /\ good uu t t'.
Proof.
  intros R. unfold prep_one. destruct (find_sub k t) as [s|] eqn:F; [|eexists _, _; split; [reflexivity|now apply good_refl]]. destruct (ancestors k [] t) as [anc|] eqn:A; [|eexists _, _; split; [reflexivity|now apply good_refl]].
  apply find_sub_some in F. destruct F as [Hs Ks]. destruct (is_tag EG (data s) && d_has (data s) ATransform) eqn:C; [|eexists _, _; split; [reflexivity|now apply good_refl]]. apply andb_true_iff in C. destruct C as [C1 C2]. apply is_tag_iff in C1. pose proof (data_of_sub _ _ Hs) as Hd.
  destruct (valid_ts_ok t (data s) R Hd) as (b & ->). cbn [bind]. destruct (negb b || negb (valid_attrs anc (data s))) eqn:V; [eexists _, _; split; [reflexivity|now apply good_refl]|]. apply orb_false_iff in V. destruct V as [_ V]. apply negb_false_iff in V.
  destruct (all_ok_ok (fun c => child_ok o (data s :: anc) (data c)) (svg_kids s)) as (ok & ->). { intros c Hc. apply filter_In in Hc. destruct Hc as [Hc _]. apply (child_ok_ok o t); [exact R|]. apply data_of_sub. exact (kid_sub s c t Hs Hc). }
  cbn [bind]. destruct ok; [|eexists _, _; split; [reflexivity|now apply good_refl]]. apply has_get in C2. destruct (d_get (data s) ATransform) as [v|] eqn:E; [|congruence]. destruct (g_trans t R _ v Hd E) as (m & ->). eexists _, _. split; [reflexivity|]. pose proof (prep_moves t s m R Hs C1 E) as M. split; [|split; [|split]].
  - exact (gready_moved t s _ R Hs C1 M).
  - exact (prep_drawing uu t s m R Hs C1 E (valid_attrs_eff t anc (data s) R Hd C1 V)).
  - exact (st_moved t s _ _ R Hs C1 M (st_refl _)).
  - unfold push_ts. rewrite keys_tmap; [lia|exact (mv_key _ _ _ M)].
Qed.
Lemma prep_loop_ok uu o rec ks : forall t, gready t -> exists t', prep_loop o rec ks t = Ok t' /\ good uu t t'.
Proof.
  induction ks as [|k ks IH]; intros t R; cbn [prep_loop]; [exists t; split; [reflexivity|now apply good_refl]|]. destruct (prep_one_ok uu o t k R) as (t1 & b & -> & G1). cbn [bind fst snd]. destruct (b && negb rec); [eauto|]. destruct (IH t1 (proj1 G1)) as (t2 & -> & G2). exists t2. split; [reflexivity|exact (good_trans uu _ _ _ G1 G2)].
Qed.
Lemma prepare_ok uu o self rec p t : gready t -> exists t', prepare o self rec p t = Ok t' /\ good uu t t'.
Proof. intros R. unfold prepare. destruct (valid_elems o); [exists t; split; [reflexivity|now apply good_refl]|]. destruct (find_sub p t); [now apply prep_loop_ok|exists t; split; [reflexivity|now apply good_refl]]. Qed.

(** ** One group *)
Lemma qc_mul_01 x y : (0 <= x)%Qc -> (x <= 1)%Qc -> (0 <= y)%Qc -> (y <= 1)%Qc -> (0 <= x * y)%Qc /\ (x * y <= 1)%Qc.
Proof.
  intros A B C D. split.
  - replace 0%Qc with (0 * y)%Qc by ring. apply Qcmult_le_compat_r; assumption.
  - apply (Qcle_trans _ (1 * y)%Qc); [apply Qcmult_le_compat_r; assumption|]. now rewrite Qcmult_1_l.
Qed.
Lemma clamp_01 x : (0 <= x)%Qc -> (x <= 1)%Qc -> clamp x = x.
Proof.
  intros A B. unfold clamp. destruct (Qclt_le_dec x 0) as [C|C]; [exfalso; exact (Qclt_not_le _ _ C A)|]. destruct (Qclt_le_dec 1 x) as [D|D]; [exfalso; exact (Qclt_not_le _ _ D B)|reflexivity].
Qed.
(** Putting the children [ch] at the place of the group [k]. *)
Definition put_kids (k : nat) (ch : list tree) (c : tree) : option (list tree) := if Nat.eqb (root_key c) k then Some ch else None.
Lemma detach_lift k ch t : (forall c, In c ch -> ~ In k (keys c)) -> detach k (lift k ch t) = img (put_kids k ch) t.
Proof.
  intros H. unfold lift. induction t as [d l IH] using tree_ind'. rewrite !img_T, detach_T. f_equal. rewrite Forall_forall in IH. induction l as [|c l IHl]; [reflexivity|]. cbn [flat_map]. rewrite flat_map_app, IHl by (intros x Hx; apply IH; now right). f_equal. unfold rpl, put_kids. destruct (Nat.eqb_spec (root_key c) k) as [E|E].
  - cbn [flat_map]. change (root_key (T (data c) [])) with (root_key c). rewrite E, Nat.eqb_refl. cbn [app]. apply detach_list_out. intros X. apply in_flat_map in X. destruct X as (x & Hx & X). exact (H x Hx X).
  - cbn [flat_map]. rewrite root_img. destruct (Nat.eqb_spec (root_key c) k); [contradiction|]. cbn [app]. f_equal. apply (IH c). now left.
Qed.
Section One.
  Variable uu : aid -> len -> Qc.
  Variables t G : tree.
  Hypothesis R : gready t.
  Hypothesis HG : In G (subs t).
  Hypothesis TG : group G.
  Hypothesis Free : ~ referenced t (root_key G).
  Let l := attrs (data G).
  Let N := wf_keys t (g_wf t R).
  Let HdG := data_of_sub G t HG.
  Definition is_child (d : ndata) : bool := existsb (fun c => Nat.eqb (key d) (root_key c)) (kids G).
  Definition fg (d : ndata) : ndata :=
    if Nat.eqb (key d) (root_key G) then with_attrs d []
    else if is_child d then match give_attrs t (attrs (data G)) d with Ok d' => d' | _ => d end else d.
  Let f := fg.
  Hypothesis Give : forall c, In c (kids G) -> exists c', give_attrs t l (data c) = Ok c'.
  Let Nl : NoDup (map a_name l) := nd t R (data G) HdG.

  Lemma fg_G : f (data G) = with_attrs (data G) []. Proof. unfold f, fg, root_key. now rewrite Nat.eqb_refl. Qed.
  Lemma okid_key c : In c (kids G) -> root_key c <> root_key G.
  Proof. intros Hc E. apply (kid_ne t G N HG c Hc). apply (sub_unique t); auto. exact (kid_sub G c t HG Hc). Qed.
  Lemma fg_kid c : In c (kids G) -> give_attrs t l (data c) = Ok (f (data c)).
  Proof.
    intros Hc. unfold f, fg. destruct (Nat.eqb_spec (key (data c)) (root_key G)) as [Q|_]; [destruct (okid_key c Hc Q)|]. assert (X : is_child (data c) = true) by (apply existsb_exists; exists c; split; [exact Hc|apply Nat.eqb_refl]). rewrite X. destruct (Give c Hc) as (c' & E). unfold l in E. now rewrite E.
  Qed.
  Lemma fg_mixed c : In c (kids G) -> mixed l (data c) (f (data c)).
  Proof. intros Hc. exact (give_mixed t l Nl _ _ (fg_kid c Hc)). Qed.
  Lemma fg_cases d : In d (flat t) -> d = data G \/ (exists c, In c (kids G) /\ d = data c) \/ f d = d.
  Proof.
    intros Hd. unfold f, fg. destruct (Nat.eqb_spec (key d) (root_key G)) as [E|E]; [left; apply (data_unique t); auto|]. right. destruct (is_child d) eqn:X; [|now right]. left. apply existsb_exists in X. destruct X as (c & Hc & Ec). apply Nat.eqb_eq in Ec. exists c. split; [exact Hc|]. apply (data_unique t); auto. apply data_of_sub. exact (kid_sub G c t HG Hc).
  Qed.
  Lemma fg_pres d : key (f d) = key d /\ tag (f d) = tag d /\ nid (f d) = nid d.
  Proof.
    unfold f, fg. destruct (Nat.eqb _ _); [repeat split|]. destruct (is_child d); [|repeat split]. destruct (give_attrs t (attrs (data G)) d) as [d'| |] eqn:E; [|repeat split|repeat split]. apply (give_mixed t _ Nl) in E. repeat split; apply E.
  Qed.
  Lemma fg_get c a : In c (kids G) -> d_get (f (data c)) a = mix a (d_get (data G) a) (d_get (data c) a).
  Proof. intros Hc. rewrite !get_lk. apply (x_get _ _ _ (fg_mixed c Hc)). Qed.
  Lemma fg_G_get a : d_get (f (data G)) a = None. Proof. rewrite fg_G. reflexivity. Qed.
  Lemma kid_flat c : In c (kids G) -> In (data c) (flat t).
  Proof. intros Hc. apply data_of_sub. exact (kid_sub G c t HG Hc). Qed.
  Lemma fg_moves : moves t G f.
  Proof.
    split; try (intros d; apply (fg_pres d)).
    - intros d Hd. destruct (fg_cases d Hd) as [->|[(c & Hc & ->)|E]]; [rewrite fg_G; constructor|apply (x_nodup _ _ _ (fg_mixed c Hc)); now apply (nd t R)|rewrite E; now apply (nd t R)].
    - intros d n v Hd L. destruct (fg_cases d Hd) as [->|[(c & Hc & ->)|E]]; [rewrite fg_G in L; discriminate| |left; now rewrite <- E]. pose proof (fg_mixed c Hc) as M. destruct n as [a|s]; [|left; now rewrite <- (x_other _ _ _ M)].
      rewrite (x_get _ _ _ M) in L. change (lk (AN a) l) with (lk (AN a) (attrs (data G))) in L. rewrite <- !get_lk in L. destruct (d_get (data G) a) as [v1|] eqn:E1; [|left; now rewrite <- get_lk].
      assert (Kd : data c = data G \/ In (data c) (map data (kids G))) by (right; now apply in_map). destruct (d_get (data c) a) as [v2|] eqn:E2.
      + cbn [mix] in L. destruct (aid_eqb_spec a AOpacity) as [->|Q1].
        * destruct (g_opacity t R _ v1 HdG E1) as (x & -> & A1 & A2). destruct (g_opacity t R _ v2 (kid_flat c Hc) E2) as (y & -> & B1 & B2). injection L as <-. right. split; [exact Kd|]. exists AOpacity. split; [reflexivity|]. right. left. split; [reflexivity|]. exists (x * y)%Qc. split; [reflexivity|now apply qc_mul_01].
        * destruct (aid_eqb_spec a ATransform) as [->|Q2].
          { destruct (g_trans t R _ v1 HdG E1) as (m & ->). destruct (g_trans t R _ v2 (kid_flat c Hc) E2) as (n & ->). injection L as <-. right. split; [exact Kd|]. exists ATransform. split; [reflexivity|]. right. right. split; [reflexivity|]. split; [eauto|]. left. congruence. }
          { destruct (aid_eqb_spec a ADisplay); [|left; rewrite <- get_lk; congruence]. right. split; [exact Kd|]. exists a. split; [reflexivity|]. left. congruence. }
      + cbn [mix] in L. right. split; [exact Kd|]. exists a. split; [reflexivity|]. left. congruence.
    - intros d a Hd Td Ha. destruct (shade_elsewhere a Ha) as [El _]. destruct (fg_cases d Hd) as [->|[(c & Hc & ->)|E]]; [destruct (Td TG)| |now rewrite E]. apply (give_keeps t (attrs (data G)) a); [|exact (fg_kid c Hc)]. rewrite <- get_lk. destruct (d_get (data G) a) as [v|] eqn:Ev; [|reflexivity]. destruct (g_attrs t R _ a v HdG TG Ev) as (X & _). congruence.
  Qed.
  (** What the group gives. *)
  Lemma fg_ts c : In c (kids G) -> ts_of (f (data c)) = t_mul (ts_of (data G)) (ts_of (data c)).
  Proof.
    intros Hc. unfold ts_of at 1. rewrite (fg_get c _ Hc). destruct (d_get (data G) ATransform) as [v1|] eqn:E1.
    - destruct (g_trans t R _ v1 HdG E1) as (m & ->). rewrite (ts_get _ _ E1). destruct (d_get (data c) ATransform) as [v2|] eqn:E2; cbn [mix].
      + destruct (g_trans t R _ v2 (kid_flat c Hc) E2) as (n & ->). rewrite (ts_get _ _ E2), <- t_append_mul. reflexivity.
      + now rewrite (ts_none _ E2), t_mul_id_r.
    - rewrite (ts_none _ E1), t_mul_id_l. reflexivity.
  Qed.
  Lemma fg_opacity c : In c (kids G) -> (opacity_of (data G) * opacity_of (data c) = opacity_of (f (data c)))%Qc.
  Proof.
    intros Hc. unfold opacity_of. rewrite (fg_get c _ Hc). destruct (d_get (data G) AOpacity) as [v1|] eqn:E1.
    - destruct (g_opacity t R _ v1 HdG E1) as (x & -> & A1 & A2). destruct (d_get (data c) AOpacity) as [v2|] eqn:E2.
      + destruct (g_opacity t R _ v2 (kid_flat c Hc) E2) as (y & -> & B1 & B2). destruct (qc_mul_01 x y A1 A2 B1 B2) as [C1 C2]. change (mix AOpacity (Some (VNum x)) (Some (VNum y))) with (Some (VNum (x * y)%Qc)). cbv iota beta. rewrite !clamp_01 by assumption. reflexivity.
      + change (mix AOpacity (Some (VNum x)) None) with (Some (VNum x)). cbv iota beta. change q1 with 1%Qc. ring.
    - change (mix AOpacity None (d_get (data c) AOpacity)) with (d_get (data c) AOpacity). change q1 with 1%Qc. ring.
  Qed.
  Lemma fg_display c : In c (kids G) -> (displayed (f (data c)) <-> displayed (data G) /\ displayed (data c)).
  Proof.
    intros Hc. unfold displayed. rewrite (fg_get c _ Hc). destruct (d_get (data G) ADisplay) as [v1|] eqn:E1; [|cbn [mix]; split; [intros H; split; [discriminate|exact H]|tauto]].
    destruct (g_attrs t R (data G) ADisplay v1 HdG TG E1) as (_ & _ & Q & _). rewrite (Q eq_refl). assert (X : mix ADisplay (Some (VPre Vid_none)) (d_get (data c) ADisplay) = Some (VPre Vid_none)) by (destruct (d_get (data c) ADisplay); reflexivity). rewrite X. tauto.
  Qed.
  Lemma fg_same c a : In c (kids G) -> d_get (data G) a = None -> d_get (f (data c)) a = d_get (data c) a.
  Proof. intros Hc E. rewrite (fg_get c a Hc), E. reflexivity. Qed.
  Hypothesis Eff : effects (data G) = [].
  Lemma eff_none a : In a effect_attrs -> d_get (data G) a = None. Proof. exact (given_nil _ _ Eff a). Qed.
  Lemma fg_push : (forall c, In c (kids G) -> ~ referenced t (root_key c)) ->
    ((forall a, a <> ATransform -> d_get (data G) a = None) \/ exists c, kids G = [c]) -> same_drawing uu t (tmap f t).
  Proof.
    intros Un Mode. apply (push_drawing uu t G f N HG TG (fun d => proj1 (fg_pres d)) (fun d => proj1 (proj2 (fg_pres d)))).
    - intros d Hd A B. destruct (fg_cases d Hd) as [->|[(c & Hc & ->)|E]]; [destruct (A eq_refl)|destruct (B c Hc eq_refl)|exact E].
    - intros c Hc. apply unref_key. now apply Un.
    - intros c Hc a I. apply inherited_not in I. destruct I as (I1 & I2 & I3). cbn [nearest]. rewrite fg_G_get, (fg_get c a Hc). destruct (d_get (data G) a) as [v|]; [|destruct (d_get (data c) a); reflexivity]. destruct (d_get (data c) a) as [w|]; cbn [mix]; [|reflexivity]. destruct (aid_eqb_spec a AOpacity); [contradiction|]. destruct (aid_eqb_spec a ATransform); [contradiction|]. destruct (aid_eqb_spec a ADisplay); [contradiction|reflexivity].
    - intros c Hc. pose proof (fg_mixed c Hc) as M. split; [apply M|]. split; [apply M|]. split; [apply M|]. intros n E. destruct n as [a|s]; [|discriminate]. rewrite !lookup_get. apply fg_same; [exact Hc|]. destruct (d_get (data G) a) as [v|] eqn:L; [|reflexivity]. destruct (g_attrs t R (data G) a v HdG TG L) as (Q & _). congruence.
    - intros c Hc P Ns. rewrite (fg_ts c Hc). rewrite (ts_none (f (data G)) (fg_G_get _)). now rewrite t_mul_id_l.
    - intros c Hc X. rewrite (ts_none (f (data G)) (fg_G_get _)). destruct (d_get (data G) ATransform) as [v|] eqn:E; [|symmetry; now apply ts_none]. exfalso. destruct (g_moved t R G (data c) HG TG) as [Q _]; [congruence|now apply kid_inside|contradiction].
    - apply given_ext. intros a Ha. rewrite fg_G_get. symmetry. apply eff_none. unfold effect_attrs. apply in_or_app. now right.
    - intros c Hc. apply (g_below t R G); auto. now apply kid_inside.
    - intros a p P Hp. exact (g_shape t R a G p P TG Hp).
    - destruct Mode as [Mode|(c & Ec)].
      + left. unfold keeps. assert (D0 : displayed (data G)) by (unfold displayed; rewrite (Mode ADisplay) by discriminate; discriminate). assert (O0 : opacity_of (data G) = q1) by (unfold opacity_of; rewrite (Mode AOpacity) by discriminate; reflexivity).
        split; [unfold displayed at 1; rewrite fg_G_get; split; [intros _; exact D0|intros _; discriminate]|]. split; [unfold opacity_of at 1; rewrite fg_G_get; now rewrite O0|]. split; [rewrite Eff; apply given_of; intros a _; apply fg_G_get|]. split; [rewrite Eff; intros a v []|].
        intros c Hc. split; [rewrite (fg_display c Hc); tauto|]. split; [rewrite <- (fg_opacity c Hc), O0; change q1 with 1%Qc; ring|]. apply effects_ext. intros a Ha. apply fg_same; [exact Hc|now apply eff_none].
      + right. assert (Hc : In c (kids G)) by (rewrite Ec; now left). split; [unfold displayed; rewrite fg_G_get; discriminate|]. split; [exact Eff|]. split; [apply given_of; intros a _; apply fg_G_get|]. exists c. split; [exact Ec|]. split; [apply effects_ext; intros a Ha; apply fg_same; [exact Hc|now apply eff_none]|]. split; [exact (fg_display c Hc)|].
        rewrite (fg_opacity c Hc). unfold opacity_of at 2. rewrite fg_G_get. change q1 with 1%Qc. ring.
    - exact (g_root t R).
  Qed.

  (** The result of the move is a document without the group. *)
  Definition new_kids : list tree := map (fun c => T (f (data c)) (kids c)) (kids G).
  Lemma fg_out : forall d, In d (flat t) -> key d <> root_key G -> (forall c, kid G c -> key d <> root_key c) -> f d = d.
  Proof. intros d Hd A B. destruct (fg_cases d Hd) as [->|[(c & Hc & ->)|E]]; [destruct (A eq_refl)|destruct (B c Hc eq_refl)|exact E]. Qed.
  Lemma new_kids_eq : map (tmap f) (kids G) = new_kids.
  Proof.
    apply map_ext_in. intros c Hc. rewrite (tmap_split f c). f_equal. exact (kid_inner t G f N HG fg_out c Hc).
  Qed.
  Lemma melt_put s : In s (subs t) -> s <> G -> ~ In s (kids G) -> img (melt (root_key G)) (tmap f s) = img (put_kids (root_key G) new_kids) s.
  Proof.
    induction s as [d ch IH] using tree_ind'. intros Hs NG NK. cbn [tmap]. rewrite !img_T. pose proof (f_other t G f N HG fg_out (T d ch) Hs NG NK) as E. cbn [data] in E. rewrite E. f_equal. rewrite Forall_forall in IH.
    assert (X : forall c, In c ch -> rpl (melt (root_key G)) (tmap f c) = rpl (put_kids (root_key G) new_kids) c).
    { intros c Hc. pose proof (kid_sub _ c t Hs Hc) as Hc'. rewrite rpl_melt. unfold rpl, put_kids at 1. rewrite (root_t f (fun d => proj1 (fg_pres d))). destruct (Nat.eqb_spec (root_key c) (root_key G)) as [Q|Q].
      - assert (c = G) by now apply (sub_unique t). subst c. rewrite kids_t. apply new_kids_eq.
      - f_equal. apply IH; [exact Hc|exact Hc'|intros ->; now apply Q|exact (kids_not t G N HG _ Hs NG c Hc)]. }
    clear -X. induction ch as [|c ch IHc]; [reflexivity|]. cbn [map flat_map]. rewrite X by now left. f_equal. apply IHc. intros x Hx. apply X. now right.
  Qed.
  Lemma give_all_kids ch : incl ch (kids G) -> give_all t l ch = Ok (map (fun c => T (f (data c)) (kids c)) ch).
  Proof.
    induction ch as [|c ch IH]; intros I; [reflexivity|]. cbn [give_all map]. rewrite (fg_kid c) by (apply I; now left). cbn [bind]. rewrite IH by (intros x Hx; apply I; now right). reflexivity.
  Qed.
  Lemma key_not_kid c : In c (kids G) -> ~ In (root_key G) (keys c).
  Proof. intros Hc K. apply (self_not_below G (sub_NoDup G t N HG)). apply sub_of_key in K. destruct K as (x & Hx & E). assert (x = G); [|subst x; apply in_flat_map; eauto]. apply (sub_unique t); auto. exact (subs_trans t c x (kid_sub G c t HG Hc) Hx). Qed.
  Lemma new_keys c' : In c' new_kids -> exists c, In c (kids G) /\ c' = tmap f c.
  Proof. rewrite <- new_kids_eq. intros H. apply in_map_iff in H. destruct H as (c & <- & Hc). eauto. Qed.
  Lemma new_not c' : In c' new_kids -> ~ In (root_key G) (keys c').
  Proof. intros H. destruct (new_keys c' H) as (c & Hc & ->). rewrite keys_tmap by (intros d; apply (fg_pres d)). now apply key_not_kid. Qed.
  Lemma root_not_G : root_key t <> root_key G.
  Proof. intros E. pose proof (g_root t R) as Rt. assert (t = G) by (apply (sub_unique t); auto; apply subs_self). unfold group in TG. rewrite <- H, Rt in TG. discriminate. Qed.
  Lemma remove_lift : remove (root_key G) (lift (root_key G) new_kids t) = img (put_kids (root_key G) new_kids) t.
  Proof.
    unfold remove. rewrite MergeProofs.unlink_none; [apply detach_lift; exact new_not|]. intros d k Hd Hk Rk. set (h := fun c : tree => if Nat.eqb (root_key c) (root_key G) then Some (T (data c) [] :: new_kids) else None).
    assert (Lf : forall x, In x (flat (lift (root_key G) new_kids t)) -> exists y, In y (flat t) /\ (x = y \/ x = f y)).
    { intros x Hx. apply flat_img in Hx. destruct Hx as [Hx|(r & ls & y & Hr & Er & Hy & Hx)]; [eauto|]. apply reps_spec in Hr. destruct Hr as [Hr _]. apply in_kids_subs in Hr. destruct (Nat.eqb (root_key r) (root_key G)); [|discriminate]. inversion Er; subst ls. destruct Hy as [<-|Hy].
      - destruct Hx as [<-|[]]. exists (data r). split; [now apply data_of_sub|now left].
      - destruct (new_keys y Hy) as (c & Hc & ->). rewrite flat_tmap in Hx. apply in_map_iff in Hx. destruct Hx as (z & <- & Hz). exists z. split; [|now right]. rewrite <- map_data_subs in Hz. apply in_map_iff in Hz. destruct Hz as (w & <- & Hw). apply data_of_sub. exact (subs_trans t c w (kid_sub G c t HG Hc) Hw). }
    assert (Kk : k = root_key G).
    { unfold sub_keys in Hk. destruct (find_sub (root_key G) (lift (root_key G) new_kids t)) as [s|] eqn:F; [|destruct Hk]. apply find_sub_some in F. destruct F as [Hs Ks]. apply subs_img in Hs. destruct Hs as [(s0 & Hs0 & -> & Q)|(r & ls & y & Hr & Er & Hy & Hx)].
      - exfalso. rewrite root_img in Ks. destruct Q as [->|Q]; [now apply root_not_G|]. rewrite Ks, Nat.eqb_refl in Q. discriminate.
      - destruct (Nat.eqb_spec (root_key r) (root_key G)) as [Z|Z]; [|discriminate]. inversion Er; subst ls. destruct Hy as [<-|Hy]; [|exfalso; apply (new_not y Hy); rewrite <- Ks; now apply key_in_sub]. destruct Hx as [<-|[]]. destruct Hk as [<-|[]]. exact Ks. }
    subst k. apply Free. destruct (Lf d Hd) as (y & Hy & [-> | ->]); [exists y; auto|]. destruct (mv_refs t G f R HG fg_moves y _ Hy Rk) as [A|A]; [exists y; auto|exists (data G); auto].
  Qed.
  Lemma lift_melt : kids G <> [] -> remove (root_key G) (lift (root_key G) new_kids t) = melted (tmap f t) (tmap f G).
  Proof.
    intros _. rewrite remove_lift. unfold melted. rewrite (root_t f (fun d => proj1 (fg_pres d))). symmetry. apply melt_put; [apply subs_self| |].
    - intros E. apply root_not_G. now rewrite <- E.
    - exact (t_not_kid t G N HG TG (g_root t R)).
  Qed.
  Lemma lift_empty : kids G = [] -> remove (root_key G) (lift (root_key G) new_kids t) = melted t G.
  Proof.
    intros E. rewrite remove_lift. unfold melted. apply img_ext. intros s Hs. unfold put_kids, melt. destruct (Nat.eqb_spec (root_key s) (root_key G)) as [Q|Q]; [|reflexivity]. assert (s = G) by (apply (sub_unique t); auto; now apply in_kids_subs). subst s. unfold new_kids. now rewrite E.
  Qed.
End One.
Lemma used_referenced k t : is_used k t = true <-> referenced t k.
Proof. rewrite is_used_iff, targets_in. unfold referenced, refers_to. split; [intros (d & x & A & B & C)|intros (d & A & x & B & C)]; eauto. Qed.
Lemma unused_referenced k t : is_used k t = false <-> ~ referenced t k.
Proof. rewrite <- used_referenced. destruct (is_used k t); split; congruence. Qed.
Lemma parent_place t P G a p : NoDup (keys t) -> In P (subs t) -> In G (kids P) -> In (p :: a, G) (places [] t) -> p = data P.
Proof.
  intros N HP HG Pl. destruct (sub_place P t [] HP) as (b & PP). pose proof (place_kid t [] b P G PP HG) as P2. assert (E : (p :: a, G) = (data P :: b, G)) by (apply (place_unique t []); auto). now inversion E.
Qed.
(** What [can_ungroup] says. *)
Inductive ungroup_case (t : tree) (p : ndata) (G : tree) : Prop :=
| uc_empty : kids G = [] -> d_get (data G) AFilter = None -> ungroup_case t p G
| uc_single c : kids G = [c] -> ~ referenced t (root_key G) -> (forall a, In a [AMask; AClipPath; AFilter] -> d_get (data G) a = None) -> ~ referenced t (root_key c) -> ungroup_case t p G
| uc_none : ~ referenced t (root_key G) -> tag p <> TEl ESwitch -> kids G <> [] -> attrs (data G) = [] -> ungroup_case t p G
| uc_trans x : ~ referenced t (root_key G) -> tag p <> TEl ESwitch -> kids G <> [] -> attrs (data G) = [x] -> a_name x = AN ATransform -> ungroup_case t p G.
Lemma can_ungroup_case t p G : can_ungroup t p G = true -> ungroup_case t p G.
Proof.
  unfold can_ungroup. destruct (match kids G with [] => true | _ => false end && negb (d_has (data G) AFilter)) eqn:E0.
  - intros _. apply andb_true_iff in E0. destruct E0 as [A B]. apply uc_empty; [now destruct (kids G)|]. apply negb_true_iff in B. now apply has_get_none.
  - destruct (is_used (key (data G)) t) eqn:U; [discriminate|]. apply unused_referenced in U. destruct (existsb (d_has (data G)) [AMask; AClipPath; AFilter]) eqn:E1; [discriminate|]. assert (Ef : forall a, In a [AMask; AClipPath; AFilter] -> d_get (data G) a = None).
    { intros a Ha. apply has_get_none. destruct (d_has (data G) a) eqn:Q; [|reflexivity]. assert (X : existsb (d_has (data G)) [AMask; AClipPath; AFilter] = true) by (apply existsb_exists; eauto). congruence. }
    destruct (is_tag EClipPath p); [discriminate|]. assert (Ne : kids G <> []). { intros E. rewrite E in E0. apply andb_false_iff in E0. destruct E0 as [E0|E0]; [discriminate|]. apply negb_false_iff, has_get in E0. apply E0, Ef. cbn. auto. }
    destruct (match kids G with [c] => negb (is_used (root_key c) t) | _ => false end) eqn:E2.
    { intros _. destruct (kids G) as [|c [|c2 r]] eqn:K; try discriminate. apply (uc_single t p G c); auto. apply negb_true_iff in E2. now apply unused_referenced. }
    destruct (is_tag ESwitch p) eqn:Sw; [discriminate|]. apply tag_false in Sw. destruct (attrs (data G)) as [|x r] eqn:A; [intros _; now apply uc_none|]. intros H. apply andb_true_iff in H. destruct H as [H _]. apply andb_true_iff in H. destruct H as [H1 H2]. apply Nat.eqb_eq in H2. destruct r; [|discriminate]. apply (uc_trans t p G x); auto. apply has_lk in H1. rewrite A in H1. unfold lk in H1. cbn [find] in H1. destruct (has_name (AN ATransform) x) eqn:Q; [now apply has_name_true in Q|]. cbn in H1. congruence.
Qed.
Lemma kid_unref_give t G c : gready t -> In G (subs t) -> In c (kids G) -> ~ referenced t (root_key c) -> exists c', give_attrs t (attrs (data G)) (data c) = Ok c'.
Proof.
  intros R HG Hc U. pose proof (data_of_sub G t HG) as HdG. pose proof (kid_sub G c t HG Hc) as Hc'. pose proof (wf_keys t (g_wf t R)) as N. apply give_ok.
  - intros v E. destruct (g_opacity t R _ v (data_of_sub _ _ Hc') E) as (x & -> & _). eauto.
  - intros x Hx. split.
    + intros c' K I. unfold put_ok. destruct (link_of (a_val x)) as [k|] eqn:L; [|reflexivity]. destruct (find_data k t) as [n|] eqn:F; [|reflexivity]. apply VLoop.find_data_some in F. destruct F as [Hn Kn]. assert (Rn : refers_to (data G) (key n)) by (exists x; rewrite Kn; auto). destruct (g_ids t R (data G) n HdG Hn Rn) as [A B].
      assert (Ne : n <> data c) by (intros ->; apply U; exists (data G); auto). unfold can_link. assert (H1 : has_id n = true) by (unfold has_id; destruct (nid n); [congruence|reflexivity]). rewrite H1. assert (H2 : String.eqb (nid c') (nid n) = false) by (apply String.eqb_neq; rewrite I; intros E; apply Ne; symmetry; apply B; [now apply data_of_sub|exact E]). rewrite H2.
      destruct (existsb (refers (key c')) (attrs n)) eqn:H3; [|reflexivity]. exfalso. apply existsb_exists in H3. destruct H3 as (y & Hy & Ry). apply refers_iff in Ry. apply U. exists n. split; [exact Hn|]. exists y. split; [exact Hy|]. unfold root_key. now rewrite <- K.
    + intros E. pose proof (lk_in _ x (nd t R _ HdG) Hx) as L. rewrite E, <- get_lk in L. destruct (g_opacity t R _ _ HdG L) as (y & Q & _). eauto.
Qed.
Lemma ungroup_step uu o self t P G : gready t -> In P (subs t) -> In G (kids P) -> group G -> can_ungroup t (data P) G = true ->
  exists t', ungroup_one o self t (root_key P) (root_key G) = Ok t' /\ gready t' /\ same_drawing uu t t' /\ steps t t' /\ List.length (keys t') < List.length (keys t).
Proof.
  intros R HP HK TG C. apply can_ungroup_case in C. pose proof (kid_sub P G t HP HK) as HG. pose proof (wf_keys t (g_wf t R)) as N. pose proof (data_of_sub G t HG) as HdG.
  assert (F : find_sub (root_key G) t = Some G) by (apply find_sub_iff; auto). unfold ungroup_one. rewrite F.
  assert (Main : ~ referenced t (root_key G) -> (forall c, In c (kids G) -> exists c', give_attrs t (attrs (data G)) (data c) = Ok c') ->
    (exists t1, remove (root_key G) (lift (root_key G) (new_kids t G) t) = t1 /\ gready t1 /\ same_drawing uu t t1 /\ steps t t1 /\ List.length (keys t1) < List.length (keys t)) ->
    exists t', bind (give_all t (attrs (data G)) (kids G)) (fun ch => prepare o self false (root_key P) (remove (root_key G) (lift (root_key G) ch t))) = Ok t' /\ gready t' /\ same_drawing uu t t' /\ steps t t' /\ List.length (keys t') < List.length (keys t)).
  { intros Fr Gv (t1 & E & R1 & S1 & O1 & L1). rewrite (give_all_kids t G R HG Gv (kids G) (incl_refl _)). cbn [bind]. fold (new_kids t G). rewrite E. destruct (prepare_ok uu o self false (root_key P) t1 R1) as (t2 & -> & R2 & S2 & O2 & L2). exists t2. split; [reflexivity|]. split; [exact R2|]. split; [exact (same_drawing_trans uu _ _ _ S1 S2)|split; [exact (steps_trans _ _ _ O1 O2)|lia]]. }
  assert (Place : forall a p, In (a, G) (places [] t) -> In p a -> ~ shape_el p) by (intros a p Pl Hp; exact (g_shape t R a G p Pl TG Hp)).
  assert (Cond : given (data G) condition_attrs = []) by (apply given_of; intros a Ha; destruct (d_get (data G) a) as [v|] eqn:E; [|reflexivity]; destruct (g_attrs t R (data G) a v HdG TG E) as (_ & Q & _); contradiction).
  destruct (list_eq_dec Nat.eq_dec (map root_key (kids G)) []) as [K0|K0].
  - (* empty *) assert (K : kids G = []) by (destruct (kids G); [reflexivity|discriminate]). assert (Fr : ~ referenced t (root_key G)). { intros U. destruct (g_used t R G HG TG U) as (d & Hd & _). unfold inside in Hd. rewrite K in Hd. destruct Hd. }
    assert (Fi : d_get (data G) AFilter = None). { destruct C as [_ A|c A|_ _ A _|x _ _ A _ _]; [exact A|congruence|congruence|congruence]. }
    assert (Gv : forall c, In c (kids G) -> exists c', give_attrs t (attrs (data G)) (data c) = Ok c') by (rewrite K; intros c []).
    apply Main; [exact Fr|exact Gv|]. exists (melted t G). split; [exact (lift_empty t G R HG TG Fr Gv K)|]. split; [exact (gready_melted t G R HG TG Fr)|]. split; [|split; [exact (st_melted t G _ R HG TG Fr (st_refl _))|exact (melted_length t G R HG TG)]].
    apply (melt_drawing uu t G N HG TG (g_root t R) Place).
    + exact (unref_key t G Fr).
    + left. split; [exact K|]. intros I. apply in_map_iff in I. destruct I as ([a v] & E & I). cbn in E. subst a. unfold effects, given in I. apply in_flat_map in I. destruct I as (b & _ & I). destruct (d_get (data G) b) eqn:Q; [|destruct I]. destruct I as [I|[]]. inversion I; subst. congruence.
    + intros p a Pl Tp. destruct (g_switch t R _ G p Pl TG (or_introl eq_refl) Tp) as [(d & Hd & _) _]. unfold inside in Hd. rewrite K in Hd. destruct Hd.
    + exact (G_no_top t G R HG TG).
  - (* not empty *) assert (Kn : kids G <> []) by (intros E; apply K0; now rewrite E). assert (Fr : ~ referenced t (root_key G)) by (destruct C; [contradiction|assumption|assumption|assumption]).
    assert (Un : forall c, In c (kids G) -> ~ referenced t (root_key c) \/ attrs (data G) = []).
    { intros c Hc. destruct C as [A|c0 A _ _ U|_ _ _ A|x _ _ _ A E]; [contradiction|left; rewrite A in Hc; destruct Hc as [<-|[]]; exact U|now right|left]. apply (g_moved t R G (data c) HG TG); [|now apply kid_inside]. rewrite get_lk, A. unfold lk. cbn [find]. rewrite (proj2 (has_name_true (AN ATransform) x) E). discriminate. }
    assert (Gv : forall c, In c (kids G) -> exists c', give_attrs t (attrs (data G)) (data c) = Ok c'). { intros c Hc. destruct (Un c Hc) as [U|A]; [exact (kid_unref_give t G c R HG Hc U)|rewrite A; exists (data c); reflexivity]. }
    assert (Eff : effects (data G) = []).
    { apply given_of. intros a Ha. unfold effect_attrs in Ha. apply in_app_or in Ha. destruct Ha as [Ha|Ha]; [|exact (given_nil _ _ Cond a Ha)]. destruct C as [A|c0 A _ Q _|_ _ _ A|x _ _ _ A E]; [contradiction|apply Q; cbn in Ha |- *; tauto|now rewrite get_lk, A|]. rewrite get_lk, A. unfold lk. cbn [find]. destruct (has_name (AN a) x) eqn:Q; [|reflexivity]. apply has_name_true in Q. rewrite E in Q. inversion Q; subst a. cbn in Ha. intuition discriminate. }
    pose proof (fg_moves t G R HG TG Gv) as M. set (f := fg t G) in *. pose proof (gready_moved t G f R HG TG M) as R1. set (t1 := tmap f t) in *. set (G1 := tmap f G) in *.
    assert (HG1 : In G1 (subs t1)) by (unfold t1, G1; rewrite subs_tmap; now apply in_map). assert (TG1 : group G1) by (unfold group, G1; rewrite data_tm, (mv_tag _ _ _ M); exact TG). assert (KG1 : root_key G1 = root_key G) by exact (root_t f (mv_key _ _ _ M) G).
    assert (Fr1 : ~ referenced t1 (root_key G1)) by (rewrite KG1; intros X; apply Fr; exact (mv_referenced t G f R HG M _ X)).
    apply Main; [exact Fr|exact Gv|]. exists (melted t1 G1). split; [exact (lift_melt t G R HG TG Fr Gv Kn)|]. split; [exact (gready_melted t1 G1 R1 HG1 TG1 Fr1)|]. split; [|split].
    + apply (same_drawing_trans uu t t1).
      * destruct (attrs (data G)) as [|x0 r0] eqn:A0.
        { assert (Id : t1 = t). { unfold t1. apply tmap_id. intros d Hd. destruct (fg_cases t G R HG d Hd) as [->|[(c & Hc & ->)|E]]; [unfold f; rewrite fg_G; unfold with_attrs; rewrite <- A0; now destruct (data G)| |exact E]. pose proof (fg_kid t G R HG) as FK. rewrite A0 in FK. specialize (FK Gv c Hc). cbn in FK. fold f in FK. now inversion FK. }
          rewrite Id. apply same_drawing_refl. }
        rewrite <- A0 in Gv. apply (fg_push uu t G R HG TG Gv Eff).
        { intros c Hc. destruct (Un c Hc) as [U|U]; [exact U|discriminate]. }
        { destruct C as [A|c0 A _ _ U|_ _ _ A|x _ _ _ A E]; [contradiction|right; eauto|congruence|left]. intros a Na. rewrite get_lk, A. unfold lk. cbn [find]. destruct (has_name (AN a) x) eqn:Q; [|reflexivity]. apply has_name_true in Q. congruence. }
      * apply (melt_drawing uu t1 G1 (wf_keys t1 (g_wf t1 R1)) HG1 TG1 (g_root t1 R1)).
        { intros a p Pl Hp. exact (g_shape t1 R1 a G1 p Pl TG1 Hp). }
        { exact (unref_key t1 G1 Fr1). }
        { right. assert (X : data G1 = with_attrs (data G) []) by (unfold G1; rewrite data_tm; exact (fg_G t G)). rewrite X. repeat split; try reflexivity. discriminate. }
        { intros p a Pl Tp. destruct (g_switch t1 R1 _ G1 p Pl TG1 (or_introl eq_refl) Tp) as [_ Kc]. split; [assert (X : data G1 = with_attrs (data G) []) by (unfold G1; rewrite data_tm; exact (fg_G t G)); now rewrite X|].
          destruct (places_tmap_inv f t (mv_key _ _ _ M) [] _ _ Pl) as (b & s & Pb & Eb & Es). assert (s = G). { apply (sub_unique t); auto; [exact (place_sub _ _ _ _ Pb)|]. rewrite <- KG1, Es. symmetry. apply (root_t f (mv_key _ _ _ M)). } subst s. destruct b as [|p0 b]; [discriminate|]. pose proof (parent_place t P G b p0 N HP HK Pb) as Ep. subst p0. cbn in Eb. inversion Eb; subst p. rewrite (mv_tag _ _ _ M) in Tp.
          destruct C as [A|c0 A _ _ U|_ Q _ _|x _ Q _ _ _]; [contradiction| |contradiction|contradiction]. exists (tmap f c0). assert (X : kids G1 = [tmap f c0]) by (unfold G1; rewrite kids_t, A; reflexivity). split; [exact X|]. apply Kc. rewrite X. now left. }
        { exact (G_no_top t1 G1 R1 HG1 TG1). }
    + apply (st_moved t G f _ R HG TG M). exact (st_melted t1 G1 _ R1 HG1 TG1 Fr1 (st_refl _)).
    + pose proof (melted_length t1 G1 R1 HG1 TG1) as L. unfold t1 in L at 2. rewrite keys_tmap in L by exact (mv_key _ _ _ M). exact L.
Qed.

(** ** The loop *)
Lemma find_group_some t s p g : find_group t s = Some (p, g) -> exists P G, In P (subs s) /\ In G (kids P) /\ group G /\ can_ungroup t (data P) G = true /\ root_key P = p /\ root_key G = g.
Proof.
  induction s as [d ch IH] using tree_ind'. intros H. cbn [find_group] in H. rewrite Forall_forall in IH.
  assert (X : forall l, incl l ch -> (fix go (l : list tree) := match l with [] => None | c :: l' => if is_tag EG (data c) && can_ungroup t d c then Some (key d, root_key c) else match find_group t c with Some r => Some r | None => go l' end end) l = Some (p, g) ->
    exists P G, In P (subs (T d ch)) /\ In G (kids P) /\ group G /\ can_ungroup t (data P) G = true /\ root_key P = p /\ root_key G = g).
  { induction l as [|c l IHl]; intros I E; [discriminate|]. destruct (is_tag EG (data c) && can_ungroup t d c) eqn:C.
    - inversion E; subst. apply andb_true_iff in C. destruct C as [C1 C2]. exists (T d ch), c. split; [apply subs_self|]. split; [apply I; now left|]. split; [now apply tag_true|]. auto.
    - destruct (find_group t c) as [[p' g']|] eqn:F; [|apply IHl; [intros x Hx; apply I; now right|exact E]]. inversion E; subst. assert (Hc : In c ch) by (apply I; now left). destruct (IH c Hc F) as (P & G & A & B). exists P, G. split; [right; apply in_flat_map; eauto|exact B]. }
  exact (X ch (incl_refl _) H).
Qed.
Lemma find_group_none t s : find_group t s = None -> forall P G, In P (subs s) -> In G (kids P) -> group G -> can_ungroup t (data P) G = false.
Proof.
  induction s as [d ch IH] using tree_ind'. intros H. cbn [find_group] in H. rewrite Forall_forall in IH.
  assert (X : forall l, (fix go (l : list tree) := match l with [] => None | c :: l' => if is_tag EG (data c) && can_ungroup t d c then Some (key d, root_key c) else match find_group t c with Some r => Some r | None => go l' end end) l = None ->
    forall c, In c l -> (group c -> can_ungroup t d c = false) /\ find_group t c = None).
  { induction l as [|c l IHl]; intros E x Hx; [destruct Hx|]. destruct (is_tag EG (data c) && can_ungroup t d c) eqn:C; [discriminate|]. destruct (find_group t c) as [r|] eqn:F; [discriminate|]. destruct Hx as [<-|Hx]; [|now apply IHl]. split; [|exact F]. intros Gc. apply (proj2 (tag_true EG (data c))) in Gc. rewrite Gc in C. exact C. }
  intros P G [<-|HP] HG TG; [exact (proj1 (X ch H G HG) TG)|]. apply in_flat_map in HP. destruct HP as (c & Hc & HP). apply (IH c Hc (proj2 (X ch H c Hc)) P G HP HG TG).
Qed.
Lemma stuck_needed t p G : can_ungroup t p G = false -> needed t p G.
Proof.
  unfold can_ungroup, needed. destruct (match kids G with [] => true | _ => false end && negb (d_has (data G) AFilter)) eqn:E0; [discriminate|]. intros H. split.
  - intros K. rewrite K in E0. cbn in E0. apply negb_false_iff in E0. now apply has_get.
  - destruct (is_used (key (data G)) t) eqn:U; [left; now apply used_referenced|]. right. destruct (existsb (d_has (data G)) [AMask; AClipPath; AFilter]) eqn:E1; [left; apply existsb_exists in E1; destruct E1 as (a & A & B); exists a; split; [exact A|now apply has_get]|]. right.
    destruct (is_tag EClipPath p) eqn:C; [left; now apply tag_true|]. right. split.
    + intros c K. rewrite K in H. destruct (is_used (root_key c) t) eqn:Uc; [now apply used_referenced|discriminate].
    + destruct (match kids G with [c] => negb (is_used (root_key c) t) | _ => false end); [discriminate|]. destruct (is_tag ESwitch p) eqn:Sw; [left; now apply tag_true|]. right. intros A. rewrite A in H. discriminate.
Qed.
Lemma loop_ok uu o self n : forall t, gready t -> List.length (keys t) <= n ->
  exists t', ungroup_loop n o self t = Some (Ok t') /\ good uu t t' /\ forall s P G, svg_element t' = Some s -> In P (subs s) -> In G (kids P) -> group G -> needed t' (data P) G.
Proof.
  induction n as [|n IH]; intros t R L; [destruct t; cbn in L; lia|]. cbn [ungroup_loop]. destruct (g_svg t R) as (s & E). rewrite E. destruct (find_group t s) as [[p g]|] eqn:F.
  - apply find_group_some in F. destruct F as (P & G & HP & HG & TG & C & <- & <-). assert (HP' : In P (subs t)). { unfold svg_element in E. apply find_some in E. destruct E as [E _]. apply (subs_trans t s P); [|exact HP]. apply (kid_sub t s t); [apply subs_self|exact E]. }
    destruct (ungroup_step uu o self t P G R HP' HG TG C) as (t1 & -> & R1 & S1 & O1 & L1). destruct (IH t1 R1) as (t2 & -> & G2 & Q2); [lia|]. exists t2. split; [reflexivity|]. split; [|exact Q2]. apply (good_trans uu t t1); [split; [exact R1|split; [exact S1|split; [exact O1|lia]]]|exact G2].
  - exists t. split; [reflexivity|]. split; [now apply good_refl|]. intros s' P G E' HP HG TG. assert (s' = s) by congruence. subst s'. apply stuck_needed. exact (find_group_none t s F P G HP HG TG).
Qed.
Lemma ungroup_groups_steps uu o self t : gready t ->
  exists t', ungroup_groups o self t = Some (Ok t') /\ gready t' /\ same_drawing uu t t' /\ steps t t' /\
    forall s P G, svg_element t' = Some s -> In P (subs s) -> In G (kids P) -> group G -> needed t' (data P) G.
Proof.
  intros R. unfold ungroup_groups. destruct (g_svg t R) as (s & E). rewrite E. destruct (prepare_ok uu o self true (root_key s) t R) as (t1 & -> & G1). destruct G1 as (R1 & S1 & O1 & L1). destruct (loop_ok uu o self (List.length (keys t)) t1 R1 L1) as (t2 & -> & (R2 & S2 & O2 & _) & Q). exists t2. split; [reflexivity|]. split; [exact R2|]. split; [exact (same_drawing_trans uu _ _ _ S1 S2)|]. split; [exact (steps_trans _ _ _ O1 O2)|exact Q].
Qed.
Lemma ungroup_groups_ok uu o self t : gready t ->
  exists t', ungroup_groups o self t = Some (Ok t') /\ gready t' /\ same_drawing uu t t' /\ others t' = others t /\
    forall s P G, svg_element t' = Some s -> In P (subs s) -> In G (kids P) -> group G -> needed t' (data P) G.
Proof. intros R. destruct (ungroup_groups_steps uu o self t R) as (t' & A & B & C & D & E). exists t'. repeat (split; [first [assumption|now apply steps_others]|]). exact E. Qed.
