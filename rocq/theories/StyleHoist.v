(** Moving attributes from children to their group. *)
From Coq Require Import List Bool NArith Arith ZArith String Lia QArith Qcanon Permutation.
From Verif Require Import Names Num Value Dom DomFacts DomOps Outcome Stops Shapes Move MoveFacts SpecDom SpecStyle SpecText Visit Transforms Regroup ResolveUse SpecPaint PaintFacts Img UseProofs UseStep UseEnd Push Melt SpecUse SpecUngroup UngroupProofs UngroupKeep UngroupEnd TasksSimpleProofs Props_shapes Hoist Wrap GroupStyle SpecGroupStyle StyleMove SpecShading Shading.
From Verif Require VLoop.
Import ListNotations.
Local Open Scope nat_scope.

Lemma lk_rm_list n l : forall d, lk n (attrs (d_rm_list d l)) = if existsb (fun a => aname_eqb n (AN a)) l then None else lk n (attrs d).
Proof.
  induction l as [|a l IH]; intros d; [reflexivity|]. rewrite rm_list_cons, IH. unfold d_rm. cbn [attrs with_attrs existsb]. rewrite lk_rm. destruct (aname_eqb n (AN a)), (existsb _ l); reflexivity.
Qed.
Lemma get_rm_list a l : ~ In a l -> forall d, get_attr (attrs (d_rm_list d l)) a = get_attr (attrs d) a.
Proof.
  induction l as [|b l IH]; intros H d; [reflexivity|]. rewrite rm_list_cons, IH by (intros I; apply H; now right). unfold d_rm. cbn [attrs with_attrs]. apply get_rm_other. intros E. apply H. now left.
Qed.
Lemma nodup_rm_list l : forall d, attrs_nodup d -> attrs_nodup (d_rm_list d l).
Proof. induction l as [|a l IH]; intros d H; [exact H|]. rewrite rm_list_cons. apply IH. now apply nodup_rm. Qed.
(** The attributes that are moved. *)
Definition movable (x : attr) : Prop := exists a, a_name x = AN a /\ (a = ATransform /\ (exists m, a_val x = VTransform m) \/ is_inheritable a = true).
Lemma movable_ids l n : (forall x, In x l -> movable x) -> existsb (fun a => aname_eqb n (AN a)) (attr_ids l) = (if lk n l then true else false).
Proof.
  induction l as [|x l IH]; intros H; [reflexivity|]. rewrite lk_cons. destruct (H x (or_introl eq_refl)) as (a & Ea & _). unfold attr_ids. cbn [flat_map]. rewrite Ea. cbn [app existsb]. fold (attr_ids l). rewrite IH by (intros y Hy; apply H; now right). rewrite (hn n (AN a) x Ea). destruct (aname_eqb_spec n (AN a)), (aname_eqb_spec (AN a) n); try congruence; reflexivity.
Qed.
Definition join_val (n : aname) (old : option value) (v : value) : value :=
  if aname_eqb n (AN ATransform) then match old, v with Some (VTransform m0), VTransform m => VTransform (t_mul m0 m) | _, _ => v end else v.
Record given_by (l : list attr) (d d' : ndata) : Prop := {
  gb_key : key d' = key d; gb_tag : tag d' = tag d; gb_id : nid d' = nid d;
  gb_nodup : attrs_nodup d -> attrs_nodup d';
  gb_lk : forall n, lk n (attrs d') = match lk n l with Some v => Some (join_val n (lk n (attrs d)) v) | None => lk n (attrs d) end
}.
Lemma give_group_one t d x : movable x -> put_ok t d x = true -> (forall v, d_get d ATransform = Some v -> exists m, v = VTransform m) -> exists d', give_group t d x = Ok d' /\ given_by [x] d d'.
Proof.
  intros (a & Ea & Ha) Po Dt. unfold give_group. rewrite Ea.
  assert (Put : (d_get d ATransform = None \/ a <> ATransform) -> exists d', (if put_ok t d x then Ok (with_attrs d (put_attr (attrs d) x)) else Panic) = Ok d' /\ given_by [x] d d').
  { intros C. rewrite Po. eexists. split; [reflexivity|]. split; try reflexivity; cbn [attrs with_attrs].
    - intros Nd. now apply nodup_put.
    - intros n. rewrite lk_put, lk_cons. destruct (has_name n x) eqn:Hn; [|reflexivity]. f_equal. unfold join_val. destruct (aname_eqb_spec n (AN ATransform)) as [->|]; [|reflexivity]. rewrite get_lk in C. apply has_name_true in Hn. destruct C as [-> | C]; [reflexivity|]. congruence. }
  destruct (aid_eqb_spec a ATransform) as [->|Na].
  - destruct Ha as [(_ & m & Em)|X]; [|discriminate X]. rewrite Em. destruct (d_get d ATransform) as [v|] eqn:D; [|apply Put; now left]. destruct (Dt v eq_refl) as (m0 & ->). eexists. split; [reflexivity|]. split; try reflexivity; unfold map_value; cbn [attrs with_attrs].
    + intros Nd. unfold attrs_nodup. cbn [attrs with_attrs]. now rewrite names_map_value.
    + intros n. rewrite lk_map_value, lk_cons, (hn n _ x Ea). rewrite get_lk in D. unfold join_val. destruct (aname_eqb_spec n (AN ATransform)) as [->|Ne].
      * rewrite D. destruct (aname_eqb_spec (AN ATransform) (AN ATransform)); [|congruence]. now rewrite Em, t_append_mul.
      * destruct (aname_eqb_spec (AN ATransform) n); [congruence|]. cbn. destruct (lk n (attrs d)); reflexivity.
  - destruct a; try (apply Put; now right). now destruct Na.
Qed.
Lemma give_all_ok t l : NoDup (map a_name l) -> (forall x, In x l -> movable x) -> forall d, (forall x d', In x l -> key d' = key d -> nid d' = nid d -> put_ok t d' x = true) -> (forall v, d_get d ATransform = Some v -> exists m, v = VTransform m) ->
  exists d', fold_left (fun r x => bind r (fun d' => give_group t d' x)) l (Ok d) = Ok d' /\ given_by l d d'.
Proof.
  induction l as [|x l IH]; intros N M d Po Dt.
  - exists d. split; [reflexivity|]. split; auto.
  - cbn [map] in N. apply NoDup_cons_iff in N. destruct N as [Nx N]. cbn [fold_left bind].
    destruct (give_group_one t d x (M x (or_introl eq_refl)) (Po x d (or_introl eq_refl) eq_refl eq_refl) Dt) as (d1 & E1 & G1). rewrite E1.
    destruct (IH N (fun y Hy => M y (or_intror Hy)) d1) as (d2 & E2 & G2).
    + intros y d' Hy K I. apply Po; [now right|rewrite K; apply (gb_key _ _ _ G1)|rewrite I; apply (gb_id _ _ _ G1)].
    + intros v Hv. rewrite get_lk, (gb_lk _ _ _ G1), lk_cons in Hv. destruct (M x (or_introl eq_refl)) as (a & Ea & Ha). rewrite (hn _ _ x Ea) in Hv. destruct (aname_eqb_spec (AN a) (AN ATransform)) as [E|E]; [|apply Dt; now rewrite get_lk].
      inversion E; subst a. destruct Ha as [(_ & m & Em)|X]; [|discriminate X]. rewrite Em in Hv. unfold join_val in Hv. cbn in Hv. destruct (lk (AN ATransform) (attrs d)) as [w|]; injection Hv as <-; [destruct w; eauto|eauto].
    + exists d2. split; [exact E2|]. split.
      * rewrite (gb_key _ _ _ G2). apply (gb_key _ _ _ G1).
      * rewrite (gb_tag _ _ _ G2). apply (gb_tag _ _ _ G1).
      * rewrite (gb_id _ _ _ G2). apply (gb_id _ _ _ G1).
      * intros Q. apply (gb_nodup _ _ _ G2), (gb_nodup _ _ _ G1), Q.
      * intros n. rewrite (gb_lk _ _ _ G2), (gb_lk _ _ _ G1), !lk_cons. destruct (has_name n x) eqn:Hn; cbn [lk]; [|reflexivity]. assert (L : lk n l = None); [|now rewrite L]. apply lk_none. intros y Hy Ey. apply Nx. apply has_name_true in Hn. rewrite Hn, <- Ey. now apply in_map.
Qed.

Section HoistOk.
  Variable uu : aid -> len -> Qc.
  Variables t G : tree.
  Variable ks : list nat.
  Variable l : list attr.
  Hypothesis R : sready t.
  Hypothesis HG : In G (subs t).
  Hypothesis TG : holder (data G).
  Hypothesis Ks : forall c, In c (kids G) -> among ks (root_key c) = svg c.
  Hypothesis Ks' : forall k, In k ks -> exists c, In c (kids G) /\ root_key c = k.
  Hypothesis Kne : exists c, In c (kids G) /\ svg c = true.
  Hypothesis Nl : NoDup (map a_name l).
  Hypothesis Mv : forall x, In x l -> movable x.
  Hypothesis Incl : forall c, In c (kids G) -> svg c = true -> incl l (attrs (data c)).
  Hypothesis Unk : forall c, In c (kids G) -> svg c = true -> ~ referenced t (root_key c).
  Hypothesis UnG : ~ referenced t (root_key G).
  Hypothesis TsG : lk (AN ATransform) l <> None -> tag (data G) = TEl EG /\ forall a v, In (a, v) (effects (data G)) -> In a condition_attrs \/ v = VPre Vid_none.
  Let N := wf_keys t (s_wf t R).
  Let t1 := strip ks (attr_ids l) t.
  Let N1 (d : ndata) := proj1 (Forall_forall _ _) (s_wfa t R) d.
  Definition strip1 (d : ndata) : ndata := if among ks (key d) then d_rm_list d (attr_ids l) else d.
  Lemma strip1_key d : key (strip1 d) = key d. Proof. unfold strip1. destruct (among _ _); [apply rm_list_key|reflexivity]. Qed.
  Lemma strip1_tag d : tag (strip1 d) = tag d. Proof. unfold strip1. destruct (among _ _); [apply rm_list_key|reflexivity]. Qed.
  Lemma strip1_id d : nid (strip1 d) = nid d. Proof. unfold strip1. destruct (among _ _); [apply rm_list_key|reflexivity]. Qed.
  Lemma strip1_lk d n v : lk n (attrs (strip1 d)) = Some v -> lk n (attrs d) = Some v.
  Proof. unfold strip1. destruct (among _ _); [|auto]. rewrite lk_rm_list. destruct (existsb _ _); [discriminate|auto]. Qed.
  Lemma strip1_nodup d : attrs_nodup d -> attrs_nodup (strip1 d). Proof. unfold strip1. destruct (among _ _); [apply nodup_rm_list|auto]. Qed.
  Lemma g_not_ks : among ks (root_key G) = false.
  Proof.
    destruct (among ks (root_key G)) eqn:E; [exfalso|reflexivity]. apply among_in in E. apply Ks' in E. destruct E as (c & Hc & K). assert (c = G) by (apply (sub_unique t); auto; exact (kid_sub G c t HG Hc)). subst c.
    apply (self_not_below G (sub_NoDup G t N HG)). apply in_flat_map. exists G. split; [exact Hc|apply subs_self].
  Qed.
  Lemma strip1_G : strip1 (data G) = data G. Proof. unfold strip1. pose proof g_not_ks as Z. unfold root_key in Z. now rewrite Z. Qed.
  Lemma find_G : find_data (root_key G) t1 = Some (data G).
  Proof.
    unfold t1, strip. change (fun d => if among ks (key d) then d_rm_list d (attr_ids l) else d) with strip1. rewrite VLoop.find_data_tmap by exact strip1_key. unfold root_key. rewrite find_data_in; [|exact N|now apply data_of_sub]. cbn. now rewrite strip1_G.
  Qed.
  Lemma G_trans v : d_get (data G) ATransform = Some v -> exists m, v = VTransform m.
  Proof. apply (s_trans t R). now apply data_of_sub. Qed.
  Lemma put_all x d' : In x l -> key d' = key (data G) -> nid d' = nid (data G) -> put_ok t1 d' x = true.
  Proof.
    intros Hx K I. unfold put_ok. destruct (link_of (a_val x)) as [k|] eqn:L; [|reflexivity]. destruct (find_data k t1) as [n|] eqn:F; [|reflexivity]. apply VLoop.find_data_some in F. destruct F as [Hn Kn]. unfold t1, strip in Hn. rewrite flat_tmap in Hn. apply in_map_iff in Hn. destruct Hn as (n0 & En & Hn). change (strip1 n0 = n) in En. subst n. rewrite strip1_key in Kn.
    destruct Kne as (c & Hc & Sc). assert (Hdc : In (data c) (flat t)) by (apply data_of_sub; exact (kid_sub G c t HG Hc)). assert (Rn : refers_to (data c) (key n0)) by (exists x; rewrite Kn; split; [now apply (Incl c Hc Sc)|exact L]). destruct (s_ids t R (data c) n0 Hdc Hn Rn) as [A B].
    unfold can_link. rewrite strip1_id. assert (H1 : has_id (strip1 n0) = true) by (unfold has_id; rewrite strip1_id; destruct (nid n0); [congruence|reflexivity]). rewrite H1. assert (Ne : n0 <> data G) by (intros ->; apply UnG; exists (data c); auto).
    assert (H2 : String.eqb (nid d') (nid n0) = false) by (apply String.eqb_neq; rewrite I; intros E; apply Ne; symmetry; apply B; [now apply data_of_sub|exact E]). rewrite H2. cbn [negb andb].
    destruct (existsb (refers (key d')) (attrs (strip1 n0))) eqn:H3; [|reflexivity]. exfalso. apply existsb_exists in H3. destruct H3 as (y & Hy & Ry). apply refers_iff in Ry. assert (Rf : refers_to (strip1 n0) (key d')) by (exists y; auto).
    apply (refers_lk _ _ (strip1_nodup _ (N1 _ Hn))) in Rf. destruct Rf as (nm & v & L1 & L2). apply strip1_lk in L1. apply UnG. exists n0. split; [exact Hn|]. apply (refers_lk _ _ (N1 _ Hn)). exists nm, v. split; [exact L1|]. unfold root_key. now rewrite <- K.
  Qed.
  Lemma hoist_gives : exists d', given_by l (data G) d' /\ hoist (root_key G) ks l t = Ok (tmap (fun x => if Nat.eqb (key x) (root_key G) then d' else strip1 x) t).
  Proof.
    destruct (give_all_ok t1 l Nl Mv (data G) put_all G_trans) as (d' & E & Gv). exists d'. split; [exact Gv|]. unfold hoist. fold t1. rewrite find_G, E. cbn [bind]. f_equal. unfold t1, strip. rewrite tmap_tmap. apply tmap_ext. intros d _. change (if among ks (key d) then d_rm_list d (attr_ids l) else d) with (strip1 d). now rewrite strip1_key.
  Qed.
  Variable d' : ndata.
  Hypothesis Gv : given_by l (data G) d'.
  Definition fh (x : ndata) : ndata := if Nat.eqb (key x) (root_key G) then d' else strip1 x.
  (* as a function that keeps key and tag everywhere *)
  Definition fh' (x : ndata) : ndata := if Nat.eqb (key x) (root_key G) then ND (key x) (tag x) (nid x) (attrs d') else strip1 x.
  Lemma fh_eq : tmap fh t = tmap fh' t.
  Proof.
    apply tmap_ext. intros d Hd. unfold fh, fh'. destruct (Nat.eqb_spec (key d) (root_key G)) as [E|E]; [|reflexivity]. assert (d = data G) by (apply (data_unique t); auto; now apply data_of_sub). subst d. rewrite <- (gb_key _ _ _ Gv), <- (gb_tag _ _ _ Gv), <- (gb_id _ _ _ Gv). now destruct d'.
  Qed.
  Lemma f_key d : key (fh' d) = key d. Proof. unfold fh'. destruct (Nat.eqb _ _); [reflexivity|apply strip1_key]. Qed.
  Lemma f_tag d : tag (fh' d) = tag d. Proof. unfold fh'. destruct (Nat.eqb _ _); [reflexivity|apply strip1_tag]. Qed.
  Lemma f_id d : nid (fh' d) = nid d. Proof. unfold fh'. destruct (Nat.eqb _ _); [reflexivity|apply strip1_id]. Qed.
  Lemma f_G : attrs (fh' (data G)) = attrs d'. Proof. unfold fh', root_key. now rewrite Nat.eqb_refl. Qed.
  Lemma f_G_lk n : lk n (attrs (fh' (data G))) = match lk n l with Some v => Some (join_val n (lk n (attrs (data G))) v) | None => lk n (attrs (data G)) end.
  Proof. rewrite f_G. apply (gb_lk _ _ _ Gv). Qed.
  Lemma kid_key c : In c (kids G) -> root_key c <> root_key G.
  Proof. intros Hc E. assert (c = G) by (apply (sub_unique t); auto; exact (kid_sub G c t HG Hc)). subst c. apply (self_not_below G (sub_NoDup G t N HG)). apply in_flat_map. exists G. split; [exact Hc|apply subs_self]. Qed.
  Lemma f_kid c : In c (kids G) -> fh' (data c) = if svg c then d_rm_list (data c) (attr_ids l) else data c.
  Proof. intros Hc. unfold fh', strip1. change (key (data c)) with (root_key c). destruct (Nat.eqb_spec (root_key c) (root_key G)) as [E|E]; [now destruct (kid_key c Hc)|]. now rewrite (Ks c Hc). Qed.
  Lemma f_kid_lk c n : In c (kids G) -> svg c = true -> lk n (attrs (fh' (data c))) = if lk n l then None else lk n (attrs (data c)).
  Proof. intros Hc Sc. rewrite f_kid, Sc, lk_rm_list, movable_ids by auto. now destruct (lk n l). Qed.
  Lemma kid_has c n v : In c (kids G) -> svg c = true -> lk n l = Some v -> lk n (attrs (data c)) = Some v.
  Proof.
    intros Hc Sc E. apply lk_some in E. destruct E as (x & Hx & <- & <-). apply lk_in; [|now apply (Incl c Hc Sc)]. apply N1. apply data_of_sub. exact (kid_sub G c t HG Hc).
  Qed.
  Lemma l_name n v : lk n l = Some v -> exists a, n = AN a /\ (a = ATransform \/ is_inheritable a = true).
  Proof. intros E. apply lk_some in E. destruct E as (x & Hx & E1 & _). destruct (Mv x Hx) as (a & Ea & Ha). exists a. split; [congruence|]. destruct Ha as [(Ha & _)|Ha]; auto. Qed.
  Lemma l_none a : a <> ATransform -> is_inheritable a = false -> lk (AN a) l = None.
  Proof. intros A B. destruct (lk (AN a) l) eqn:E; [|reflexivity]. apply l_name in E. destruct E as (b & Eb & [->|C]); inversion Eb; subst; congruence. Qed.
  Lemma f_other d : In d (flat t) -> key d <> root_key G -> (forall c, In c (kids G) -> svg c = true -> key d <> root_key c) -> fh' d = d.
  Proof.
    intros Hd A B. unfold fh', strip1. destruct (Nat.eqb_spec (key d) (root_key G)); [contradiction|]. destruct (among ks (key d)) eqn:E; [|reflexivity]. exfalso. apply among_in in E. destruct (Ks' _ E) as (c & Hc & K). apply (B c Hc); [|congruence]. rewrite <- (Ks c Hc), K. now apply among_in.
  Qed.
  Lemma moved_iff c : moved G c <-> In c (kids G) /\ svg c = true.
  Proof. unfold moved, svg, is_svg_el. split; intros [H1 H2]; (split; [exact H1|]); [destruct H2 as (e & ->); reflexivity|]. destruct (tag (data c)); try discriminate. eauto. Qed.
  Lemma other_get a : a <> ATransform -> is_inheritable a = false -> d_get (fh' (data G)) a = d_get (data G) a /\ forall c, moved G c -> d_get (fh' (data c)) a = d_get (data c) a.
  Proof. intros A B. rewrite !get_lk, f_G_lk, l_none by auto. split; [reflexivity|]. intros c Hc. apply moved_iff in Hc. rewrite !get_lk, f_kid_lk, l_none by tauto. reflexivity. Qed.
  Lemma view_not a : In a viewport_attrs -> a <> ATransform /\ is_inheritable a = false.
  Proof. intros H. cbn in H. repeat (destruct H as [<-|H]; [split; [discriminate|reflexivity]|]). destruct H. Qed.
  Lemma eff_not a : In a effect_attrs -> a <> ATransform /\ is_inheritable a = false.
  Proof. intros H. cbn in H. repeat (destruct H as [<-|H]; [split; [discriminate|reflexivity]|]). destruct H. Qed.
  Lemma cond_eff a : In a condition_attrs -> In a effect_attrs. Proof. intros H. apply in_or_app. now right. Qed.
  Lemma l_trans v : lk (AN ATransform) l = Some v -> exists m, v = VTransform m.
  Proof. intros E. apply lk_some in E. destruct E as (x & Hx & E1 & <-). destruct (Mv x Hx) as (a & Ea & Ha). assert (a = ATransform) by congruence. subst a. destruct Ha as [(_ & Ha)|Ha]; [exact Ha|discriminate Ha]. Qed.
  Lemma f_ts_kept : lk (AN ATransform) l = None -> ts_of (fh' (data G)) = ts_of (data G) /\ forall c, moved G c -> ts_of (fh' (data c)) = ts_of (data c).
  Proof. intros E. unfold ts_of. rewrite !get_lk, f_G_lk, E. split; [reflexivity|]. intros c Hc. apply moved_iff in Hc. rewrite !get_lk, f_kid_lk, E by tauto. reflexivity. Qed.
  Lemma f_ts_moved m : lk (AN ATransform) l = Some (VTransform m) -> ts_of (fh' (data G)) = t_mul (ts_of (data G)) m /\ forall c, moved G c -> ts_of (fh' (data c)) = t_id /\ ts_of (data c) = m.
  Proof.
    intros E. unfold ts_of. rewrite !get_lk, f_G_lk, E. split.
    - unfold join_val. cbn [aname_eqb aid_eqb]. destruct (aname_eqb_spec (AN ATransform) (AN ATransform)) as [_|]; [|congruence]. destruct (lk (AN ATransform) (attrs (data G))) as [w|] eqn:D; [|now rewrite t_mul_id_l]. rewrite <- get_lk in D. destruct (G_trans w D) as (m0 & ->). reflexivity.
    - intros c Hc. apply moved_iff in Hc. rewrite !get_lk, f_kid_lk, E by tauto. split; [reflexivity|]. rewrite (kid_has c (AN ATransform) (VTransform m)) by tauto. reflexivity.
  Qed.
  Lemma kid_svg_no c : moved G c -> tag (data c) = TEl ESvg -> lk (AN ATransform) l = None.
  Proof.
    intros Hc Tc. apply moved_iff in Hc. destruct (lk (AN ATransform) l) eqn:E; [exfalso|reflexivity]. pose proof (kid_has c _ _ (proj1 Hc) (proj2 Hc) E) as K. rewrite <- get_lk in K. rewrite (s_viewts t R (data c)) in K; [discriminate| |exact Tc]. apply data_of_sub. exact (kid_sub G c t HG (proj1 Hc)).
  Qed.
  Lemma G_svg_no : tag (data G) = TEl ESvg -> lk (AN ATransform) l = None.
  Proof. intros E. destruct (lk (AN ATransform) l) eqn:L; [|reflexivity]. destruct (TsG ltac:(congruence)). congruence. Qed.
  Lemma kid_place c : In c (kids G) -> exists a, In (data G :: a, c) (places [] t).
  Proof. intros Hc. destruct (sub_place G t [] HG) as (a & Q). exists a. exact (place_kid t [] a G c Q Hc). Qed.
  Lemma hoist_draw : same_drawing uu t (tmap fh' t).
  Proof.
    apply (hoist_drawing uu t G fh' N HG TG f_key f_tag).
    - intros d Hd A B. apply f_other; auto. intros c Hc Sc. apply B. now apply moved_iff.
    - intros c Hc. apply moved_iff in Hc. apply unref_key. now apply Unk.
    - intros _. now apply unref_key.
    - intros c Hc a I. apply moved_iff in Hc. destruct Hc as [Hc Sc]. cbn [nearest]. rewrite !get_lk, f_kid_lk, f_G_lk by auto. destruct (lk (AN a) l) as [v|] eqn:E; [|reflexivity]. rewrite (kid_has c _ v Hc Sc E). unfold join_val. destruct (aname_eqb_spec (AN a) (AN ATransform)) as [Q|]; [|reflexivity]. inversion Q; subst. discriminate I.
    - intros c Hc. apply moved_iff in Hc. destruct Hc as [Hc Sc]. split; [apply f_key|split; [apply f_tag|split; [apply f_id|]]]. intros n El. rewrite !lookup_lk, f_kid_lk by auto. destruct (lk n l) as [v|] eqn:E; [exfalso|reflexivity]. destruct (l_name n v E) as (a & -> & [->|I]); [discriminate El|]. cbn in El. unfold inherited in El. rewrite I in El. discriminate.
    - intros Tg c Hc _ _. destruct (lk (AN ATransform) l) as [v|] eqn:E.
      + destruct (l_trans v E) as (m & ->). destruct (f_ts_moved m E) as (A & B). destruct (B c Hc) as (B1 & B2). rewrite A, B1, B2. now rewrite t_mul_id_r.
      + destruct (f_ts_kept E) as (A & B). now rewrite A, B.
    - intros Tg c Hc Tc. exact (proj1 (f_ts_kept (kid_svg_no c Hc Tc))).
    - intros Tg c Hc. exact (proj2 (f_ts_kept (G_svg_no Tg)) c Hc).
    - apply given_ext. intros a Ha. apply cond_eff in Ha. destruct (eff_not a Ha) as (A & B). exact (proj1 (other_get a A B)).
    - apply given_ext. intros a Ha. destruct (view_not a Ha) as (A & B). exact (proj1 (other_get a A B)).
    - intros c [Hc _] Rs. destruct (kid_place c Hc) as (a & Q). destruct (s_res t R _ c Q Rs) as (X & _). now apply (X (data G) a).
    - intros c Hc Nm d Hd Rs. rewrite <- map_data_subs in Hd. apply in_map_iff in Hd. destruct Hd as (x & <- & Hx). destruct (kid_place c Hc) as (a & Q).
      destruct (Nat.eq_dec (root_key x) (root_key c)) as [E|E].
      + assert (x = c) by (apply (sub_unique t); auto; [apply (subs_trans t c x); [|exact Hx]|]; exact (kid_sub G c t HG Hc)). subst x. destruct (s_res t R _ c Q Rs) as (X & _). now apply (X (data G) a).
      + assert (Hb : In x (flat_map subs (kids c))) by (apply below_kids; [exact Hx|intros ->; now apply E]). destruct (under_place t c x (kid_sub G c t HG Hc) Hb) as (b & Pb & Ib). destruct (s_res t R b x Pb Rs) as (_ & Y). apply Nm. split; [exact Hc|]. destruct (Y _ Ib) as [Z|Z]; [exfalso|exact Z].
        assert (c = t) by (apply (sub_unique t); auto; [exact (kid_sub G c t HG Hc)|apply subs_self|unfold root_key; now rewrite Z]). subst c. apply (self_not_below G (sub_NoDup G t N HG)). apply in_flat_map. exists t. split; [exact Hc|exact HG].
    - intros a p Pl Hp. exact (s_shape t R a G p Pl TG Hp).
    - unfold displayed. destruct (other_get ADisplay) as (A & _); [discriminate|reflexivity|]. now rewrite A.
    - unfold opacity_of. destruct (other_get AOpacity) as (A & _); [discriminate|reflexivity|]. now rewrite A.
    - apply effects_ext. intros a Ha. destruct (eff_not a Ha) as (A & B). exact (proj1 (other_get a A B)).
    - destruct (lk (AN ATransform) l) as [v|] eqn:E; [left; apply TsG; congruence|right; exact (proj1 (f_ts_kept E))].
    - intros c Hc. split; [|split].
      + unfold displayed. destruct (other_get ADisplay) as (_ & A); [discriminate|reflexivity|]. now rewrite (A c Hc).
      + unfold opacity_of. destruct (other_get AOpacity) as (_ & A); [discriminate|reflexivity|]. now rewrite (A c Hc).
      + apply effects_ext. intros a Ha. destruct (eff_not a Ha) as (A & B). exact (proj2 (other_get a A B) c Hc).
    - exact (s_root t R).
  Qed.
  Let t' := tmap fh' t.
  Lemma f_from d n v : In d (flat t) -> lk n (attrs (fh' d)) = Some v ->
    lk n (attrs d) = Some v \/ (d = data G /\ exists v0, lk n l = Some v0 /\ v = join_val n (lk n (attrs d)) v0).
  Proof.
    intros Hd. unfold fh'. destruct (Nat.eqb_spec (key d) (root_key G)) as [E|E].
    - assert (d = data G) by (apply (data_unique t); auto; now apply data_of_sub). subst d. cbn [attrs]. rewrite (gb_lk _ _ _ Gv). destruct (lk n l) as [v0|]; [|auto]. intros H. injection H as <-. right. split; [reflexivity|]. exists v0. auto.
    - intros H. left. now apply strip1_lk in H.
  Qed.
  Lemma f_nodup d : In d (flat t) -> attrs_nodup (fh' d).
  Proof.
    intros Hd. unfold fh'. destruct (Nat.eqb_spec (key d) (root_key G)) as [E|E]; [|apply strip1_nodup; now apply N1]. exact (gb_nodup _ _ _ Gv (N1 _ (data_of_sub _ _ HG))).
  Qed.
  Lemma join_other n o v : n <> AN ATransform -> join_val n o v = v.
  Proof. intros H. unfold join_val. destruct (aname_eqb_spec n (AN ATransform)); [contradiction|reflexivity]. Qed.
  Lemma join_trans o v : (exists m, v = VTransform m) -> exists m, join_val (AN ATransform) o v = VTransform m.
  Proof. intros (m & ->). unfold join_val. cbn. destruct o as [w|]; [destruct w; eauto|eauto]. Qed.
  Lemma flat_t' x : In x (flat t') -> exists d, In d (flat t) /\ x = fh' d.
  Proof. unfold t'. rewrite flat_tmap. intros H. apply in_map_iff in H. destruct H as (d & <- & Hd). eauto. Qed.
  Lemma f_refs k : referenced t' k -> referenced t k.
  Proof.
    intros (x & Hx & Rx). destruct (flat_t' x Hx) as (d & Hd & ->). apply (refers_lk _ _ (f_nodup d Hd)) in Rx. destruct Rx as (n & v & L & Lv). destruct (f_from d n v Hd L) as [K|(-> & v0 & K & ->)].
    - exists d. split; [exact Hd|]. apply (refers_lk _ _ (N1 d Hd)). eauto.
    - destruct Kne as (c & Hc & Sc). assert (Hdc : In (data c) (flat t)) by (apply data_of_sub; exact (kid_sub G c t HG Hc)). exists (data c). split; [exact Hdc|]. apply (refers_lk _ _ (N1 _ Hdc)). exists n, v0. split; [now apply (kid_has c n v0 Hc Sc)|].
      destruct (aname_eqb_spec n (AN ATransform)) as [->|Ne]; [|now rewrite join_other in Lv]. exfalso. destruct (l_trans v0 K) as (m & Em). destruct (join_trans (lk (AN ATransform) (attrs (data G))) v0) as (m2 & E2); [eauto|]. rewrite E2 in Lv. discriminate.
  Qed.
  Lemma f_trans d : In d (flat t) -> d_get d ATransform = None -> d_get (fh' d) ATransform <> None -> d = data G /\ tag (data G) = TEl EG /\ exists c, In c (kids G) /\ d_get (data c) ATransform <> None.
  Proof.
    intros Hd H1 H2. destruct (d_get (fh' d) ATransform) as [v|] eqn:E; [|congruence]. rewrite get_lk in E. destruct (f_from d _ v Hd E) as [K|(-> & v0 & K & _)]; [rewrite <- get_lk in K; congruence|]. split; [reflexivity|]. split; [apply TsG; congruence|]. destruct Kne as (c & Hc & Sc). exists c. split; [exact Hc|]. rewrite get_lk, (kid_has c _ v0 Hc Sc K). discriminate.
  Qed.
  Lemma f_holder d : holder (fh' d) <-> holder d. Proof. unfold holder. now rewrite f_tag. Qed.
  Lemma f_shape d : shape_el (fh' d) -> shape_el d. Proof. intros (e & A & B). exists e. rewrite f_tag in A. auto. Qed.
  Lemma hoist_ready : sready t'.
  Proof.
    split.
    - split; [unfold t'; rewrite keys_tmap; [exact N|exact f_key]|]. intros k Hk. apply targets_in in Hk. destruct Hk as (x & y & Hx & Hy & E). assert (Rk : referenced t' k) by (exists x; split; [exact Hx|exists y; auto]). apply f_refs in Rk. destruct Rk as (d & Hd & z & Hz & Ez). unfold t'. rewrite keys_tmap by exact f_key. apply (wf_links t (s_wf t R)). apply targets_in. eauto.
    - apply Forall_forall. intros x Hx. destruct (flat_t' x Hx) as (d & Hd & ->). now apply f_nodup.
    - unfold t'. rewrite data_tmap, f_tag. apply (s_root t R).
    - destruct (s_svg t R) as (s & E & U). exists (tmap fh' s). split.
      + revert E. unfold svg_element, t'. rewrite kids_tmap. generalize (kids t) as ls. induction ls as [|c ls IH]; [discriminate|]. cbn [find map]. rewrite data_tmap. assert (X : is_tag ESvg (fh' (data c)) = is_tag ESvg (data c)) by (unfold is_tag; now rewrite f_tag). rewrite X. destruct (is_tag ESvg (data c)); [intros Q; now inversion Q|exact IH].
      + intros X. apply f_refs in X. unfold root_key in X. rewrite data_tmap, f_key in X. exact (U X).
    - intros x n' Hx Hn' Rk. destruct (flat_t' n' Hn') as (n & Hn & ->). rewrite f_key in Rk. assert (Rk' : referenced t (key n)) by (apply f_refs; exists x; auto). destruct Rk' as (d & Hd & Rd). destruct (s_ids t R d n Hd Hn Rd) as [A B]. rewrite f_id. split; [exact A|]. intros y Hy E. destruct (flat_t' y Hy) as (y0 & Hy0 & ->). rewrite f_id in E. f_equal. now apply B.
    - intros a' s' p' Q Hh Hp S. destruct (places_tmap_inv fh' t f_key [] a' s' Q) as (a & s & P0 & -> & ->). apply in_map_iff in Hp. destruct Hp as (p & <- & Hp). rewrite data_tmap in Hh. apply (proj1 (f_holder _)) in Hh. exact (s_shape t R a s p P0 Hh Hp (f_shape _ S)).
    - intros x v Hx E. destruct (flat_t' x Hx) as (d & Hd & ->). rewrite get_lk in E. destruct (f_from d _ v Hd E) as [K|(-> & v0 & K & ->)]; [apply (s_trans t R d); [exact Hd|now rewrite get_lk]|]. apply join_trans. now apply l_trans.
    - intros x a v Hx Tg Ha E. destruct (flat_t' x Hx) as (d & Hd & ->). rewrite f_tag in Tg. rewrite get_lk in E. destruct (f_from d _ v Hd E) as [K|(-> & v0 & K & _)]; [apply (s_effects t R d a); auto; now rewrite get_lk|]. exfalso. rewrite l_none in K; [discriminate|..]; cbn in Ha; intuition (subst; try discriminate; reflexivity).
    - intros a' s' Q Rs. destruct (places_tmap_inv fh' t f_key [] a' s' Q) as (a & s & P0 & -> & ->). rewrite data_tmap in Rs. assert (Rs' : resource (data s)) by (destruct Rs as (e & A & B); exists e; rewrite f_tag in A; auto). destruct (s_res t R a s P0 Rs') as (A & B). split.
      + intros p b E. destruct a as [|y a]; [discriminate|]. cbn in E. inversion E; subst. rewrite f_holder. now apply (A y a).
      + intros p Hp. apply in_map_iff in Hp. destruct Hp as (y & <- & Hy). destruct (B y Hy) as [->|Z]; [left; unfold t'; now rewrite data_tmap|right; now rewrite f_tag].
    - intros x Hx Tg. destruct (flat_t' x Hx) as (d & Hd & ->). rewrite f_tag in Tg. destruct (d_get (fh' d) ATransform) eqn:E; [exfalso|reflexivity]. destruct (f_trans d Hd (s_viewts t R d Hd Tg)) as (-> & Z & _); congruence.
    - intros s' Hs Tg. unfold t' in Hs. rewrite subs_tmap in Hs. apply in_map_iff in Hs. destruct Hs as (s & <- & Hs). rewrite data_tmap, f_tag in Tg. destruct (s_views t R s Hs Tg) as [(c & Hc & Tc)|Z].
      + left. exists (tmap fh' c). rewrite kids_tmap. split; [now apply in_map|]. now rewrite data_tmap, f_tag.
      + right. intros x Hx. rewrite inside_tmap in Hx. apply in_map_iff in Hx. destruct Hx as (d & <- & Hd). pose proof (inside_sub s d t Hs Hd) as Hdt. destruct (d_get (fh' d) ATransform) eqn:E; [exfalso|reflexivity]. destruct (f_trans d Hdt (Z d Hd)) as (-> & _ & c & Hc & Tc); [congruence|]. apply Tc. apply Z.
        (* [c] is inside too *)
        unfold inside in *. rewrite in_flat_map in Hd. destruct Hd as (k & Hk & Hd). rewrite <- map_data_subs in Hd. apply in_map_iff in Hd. destruct Hd as (y & Ey & Hy). assert (y = G). { apply (sub_unique t); auto; [|unfold root_key; now rewrite Ey]. apply (subs_trans t k y); [exact (kid_sub s k t Hs Hk)|exact Hy]. } subst y. apply in_flat_map. exists k. split; [exact Hk|]. apply data_of_sub. apply (subs_trans k G c); [exact Hy|]. apply in_kids_subs. apply in_flat_map. exists c. split; [exact Hc|apply subs_self].
  Qed.
  Lemma hoist_kept : only_groups_added t t'.
  Proof.
    split.
    - intros d Hd. exists (fh' d). split; [unfold t'; rewrite flat_tmap; now apply in_map|]. rewrite f_key, f_tag, f_id. auto.
    - intros x Hx. left. destruct (flat_t' x Hx) as (d & Hd & ->). rewrite f_key. now apply in_map.
  Qed.
End HoistOk.

Section Shades.
  Variables (t G : tree) (ks : list nat) (l : list attr) (d' : ndata).
  Lemma hoist_shades : sready t -> In G (subs t) -> holder (data G) -> (forall x, In x l -> movable x) -> shades_kept t (tmap (fh' G ks l d') t).
  Proof.
    intros R HG TG Mv. apply shades_tmap_tag. intros d Hd Q. split; [apply f_key|]. split; [apply f_tag|]. intros a Ha. unfold fh'. destruct (Nat.eqb_spec (key d) (root_key G)) as [E|E].
    - exfalso. assert (d = data G) by (apply (data_unique t); auto; [exact (wf_keys t (s_wf t R))|now apply data_of_sub]). subst d. destruct Q as [Q|[Q|Q]]; apply tag_true in Q; destruct TG as [Z|Z]; congruence.
    - unfold strip1. destruct (among ks (key d)); [|reflexivity]. apply get_rm_list. intros I. assert (Q' : existsb (fun b => aname_eqb (AN a) (AN b)) (attr_ids l) = true) by (apply existsb_exists; exists a; split; [exact I|]; destruct (aname_eqb_spec (AN a) (AN a)); congruence). rewrite (movable_ids l (AN a) Mv) in Q'. destruct (lk (AN a) l) as [v|] eqn:L; [|discriminate]. exfalso.
      unfold lk in L. destruct (find (has_name (AN a)) l) as [x|] eqn:F; [|discriminate]. apply find_some in F. destruct F as [Hx Nx]. unfold has_name in Nx. destruct (aname_eqb_spec (a_name x) (AN a)) as [Ex|]; [|discriminate]. destruct (Mv x Hx) as (b & Eb & Z). assert (a = b) by congruence. subst b. clear - Ha Z.
      cbn [shade_attrs In] in Ha. repeat (destruct Ha as [<-|Ha]; [destruct Z as [[Z _]|Z]; discriminate|]). destruct Ha.
  Qed.
End Shades.
Lemma hoist_ok uu t G ks l : sready t -> In G (subs t) -> holder (data G) ->
  (forall c, In c (kids G) -> among ks (root_key c) = svg c) -> (forall k, In k ks -> exists c, In c (kids G) /\ root_key c = k) -> (exists c, In c (kids G) /\ svg c = true) ->
  NoDup (map a_name l) -> (forall x, In x l -> movable x) ->
  (forall c, In c (kids G) -> svg c = true -> incl l (attrs (data c)) /\ ~ referenced t (root_key c)) -> ~ referenced t (root_key G) ->
  (lk (AN ATransform) l <> None -> tag (data G) = TEl EG /\ forall a v, In (a, v) (effects (data G)) -> In a condition_attrs \/ v = VPre Vid_none) ->
  exists f, hoist (root_key G) ks l t = Ok (tmap f t) /\ step uu t (tmap f t) /\ (forall d, key (f d) = key d) /\ (forall d, tag (f d) = tag d) /\
    (forall c, In c (kids G) -> svg c = true -> f (data c) = d_rm_list (data c) (attr_ids l)).
Proof.
  intros R HG TG Ks Ks' Kne Nl Mv Kid UnG TsG. assert (Incl : forall c, In c (kids G) -> svg c = true -> incl l (attrs (data c))) by (intros c Hc Sc; now apply Kid). assert (Unk : forall c, In c (kids G) -> svg c = true -> ~ referenced t (root_key c)) by (intros c Hc Sc; now apply Kid).
  destruct (hoist_gives t G ks l R HG Ks' Kne Nl Mv Incl UnG) as (d' & Gv & E). exists (fh' G ks l d'). rewrite E. change (fun x => if Nat.eqb (key x) (root_key G) then d' else strip1 ks l x) with (fh G ks l d'). rewrite (fh_eq t G ks l R HG d' Gv). split; [reflexivity|]. split; [split|split; [|split]].
  - exact (hoist_ready uu t G ks l R HG Kne Mv Incl TsG d' Gv).
  - exact (hoist_draw uu t G ks l R HG TG Ks Ks' Mv Incl Unk UnG TsG d' Gv).
  - exact (hoist_kept t G ks l d').
  - exact (f_refs t G ks l R HG Kne Mv Incl d' Gv).
  - exact (hoist_shades t G ks l d' R HG TG Mv).
  - exact (f_key G ks l d').
  - exact (f_tag G ks l d').
  - intros c Hc Sc. rewrite (f_kid t G ks l R HG Ks d' c Hc), Sc. reflexivity.
Qed.

