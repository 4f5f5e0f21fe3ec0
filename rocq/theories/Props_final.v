(** C54: what the last steps promise holds for the document that is saved. *)
From Coq Require Import List Bool NArith Arith ZArith String Lia QArith Qcanon.
From Verif Require Import Names Num IdNum SpecId IdNumProofs Value Dom DomFacts DomOps Outcome DomRemove SpecDom Cli TasksSimple TasksSimpleProofs Props_simple JoinStyle Clean SpecClean Props_clean WfAll WfPasses AttrFacts Mild SpecWf Props_wf PlainMove PlainEnd StillAll Props_accept Props_values.
Import ListNotations.
Local Open Scope nat_scope.

(** * Runs *)
Definition early_part : list pass :=
  [PLinear; PRadial; PStops; PInherit; PFix; PGroupDefs; PRound;
   PTitle; PDesc; PMetadata; PUnusedDefs; PInvalidStops; PGradTransforms; PDuplLinear; PDuplRadial; PDuplBlur; PMerge; PGradTransforms;
   PUngroup; PShapeTransforms; PConvertShapes; PPaths; PInvisible; PRegroupStops; PUngroup; PResolveUse;
   PDefaultAttrs; PTextAttrs; PNeedlessAttrs; PGradAttrs; PUnusedCoords; PUngroup; PGroupStyle].
Definition late_part : list pass := [PIds; PTrimIds; PVersion; PUngroupDefs; PEmptyDefs; PXmlns; PDefaultTransform; PJoinStyle].
Lemma late_parts : pipeline = early_part ++ late_part. Proof. reflexivity. Qed.
Lemma runs_opt x o p l t t' : runs x o (filter (enabled o) (p :: l)) t (Some (Ok t')) ->
  exists t1, (if enabled o p then perform x o p t = Some (Ok t1) else t1 = t) /\ runs x o (filter (enabled o) l) t1 (Some (Ok t')).
Proof. cbn [filter]. destruct (enabled o p); intros R; [now apply runs_cons in R|exists t; auto]. Qed.
(** The documents after each of the last steps. *)
Record late (x : svgdom) (o : cleaning_options) (t t1 t2 t3 t4 t5 t6 t7 t' : tree) : Prop := {
  lt_fine : well_formed t -> calm_run x o t -> fine t1 /\ fine t2 /\ fine t3 /\ fine t4 /\ fine t5 /\ fine t6;
  lt_ids : if o_remove_unreferenced_ids o then t2 = remove_unreferenced_ids t1 else t2 = t1;
  lt_trim : if o_trim_ids o then trim_ids t2 = Ok t3 else t3 = t2;
  lt_version : if o_remove_version o then remove_version t3 = Ok t4 else t4 = t3;
  lt_ungroup : if o_ungroup_defs o then t5 = ungroup_defs t4 else t5 = t4;
  lt_empty : remove_empty_defs t5 = Ok t6;
  lt_xmlns : fix_xmlns_attribute (o_remove_xmlns_xlink_attribute o) t6 = Ok t7;
  lt_last : t' = join_style_attributes (x_write x) (o_join_style_attributes o) (remove_default_transform t7);
  lt_before : runs x o (filter (enabled o) early_part) t (Some (Ok t1))
}.
Lemma late_run x o t t' : clean_doc x o t = Some (Ok t') -> exists t1 t2 t3 t4 t5 t6 t7, late x o t t1 t2 t3 t4 t5 t6 t7 t'.
Proof.
  intros E. destruct (preclean_checks t) as [[]|e|] eqn:P; [|unfold clean_doc in E; rewrite P in E; discriminate..].
  pose proof (proj2 (C45_pipeline x o t P _) eq_refl) as R. rewrite E, late_parts, filter_app in R.
  destruct (runs_app _ _ _ _ _ _ R t' eq_refl) as (t1 & R1 & R2). clear R E P. unfold late_part in R2.
  assert (F1 : well_formed t -> calm_run x o t -> fine t1).
  { intros W C. rewrite well_formed_fine in W. apply (runs_prefix x o _ t _ R1 t1 eq_refl W). intros pre p post u Q Ru.
    apply (C pre p (post ++ filter (enabled o) late_part) u); [|exact Ru]. rewrite late_parts, filter_app, Q, <- app_assoc. reflexivity. }
  destruct (runs_opt _ _ _ _ _ _ R2) as (t2 & E2 & R3). destruct (runs_opt _ _ _ _ _ _ R3) as (t3 & E3 & R4). destruct (runs_opt _ _ _ _ _ _ R4) as (t4 & E4 & R5). destruct (runs_opt _ _ _ _ _ _ R5) as (t5 & E5 & R6).
  change (runs x o (PEmptyDefs :: PXmlns :: PDefaultTransform :: PJoinStyle :: nil) t5 (Some (Ok t'))) in R6.
  destruct (runs_cons _ _ _ _ _ _ R6) as (t6 & E6 & R7). destruct (runs_cons _ _ _ _ _ _ R7) as (t7 & E7 & R8). destruct (runs_cons _ _ _ _ _ _ R8) as (t8 & E8 & R9). destruct (runs_cons _ _ _ _ _ _ R9) as (t9 & E9 & R0).
  assert (Q9 : t9 = t') by (inversion R0; congruence). clear R2 R3 R4 R5 R6 R7 R8 R9 R0. cbn [perform enabled] in *. subst t9. injection E6 as E6. injection E7 as E7. injection E8 as <-. injection E9 as <-.
  exists t1, t2, t3, t4, t5, t6, t7.
  assert (S2 : if o_remove_unreferenced_ids o then t2 = remove_unreferenced_ids t1 else t2 = t1) by (destruct (o_remove_unreferenced_ids o); [injection E2 as <-; reflexivity|exact E2]).
  assert (S3 : if o_trim_ids o then trim_ids t2 = Ok t3 else t3 = t2) by (destruct (o_trim_ids o); [injection E3 as E3; exact E3|exact E3]).
  assert (S4 : if o_remove_version o then remove_version t3 = Ok t4 else t4 = t3) by (destruct (o_remove_version o); [injection E4 as E4; exact E4|exact E4]).
  assert (S5 : if o_ungroup_defs o then t5 = ungroup_defs t4 else t5 = t4) by (destruct (o_ungroup_defs o); [injection E5 as E5; auto|exact E5]).
  split; try assumption; try reflexivity. intros W C. pose proof (F1 W C) as G1.
  assert (G2 : fine t2) by (destruct (o_remove_unreferenced_ids o); subst t2; [now apply fine_ids|exact G1]).
  assert (G3 : fine t3) by (destruct (o_trim_ids o); [exact (fine_trim _ _ G2 S3)|congruence]).
  assert (G4 : fine t4) by (destruct (o_remove_version o); [exact (fine_version _ _ G3 S4)|congruence]).
  assert (G5 : fine t5) by (destruct (o_ungroup_defs o); subst t5; [now apply WfStruct.fine_ungroup_defs|exact G4]).
  pose proof (fine_empty_defs _ _ G5 E6). auto 10.
Qed.

(** * No identity transform *)
Lemma get_rm_list l : forall m a, get_attr (fold_left rm_attr l m) a = get_attr m a \/ get_attr (fold_left rm_attr l m) a = None.
Proof.
  induction l as [|b l IH]; intros m a; cbn [fold_left]; [now left|]. destruct (IH (rm_attr m b) a) as [E|E]; [|now right]. rewrite E. destruct (aid_eqb_spec b a) as [<-|N]; [right; apply get_rm_same|left; now apply get_rm_other].
Qed.
(** No element of a cleaned document has an identity transform. *)
Theorem C54_no_identity_transform x o t t' : clean_doc x o t = Some (Ok t') ->
  forall d, In d (flat t') -> d_get d ATransform <> Some (VTransform t_id).
Proof.
  intros E d Hd. destruct (late_run x o t t' E) as (t1 & t2 & t3 & t4 & t5 & t6 & t7 & L). pose proof (lt_last _ _ _ _ _ _ _ _ _ _ _ L) as Q.
  assert (H8 : forall d, In d (flat (remove_default_transform t7)) -> d_get d ATransform <> Some (VTransform t_id)).
  { intros d8 H8. unfold remove_default_transform in H8. rewrite flat_tmap in H8. apply in_map_iff in H8. destruct H8 as (d7 & <- & _). destruct (is_default_transform (d_get d7 ATransform)) eqn:Di; [rewrite d_get_rm_same; discriminate|]. intros X. rewrite X in Di. cbn in Di.
    destruct (transform_eqb_spec t_id t_id); [discriminate Di|congruence]. }
  assert (G : forall m, In d (flat (tmap (fun d => if wants_join m d then join_node (x_write x) d else d) (remove_default_transform t7))) -> d_get d ATransform <> Some (VTransform t_id)).
  { intros m H. rewrite flat_tmap in H. apply in_map_iff in H. destruct H as (d8 & <- & Hd8). specialize (H8 d8 Hd8). destruct (wants_join m d8); [|exact H8]. unfold d_get, get_value, join_node in *. cbn [attrs with_attrs] in *.
    destruct (get_rm_list (map fst (visible_presentation (attrs d8))) (set_attr (attrs d8) AStyle (VStr (style_text (x_write x) (visible_presentation (attrs d8))))) ATransform) as [R|R]; rewrite R; [rewrite get_set_other by discriminate; exact H8|discriminate]. }
  unfold join_style_attributes in Q. rewrite Q in Hd. destruct (o_join_style_attributes o); [exact (H8 d Hd)|exact (G _ Hd)|exact (G _ Hd)].
Qed.
Print Assumptions C54_no_identity_transform.

(** * Ids *)
Definition named (t : tree) : list (tagt * string) := map (fun d => (tag d, nid d)) (flat t).
Lemma named_tmap f t : (forall d, tag (f d) = tag d /\ nid (f d) = nid d) -> named (tmap f t) = named t.
Proof. intros H. unfold named. rewrite flat_tmap, map_map. apply map_ext. intros d. destruct (H d) as [-> ->]. reflexivity. Qed.
Lemma flat_splice_sub k : forall t, sublist (flat (splice k t)) (flat t).
Proof.
  induction t as [d ch IH] using tree_ind'. cbn. apply sub_cons. induction ch as [|c ch IHc]; [constructor|]. inversion IH as [|? ? Ic Il]; subst. cbn. rewrite flat_map_app. apply sublist_app; [|exact (IHc Il)]. destruct (Nat.eqb _ _).
  - rewrite (flat_cons c). apply sub_skip, sublist_refl.
  - cbn. rewrite app_nil_r. exact Ic.
Qed.
Lemma named_ungroup t : sublist (named (ungroup_defs t)) (named t).
Proof.
  unfold ungroup_defs. assert (G : forall ks st, sublist (named (fst (fold_left ungroup_defs_step ks st))) (named (fst st))).
  { induction ks as [|k ks IH]; intros [s go]; [apply sublist_refl|]. cbn [fold_left]. eapply sublist_trans; [apply IH|]. unfold ungroup_defs_step. destruct (negb go); [apply sublist_refl|]. destruct (find_sub k s) as [y|]; [|apply sublist_refl]. destruct (_ && _); [|apply sublist_refl].
    cbn [fst]. rewrite unlink_eq, named_tmap by (intros d; split; reflexivity). apply sublist_map, flat_splice_sub. }
  apply G.
Qed.
Lemma named_empty t t' : remove_empty_defs t = Ok t' -> sublist (named t') (named t).
Proof.
  unfold remove_empty_defs, on_svg. destruct (svg_element t) as [s|]; [|discriminate]. destruct (find _ _) as [c|]; intros E; injection E as <-; [|apply sublist_refl]. unfold remove, detach.
  eapply sublist_trans; [apply sublist_map, flat_prune_sublist|]. fold (named (unlink (sub_keys (root_key c) t) t)). rewrite unlink_eq, named_tmap by (intros d; split; reflexivity). apply sublist_refl.
Qed.
Lemma named_xmlns b t t' : fix_xmlns_attribute b t = Ok t' -> named t' = named t.
Proof.
  unfold fix_xmlns_attribute, on_svg. destruct (svg_element t) as [s|]; [|discriminate]. destruct (_ && _ && _); [|destruct (_ && _)]; intros E; injection E as <-; [| |reflexivity]; unfold upd; apply named_tmap; intros d; destruct (Nat.eqb _ _); split; reflexivity.
Qed.
Lemma named_last wr m t : named (join_style_attributes wr m (remove_default_transform t)) = named t.
Proof.
  assert (A : named (remove_default_transform t) = named t) by (unfold remove_default_transform; apply named_tmap; intros d; destruct (is_default_transform _); split; reflexivity).
  unfold join_style_attributes. destruct m; [exact A|rewrite named_tmap; [exact A|intros d; destruct (wants_join _ d); split; reflexivity]..].
Qed.
Lemma named_version t t' : remove_version t = Ok t' -> named t' = named t.
Proof. unfold remove_version, on_svg. destruct (svg_element t); [|discriminate]. intros E. injection E as <-. unfold upd. apply named_tmap. intros d. destruct (Nat.eqb _ _); split; reflexivity. Qed.
Lemma late_named x o t t1 t2 t3 t4 t5 t6 t7 t' : late x o t t1 t2 t3 t4 t5 t6 t7 t' -> sublist (named t') (named t3).
Proof.
  intros [_ _ _ Hv Hu He Hx -> _]. rewrite named_last, (named_xmlns _ _ _ Hx). apply (sublist_trans _ _ _ (named_empty _ _ He)).
  assert (A : sublist (named t5) (named t4)) by (destruct (o_ungroup_defs o); subst t5; [apply named_ungroup|apply sublist_refl]). apply (sublist_trans _ _ _ A).
  destruct (o_remove_version o); [rewrite (named_version _ _ Hv)|subst t4]; apply sublist_refl.
Qed.
Definition svg_named (p : tagt * string) : bool := match fst p with TEl _ => negb (String.eqb (snd p) "") | _ => false end.
Lemma svg_named_spec d : svg_named (tag d, nid d) = svg_with_id d.
Proof. unfold svg_named, svg_with_id, is_svg_el, has_id. cbn. destruct (tag d); reflexivity. Qed.
Lemma ids_named t : map nid (filter svg_with_id (flat t)) = map snd (filter svg_named (named t)).
Proof. unfold named. induction (flat t) as [|d l IH]; [reflexivity|]. cbn [map filter]. rewrite svg_named_spec. destruct (svg_with_id d); cbn [map]; now rewrite IH. Qed.
Lemma sublist_filter_mono {A} (p : A -> bool) l m : sublist l m -> sublist (filter p l) (filter p m).
Proof. intros H. induction H; cbn; [constructor|destruct (p x); [now apply sub_skip|assumption]|destruct (p x); [now apply sub_cons|assumption]]. Qed.
(** With trim-ids every SVG element of a cleaned document that has an id has one of the generated ids, and no two have the
    same. *)
Theorem C54_trimmed_ids x o t t' : o_trim_ids o = true -> clean_doc x o t = Some (Ok t') ->
  NoDup (map nid (filter (fun d => match tag d with TEl _ => negb (String.eqb (nid d) "") | _ => false end) (flat t'))) /\
  forall d e, In d (flat t') -> tag d = TEl e -> nid d <> ""%string -> exists n, nth_id n = Some (nid d).
Proof.
  intros O E. destruct (late_run x o t t' E) as (t1 & t2 & t3 & t4 & t5 & t6 & t7 & L). pose proof (late_named _ _ _ _ _ _ _ _ _ _ _ L) as S. pose proof (lt_trim _ _ _ _ _ _ _ _ _ _ _ L) as T. rewrite O in T.
  destruct (C10_trim_ids _ _ T) as (_ & _ & T2 & T3).
  assert (S' : sublist (map nid (filter svg_with_id (flat t'))) (map nid (filter svg_with_id (flat t3)))) by (rewrite !ids_named; apply sublist_map, sublist_filter_mono, S).
  split.
  - rewrite (filter_ext (fun d => match tag d with TEl _ => negb (String.eqb (nid d) "") | _ => false end) svg_with_id) by (intros d; unfold svg_with_id, is_svg_el, has_id; destruct (tag d); reflexivity). exact (sublist_NoDup _ _ S' T3).
  - intros d e Hd Te Ni. assert (H : In (nid d) (map nid (filter svg_with_id (flat t')))). { apply in_map, filter_In. split; [exact Hd|]. unfold svg_with_id, is_svg_el, has_id. rewrite Te. cbn. destruct (String.eqb_spec (nid d) ""); [contradiction|reflexivity]. }
    apply (sublist_incl _ _ S') in H. apply (in_map Some) in H. rewrite map_map, T2 in H. apply in_map_iff in H. destruct H as (n & Hn & _). eauto.
Qed.
Print Assumptions C54_trimmed_ids.

(** * The outermost element *)
Lemma find_flat_map {A B} (f : A -> bool) (f' : B -> bool) (g : A -> list B) (h : A -> B) l :
  (forall c, In c l -> f c = true -> g c = [h c] /\ f' (h c) = true) -> (forall c e, In c l -> f c = false -> In e (g c) -> f' e = false) ->
  find f' (flat_map g l) = option_map h (find f l).
Proof.
  induction l as [|c l IH]; intros H1 H2; [reflexivity|]. cbn. destruct (f c) eqn:E.
  - destruct (H1 c (or_introl eq_refl) E) as [-> Q]. cbn. rewrite Q. reflexivity.
  - assert (N : forall m, (forall e, In e m -> f' e = false) -> find f' (m ++ flat_map g l) = find f' (flat_map g l)).
    { induction m as [|e m IHm]; intros Hm; [reflexivity|]. cbn. rewrite (Hm e (or_introl eq_refl)). apply IHm. intros; apply Hm; now right. }
    rewrite N by (intros e; exact (H2 c e (or_introl eq_refl) E)). apply IH; intros; [apply H1|eapply H2]; eauto; now right.
Qed.
Definition svg_from (t t' : tree) : Prop := forall s', svg_element t' = Some s' -> exists s, svg_element t = Some s /\ root_key s' = root_key s /\ incl (attrs (data s')) (attrs (data s)).
Lemma svg_from_refl t : svg_from t t. Proof. intros s H. exists s. split; [exact H|]. split; [reflexivity|apply incl_refl]. Qed.
Lemma svg_from_trans t1 t2 t3 : svg_from t1 t2 -> svg_from t2 t3 -> svg_from t1 t3.
Proof. intros A B s H. destruct (B s H) as (s2 & E2 & K2 & I2). destruct (A s2 E2) as (s1 & E1 & K1 & I1). exists s1. split; [exact E1|]. split; [congruence|]. exact (incl_tran I2 I1). Qed.
Lemma svg_tmap_eq f t : (forall d, tag (f d) = tag d) -> svg_element (tmap f t) = option_map (tmap f) (svg_element t).
Proof.
  intros H. destruct t as [d ch]. unfold svg_element. cbn. induction ch as [|c ch IH]; [reflexivity|]. cbn. assert (Q : is_tag ESvg (data (tmap f c)) = is_tag ESvg (data c)) by (destruct c; unfold is_tag; cbn; now rewrite H). rewrite Q. destruct (is_tag ESvg (data c)); [reflexivity|exact IH].
Qed.
Lemma data_tmap f t : data (tmap f t) = f (data t). Proof. destruct t. reflexivity. Qed.
Lemma svg_from_tmap f t : (forall d, tag (f d) = tag d /\ key (f d) = key d /\ incl (attrs (f d)) (attrs d)) -> svg_from t (tmap f t).
Proof.
  intros H s' E. rewrite svg_tmap_eq in E by (intros d; apply H). destruct (svg_element t) as [s|]; [|discriminate E]. injection E as <-. exists s. split; [reflexivity|]. unfold root_key. rewrite data_tmap. destruct (H (data s)) as (_ & K & I). auto.
Qed.
Lemma unlink_incl ks d : incl (attrs (unlink_data ks d)) (attrs d). Proof. intros y Hy. cbn in Hy. apply filter_In in Hy. tauto. Qed.
Lemma svg_from_unlink ks t : svg_from t (unlink ks t).
Proof. rewrite unlink_eq. apply svg_from_tmap. intros d. split; [reflexivity|]. split; [reflexivity|apply unlink_incl]. Qed.
Lemma svg_splice k t s : NoDup (keys t) -> find_sub k t = Some s -> is_tag EDefs (data s) = true -> forallb (fun c => tag_sat is_referenced (data c)) (kids s) = true -> svg_from t (splice k t).
Proof.
  intros N Fs Ts Ks s' E. destruct (find_sub_some _ _ _ Fs) as [Hs Es]. destruct t as [d ch]. unfold svg_element in E. cbn [kids splice] in E.
  assert (U : forall c, In c ch -> root_key c = k -> c = s). { intros c Hc Kc. apply (sub_unique (T d ch)); auto; [now apply kid_in|congruence]. }
  rewrite (find_flat_map (fun c => is_tag ESvg (data c)) (fun c => is_tag ESvg (data c)) (fun c => if Nat.eqb (root_key c) k then kids c else [splice k c]) (splice k)) in E.
  - unfold svg_element. cbn [kids]. destruct (find _ ch) as [c|]; [|discriminate E]. injection E as <-. exists c. split; [reflexivity|]. unfold root_key. rewrite data_splice. split; [reflexivity|apply incl_refl].
  - intros c Hc Tc. destruct (Nat.eqb_spec (root_key c) k) as [Q|_]; [|rewrite data_splice; auto]. rewrite (U c Hc Q) in Tc. rewrite (tag_other EDefs ESvg) in Tc; [discriminate|discriminate|exact Ts].
  - intros c e Hc Tc He. destruct (Nat.eqb_spec (root_key c) k) as [Q|_].
    + rewrite (U c Hc Q) in He. rewrite forallb_forall in Ks. specialize (Ks e He). destruct (is_tag ESvg (data e)) eqn:Te; [|reflexivity]. unfold is_tag, tag_sat in *. destruct (tag (data e)); try discriminate. destruct (eid_eqb_spec ESvg e0) as [<-|]; [discriminate Ks|]. destruct (eid_eqb_spec e0 ESvg); [congruence|discriminate].
    + destruct He as [<-|[]]. now rewrite data_splice.
Qed.
Lemma svg_ungroup t : fine t -> svg_from t (ungroup_defs t).
Proof.
  intros F. unfold ungroup_defs. assert (G : forall ks st, ~ In (root_key (fst st)) ks -> fine (fst st) -> svg_from (fst st) (fst (fold_left ungroup_defs_step ks st))).
  { induction ks as [|k ks IH]; intros [s go] Nk Fs; [apply svg_from_refl|]. cbn [fold_left fst] in *. unfold ungroup_defs_step at 2.
    assert (Skip : svg_from s (fst (fold_left ungroup_defs_step ks (s, go)))) by (apply IH; cbn; [intros X; apply Nk; now right|exact Fs]).
    destruct go; cbn [negb]; [|exact Skip]. destruct (find_sub k s) as [y|] eqn:Ey; [|exact Skip]. destruct (is_tag EDefs (data y) && _) eqn:Q; [|exact Skip]. apply andb_prop in Q. destruct Q as [Q1 Q2].
    eapply svg_from_trans; [|apply IH].
    - cbn [fst]. eapply svg_from_trans; [exact (svg_splice k s y (fine_nodup _ Fs) Ey Q1 Q2)|apply svg_from_unlink].
    - cbn [fst]. rewrite WfStruct.root_splice. intros X. apply Nk. now right.
    - cbn [fst]. apply WfStruct.fine_splice; [exact Fs|]. intros X. apply Nk. now left. }
  apply G; [|exact F]. cbn. pose proof (fine_nodup t F) as Nd. rewrite keys_kids in *. cbn. now inversion Nd.
Qed.
Lemma svg_detach k t : (forall s, svg_element t = Some s -> root_key s <> k) -> (forall c, In c (kids t) -> root_key c = k -> is_tag ESvg (data c) = false) -> svg_from t (detach k t).
Proof.
  intros H1 H2 s' E. destruct t as [d ch]. unfold detach, svg_element in E. cbn [kids prune] in E.
  rewrite (find_flat_map (fun c => is_tag ESvg (data c)) (fun c => is_tag ESvg (data c)) _ (prune (fun c => Nat.eqb (root_key c) k))) in E.
  - unfold svg_element. cbn [kids]. destruct (find _ ch) as [c|]; [|discriminate E]. injection E as <-. exists c. split; [reflexivity|]. destruct c. split; [reflexivity|apply incl_refl].
  - intros c Hc Tc. destruct (Nat.eqb_spec (root_key c) k) as [Q|_]; [rewrite (H2 c Hc Q) in Tc; discriminate|]. split; [reflexivity|]. destruct c. exact Tc.
  - intros c e Hc Tc He. destruct (Nat.eqb (root_key c) k); [destruct He|]. destruct He as [<-|[]]. destruct c. exact Tc.
Qed.
Lemma svg_empty t t' : fine t -> remove_empty_defs t = Ok t' -> svg_from t t'.
Proof.
  intros F E. pose proof (fine_nodup t F) as N. unfold remove_empty_defs, on_svg in E. destruct (svg_element t) as [s|] eqn:Es; [|discriminate]. destruct (find _ (kids s)) as [c|] eqn:Ec; injection E as <-; [|apply svg_from_refl].
  apply find_some in Ec. destruct Ec as [Hc Tc]. apply andb_prop in Tc. destruct Tc as [Tc _]. destruct (PlainMove.svg_kid _ _ Es) as [Hs Ts].
  unfold remove. eapply svg_from_trans; [apply (svg_from_unlink (sub_keys (root_key c) t))|].
  assert (A : forall x, In x (kids t) -> root_key x = root_key c -> is_tag ESvg (data x) = false).
  { intros x Hx Kx. assert (x = c) by (apply (sub_unique t); auto; [now apply kid_in|apply (subs_trans t s); now apply kid_in]). subst x. now apply (tag_other EDefs ESvg). }
  apply svg_detach.
  - intros s1 E1 K1. rewrite unlink_eq, svg_tmap_eq, Es in E1 by reflexivity. injection E1 as <-. unfold root_key in K1. rewrite data_tmap in K1. change (root_key s = root_key c) in K1. rewrite (A s Hs K1) in Ts. discriminate.
  - intros x Hx Kx. rewrite unlink_eq in Hx. destruct t as [d ch]. cbn in Hx. apply in_map_iff in Hx. destruct Hx as (y & <- & Hy). rewrite data_tmap in *. unfold root_key in Kx. rewrite data_tmap in Kx. exact (A y Hy Kx).
Qed.
Lemma xmlns_form b t t' : fix_xmlns_attribute b t = Ok t' -> exists s f, svg_element t = Some s /\ t' = upd (root_key s) f t /\
  (forall d, tag (f d) = tag d /\ key (f d) = key d /\ (forall y, In y (attrs (f d)) -> In y (attrs d) \/ y = At (AN AXmlnsXlink) (VStr xlink_ns) true) /\
    forall a, a <> AXmlnsXlink -> d_has (f d) a = d_has d a) /\
  (has_links t = true -> d_has (f (data s)) AXmlnsXlink = true) /\
  (has_links t = false -> b = true -> d_has (f (data s)) AXmlnsXlink = false) /\
  (has_links t = true -> incl (attrs (data s)) (attrs (f (data s)))).
Proof.
  unfold fix_xmlns_attribute, on_svg. destruct (svg_element t) as [s|] eqn:Es; [|discriminate]. intros E. exists s.
  assert (R : forall d, tag (d_rm d AXmlnsXlink) = tag d /\ key (d_rm d AXmlnsXlink) = key d /\ (forall y, In y (attrs (d_rm d AXmlnsXlink)) -> In y (attrs d) \/ y = At (AN AXmlnsXlink) (VStr xlink_ns) true) /\ forall a, a <> AXmlnsXlink -> d_has (d_rm d AXmlnsXlink) a = d_has d a).
  { intros d. split; [reflexivity|]. split; [reflexivity|]. split; [intros y Hy; cbn in Hy; unfold rm_attr in Hy; apply filter_In in Hy; tauto|]. intros a N. apply d_has_rm_other. congruence. }
  assert (S : forall d, tag (d_set d AXmlnsXlink (VStr xlink_ns)) = tag d /\ key (d_set d AXmlnsXlink (VStr xlink_ns)) = key d /\ (forall y, In y (attrs (d_set d AXmlnsXlink (VStr xlink_ns))) -> In y (attrs d) \/ y = At (AN AXmlnsXlink) (VStr xlink_ns) true) /\ forall a, a <> AXmlnsXlink -> d_has (d_set d AXmlnsXlink (VStr xlink_ns)) a = d_has d a).
  { intros d. split; [reflexivity|]. split; [reflexivity|]. split; [intros y Hy; cbn in Hy; now apply Mild.set_attr_from in Hy|]. intros a N. apply d_has_set_other. congruence. }
  destruct (has_links t) eqn:Hl, b, (d_has (data s) AXmlnsXlink) eqn:Hx; cbn in E; injection E as <-.
  1,3,6,7,8: exists (fun d => d); split; [reflexivity|]; split; [unfold upd; symmetry; erewrite tmap_ext; [apply tmap_id|intros d _; destruct (Nat.eqb _ _); reflexivity]|]; split; [intros d; auto 6|]; split; [intros; congruence|]; split; [intros; congruence|]; intros _; apply incl_refl.
  - exists (fun d => d_set d AXmlnsXlink (VStr xlink_ns)). split; [reflexivity|]. split; [reflexivity|]. split; [exact S|]. split; [intros _; apply d_has_set_same|]. split; [discriminate|]. intros _. cbn. rewrite RegroupProofs.set_new by now apply AttrFacts.d_has_false. apply incl_appl, incl_refl.
  - exists (fun d => d_set d AXmlnsXlink (VStr xlink_ns)). split; [reflexivity|]. split; [reflexivity|]. split; [exact S|]. split; [intros _; apply d_has_set_same|]. split; [discriminate|]. intros _. cbn. rewrite RegroupProofs.set_new by now apply AttrFacts.d_has_false. apply incl_appl, incl_refl.
  - exists (fun d => d_rm d AXmlnsXlink). split; [reflexivity|]. split; [reflexivity|]. split; [exact R|]. split; [discriminate|]. split; [intros _ _; apply d_has_rm_same|discriminate].
Qed.
(** Nothing after it touches the other attributes but transforms and what is joined. *)
Lemma rm_list_has l : forall m a, ~ In a l -> has_attr (fold_left rm_attr l m) a = has_attr m a.
Proof.
  induction l as [|b l IH]; intros m a N; [reflexivity|]. cbn [fold_left]. rewrite IH by (intros X; apply N; now right). unfold has_attr. rewrite get_rm_other; [reflexivity|]. intros ->. apply N. now left.
Qed.
Lemma presentation_names l a : In a (map fst (visible_presentation l)) -> is_presentation a = true.
Proof.
  induction l as [|x l IH]; cbn; [intros []|]. destruct (a_name x) as [b|]; [|exact IH]. destruct (is_presentation b && a_vis x) eqn:E; [|exact IH]. cbn. intros [<-|H]; [|auto]. apply andb_prop in E. tauto.
Qed.
Lemma last_form wr m t : exists g, join_style_attributes wr m (remove_default_transform t) = tmap g t /\
  forall d, tag (g d) = tag d /\ key (g d) = key d /\ (forall y, In y (attrs (g d)) -> In y (attrs d) \/ a_name y = AN AStyle) /\
    forall a, is_presentation a = false -> a <> AStyle -> a <> ATransform -> d_has (g d) a = d_has d a.
Proof.
  set (h := fun d => if is_default_transform (d_get d ATransform) then d_rm d ATransform else d).
  assert (H : forall d, tag (h d) = tag d /\ key (h d) = key d /\ (forall y, In y (attrs (h d)) -> In y (attrs d) \/ a_name y = AN AStyle) /\ forall a, is_presentation a = false -> a <> AStyle -> a <> ATransform -> d_has (h d) a = d_has d a).
  { intros d. unfold h. destruct (is_default_transform _); [|auto]. split; [reflexivity|]. split; [reflexivity|]. split; [intros y Hy; cbn in Hy; unfold rm_attr in Hy; apply filter_In in Hy; tauto|]. intros a _ _ N. apply d_has_rm_other. congruence. }
  assert (J : forall d, tag (join_node wr d) = tag d /\ key (join_node wr d) = key d /\ (forall y, In y (attrs (join_node wr d)) -> In y (attrs d) \/ a_name y = AN AStyle) /\ forall a, is_presentation a = false -> a <> AStyle -> a <> ATransform -> d_has (join_node wr d) a = d_has d a).
  { intros d. split; [reflexivity|]. split; [reflexivity|]. split.
    - intros y Hy. cbn in Hy. apply StillAll.rm_list_from in Hy. apply Mild.set_attr_from in Hy. destruct Hy as [Hy| ->]; [now left|now right].
    - intros a Pa Na _. unfold d_has, join_node. cbn [attrs with_attrs]. rewrite rm_list_has by (intros X; apply presentation_names in X; congruence). unfold has_attr. rewrite get_set_other by congruence. reflexivity. }
  unfold join_style_attributes. destruct m; [exists h; split; [reflexivity|exact H]|..].
  all: match goal with |- context [wants_join ?m] => exists (fun d => if wants_join m (h d) then join_node wr (h d) else h d) end; (split; [unfold remove_default_transform; rewrite tmap_tmap; apply tmap_ext; reflexivity|]); intros d; destruct (H d) as (H1 & H2 & H3 & H4); destruct (wants_join _ (h d)); [|exact (conj H1 (conj H2 (conj H3 H4)))]; destruct (J (h d)) as (J1 & J2 & J3 & J4);
    (split; [congruence|]); (split; [congruence|]); (split; [intros y Hy; destruct (J3 y Hy); auto|]); intros a A1 A2 A3; rewrite J4 by assumption; auto.
Qed.
(** With remove-version the outermost element of a cleaned document has no version and no baseProfile. *)
Theorem C54_version x o t t' s' : well_formed t -> calm_run x o t -> o_remove_version o = true -> clean_doc x o t = Some (Ok t') ->
  svg_element t' = Some s' -> forall y, In y (attrs (data s')) -> a_name y <> AN AVersion /\ a_name y <> AN ABaseProfile.
Proof.
  intros W C O E Es y Hy. destruct (late_run x o t t' E) as (t1 & t2 & t3 & t4 & t5 & t6 & t7 & [F _ _ Hv Hu He Hx Hl _]). destruct (F W C) as (F1 & F2 & F3 & F4 & F5 & F6). clear F. rewrite O in Hv.
  destruct (last_form (x_write x) (o_join_style_attributes o) t7) as (g & Eg & Hg). rewrite Eg in Hl. subst t'. rewrite svg_tmap_eq in Es by (intros d; apply Hg). destruct (svg_element t7) as [s7|] eqn:E7; [|discriminate]. injection Es as <-.
  rewrite data_tmap in Hy. destruct (Hg (data s7)) as (_ & _ & G & _). destruct (G y Hy) as [H7|N]; [|rewrite N; split; discriminate]. clear Hy.
  destruct (xmlns_form _ _ _ Hx) as (s6 & f & E6 & -> & Hf & _). unfold upd in E7. rewrite svg_tmap_eq, E6 in E7 by (intros d; destruct (Nat.eqb _ _); [apply Hf|reflexivity]). injection E7 as <-. rewrite data_tmap in H7.
  assert (H6 : In y (attrs (data s6)) \/ y = At (AN AXmlnsXlink) (VStr xlink_ns) true) by (destruct (Nat.eqb _ _); [apply Hf; exact H7|now left]). destruct H6 as [H6| ->]; [|split; discriminate].
  destruct (svg_empty t5 t6 F5 He s6 E6) as (s5 & E5 & _ & I5).
  assert (X : exists s4, svg_element t4 = Some s4 /\ incl (attrs (data s5)) (attrs (data s4))).
  { destruct (o_ungroup_defs o); subst t5; [destruct (svg_ungroup t4 F4 s5 E5) as (s4 & A & _ & B); eauto|exists s5; split; [exact E5|apply incl_refl]]. }
  destruct X as (s4 & E4 & I4). assert (H4 : In y (attrs (data s4))) by auto. unfold remove_version, on_svg in Hv. destruct (svg_element t3) as [s3|] eqn:E3; [|discriminate]. injection Hv as <-.
  unfold upd in E4. rewrite svg_tmap_eq, E3 in E4 by (intros d; destruct (Nat.eqb (key d) (root_key s3)); reflexivity). injection E4 as <-. rewrite data_tmap in H4. change (key (data s3)) with (root_key s3) in H4. rewrite Nat.eqb_refl in H4. cbn in H4. unfold rm_attr in H4. rewrite !filter_In in H4. destruct H4 as ((_ & V) & B).
  apply negb_true_iff in V, B. split; intros Q; unfold has_name in *; rewrite Q in *; discriminate.
Qed.
Print Assumptions C54_version.
(** xmlns:xlink is declared on the outermost element whenever an SVG element of the document that is saved has an xlink:href. *)
Theorem C54_xlink_declared x o t t' s' : clean_doc x o t = Some (Ok t') -> svg_element t' = Some s' ->
  (exists d e, In d (flat t') /\ tag d = TEl e /\ d_has d AXlinkHref = true) -> d_has (data s') AXmlnsXlink = true.
Proof.
  intros E Es (d & e & Hd & Te & Hh). destruct (late_run x o t t' E) as (t1 & t2 & t3 & t4 & t5 & t6 & t7 & [_ _ _ _ _ _ Hx Hl _]).
  destruct (last_form (x_write x) (o_join_style_attributes o) t7) as (g & Eg & Hg). rewrite Eg in Hl. subst t'. rewrite svg_tmap_eq in Es by (intros d0; apply Hg). destruct (svg_element t7) as [s7|] eqn:E7; [|discriminate]. injection Es as <-.
  rewrite flat_tmap in Hd. apply in_map_iff in Hd. destruct Hd as (d7 & <- & Hd). rewrite data_tmap. destruct (Hg d7) as (G1 & _ & _ & G2). rewrite G2 in Hh by (reflexivity || discriminate). rewrite G1 in Te. clear G1 G2.
  destruct (Hg (data s7)) as (_ & _ & _ & G). rewrite G by (reflexivity || discriminate). clear G Hg.
  destruct (xmlns_form _ _ _ Hx) as (s6 & f & E6 & -> & Hf & Hyes & _). unfold upd in E7. rewrite svg_tmap_eq, E6 in E7 by (intros d0; destruct (Nat.eqb _ _); [apply Hf|reflexivity]). injection E7 as <-. rewrite data_tmap. change (key (data s6)) with (root_key s6). rewrite Nat.eqb_refl.
  apply Hyes. apply has_links_iff. apply in_upd in Hd. destruct Hd as (d6 & H6 & ->). exists d6, e. split; [exact H6|]. destruct (Nat.eqb _ _); [|auto]. destruct (Hf d6) as (T & _ & _ & A). rewrite A in Hh by discriminate. rewrite T in Te. auto.
Qed.
Print Assumptions C54_xlink_declared.
(** With remove-xmlns-xlink-attribute it is not declared if nothing is referenced and no xlink:href is left (of documents
    whose styles are not joined, which hides references in texts). *)
Theorem C54_xlink_not_declared x o t t' s' : well_formed t -> calm_run x o t -> o_remove_xmlns_xlink_attribute o = true -> o_join_style_attributes o = JoinNone ->
  clean_doc x o t = Some (Ok t') -> svg_element t' = Some s' -> d_has (data s') AXmlnsXlink = true ->
  exists d e, In d (flat t') /\ tag d = TEl e /\ (d_has d AXlinkHref = true \/ referenced t' (key d)).
Proof.
  intros W C O J E Es Hh. destruct (late_run x o t t' E) as (t1 & t2 & t3 & t4 & t5 & t6 & t7 & [F _ _ _ _ _ Hx Hl _]). destruct (F W C) as (_ & _ & _ & _ & _ & F6). clear F. pose proof (fine_xmlns _ _ _ F6 Hx) as F7. rewrite J in Hl. cbn in Hl.
  destruct (xmlns_form _ _ _ Hx) as (s6 & f & E6 & Q7 & Hf & _ & Hno & Hkeep).
  set (h := fun d => if is_default_transform (d_get d ATransform) then d_rm d ATransform else d). assert (Hl' : t' = tmap h t7) by exact Hl. clear Hl.
  assert (Hh0 : forall d a, a <> ATransform -> d_has (h d) a = d_has d a) by (intros d a N; unfold h; destruct (is_default_transform _); [apply d_has_rm_other; congruence|reflexivity]).
  assert (Ht : forall d, tag (h d) = tag d /\ key (h d) = key d) by (intros d; unfold h; destruct (is_default_transform _); auto).
  assert (A : has_links t6 = true).
  { destruct (has_links t6) eqn:L; [reflexivity|]. specialize (Hno eq_refl O). subst t' t7. rewrite svg_tmap_eq in Es by (intros d0; apply Ht). unfold upd in Es. rewrite svg_tmap_eq, E6 in Es by (intros d0; destruct (Nat.eqb _ _); [apply Hf|reflexivity]). injection Es as <-. rewrite !data_tmap in Hh. change (key (data s6)) with (root_key s6) in Hh. rewrite Nat.eqb_refl, Hh0 in Hh by discriminate. congruence. }
  apply has_links_iff in A. destruct A as (d & e & Hd & Te & A). subst t' t7.
  set (u := fun x0 => if Nat.eqb (key x0) (root_key s6) then f x0 else x0). assert (Hu : forall d, tag (u d) = tag d /\ key (u d) = key d) by (intros d0; unfold u; destruct (Nat.eqb _ _); [split; apply Hf|auto]).
  change (upd (root_key s6) f t6) with (tmap u t6).
  exists (h (u d)), e. split; [rewrite !flat_tmap; apply in_map, in_map, Hd|]. split; [destruct (Ht (u d)) as [-> _]; destruct (Hu d) as [-> _]; exact Te|]. destruct A as [A|(d0 & H0 & y & Hy & Ly)].
  - left. rewrite Hh0 by discriminate. unfold u. destruct (Nat.eqb _ _); [|exact A]. destruct (Hf d) as (_ & _ & _ & B). rewrite B by discriminate. exact A.
  - right. destruct (Ht (u d)) as [_ ->]. destruct (Hu d) as [_ ->]. exists (h (u d0)). split; [rewrite !flat_tmap; apply in_map, in_map, H0|]. exists y. split; [|exact Ly].
    assert (Yu : In y (attrs (u d0))).
    { unfold u. destruct (Nat.eqb_spec (key d0) (root_key s6)) as [K|]; [|exact Hy]. assert (d0 = data s6). { apply (data_unique t6); auto; [exact (fine_nodup _ F6)|apply data_of_sub, kid_in; exact (proj1 (PlainMove.svg_kid _ _ E6))]. } subst d0. apply Hkeep; [|exact Hy].
      apply has_links_iff. exists d, e. split; [exact Hd|]. split; [exact Te|]. right. exists (data s6). split; [exact H0|]. exists y. auto. }
    unfold h. destruct (is_default_transform (d_get (u d0) ATransform)) eqn:Q; [|exact Yu]. cbn. unfold rm_attr. apply filter_In. split; [exact Yu|]. apply negb_true_iff. destruct (has_name (AN ATransform) y) eqn:Hn; [|reflexivity]. exfalso.
    assert (N : In (u d0) (flat (upd (root_key s6) f t6))) by (change (upd (root_key s6) f t6) with (tmap u t6); rewrite flat_tmap; apply in_map, H0). pose proof (proj1 (Forall_forall _ _) (fine_wfa _ F7) _ N) as Na. apply has_name_eq in Hn. unfold d_get, get_value in Q. rewrite (get_attr_in _ _ _ Na Yu Hn) in Q. destruct (a_val y); discriminate.
Qed.
Print Assumptions C54_xlink_not_declared.

(** * Unreferenced ids *)
(** [u] is the document before the last steps. *)
Definition before_ids (x : svgdom) (o : cleaning_options) (t u : tree) : Prop := runs x o (filter (enabled o) early_part) t (Some (Ok u)).
Lemma forall2_in_r {A B} (R : A -> B -> Prop) l m y : Forall2 R l m -> In y m -> exists x, In x l /\ R x y.
Proof. intros H. induction H; [intros []|]. intros [<-|Hy]; [exists x; split; [now left|assumption]|]. destruct (IHForall2 Hy) as (z & A1 & A2). exists z. split; [now right|exact A2]. Qed.
Lemma forall2_in_l {A B} (R : A -> B -> Prop) l m x : Forall2 R l m -> In x l -> exists y, In y m /\ R x y.
Proof. intros H. induction H; [intros []|]. intros [<-|Hy]; [exists y; split; [now left|assumption]|]. destruct (IHForall2 Hy) as (z & A1 & A2). exists z. split; [now right|exact A2]. Qed.
(** The nodes of a later document, and what happened to the references: the node is there before, its id is not new, and
    every reference to a node that stays is still there or was an attribute of a defs element or a version. *)
Record later (t t' : tree) : Prop := {
  lr_node : forall d', In d' (flat t') -> exists d, In d (flat t) /\ key d = key d' /\ tag d = tag d' /\ (nid d' <> ""%string -> nid d <> ""%string);
  lr_refs : forall d y k, In d (flat t) -> In y (attrs d) -> link_of (a_val y) = Some k -> In k (keys t') ->
    (exists d', In d' (flat t') /\ key d' = key d /\ tag d' = tag d /\ In y (attrs d')) \/ tag d = TEl EDefs \/ In (a_name y) [AN AVersion; AN ABaseProfile; AN AXmlnsXlink]
}.
Lemma later_refl t : later t t. Proof. split; [intros d Hd; exists d; auto|intros d y k Hd Hy _ _; left; exists d; auto]. Qed.
Lemma later_trans t1 t2 t3 : later t1 t2 -> later t2 t3 -> later t1 t3.
Proof.
  intros [A1 A2] [B1 B2]. assert (S : forall k, In k (keys t3) -> In k (keys t2)).
  { intros k Hk. unfold keys in *. apply in_map_iff in Hk. destruct Hk as (d3 & <- & H3). destruct (B1 d3 H3) as (d2 & H2 & K & _). rewrite <- K. now apply in_map. }
  split.
  - intros d3 H3. destruct (B1 d3 H3) as (d2 & H2 & K2 & T2 & N2). destruct (A1 d2 H2) as (d1 & H1 & K1 & T1 & N1). exists d1. repeat split; [exact H1|congruence|congruence|auto].
  - intros d y k Hd Hy L Hk. destruct (A2 d y k Hd Hy L (S k Hk)) as [(d2 & H2 & K2 & T2 & Y2)|H]; [|now right]. destruct (B2 d2 y k H2 Y2 L Hk) as [(d3 & H3 & K3 & T3 & Y3)|[H|H]]; [left; exists d3; repeat split; [exact H3|congruence|congruence|exact Y3]|right; left; congruence|auto].
Qed.
Lemma later_map f t : (forall d, In d (flat t) -> key (f d) = key d /\ tag (f d) = tag d /\ (nid (f d) <> ""%string -> nid d <> ""%string) /\
    forall y k, In y (attrs d) -> link_of (a_val y) = Some k -> In y (attrs (f d)) \/ In (a_name y) [AN AVersion; AN ABaseProfile; AN AXmlnsXlink]) -> later t (tmap f t).
Proof.
  intros H. split.
  - intros d' Hd. rewrite flat_tmap in Hd. apply in_map_iff in Hd. destruct Hd as (d & <- & Hd). destruct (H d Hd) as (K & T & N & _). exists d. auto.
  - intros d y k Hd Hy L _. destruct (H d Hd) as (K & T & _ & A). destruct (A y k Hy L) as [Y|Y]; [|auto]. left. exists (f d). split; [rewrite flat_tmap; now apply in_map|]. auto.
Qed.
Lemma later_trim t t' : trim_ids t = Ok t' -> later t t'.
Proof.
  intros E. pose proof (trim_rel t t' E) as R.
  assert (S : Forall2 (fun d d' => key d' = key d /\ tag d' = tag d /\ attrs d' = attrs d /\ (nid d' <> ""%string -> nid d <> ""%string)) (flat t) (flat t')).
  { eapply Forall2_impl; [|exact R]. cbn. intros d d' Q. destruct (svg_with_id d) eqn:P; [|subst d'; auto]. rewrite Q. cbn. repeat split. intros _. unfold svg_with_id, has_id in P. apply andb_prop in P. destruct P as [_ P]. destruct (String.eqb_spec (nid d) ""); [discriminate P|assumption]. }
  split.
  - intros d' Hd. destruct (forall2_in_r _ _ _ _ S Hd) as (d & H & K & T & _ & N). exists d. auto.
  - intros d y k Hd Hy _ _. destruct (forall2_in_l _ _ _ _ S Hd) as (d' & H & K & T & A & _). left. exists d'. rewrite A. auto.
Qed.
Lemma later_version t t' : remove_version t = Ok t' -> later t t'.
Proof.
  unfold remove_version, on_svg. destruct (svg_element t) as [s|]; [|discriminate]. intros E. injection E as <-. unfold upd. apply later_map. intros d _. destruct (Nat.eqb (key d) (root_key s)); [|auto 7]. split; [reflexivity|]. split; [reflexivity|]. split; [auto|]. intros y k Hy _. cbn. unfold rm_attr. rewrite !filter_In.
  destruct (has_name (AN AVersion) y) eqn:H1; [right; apply has_name_eq in H1; rewrite H1; now left|]. destruct (has_name (AN ABaseProfile) y) eqn:H2; [right; apply has_name_eq in H2; rewrite H2; right; now left|]. left. auto.
Qed.
Lemma filter_refers_keep ks y k : link_of (a_val y) = Some k -> ~ In k ks -> negb (existsb (fun k => refers k y) ks) = true.
Proof.
  intros L N. apply negb_true_iff. apply not_true_is_false. intros X. apply existsb_exists in X. destruct X as (j & Hj & R). unfold refers in R. rewrite L in R. apply Nat.eqb_eq in R. congruence.
Qed.
Lemma later_ungroup t : fine t -> later t (ungroup_defs t).
Proof.
  intros F. destruct (C46_ungroup_defs t (fine_wf _ F)) as (_ & _ & ds & Hds & Q). split.
  - intros d' Hd. rewrite Q in Hd. apply in_map_iff in Hd. destruct Hd as (d & <- & Hd). apply filter_In in Hd. exists d. cbn. tauto.
  - intros d y k Hd Hy L Hk. destruct (in_dec Nat.eq_dec (key d) ds) as [I|N]; [right; left; auto|]. left. exists (with_attrs d (filter (fun a => negb (existsb (fun k => refers k a) ds)) (attrs d))). split.
    + rewrite Q. apply in_map_iff. exists d. split; [reflexivity|]. apply filter_In. split; [exact Hd|]. apply negb_true_iff, not_true_is_false. intros X. apply existsb_exists in X. destruct X as (j & Hj & E). apply Nat.eqb_eq in E. congruence.
    + split; [reflexivity|]. split; [reflexivity|]. cbn. apply filter_In. split; [exact Hy|]. apply (filter_refers_keep ds y k L). intros I. unfold keys in Hk. rewrite Q, map_map in Hk. cbn in Hk. apply in_map_iff in Hk. destruct Hk as (e & Ke & He). apply filter_In in He. destruct He as [_ He]. apply negb_true_iff in He. assert (X : existsb (Nat.eqb (key e)) ds = true) by (apply existsb_exists; exists k; split; [exact I|apply Nat.eqb_eq; exact Ke]). congruence.
Qed.
Lemma later_empty t t' : fine t -> remove_empty_defs t = Ok t' -> later t t'.
Proof.
  intros F E. destruct (svg_element t) as [s|] eqn:Es; [|unfold remove_empty_defs, on_svg in E; rewrite Es in E; discriminate]. destruct (C43_remove_empty_defs t s (fine_wf _ F) Es) as (t1 & E1 & _ & [(Q & _)|(c & Hc & Tc & _ & Q)]).
  - assert (t' = t) by congruence. subst t'. apply later_refl.
  - assert (t1 = t') by congruence. subst t1. clear E1. split.
    + intros d' Hd. apply Q in Hd. destruct Hd as (d & Hd & _ & ->). exists d. cbn. tauto.
    + intros d y k Hd Hy L Hk. destruct (Nat.eq_dec (key d) (root_key c)) as [K|N].
      * right. left. assert (d = data c); [|congruence]. apply (data_unique t); auto; [exact (fine_nodup _ F)|]. apply data_of_sub, (subs_trans t s); apply kid_in; [exact (proj1 (PlainMove.svg_kid _ _ Es))|exact Hc].
      * left. exists (with_attrs d (filter (fun a => negb (refers (root_key c) a)) (attrs d))). split; [apply Q; exists d; auto|]. split; [reflexivity|]. split; [reflexivity|]. cbn. apply filter_In. split; [exact Hy|]. apply negb_true_iff, not_true_is_false. intros R. unfold refers in R. rewrite L in R. apply Nat.eqb_eq in R. subst k.
        unfold keys in Hk. apply in_map_iff in Hk. destruct Hk as (e & Ke & He). apply Q in He. destruct He as (e0 & _ & Ne & ->). cbn in Ke. contradiction.
Qed.
Lemma later_xmlns b t t' : fix_xmlns_attribute b t = Ok t' -> later t t'.
Proof.
  unfold fix_xmlns_attribute, on_svg. destruct (svg_element t) as [s|]; [|discriminate]. destruct (_ && _ && _); [|destruct (_ && _)]; intros E; injection E as <-; [| |apply later_refl].
  - unfold upd. apply later_map. intros d _. destruct (Nat.eqb (key d) (root_key s)); [|auto 7]. split; [reflexivity|]. split; [reflexivity|]. split; [auto|]. intros y k Hy _. cbn. unfold rm_attr. rewrite filter_In. destruct (has_name (AN AXmlnsXlink) y) eqn:H1; [right; apply has_name_eq in H1; rewrite H1; cbn; auto|left; auto].
  - unfold upd. apply later_map. intros d _. destruct (Nat.eqb (key d) (root_key s)); [|auto 7]. split; [reflexivity|]. split; [reflexivity|]. split; [auto|]. intros y k Hy _. cbn. destruct (has_name (AN AXmlnsXlink) y) eqn:H1; [right; apply has_name_eq in H1; rewrite H1; cbn; auto|left]. apply AttrFacts.set_attr_other_in; [|exact Hy]. intros Q. unfold has_name in H1. rewrite Q in H1. discriminate H1.
Qed.
Lemma later_default_transform t : fine t -> later t (remove_default_transform t).
Proof.
  intros F. unfold remove_default_transform. apply later_map. intros d Hd. destruct (is_default_transform (d_get d ATransform)) eqn:Q; [|auto 7]. split; [reflexivity|]. split; [reflexivity|]. split; [auto|]. intros y k Hy L. left. cbn. unfold rm_attr. apply filter_In. split; [exact Hy|]. apply negb_true_iff. destruct (has_name (AN ATransform) y) eqn:Hn; [|reflexivity]. exfalso.
  pose proof (proj1 (Forall_forall _ _) (fine_wfa _ F) _ Hd) as Na. apply has_name_eq in Hn. unfold d_get, get_value in Q. rewrite (get_attr_in _ _ _ Na Hy Hn) in Q. destruct (a_val y); discriminate.
Qed.
(** With remove-unreferenced-ids, and styles not joined: an element of a cleaned document that has an id is referenced, or
    the reference has gone with a defs element that was dissolved or removed after the ids (or stood in one of three
    attributes where svgdom makes no references). *)
Theorem C54_ids_referenced_partial x o t t' : well_formed t -> calm_run x o t -> o_remove_unreferenced_ids o = true -> o_join_style_attributes o = JoinNone ->
  clean_doc x o t = Some (Ok t') -> forall d, In d (flat t') -> nid d <> ""%string ->
  referenced t' (key d) \/
  exists u e y, before_ids x o t u /\ In e (flat u) /\ In y (attrs e) /\ link_of (a_val y) = Some (key d) /\
    (tag e = TEl EDefs \/ In (a_name y) [AN AVersion; AN ABaseProfile; AN AXmlnsXlink]).
Proof.
  intros W C O J E d Hd Nd. destruct (late_run x o t t' E) as (t1 & t2 & t3 & t4 & t5 & t6 & t7 & [F Hi Ht Hv Hu He Hx Hl HB]). destruct (F W C) as (F1 & F2 & F3 & F4 & F5 & F6). clear F. pose proof (fine_xmlns _ _ _ F6 Hx) as F7. rewrite O in Hi. rewrite J in Hl. cbn in Hl.
  assert (L : later t2 t').
  { apply (later_trans _ t3); [destruct (o_trim_ids o); [now apply later_trim|subst t3; apply later_refl]|]. apply (later_trans _ t4); [destruct (o_remove_version o); [now apply later_version|subst t4; apply later_refl]|].
    apply (later_trans _ t5); [destruct (o_ungroup_defs o); subst t5; [now apply later_ungroup|apply later_refl]|]. apply (later_trans _ t6); [now apply later_empty|]. apply (later_trans _ t7); [now apply (later_xmlns _ _ _ Hx)|]. subst t'. now apply later_default_transform. }
  destruct (lr_node _ _ L d Hd) as (d2 & H2 & K2 & T2 & N2). specialize (N2 Nd). subst t2. unfold remove_unreferenced_ids in H2. rewrite flat_tmap in H2. apply in_map_iff in H2. destruct H2 as (d1 & <- & H1).
  assert (U : referenced t1 (key d1)). { apply referenced_iff. destruct (has_id d1) eqn:Hi; cbn [andb] in N2; [|unfold has_id in Hi; destruct (String.eqb_spec (nid d1) ""); [contradiction|discriminate Hi]]. destruct (is_used (key d1) t1) eqn:Ur; [reflexivity|]. cbn in N2. contradiction. }
  assert (Kd : key d1 = key d) by (rewrite <- K2; destruct (has_id d1 && _); reflexivity). rewrite Kd in U. destruct U as (e & He1 & y & Hy & Ly).
  assert (Ik : In (key d) (keys t')) by (unfold keys; now apply in_map).
  set (r := fun d0 => if has_id d0 && negb (is_used (key d0) t1) then with_id d0 "" else d0) in *.
  assert (Ir : In (r e) (flat (tmap r t1))) by (rewrite flat_tmap; now apply in_map).
  assert (Re : attrs (r e) = attrs e /\ tag (r e) = tag e) by (unfold r; destruct (has_id e && _); auto). destruct Re as [Ra Rt].
  destruct (lr_refs _ _ L (r e) y (key d) Ir) as [(e' & He' & _ & _ & Hy')|Q]; [rewrite Ra; exact Hy|exact Ly|exact Ik|left; exists e'; split; [exact He'|exists y; auto]|].
  right. exists t1, e, y. rewrite Rt in Q. auto 10.
Qed.
Print Assumptions C54_ids_referenced_partial.
(** The exception occurs. *)
Definition few : cleaning_options := {|
  o_remove_unused_defs := false; o_convert_shapes := false; o_remove_title := false; o_remove_desc := false; o_remove_metadata := false;
  o_remove_dupl_linear_gradients := false; o_remove_dupl_radial_gradients := false; o_remove_dupl_fe_gaussian_blur := false;
  o_ungroup_groups := false; o_ungroup_defs := true; o_group_by_style := false; o_merge_gradients := false; o_regroup_gradient_stops := false;
  o_remove_invalid_stops := false; o_remove_invisible_elements := false; o_resolve_use := false; o_remove_version := true;
  o_remove_unreferenced_ids := true; o_trim_ids := true; o_remove_text_attributes := false; o_remove_unused_coordinates := false;
  o_remove_default_attributes := false; o_remove_xmlns_xlink_attribute := true; o_remove_needless_attributes := false;
  o_remove_gradient_attributes := false; o_apply_transform_to_gradients := false; o_apply_transform_to_shapes := false;
  o_paths_to_relative := false; o_remove_unused_segments := false; o_convert_segments := false; o_append_newline := false; o_apply_transform_to_paths := false;
  o_join_style_attributes := JoinNone; o_coordinates_precision := 6; o_properties_precision := 6;
  o_paths_coordinates_precision := 8; o_transforms_precision := 8 |}.
Definition defs_link_doc : tree := doc [el 1 ESvg [] [el 2 EDefs [at_ AClipPath (VFunc 3)] [eli 3 EClipPath "c" [] [el 4 ERect [at_ AWidth (px 2); at_ AHeight (px 3)] []]]; el 5 ERect [] []]].
Theorem C54_all_ids_referenced_refuted : exists t t', well_formed t /\ calm_run lib few t /\ clean_doc lib few t = Some (Ok t') /\
  exists d, In d (flat t') /\ tag d = TEl EClipPath /\ nid d = "a"%string /\ ~ referenced t' (key d).
Proof.
  exists defs_link_doc. eexists. split; [apply well_formed_fine, fine_b_spec; [vm_compute; reflexivity|wfa]|]. split; [|split; [vm_compute; reflexivity|]].
  - intros pre p post t1 Q _. assert (H : In p (filter (enabled few) pipeline)) by (rewrite Q; apply in_or_app; right; now left). apply filter_In in H. destruct H as [_ H]. destruct p; try exact I; discriminate H.
  - eexists. split; [right; right; left; reflexivity|]. split; [reflexivity|]. split; [reflexivity|]. intros (d & Hd & y & Hy & L). cbn in Hd. repeat (destruct Hd as [<-|Hd]; [cbn in Hy; repeat (destruct Hy as [<-|Hy]; [discriminate L|]); destruct Hy|]). destruct Hd.
Qed.
Print Assumptions C54_all_ids_referenced_refuted.

(** An instance: a version, an identity transform, ids of which one is not used, a use element, an xmlns:xlink attribute. *)
Definition final_doc : tree := doc [el 1 ESvg [at_ AVersion (VStr "1.1"); at_ ABaseProfile (VStr "full")] [
  el 2 EDefs [] [eli 3 EClipPath "clip" [] [el 4 ERect [at_ AWidth (px 2); at_ AHeight (px 3)] []]];
  eli 5 ERect "not-used" [at_ ATransform (VTransform t_id); at_ AClipPath (VFunc 3); at_ AWidth (px 2); at_ AHeight (px 3)] [];
  eli 6 ESymbol "symbol" [] [el 7 ECircle [at_ AR (px 2)] []];
  el 8 EUse [at_ AXlinkHref (VLink 6); at_ AX (px 1)] []]].
Example C54_instance : well_formed final_doc /\ calm_run lib few final_doc /\
  exists t', clean_doc lib few final_doc = Some (Ok t') /\
    map nid (filter (fun d => negb (String.eqb (nid d) "")) (flat t')) = ["a"; "b"]%string /\
    (exists s, svg_element t' = Some s /\ map a_name (attrs (data s)) = [AN AXmlnsXlink]) /\
    forallb (fun d => negb (d_has d ATransform)) (flat t') = true.
Proof.
  split; [apply well_formed_fine, fine_b_spec; [vm_compute; reflexivity|wfa]|]. split.
  - intros pre p post t1 Q _. assert (H : In p (filter (enabled few) pipeline)) by (rewrite Q; apply in_or_app; right; now left). apply filter_In in H. destruct H as [_ H]. destruct p; try exact I; discriminate H.
  - destruct (clean_doc lib few final_doc) as [[t'| |]|] eqn:E; [|vm_compute in E; discriminate..]. exists t'. split; [reflexivity|]. vm_compute in E. injection E as <-. split; [reflexivity|]. split; [eexists; split; reflexivity|reflexivity].
Qed.
