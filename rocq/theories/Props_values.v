(** C53: where the attributes of a cleaned document come from. *)
From Coq Require Import List Bool NArith Arith ZArith String Lia QArith Qcanon.
From Verif Require Import Names Num Value Dom DomFacts DomOps Outcome DomRemove APass SpecDom Cli TasksSimple Visit Shapes Transforms Gradients Stops NPass VLoop Inherit SpecInherit Props_inherit JoinStyle Clean SpecClean Props_clean WfAll WfPasses SpecWf Props_wf GradProofs Mild PictureRun SpecValues StillValues StillValuesAll Props_accept.
Import ListNotations.
Local Open Scope nat_scope.

(** * Runs *)
Definition first_part : list pass := [PLinear; PRadial; PStops].
Definition last_part : list pass := [PXmlns; PDefaultTransform; PJoinStyle].
Definition middle_part : list pass :=
  [PFix; PGroupDefs; PRound;
   PTitle; PDesc; PMetadata; PUnusedDefs; PInvalidStops; PGradTransforms; PDuplLinear; PDuplRadial; PDuplBlur; PMerge; PGradTransforms;
   PUngroup; PShapeTransforms; PConvertShapes; PPaths; PInvisible; PRegroupStops; PUngroup; PResolveUse;
   PDefaultAttrs; PTextAttrs; PNeedlessAttrs; PGradAttrs; PUnusedCoords; PUngroup; PGroupStyle;
   PIds; PTrimIds; PVersion; PUngroupDefs; PEmptyDefs].
Lemma parts : pipeline = first_part ++ PInherit :: middle_part ++ last_part. Proof. reflexivity. Qed.
Lemma runs_cons x o p l t t' : runs x o (p :: l) t (Some (Ok t')) -> exists t1, perform x o p t = Some (Ok t1) /\ runs x o l t1 (Some (Ok t')).
Proof. intros R. inversion R; subst; try discriminate. eauto. Qed.
Lemma filter_head o l : filter (enabled o) (PInherit :: l) = PInherit :: filter (enabled o) l. Proof. reflexivity. Qed.
Lemma filter_first o : filter (enabled o) first_part = first_part. Proof. reflexivity. Qed.
Lemma filter_last o : filter (enabled o) last_part = last_part. Proof. reflexivity. Qed.
Lemma split_run x o t t' : clean_doc x o t = Some (Ok t') -> exists t3 t4 t5,
  runs x o first_part t (Some (Ok t3)) /\ resolve_inherit t3 = Ok t4 /\ runs x o (filter (enabled o) middle_part) t4 (Some (Ok t5)) /\ runs x o last_part t5 (Some (Ok t')).
Proof.
  intros E. destruct (preclean_checks t) as [[]|e|] eqn:P; [|unfold clean_doc in E; rewrite P in E; discriminate..]. pose proof (proj2 (C45_pipeline x o t P _) eq_refl) as R. rewrite E, parts, filter_app in R.
  destruct (runs_app _ _ _ _ _ _ R t' eq_refl) as (t3 & R1 & R2). rewrite (filter_head o) in R2. destruct (runs_cons _ _ _ _ _ _ R2) as (t4 & E4 & R4). rewrite filter_app in R4. destruct (runs_app _ _ _ _ _ _ R4 t' eq_refl) as (t5 & R5 & R6). rewrite filter_first in R1. rewrite filter_last in R6. exists t3, t4, t5. change (Some (resolve_inherit t3) = Some (Ok t4)) in E4. injection E4 as E4. split; [exact R1|]. split; [exact E4|]. split; [exact R5|exact R6].
Qed.
Lemma no_last l : ~ In PXmlns l -> ~ In PJoinStyle l -> forall o, ~ In PXmlns (filter (enabled o) l) /\ ~ In PJoinStyle (filter (enabled o) l).
Proof. intros A B o. rewrite !filter_In. tauto. Qed.
(** The last steps *)
Lemma in_upd k f t d : In d (flat (upd k f t)) -> exists x, In x (flat t) /\ d = (if Nat.eqb (key x) k then f x else x).
Proof. unfold upd. rewrite flat_tmap. intros H. apply in_map_iff in H. destruct H as (x & <- & Hx). eauto. Qed.
Definition added (m : style_join_mode) (y : attr) : Prop :=
  (m <> JoinNone /\ a_name y = AN AStyle /\ exists s, a_val y = VStr s) \/ (a_name y = AN AXmlnsXlink /\ a_val y = VStr xlink_ns).
Lemma join_from wr m t d y : In d (flat (join_style_attributes wr m t)) -> In y (attrs d) -> (exists d0, In d0 (flat t) /\ In y (attrs d0)) \/ (m <> JoinNone /\ a_name y = AN AStyle /\ exists s, a_val y = VStr s).
Proof.
  intros Hd Hy. assert (G : m <> JoinNone -> In d (flat (tmap (fun d => if wants_join m d then join_node wr d else d) t)) -> (exists d0, In d0 (flat t) /\ In y (attrs d0)) \/ (m <> JoinNone /\ a_name y = AN AStyle /\ exists s, a_val y = VStr s)).
  { intros N H. rewrite flat_tmap in H. apply in_map_iff in H. destruct H as (x & <- & Hx). destruct (wants_join m x); [|eauto]. cbn in Hy. apply StillAll.rm_list_from in Hy. apply set_attr_from in Hy. destruct Hy as [Hy| ->]; [eauto|right; cbn; eauto]. }
  unfold join_style_attributes in Hd. destruct m; [left; eauto|apply G; [discriminate|exact Hd]|apply G; [discriminate|exact Hd]].
Qed.
Lemma last_from x o t t' : runs x o last_part t (Some (Ok t')) -> forall d y, In d (flat t') -> In y (attrs d) -> (exists d0, In d0 (flat t) /\ In y (attrs d0)) \/ added (o_join_style_attributes o) y.
Proof.
  intros R d y Hd Hy. unfold last_part in R. apply runs_cons in R. destruct R as (t1 & E1 & R). apply runs_cons in R. destruct R as (t2 & E2 & R). apply runs_cons in R. destruct R as (t3 & E3 & R). inversion R; subst. cbn in E1, E2, E3. injection E3 as <-. injection E2 as <-. injection E1 as E1.
  destruct (join_from _ _ _ _ _ Hd Hy) as [(d2 & H2 & Hy2)|H]; [|right; now left]. unfold remove_default_transform in H2. rewrite flat_tmap in H2. apply in_map_iff in H2. destruct H2 as (d1 & <- & H1).
  assert (Hy1 : In y (attrs d1)) by (destruct (is_default_transform _); [cbn in Hy2; unfold rm_attr in Hy2; apply filter_In in Hy2; tauto|exact Hy2]). clear Hy2.
  unfold fix_xmlns_attribute, on_svg in E1. destruct (svg_element t) as [s|]; [|discriminate]. destruct (_ && _ && _); [|destruct (_ && _)]; injection E1 as <-; [| |left; eauto].
  - apply in_upd in H1. destruct H1 as (d0 & H0 & ->). left. exists d0. split; [exact H0|]. destruct (Nat.eqb _ _); [cbn in Hy1; unfold rm_attr in Hy1; apply filter_In in Hy1; tauto|exact Hy1].
  - apply in_upd in H1. destruct H1 as (d0 & H0 & ->). destruct (Nat.eqb _ _); [|left; eauto]. cbn in Hy1. apply set_attr_from in Hy1. destruct Hy1 as [Hy1| ->]; [left; eauto|right; right; cbn; auto].
Qed.
Definition dupl_on (o : cleaning_options) : bool := o_remove_dupl_linear_gradients o || o_remove_dupl_radial_gradients o || o_remove_dupl_fe_gaussian_blur o.
Lemma relinks_on o l : (forall p, In p (filter (enabled o) l) -> In p [PDuplLinear; PDuplRadial; PDuplBlur] -> dupl_on o = true) /\ (In PRegroupStops (filter (enabled o) l) -> o_regroup_gradient_stops o = true).
Proof.
  split; [intros p H Q|intros H]; apply filter_In in H; destruct H as [_ H]; [|exact H]. unfold dupl_on. cbn in Q. destruct Q as [<-|[<-|[<-|[]]]]; cbn in H; rewrite H, ?orb_true_r; reflexivity.
Qed.
Lemma first_calm p : In p first_part -> ~ In p [PDuplLinear; PDuplRadial; PDuplBlur; PRegroupStops].
Proof. cbn. intuition (subst; discriminate). Qed.
Lemma first_runs (P : aname -> value -> Prop) : (forall a v, made a = true -> computed v = true -> P (AN a) v) -> (forall a v w, P (AN a) v -> computed w = true -> P (AN a) w) ->
  (forall a v, P (AN a) (VPre Vid_currentColor) -> P (AN AColor) v -> P (AN a) v) -> (forall v, (P (AN ACx) v -> P (AN AFx) v) /\ (P (AN ACy) v -> P (AN AFy) v)) ->
  forall x o t t3, runs x o first_part t (Some (Ok t3)) -> alln P t -> alln P t3.
Proof.
  intros H1 H2 H3 H4 x o t t3 R A.
  refine (n_runs P H1 H2 H3 H4 false false (fun Q => False_ind _ (diff_false_true Q)) (fun Q => False_ind _ (diff_false_true Q)) x o first_part _ _ _ _ t (Some (Ok t3)) R t3 eq_refl A); [intros p Hp Q; exfalso; apply (first_calm p Hp); cbn in *; tauto|cbn; intuition discriminate..].
Qed.
Lemma through x o (P : aname -> value -> Prop) t t' :
  (forall a v, made a = true -> computed v = true -> P (AN a) v) -> (forall a v w, P (AN a) v -> computed w = true -> P (AN a) w) ->
  (forall a v, P (AN a) (VPre Vid_currentColor) -> P (AN AColor) v -> P (AN a) v) -> (forall v, (P (AN ACx) v -> P (AN AFx) v) /\ (P (AN ACy) v -> P (AN AFy) v)) ->
  (dupl_on o = true -> forall a v w, P (AN a) v -> reference v -> reference w -> P (AN a) w) -> (o_regroup_gradient_stops o = true -> forall k, P (AN AXlinkHref) (VLink k)) ->
  clean_doc x o t = Some (Ok t') -> alln P t -> forall d y, In d (flat t') -> In y (attrs d) -> P (a_name y) (a_val y) \/ added (o_join_style_attributes o) y.
Proof.
  intros H1 H2 H3 H4 H5 H6 E A d y Hd Hy. destruct (split_run x o t t' E) as (t3 & t4 & t5 & R1 & E4 & R5 & R6).
  assert (A3 : alln P t3) by (exact (first_runs P H1 H2 H3 H4 x o t t3 R1 A)).
  assert (A4 : alln P t4) by exact (n_inherit P H3 _ _ E4 A3).
  assert (A5 : alln P t5). { destruct (no_last middle_part) with (o := o) as [N1 N2]; [cbn; intuition discriminate|cbn; intuition discriminate|]. destruct (relinks_on o middle_part) as [M1 M2]. exact (n_runs P H1 H2 H3 H4 _ _ H5 H6 x o _ M1 M2 N1 N2 _ _ R5 t5 eq_refl A4). }
  destruct (last_from x o t5 t' R6 d y Hd Hy) as [(d0 & H0 & Hy0)|H]; [left|now right]. exact (A5 d0 H0 y Hy0).
Qed.
Lemma made_in a : made a = true <-> In a made_names.
Proof. unfold made. rewrite existsb_exists. split; [intros (b & Hb & E); destruct (aid_eqb_spec a b); [now subst|discriminate]|intros H; exists a; split; [exact H|destruct (aid_eqb_spec a a); congruence]]. Qed.

Lemma ref_computed v : reference v -> computed v = false. Proof. intros (k & [-> | ->]); reflexivity. Qed.
(** * The theorems. Every attribute of the output that is not the joined style or the declaration of the xlink namespace is
    accounted for: its name is in the input or in a fixed list, and its value is calculated, or is a text, a keyword or a
    reference of the input, copied from an attribute of the same name or, for currentColor and the focus, from the attribute that SVG
    says, or is a redirected reference. *)
Theorem C53_accounted x o t t' : clean_doc x o t = Some (Ok t') -> forall d y, In d (flat t') -> In y (attrs d) ->
  accounted o t (a_name y) (a_val y) \/
  (a_name y = AN AStyle /\ o_join_style_attributes o <> JoinNone /\ exists s, a_val y = VStr s) \/
  (a_name y = AN AXmlnsXlink /\ a_val y = VStr "http://www.w3.org/1999/xlink").
Proof.
  intros E d y Hd Hy. assert (S : forall n, source t n n) by (left; reflexivity).
  destruct (through x o (accounted o t) t t') with (d := d) (y := y) as [H|[(A & B & C)|[A B]]]; auto.
  - intros a v M C. split; [right; exists a; split; [reflexivity|now apply made_in]|left; eauto].
  - intros a v w [N _] C. split; [exact N|left; eauto].
  - intros a v [N [[_ C]|[(m & Sm & Om)|[(k & [C|C]) _]]]] [_ V]; try discriminate C. split; [exact N|].
    assert (Sc : source t (AN a) (AN AColor)) by (right; left; split; [eauto|split; [reflexivity|eauto]]).
    assert (Up : forall m', source t (AN AColor) m' -> m' = AN AColor) by (intros m' [-> |[(_ & -> & _)|[[Q _]|[Q _]]]]; try discriminate Q; reflexivity).
    destruct V as [[_ V]|[(m' & Sm' & Om')|(Rv & _ & [(D & m' & w & Sm' & Ow & Rw)|[_ Q]])]]; [left; eauto|right; left|right; right|discriminate Q].
    + exists (AN AColor). split; [exact Sc|]. rewrite (Up _ Sm') in Om'. exact Om'.
    + split; [exact Rv|]. split; [eauto|left]. split; [exact D|]. exists (AN AColor), w. rewrite (Up _ Sm') in Ow. auto.
  - intros v.
    assert (Up : forall c f m, (c = ACx /\ f = AFx) \/ (c = ACy /\ f = AFy) -> source t (AN c) m -> source t (AN f) m).
    { intros c f m Cf [-> |[(_ & -> & Q)|[[Q _]|[Q _]]]]; [|right; left; eauto|destruct Cf as [[-> ->]|[-> ->]]; discriminate Q..]. right; right. destruct Cf as [[-> ->]|[-> ->]]; auto. }
    assert (Go : forall c f, (c = ACx /\ f = AFx) \/ (c = ACy /\ f = AFy) -> accounted o t (AN c) v -> accounted o t (AN f) v).
    { intros c f Cf [_ V]. split; [right; exists f; split; [reflexivity|apply made_in; destruct Cf as [[-> ->]|[-> ->]]; reflexivity]|].
      destruct V as [[_ V]|[(m' & Sm' & Om')|(Rv & _ & [(D & m' & w & Sm' & Ow & Rw)|[_ Q]])]]; [left; eauto|right; left; exists m'; split; [exact (Up c f m' Cf Sm')|exact Om']|right; right|destruct Cf as [[-> ->]|[-> ->]]; discriminate Q].
      split; [exact Rv|]. split; [eauto|left]. split; [exact D|]. exists m', w. split; [exact (Up c f m' Cf Sm')|auto]. }
    split; apply Go; auto.
  - intros D a v w [N V] Rv Rw. split; [exact N|]. right; right. split; [exact Rw|]. split; [eauto|].
    destruct V as [[_ V]|[(m' & Sm' & Om')|(_ & _ & [(_ & m' & w' & Sm' & Ow & Rw')|Q])]]; [rewrite (ref_computed v Rv) in V; discriminate V|left; split; [exact D|]; exists m', v; auto|left; split; [exact D|]; exists m', w'; auto|right; exact Q].
  - intros Rg k. split; [right; exists AXlinkHref; split; [reflexivity|apply made_in; reflexivity]|]. right; right. split; [exists k; now left|]. split; [eauto|right; auto].
  - intros d0 Hd0 y0 Hy0. split; [left; exists d0, y0; auto|]. right; left. exists (a_name y0). split; [apply S|exists d0, y0; auto].
Qed.
Print Assumptions C53_accounted.
(** No attribute name is made up. *)
Theorem C53_no_new_names x o t t' : clean_doc x o t = Some (Ok t') -> forall d y, In d (flat t') -> In y (attrs d) ->
  has_name_in t (a_name y) \/ exists a, a_name y = AN a /\ In a (AStyle :: AXmlnsXlink :: made_names).
Proof.
  intros E d y Hd Hy. destruct (C53_accounted x o t t' E d y Hd Hy) as [[[H|(a & Ea & Ha)] _]|[(A & _)|[A _]]]; [now left|right..].
  - exists a. cbn. auto.
  - exists AStyle. cbn. auto.
  - exists AXmlnsXlink. cbn. auto.
Qed.
Print Assumptions C53_no_new_names.
(** No unknown (not SVG) attribute is made up or changed. *)
Theorem C53_unknown_attributes x o t t' : clean_doc x o t = Some (Ok t') -> forall d y s, In d (flat t') -> In y (attrs d) -> a_name y = ANx s ->
  occurs_in t (ANx s) (a_val y).
Proof.
  intros E d y s Hd Hy En. destruct (C53_accounted x o t t' E d y Hd Hy) as [[_ V]|[(A & _)|[A _]]]; [|congruence..]. rewrite En in V. assert (Up : forall m, source t (ANx s) m -> m = ANx s) by (intros m [-> |[((a & Q) & _)|[[Q _]|[Q _]]]]; try discriminate Q; reflexivity).
  destruct V as [[(a & Q) _]|[(m & Sm & Om)|V]]; [discriminate Q|now rewrite (Up m Sm) in Om|]. destruct V as (_ & (a & Q) & _). discriminate Q.
Qed.
Print Assumptions C53_unknown_attributes.
(** No keyword is made up. *)
Theorem C53_no_new_words x o t t' : clean_doc x o t = Some (Ok t') -> forall d y w, In d (flat t') -> In y (attrs d) -> a_val y = VPre w ->
  In w made_words \/ exists n, occurs_in t n (VPre w).
Proof.
  intros E d y w Hd Hy Ev. destruct (C53_accounted x o t t' E d y Hd Hy) as [[_ [[_ V]|[(m & _ & Om)|[(k & [V|V]) _]]]]|[(_ & _ & s & A)|[_ A]]]; [| |congruence..]; rewrite Ev in *; [left|right; eauto].
  cbn in V. rewrite !orb_true_iff in V. cbn. destruct V as [V|[V|[V|[V|V]]]]; try discriminate V; (destruct (vid_eqb_spec w Vid_none); [auto|]); (destruct (vid_eqb_spec w Vid_pad); [auto|]); (destruct (vid_eqb_spec w Vid_objectBoundingBox); [auto|]); (destruct (vid_eqb_spec w Vid_userSpaceOnUse); [auto|]); discriminate V.
Qed.
Print Assumptions C53_no_new_words.
(** No text is made up, and a text stays in attributes of its name. *)
Theorem C53_no_new_texts x o t t' : clean_doc x o t = Some (Ok t') -> forall d y s, In d (flat t') -> In y (attrs d) -> a_val y = VStr s ->
  (exists m, source t (a_name y) m /\ occurs_in t m (VStr s)) \/
  (a_name y = AN AStyle /\ o_join_style_attributes o <> JoinNone) \/ (a_name y = AN AXmlnsXlink /\ s = "http://www.w3.org/1999/xlink"%string).
Proof.
  intros E d y s Hd Hy Ev. destruct (C53_accounted x o t t' E d y Hd Hy) as [[_ [[_ V]|[V|[(k & [V|V]) _]]]]|[(A & B & _)|[A B]]]; try rewrite Ev in V; [discriminate V|now left|discriminate V|discriminate V|auto|right; right; split; [exact A|congruence]].
Qed.
Print Assumptions C53_no_new_texts.

(** No reference is made up: without merging of duplicates and regrouping of stops, every reference of the output stood in
    the input in an attribute of the same name (or of a name it may be copied from). *)
Theorem C53_no_new_references x o t t' : o_remove_dupl_linear_gradients o = false -> o_remove_dupl_radial_gradients o = false ->
  o_remove_dupl_fe_gaussian_blur o = false -> o_regroup_gradient_stops o = false ->
  clean_doc x o t = Some (Ok t') -> forall d y, In d (flat t') -> In y (attrs d) -> reference (a_val y) ->
  exists m, source t (a_name y) m /\ occurs_in t m (a_val y).
Proof.
  intros O1 O2 O3 O4 E d y Hd Hy Rv. destruct (C53_accounted x o t t' E d y Hd Hy) as [[_ [[_ V]|[V|(_ & _ & [[V _]|[V _]])]]]|[(_ & _ & s & A)|[_ A]]]; [rewrite (ref_computed _ Rv) in V; discriminate V|exact V|rewrite O1, O2, O3 in V; discriminate V|congruence|..]; destruct Rv as (k & [Q|Q]); rewrite Q in A; discriminate A.
Qed.
Print Assumptions C53_no_new_references.
(** With all options: a reference stands where the input has a reference, or it is the template of a gradient. *)
Theorem C53_references_stay x o t t' : clean_doc x o t = Some (Ok t') -> forall d y, In d (flat t') -> In y (attrs d) -> reference (a_val y) ->
  (exists m w, source t (a_name y) m /\ occurs_in t m w /\ reference w) \/ a_name y = AN AXlinkHref.
Proof.
  intros E d y Hd Hy Rv. destruct (C53_accounted x o t t' E d y Hd Hy) as [[_ [[_ V]|[(m & V & W)|(_ & _ & [[_ V]|[_ V]])]]]|[(_ & _ & s & A)|[_ A]]]; [rewrite (ref_computed _ Rv) in V; discriminate V|left; eauto|left; exact V|right; exact V|..]; destruct Rv as (k & [Q|Q]); rewrite Q in A; discriminate A.
Qed.
Print Assumptions C53_references_stay.

(** * The keywords inherit and currentColor are not in the output. *)
Lemma check_same t a def d d' : check_attr t a def d = Ok d' -> key d' = key d /\ tag d' = tag d.
Proof. unfold check_attr. destruct (d_has d a); [intros E; now injection E as <-|]. destruct (lookup _ t a d); [| |discriminate]; intros E; injection E as <-; [auto|destruct def; auto]. Qed.
Lemma linear_same t d d' : resolve_linear_node t d = Ok d' -> key d' = key d /\ tag d' = tag d.
Proof. intros H. unfold resolve_linear_node in H. repeat match goal with X : Outcome.bind (check_attr _ _ _ _) _ = Ok _ |- _ => let d := fresh "d" in let E := fresh "E" in apply bind_ok in X; destruct X as (d & E & X) end. repeat match goal with X : check_attr _ _ _ _ = Ok _ |- _ => apply check_same in X end. intuition congruence. Qed.
Lemma radial_same t d d' : resolve_radial_node t d = Ok d' -> key d' = key d /\ tag d' = tag d.
Proof. intros H. unfold resolve_radial_node in H. cbv zeta in H. repeat match goal with X : Outcome.bind (check_attr _ _ _ _) _ = Ok _ |- _ => let d := fresh "d" in let E := fresh "E" in apply bind_ok in X; destruct X as (d & E & X) end. repeat match goal with X : check_attr _ _ _ _ = Ok _ |- _ => apply check_same in X end. intuition congruence. Qed.
Lemma vloop_rest e f ks : (forall t d d', f t d = Ok d' -> key d' = key d /\ tag d' = tag d) -> forall t t', NoDup (keys t) -> (forall d, In d (flat t) -> In (key d) ks -> tag d = TEl e) ->
  vloop f ks t = Ok t' -> forall d', In d' (flat t') -> tag d' <> TEl e -> In d' (flat t).
Proof.
  intros F. induction ks as [|k ks IH]; intros t t' N A E d' Hd' Nt; cbn in E; [now injection E as <-|]. destruct (find_data k t) as [d|] eqn:Ed; [|apply (IH t t' N (fun d Hd Hk => A d Hd (or_intror Hk)) E d' Hd' Nt)]. apply bind_ok in E. destruct E as (x & E1 & E). destruct (F _ _ _ E1) as [Kx Tx]. apply find_data_some in Ed. destruct Ed as [Hd Kd].
  assert (Te : tag d = TEl e) by (apply A; [exact Hd|left; congruence]).
  assert (U : forall y, In y (flat (upd k (fun _ => x) t)) -> y = x \/ In y (flat t)). { intros y Hy. apply in_upd in Hy. destruct Hy as (z & Hz & ->). destruct (Nat.eqb _ _); auto. }
  assert (Nd : NoDup (keys (upd k (fun _ => x) t))). { unfold upd. rewrite keys_tmap; [exact N|]. intros z. destruct (Nat.eqb_spec (key z) k); congruence. }
  destruct (U d') as [-> |H]; [|exfalso; congruence|exact H]. apply (IH _ t' Nd); auto. intros y Hy Hk. destruct (U y Hy) as [-> |Hy']; [congruence|]. apply A; [exact Hy'|now right].
Qed.
Definition texts_only (d : ndata) : Prop := (forall e, tag d <> TEl e) -> forall y, In y (attrs d) -> ~ keyword (a_val y).
Lemma grad_texts e f ks t t' : (forall t d d', f t d = Ok d' -> key d' = key d /\ tag d' = tag d) -> NoDup (keys t) -> gen_order e t = Some ks -> vloop f ks t = Ok t' -> (forall d, In d (flat t) -> texts_only d) -> forall d, In d (flat t') -> texts_only d.
Proof.
  intros F N G E H d Hd Nt. assert (H0 : In d (flat t)) by exact (vloop_rest e f ks F t t' N (order_kind e t ks N G) E d Hd (Nt e)). exact (H d H0 Nt).
Qed.
Definition KT (d d' : ndata) : Prop := key d' = key d /\ tag d' = tag d /\ StillValues.K d d'.
Lemma KT_refl d : KT d d. Proof. split; [reflexivity|]. split; [reflexivity|apply StillValues.K_refl]. Qed.
Lemma KT_trans a b c : KT a b -> KT b c -> KT a c. Proof. intros (A1 & A2 & A3) (B1 & B2 & B3). split; [congruence|]. split; [congruence|exact (StillValues.K_trans _ _ _ A3 B3)]. Qed.
Lemma stop_KT i d d' : resolve_stop i d = Ok d' -> KT d d'.
Proof.
  intros E. pose proof (StillValues.stop_K i d d' E) as Kd. split; [exact (StillValues.K_key _ _ Kd)|]. split; [|exact Kd]. unfold resolve_stop in E. apply bind_ok in E. destruct E as (d1 & E1 & E). injection E as <-.
  assert (X : tag d1 = tag d) by (destruct (d_get d AOffset) as [[]|]; try (destruct (Nat.eqb i 0); [injection E1 as <-; reflexivity|discriminate]); injection E1 as <-; destruct (unit_eqb _ _); reflexivity). clear E1 Kd. destruct (d_has d1 AStopColor); destruct (d_has _ AStopOpacity); exact X.
Qed.
Lemma stops_texts t t' : resolve_stop_attributes t = Ok t' -> (forall d, In d (flat t) -> texts_only d) -> forall d, In d (flat t') -> texts_only d.
Proof.
  intros E H. assert (S : shr KT t t').
  { revert E. apply (shr_kpass (okn := StillValues.anyn) (fun d _ => KT_refl d) KT_trans (fun _ _ _ _ => I)); [|apply StillValues.any_all]. clear. intros d l r _ _. unfold resolve_stop_visit. destruct (is_grad d).
    - intros E. apply bind_ok in E. destruct E as (l' & E & Q). injection Q as <-. cbn. split; [apply KT_refl|]. revert E. generalize 0. revert l'. induction l as [|x l IH]; intros l' i E; cbn in E; [injection E as <-; constructor|].
      apply bind_ok in E. destruct E as (x' & E1 & E). apply bind_ok in E. destruct E as (r & E2 & E). injection E as <-. constructor; [exact (stop_KT _ _ _ E1)|exact (IH _ _ E2)].
    - intros E. injection E as <-. cbn. split; [apply KT_refl|]. induction l; constructor; auto using KT_refl. }
  intros d' Hd' Nt y Hy. assert (C : exists d, In d (flat t) /\ KT d d').
  { rewrite <- (map_snd_ctx [] t'), in_map_iff in Hd'. destruct Hd' as (q' & <- & Hq). destruct (shr_ctx KT t t' [] [] q' S (Forall2_nil _) Hq) as (q & Hq0 & R & _). exists (snd q). split; [|exact R]. rewrite <- (map_snd_ctx [] t). now apply in_map. }
  destruct C as (d & Hd & _ & Td & [_ _ _ Ka]). specialize (Ka y Hy). assert (Q : computed (a_val y) = true -> ~ keyword (a_val y)) by (intros Q [W|W]; rewrite W in Q; discriminate Q).
  destruct Ka as [(z & Hz & _ & [V|[_ V]])|[_ V]]; [rewrite <- V; apply (H d Hd); [intros e W; apply (Nt e); congruence|exact Hz]|auto|auto].
Qed.
Lemma calm_first x o t t3 : fine t -> runs x o first_part t (Some (Ok t3)) -> fine t3.
Proof.
  intros F R. apply (runs_prefix x o first_part t _ R t3 eq_refl F). intros pre p post t1 Q _. assert (Hp : In p first_part) by (rewrite Q; apply in_or_app; right; now left). cbn in Hp. destruct Hp as [<-|[<-|[<-|[]]]]; exact I.
Qed.
Theorem C53_no_keywords x o t t' : well_formed t -> keywords_as_parsed t -> clean_doc x o t = Some (Ok t') ->
  forall d y, In d (flat t') -> In y (attrs d) -> a_val y <> VPre Vid_inherit /\ a_val y <> VPre Vid_currentColor.
Proof.
  intros W KP E d y Hd Hy. rewrite well_formed_fine in W. destruct (split_run x o t t' E) as (t3 & t4 & t5 & R1 & E4 & R5 & R6).
  assert (C0 : forall w, computed w = true -> ~ keyword w) by (intros w C [Q|Q]; rewrite Q in C; discriminate C).
  pose proof (calm_first x o t t3 W R1) as F3.
  (* color is not currentColor *)
  set (P1 := fun (n : aname) (v : value) => n = AN AColor -> v <> VPre Vid_currentColor).
  assert (A3 : alln P1 t3).
  { refine (first_runs P1 _ _ _ _ x o t t3 R1 _); unfold P1.
    - intros a v M _ Q. injection Q as ->. discriminate M.
    - intros a v w _ C _ ->. discriminate C.
    - intros a v H _ Q. exfalso. exact (H Q eq_refl).
    - intros v. split; intros _ Q; discriminate Q.
    - intros d0 H0 y0 Hy0 En Ev. destruct (KP d0 y0 H0 Hy0 (or_intror Ev)) as (_ & _ & N). apply N. auto. }
  (* names that SVG does not know *)
  set (P2 := fun (n : aname) (v : value) => (forall a, n <> AN a) -> ~ keyword v).
  assert (K2 : forall s, alln P2 s -> forall s', (runs x o first_part s (Some (Ok s')) \/ resolve_inherit s = Ok s') -> alln P2 s').
  { intros s As s' Q. assert (H1 : forall a v, made a = true -> computed v = true -> P2 (AN a) v) by (intros a v _ _ N; contradiction (N a eq_refl)).
    assert (H2 : forall a v w, P2 (AN a) v -> computed w = true -> P2 (AN a) w) by (intros a v w _ C _; now apply C0).
    assert (H3 : forall a v, P2 (AN a) (VPre Vid_currentColor) -> P2 (AN AColor) v -> P2 (AN a) v) by (intros a v H _ N; exfalso; apply (H N); right; reflexivity).
    assert (H4 : forall v, (P2 (AN ACx) v -> P2 (AN AFx) v) /\ (P2 (AN ACy) v -> P2 (AN AFy) v)) by (intros v; split; intros _ N; contradiction (N _ eq_refl)).
    destruct Q as [Q|Q]; [|exact (n_inherit P2 H3 _ _ Q As)]. exact (first_runs P2 H1 H2 H3 H4 x o s s' Q As). }
  assert (B0 : alln P2 t). { intros d0 H0 y0 Hy0 N Kw. destruct (KP d0 y0 H0 Hy0 Kw) as (_ & (a & Ea) & _). exact (N a Ea). }
  pose proof (K2 t B0 t3 (or_introl R1)) as B3. pose proof (K2 t3 B3 t4 (or_intror E4)) as B4.
  (* nodes that are not SVG elements *)
  assert (X3 : forall d0, In d0 (flat t3) -> texts_only d0).
  { unfold first_part in R1. apply runs_cons in R1. destruct R1 as (t1 & E1 & R1). apply runs_cons in R1. destruct R1 as (t2 & E2 & R1). apply runs_cons in R1. destruct R1 as (t3' & E3 & R1). assert (t3' = t3) by (inversion R1; congruence). subst t3'. cbn [perform] in E1, E2, E3. injection E3 as E3. apply (stops_texts _ _ E3).
    assert (W1 : fine t1) by (apply (fine_perform x o PLinear t t1 W I); exact E1).
    unfold resolve_radial_gradient_attributes in E2. destruct (gen_order ERadialGradient t1) as [ks2|] eqn:G2; [|discriminate E2]. injection E2 as E2. apply (grad_texts _ _ _ _ _ radial_same (wf_keys _ (fine_wf _ W1)) G2 E2).
    unfold resolve_linear_gradient_attributes in E1. destruct (gen_order ELinearGradient t) as [ks1|] eqn:G1; [|discriminate E1]. injection E1 as E1. apply (grad_texts _ _ _ _ _ linear_same (wf_keys _ (fine_wf _ W)) G1 E1).
    intros d0 H0 Nt y0 Hy0 Kw. destruct (KP d0 y0 H0 Hy0 Kw) as ((e & Te) & _). exact (Nt e Te). }
  assert (T3 : Forall typed (flat t3)).
  { apply Forall_forall. intros d0 H0. pose proof (proj1 (Forall_forall _ _) (fine_wfa _ F3) d0 H0) as Na. split; [exact Na|].
    assert (G : forall a v, d_get d0 a = Some v -> exists z, In z (attrs d0) /\ a_name z = AN a /\ a_val z = v). { intros a v Q. unfold d_get, get_value in Q. destruct (get_attr (attrs d0) a) as [z|] eqn:Gz; [|discriminate]. injection Q as <-. unfold get_attr in Gz. apply find_some in Gz. destruct Gz as [Hz Nz]. apply has_name_eq in Nz. eauto. }
    split; [intros Q; destruct (G _ _ Q) as (z & Hz & Nz & Vz); exact (A3 d0 H0 z Hz Nz Vz)|]. intros Ns a.
    assert (Nt : forall e, tag d0 <> TEl e) by (intros e Q; unfold is_svg_el in Ns; rewrite Q in Ns; discriminate Ns).
    split; intros Q; destruct (G _ _ Q) as (z & Hz & Nz & Vz); apply (X3 d0 H0 Nt z Hz); rewrite Vz; [now left|now right]. }
  pose proof (C15_no_keywords t3 t4 T3 E4) as NK. rewrite Forall_forall in NK.
  assert (F4 : fine t4) by (apply (fine_perform x o PInherit t3 t4 F3 I); cbn [perform]; now rewrite E4).
  set (P3 := fun (n : aname) (v : value) => ~ keyword v).
  assert (A4 : alln P3 t4).
  { intros d0 H0 y0 Hy0. destruct (a_name y0) as [a|s] eqn:En; [|apply (B4 d0 H0 y0 Hy0); intros a Q; congruence]. pose proof (proj1 (Forall_forall _ _) (fine_wfa _ F4) d0 H0) as Na. assert (G : d_get d0 a = Some (a_val y0)) by (unfold d_get, get_value; now rewrite (get_attr_in _ _ _ Na Hy0 En)). destruct (NK d0 H0 a) as [N1 N2]. intros [Q|Q]; rewrite G, Q in *; [apply N1|apply N2]; reflexivity. }
  assert (A5 : alln P3 t5). { destruct (no_last middle_part) with (o := o) as [N1 N2]; [cbn; intuition discriminate|cbn; intuition discriminate|]. 
    refine (n_runs P3 _ _ _ _ true true _ _ x o (filter (enabled o) middle_part) _ _ N1 N2 t4 (Some (Ok t5)) R5 t5 eq_refl A4); auto; unfold P3; auto; [intros _ a v w _ _ (k & [-> | ->]) [Q|Q]; discriminate Q|intros _ k [Q|Q]; discriminate Q]. }
  destruct (last_from x o t5 t' R6 d y Hd Hy) as [(d0 & H0 & Hy0)|[(_ & _ & s & Es)|[_ Es]]]; [|split; congruence..]. pose proof (A5 d0 H0 y Hy0) as Q. unfold P3, keyword in Q. tauto.
Qed.
Print Assumptions C53_no_keywords.

(** An instance: inherit, currentColor, a text, an unknown attribute, an element that SVG does not know, a radial gradient
    without a focus. Every keyword is replaced by a color, and the unknown attributes are as they were. *)
Definition value_doc : tree := doc [el 1 ESvg [at_ AFill (VColor 1 2 3); at_ AColor (VColor 4 5 6)] [
  el 2 EG [at_ AStroke (VPre Vid_currentColor)] [
    el 3 ERect [at_ AWidth (px 2); at_ AHeight (px 2); at_ AFill (VPre Vid_inherit); at_ AStroke (VPre Vid_inherit); At (ANx "data-a") (VStr "b") true] [];
    el 4 EText [at_ AFontFamily (VStr "Verdana")] [txt 5 "x"]];
  eli 6 ERadialGradient "r" [at_ ACx (px 3)] [stop_ 7 0; stop_ 8 1];
  el 9 ERect [at_ AWidth (px 2); at_ AHeight (px 2); at_ AFill (VFunc 6)] [];
  T (ND 10 (TOtherEl "note") "" [At (ANx "by") (VStr "me") true]) []]].
Definition occurs_b (t : tree) (n : aname) (v : value) : bool := existsb (fun d => existsb (fun x => aname_eqb (a_name x) n && value_eqb (a_val x) v) (attrs d)) (flat t).
Lemma occurs_b_spec t n v : occurs_b t n v = true -> occurs_in t n v.
Proof.
  unfold occurs_b. intros H. apply existsb_exists in H. destruct H as (d & Hd & H). apply existsb_exists in H. destruct H as (y & Hy & H). apply andb_true_iff in H. destruct H as [A B]. exists d, y. split; [exact Hd|]. split; [exact Hy|]. destruct (aname_eqb_spec (a_name y) n); [|discriminate A]. destruct (value_eqb_spec (a_val y) v); [|discriminate B]. auto.
Qed.
Example C53_instance : well_formed value_doc /\ keywords_as_parsed value_doc /\ (exists n, occurs_in value_doc n (VPre Vid_currentColor)) /\
  exists t', clean_doc lib all_on value_doc = Some (Ok t') /\ occurs_in t' (AN AStroke) (VColor 4 5 6) /\ occurs_in t' (AN AFontFamily) (VStr "Verdana") /\ occurs_in t' (ANx "data-a") (VStr "b") /\ occurs_in t' (ANx "by") (VStr "me") /\ occurs_in t' (AN AFill) (VFunc 6).
Proof.
  assert (F : fine value_doc) by (apply fine_b_spec; [vm_compute; reflexivity|wfa]). split; [now apply well_formed_fine|].
  split. { intros d y Hd Hy Kw. cbn in Hd. repeat (destruct Hd as [<-|Hd]; [cbn in Hy; repeat (destruct Hy as [<-|Hy]; [destruct Kw as [Q|Q]; cbn in Q; try discriminate Q; (split; [eexists; reflexivity|]; split; [eexists; reflexivity|cbn; intros [X Y]; discriminate])|]); destruct Hy|]). destruct Hd. }
  split. { exists (AN AStroke), (ND 2 (TEl EG) "" [at_ AStroke (VPre Vid_currentColor)]), (at_ AStroke (VPre Vid_currentColor)). cbn. auto 10. }
  destruct (clean_doc lib all_on value_doc) as [[t'| |]|] eqn:E; [|vm_compute in E; discriminate..]. exists t'. split; [reflexivity|]. vm_compute in E. injection E as <-.
  repeat split; apply occurs_b_spec; vm_compute; reflexivity.
Qed.
