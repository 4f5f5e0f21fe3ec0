(** C32: needless attributes. *)
From Coq Require Import List Bool NArith Arith ZArith String Lia QArith Qcanon.
From Verif Require Import Names Num Value Dom DomFacts DomOps Outcome DomRemove Stops SpecDom AttrFacts SpecStyle SpecWritten SpecDefaults GradTransProofs RmText SpecText TextProofs Props_text Needless SpecNeedless Visit NeedlessProofs.
Import ListNotations.
Local Open Scope nat_scope.

Lemma aid_eq_dec (a b : aid) : {a = b} + {a <> b}.
Proof. destruct (aid_eqb a b) eqn:E; [left|right]; destruct (aid_eqb_spec a b); congruence. Defined.
Lemma get_filter p l a : (forall x, a_name x = AN a -> p x = true) -> get_attr (filter p l) a = get_attr l a.
Proof.
  intros H. unfold get_attr. induction l as [|x l IH]; [reflexivity|]. cbn. destruct (has_name (AN a) x) eqn:E.
  - rewrite H by now apply has_name_true. cbn. now rewrite E.
  - destruct (p x); cbn; rewrite ?E; exact IH.
Qed.
Lemma get_rm_all l : forall d a, ~ In a l -> get_attr (attrs (rm_all l d)) a = get_attr (attrs d) a.
Proof.
  induction l as [|b l IH]; intros d a H; [reflexivity|]. cbn [rm_all fold_left]. change (fold_left d_rm l (d_rm d b)) with (rm_all l (d_rm d b)). rewrite IH by (intros X; apply H; now right).
  unfold d_rm. cbn. apply get_rm_other. intros ->. apply H. now left.
Qed.
Lemma get_rm_all_in l : forall d a, In a l -> get_attr (attrs (rm_all l d)) a = None.
Proof.
  induction l as [|b l IH]; intros d a H; [contradiction|]. cbn [rm_all fold_left]. change (fold_left d_rm l (d_rm d b)) with (rm_all l (d_rm d b)).
  destruct (in_dec aid_eq_dec a l) as [Hl|Hl]; [now apply IH|]. destruct H as [->|H]; [|contradiction]. rewrite get_rm_all by exact Hl. unfold d_rm. cbn. apply get_rm_same.
Qed.
Definition paints : list aid := fill_properties ++ stroke_properties.
Definition fam (d d' : ndata) : Prop := forall a, In a paints -> get_attr (attrs d') a = get_attr (attrs d) a.
Lemma paints_pres a : In a paints -> is_presentation a = true.
Proof. cbn. intros H. intuition (subst; reflexivity). Qed.
Lemma fam_shape d : fam d (process_shape d).
Proof.
  assert (R : forall l, fam d (retain l d)).
  { intros l a Ha. unfold retain. cbn. apply get_filter. intros x ->. unfold is_basic_shapes_attr. rewrite (paints_pres a Ha). now rewrite !orb_true_r. }
  unfold process_shape. destruct (tag d) as [|[]| | | |]; solve [apply R|intros a _; reflexivity].
Qed.
Lemma fam_rm d d1 b : ~ In b paints -> fam d d1 -> fam d (d_rm d1 b).
Proof. intros Nb F a Ha. unfold d_rm. cbn. rewrite get_rm_other by (intros ->; contradiction). now apply F. Qed.
Lemma np_other : ~ In AColor paints /\ ~ In AEnableBackground paints /\ ~ In AOverflow paints.
Proof. cbn. intuition discriminate. Qed.
Lemma fam_overflow d d1 : fam d d1 -> fam d (process_overflow d1).
Proof. intros F. unfold process_overflow. destruct (tag d1) as [|[]| | | |]; first [exact F|apply fam_rm; [apply np_other|exact F]]. Qed.
Definition pre_node (d : ndata) : ndata :=
  let d := process_shape d in
  let d := d_rm d AColor in
  if tag_sat is_container d then d else d_rm d AEnableBackground.
Lemma needless_eq anc leaf d : needless_node anc leaf d = process_overflow (if leaf then process_stroke anc (process_fill (pre_node d)) else pre_node d).
Proof. unfold needless_node, pre_node. destruct leaf; reflexivity. Qed.
Lemma fam_pre d : fam d (pre_node d).
Proof. unfold pre_node. pose proof (fam_rm d _ AColor (proj1 np_other) (fam_shape d)) as F. cbn zeta. destruct (tag_sat _ _); [exact F|]. apply fam_rm; [apply np_other|exact F]. Qed.
Lemma fam_inner anc d : fam d (needless_node anc false d).
Proof. rewrite needless_eq. apply fam_overflow, fam_pre. Qed.

(** Attribute names stay unique. *)
Lemma nodup_filter d p : attrs_nodup d -> attrs_nodup (with_attrs d (filter p (attrs d))).
Proof. apply NoDup_map_filter. Qed.
Lemma nodup_shape d : attrs_nodup d -> attrs_nodup (process_shape d).
Proof. intros H. unfold process_shape. destruct (tag d) as [|[]| | | |]; first [exact H|now apply nodup_filter]. Qed.
Lemma nodup_pre d : attrs_nodup d -> attrs_nodup (pre_node d).
Proof. intros H. unfold pre_node. pose proof (nodup_rm _ AColor (nodup_shape d H)) as X. cbn zeta. destruct (tag_sat _ _); [exact X|]. now apply nodup_rm. Qed.
Lemma nodup_fill d : attrs_nodup d -> attrs_nodup (process_fill d).
Proof.
  intros H. unfold process_fill. set (d1 := if value_is d _ _ then _ else d). assert (X : attrs_nodup d1) by (unfold d1; destruct (value_is _ _ _); auto using nodup_rm).
  clearbody d1. cbn zeta. destruct (value_is d1 _ _); auto using nodup_rm, nodup_set.
Qed.
Lemma nodup_stroke anc d : attrs_nodup d -> attrs_nodup (process_stroke anc d).
Proof.
  intros H. unfold process_stroke. destruct (is_invisible d).
  - cbn zeta. destruct (find _ anc) as [n|]; [destruct (value_is n _ _)|]; auto using nodup_rm, nodup_set, rm_all_nodup.
  - destruct (value_is d _ _); [|exact H]. cbn zeta. destruct (find _ anc); auto using nodup_rm, rm_all_nodup.
Qed.
Lemma nodup_overflow d : attrs_nodup d -> attrs_nodup (process_overflow d).
Proof. intros H. unfold process_overflow. destruct (tag d) as [|[]| | | |]; first [exact H|now apply nodup_rm]. Qed.
Lemma nodup_needless anc leaf d : attrs_nodup d -> attrs_nodup (needless_node anc leaf d).
Proof. intros H. rewrite needless_eq. apply nodup_overflow. destruct leaf; auto using nodup_pre, nodup_fill, nodup_stroke. Qed.
Lemma nodup_node_fn anc leaf b d : attrs_nodup d -> attrs_nodup (node_fn anc leaf (stripped_if b d)).
Proof. intros H. assert (X : attrs_nodup (stripped_if b d)) by (destruct b; [now apply nodup_filter|exact H]). unfold node_fn. destruct (is_svg_el _); [now apply nodup_needless|exact X]. Qed.

(** ** Computed values *)
Lemma cw_cons dv d l a : attrs_nodup d -> computed_written dv (d :: l) a = match get_attr (attrs d) a with Some x => if a_vis x then Some (a_val x) else computed_written dv l a | None => computed_written dv l a end.
Proof. intros N. unfold computed_written. cbn [map nearest]. rewrite vis_dget by exact N. destruct (get_attr (attrs d) a) as [x|]; [destruct (a_vis x)|]; reflexivity. Qed.
Lemma cw_fam dv l l' a : In a paints -> Forall attrs_nodup l -> Forall attrs_nodup l' -> Forall2 fam l l' -> computed_written dv l' a = computed_written dv l a.
Proof.
  intros Ha N N' F. induction F as [|d d' l l' E F IH]; [reflexivity|]. inversion N; inversion N'; subst. rewrite !cw_cons by assumption. rewrite (E a Ha), IH by assumption. reflexivity.
Qed.

Section leaf.
Variable dv : aid -> option value.
Hypothesis SI : svg_initial dv.
Lemma find_stroke anc : Forall attrs_nodup anc -> hidden_defaults dv anc ->
  match find (fun n => d_has n AStroke) anc with
  | Some n => value_is n AStroke (VPre Vid_none) = true -> computed_written dv anc AStroke = Some (VPre Vid_none)
  | None => computed_written dv anc AStroke = Some (VPre Vid_none)
  end.
Proof.
  intros N H. destruct SI as (_ & _ & S1 & _). induction anc as [|d l IH]; [cbn; exact S1|]. inversion N as [|? ? Nd Nl]; subst. destruct H as [Hl Hd]. cbn [find].
  unfold d_has, has_attr. destruct (get_attr (attrs d) AStroke) as [x|] eqn:E.
  - unfold value_is, d_get, get_value. rewrite E. destruct (value_eqb_spec (a_val x) (VPre Vid_none)) as [V|V]; [|discriminate]. intros _. destruct (a_vis x) eqn:Vx.
    + rewrite cw_cons, E, Vx, V by exact Nd. reflexivity.
    + destruct (Hd AStroke x E Vx eq_refl) as [C _]; [discriminate|]. now rewrite C.
  - specialize (IH Nl Hl). destruct (find _ l) as [n|]; rewrite cw_cons, E by exact Nd; exact IH.
Qed.
Definition same_stroke (l l' : list ndata) : Prop :=
  (painted_stroke dv l <-> painted_stroke dv l') /\ (painted_stroke dv l -> forall a, In a stroke_properties -> computed_written dv l' a = computed_written dv l a).
Definition same_fill (l l' : list ndata) : Prop :=
  (painted_fill dv l <-> painted_fill dv l') /\ (painted_fill dv l -> forall a, In a fill_properties -> computed_written dv l' a = computed_written dv l a).
Lemma stroke_all l l' : (forall a, In a stroke_properties -> computed_written dv l' a = computed_written dv l a) -> same_stroke l l'.
Proof. intros H. split; [|auto]. unfold painted_stroke. rewrite !H by (cbn; tauto). tauto. Qed.
Lemma fill_all l l' : (forall a, In a fill_properties -> computed_written dv l' a = computed_written dv l a) -> same_fill l l'.
Proof. intros H. split; [|auto]. unfold painted_fill. rewrite !H by (cbn; tauto). tauto. Qed.
Lemma stroke_none l l' : ~ painted_stroke dv l -> ~ painted_stroke dv l' -> same_stroke l l'.
Proof. unfold same_stroke. tauto. Qed.
Lemma fill_none l l' : ~ painted_fill dv l -> ~ painted_fill dv l' -> same_fill l l'.
Proof. unfold same_fill. tauto. Qed.
(** An own visible or hidden value, with the defaults of hidden values. *)
Lemma own_value d anc a v : attrs_nodup d -> hidden_defaults dv (d :: anc) -> is_presentation a = true -> a <> AOverflow -> d_get d a = Some v -> computed_written dv (d :: anc) a = Some v.
Proof.
  intros N [_ H] P O G. unfold d_get, get_value in G. destruct (get_attr (attrs d) a) as [x|] eqn:E; [|discriminate]. injection G as G. rewrite cw_cons, E by exact N. destruct (a_vis x) eqn:V; [congruence|].
  destruct (H a x E V P O) as [C D]. rewrite cw_cons, E, V in C by exact N. congruence.
Qed.
Lemma fam_get d d' a : fam d d' -> In a paints -> d_get d' a = d_get d a.
Proof. intros F H. unfold d_get, get_value. now rewrite F. Qed.
Lemma in_paints_fill a : In a fill_properties -> In a paints. Proof. intros H. apply in_or_app. auto. Qed.
Lemma in_paints_stroke a : In a stroke_properties -> In a paints. Proof. intros H. apply in_or_app. auto. Qed.
(** Only the fill family is changed, or only the stroke family. *)
Lemma fill_other d a : In a stroke_properties -> get_attr (attrs (process_fill d)) a = get_attr (attrs d) a.
Proof.
  intros Ha. assert (X : a <> AFill /\ a <> AFillRule /\ a <> AFillOpacity) by (cbn in Ha; intuition (subst; discriminate)). destruct X as (X1 & X2 & X3).
  unfold process_fill. set (d1 := if value_is d _ _ then _ else d). assert (Y : get_attr (attrs d1) a = get_attr (attrs d) a).
  { unfold d1. destruct (value_is _ _ _); [|reflexivity]. unfold d_rm. cbn. rewrite !get_rm_other; congruence. }
  cbn zeta. rewrite <- Y. destruct (value_is d1 _ _); [|reflexivity]. unfold d_rm, d_set. cbn. rewrite !get_rm_other, get_set_other; congruence.
Qed.
Lemma stroke_other anc d a : In a fill_properties -> get_attr (attrs (process_stroke anc d)) a = get_attr (attrs d) a.
Proof.
  intros Ha. assert (X : a <> AStroke /\ ~ In a stroke_attributes) by (cbn in Ha; split; [intuition (subst; discriminate)|cbn; intuition (subst; discriminate)]). destruct X as (X1 & X2).
  unfold process_stroke. destruct (is_invisible d); cbn zeta.
  - assert (Y : get_attr (attrs (rm_all stroke_attributes (d_rm d AStroke))) a = get_attr (attrs d) a) by (rewrite get_rm_all by exact X2; unfold d_rm; cbn; apply get_rm_other; congruence).
    destruct (find _ anc) as [n|]; [|exact Y]. destruct (value_is n _ _); [exact Y|]. unfold d_set. cbn. rewrite get_set_other by congruence. exact Y.
  - destruct (value_is d _ _); [|reflexivity]. pose proof (get_rm_all stroke_attributes d a X2) as Y. destruct (find _ anc); [exact Y|]. unfold d_rm at 1. cbn. rewrite get_rm_other by congruence. exact Y.
Qed.
Lemma cw_ext d l d' l' a : attrs_nodup d -> attrs_nodup d' -> get_attr (attrs d') a = get_attr (attrs d) a -> computed_written dv l' a = computed_written dv l a -> computed_written dv (d' :: l') a = computed_written dv (d :: l) a.
Proof. intros N N' E E'. rewrite !cw_cons, E, E' by assumption. reflexivity. Qed.
Lemma value_is_true d a v : value_is d a v = true -> d_get d a = Some v.
Proof. unfold value_is. destruct (d_get d a) as [w|]; [|discriminate]. destruct (value_eqb_spec w v); congruence. Qed.

Variables (anc anc' : list ndata) (d : ndata).
Hypotheses (Nd : attrs_nodup d) (Na : Forall attrs_nodup anc) (Na' : Forall attrs_nodup anc') (Fa : Forall2 fam anc anc') (Hd : hidden_defaults dv (d :: anc)).
Let d' : ndata := needless_node anc' true d.
Lemma nodup_d' : attrs_nodup d'. Proof. now apply nodup_needless. Qed.
Lemma leaf_fill : same_fill (d :: anc) (d' :: anc').
Proof.
  assert (E : forall a, In a fill_properties -> get_attr (attrs d') a = get_attr (attrs (process_fill (pre_node d))) a).
  { intros a Ha. unfold d'. rewrite needless_eq. rewrite (fam_overflow _ _ (fun b _ => eq_refl) a (in_paints_fill a Ha)). now apply stroke_other. }
  pose proof (fam_pre d) as F. set (d1 := pre_node d) in *. clearbody d1.
  assert (G : forall a, In a fill_properties -> computed_written dv anc' a = computed_written dv anc a) by (intros a Ha; apply cw_fam; auto using in_paints_fill).
  unfold process_fill in E. set (d2 := if value_is d1 AFill _ then _ else d1) in *.
  destruct (value_is d1 AFill (VPre Vid_none)) eqn:V1.
  - apply value_is_true in V1. rewrite (fam_get d d1) in V1; [|exact F|cbn; tauto].
    apply fill_none; intros [P _]; apply P; clear P.
    + apply own_value; auto. discriminate.
    + assert (X : d_get d2 AFillOpacity = None) by (unfold d2, d_rm, d_get, get_value; cbn; now rewrite get_rm_same).
      unfold value_is in E. rewrite X in E. unfold d2 in E. unfold d_get, get_value in V1. destruct (get_attr (attrs d) AFill) as [x|] eqn:Ex; [|discriminate].
      rewrite cw_cons by apply nodup_d'. rewrite E by (cbn; tauto). unfold d_rm. cbn [attrs with_attrs]. rewrite !get_rm_other by discriminate. rewrite F, Ex by (cbn; tauto).
      destruct (a_vis x) eqn:Vx; [congruence|]. exfalso. destruct Hd as [_ H]. destruct (H AFill x Ex Vx eq_refl) as [_ D]; [discriminate|]. destruct SI as (S & _). congruence.
  - unfold d2 in *. clear d2. destruct (value_is d1 AFillOpacity (VNum q0)) eqn:V2.
    + apply value_is_true in V2. rewrite (fam_get d d1) in V2; [|exact F|cbn; tauto]. apply fill_none; intros [P P2].
      * apply P2. apply own_value; auto. discriminate.
      * apply P. rewrite cw_cons by apply nodup_d'. rewrite E by (cbn; tauto). unfold d_rm, d_set. cbn [attrs with_attrs]. rewrite !get_rm_other, get_set_same by discriminate. reflexivity.
    + apply fill_all. intros a Ha. apply cw_ext; auto using nodup_d'. rewrite E by exact Ha. apply F. auto using in_paints_fill.
Qed.
Lemma leaf_stroke : same_stroke (d :: anc) (d' :: anc').
Proof.
  assert (E : forall a, In a stroke_properties -> get_attr (attrs d') a = get_attr (attrs (process_stroke anc' (process_fill (pre_node d)))) a).
  { intros a Ha. unfold d'. rewrite needless_eq. apply (fam_overflow _ _ (fun b _ => eq_refl) a (in_paints_stroke a Ha)). }
  assert (F : forall a, In a stroke_properties -> get_attr (attrs (process_fill (pre_node d))) a = get_attr (attrs d) a).
  { intros a Ha. rewrite fill_other by exact Ha. apply fam_pre. auto using in_paints_stroke. }
  set (d1 := process_fill (pre_node d)) in *. clearbody d1.
  assert (Fg : forall a, In a stroke_properties -> d_get d1 a = d_get d a) by (intros a Ha; unfold d_get, get_value; now rewrite F).
  assert (G : forall a, In a stroke_properties -> computed_written dv anc' a = computed_written dv anc a) by (intros a Ha; apply cw_fam; auto using in_paints_stroke).
  (* the ancestors *)
  assert (FS : match find (fun n => d_has n AStroke) anc' with
               | Some n => value_is n AStroke (VPre Vid_none) = true -> computed_written dv anc' AStroke = Some (VPre Vid_none)
               | None => computed_written dv anc' AStroke = Some (VPre Vid_none) end).
  { rewrite G by (cbn; tauto). assert (X : option_map (fun n => get_attr (attrs n) AStroke) (find (fun n => d_has n AStroke) anc') = option_map (fun n => get_attr (attrs n) AStroke) (find (fun n => d_has n AStroke) anc)).
    { clear -Fa. induction Fa as [|x y l l' Fx Fl IH]; [reflexivity|]. cbn. unfold d_has, has_attr. rewrite (Fx AStroke) by (cbn; tauto). destruct (get_attr (attrs x) AStroke) eqn:Y; [|exact (IH Fl)]. cbn. rewrite (Fx AStroke) by (cbn; tauto). reflexivity. }
    pose proof (find_stroke anc Na (proj1 Hd)) as Y. destruct (find _ anc) as [n|], (find _ anc') as [n'|]; try discriminate; [|exact Y]. cbn in X. injection X as X.
    unfold value_is, d_get, get_value in *. rewrite X. exact Y. }
  unfold process_stroke in E. destruct (is_invisible d1) eqn:V; cbn zeta in E.
  - apply stroke_none.
    + unfold is_invisible in V. destruct (existsb _ _); [discriminate|]. apply orb_true_iff in V. intros (P1 & P2 & P3). destruct V as [V|V].
      * rewrite Fg in V by (cbn; tauto). destruct (d_get d AStrokeWidth) as [[| | |l| | | | | | | ]|] eqn:W; try discriminate. destruct (qeqb_spec (num l) q0) as [Q|]; [|discriminate].
        apply (P2 (unit l)). rewrite <- Q. destruct l as [n u]. cbn [num unit]. apply own_value; auto. discriminate.
      * apply value_is_true in V. rewrite Fg in V by (cbn; tauto). apply P3. apply own_value; auto. discriminate.
    + intros (P1 & _). apply P1. rewrite cw_cons by apply nodup_d'. rewrite E by (cbn; tauto).
      assert (X : get_attr (attrs (rm_all stroke_attributes (d_rm d1 AStroke))) AStroke = None) by (rewrite get_rm_all by (cbn; intuition discriminate); unfold d_rm; cbn; apply get_rm_same).
      destruct (find _ anc') as [n|].
      * destruct (value_is n _ _); [rewrite X; auto|]. unfold d_set. cbn [attrs with_attrs]. rewrite get_set_same. reflexivity.
      * rewrite X. exact FS.
  - destruct (value_is d1 AStroke (VPre Vid_none)) eqn:V2.
    + apply value_is_true in V2. rewrite Fg in V2 by (cbn; tauto). pose proof (own_value d anc AStroke _ Nd Hd eq_refl ltac:(discriminate) V2) as C.
      apply stroke_none; intros (P & _); apply P; [exact C|]. rewrite cw_cons by apply nodup_d'. rewrite E by (cbn; tauto).
      assert (X : get_attr (attrs (rm_all stroke_attributes d1)) AStroke = get_attr (attrs d) AStroke) by (rewrite get_rm_all by (cbn; intuition discriminate); apply F; cbn; tauto).
      destruct (find _ anc') as [n|].
      * rewrite X. rewrite G by (cbn; tauto). rewrite <- C. symmetry. apply cw_cons. exact Nd.
      * unfold d_rm. cbn [attrs with_attrs]. rewrite get_rm_same. exact FS.
    + apply stroke_all. intros a Ha. apply cw_ext; auto using nodup_d'. rewrite E by exact Ha. now apply F.
Qed.
End leaf.

(** The place in the result that corresponds to a place of the document. *)
Definition corresponding (t t' : tree) (p p' : list ndata * tree) : Prop :=
  In p (places [] t) /\ In p' (places [] t') /\ root_key (snd p') = root_key (snd p).
Lemma corresponding_g t g p p' : NoDup (keys t) -> (forall d, In d (flat t) -> same_kind d (g d)) -> corresponding t (tmap g t) p p' -> p' = (map g (fst p), tmap g (snd p)).
Proof.
  intros N S (P & P' & K). assert (N' : NoDup (keys (tmap g t))).
  { unfold keys. rewrite flat_tmap, map_map. rewrite (map_ext_in _ key); [exact N|]. intros d Hd. apply (S d Hd). }
  apply (place_unique (tmap g t) []); auto.
  - destruct p as [anc s]. now apply places_g.
  - rewrite K. cbn [snd]. unfold root_key. rewrite tmap_data. destruct p as [anc s]. cbn [snd]. destruct (S (data s) (place_in _ _ _ _ P)) as [-> _]. reflexivity.
Qed.
Lemma clip_anc anc d : clip_child (d :: anc) -> in_clip_path (d :: anc).
Proof. intros (p & l & E & H). inversion E; subst. exists p. split; [left; reflexivity|exact H]. Qed.
Lemma result_wfa t : NoDup (keys t) -> WFA t -> forall g, inv t (keys t) g -> forall d, In d (flat t) -> attrs_nodup (g d).
Proof.
  intros N W g I d Hd. destruct (in_place d t [] Hd) as (anc & s & P & <-). destruct (I anc s P) as (b & _ & I1 & _). cbn zeta in I1. rewrite I1.
  - apply nodup_node_fn. exact (proj1 (Forall_forall _ _) W _ Hd).
  - rewrite <- (places_keys t []). apply in_map_iff. exists (anc, s). auto.
Qed.
(** Outside of clip paths nodes are not stripped. *)
Lemma unclipped t g : NoDup (keys t) -> inv t (keys t) g -> forall anc s, In (anc, s) (places [] t) -> ~ in_clip_path anc -> g (data s) = node_fn (map g anc) (is_leaf s) (data s).
Proof.
  intros N I anc s P C. destruct (I anc s P) as (b & B & I1 & _). cbn zeta in I1. rewrite I1.
  - destruct b; [|reflexivity]. destruct (B eq_refl) as [X _]. exfalso. apply C. destruct X as (p & l & -> & H). exists p. split; [left; reflexivity|exact H].
  - rewrite <- (places_keys t []). apply in_map_iff. exists (anc, s). auto.
Qed.
Lemma unclipped_anc t g : NoDup (keys t) -> inv t (keys t) g -> forall anc s, In (anc, s) (places [] t) -> ~ in_clip_path anc -> Forall2 fam anc (map g anc).
Proof.
  intros N I anc s P C. apply Forall2_map_self. apply Forall_forall. intros a Ha. destruct (place_anc t [] anc s P) as (l & E & H). rewrite app_nil_r in E. subst l.
  apply in_split in Ha. destruct Ha as (l1 & l2 & Ea). destruct (H l1 a l2 Ea) as (s' & P' & <- & K). rewrite app_nil_r in P'. rewrite (unclipped t g N I l2 s' P').
  - unfold node_fn. destruct (is_svg_el _); [|intros x _; reflexivity]. unfold is_leaf. destruct (kids s'); [contradiction|]. apply fam_inner.
  - intros (x & Hx & Tx). apply C. exists x. split; [rewrite Ea; apply in_or_app; right; now right|exact Tx].
Qed.

(** The same is painted. *)
Theorem C32_paint_partial dv t p p' : WF t -> WFA t -> svg_initial dv -> corresponding t (remove_needless_attributes t) p p' ->
  ~ in_clip_path (fst p) -> hidden_defaults dv (data (snd p) :: fst p) ->
  same_stroke dv (data (snd p) :: fst p) (data (snd p') :: fst p') /\ same_fill dv (data (snd p) :: fst p) (data (snd p') :: fst p').
Proof.
  intros [N _] W SI C NC Hd. destruct (pass_inv t N) as (g & E & I). rewrite E in C. pose proof (inv_sk t _ g I) as S. rewrite (corresponding_g t g p p' N S C). destruct C as (P & _). destruct p as [anc s]. cbn [fst snd] in *.
  assert (Nw : forall d, In d (flat t) -> attrs_nodup d) by exact (proj1 (Forall_forall _ _) W). pose proof (result_wfa t N W g I) as Ng.
  assert (Ha : forall a, In a anc -> In a (flat t)) by (intros a; apply (anc_in t anc s a P)).
  assert (Na : Forall attrs_nodup anc) by (apply Forall_forall; auto). assert (Na' : Forall attrs_nodup (map g anc)) by (apply Forall_forall; intros x Hx; apply in_map_iff in Hx; destruct Hx as (y & <- & Hy); auto).
  pose proof (unclipped_anc t g N I anc s P NC) as Fa. rewrite tmap_data. pose proof (unclipped t g N I anc s P NC) as U. pose proof (place_in _ _ _ _ P) as Hs.
  assert (Inner : fam (data s) (g (data s)) -> same_stroke dv (data s :: anc) (g (data s) :: map g anc) /\ same_fill dv (data s :: anc) (g (data s) :: map g anc)).
  { intros Fs. split; [apply stroke_all|apply fill_all]; intros a Hx; (apply cw_fam; [auto using in_paints_fill, in_paints_stroke|constructor; auto|constructor; auto|constructor; auto]). }
  unfold node_fn in U. destruct (is_svg_el (data s)) eqn:Sv; [|apply Inner; rewrite U; intros a _; reflexivity].
  destruct (is_leaf s) eqn:L; [|apply Inner; rewrite U; apply fam_inner].
  rewrite U. split; [apply leaf_stroke|apply leaf_fill]; auto.
Qed.

(** Everything else is kept: what is removed has no effect, is a fill or stroke attribute, or is the
    opacity of an unused child of a clipPath; the only new attributes disable the fill or the stroke. *)
Definition disabled (x : attr) : Prop := x = At (AN AFill) (VPre Vid_none) true \/ x = At (AN AStroke) (VPre Vid_none) true.
Definition kept_attrs (extra : aname -> Prop) (d d' : ndata) : Prop :=
  (forall x, In x (attrs d) -> In x (attrs d') \/ extra (a_name x)) /\ (forall x, In x (attrs d') -> In x (attrs d) \/ disabled x).
Lemma ka_refl X d : kept_attrs X d d. Proof. split; auto. Qed.
Lemma ka_trans X a b c : kept_attrs X a b -> kept_attrs X b c -> kept_attrs X a c.
Proof. intros [A1 A2] [B1 B2]. split; intros x Hx; [destruct (A1 x Hx)|destruct (B2 x Hx)]; auto. Qed.
Lemma ka_mono (X Y : aname -> Prop) a b : (forall n, X n -> Y n) -> kept_attrs X a b -> kept_attrs Y a b.
Proof. intros H [A1 A2]. split; auto. intros x Hx. destruct (A1 x Hx); auto. Qed.
Lemma ka_filter (X : aname -> Prop) p d : (forall x, In x (attrs d) -> p x = false -> X (a_name x)) -> kept_attrs X d (with_attrs d (filter p (attrs d))).
Proof.
  intros H. split; cbn; intros x Hx; [|apply filter_In in Hx; tauto]. destruct (p x) eqn:E; [left; now apply filter_In|right; now apply H].
Qed.
Lemma ka_rm (X : aname -> Prop) a d : X (AN a) -> kept_attrs X d (d_rm d a).
Proof. intros H. apply ka_filter. intros x _ E. apply negb_false_iff in E. apply has_name_true in E. now rewrite E. Qed.
Lemma ka_rm_all (X : aname -> Prop) l : (forall a, In a l -> X (AN a)) -> forall d, kept_attrs X d (rm_all l d).
Proof.
  induction l as [|a l IH]; intros H d; [apply ka_refl|]. cbn [rm_all fold_left]. change (fold_left d_rm l (d_rm d a)) with (rm_all l (d_rm d a)).
  eapply ka_trans; [apply (ka_rm X a d); apply H; now left|]. apply IH. intros b Hb. apply H. now right.
Qed.
Lemma set_keeps l a v x : In x l -> In x (set_attr l a v) \/ a_name x = AN a.
Proof.
  induction l as [|y l IH]; [contradiction|]. cbn. intros [->|H]; destruct (has_name (AN a) _) eqn:E.
  - right. now apply has_name_true.
  - left. now left.
  - left. now right.
  - destruct (IH H); [left; now right|auto].
Qed.
Lemma ka_set (X : aname -> Prop) a d : X (AN a) -> disabled (At (AN a) (VPre Vid_none) true) -> kept_attrs X d (d_set d a (VPre Vid_none)).
Proof.
  intros H D. unfold d_set. split; cbn; intros x Hx.
  - destruct (set_keeps _ a (VPre Vid_none) _ Hx) as [?|E]; [auto|]. rewrite E. auto.
  - apply set_attr_in in Hx. destruct Hx as [Hx| ->]; auto.
Qed.
Lemma ka_tag X d d' e : kept_attrs (fun n => without_effect e n \/ X n) d d' -> tag d' = tag d -> kept_attrs (fun n => without_effect e n \/ X n) d d'.
Proof. auto. Qed.
Definition removable (e : eid) (n : aname) : Prop := without_effect e n \/ paint_name n.
Lemma kept_shape e d : tag d = TEl e -> kept_attrs (removable e) d (process_shape d).
Proof.
  intros E. assert (R : forall l, basic_shape e -> geometry e = l -> kept_attrs (removable e) d (retain l d)).
  { intros l B G. apply ka_filter. intros x _ F. left. destruct (a_name x) as [a|s]; [|now apply we_other]. apply orb_false_iff in F. destruct F as [F1 F2]. apply we_shape; [exact B| |].
    - rewrite G. intros H. assert (Y : existsb (aid_eqb a) l = true) by (apply existsb_exists; exists a; split; [exact H|apply aid_eqb_refl]). congruence.
    - unfold is_basic_shapes_attr in F1. repeat (apply orb_false_iff in F1; destruct F1 as [F1 ?]). intros [C|[C|[C|[C|C]]]]; try congruence.
      assert (Y : existsb (aid_eqb a) [AClass; AStyle; AExternalResourcesRequired; ATransform] = true) by (apply existsb_exists; exists a; split; [exact C|apply aid_eqb_refl]). congruence. }
  unfold process_shape. rewrite E. destruct e; try apply ka_refl; apply R; unfold basic_shape; cbn; auto 10.
Qed.
Lemma kept_needless anc leaf e d : tag d = TEl e -> kept_attrs (removable e) d (needless_node anc leaf d).
Proof.
  intros E. rewrite needless_eq. assert (P : kept_attrs (removable e) d (pre_node d) /\ tag (pre_node d) = TEl e).
  { unfold pre_node. pose proof (kept_shape e d E) as K. assert (T1 : tag (process_shape d) = TEl e) by (rewrite (proj1 (proj2 (proj1 (shape_sk d)))); exact E).
    set (d1 := process_shape d) in *. clearbody d1. cbn zeta. assert (K2 : kept_attrs (removable e) d (d_rm d1 AColor)) by (eapply ka_trans; [exact K|]; apply ka_rm; left; constructor).
    destruct (tag_sat is_container (d_rm d1 AColor)) eqn:C; [split; [exact K2|exact T1]|]. split; [|exact T1]. eapply ka_trans; [exact K2|]. apply ka_rm. left. apply we_background.
    unfold tag_sat in C. cbn [tag d_rm with_attrs] in C. rewrite T1 in C. exact C. }
  destruct P as [P1 P2]. set (d1 := pre_node d) in *. clearbody d1.
  assert (Q : let x := if leaf then process_stroke anc (process_fill d1) else d1 in kept_attrs (removable e) d x /\ tag x = TEl e).
  { cbn zeta. destruct leaf; [|auto]. split; [|rewrite (proj1 (proj2 (proj1 (stroke_sk anc (process_fill d1))))), (proj1 (proj2 (proj1 (fill_sk d1)))); exact P2].
    eapply ka_trans; [exact P1|]. apply (ka_mono paint_name); [intros n H; right; exact H|]. apply (ka_trans _ _ (process_fill d1)).
    - unfold process_fill. set (d2 := if value_is d1 AFill _ then _ else d1). assert (K : kept_attrs paint_name d1 d2).
      { unfold d2. destruct (value_is _ _ _); [|apply ka_refl]. eapply ka_trans; apply ka_rm; unfold paint_name; cbn; auto. }
      clearbody d2. cbn zeta. eapply ka_trans; [exact K|]. destruct (value_is d2 _ _); [|apply ka_refl]. eapply ka_trans; [|apply ka_rm; unfold paint_name; cbn; auto]. eapply ka_trans; [|apply ka_rm; unfold paint_name; cbn; auto].
      apply ka_set; [unfold paint_name; cbn; auto|left; reflexivity].
    - generalize (process_fill d1). clear. intros d. unfold process_stroke.
      assert (Sa : forall a, In a stroke_attributes -> paint_name (AN a)) by (unfold paint_name; cbn; intuition (subst; auto 20)).
      destruct (is_invisible d); cbn zeta.
      + assert (K : kept_attrs paint_name d (rm_all stroke_attributes (d_rm d AStroke))).
        { eapply ka_trans; [|apply ka_rm_all; exact Sa]. apply ka_rm. unfold paint_name. cbn. auto 10. }
        set (d2 := rm_all _ _) in *. clearbody d2. destruct (find _ anc) as [n|]; [|exact K]. destruct (value_is n _ _); [exact K|]. eapply ka_trans; [exact K|]. apply ka_set; [unfold paint_name; cbn; auto 10|right; reflexivity].
      + destruct (value_is d _ _); [|apply ka_refl]. pose proof (ka_rm_all paint_name stroke_attributes Sa d) as K. set (d2 := rm_all _ _) in *. clearbody d2. destruct (find _ anc); [exact K|].
        eapply ka_trans; [exact K|]. apply ka_rm. unfold paint_name. cbn. auto 10. }
  cbn zeta in Q. destruct Q as [Q1 Q2]. set (x := if leaf then _ else d1) in *. clearbody x. clear -Q1 Q2. unfold process_overflow. rewrite Q2.
  assert (R : ~ establishes_viewport e -> kept_attrs (removable e) d (d_rm x AOverflow)) by (intros H; eapply ka_trans; [exact Q1|]; apply ka_rm; left; now constructor).
  destruct e; try exact Q1; apply R; unfold establishes_viewport; cbn; intuition discriminate.
Qed.
Theorem C32_kept t p p' : WF t -> corresponding t (remove_needless_attributes t) p p' ->
  same_kind (data (snd p)) (data (snd p')) /\
  kept_attrs (fun n => (exists e, tag (data (snd p)) = TEl e /\ removable e n) \/
                       ((paint_name n \/ n = AN AOpacity) /\ clip_child (fst p) /\ ~ referenced (remove_needless_attributes t) (root_key (snd p)))) (data (snd p)) (data (snd p')).
Proof.
  intros [N _] C. destruct (pass_inv t N) as (g & E & I). rewrite E in *. pose proof (inv_sk t _ g I) as S. rewrite (corresponding_g t g p p' N S C). destruct C as (P & _). destruct p as [anc s]. cbn [fst snd] in *. rewrite tmap_data.
  split; [apply S; exact (place_in _ _ _ _ P)|]. destruct (I anc s P) as (b & B & I1 & _). cbn zeta in I1. rewrite I1 by (rewrite <- (places_keys t []); apply in_map_iff; exists (anc, s); auto). clear I1.
  eapply ka_trans.
  - instantiate (1 := stripped_if b (data s)). destruct b; [|apply ka_refl]. apply ka_filter. intros x _ F. right. destruct (B eq_refl) as [B1 B2]. split; [|split; [exact B1|]].
    + apply negb_false_iff in F. unfold paint_attr in F. destruct (a_name x) as [b0|]; [|discriminate]. destruct (aid_eqb_spec b0 AOpacity) as [Eo|Na]; [right; rewrite Eo; reflexivity|]. rewrite orb_false_r in F. left. unfold paint_name. destruct b0; try discriminate; cbn; auto 20.
    + intros (d & Hd & x0 & Hx & L). assert (Y : is_used (root_key s) (tmap g t) = true); [|congruence]. apply is_used_iff. apply targets_in. eauto.
  - assert (T1 : tag (stripped_if b (data s)) = tag (data s)) by apply (stripped_sk b (data s)). unfold node_fn, is_svg_el. rewrite T1. destruct (tag (data s)) as [|e| | | |] eqn:Te; try apply ka_refl.
    eapply ka_mono; [|apply (kept_needless _ _ e); exact T1]. cbn. intros n H. left. eauto.
Qed.
(** The fill and stroke attributes of elements with children stay (outside of clip paths). *)
Theorem C32_groups_keep_paint t p p' : WF t -> corresponding t (remove_needless_attributes t) p p' -> ~ in_clip_path (fst p) -> kids (snd p) <> [] ->
  forall a, In a (fill_properties ++ stroke_properties) -> d_get (data (snd p')) a = d_get (data (snd p)) a.
Proof.
  intros [N _] C NC K a Ha. destruct (pass_inv t N) as (g & E & I). rewrite E in *. pose proof (inv_sk t _ g I) as S. rewrite (corresponding_g t g p p' N S C). destruct C as (P & _). destruct p as [anc s]. cbn [fst snd] in *. rewrite tmap_data.
  rewrite (unclipped t g N I anc s P NC). unfold node_fn. destruct (is_svg_el _); [|reflexivity]. unfold is_leaf. destruct (kids s); [contradiction|]. apply fam_get; [apply fam_inner|exact Ha].
Qed.
(** An element with an own marker and a stroke keeps everything that the marker depends on. *)
Theorem C32_marker_partial t p p' : WF t -> corresponding t (remove_needless_attributes t) p p' -> ~ in_clip_path (fst p) -> own_marker (data (snd p)) ->
  d_get (data (snd p)) AStroke <> Some (VPre Vid_none) -> forall a, In a stroke_properties -> d_get (data (snd p')) a = d_get (data (snd p)) a.
Proof.
  intros [N _] C NC M ST a Ha. destruct (pass_inv t N) as (g & E & I). rewrite E in *. pose proof (inv_sk t _ g I) as S. rewrite (corresponding_g t g p p' N S C). destruct C as (P & _). destruct p as [anc s]. cbn [fst snd] in *. rewrite tmap_data.
  rewrite (unclipped t g N I anc s P NC). unfold node_fn. destruct (is_svg_el _); [|reflexivity]. destruct (is_leaf s); [|apply fam_get; [apply fam_inner|auto using in_paints_stroke]].
  rewrite needless_eq. rewrite (fam_get _ _ a (fam_overflow _ _ (fun b _ => eq_refl)) (in_paints_stroke a Ha)).
  assert (F : forall b, In b stroke_properties -> d_get (process_fill (pre_node (data s))) b = d_get (data s) b).
  { intros b Hb. unfold d_get, get_value. rewrite fill_other by exact Hb. now rewrite (fam_pre (data s) b (in_paints_stroke b Hb)). }
  assert (M' : existsb (d_has (process_fill (pre_node (data s)))) [AMarker; AMarkerStart; AMarkerMid; AMarkerEnd] = true).
  { destruct M as (m & Hm & Gm). apply existsb_exists. exists m. split; [exact Hm|].
    assert (X : get_attr (attrs (process_fill (pre_node (data s)))) m = get_attr (attrs (data s)) m).
    { assert (Y : m <> AFill /\ m <> AFillRule /\ m <> AFillOpacity /\ m <> AColor /\ m <> AEnableBackground /\ is_presentation m = true) by (cbn in Hm; intuition (subst; try discriminate; reflexivity)).
      destruct Y as (Y1 & Y2 & Y3 & Y4 & Y5 & Y6).
      assert (Z : get_attr (attrs (pre_node (data s))) m = get_attr (attrs (data s)) m).
      { unfold pre_node. cbn zeta. assert (Q : get_attr (attrs (process_shape (data s))) m = get_attr (attrs (data s)) m).
        { assert (R : forall l, get_attr (attrs (retain l (data s))) m = get_attr (attrs (data s)) m) by (intros l; unfold retain; cbn; apply get_filter; intros x ->; unfold is_basic_shapes_attr; rewrite Y6; now rewrite !orb_true_r).
          unfold process_shape. destruct (tag (data s)) as [|[]| | | |]; try apply R; reflexivity. }
        rewrite <- Q. destruct (tag_sat _ _); unfold d_rm; cbn; rewrite ?get_rm_other; congruence. }
      rewrite <- Z. unfold process_fill. set (d2 := if value_is (pre_node (data s)) AFill _ then _ else _). cbn zeta. assert (Q : get_attr (attrs d2) m = get_attr (attrs (pre_node (data s))) m).
      { unfold d2. destruct (value_is _ _ _); [|reflexivity]. unfold d_rm. cbn. rewrite !get_rm_other; congruence. }
      rewrite <- Q. destruct (value_is d2 _ _); [|reflexivity]. unfold d_rm, d_set. cbn. rewrite !get_rm_other, get_set_other; congruence. }
    unfold d_has, has_attr. rewrite X. unfold d_get, get_value in Gm. destruct (get_attr _ m); [reflexivity|congruence]. }
  unfold process_stroke, is_invisible. rewrite M'. unfold value_is. rewrite (F AStroke) by (cbn; tauto). destruct (d_get (data s) AStroke) as [v|] eqn:Es; [|now apply F].
  destruct (value_eqb_spec v (VPre Vid_none)) as [->|]; [contradiction|now apply F].
Qed.

(** A document that meets the hypotheses. *)
Definition nd_defaults (a : aid) : option value :=
  match a with
  | AFill => Some (VColor 0 0 0) | AFillOpacity => Some (VNum q1) | AStroke => Some (VPre Vid_none)
  | AStrokeWidth => Some (VLen (Len q1 UNone)) | AStrokeOpacity => Some (VNum q1) | _ => None
  end.
Definition none_ : value := VPre Vid_none.
Definition nd_doc (a b c : list attr) : tree :=
  doc [el 1 ESvg [] [el 2 EG [at_ AStroke (VColor 1 2 3); at_ AStrokeWidth (px 2)] [el 3 ERect a []; el 4 ERect [at_ AFill (VColor 9 9 9)] []];
       el 5 EClipPath [] [el 6 ERect b []]; el 7 ERect c []]].
Definition nd_before := nd_doc [at_ AStrokeWidth (px 0); at_ AFill none_; at_ AFillRule (VStr "evenodd")] [at_ AFill (VColor 1 1 1); at_ AOpacity (VNum q0)] [at_ AR (px 3); at_ AStroke none_; at_ AStrokeWidth (px 3); at_ AColor (VColor 1 1 1)].
Example C32_instance : WF nd_before /\ WFA nd_before /\ svg_initial nd_defaults /\
  remove_needless_attributes nd_before = nd_doc [at_ AFill none_; at_ AStroke none_] [] [] /\
  (forall p, In p (places [] nd_before) -> hidden_defaults nd_defaults (data (snd p) :: fst p)).
Proof.
  split. { split; [cbn; repeat constructor; cbn; intuition discriminate|]. intros k Hk. vm_compute in Hk. contradiction. }
  split; [unfold nd_before, nd_doc, WFA; cbn [flat flat_map app doc el]; repeat (apply Forall_cons || apply Forall_nil); unfold attrs_nodup; cbn; repeat constructor; cbn; intuition discriminate|].
  split; [repeat split|]. split; [vm_compute; reflexivity|].
  intros p Hp. assert (V : forall d, In d (flat nd_before) -> forall x, In x (attrs d) -> a_vis x = true) by (intros d Hd x Hx; cbn in Hd; repeat (destruct Hd as [<-|Hd]; [cbn in Hx; intuition (subst; reflexivity)|]); contradiction).
  destruct p as [anc s]. cbn [fst snd]. assert (G : forall l, (forall d, In d l -> In d (flat nd_before)) -> hidden_defaults nd_defaults l).
  { induction l as [|d l IH]; intros H; [exact I|]. split; [apply IH; intros x Hx; apply H; now right|]. intros a x Ga Vx. apply get_attr_some in Ga. rewrite (V d (H d (or_introl eq_refl)) x (proj1 Ga)) in Vx. discriminate. }
  apply G. intros d [<-|Hd]; [exact (place_in _ _ _ _ Hp)|exact (anc_in nd_before anc s d Hp Hd)].
Qed.

(** Refutations of the stronger readings. *)
(** A use element has no children, but the copy of the referenced element inherits from it. *)
Definition nd_use (l : list attr) : tree := doc [el 1 ESvg [] [el 2 EDefs [] [eli 3 ERect "r" [at_ AStroke (VColor 1 2 3)] []]; el 4 EUse (at_ AXlinkHref (VLink 3) :: l) []]].
Theorem C32_use_refuted : exists t t' d u u', WF t /\ WFA t /\ remove_needless_attributes t = t' /\ In d (flat t) /\ In d (flat t') /\ In u (flat t) /\ In u' (flat t') /\
  tag u = TEl EUse /\ key u' = key u /\ d_get u AXlinkHref = Some (VLink (key d)) /\
  ~ painted_stroke nd_defaults [d; u] /\ painted_stroke nd_defaults [d; u'].
Proof.
  exists (nd_use [at_ AStrokeWidth (px 0)]), (nd_use []). eexists (ND 3 (TEl ERect) "r" _), (ND 4 (TEl EUse) "" _), (ND 4 (TEl EUse) "" _).
  split. { split; [cbn; repeat constructor; cbn; intuition discriminate|]. intros k Hk. vm_compute in Hk. destruct Hk as [<-|[]]. cbn. auto. }
  split; [unfold nd_use, WFA; cbn [flat flat_map app doc el eli]; repeat (apply Forall_cons || apply Forall_nil); unfold attrs_nodup; cbn; repeat constructor; cbn; intuition discriminate|].
  split; [vm_compute; reflexivity|]. repeat (split; [solve [cbn; auto 12]|]). split.
  - intros (_ & H & _). apply (H UNone). vm_compute. reflexivity.
  - unfold painted_stroke. vm_compute. repeat split; try discriminate.
Qed.
(** The same for the referenced element: its stroke is not painted, so its stroke-width is dropped; the
    use element gives it a stroke. *)
Definition nd_used (l : list attr) : tree := doc [el 1 ESvg [] [el 2 EDefs [] [eli 3 ERect "r" l []]; el 4 EUse [at_ AXlinkHref (VLink 3); at_ AStroke (VColor 1 2 3)] []]].
Theorem C32_used_refuted : exists t t' d d' u, WF t /\ WFA t /\ remove_needless_attributes t = t' /\ In d (flat t) /\ In d' (flat t') /\ key d' = key d /\ In u (flat t) /\ In u (flat t') /\
  tag u = TEl EUse /\ d_get u AXlinkHref = Some (VLink (key d)) /\ ~ painted_stroke nd_defaults [d; u] /\ painted_stroke nd_defaults [d'; u].
Proof.
  exists (nd_used [at_ AStrokeWidth (px 0)]), (nd_used []). eexists (ND 3 (TEl ERect) "r" _), (ND 3 (TEl ERect) "r" _), (ND 4 (TEl EUse) "" _).
  split. { split; [cbn; repeat constructor; cbn; intuition discriminate|]. intros k Hk. vm_compute in Hk. destruct Hk as [<-|[]]. cbn. auto. }
  split; [unfold nd_used, WFA; cbn [flat flat_map app doc el eli]; repeat (apply Forall_cons || apply Forall_nil); unfold attrs_nodup; cbn; repeat constructor; cbn; intuition discriminate|].
  split; [vm_compute; reflexivity|]. repeat (split; [solve [cbn; auto 12]|]). split.
  - intros (_ & H & _). apply (H UNone). vm_compute. reflexivity.
  - unfold painted_stroke. vm_compute. repeat split; try discriminate.
Qed.
(** A marker is scaled by the stroke-width even if there is no stroke. *)
Definition nd_marker (l : list attr) : tree := doc [el 1 ESvg [] [eli 2 EMarker "m" [] []; el 3 EPath (l ++ [at_ AMarkerEnd (VFunc 2)]) []]].
Theorem C32_marker_refuted : exists t t' p p', WF t /\ WFA t /\ remove_needless_attributes t = t' /\ corresponding t t' p p' /\ own_marker (data (snd p)) /\ own_marker (data (snd p')) /\
  computed_written nd_defaults (data (snd p) :: fst p) AStrokeWidth = Some (px 3) /\ computed_written nd_defaults (data (snd p') :: fst p') AStrokeWidth = Some (px 1).
Proof.
  exists (nd_marker [at_ AStroke none_; at_ AStrokeWidth (px 3)]), (nd_marker []). eexists (_, T (ND 3 (TEl EPath) "" _) []), (_, T (ND 3 (TEl EPath) "" _) []).
  split. { split; [cbn; repeat constructor; cbn; intuition discriminate|]. intros k Hk. vm_compute in Hk. destruct Hk as [<-|[]]. cbn. auto. }
  split; [unfold nd_marker, WFA; cbn [flat flat_map app doc el eli]; repeat (apply Forall_cons || apply Forall_nil); unfold attrs_nodup; cbn; repeat constructor; cbn; intuition discriminate|].
  split; [vm_compute; reflexivity|]. split; [split; [cbn; right; right; right; left; reflexivity|split; [cbn; right; right; right; left; reflexivity|reflexivity]]|].
  split; [exists AMarkerEnd; split; [cbn; auto|discriminate]|]. split; [exists AMarkerEnd; split; [cbn; auto|discriminate]|]. split; vm_compute; reflexivity.
Qed.
