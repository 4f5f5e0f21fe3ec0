(** Removing titles, descriptions and metadata. *)
From Coq Require Import List Bool NArith Arith ZArith String QArith Qcanon Lia.
From Verif Require Import Names Num Value Dom DomFacts DomOps IdNum Outcome SpecDom SpecStyle SpecText SpecPaint PaintFacts Visit TasksSimple TasksSimpleProofs Img Push SpecUse SpecUngroup SpecGroupStyle SpecPicture PictureSim PictureTwin.
From Verif Require MergeProofs DomRemove MoveFacts.
Import ListNotations.
Local Open Scope nat_scope.

Lemma remark_tag_in d : remark d = true -> exists e, tag d = TEl e /\ In e [ETitle; EDesc; EMetadata].
Proof. unfold remark. intros H. apply orb_true_iff in H. destruct H as [H|H]; [apply orb_true_iff in H; destruct H as [H|H]|]; apply is_tag_iff in H; eexists; split; try exact H; cbn; auto. Qed.
Lemma remark_dull d : remark d = true -> ~ painted_el d /\ tag d <> TEl ESymbol /\ tag d <> TEl EG /\ ~ resource d /\ tag d <> TEl EDefs.
Proof.
  intros H. apply remark_tag_in in H. destruct H as (e & E & I). unfold painted_el, shape_el, group_el, resource. rewrite E. repeat split; try (intros X; inversion X; subst; cbn in I; intuition discriminate).
  - intros [(e' & X & J)|[[X|X]|[X|[X|X]]]]; inversion X; subst; cbn in I; try (cbn in J); intuition (subst; discriminate).
  - intros (e' & X & J). inversion X; subst. cbn in I, J. intuition (subst; discriminate).
Qed.
Section Prune.
  Variable p : ndata -> bool.
  Definition keep (c : tree) : list tree := if p (data c) then [] else [pruned p c].
  Lemma pruned_T d ch : pruned p (T d ch) = T d (flat_map keep ch). Proof. reflexivity. Qed.
  Lemma pruned_kids s : kids (pruned p s) = flat_map keep (kids s). Proof. destruct s. reflexivity. Qed.
  Lemma pruned_root s : root_key (pruned p s) = root_key s. Proof. destruct s. reflexivity. Qed.
  Lemma pruned_data s : data (pruned p s) = data s. Proof. destruct s. reflexivity. Qed.
  Lemma in_keep c l : In c (flat_map keep l) <-> exists x, In x l /\ p (data x) = false /\ c = pruned p x.
  Proof.
    rewrite in_flat_map. split.
    - intros (x & Hx & Hc). unfold keep in Hc. destruct (p (data x)) eqn:E; [destruct Hc|]. destruct Hc as [<-|[]]. eauto.
    - intros (x & Hx & E & ->). exists x. split; [exact Hx|]. unfold keep. rewrite E. now left.
  Qed.
  Variable t : tree.
  Hypothesis N : NoDup (keys t).
  (** Nothing refers into the subtrees that go; in a shape nothing is lost, and of a switch no child; they are not painted. *)
  Hypothesis p_free : forall s k, In s (subs t) -> p (data s) = true -> In k (keys s) -> ~ referenced t k.
  Hypothesis p_shape : forall s, In s (subs t) -> shape_el (data s) -> flat_map bare (flat_map keep (kids s)) = flat_map bare (kids s).
  Hypothesis p_switch : forall s c, In s (subs t) -> tag (data s) = TEl ESwitch -> In c (kids s) -> p (data c) = false.
  Hypothesis p_dull : forall d, In d (flat t) -> p d = true -> ~ painted_el d.
  Definition U (d : ndata) : Prop := In d (flat t).
  Lemma pruned_sim s : In s (subs t) -> sim U s (pruned p s).
  Proof.
    induction s as [d ch IH] using tree_ind'. intros Hs. rewrite pruned_T. rewrite Forall_forall in IH. assert (IH' : forall c, In c ch -> sim U c (pruned p c)) by (intros c Hc; apply IH; [exact Hc|]; exact (kid_sub (T d ch) c t Hs Hc)).
    destruct (kind_cases d) as [K|[K|[K|[K|[K1 K2]]]]].
    - apply sim_shape; auto using alike_refl. symmetry. exact (p_shape (T d ch) Hs K).
    - apply sim_switch; auto using alike_refl. assert (Q : forall c, In c ch -> p (data c) = false) by (intros c Hc; exact (p_switch (T d ch) c Hs K Hc)).
      clear IH Hs. induction ch as [|c ch IH2]; [constructor|]. cbn [flat_map]. unfold keep at 1. rewrite (Q c) by now left. cbn [app]. constructor; [apply IH'; now left|rewrite pruned_data; reflexivity|now rewrite pruned_data|]. apply IH2; intros; [apply IH'|apply Q]; now right.
    - assert (Hk : forall c, In c ch -> In (data c) (flat t)) by (intros c Hc; apply data_of_sub; exact (kid_sub (T d ch) c t Hs Hc)). apply sim_box; auto using alike_refl. clear IH Hs. induction ch as [|c ch IH2]; [constructor|]. cbn [flat_map]. unfold keep at 1. destruct (p (data c)) eqn:E; cbn [app].
      + apply sims_left; [apply (p_dull (data c)); [apply Hk; now left|exact E]|]. apply IH2; intros; [apply IH'|apply Hk]; now right.
      + apply sims_cons; [apply IH'; now left|]. apply IH2; intros; [apply IH'|apply Hk]; now right.
    - apply sim_use; auto using alike_refl. exact (data_of_sub _ _ Hs).
    - apply sim_dead; auto.
  Qed.
  Lemma pruned_sims s : In s (subs t) -> sims U (kids s) (kids (pruned p s)).
  Proof.
    intros Hs. rewrite pruned_kids. assert (IH' : forall c, In c (kids s) -> sim U c (pruned p c)) by (intros c Hc; apply pruned_sim; exact (kid_sub s c t Hs Hc)).
    assert (Hk : forall c, In c (kids s) -> In (data c) (flat t)) by (intros c Hc; apply data_of_sub; exact (kid_sub s c t Hs Hc)). revert IH' Hk. generalize (kids s) as ch. induction ch as [|c ch IH2]; intros IH' Hk; [constructor|]. cbn [flat_map]. unfold keep at 1. destruct (p (data c)) eqn:E; cbn [app].
    + apply sims_left; [apply (p_dull (data c)); [apply Hk; now left|exact E]|]. apply IH2; intros; [apply IH'|apply Hk]; now right.
    + apply sims_cons; [apply IH'; now left|]. apply IH2; intros; [apply IH'|apply Hk]; now right.
  Qed.
  Definition g (c : tree) : option (list tree) := if p (data c) then Some [] else None.
  Lemma pruned_img s : pruned p s = img g s.
  Proof.
    induction s as [d ch IH] using tree_ind'. rewrite pruned_T, img_T. f_equal. induction ch as [|c ch IH2]; [reflexivity|]. cbn [flat_map]. rewrite IH2 by exact (Forall_inv_tail IH). f_equal. unfold keep, rpl, g. destruct (p (data c)); [reflexivity|]. now rewrite (Forall_inv IH).
  Qed.
  Lemma sub_of_kids s x : In x (flat_map subs (kids s)) -> In x (subs s). Proof. destruct s. cbn. auto. Qed.
  Lemma pruned_sub s : In s (subs t) -> referenced t (root_key s) -> In (pruned p s) (subs (pruned p t)).
  Proof.
    intros Hs R. rewrite !pruned_img. apply img_sub; [exact Hs|]. intros r Hr Gr K. unfold g in Gr. destruct (p (data r)) eqn:E; [|contradiction]. exact (p_free r (root_key s) (sub_of_kids _ _ Hr) E K R).
  Qed.
  Lemma pruned_subs s' : In s' (subs (pruned p t)) -> exists s, In s (subs t) /\ s' = pruned p s. Proof. apply subs_pruned_incl. Qed.
  Lemma pruned_places0 s0 : forall a0 a s', In (a, s') (places a0 (pruned p s0)) -> exists s, In (a, s) (places a0 s0) /\ s' = pruned p s.
  Proof.
    induction s0 as [d ch IH] using tree_ind'. intros a0 a s'. rewrite pruned_T. cbn [places]. intros [E|I].
    - inversion E; subst. exists (T d ch). split; [now left|reflexivity].
    - apply in_flat_map in I. destruct I as (c' & Hc' & I). apply in_keep in Hc'. destruct Hc' as (c & Hc & _ & ->). rewrite Forall_forall in IH. destruct (IH c Hc _ _ _ I) as (s & Hs & E). exists s. split; [|exact E]. right. apply in_flat_map. eauto.
  Qed.
  Lemma link_referenced d k a : In d (flat t) -> d_get d a = Some (VLink k) -> referenced t k.
  Proof.
    intros Hd E. exists d. split; [exact Hd|]. unfold d_get, get_value, get_attr in E. destruct (find _ _) as [x|] eqn:F; [|discriminate]. apply find_some in F. exists x. split; [apply F|]. inversion E as [E']. now rewrite E'.
  Qed.
  Lemma pruned_svg s : svg_element t = Some s -> svg_element (pruned p t) = Some (pruned p s).
  Proof.
    unfold svg_element. rewrite pruned_kids. assert (Hk : forall c, In c (kids t) -> In (data c) (flat t)) by (intros c Hc; apply data_of_sub; exact (kid_sub t c t (subs_self t) Hc)). revert Hk. generalize (kids t) as l. induction l as [|c l IH]; intros Hk; [discriminate|]. specialize (IH (fun c Hc => Hk c (or_intror Hc))). cbn [find flat_map]. unfold keep at 1. destruct (p (data c)) eqn:E.
    - destruct (is_tag ESvg (data c)) eqn:S; [|exact IH]. exfalso. apply is_tag_iff in S. exact (p_dull (data c) (Hk c (or_introl eq_refl)) E (painted_svg _ S)).
    - cbn [app find]. rewrite pruned_data. destruct (is_tag ESvg (data c)); [|exact IH]. intros X. inversion X; reflexivity.
  Qed.
  Lemma pruned_looks uu : same_picture uu t (pruned p t).
  Proof.
    assert (HU : forall d s, U d -> In s (subs t) -> d_get d AXlinkHref = Some (VLink (root_key s)) -> exists s', In s' (subs (pruned p t)) /\ root_key s' = root_key s /\ sim U s s').
    { intros d s Hd Hs E. exists (pruned p s). split; [apply pruned_sub; [exact Hs|exact (link_referenced d _ _ Hd E)]|]. split; [apply pruned_root|now apply pruned_sim]. }
    assert (HN : forall d s', U d -> In s' (subs (pruned p t)) -> d_get d AXlinkHref = Some (VLink (root_key s')) -> exists s, In s (subs t) /\ root_key s = root_key s').
    { intros d s' _ Hs _. destruct (pruned_subs s' Hs) as (s & Hs' & ->). exists s. split; [exact Hs'|]. symmetry. apply pruned_root. }
    constructor.
    - intros l P. assert (E : exists s, svg_element t = Some s) by (destruct P as (s & E & _); eauto). destruct E as (s & E). assert (Hs : In s (subs t)). { unfold svg_element in E. apply find_some in E. apply (kid_sub t s t); [apply subs_self|apply E]. }
      apply (picture_sim uu t (pruned p t) U HU HN s (pruned p s) E (pruned_svg s E) (pruned_sim s Hs)); [|exact P]. rewrite pruned_data. apply same_style_refl.
    - intros d' Hd' R. destruct (in_place d' _ [] Hd') as (a & s' & H' & <-). destruct (pruned_places0 t [] a s' H') as (s & H & ->). rewrite pruned_data in *. exists (data s). split; [exact (place_in _ _ _ _ H)|]. repeat split; auto.
      pose proof (MoveFacts.place_sub _ _ _ _ H) as Hs.
      apply (content_sim uu t (pruned p t) U HU HN (key (data s)) a s a (pruned p s) N H eq_refl H'); [apply pruned_root|now apply pruned_sims| |exact H0]. rewrite pruned_data. apply same_style_refl.
  Qed.
End Prune.

Section Remarks.
  Variable p : ndata -> bool.
  Hypothesis p_remark : forall d, p d = true -> remark d = true.
  Lemma bare_pruned s : bare (pruned p s) = bare s.
  Proof.
    induction s as [d ch IH] using tree_ind'. rewrite pruned_T. cbn [bare]. destruct (remark d); [reflexivity|]. do 2 f_equal. induction ch as [|c ch IH2]; [reflexivity|]. cbn [flat_map]. rewrite flat_map_app, IH2 by exact (Forall_inv_tail IH). f_equal.
    unfold keep. destruct (p (data c)) eqn:E; cbn [flat_map]; [|rewrite app_nil_r; exact (Forall_inv IH)]. apply p_remark in E. destruct c as [dc cc]. cbn [data] in E. cbn [bare]. now rewrite E.
  Qed.
  Lemma bares_pruned l : flat_map bare (flat_map (keep p) l) = flat_map bare l.
  Proof.
    induction l as [|c l IH]; [reflexivity|]. cbn [flat_map]. rewrite flat_map_app, IH. f_equal. unfold keep. destruct (p (data c)) eqn:E; cbn [flat_map]; [|rewrite app_nil_r; apply bare_pruned]. apply p_remark in E. destruct c as [dc cc]. cbn [data] in E. cbn [bare]. now rewrite E.
  Qed.
  Variable t : tree.
  Hypothesis A : remarks_apart t.
  Lemma rm_free s k : In s (subs t) -> p (data s) = true -> In k (keys s) -> ~ referenced t k.
  Proof. intros Hs E. apply (ra_links _ A); auto. Qed.
  Lemma rm_switch s c : In s (subs t) -> tag (data s) = TEl ESwitch -> In c (kids s) -> p (data c) = false.
  Proof. intros Hs K Hc. destruct (p (data c)) eqn:E; [|reflexivity]. destruct (ra_place _ A s c Hs Hc (p_remark _ E)) as [_ X]. contradiction. Qed.
  Lemma rm_dull d : In d (flat t) -> p d = true -> ~ painted_el d.
  Proof. intros _ E. now apply remark_dull, p_remark. Qed.
  Lemma pruned_same uu : NoDup (keys t) -> same_picture uu t (pruned p t).
  Proof. intros N. apply (pruned_looks p t N rm_free (fun s _ _ => bares_pruned (kids s)) rm_switch rm_dull). Qed.
End Remarks.

Section Ready.
  Variable p : ndata -> bool.
  Variable t : tree.
  (** The nodes that go are not painted, are not defs, and are not children of groups. *)
  Hypothesis p_dull : forall d, In d (flat t) -> p d = true -> ~ painted_el d.
  Hypothesis p_defs : forall d, In d (flat t) -> p d = true -> tag d <> TEl EDefs.
  Hypothesis p_group : forall s c, In s (subs t) -> In c (kids s) -> p (data c) = true -> tag (data s) <> TEl EG.
  Hypothesis W' : WF (pruned p t).
  Lemma pr_flat s d : In d (flat (pruned p s)) -> In d (flat s). Proof. apply (sublist_incl _ _ (flat_prune_sublist _ s)). Qed.
  Lemma pr_inside s d : In d (inside (pruned p s)) -> In d (inside s).
  Proof.
    unfold inside. rewrite pruned_kids. intros H. apply in_flat_map in H. destruct H as (c' & Hc' & H). apply in_keep in Hc'. destruct Hc' as (c & Hc & _ & ->). apply in_flat_map. exists c. split; [exact Hc|now apply pr_flat].
  Qed.
  Lemma pr_referenced k : referenced (pruned p t) k -> referenced t k. Proof. intros (d & Hd & R). exists d. split; [now apply pr_flat|exact R]. Qed.
  Lemma pr_group s : group (pruned p s) <-> group s. Proof. unfold group. now rewrite pruned_data. Qed.
  Lemma pr_hollow s : In s (subs t) -> group s -> not_hollow s -> not_hollow (pruned p s).
  Proof.
    induction s as [d ch IH] using tree_ind'. intros Hs G (x & Hx & Gx). unfold inside in Hx. cbn [kids] in Hx. apply in_flat_map in Hx. destruct Hx as (c & Hc & Hx).
    assert (Hcs : In c (subs t)) by exact (kid_sub (T d ch) c t Hs Hc). assert (Pc : p (data c) = false). { destruct (p (data c)) eqn:E; [|reflexivity]. now destruct (p_group (T d ch) c Hs Hc E). }
    assert (In' : In (pruned p c) (kids (pruned p (T d ch)))). { rewrite pruned_kids. apply in_keep. eauto. }
    destruct (is_tag EG (data c)) eqn:Gc.
    - apply is_tag_iff in Gc. destruct c as [dc cc]. cbn [flat] in Hx. destruct Hx as [<-|Hx]; [contradiction|]. rewrite Forall_forall in IH. destruct (IH (T dc cc) Hc Hcs Gc) as (y & Hy & Gy); [exists x; split; [exact Hx|exact Gx]|].
      exists y. split; [|exact Gy]. unfold inside. apply in_flat_map. exists (pruned p (T dc cc)). split; [exact In'|]. rewrite pruned_T. cbn [flat]. right. exact Hy.
    - exists (data c). split; [|intros X; apply is_tag_iff in X; congruence]. unfold inside. apply in_flat_map. exists (pruned p c). split; [exact In'|]. destruct c. rewrite pruned_T. now left.
  Qed.
  Lemma pr_own : own_ids t -> own_ids (pruned p t).
  Proof. intros O d n Hd Hn R. apply pr_flat in Hd, Hn. destruct (O d n Hd Hn R) as [I J]. split; [exact I|]. intros x Hx. apply J, pr_flat, Hx. Qed.
  Lemma pr_wfa : WFA t -> WFA (pruned p t).
  Proof. unfold WFA. rewrite !Forall_forall. intros H d Hd. apply H, pr_flat, Hd. Qed.
  Lemma pr_gready : gready t -> gready (pruned p t).
  Proof.
    intros R. constructor.
    - exact W'.
    - apply pr_wfa, R.
    - rewrite pruned_data. apply R.
    - destruct (g_svg _ R) as (s & E). exists (pruned p s). exact (pruned_svg p t p_dull s E).
    - intros c Hc. rewrite pruned_kids in Hc. apply in_keep in Hc. destruct Hc as (x & Hx & _ & ->). rewrite pr_group. exact (g_top _ R x Hx).
    - apply pr_own, R.
    - intros a s' q H G Hq. destruct (pruned_places0 p t [] a s' H) as (s & Hs & ->). rewrite pr_group in G. exact (g_shape _ R a s q Hs G Hq).
    - intros a s' q H G Hq T. destruct (pruned_places0 p t [] a s' H) as (s & Hs & ->). rewrite pr_group in G. destruct (g_switch _ R a s q Hs G Hq T) as [X Y]. split; [apply pr_hollow; auto; exact (MoveFacts.place_sub _ _ _ _ Hs)|].
      intros c Hc. rewrite pruned_kids in Hc. apply in_keep in Hc. destruct Hc as (x & Hx & _ & ->). rewrite pruned_data. auto.
    - intros s' Hs' G Rf. destruct (pruned_subs p t s' Hs') as (s & Hs & ->). rewrite pr_group in G. rewrite pruned_root in Rf. apply pr_hollow; auto. apply (g_used _ R s Hs G), pr_referenced, Rf.
    - intros d a v Hd. apply (g_attrs _ R d a v). now apply pr_flat.
    - intros d v Hd. apply (g_opacity _ R d v). now apply pr_flat.
    - intros d v Hd. apply (g_trans _ R d v). now apply pr_flat.
    - intros s' d Hs' G Hd. destruct (pruned_subs p t s' Hs') as (s & Hs & ->). rewrite pr_group in G. exact (g_below _ R s d Hs G (pr_inside _ _ Hd)).
    - intros s' d Hs' G Ts Hd. destruct (pruned_subs p t s' Hs') as (s & Hs & ->). rewrite pr_group in G. rewrite pruned_data in Ts. destruct (g_moved _ R s d Hs G Ts (pr_inside _ _ Hd)) as [X Y]. split; [exact X|]. intros Z. apply Y, pr_referenced, Z.
  Qed.
  Lemma pr_sready : sready t -> sready (pruned p t).
  Proof.
    intros R. constructor.
    - exact W'.
    - apply pr_wfa, R.
    - rewrite pruned_data. apply R.
    - destruct (s_svg _ R) as (s & E & U). exists (pruned p s). split; [exact (pruned_svg p t p_dull s E)|]. rewrite pruned_root. intros Z. apply U, pr_referenced, Z.
    - apply pr_own, R.
    - intros a s' q H G Hq. destruct (pruned_places0 p t [] a s' H) as (s & Hs & ->). rewrite pruned_data in G. exact (s_shape _ R a s q Hs G Hq).
    - intros d v Hd. apply (s_trans _ R d v). now apply pr_flat.
    - intros d a v Hd. apply (s_effects _ R d a v). now apply pr_flat.
    - intros a s' H Q. destruct (pruned_places0 p t [] a s' H) as (s & Hs & ->). rewrite pruned_data in *. exact (s_res _ R a s Hs Q).
    - intros d Hd. apply (s_viewts _ R d). now apply pr_flat.
    - intros s' Hs' G. destruct (pruned_subs p t s' Hs') as (s & Hs & ->). rewrite pruned_data in G. destruct (s_views _ R s Hs G) as [(c & Hc & Tc)|Q].
      + left. exists (pruned p c). rewrite pruned_data. split; [|exact Tc]. rewrite pruned_kids. apply in_keep. exists c. split; [exact Hc|]. split; [|reflexivity]. destruct (p (data c)) eqn:E; [|reflexivity]. apply p_defs in E; [contradiction|]. apply data_of_sub. exact (kid_sub s c t Hs Hc).
      + right. intros d Hd. apply Q, pr_inside, Hd.
  Qed.
  Lemma pr_apart : remarks_apart t -> remarks_apart (pruned p t).
  Proof.
    intros A. constructor.
    - intros s' k Hs' R K Rf. destruct (pruned_subs p t s' Hs') as (s & Hs & ->). rewrite pruned_data in R. apply (ra_links _ A s k Hs R); [|now apply pr_referenced]. apply (sublist_incl _ _ (keys_prune_sublist _ s)) in K. exact K.
    - intros s' c' Hs' Hc' R. destruct (pruned_subs p t s' Hs') as (s & Hs & ->). rewrite pruned_kids in Hc'. apply in_keep in Hc'. destruct Hc' as (c & Hc & _ & ->). rewrite pruned_data in *. exact (ra_place _ A s c Hs Hc R).
  Qed.
End Ready.
Lemma remove_remark e t : In e [ETitle; EDesc; EMetadata] -> NoDup (keys t) -> remarks_apart t -> remove_element e t = pruned (is_tag e) t.
Proof.
  intros I N A. unfold remove_element. rewrite (drain_closed (is_tag e) t N) by reflexivity. f_equal. apply MergeProofs.unlink_none. intros d k Hd Hk R. unfold below in Hk. apply in_flat_map in Hk. destruct Hk as (s & Hs & Hk). destruct (is_tag e (data s)) eqn:E; [|destruct Hk].
  apply (ra_links _ A s k (sub_of_kids _ _ Hs)); [|exact Hk|exists d; auto]. apply is_tag_iff in E. unfold remark. cbn in I. destruct I as [<-|[<-|[<-|[]]]]; rewrite (proj2 (is_tag_iff _ _) E), ?orb_true_r; reflexivity.
Qed.
