(** Property C33: unused coordinates. Specification: SpecCoords.v. *)
From Coq Require Import List Bool NArith Arith ZArith String Lia QArith Qcanon.
From Verif Require Import Names Num Value Dom DomFacts DomOps Outcome DomRemove Stops SpecStops AttrFacts StopsProofs NPass SpecDom SpecWritten Transforms VLoop Gradients SpecGradients GradProofs GradTransProofs Props_gradtrans UnusedCoords SpecCoords HideFacts.
Import ListNotations.
Local Open Scope nat_scope.

Definition coords_change (t : tree) (d : ndata) : ndata := hide_all (unused_coords t d) d.
Lemma coords_key t d : key (coords_change t d) = key d. Proof. apply hide_all_node. Qed.
Lemma coords_tag t d : tag (coords_change t d) = tag d. Proof. apply hide_all_node. Qed.

Lemma opt_value_eqb_true x y : opt_value_eqb x y = true -> x = y.
Proof. destruct x as [v|], y as [w|]; cbn; try discriminate; [|reflexivity]. destruct (value_eqb_spec v w); [congruence|discriminate]. Qed.
Lemma rm_focus_in t d f c a : In a (rm_focus t d f c) -> a = f /\ d_has d f = true /\ d_has d c = true /\ d_get d f = d_get d c /\ no_radial_user t d = true.
Proof.
  unfold rm_focus. destruct (d_has d f); cbn [andb]; [|intros []]. destruct (d_has d c); cbn [andb]; [|intros []].
  destruct (opt_value_eqb (d_get d f) (d_get d c)) eqn:E; cbn [andb]; [|intros []]. destruct (no_radial_user t d); [|intros []].
  apply opt_value_eqb_true in E. intros [<-|[]]. auto.
Qed.
Lemma unused_has t d a : In a (unused_coords t d) -> d_has d a = true.
Proof.
  unfold unused_coords. destruct (tag d) as [|e| | | |]; try (intros []). destruct e; try (intros []).
  - destruct (links_radial t d); [intros []|]. intros H. apply in_app_or in H. destruct H as [H|H]; apply rm_focus_in in H; destruct H as (-> & H & _); exact H.
  - destruct (d_has d ARx) eqn:E; [|intros []]. cbn [andb]. destruct (opt_value_eqb _ _) eqn:V; [|intros []]. intros [<-|[]]. apply opt_value_eqb_true in V.
    revert V E. unfold d_get, get_value, d_has, has_attr. destruct (get_attr (attrs d) ARx), (get_attr (attrs d) ARy); congruence.
  - destruct (child_of_root t d); [|intros []]. intros H. apply in_app_or in H.
    destruct H as [H|H]; [destruct (d_has d AX) eqn:E|destruct (d_has d AY) eqn:E]; cbn in H; intuition (subst; assumption).
Qed.
Lemma child_of_root_iff t d : child_of_root t d = true <-> In (key d) (map root_key (kids t)).
Proof.
  unfold child_of_root. rewrite existsb_exists, in_map_iff. split; intros (c & A & B); exists c.
  - apply Nat.eqb_eq in B. auto.
  - subst. rewrite A, Nat.eqb_refl. auto.
Qed.
Lemma unused_may t d a : In a (unused_coords t d) -> may_hide t d a.
Proof.
  unfold unused_coords, may_hide. destruct (tag d) as [|e| | | |]; try (intros []). destruct e; try (intros []).
  - destruct (links_radial t d); [intros []|]. intros H. apply in_app_or in H. destruct H as [H|H]; apply rm_focus_in in H; destruct H as (-> & _); cbn; auto.
  - destruct (_ && _); [|intros []]. intros [<-|[]]. reflexivity.
  - destruct (child_of_root t d) eqn:E; [|intros []]. apply child_of_root_iff in E. intros H. split; [exact E|]. apply in_app_or in H.
    destruct H as [H|H]; [destruct (d_has d AX)|destruct (d_has d AY)]; cbn in H |- *; intuition auto.
Qed.

(** Hiding does not influence the decisions. *)
Lemma unused_visited t done d : unused_coords (visited (coords_change t) done t) d = unused_coords t d.
Proof.
  set (h := fun x => if mem (key x) done then coords_change t x else x).
  assert (Hk : forall x, key (h x) = key x) by (intros x; unfold h; destruct (mem _ _); [apply coords_key|reflexivity]).
  assert (Ht : forall x, tag (h x) = tag x) by (intros x; unfold h; destruct (mem _ _); [apply coords_tag|reflexivity]).
  assert (C : child_of_root (tmap h t) d = child_of_root t d).
  { unfold child_of_root. destruct t as [r ch]. cbn [tmap kids]. rewrite existsb_map. apply existsb_ext_in. intros [x l] _. cbn. unfold root_key. cbn. now rewrite Hk. }
  assert (L : links_radial (tmap h t) d = links_radial t d).
  { unfold links_radial. destruct (d_get d AXlinkHref) as [v|]; [|reflexivity]. destruct v; try reflexivity. rewrite find_data_tmap by exact Hk.
    destruct (find_data k t) as [x|]; [|reflexivity]. cbn. unfold is_tag. now rewrite Ht. }
  assert (U : no_radial_user (tmap h t) d = no_radial_user t d).
  { unfold no_radial_user. f_equal. rewrite flat_tmap, existsb_map. apply existsb_ext_in. intros x _. unfold is_tag. rewrite Ht. f_equal.
    unfold h. destruct (mem _ _); [apply hide_all_refers|reflexivity]. }
  assert (F : forall f c, rm_focus (tmap h t) d f c = rm_focus t d f c) by (intros f c; unfold rm_focus; now rewrite U).
  unfold visited. fold h. unfold unused_coords. rewrite C, L, !F. reflexivity.
Qed.
Lemma coords_pass t : NoDup (keys t) -> remove_unused_coordinates t = Ok (tmap (coords_change t) t).
Proof.
  intros N. unfold remove_unused_coordinates. rewrite (vloop_closed coords_visit (coords_change t) t N (coords_key t) (keys t) N (incl_refl _)).
  - f_equal. unfold visited. apply tmap_ext. intros x Hx. assert (M : mem (key x) (keys t) = true); [|now rewrite M]. unfold mem. apply mem_in. apply in_map, Hx.
  - intros done k rest d _ Hd _. unfold coords_visit. rewrite unused_visited.
    assert (A : forallb (d_has d) (unused_coords t d) = true) by (apply forallb_forall; intros a; apply unused_has). now rewrite A.
Qed.
Lemma no_fx_hidden t d a : In a (unused_coords t d) -> tag d <> TEl ERadialGradient -> ~ In a [AFx; AFy] /\ ~ gradient_node d.
Proof.
  intros H Nr. pose proof (unused_may _ _ _ H) as M. unfold may_hide in M. split.
  - destruct (tag d) as [|e| | | |]; try contradiction. destruct e; try contradiction.
    + subst. cbn. intuition discriminate.
    + destruct M as [_ M]. cbn in *. intuition congruence.
  - intros [G|G]; [|contradiction]. rewrite G in M. exact M.
Qed.

Section Gradient.
Variable t : tree.
Hypothesis (N : NoDup (keys t)) (A : WFA t) (R : resolved t) (GH : gradient_hrefs t) (LO : linear_only t).
Hypothesis HV : forall d x, In d (flat t) -> gradient_node d -> In x (attrs d) -> a_name x = AN AXlinkHref -> a_vis x = true.
Hypothesis CE : forall d, In d (flat (written t)) -> gradient_node d -> chain_ends (written t) d.
Let g := coords_change t.
Let t' := tmap g t.
Lemma nodup_of d : In d (flat t) -> attrs_nodup d. Proof. exact (proj1 (Forall_forall _ _) A d). Qed.
Lemma c_vis_href d : In d (flat t) -> gradient_node d -> d_get (vis d) AXlinkHref = d_get d AXlinkHref.
Proof.
  intros Hd G. rewrite vis_dget by now apply nodup_of. unfold d_get, get_value.
  destruct (get_attr (attrs d) AXlinkHref) as [x|] eqn:E; [|reflexivity]. apply get_attr_some in E. now rewrite (HV d x Hd G (proj1 E) (proj2 E)).
Qed.
Lemma grad_hides d a : gradient_node d -> In a (unused_coords t d) -> tag d = TEl ERadialGradient /\ In a [AFx; AFy] /\ no_radial_user t d = true /\ links_radial t d = false /\
  d_get d a = d_get d (if aid_eqb a AFx then ACx else ACy) /\ d_has d a = true.
Proof.
  intros G H. assert (T : tag d = TEl ERadialGradient).
  { destruct G as [G|G]; [|exact G]. exfalso. unfold unused_coords in H. rewrite G in H. exact H. }
  split; [exact T|]. pose proof (unused_has _ _ _ H) as Ha. revert H. unfold unused_coords. rewrite T. destruct (links_radial t d); [intros []|]. intros H. apply in_app_or in H.
  destruct H as [H|H]; apply rm_focus_in in H; destruct H as (-> & _ & _ & E & U); cbn; auto 10.
Qed.
Lemma g_vis d a : In d (flat t) -> ~ In a (unused_coords t d) -> d_get (vis (g d)) a = d_get (vis d) a.
Proof.
  intros Hd H. unfold g, coords_change. rewrite hide_all_vis by now apply nodup_of.
  destruct (existsb (aid_eqb a) (unused_coords t d)) eqn:E; [|reflexivity]. apply existsb_exists in E. destruct E as (b & Hb & E).
  destruct (aid_eqb_spec a b); [subst; contradiction|discriminate].
Qed.
Lemma g_vis_hidden d a : In d (flat t) -> In a (unused_coords t d) -> d_get (vis (g d)) a = None.
Proof.
  intros Hd H. unfold g, coords_change. rewrite hide_all_vis by now apply nodup_of.
  assert (E : existsb (aid_eqb a) (unused_coords t d) = true) by (apply existsb_exists; exists a; split; [exact H|apply aid_eqb_refl]). now rewrite E.
Qed.
Lemma g_href d : In d (flat t) -> gradient_node d -> d_get (vis (g d)) AXlinkHref = d_get (vis d) AXlinkHref.
Proof. intros Hd G. apply g_vis; [exact Hd|]. intros H. apply grad_hides in H; [|exact G]. destruct H as (_ & [H|[H|[]]] & _); discriminate. Qed.
Lemma g_in d : In d (flat t) -> In (vis (g d)) (flat (written t')).
Proof. intros Hd. apply vis_node_in. unfold t'. rewrite flat_tmap. now apply in_map. Qed.
(** A gradient that is referenced by a gradient does not lose its focus. *)
Lemma target_kept d x : In d (flat t) -> gradient_node d -> In x (flat t) -> d_get d AXlinkHref = Some (VLink (key x)) -> forall a, ~ In a (unused_coords t x).
Proof.
  intros Hd G Hx E a H. destruct (GH d _ Hd G E) as (k & x' & Ek & Hx' & Kx & Gx). injection Ek as <-.
  assert (x' = x) by (apply (data_unique t); auto). subst x'. apply grad_hides in H; [|exact Gx]. destruct H as (Tx & _ & U & _).
  destruct G as [G|G].
  - destruct (LO d Hd G) as (_ & _ & L). rewrite (L _ _ E Hx eq_refl) in Tx. discriminate.
  - unfold no_radial_user in U. apply negb_true_iff in U. assert (X : existsb (fun z => is_tag ERadialGradient z && existsb (refers (key x)) (attrs z)) (flat t) = true); [|congruence].
    apply existsb_exists. exists d. split; [exact Hd|]. unfold is_tag. rewrite G. cbn. apply refers_existsb. now apply href_refers.
Qed.
Lemma along_g a r y : along_href (written t) a y r -> forall d, y = vis d -> In d (flat t) -> gradient_node d -> ~ In a (unused_coords t d) -> along_href (written t') a (vis (g d)) r.
Proof.
  intros H. induction H as [y v E|y E H|y k z r E H Hz Kz Hr IH]; intros d -> Hd G C.
  - apply ah_own. now rewrite g_vis.
  - apply ah_end; [now rewrite g_vis|now rewrite g_href].
  - unfold written in Hz. rewrite flat_tmap in Hz. apply in_map_iff in Hz. destruct Hz as (x & <- & Hx). cbn in Kz.
    assert (E' : d_get d AXlinkHref = Some (VLink (key x))) by (rewrite <- c_vis_href by assumption; congruence).
    destruct (GH d _ Hd G E') as (k' & x' & Ek & Hx' & Kx' & Gx). injection Ek as <-. assert (x' = x) by (apply (data_unique t); auto). subst x'.
    apply (ah_next _ _ _ (key x) (vis (g x))); [now rewrite g_vis|rewrite g_href by assumption; congruence|now apply g_in| |].
    + apply coords_key.
    + exact (IH x eq_refl Hx Gx (target_kept d x Hd G Hx E' a)).
Qed.
Lemma linear_along a r y : along_href (written t) a y r -> forall d, y = vis d -> In d (flat t) -> tag d = TEl ELinearGradient -> In a [AFx; AFy] -> r = None.
Proof.
  intros H. induction H as [y v E|y E H|y k z r E H Hz Kz Hr IH]; intros d -> Hd T Ha.
  - exfalso. assert (X : d_has d a = false) by (destruct (LO d Hd T) as (L1 & L2 & _); destruct Ha as [<-|[<-|[]]]; assumption).
    rewrite vis_dget in E by now apply nodup_of. unfold d_has, has_attr in X. destruct (get_attr (attrs d) a); discriminate.
  - reflexivity.
  - unfold written in Hz. rewrite flat_tmap in Hz. apply in_map_iff in Hz. destruct Hz as (x & <- & Hx). cbn in Kz.
    apply (IH x); auto. destruct (LO d Hd T) as (_ & _ & L). apply (L k); auto. rewrite <- H. symmetry. apply c_vis_href; [exact Hd|left; exact T].
Qed.
(** The rest of the chain of a gradient that loses its focus has no focus. *)
Lemma along_hider a d : In d (flat t) -> gradient_node d -> In a (unused_coords t d) -> along_href (written t') a (vis (g d)) None.
Proof.
  intros Hd G H. pose proof (grad_hides d a G H) as (T & Ha & U & L & E & Hh).
  destruct (d_get d AXlinkHref) as [v|] eqn:Eh.
  2: { apply ah_end; [now apply g_vis_hidden|]. rewrite g_href, c_vis_href by assumption. exact Eh. }
  destruct (GH d _ Hd G Eh) as (k & x & -> & Hx & Kx & Gx). subst k.
  assert (Tx : tag x = TEl ELinearGradient).
  { destruct Gx as [Gx|Gx]; [exact Gx|]. exfalso. unfold links_radial in L. rewrite Eh, (find_data_in t x N Hx) in L. unfold is_tag in L. rewrite Gx in L. discriminate. }
  destruct (chain_along (written t) a (vis x)) as [r Hr]; [apply CE; [now apply vis_node_in|exact Gx]|].
  pose proof (linear_along a r _ Hr x eq_refl Hx Tx Ha) as ->.
  apply (ah_next _ _ _ (key x) (vis (g x))); [now apply g_vis_hidden|rewrite g_href, c_vis_href; assumption|now apply g_in|apply coords_key|].
  exact (along_g _ _ _ Hr x eq_refl Hx Gx (target_kept d x Hd G Hx Eh a)).
Qed.
Lemma effective_fun (T : tree) d a v w : NoDup (keys T) -> effective T d a v -> effective T d a w -> v = w.
Proof.
  intros NT H. revert w. induction H as [a v H|a H Ha|a v -> H _ IH|a v -> H _ IH]; intros w Hw.
  - inversion Hw as [w' H'|H'|w' E H' X|w' E H' X]; subst; pose proof (along_fun T _ d _ _ NT H H'); congruence.
  - inversion Hw as [w' H'|H'|w' E H' X|w' E H' X]; subst; try reflexivity.
    + pose proof (along_fun T _ d _ _ NT H H'); congruence.
    + exfalso. apply Ha. cbn. auto.
    + exfalso. apply Ha. cbn. auto.
  - inversion Hw as [w' H'|H' Na|w' E H' X|w' E H' X]; subst.
    + pose proof (along_fun T _ d _ _ NT H H'); congruence.
    + exfalso. apply Na. cbn. auto.
    + now apply IH.
    + discriminate.
  - inversion Hw as [w' H'|H' Na|w' E H' X|w' E H' X]; subst.
    + pose proof (along_fun T _ d _ _ NT H H'); congruence.
    + exfalso. apply Na. cbn. auto.
    + discriminate.
    + now apply IH.
Qed.
Lemma written_keys (T : tree) : keys (written T) = keys T.
Proof. unfold written, keys. rewrite flat_tmap, map_map. reflexivity. Qed.
Lemma effective_g d a v : In d (flat t) -> gradient_node d -> In a (gradient_attrs d) -> effective (written t) (vis d) a v -> effective (written t') (vis (g d)) a v.
Proof.
  intros Hd G Ia Hv.
  assert (Oth : forall a v, ~ In a [AFx; AFy] -> effective (written t) (vis d) a v -> effective (written t') (vis (g d)) a v).
  { intros b w Nb H. assert (Nu : ~ In b (unused_coords t d)) by (intros X; apply grad_hides in X; [|exact G]; destruct X as (_ & X & _); contradiction).
    inversion H as [w' H'|H' Na|w' E H' X|w' E H' X]; subst.
    - apply eff_found. exact (along_g _ _ _ H' d eq_refl Hd G Nu).
    - apply eff_default; [|exact Na]. exact (along_g _ _ _ H' d eq_refl Hd G Nu).
    - exfalso. apply Nb. cbn. auto.
    - exfalso. apply Nb. cbn. auto. }
  destruct (existsb (aid_eqb a) (unused_coords t d)) eqn:B.
  - apply existsb_exists in B. destruct B as (b & Hb & B). destruct (aid_eqb_spec a b) as [<-|]; [|discriminate].
    pose proof (grad_hides d a G Hb) as (T & Ha & U & L & E & Hh). pose proof (along_hider a d Hd G Hb) as AL.
    assert (V : v = d_get d a). { apply (effective_fun (written t) (vis d) a); [rewrite written_keys; exact N|exact Hv|]. now apply R. }
    assert (RA : gradient_attrs d = radial_attrs) by (unfold gradient_attrs; now rewrite T).
    destruct Ha as [<-|[<-|[]]]; cbn in E.
    + apply eff_fx; [reflexivity|exact AL|]. apply Oth; [cbn; intuition discriminate|]. rewrite V, E. apply R; [exact Hd|exact G|]. rewrite RA. cbn. auto 10.
    + apply eff_fy; [reflexivity|exact AL|]. apply Oth; [cbn; intuition discriminate|]. rewrite V, E. apply R; [exact Hd|exact G|]. rewrite RA. cbn. auto 10.
  - assert (Nu : ~ In a (unused_coords t d)).
    { intros X. assert (Y : existsb (aid_eqb a) (unused_coords t d) = true) by (apply existsb_exists; exists a; split; [exact X|apply aid_eqb_refl]). congruence. }
    inversion Hv as [w' H'|H' Na|w' E H' X|w' E H' X]; subst.
    + apply eff_found. exact (along_g _ _ _ H' d eq_refl Hd G Nu).
    + apply eff_default; [|exact Na]. exact (along_g _ _ _ H' d eq_refl Hd G Nu).
    + apply eff_fx; [reflexivity|exact (along_g _ _ _ H' d eq_refl Hd G Nu)|]. apply Oth; [cbn; intuition discriminate|exact X].
    + apply eff_fy; [reflexivity|exact (along_g _ _ _ H' d eq_refl Hd G Nu)|]. apply Oth; [cbn; intuition discriminate|exact X].
Qed.
End Gradient.

(** The pass always succeeds and only hides x, y of the root svg element, ry of rects and fx, fy of
    radial gradients. *)
Theorem C33_effect t : NoDup (keys t) -> exists t', remove_unused_coordinates t = Ok t' /\ skeleton t' = skeleton t /\
  Forall2 (fun d d' => hidden_only (may_hide t d) d d') (flat t) (flat t').
Proof.
  intros N. exists (tmap (coords_change t) t). split; [now apply coords_pass|]. split; [apply skeleton_tmap; intros d _; apply coords_key|].
  rewrite flat_tmap. apply Forall2_map_r. intros d Hd. destruct (hide_all_only (unused_coords t d) d) as (P1 & P2 & P3 & P4).
  split; [exact P1|]. split; [exact P2|]. split; [exact P3|]. eapply Forall2_impl; [|exact P4]. cbn. intros x x' [E|[E (a & Ea & Ha)]]; [auto|]. right. split; [exact E|].
  exists a. split; [exact Ea|]. now apply unused_may.
Qed.

Definition hrefs_visible (t : tree) : Prop := forall d x, In d (flat t) -> gradient_node d -> In x (attrs d) -> a_name x = AN AXlinkHref -> a_vis x = true.
Definition chains_end (t : tree) : Prop := forall d, In d (flat (written t)) -> gradient_node d -> chain_ends (written t) d.
(** In the saved document all gradients have the same values in effect. Missing: documents where linear
    gradients refer to radial ones, see C33_mixed_chain_refuted. *)
Theorem C33_gradients_partial t t' : NoDup (keys t) -> WFA t -> resolved t -> gradient_hrefs t -> hrefs_visible t -> chains_end t -> linear_only t ->
  remove_unused_coordinates t = Ok t' ->
  Forall2 (fun d d' => gradient_node d -> same_values (written t) (vis d) (written t') (vis d')) (flat t) (flat t').
Proof.
  intros N A R GH HV CE LO H. rewrite coords_pass in H by exact N. injection H as <-. rewrite flat_tmap. apply Forall2_map_r. intros d Hd G a v Ia Hv.
  apply (effective_g t N A R GH LO HV CE d a v Hd G Ia Hv).
Qed.
(** The corner radii of rects stay the same, in every viewport, unless they are given in percent. *)
Theorem C33_rect_radii_partial t t' w h : NoDup (keys t) -> WFA t -> remove_unused_coordinates t = Ok t' ->
  Forall2 (fun d d' => tag d = TEl ERect -> (forall x, get_attr (attrs d) ARx = Some x -> a_vis x = true) ->
    (forall l, d_get d ARx = Some (VLen l) -> unit l <> UPercent) -> radii w h (vis d') = radii w h (vis d)) (flat t) (flat t').
Proof.
  intros N A H. rewrite coords_pass in H by exact N. injection H as <-. rewrite flat_tmap. apply Forall2_map_r. intros d Hd T V P.
  assert (Nd : attrs_nodup d) by exact (proj1 (Forall_forall _ _) A d Hd).
  unfold coords_change, unused_coords. rewrite T. destruct (d_has d ARx && opt_value_eqb (d_get d ARx) (d_get d ARy)) eqn:B; [|reflexivity].
  apply andb_true_iff in B. destruct B as [B1 B2]. apply opt_value_eqb_true in B2.
  unfold radii, given. rewrite !hide_all_vis by exact Nd. cbn [existsb aid_eqb orb]. change (aid_eqb ARx ARy) with false. change (aid_eqb ARy ARy) with true. cbn [orb].
  assert (VX : d_get (vis d) ARx = d_get d ARx).
  { rewrite vis_dget by exact Nd. unfold d_get, get_value. destruct (get_attr (attrs d) ARx) as [x|] eqn:E; [|reflexivity]. now rewrite (V x eq_refl). }
  assert (VY : d_get (vis d) ARy = d_get d ARx \/ d_get (vis d) ARy = None).
  { rewrite vis_dget by exact Nd. rewrite B2. unfold d_get, get_value. destruct (get_attr (attrs d) ARy) as [y|]; [|auto]. destruct (a_vis y); auto. }
  rewrite VX. destruct VY as [-> | ->]; destruct (d_get d ARx) as [v|] eqn:E; try reflexivity; destruct v; try reflexivity.
  cbn [or_else]. unfold used_len. specialize (P l eq_refl). destruct (unit l); try reflexivity. contradiction.
Qed.

(** A document that meets the hypotheses. *)
Definition hid (a : aid) (v : value) : attr := At (AN a) v false.
Definition pc (n : Z) : value := VLen (Len (zq n) UPercent).
Definition coords_doc (vis : bool) : tree :=
  doc [el 1 ESvg [At (AN AX) (px 5) vis]
         [el 2 ESvg [at_ AX (px 5)] []; el 3 ERect [at_ ARx (px 5); At (AN ARy) (px 5) vis] []; el 4 ERect [at_ ARx (px 5); at_ ARy (px 6)] [];
          eli 5 ERadialGradient "a" [at_ ACx (px 1); at_ ACy (px 2); at_ AR (px 3); At (AN AFx) (px 1) vis; at_ AFy (px 3); hid AGradientUnits (VPre Vid_objectBoundingBox); hid ASpreadMethod (VPre Vid_pad)] []]].
Ltac wfa := unfold WFA; cbn [flat flat_map app doc el eli]; repeat (apply Forall_cons || apply Forall_nil); unfold attrs_nodup; cbn; repeat constructor; cbn; intuition discriminate.
Lemma coords_doc_gradient d : In d (flat (coords_doc true)) -> gradient_node d ->
  d = ND 5 (TEl ERadialGradient) "a" [at_ ACx (px 1); at_ ACy (px 2); at_ AR (px 3); at_ AFx (px 1); at_ AFy (px 3); hid AGradientUnits (VPre Vid_objectBoundingBox); hid ASpreadMethod (VPre Vid_pad)].
Proof. intros Hd G. cbn in Hd. repeat (destruct Hd as [<-|Hd]; [first [reflexivity|exfalso; destruct G; discriminate]|]). destruct Hd. Qed.
Example C33_instance : NoDup (keys (coords_doc true)) /\ WFA (coords_doc true) /\ resolved (coords_doc true) /\ gradient_hrefs (coords_doc true) /\ hrefs_visible (coords_doc true) /\
  chains_end (coords_doc true) /\ linear_only (coords_doc true) /\ remove_unused_coordinates (coords_doc true) = Ok (coords_doc false).
Proof.
  split; [cbn; repeat constructor; cbn; intuition discriminate|]. split; [unfold coords_doc; wfa|]. split; [|split; [|split; [|split; [|split]]]].
  - intros d a Hd G. apply coords_doc_gradient in Hd; [|exact G]. subst d. intros Ha. cbn in Ha.
    repeat (destruct Ha as [<-|Ha]; [first [apply eff_found, ah_own; reflexivity|cbn -[gradient_default]; change (Some (VPre Vid_objectBoundingBox)) with (gradient_default AGradientUnits); apply eff_default; [apply ah_end; reflexivity|cbn; intuition discriminate]|
      change (Some (VPre Vid_pad)) with (gradient_default ASpreadMethod); apply eff_default; [apply ah_end; reflexivity|cbn; intuition discriminate]|
      apply (eff_default _ _ AGradientTransform); [apply ah_end; reflexivity|cbn; intuition discriminate]]|]). destruct Ha.
  - intros d v Hd G. apply coords_doc_gradient in Hd; [|exact G]. subst d. discriminate.
  - intros d x Hd G Hx En. apply coords_doc_gradient in Hd; [|exact G]. subst d. cbn in Hx. intuition (subst; discriminate).
  - intros d Hd G. unfold written in Hd. rewrite flat_tmap in Hd. apply in_map_iff in Hd. destruct Hd as (x & <- & Hx). apply coords_doc_gradient in Hx; [|exact G]. subst x. apply ce_end. reflexivity.
  - intros d Hd T. assert (G : gradient_node d) by (left; exact T). apply coords_doc_gradient in Hd; [|exact G]. subst d. discriminate.
  - vm_compute. reflexivity.
Qed.

(** rx and ry in percent refer to different sizes, so ry = rx is not redundant. *)
Theorem C33_percent_radii_refuted : exists t t' d d' w h, NoDup (keys t) /\ WFA t /\ remove_unused_coordinates t = Ok t' /\ In d (flat t) /\ In d' (flat t') /\ key d' = key d /\
  tag d = TEl ERect /\ radii w h (vis d) = (Some (Len (zq 20) UNone), Some (Len (zq 10) UNone)) /\ radii w h (vis d') = (Some (Len (zq 20) UNone), Some (Len (zq 20) UNone)).
Proof.
  exists (doc [el 1 ESvg [] [el 2 ERect [at_ ARx (pc 10); at_ ARy (pc 10)] []]]), (doc [el 1 ESvg [] [el 2 ERect [at_ ARx (pc 10); hid ARy (pc 10)] []]]).
  exists (ND 2 (TEl ERect) "" [at_ ARx (pc 10); at_ ARy (pc 10)]), (ND 2 (TEl ERect) "" [at_ ARx (pc 10); hid ARy (pc 10)]), (zq 200), (zq 100).
  split; [cbn; repeat constructor; cbn; intuition discriminate|]. split; [wfa|]. split; [vm_compute; reflexivity|]. repeat (split; [solve [cbn; auto 10]|]).
  split; apply (f_equal2 pair); vm_compute; f_equal; f_equal; apply Qc_is_canon; reflexivity.
Qed.
(** radial -> linear -> radial: the focus of the last one is in effect for the first one, and is lost. *)
Definition mixed (vis : bool) : tree :=
  doc [el 1 ESvg [] [eli 2 ERadialGradient "a" [at_ ACx (px 1); At (AN AFx) (px 1) vis] []; eli 3 ELinearGradient "b" [at_ AXlinkHref (VLink 2)] [];
                     eli 4 ERadialGradient "c" [at_ ACx (px 9); hid AFx (px 1); at_ AXlinkHref (VLink 3)] []]].
Theorem C33_mixed_chain_refuted : exists t t' d, NoDup (keys t) /\ WFA t /\ gradient_hrefs t /\ chains_end t /\ remove_unused_coordinates t = Ok t' /\ In d (flat t) /\ In d (flat t') /\
  effective (written t) (vis d) AFx (Some (px 1)) /\ effective (written t') (vis d) AFx (Some (px 9)).
Proof.
  set (c := ND 4 (TEl ERadialGradient) "c" [at_ ACx (px 9); hid AFx (px 1); at_ AXlinkHref (VLink 3)]).
  set (b := ND 3 (TEl ELinearGradient) "b" [at_ AXlinkHref (VLink 2)]).
  set (a := ND 2 (TEl ERadialGradient) "a" [at_ ACx (px 1); at_ AFx (px 1)]). set (a' := ND 2 (TEl ERadialGradient) "a" [at_ ACx (px 1); hid AFx (px 1)]).
  assert (I : forall x, In x (flat (mixed true)) -> gradient_node x -> x = a \/ x = b \/ x = c).
  { intros x Hx G. cbn in Hx. destruct Hx as [<-|[<-|[<-|[<-|[<-|[]]]]]]; auto; destruct G; discriminate. }
  assert (Ia : In (vis a) (flat (written (mixed true)))) by (cbn; auto). assert (Ib : In (vis b) (flat (written (mixed true)))) by (cbn; auto).
  assert (Ea : chain_ends (written (mixed true)) (vis a)) by (apply ce_end; reflexivity).
  assert (Eb : chain_ends (written (mixed true)) (vis b)) by (eapply ce_next; [reflexivity|exact Ia|reflexivity|exact Ea]).
  exists (mixed true), (mixed false), c.
  split; [cbn; repeat constructor; cbn; intuition discriminate|]. split; [unfold mixed; wfa|]. split; [|split; [|split; [vm_compute; reflexivity|split; [cbn; auto 10|split; [cbn; auto 10|split]]]]].
  - intros d v Hd G. destruct (I d Hd G) as [->|[->| ->]]; cbn; intros E; try discriminate; injection E as <-.
    + exists 2, a. split; [reflexivity|]. split; [cbn; auto|]. split; [reflexivity|right; reflexivity].
    + exists 3, b. split; [reflexivity|]. split; [cbn; auto|]. split; [reflexivity|left; reflexivity].
  - intros d Hd G. unfold written in Hd. rewrite flat_tmap in Hd. apply in_map_iff in Hd. destruct Hd as (x & <- & Hx). destruct (I x Hx G) as [->|[->| ->]]; [exact Ea|exact Eb|].
    eapply ce_next; [reflexivity|exact Ib|reflexivity|exact Eb].
  - apply eff_found. eapply ah_next; [reflexivity|reflexivity|exact Ib|reflexivity|]. eapply ah_next; [reflexivity|reflexivity|exact Ia|reflexivity|]. now apply ah_own.
  - apply eff_fx; [reflexivity| |apply eff_found; now apply ah_own].
    eapply ah_next with (x := vis b); [reflexivity|reflexivity|cbn; auto|reflexivity|]. eapply ah_next with (x := vis a'); [reflexivity|reflexivity|cbn; auto|reflexivity|]. now apply ah_end.
Qed.
