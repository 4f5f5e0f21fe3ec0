(** Property C16: gradient attributes along xlink:href. Specification: SpecGradients.v. *)
From Coq Require Import List Bool NArith Arith ZArith String Lia QArith Qcanon.
From Verif Require Import Names Num Value Dom DomFacts DomOps Outcome DomRemove Stops SpecStops AttrFacts StopsProofs NPass SpecDom Transforms TransformsProofs VLoop Gradients SpecGradients GradProofs.
Import ListNotations.
Local Open Scope nat_scope.

(** The specification is a function. *)
Lemma effective_fun t d : NoDup (keys t) -> forall a v w, effective t d a v -> effective t d a w -> v = w.
Proof.
  intros N a v w H. revert w. induction H as [a v H|a H Ha|a v -> H _ IH|a v -> H _ IH]; intros w H'; inversion H' as [v' X|X Y|v' Y X Z|v' Y X Z]; subst; try discriminate;
    try (pose proof (along_fun t _ d _ _ N H X); try congruence); try (exfalso; cbn in *; tauto); auto.
Qed.
(** What must become of a gradient [d] of [t]: present attributes are kept and each missing one gets its
    effective value in [t], hidden. *)
Definition resolved_as (l : list aid) (t : tree) (d d' : ndata) : Prop :=
  same_node d d' /\ same_except l d d' /\
  forall a, In a l -> match get_attr (attrs d) a with
                      | Some x => get_attr (attrs d') a = Some x
                      | None => exists v, effective t d a v /\ get_attr (attrs d') a = option_map (fun v => At (AN a) v false) v
                      end.

Lemma lin_value t d a : NoDup (keys t) -> chain_ends t d -> In a linear_attrs -> effective t d a (orv (val t a d) (gradient_default a)).
Proof.
  intros N C Ha. destruct (chain_along t a d C) as (r & Hr). rewrite (val_along t a d r N Hr). destruct r as [v|]; cbn [orv].
  - now apply eff_found.
  - apply eff_default; [exact Hr|]. intros X. cbn in X. destruct X as [<-|[<-|[]]]; cbn in Ha; intuition discriminate.
Qed.
Lemma lin_fill_resolved t d : NoDup (keys t) -> chain_ends t d -> resolved_as linear_attrs t d (lin_fill t d).
Proof.
  intros N C. unfold lin_fill. destruct (fills_node (map (fun a => (a, orv (val t a d) (gradient_default a))) linear_attrs) d) as [A B].
  rewrite map_fst_pair in B. split; [exact A|]. split; [exact B|]. intros a Ha.
  rewrite (fills_at _ a (orv (val t a d) (gradient_default a))); [|rewrite map_fst_pair; exact linear_NoDup|apply in_map_iff; eauto].
  destruct (get_attr (attrs d) a); [reflexivity|]. eexists. split; [apply lin_value; auto|reflexivity].
Qed.
Lemma orv_own t a d r : along_href t a d r -> forall def, orv (d_get d a) (orv r def) = orv r def.
Proof. intros H def. inversion H as [d0 v E|d0 E X|d0 k x r0 E X]; subst; rewrite E; reflexivity. Qed.
Lemma rad_value_effective t d a : NoDup (keys t) -> chain_ends t d -> In a radial_attrs -> effective t d a (rad_value t d a).
Proof.
  intros N C Ha.
  assert (G : forall b, ~ In b [AFx; AFy] -> effective t d b (orv (val t b d) (gradient_default b))).
  { intros b Nb. destruct (chain_along t b d C) as (r & Hr). rewrite (val_along t b d r N Hr). destruct r as [v|]; cbn [orv]; [now apply eff_found|now apply eff_default]. }
  assert (H : forall b, orv (d_get d b) (orv (val t b d) (gradient_default b)) = orv (val t b d) (gradient_default b)).
  { intros b. destruct (chain_along t b d C) as (r & Hr). rewrite (val_along t b d r N Hr). eapply orv_own; eauto. }
  cbn in Ha. repeat (destruct Ha as [<-|Ha]); try contradiction; unfold rad_value; try (apply G; cbn; intuition discriminate).
  - rewrite H. destruct (chain_along t AFx d C) as (r & Hr). rewrite (val_along _ _ _ _ N Hr). destruct r as [v|]; cbn [orv]; [now apply eff_found|].
    apply eff_fx; [reflexivity|exact Hr|]. apply G. cbn. intuition discriminate.
  - rewrite H. destruct (chain_along t AFy d C) as (r & Hr). rewrite (val_along _ _ _ _ N Hr). destruct r as [v|]; cbn [orv]; [now apply eff_found|].
    apply eff_fy; [reflexivity|exact Hr|]. apply G. cbn. intuition discriminate.
Qed.
Lemma rad_fill_resolved t d : NoDup (keys t) -> chain_ends t d -> resolved_as radial_attrs t d (rad_fill t d).
Proof.
  intros N C. unfold rad_fill. destruct (fills_node (map (fun a => (a, rad_value t d a)) radial_attrs) d) as [A B].
  rewrite map_fst_pair in B. split; [exact A|]. split; [exact B|]. intros a Ha.
  rewrite (fills_at _ a (rad_value t d a)); [|rewrite map_fst_pair; exact radial_NoDup|apply in_map_iff; eauto].
  destruct (get_attr (attrs d) a); [reflexivity|]. eexists. split; [apply rad_value_effective; auto|reflexivity].
Qed.

(** C16, linear gradients: the pass ends without a crash and gives every linear gradient its effective
    attributes; all other nodes stay as they are. *)
Theorem C16_linear : forall t, WF t -> acyclic_kind ELinearGradient t ->
  (forall d, In d (flat t) -> tag d = TEl ELinearGradient -> chain_ends t d) ->
  exists t', resolve_linear_gradient_attributes t = Some (Ok t') /\ skeleton t' = skeleton t /\
    Forall2 (fun d d' => (tag d = TEl ELinearGradient -> resolved_as linear_attrs t d d') /\ (tag d <> TEl ELinearGradient -> d' = d)) (flat t) (flat t').
Proof.
  intros t W A C. assert (N := wf_keys t W). destruct (proj2 (gen_order_iff _ t N) A) as (ks & Hks). unfold resolve_linear_gradient_attributes. rewrite Hks.
  destruct (order_loop_some _ t _ _ _ (ordered_nil _ t) Hks) as [O L]. pose proof (ordered_all _ t ks N O L) as All.
  assert (Tk : forall d, In d (flat t) -> In (key d) ks <-> tag d = TEl ELinearGradient).
  { intros d Hd. rewrite All, kind_nodes_in. split; [|eauto]. intros (x & Hx & Tx & Ex). assert (x = d) by (apply (data_unique t); congruence). now subst x. }
  assert (Hg : forall d, key (lin_fill t d) = key d) by (intros d; apply fills_node).
  rewrite (vloop_closed _ (lin_fill t) t N Hg ks); [| apply O| |].
  - exists (visited (lin_fill t) ks t). split; [reflexivity|]. split.
    + unfold skeleton, visited. rewrite tmap_tmap. apply tmap_ext. intros d _. now rewrite (visited_key _ ks Hg).
    + unfold visited. rewrite flat_tmap. assert (X : forall l, incl l (flat t) -> Forall2 (fun d d' => (tag d = TEl ELinearGradient -> resolved_as linear_attrs t d d') /\ (tag d <> TEl ELinearGradient -> d' = d)) l (map (fun d => if mem (key d) ks then lin_fill t d else d) l)).
      { induction l as [|d l IH]; intros I; cbn; constructor; [|apply IH; intros x Hx; apply I; now right]. assert (Hd : In d (flat t)) by (apply I; now left).
        destruct (mem (key d) ks) eqn:M.
        - apply mem_in in M. apply (Tk d Hd) in M. split; [|congruence]. intros _. apply lin_fill_resolved; auto.
        - apply mem_false in M. rewrite (Tk d Hd) in M. split; [congruence|reflexivity]. }
      apply X, incl_refl.
  - intros k Hk. apply All, kind_nodes_in in Hk. destruct Hk as (d & Hd & _ & <-). now apply in_map.
  - intros done k rest d Ek Hd Kd. apply lin_step; auto.
    + intros x Hx Ix. apply C; [exact Hx|]. apply (Tk x Hx). rewrite Ek. apply in_or_app. now left.
    + apply C; [exact Hd|]. apply (Tk d Hd). rewrite Ek, Kd. apply in_or_app. right. now left.
Qed.
(** C16, radial gradients; [radial_hrefs]: no radial gradient is used by a linear one through xlink:href. *)
Theorem C16_radial_partial : forall t, WF t -> acyclic_kind ERadialGradient t -> radial_hrefs t ->
  (forall d, In d (flat t) -> tag d = TEl ERadialGradient -> chain_ends t d) ->
  exists t', resolve_radial_gradient_attributes t = Some (Ok t') /\ skeleton t' = skeleton t /\
    Forall2 (fun d d' => (tag d = TEl ERadialGradient -> resolved_as radial_attrs t d d') /\ (tag d <> TEl ERadialGradient -> d' = d)) (flat t) (flat t').
Proof.
  intros t W A RH C. assert (N := wf_keys t W). destruct (proj2 (gen_order_iff _ t N) A) as (ks & Hks). unfold resolve_radial_gradient_attributes. rewrite Hks.
  destruct (order_loop_some _ t _ _ _ (ordered_nil _ t) Hks) as [O L]. pose proof (ordered_all _ t ks N O L) as All.
  assert (Tk : forall d, In d (flat t) -> In (key d) ks <-> tag d = TEl ERadialGradient).
  { intros d Hd. rewrite All, kind_nodes_in. split; [|eauto]. intros (x & Hx & Tx & Ex). assert (x = d) by (apply (data_unique t); congruence). now subst x. }
  assert (Hg : forall d, key (rad_fill t d) = key d) by (intros d; apply fills_node).
  rewrite (vloop_closed _ (rad_fill t) t N Hg ks); [| apply O| |].
  - exists (visited (rad_fill t) ks t). split; [reflexivity|]. split.
    + unfold skeleton, visited. rewrite tmap_tmap. apply tmap_ext. intros d _. now rewrite (visited_key _ ks Hg).
    + unfold visited. rewrite flat_tmap. assert (X : forall l, incl l (flat t) -> Forall2 (fun d d' => (tag d = TEl ERadialGradient -> resolved_as radial_attrs t d d') /\ (tag d <> TEl ERadialGradient -> d' = d)) l (map (fun d => if mem (key d) ks then rad_fill t d else d) l)).
      { induction l as [|d l IH]; intros I; cbn; constructor; [|apply IH; intros x Hx; apply I; now right]. assert (Hd : In d (flat t)) by (apply I; now left).
        destruct (mem (key d) ks) eqn:M.
        - apply mem_in in M. apply (Tk d Hd) in M. split; [|congruence]. intros _. apply rad_fill_resolved; auto.
        - apply mem_false in M. rewrite (Tk d Hd) in M. split; [congruence|reflexivity]. }
      apply X, incl_refl.
  - intros k Hk. apply All, kind_nodes_in in Hk. destruct Hk as (d & Hd & _ & <-). now apply in_map.
  - intros done k rest d Ek Hd Kd. eapply rad_step; eauto.
    + rewrite Ek, Kd. reflexivity.
    + apply (Tk d Hd). rewrite Ek, Kd. apply in_or_app. right. now left.
Qed.

(** The ordering loop (for any number of rounds) ends exactly when the gradients of that kind do not refer
    to each other in a cycle. *)
Theorem C16_terminates_iff : forall e t, NoDup (keys t) ->
  ((exists fuel ks, order_loop fuel e t (kind_nodes e t) [] = Some ks) <-> acyclic_kind e t) /\
  (acyclic_kind e t <-> exists ks, gen_order e t = Some ks).
Proof.
  intros e t N. split; [|symmetry; now apply gen_order_iff]. split.
  - intros (fuel & ks & H). destruct (order_loop_some e t _ _ _ (ordered_nil e t) H) as [O L]. eapply order_acyclic; eauto.
  - intros A. apply (gen_order_iff e t N) in A. destruct A as (ks & H). exists (List.length (kind_nodes e t)), ks. exact H.
Qed.
(** A document without cycles of references meets the hypotheses on cycles. *)
Lemma acyclic_kinds t : acyclic t -> forall e, acyclic_kind e t.
Proof. intros (rank & R) e. exists rank. intros d x Hd Hx _ _ H. exact (R d (key x) Hd H). Qed.
Theorem C16_acyclic_chains_end : forall t, WF t -> acyclic t -> (forall d v, In d (flat t) -> d_get d AXlinkHref = Some v -> exists k, v = VLink k) ->
  forall d, In d (flat t) -> chain_ends t d.
Proof.
  intros t W (rank & R) HL.
  assert (G : forall n d, rank (key d) < n -> In d (flat t) -> chain_ends t d).
  { induction n as [|n IH]; intros d Ln Hd; [lia|]. destruct (d_get d AXlinkHref) as [v|] eqn:E; [|now apply ce_end].
    destruct (HL d v Hd E) as (k & ->). pose proof (href_refers d k E) as Rk.
    assert (Kk : In k (keys t)) by (apply (wf_links t W); apply targets_in; destruct Rk as (a & Ha & La); eauto 6).
    apply in_map_iff in Kk. destruct Kk as (x & Ex & Hx). eapply ce_next; eauto. apply IH; [|exact Hx]. specialize (R d k Hd Rk). rewrite Ex. lia. }
  intros d Hd. eapply G; eauto.
Qed.

(** An instance: two linked linear gradients and two linked radial ones, the referring one first. *)
Definition grad_doc : tree :=
  doc [el 1 ESvg []
    [eli 2 ELinearGradient "a" [at_ AXlinkHref (VLink 3); at_ AX1 (px 7)] [];
     eli 3 ELinearGradient "b" [at_ AX1 (px 1); at_ AY2 (px 2)] [];
     eli 4 ERadialGradient "c" [at_ AXlinkHref (VLink 5); at_ ACy (px 30)] [];
     eli 5 ERadialGradient "d" [at_ ACx (px 10); at_ ACy (px 20); at_ AR (px 5)] []]].
Definition values (l : list aid) (k : nat) (r : option (result tree)) : list (option value) :=
  match r with Some (Ok t) => match find_data k t with Some d => map (d_get d) l | None => [] end | _ => [] end.
Example C16_instance : WF grad_doc /\ acyclic grad_doc /\
  list_eqb opt_value_eqb (values [AX1; AX2; AY2] 2 (resolve_linear_gradient_attributes grad_doc)) [Some (px 7); Some (percent 100); Some (px 2)] = true /\
  list_eqb opt_value_eqb (values [ACx; ACy; AFx; AFy; AR] 4 (resolve_radial_gradient_attributes grad_doc))
    [Some (px 10); Some (px 30); Some (px 10); Some (px 30); Some (px 5)] = true.
Proof.
  split; [|split; [|split; vm_compute; reflexivity]].
  - split.
    + vm_compute. repeat constructor; cbn; intuition discriminate.
    + intros k Hk. vm_compute in Hk. vm_compute. intuition.
  - exists (fun k => match k with 2 => 1 | 4 => 1 | _ => 0 end). intros d k Hd (a & Ha & Ea). cbn in Hd.
    repeat (destruct Hd as [<-|Hd]; [cbn in Ha; repeat (destruct Ha as [<-|Ha]; [cbn in Ea; try discriminate; injection Ea as <-; cbn; lia|]); contradiction|]). contradiction.
Qed.

(** Three gradients that refer to each other in a cycle: the program never ends. *)
Definition cycle_doc : tree :=
  doc [el 1 ESvg []
    [eli 2 ELinearGradient "a" [at_ AXlinkHref (VLink 3)] []; eli 3 ELinearGradient "b" [at_ AXlinkHref (VLink 4)] [];
     eli 4 ELinearGradient "c" [at_ AXlinkHref (VLink 2)] []]].
Theorem C16_cycle_never_ends_refuted : exists t, WF t /\ forall fuel, order_loop fuel ELinearGradient t (kind_nodes ELinearGradient t) [] = None.
Proof.
  assert (N : NoDup (keys cycle_doc)) by (vm_compute; repeat constructor; cbn; intuition discriminate).
  exists cycle_doc. split; [split; [exact N|intros k Hk; vm_compute in Hk; vm_compute; intuition]|]. apply order_loop_never; [exact N|].
  intros (rank & R).
  assert (R' : forall k j x y, nth_error (flat cycle_doc) k = Some x -> nth_error (flat cycle_doc) j = Some y -> tag x = TEl ELinearGradient -> tag y = TEl ELinearGradient -> existsb (refers (key y)) (attrs x) = true -> rank (key y) < rank (key x)).
  { intros k j x y Hx Hy Tx Ty E. apply R; auto; [eapply nth_error_In; eauto|eapply nth_error_In; eauto|]. apply existsb_exists in E. destruct E as (a & Ha & E). apply refers_iff in E. exists a. auto. }
  pose proof (R' 2 3 _ _ eq_refl eq_refl eq_refl eq_refl eq_refl) as H1. pose proof (R' 3 4 _ _ eq_refl eq_refl eq_refl eq_refl eq_refl) as H2. pose proof (R' 4 2 _ _ eq_refl eq_refl eq_refl eq_refl eq_refl) as H3.
  cbn in H1, H2, H3. lia.
Qed.

(** A radial gradient used by a linear one that is used by a radial one: the focus of the first is wrong.
    Gradient 2 has the centre (7, 7) and no focus along its chain, but it gets the focus of gradient 4. *)
Definition mixed_doc : tree :=
  doc [el 1 ESvg []
    [eli 4 ERadialGradient "c" [at_ ACx (px 1); at_ ACy (px 1)] [];
     eli 2 ERadialGradient "a" [at_ AXlinkHref (VLink 3); at_ ACx (px 7); at_ ACy (px 7)] [];
     eli 3 ELinearGradient "b" [at_ AXlinkHref (VLink 4)] []]].
Theorem C16_mixed_focus_refuted : exists t d t' d', WF t /\ acyclic t /\ In d (flat t) /\ tag d = TEl ERadialGradient /\
  effective t d AFx (Some (px 7)) /\ resolve_radial_gradient_attributes t = Some (Ok t') /\
  In d' (flat t') /\ key d' = key d /\ d_get d' AFx = Some (px 1).
Proof.
  assert (N : NoDup (keys mixed_doc)) by (vm_compute; repeat constructor; cbn; intuition discriminate).
  destruct (resolve_radial_gradient_attributes mixed_doc) as [[t'|e|]|] eqn:E; try (vm_compute in E; discriminate).
  destruct (find_data 2 mixed_doc) as [d|] eqn:Ed; [|vm_compute in Ed; discriminate].
  destruct (find_data 2 t') as [d'|] eqn:Ed'; [|vm_compute in E; injection E as <-; vm_compute in Ed'; discriminate].
  exists mixed_doc, d, t', d'. split; [split; [exact N|intros k Hk; vm_compute in Hk; vm_compute; intuition]|]. split.
  { exists (fun k => match k with 2 => 2 | 3 => 1 | _ => 0 end). intros x k Hx (a & Ha & Ea). cbn in Hx.
    repeat (destruct Hx as [<-|Hx]; [cbn in Ha; repeat (destruct Ha as [<-|Ha]; [cbn in Ea; try discriminate; injection Ea as <-; cbn; lia|]); contradiction|]). contradiction. }
  apply find_data_some in Ed'. destruct Ed' as [Hd' Kd'].
  assert (Hd := find_data_some _ _ _ Ed). destruct Hd as [Hd Kd].
  split; [exact Hd|]. cbn in Ed. injection Ed as <-. split; [reflexivity|]. split.
  { apply eff_fx; [reflexivity| |apply eff_found, ah_own; reflexivity].
    eapply (ah_next _ _ _ 3 (ND 3 (TEl ELinearGradient) "b" [at_ AXlinkHref (VLink 4)])); [reflexivity|reflexivity|cbn; tauto|reflexivity|].
    eapply (ah_next _ _ _ 4 (ND 4 (TEl ERadialGradient) "c" [at_ ACx (px 1); at_ ACy (px 1)])); [reflexivity|reflexivity|cbn; tauto|reflexivity|].
    apply ah_end; reflexivity. }
  split; [exact E|]. split; [exact Hd'|]. split; [rewrite Kd'; reflexivity|].
  assert (X : match resolve_radial_gradient_attributes mixed_doc with Some (Ok t') => match find_data 2 t' with Some d => opt_value_eqb (d_get d AFx) (Some (px 1)) | None => false end | _ => false end = true) by (vm_compute; reflexivity).
  rewrite E in X. rewrite <- Kd' in X. rewrite (find_data_in t' d') in X; [|vm_compute in E; injection E as <-; vm_compute; repeat constructor; cbn; intuition discriminate|exact Hd'].
  destruct (d_get d' AFx) as [v|]; cbn in X; [|discriminate]. destruct (value_eqb_spec v (px 1)); congruence.
Qed.
