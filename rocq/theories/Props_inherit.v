(** Property C15: inherit and currentColor. Specification: SpecInherit.v. *)
From Coq Require Import List Bool NArith Arith ZArith String Lia QArith Qcanon.
From Verif Require Import Names Num Value Dom DomFacts DomOps Outcome DomRemove Stops SpecStops AttrFacts StopsProofs NPass SpecDom APass SpecStyle Transforms TransformsProofs.
From Verif Require Import VLoop Links Inherit SpecInherit.
Import ListNotations.
Local Open Scope nat_scope.

Lemma vid_eqb_true w v : vid_eqb w v = true -> w = v.
Proof. destruct (vid_eqb_spec w v); congruence. Qed.
Lemma vid_eqb_refl v : vid_eqb v v = true.
Proof. destruct (vid_eqb_spec v v); congruence. Qed.

Lemma keyword_attrs_in v d a : attrs_nodup d -> In a (keyword_attrs v d) <-> d_get d a = Some (VPre v).
Proof.
  intros N. unfold keyword_attrs, d_get, get_value. rewrite in_flat_map. split.
  - intros (x & Hx & Ha). destruct (a_name x) as [b|s] eqn:En; [|contradiction]. destruct (a_val x) eqn:Ev; try contradiction.
    destruct (vid_eqb v0 v) eqn:E; [|contradiction]. destruct Ha as [<-|[]]. apply vid_eqb_true in E. subst.
    rewrite (get_attr_in _ _ _ N Hx En). now rewrite Ev.
  - destruct (get_attr (attrs d) a) as [x|] eqn:E; [|discriminate]. intros H. injection H as H. apply get_attr_some in E. destruct E as [Hx En].
    exists x. split; [exact Hx|]. rewrite En, H, vid_eqb_refl. now left.
Qed.
Lemma impl_spec anc c p d : resolve_impl anc c p d = match nearest p anc with Some v => Ok (d_set d c v) | None => Err (UnresolvedAttribute c) end.
Proof.
  unfold resolve_impl. induction anc as [|n anc IH]; [reflexivity|]. cbn [find nearest]. unfold d_has, has_attr, d_get, get_value.
  destruct (get_attr (attrs n) p) as [x|] eqn:E; [|exact IH]. now rewrite E.
Qed.

Lemma each_inherit anc l : forall d r, each (fun a => resolve_impl anc a a) l d = r ->
  (exists d', r = Ok d' /\ same_node d d' /\ same_except l d d' /\ (forall a, In a l -> nearest a anc <> None) /\
     forall b, d_get d' b = if existsb (aid_eqb b) l then nearest b anc else d_get d b) \/
  (exists a, r = Err (UnresolvedAttribute a) /\ In a l /\ nearest a anc = None).
Proof.
  induction l as [|a l IH]; intros d r H; cbn [each] in H.
  - left. exists d. subst. split; [reflexivity|]. split; [apply same_node_refl|]. split; [apply same_except_refl|]. split; [intros ? []|]. reflexivity.
  - rewrite impl_spec in H. destruct (nearest a anc) as [v|] eqn:E; cbn [bind] in H.
    + destruct (IH _ _ H) as [(d' & -> & A & B & C & D)|(x & -> & Hx & Ex)].
      * left. exists d'. split; [reflexivity|]. split; [eapply same_node_trans; [|exact A]; repeat split|].
        split; [eapply same_except_trans; [eapply same_except_weaken; [|apply se_set]|eapply same_except_weaken; [|exact B]]; intros z Hz; cbn in *; tauto|].
        split; [intros x [<-|Hx]; [congruence|auto]|]. intros b. rewrite D, d_get_set. cbn [existsb].
        destruct (aid_eqb_spec b a) as [->|Nb]; cbn [orb].
        -- rewrite aid_eqb_refl. destruct (existsb (aid_eqb a) l); congruence.
        -- destruct (aid_eqb_spec a b); [congruence|]. reflexivity.
      * right. exists x. split; [reflexivity|]. split; [right; exact Hx|exact Ex].
    + right. exists a. subst. split; [reflexivity|]. split; [left; reflexivity|exact E].
Qed.
(** The color seen by the node [d]. *)
Definition own_color (anc : list ndata) (d : ndata) : option value := match d_get d AColor with Some v => Some v | None => nearest AColor anc end.
Lemma color_spec anc a d : resolve_color anc a d = match own_color anc d with Some v => Ok (d_set d a v) | None => Err (UnresolvedAttribute a) end.
Proof. unfold resolve_color, own_color. destruct (d_get d AColor); [reflexivity|]. apply impl_spec. Qed.
Lemma each_color anc l : ~ In AColor l -> forall d r, each (resolve_color anc) l d = r ->
  (exists d', r = Ok d' /\ same_node d d' /\ same_except l d d' /\ (l <> [] -> own_color anc d <> None) /\
     forall b, d_get d' b = if existsb (aid_eqb b) l then own_color anc d else d_get d b) \/
  (exists a, r = Err (UnresolvedAttribute a) /\ In a l /\ own_color anc d = None).
Proof.
  induction l as [|a l IH]; intros Nc d r H; cbn [each] in H.
  - left. exists d. subst. split; [reflexivity|]. split; [apply same_node_refl|]. split; [apply same_except_refl|]. split; [congruence|]. reflexivity.
  - rewrite color_spec in H. destruct (own_color anc d) as [v|] eqn:E; cbn [bind] in H.
    + assert (Ec : forall w, own_color anc (d_set d a w) = own_color anc d).
      { intros w. unfold own_color. rewrite d_get_set. destruct (aid_eqb_spec a AColor); [|reflexivity]. exfalso. apply Nc. left. assumption. }
      destruct (IH (fun X => Nc (or_intror X)) _ _ H) as [(d' & -> & A & B & C & D)|(x & -> & Hx & Ex)].
      * left. exists d'. split; [reflexivity|]. split; [eapply same_node_trans; [|exact A]; repeat split|].
        split; [eapply same_except_trans; [eapply same_except_weaken; [|apply se_set]|eapply same_except_weaken; [|exact B]]; intros z Hz; cbn in *; tauto|].
        split; [congruence|]. intros b. rewrite D, d_get_set, Ec. cbn [existsb].
        destruct (aid_eqb_spec b a) as [->|Nb]; cbn [orb].
        -- rewrite aid_eqb_refl. destruct (existsb (aid_eqb a) l); congruence.
        -- destruct (aid_eqb_spec a b); [congruence|]. now rewrite E.
      * rewrite Ec in Ex. congruence.
    + right. exists a. subst. split; [reflexivity|]. split; [left; reflexivity|reflexivity].
Qed.

(** Original and processed ancestors. *)
Definition linked_anc (anc0 anc : list ndata) : Prop :=
  (forall a, in_effect a anc0 = nearest a anc) /\ color_in_effect anc0 = nearest AColor anc /\
  (forall a, nearest a anc <> Some inherit /\ nearest a anc <> Some current_color).
Definition typed (d : ndata) : Prop := attrs_nodup d /\ keywords_typed d.

(** The value that a processed node must have. *)
Definition resolved_value (anc : list ndata) (d : ndata) (a : aid) : option value :=
  match d_get d a with
  | Some (VPre Vid_inherit) => in_effect a anc
  | Some (VPre Vid_currentColor) => color_in_effect (d :: anc)
  | v => v
  end.
Definition resolved_node (anc : list ndata) (d d' : ndata) : Prop :=
  same_node d d' /\
  (forall x, (forall b, a_name x = AN b -> d_get d b <> Some inherit /\ d_get d b <> Some current_color) -> In x (attrs d') <-> In x (attrs d)) /\
  (forall a, d_get d' a = resolved_value anc d a) /\
  (forall a, ~ unresolvable anc d a).

Lemma existsb_aid b l : existsb (aid_eqb b) l = true <-> In b l.
Proof. rewrite existsb_exists. split; [intros (x & Hx & E); destruct (aid_eqb_spec b x); congruence|intros H; exists b; split; [exact H|apply aid_eqb_refl]]. Qed.

Lemma inherit_node_spec anc0 anc d : typed d -> linked_anc anc0 anc ->
  (exists d', inherit_node anc d = Ok d' /\ resolved_node anc0 d d') \/
  (exists a, inherit_node anc d = Err (UnresolvedAttribute a) /\ unresolvable anc0 d a).
Proof.
  intros (N & K1 & K2) (L1 & L2 & L3). unfold inherit_node. destruct (is_svg_el d) eqn:S.
  2: { left. exists d. specialize (K2 eq_refl). split; [reflexivity|]. repeat split; auto.
       - intros a. unfold resolved_value. destruct (K2 a) as [A B]. destruct (d_get d a) as [v|]; [|reflexivity]. destruct v; try reflexivity. destruct v; try reflexivity; [now destruct A|now destruct B].
       - intros a [[E _]|[E _]]; destruct (K2 a); auto. }
  pose proof (fun a => keyword_attrs_in Vid_inherit d a N) as Ki. pose proof (fun a => keyword_attrs_in Vid_currentColor d a N) as Kc.
  assert (Ncl : ~ In AColor (keyword_attrs Vid_currentColor d)) by (intros X; apply Kc in X; exact (K1 X)).
  destruct (each_inherit anc (keyword_attrs Vid_inherit d) d _ eq_refl) as [(d1 & -> & A1 & B1 & C1 & D1)|(a & -> & Ha & Ea)]; cbn [bind].
  2: { right. exists a. split; [reflexivity|]. left. split; [now apply Ki|]. now rewrite L1. }
  assert (Oc : own_color anc d1 = color_in_effect (d :: anc0)).
  { unfold own_color. rewrite D1. cbn [color_in_effect]. destruct (existsb (aid_eqb AColor) (keyword_attrs Vid_inherit d)) eqn:E.
    - apply existsb_aid, Ki in E. rewrite E. fold inherit. rewrite L2. destruct (nearest AColor anc); reflexivity.
    - destruct (d_get d AColor) as [v|] eqn:Ev; [|now rewrite L2]. destruct v; try reflexivity. destruct v; try reflexivity.
      exfalso. assert (X : In AColor (keyword_attrs Vid_inherit d)) by now apply Ki. apply existsb_aid in X. congruence. }
  destruct (each_color anc (keyword_attrs Vid_currentColor d) Ncl d1 _ eq_refl) as [(d2 & -> & A2 & B2 & C2 & D2)|(a & -> & Ha & Ea)].
  2: { right. exists a. split; [reflexivity|]. right. split; [now apply Kc|]. now rewrite <- Oc. }
  left. exists d2. split; [reflexivity|]. split; [eapply same_node_trans; eassumption|]. split; [|split].
  - intros x Hx.
    assert (X : forall v, (v = Vid_inherit \/ v = Vid_currentColor) -> ~ In (a_name x) (map AN (keyword_attrs v d))).
    { intros v Hv Hin. apply in_map_iff in Hin. destruct Hin as (b & E & Hb). symmetry in E. apply (keyword_attrs_in v d b N) in Hb. destruct (Hx b E) as [X Y].
      destruct Hv as [->| ->]; [exact (X Hb)|exact (Y Hb)]. }
    rewrite (B2 x (X _ (or_intror eq_refl))). apply B1, X. now left.
  - intros a. rewrite D2, D1, Oc. unfold resolved_value.
    destruct (existsb (aid_eqb a) (keyword_attrs Vid_currentColor d)) eqn:E2.
    { apply existsb_aid, Kc in E2. now rewrite E2. }
    destruct (existsb (aid_eqb a) (keyword_attrs Vid_inherit d)) eqn:E1.
    { apply existsb_aid, Ki in E1. rewrite E1. now rewrite L1. }
    destruct (d_get d a) as [v|] eqn:Ev; [|reflexivity]. destruct v; try reflexivity. destruct v; try reflexivity; exfalso.
    + assert (X : In a (keyword_attrs Vid_inherit d)) by now apply Ki. apply existsb_aid in X. congruence.
    + assert (X : In a (keyword_attrs Vid_currentColor d)) by now apply Kc. apply existsb_aid in X. congruence.
  - intros a [[E En]|[E En]].
    + apply Ki in E. rewrite L1 in En. exact (C1 a E En).
    + apply Kc in E. rewrite <- Oc in En. apply C2; [|exact En]. intros X. rewrite X in E. contradiction.
Qed.
Lemma inherit_node_inv anc0 anc d d' : typed d -> linked_anc anc0 anc -> inherit_node anc d = Ok d' -> key d' = key d /\ linked_anc (d :: anc0) (d' :: anc).
Proof.
  intros Td L H. destruct (inherit_node_spec _ _ _ Td L) as [(x & E & R)|(a & E & _)]; [|congruence]. rewrite H in E. injection E as <-.
  destruct R as (S & _ & V & U). split; [apply S|]. destruct L as (L1 & L2 & L3). destruct Td as (N & K1 & K2).
  assert (Ha : forall a, in_effect a (d :: anc0) = nearest a (d' :: anc)).
  { intros a. cbn [in_effect nearest]. rewrite V. unfold resolved_value. destruct (d_get d a) as [v|] eqn:Ev; [|apply L1].
    destruct v; try reflexivity. destruct v; try reflexivity.
    - rewrite L1. destruct (nearest a anc); reflexivity.
    - destruct (color_in_effect (d :: anc0)) eqn:Ec; [reflexivity|]. exfalso. apply (U a). right. split; [exact Ev|exact Ec]. }
  assert (Hc : color_in_effect (d :: anc0) = nearest AColor (d' :: anc)).
  { cbn [color_in_effect nearest]. rewrite V. unfold resolved_value. destruct (d_get d AColor) as [v|] eqn:Ev; [|apply L2].
    destruct v; try reflexivity. destruct v; try reflexivity.
    - rewrite L2, L1. destruct (nearest AColor anc); reflexivity.
    - exfalso. now apply K1. }
  split; [exact Ha|]. split; [exact Hc|].
  assert (Cc : color_in_effect (d :: anc0) <> Some inherit /\ color_in_effect (d :: anc0) <> Some current_color).
  { cbn [color_in_effect]. destruct (d_get d AColor) as [v|] eqn:Ev; [|rewrite L2; apply L3]. destruct v; try (split; discriminate).
    destruct v; try (split; discriminate); [rewrite L2; apply L3|exfalso; now apply K1]. }
  intros a. rewrite <- Ha. cbn [in_effect]. destruct (d_get d a) as [v|] eqn:Ev; [|rewrite L1; apply L3].
  destruct v; try (split; discriminate). destruct v; try (split; discriminate); [rewrite L1; apply L3|exact Cc].
Qed.
Lemma linked_nil : linked_anc [] [].
Proof. repeat split; cbn; congruence. Qed.

Lemma inherit_apass t t' : resolve_inherit t = Ok t' -> apass inherit_node [] t = Ok t' /\ links_allowed t t' = true.
Proof. unfold resolve_inherit. intros H. apply bind_ok in H. destruct H as (t1 & H1 & H2). destruct (links_allowed t t1) eqn:E; [|discriminate]. injection H2 as <-. auto. Qed.
Lemma inherit_resolved : forall t t', Forall typed (flat t) -> apass inherit_node [] t = Ok t' ->
  skeleton t' = skeleton t /\
  Forall2 (fun c c' => resolved_node (fst c) (snd c) (snd c') /\
             forall a, in_effect a (snd c' :: fst c') = in_effect a (snd c :: fst c)) (ctx [] t) (ctx [] t').
Proof.
  intros t t' HT H. destruct (apass_inv inherit_node typed linked_anc inherit_node_inv t [] [] t' HT linked_nil H) as [S F]. split; [exact S|].
  assert (HT' : Forall typed (map snd (ctx [] t))) by now rewrite map_snd_ctx.
  induction F as [|c c' l l' [L E] F IH]; constructor.
  - cbn in HT'. inversion HT' as [|? ? Td Tl]; subst.
    destruct (inherit_node_spec _ _ _ Td L) as [(x & Ex & R)|(a & Ex & _)]; [|congruence]. rewrite E in Ex. injection Ex as <-. split; [exact R|].
    destruct (inherit_node_inv _ _ _ _ Td L E) as (_ & L' & _ & NK). intros a. rewrite L'. clear - NK.
    (* without keywords the value in effect is the nearest one *)
    revert NK. generalize (snd c' :: fst c'). intros m NK. specialize (NK a). induction m as [|d m IH]; [reflexivity|]. cbn [in_effect nearest] in *.
    destruct (d_get d a) as [v|] eqn:Ev; [|now apply IH]. destruct v; try reflexivity. destruct v; try reflexivity; [now destruct NK|now destruct NK as [_ []]].
  - cbn in HT'. inversion HT'; subst. now apply IH.
Qed.
(** C15: on success the tree is the same and every node [d] with ancestors [anc] becomes a node where
    each keyword is replaced by the value in effect and everything else is unchanged; the value in effect
    of every attribute at every node is preserved. *)
Theorem C15_resolved : forall t t', Forall typed (flat t) -> resolve_inherit t = Ok t' ->
  skeleton t' = skeleton t /\
  Forall2 (fun c c' => resolved_node (fst c) (snd c) (snd c') /\
             forall a, in_effect a (snd c' :: fst c') = in_effect a (snd c :: fst c)) (ctx [] t) (ctx [] t').
Proof. intros t t' HT H. exact (inherit_resolved t t' HT (proj1 (inherit_apass _ _ H))). Qed.
(** No keyword is left. *)
Theorem C15_no_keywords : forall t t', Forall typed (flat t) -> resolve_inherit t = Ok t' -> Forall no_keywords (flat t').
Proof.
  intros t t' HT H. apply inherit_apass in H. destruct H as [H _]. destruct (apass_inv inherit_node typed linked_anc inherit_node_inv t [] [] t' HT linked_nil H) as [S F].
  rewrite <- (map_snd_ctx []). assert (HT' : Forall typed (map snd (ctx [] t))) by now rewrite map_snd_ctx.
  induction F as [|c c' l l' [L E] F IH]; cbn; constructor.
  - cbn in HT'. inversion HT' as [|? ? Td Tl]; subst. destruct (inherit_node_inv _ _ _ _ Td L E) as (_ & _ & _ & NK).
    intros a. specialize (NK a). cbn [nearest] in NK. destruct (d_get (snd c') a) eqn:Ev; [|split; discriminate]. exact NK.
  - cbn in HT'. inversion HT'; subst. now apply IH.
Qed.
(** The pass fails exactly when a keyword has nothing to refer to, with an error that names it; otherwise it aborts
    exactly when a keyword stands for a link that svgdom does not accept. *)
Lemma nodup_each f l : (forall a d d', f a d = Ok d' -> attrs_nodup d -> attrs_nodup d') -> forall d d', each f l d = Ok d' -> attrs_nodup d -> attrs_nodup d'.
Proof. intros H. induction l as [|a l IH]; intros d d' E N; cbn in E; [now injection E as <-|]. apply bind_ok in E. destruct E as (d1 & E1 & E). exact (IH _ _ E (H _ _ _ E1 N)). Qed.
Lemma nodup_impl anc a b d d' : resolve_impl anc a b d = Ok d' -> attrs_nodup d -> attrs_nodup d'.
Proof. rewrite impl_spec. destruct (nearest b anc); [|discriminate]. intros H. injection H as <-. apply set_attr_nodup. Qed.
Lemma nodup_node anc d d' : inherit_node anc d = Ok d' -> attrs_nodup d -> attrs_nodup d'.
Proof.
  unfold inherit_node. destruct (is_svg_el d); [|intros H; now injection H as <-]. intros H N. apply bind_ok in H. destruct H as (d1 & H1 & H2).
  refine (nodup_each _ _ _ _ _ H2 _); [|refine (nodup_each _ _ _ _ _ H1 N); intros; eapply nodup_impl; eauto].
  intros a x x'. rewrite color_spec. destruct (own_color anc x); [|discriminate]. intros H. injection H as <-. apply set_attr_nodup.
Qed.
Lemma inherit_nodup t t' : Forall typed (flat t) -> apass inherit_node [] t = Ok t' -> Forall attrs_nodup (flat t').
Proof.
  intros HT H. destruct (apass_inv inherit_node typed linked_anc inherit_node_inv t [] [] t' HT linked_nil H) as [S F].
  rewrite <- (map_snd_ctx []). assert (HT' : Forall typed (map snd (ctx [] t))) by now rewrite map_snd_ctx.
  induction F as [|c c' l l' [L E] F IH]; cbn; constructor.
  - cbn in HT'. inversion HT' as [|? ? Td Tl]; subst. exact (nodup_node _ _ _ E (proj1 Td)).
  - cbn in HT'. inversion HT'; subst. now apply IH.
Qed.
Lemma keyword_attr_iff d x : attrs_nodup d -> keyword_attr d x = true <-> exists a, a_name x = AN a /\ (d_get d a = Some inherit \/ d_get d a = Some current_color).
Proof.
  intros N. unfold keyword_attr. destruct (a_name x) as [a|s].
  - rewrite existsb_aid, in_app_iff, !keyword_attrs_in by exact N. split; [intros H; exists a; auto|intros (b & E & H); injection E as <-; exact H].
  - split; [discriminate|intros (b & E & _); discriminate].
Qed.
Lemma d_get_in d x a : attrs_nodup d -> In x (attrs d) -> a_name x = AN a -> d_get d a = Some (a_val x).
Proof. intros N Hx E. unfold d_get, get_value. now rewrite (get_attr_in _ _ _ N Hx E). Qed.
Lemma in_d_get d a v : d_get d a = Some v -> exists x, In x (attrs d) /\ a_name x = AN a /\ a_val x = v.
Proof. unfold d_get, get_value. destruct (get_attr (attrs d) a) as [x|] eqn:E; [|discriminate]. intros H. injection H as <-. apply get_attr_some in E. exists x. tauto. Qed.
Lemma resolved_in_effect anc d a : d_get d a <> None -> resolved_value anc d a = in_effect a (d :: anc).
Proof. intros H. unfold resolved_value. cbn [in_effect]. destruct (d_get d a) as [v|]; [|congruence]. destruct v; try reflexivity. destruct v; reflexivity. Qed.
Lemma resolved_none anc d a : d_get d a = None -> resolved_value anc d a = None.
Proof. intros H. unfold resolved_value. now rewrite H. Qed.
(** The links of a resolved node. *)
Lemma resolved_links anc d d' j : attrs_nodup d -> attrs_nodup d' -> resolved_node anc d d' -> existsb (refers j) (attrs d') = true <-> links_to anc d j.
Proof.
  intros N N' (_ & K & V & _). rewrite existsb_exists. split.
  - intros (x & Hx & R). unfold refers in R. destruct (link_of (a_val x)) as [i|] eqn:L; [|discriminate]. apply Nat.eqb_eq in R. subst i.
    destruct (a_name x) as [b|s] eqn:En.
    + left. pose proof (d_get_in d' x b N' Hx En) as G. rewrite V in G. exists b, (a_val x). split; [intros Z; rewrite (resolved_none _ _ _ Z) in G; discriminate|].
      split; [|exact L]. rewrite <- G. symmetry. apply resolved_in_effect. intros Z. rewrite (resolved_none _ _ _ Z) in G. discriminate.
    + right. exists x, s. split; [|auto]. apply K; [|exact Hx]. intros b E. congruence.
  - intros [(b & v & Z & E & L)|(x & s & Hx & En & L)].
    + rewrite <- (resolved_in_effect _ _ _ Z), <- V in E. apply in_d_get in E. destruct E as (x & Hx & _ & Ev). exists x. split; [exact Hx|]. unfold refers. rewrite Ev, L. apply Nat.eqb_refl.
    + exists x. split; [|unfold refers; rewrite L; apply Nat.eqb_refl]. apply K; [|exact Hx]. intros b E. congruence.
Qed.
Theorem C15_fails_iff : forall t, NoDup (keys t) -> Forall typed (flat t) ->
  ((exists e, resolve_inherit t = Err e) <-> exists anc d a, In (anc, d) (ctx [] t) /\ unresolvable anc d a) /\
  (forall e, resolve_inherit t = Err e -> exists anc d a, In (anc, d) (ctx [] t) /\ unresolvable anc d a /\ e = UnresolvedAttribute a) /\
  (resolve_inherit t = Panic <-> (forall anc d a, In (anc, d) (ctx [] t) -> ~ unresolvable anc d a) /\
     exists anc d a, In (anc, d) (ctx [] t) /\ link_refused t anc d a).
Proof.
  intros t N HT.
  assert (Ht : forall c, In c (ctx [] t) -> typed (snd c)).
  { intros c Hc. rewrite Forall_forall in HT. apply HT. rewrite <- (map_snd_ctx []). now apply in_map. }
  assert (G : (exists t', apass inherit_node [] t = Ok t') \/ exists c a, In c (ctx [] t) /\ unresolvable (fst c) (snd c) a /\ apass inherit_node [] t = Err (UnresolvedAttribute a)).
  { destruct (apass_fails inherit_node typed linked_anc (fun a0 a d d' X Y Z => proj2 (inherit_node_inv a0 a d d' X Y Z)) t [] [] HT linked_nil) as [X|(c & anc & Hc & L & X)]; [now left|].
    right. destruct (inherit_node_spec _ _ _ (Ht c Hc) L) as [(x & Ex & _)|(a & Ex & U)].
    - destruct X as [[X _]|(e & X & _)]; congruence.
    - destruct X as [[X _]|(e & X & Y)]; [congruence|]. rewrite Ex in X. injection X as <-. exists c, a. auto. }
  unfold resolve_inherit. destruct G as [(t' & E)|((anc & d) & a & Hc & U & E)]; rewrite E; cbn [bind].
  2: { cbn [fst snd] in *. split; [split; [intros _; eauto 6|eauto]|]. split; [intros e He; exists anc, d, a; split; [exact Hc|]; split; [exact U|congruence]|]. split; [discriminate|]. intros [H _]. exfalso. exact (H _ _ _ Hc U). }
  destruct (inherit_resolved t t' HT E) as [Sk F]. pose proof (skeleton_keys t t' Sk) as Ks.
  assert (Un : forall anc d a, In (anc, d) (ctx [] t) -> ~ unresolvable anc d a).
  { intros anc d a Hc U. destruct (Forall2_in_l _ _ _ _ F Hc) as (c' & _ & (_ & _ & _ & R) & _). exact (R a U). }
  split; [|split].
  - split; [intros (e & He); destruct (links_allowed t t'); discriminate|]. intros (anc & d & a & Hc & U). exfalso. exact (Un _ _ _ Hc U).
  - intros e He. destruct (links_allowed t t'); discriminate.
  - assert (Nd : forall d', In d' (flat t') -> attrs_nodup d') by (apply Forall_forall; exact (inherit_nodup t t' HT E)).
    assert (N' : NoDup (keys t')) by now rewrite Ks.
    assert (At : forall d', In d' (flat t') -> exists anc d, In (anc, d) (ctx [] t) /\ resolved_node anc d d' /\ find_data (key d') t = Some d).
    { intros d' Hd'. rewrite <- (map_snd_ctx []) in Hd'. apply in_map_iff in Hd'. destruct Hd' as (c' & <- & Hc'). destruct (Forall2_in_r _ _ _ _ F Hc') as ((anc & d) & Hc & R & _). cbn [fst snd] in R.
      exists anc, d. split; [exact Hc|]. split; [exact R|]. destruct R as ((K & _) & _). rewrite K. apply find_data_in; [exact N|]. rewrite <- (map_snd_ctx []). now apply (in_map snd) in Hc. }
    assert (To : forall anc d, In (anc, d) (ctx [] t) -> exists d', In d' (flat t') /\ resolved_node anc d d').
    { intros anc d Hc. destruct (Forall2_in_l _ _ _ _ F Hc) as (c' & Hc' & R & _). exists (snd c'). split; [|exact R]. rewrite <- (map_snd_ctx []). now apply in_map. }
    assert (Tn : forall anc d, In (anc, d) (ctx [] t) -> attrs_nodup d) by (intros anc d Hc; exact (proj1 (Ht _ Hc))).
    split.
    + intros Hp. split; [exact Un|]. destruct (links_allowed t t') eqn:L; [discriminate|]. clear Hp. unfold links_allowed in L.
      assert (X : exists d', In d' (flat t') /\ match find_data (key d') t with Some d => forallb (fun x => negb (keyword_attr d x) || put_ok t' d' x) (attrs d') | None => true end = false).
      { clear - L. induction (flat t') as [|y l IH]; [discriminate|]. cbn [forallb] in L. destruct (match find_data (key y) t with Some d => _ | None => _ end) eqn:Ey; [|exists y; split; [now left|exact Ey]]. destruct (IH L) as (z & Hz & Ez). exists z. split; [now right|exact Ez]. }
      destruct X as (d' & Hd' & X). destruct (At d' Hd') as (anc & d & Hc & R & Fd). rewrite Fd in X.
      assert (Y : exists x, In x (attrs d') /\ keyword_attr d x = true /\ put_ok t' d' x = false).
      { clear - X. induction (attrs d') as [|y l IH]; [discriminate|]. cbn [forallb] in X. destruct (keyword_attr d y) eqn:Ky; [destruct (put_ok t' d' y) eqn:Py|]; cbn in X; try (destruct (IH X) as (z & Hz & Ez); exists z; split; [now right|exact Ez]). exists y. split; [now left|auto]. }
      destruct Y as (x & Hx & Kx & Px). apply keyword_attr_iff in Kx; [|exact (Tn _ _ Hc)]. destruct Kx as (a & En & Ka). exists anc, d, a. split; [exact Hc|].
      unfold put_ok in Px. destruct (link_of (a_val x)) as [k|] eqn:Lk; [|discriminate]. destruct (find_data k t') as [n'|] eqn:Fn; [|discriminate]. apply find_data_some in Fn. destruct Fn as [Hn' Kn'].
      destruct (At n' Hn') as (anc2 & n & Hc2 & R2 & _). split; [exact Ka|]. exists k, anc2, n.
      assert (Z : d_get d a <> None) by (destruct Ka as [-> | ->]; discriminate). split.
      { exists (a_val x). split; [|exact Lk]. rewrite <- (resolved_in_effect _ _ _ Z). destruct R as (_ & _ & V & _). rewrite <- V. apply d_get_in; auto. }
      split; [exact Hc2|]. destruct R2 as (S2 & R2'). destruct S2 as (A1 & A2 & A3). destruct R as ((B1 & B2 & B3) & R'). split; [congruence|].
      unfold can_link in Px. unfold has_id in Px. rewrite B3, A3, B1 in Px. destruct (String.eqb_spec (nid n) "") as [Ei|Ei]; [now left|]. cbn [negb andb] in Px. destruct (String.eqb_spec (nid d) (nid n)) as [Ej|Ej]; [right; left; congruence|]. cbn [negb andb] in Px. right; right.
      apply negb_false_iff in Px. refine (proj1 (resolved_links anc2 n n' (key d) (Tn _ _ Hc2) (Nd _ Hn') _) Px). split; [repeat split; assumption|exact R2'].
    + intros [_ (anc & d & a & Hc & Ka & k & anc2 & n & (v & Ev & Lv) & Hc2 & Kn & Hr)]. destruct (links_allowed t t') eqn:L; [exfalso|reflexivity]. unfold links_allowed in L. rewrite forallb_forall in L.
      destruct (To _ _ Hc) as (d' & Hd' & R). destruct (To _ _ Hc2) as (n' & Hn' & R2). specialize (L d' Hd'). destruct (At d' Hd') as (anc3 & d3 & Hc3 & R3 & Fd). assert (D3 : d3 = d).
      { apply find_data_some in Fd. destruct Fd as [Hd3 Kd3]. apply (data_unique t); [exact N|exact Hd3| |destruct R as ((K & _) & _); congruence]. rewrite <- (map_snd_ctx []). now apply (in_map snd) in Hc. }
      subst d3. rewrite Fd in L. rewrite forallb_forall in L. assert (Z : d_get d a <> None) by (destruct Ka as [-> | ->]; discriminate).
      rewrite <- (resolved_in_effect _ _ _ Z) in Ev. pose proof R as (S1 & _ & V & _). rewrite <- V in Ev. apply in_d_get in Ev. destruct Ev as (x & Hx & En & Vx). specialize (L x Hx).
      rewrite (proj2 (keyword_attr_iff d x (Tn _ _ Hc)) (ex_intro _ a (conj En Ka))) in L. cbn [negb orb] in L. unfold put_ok in L. rewrite Vx, Lv in L. pose proof R2 as ((A1 & A2 & A3) & _). destruct S1 as (B1 & B2 & B3).
      rewrite <- Kn, <- A1, (find_data_in t' n' N' Hn') in L. unfold can_link, has_id in L. rewrite B3, A3, B1 in L. apply andb_prop in L. destruct L as [L L3]. apply andb_prop in L. destruct L as [L1 L2].
      destruct Hr as [Hr|[Hr|Hr]].
      * rewrite Hr in L1. discriminate.
      * rewrite Hr, String.eqb_refl in L2. discriminate.
      * rewrite (proj2 (resolved_links anc2 n n' (key d) (Tn _ _ Hc2) (Nd _ Hn') R2) Hr) in L3. discriminate.
Qed.
Lemma anc_flat t : forall A p x, In p (ctx A t) -> In x (fst p) -> In x A \/ In x (flat t).
Proof.
  induction t as [d ch IH] using tree_ind'. intros A p x H Hx. cbn [ctx] in H. destruct H as [<-|H]; [now left|]. apply in_flat_map in H. destruct H as (c & Hc & H). rewrite Forall_forall in IH.
  destruct (IH c Hc _ _ _ H Hx) as [[<-|Q]|Q]; [right; now left|now left|]. right. cbn [flat]. right. apply in_flat_map. eauto.
Qed.
(** A document without links never makes it abort. *)
Corollary C15_no_links_no_panic : forall t, NoDup (keys t) -> Forall typed (flat t) -> (forall d x, In d (flat t) -> In x (attrs d) -> link_of (a_val x) = None) -> resolve_inherit t <> Panic.
Proof.
  intros t N HT H E. apply (proj2 (proj2 (C15_fails_iff t N HT))) in E. destruct E as [_ (anc & d & a & Hc & _ & k & _ & _ & (v & Ev & Lv) & _)].
  assert (Hd : forall y, In y (d :: anc) -> In y (flat t)). { intros y [<-|Hy]; [rewrite <- (map_snd_ctx []); now apply (in_map snd) in Hc|]. destruct (anc_flat t [] _ y Hc Hy) as [[]|X]; exact X. }
  assert (Gd : forall y b w, In y (flat t) -> d_get y b = Some w -> link_of w = None). { intros y b w Hy G. apply in_d_get in G. destruct G as (x & Hx & _ & <-). eauto. }
  assert (Co : forall l w, (forall y, In y l -> In y (flat t)) -> color_in_effect l = Some w -> link_of w = None).
  { induction l as [|y l IH]; intros w Hl Q; [discriminate|]. cbn [color_in_effect] in Q. destruct (d_get y AColor) as [u|] eqn:G; [|apply IH; [intros z Hz; apply Hl; now right|exact Q]].
    assert (U : link_of u = None) by (apply (Gd y AColor); [apply Hl; now left|exact G]). destruct u; try (injection Q as <-; exact U). destruct v0; try (injection Q as <-; exact U). apply IH; [intros z Hz; apply Hl; now right|exact Q]. }
  assert (Ie : forall l w, (forall y, In y l -> In y (flat t)) -> in_effect a l = Some w -> link_of w = None).
  { induction l as [|y l IH]; intros w Hl Q; [discriminate|]. cbn [in_effect] in Q. destruct (d_get y a) as [u|] eqn:G; [|apply IH; [intros z Hz; apply Hl; now right|exact Q]].
    assert (U : link_of u = None) by (apply (Gd y a); [apply Hl; now left|exact G]). destruct u; try (injection Q as <-; exact U). destruct v0; try (injection Q as <-; exact U); [apply IH; [intros z Hz; apply Hl; now right|exact Q]|exact (Co _ _ Hl Q)]. }
  rewrite (Ie _ _ Hd Ev) in Lv. discriminate.
Qed.

(** A document that meets the hypotheses: inherit through two levels, currentColor from an ancestor. *)
Definition inherit_doc : tree :=
  doc [el 1 ESvg [at_ AFill (VColor 255 0 0); at_ AColor (VColor 0 0 9)]
         [el 2 EG [at_ AFill inherit; at_ AStroke current_color]
            [el 3 ERect [at_ AStroke inherit; at_ AFill inherit] []]]].
Lemma inherit_doc_typed : Forall typed (flat inherit_doc).
Proof.
  unfold inherit_doc, doc, el, at_. cbn [flat flat_map app]. repeat (apply Forall_cons || apply Forall_nil);
  (split; [unfold attrs_nodup; cbn; repeat constructor; cbn; intuition discriminate|]);
  (split; [cbn; discriminate|cbn; try discriminate; intros _ a; split; discriminate]).
Qed.
Example C15_instance : Forall typed (flat inherit_doc) /\ resolve_inherit inherit_doc =
  Ok (doc [el 1 ESvg [at_ AFill (VColor 255 0 0); at_ AColor (VColor 0 0 9)]
         [el 2 EG [at_ AFill (VColor 255 0 0); at_ AStroke (VColor 0 0 9)]
            [el 3 ERect [at_ AStroke (VColor 0 0 9); at_ AFill (VColor 255 0 0)] []]]]).
Proof. split; [exact inherit_doc_typed|vm_compute; reflexivity]. Qed.
Example C15_fails_instance : resolve_inherit (doc [el 1 ESvg [] [el 2 ERect [at_ AFill inherit] []]]) = Err (UnresolvedAttribute AFill).
Proof. vm_compute. reflexivity. Qed.

(** "inherit" for a property that is not inherited should be the value of the parent, but the code takes
    it from a more distant ancestor: here the opacity 1/2 of the outer group instead of 1. *)
Definition far_opacity : tree :=
  doc [el 1 ESvg [] [el 2 EG [at_ AOpacity (VNum (Q2Qc (1 # 2)))] [el 3 EG [] [el 4 ERect [at_ AOpacity inherit] []]]]].
Theorem C15_not_inherited_property_refuted : exists t t' anc d anc' d' initial,
  Forall typed (flat t) /\ resolve_inherit t = Ok t' /\
  nth_error (ctx [] t) 4 = Some (anc, d) /\ nth_error (ctx [] t') 4 = Some (anc', d') /\ key d' = key d /\
  css_value initial AOpacity (d :: anc) = VNum q1 /\ css_value initial AOpacity (d' :: anc') <> VNum q1.
Proof.
  eexists far_opacity, _, _, _, _, _, (fun _ => VNum q1). repeat match goal with |- _ /\ _ => split end.
  - unfold far_opacity, doc, el, at_. cbn [flat flat_map app]. repeat (apply Forall_cons || apply Forall_nil);
    (split; [unfold attrs_nodup; cbn; repeat constructor; cbn; intuition discriminate|]);
    (split; [cbn; discriminate|cbn; try discriminate; intros _ a; split; discriminate]).
  - vm_compute. reflexivity.
  - reflexivity.
  - reflexivity.
  - reflexivity.
  - reflexivity.
  - vm_compute. discriminate.
Qed.

(** svgdom does not accept a link of an element to itself: the cleaner aborts. *)
Definition self_fill : tree := doc [el 1 ESvg [] [el 2 EG [at_ AFill (VFunc 3)] [eli 3 EPattern "p" [at_ AFill inherit] []]]].
Theorem C15_self_link_refuted : exists t, NoDup (keys t) /\ Forall typed (flat t) /\ resolve_inherit t = Panic.
Proof.
  exists self_fill. split; [cbn; repeat constructor; cbn; intuition discriminate|]. split; [|vm_compute; reflexivity].
  unfold self_fill, doc, el, eli, at_. cbn [flat flat_map app]. repeat (apply Forall_cons || apply Forall_nil);
    (split; [unfold attrs_nodup; cbn; repeat constructor; cbn; intuition discriminate|]);
    (split; [cbn; discriminate|cbn; try discriminate; intros _ a; split; discriminate]).
Qed.
