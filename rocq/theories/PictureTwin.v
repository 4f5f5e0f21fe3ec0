(** Passes that change the data of nodes only. *)
From Coq Require Import List Bool NArith Arith ZArith String QArith Qcanon Lia.
From Verif Require Import Names Num Value Dom DomFacts DomOps IdNum Outcome SpecDom SpecStyle SpecText SpecPaint PaintFacts Visit TasksSimple TasksSimpleProofs SpecPicture PictureSim.
Import ListNotations.
Local Open Scope nat_scope.

Section Twin.
  Variable R : ndata -> ndata -> Prop.
  Inductive twin : tree -> tree -> Prop := twin_T d d' ch ch' : R d d' -> Forall2 twin ch ch' -> twin (T d ch) (T d' ch').
  Lemma twin_data s s' : twin s s' -> R (data s) (data s'). Proof. now destruct 1. Qed.
  Lemma twin_kids s s' : twin s s' -> Forall2 twin (kids s) (kids s'). Proof. now destruct 1. Qed.
  Lemma f2_in (P : tree -> tree -> Prop) l l' x : Forall2 P l l' -> In x l -> exists x', In x' l' /\ P x x'.
  Proof. induction 1; cbn; [tauto|]. intros [->|I]; [eauto|]. destruct (IHForall2 I) as (z & Hz1 & Hz2). eauto. Qed.
  Lemma f2_in' (P : tree -> tree -> Prop) l l' x' : Forall2 P l l' -> In x' l' -> exists x, In x l /\ P x x'.
  Proof. induction 1; cbn; [tauto|]. intros [->|I]; [eauto|]. destruct (IHForall2 I) as (z & Hz1 & Hz2). eauto. Qed.
  Lemma twin_subs t : forall t' s, twin t t' -> In s (subs t) -> exists s', In s' (subs t') /\ twin s s'.
  Proof.
    induction t as [d ch IH] using tree_ind'. intros t' s W. inversion W; subst. cbn [subs]. intros [<-|I]; [exists (T d' ch'); split; [now left|exact W]|].
    apply in_flat_map in I. destruct I as (c & Hc & Hs). destruct (f2_in _ _ _ _ H3 Hc) as (c' & Hc' & Wc). rewrite Forall_forall in IH. destruct (IH c Hc c' s Wc Hs) as (s' & Hs' & Ws). exists s'. split; [|exact Ws]. right. apply in_flat_map. eauto.
  Qed.
  Lemma twin_subs' t : forall t' s', twin t t' -> In s' (subs t') -> exists s, In s (subs t) /\ twin s s'.
  Proof.
    induction t as [d ch IH] using tree_ind'. intros t' s W. inversion W; subst. cbn [subs]. intros [<-|I]; [exists (T d ch); split; [now left|exact W]|].
    apply in_flat_map in I. destruct I as (c' & Hc' & Hs). destruct (f2_in' _ _ _ _ H3 Hc') as (c & Hc & Wc). rewrite Forall_forall in IH. destruct (IH c Hc c' s Wc Hs) as (s' & Hs' & Ws). exists s'. split; [|exact Ws]. right. apply in_flat_map. eauto.
  Qed.
  Lemma twin_places t : forall A A' t' a' s', twin t t' -> Forall2 R A A' -> In (a', s') (places A' t') -> exists a s, In (a, s) (places A t) /\ Forall2 R a a' /\ twin s s'.
  Proof.
    induction t as [d ch IH] using tree_ind'. intros A A' t' a' s' W F. inversion W; subst. cbn [places]. intros [E|I].
    - inversion E; subst. exists A, (T d ch). split; [now left|auto].
    - apply in_flat_map in I. destruct I as (c' & Hc' & Hs). destruct (f2_in' _ _ _ _ H3 Hc') as (c & Hc & Wc). rewrite Forall_forall in IH.
      destruct (IH c Hc (d :: A) (d' :: A') c' a' s' Wc (Forall2_cons _ _ H1 F) Hs) as (a & s & H & X). exists a, s. split; [|exact X]. right. apply in_flat_map. eauto.
  Qed.
  Hypothesis R_alike : forall d d', R d d' -> alike d d'.
  Hypothesis R_bare : forall d d', R d d' -> bare_data d' = bare_data d.
  Lemma twin_root s s' : twin s s' -> root_key s' = root_key s. Proof. intros W. apply (al_key _ _ (R_alike _ _ (twin_data _ _ W))). Qed.
  Lemma remark_tag d d' : tag d' = tag d -> remark d' = remark d. Proof. intros E. unfold remark. now rewrite !(is_tag_eq _ _ _ E). Qed.
  Lemma twin_bare s : forall s', twin s s' -> bare s = bare s'.
  Proof.
    induction s as [d ch IH] using tree_ind'. intros s' W. inversion W; subst. cbn [bare]. rewrite (remark_tag d d' (al_tag _ _ (R_alike _ _ H1))). destruct (remark d); [reflexivity|]. rewrite (R_bare _ _ H1). do 2 f_equal.
    clear W H1. induction H3 as [|c c' l l' Wc F IH2]; [reflexivity|]. cbn. rewrite (Forall_inv IH c' Wc). f_equal. apply IH2, (Forall_inv_tail IH).
  Qed.
  Lemma twin_bares l l' : Forall2 twin l l' -> flat_map bare l = flat_map bare l'.
  Proof. induction 1 as [|c c' l l' W F IH]; [reflexivity|]. cbn. now rewrite (twin_bare _ _ W), IH. Qed.
  Lemma kind_cases d : shape_el d \/ tag d = TEl ESwitch \/ (group_el d \/ tag d = TEl ESvg \/ tag d = TEl ESymbol) \/ tag d = TEl EUse \/ (~ painted_el d /\ tag d <> TEl ESymbol).
  Proof.
    destruct (is_tag ESymbol d) eqn:E; [apply is_tag_iff in E; tauto|]. assert (tag d <> TEl ESymbol) by (intros H; apply is_tag_iff in H; congruence).
    assert (S : shape_el d \/ ~ shape_el d). { unfold shape_el. destruct (tag d) as [|e| | | |]; try (right; intros (e' & E' & _); discriminate). destruct (in_dec (fun a b => match eid_eqb_spec a b with ReflectT _ p => left p | ReflectF _ p => right p end) e [EPath; ERect; ECircle; EEllipse; ELine; EPolyline; EPolygon; EText; EImage; EForeignObject]) as [I|I]; [left; eauto|right]. intros (e' & E' & I'). inversion E'; subst. contradiction. }
    assert (Q : forall e, tag d = TEl e \/ tag d <> TEl e). { intros e. destruct (is_tag e d) eqn:X; [left; now apply is_tag_iff|right; intros H'; apply is_tag_iff in H'; congruence]. }
    unfold painted_el, group_el. pose proof (Q EG). pose proof (Q EA). pose proof (Q ESwitch). pose proof (Q ESvg). pose proof (Q EUse). tauto.
  Qed.
  Lemma twin_sim s : forall s', twin s s' -> sim (fun _ => True) s s'.
  Proof.
    induction s as [d ch IH] using tree_ind'. intros s' W. inversion W as [x d' y ch' Rd F]; subst. pose proof (R_alike _ _ Rd) as A. destruct (kind_cases d) as [K|[K|[K|[K|[K1 K2]]]]].
    - apply sim_shape; auto. now apply twin_bares.
    - apply sim_switch; auto. clear W. induction F as [|c c' l l' Wc F IH2]; [constructor|]. pose proof (R_alike _ _ (twin_data _ _ Wc)) as Ac. constructor; [exact (Forall_inv IH c' Wc)|exact (al_element _ _ Ac)|exact (al_cond _ _ Ac)|]. exact (IH2 (Forall_inv_tail IH)).
    - apply sim_box; auto. clear W. induction F as [|c c' l l' Wc F IH2]; [constructor|]. constructor; [exact (Forall_inv IH c' Wc)|]. exact (IH2 (Forall_inv_tail IH)).
    - now apply sim_use.
    - apply sim_dead; cbn [data]; auto; [exact (al_key _ _ A)|now rewrite (al_painted _ _ A)|now rewrite (al_tag _ _ A)].
  Qed.
  Lemma twin_sims l l' : Forall2 twin l l' -> sims (fun _ => True) l l'.
  Proof. induction 1; constructor; auto. now apply twin_sim. Qed.
  Lemma twin_style A A' : Forall2 R A A' -> same_style A A'.
  Proof. induction 1; [apply same_style_refl|]. apply al_style; auto. Qed.
  Lemma twin_svg t t' : twin t t' -> forall s, svg_element t = Some s -> exists s', svg_element t' = Some s' /\ twin s s'.
  Proof.
    intros W s. unfold svg_element. pose proof (twin_kids _ _ W) as F. induction F as [|c c' l l' Wc F IH]; [discriminate|]. cbn. rewrite (is_tag_eq ESvg (data c) (data c')) by (apply al_tag, R_alike, twin_data, Wc).
    destruct (is_tag ESvg (data c)); [|exact IH]. intros E. inversion E; subst. eauto.
  Qed.
  Lemma twin_HU t t' : twin t t' -> forall (d : ndata) s, True -> In s (subs t) -> d_get d AXlinkHref = Some (VLink (root_key s)) -> exists s', In s' (subs t') /\ root_key s' = root_key s /\ sim (fun _ => True) s s'.
  Proof. intros W d s _ Hs _. destruct (twin_subs _ _ _ W Hs) as (s' & Hs' & Ws). exists s'. split; [exact Hs'|]. split; [now apply twin_root|now apply twin_sim]. Qed.
  Lemma twin_HN t t' : twin t t' -> forall (d : ndata) s', True -> In s' (subs t') -> d_get d AXlinkHref = Some (VLink (root_key s')) -> exists s, In s (subs t) /\ root_key s = root_key s'.
  Proof. intros W d s' _ Hs _. destruct (twin_subs' _ _ _ W Hs) as (s & Hs' & Ws). exists s. split; [exact Hs'|]. symmetry. now apply twin_root. Qed.
  Theorem twin_same uu t t' : NoDup (keys t) -> twin t t' -> same_picture uu t t'.
  Proof.
    intros N W. constructor.
    - intros l P. assert (E : exists s, svg_element t = Some s) by (destruct P as (s & E & _); eauto). destruct E as (s & E). destruct (twin_svg _ _ W s E) as (s' & E' & Ws).
      apply (picture_sim uu t t' (fun _ => True) (twin_HU t t' W) (twin_HN t t' W) s s' E E' (twin_sim _ _ Ws)); [|exact P]. apply al_style; [apply R_alike, twin_data, W|apply same_style_refl].
    - intros d' Hd' _. destruct (in_place d' t' [] Hd') as (a' & s' & H' & <-). destruct (twin_places t [] [] t' a' s' W (Forall2_nil _) H') as (a & s & H & F & Ws). pose proof (twin_data _ _ Ws) as Rd. pose proof (R_alike _ _ Rd) as A.
      exists (data s). split; [exact (place_in _ _ _ _ H)|]. split; [symmetry; apply A|]. split; [symmetry; apply A|]. intros l C. split; [symmetry; now apply R_bare|].
      rewrite (al_key _ _ A). apply (content_sim uu t t' (fun _ => True) (twin_HU t t' W) (twin_HN t t' W) (key (data s)) a s a' s' N H eq_refl H'); [now apply twin_root|now apply twin_sims, twin_kids| |exact C].
      apply al_style; [exact A|now apply twin_style].
  Qed.
  Lemma twin_tmap f t : (forall d, In d (flat t) -> R d (f d)) -> twin t (tmap f t).
  Proof.
    induction t as [d ch IH] using tree_ind'. cbn [flat tmap]. intros H. constructor; [apply H; now left|]. assert (H' : forall c, In c ch -> forall x, In x (flat c) -> R x (f x)) by (intros c Hc x Hx; apply H; right; apply in_flat_map; eauto).
    clear H. induction ch as [|c ch IH2]; [constructor|]. cbn. constructor; [apply (Forall_inv IH), H'; now left|]. apply IH2; [exact (Forall_inv_tail IH)|]. intros c' Hc'. apply H'. now right.
  Qed.
End Twin.
(** The relation of the passes below. *)
Definition cosmetic (d d' : ndata) : Prop := alike d d' /\ bare_data d' = bare_data d.
Lemma cosmetic_refl d : cosmetic d d. Proof. split; [apply alike_refl|reflexivity]. Qed.
Lemma cosmetic_id d i : cosmetic d (with_id d i). Proof. split; [|reflexivity]. constructor; reflexivity. Qed.
Lemma cosmetic_trans a b c : cosmetic a b -> cosmetic b c -> cosmetic a c.
Proof.
  intros [A1 B1] [A2 B2]. split; [|congruence]. constructor.
  - rewrite (al_key _ _ A2). apply A1.
  - rewrite (al_tag _ _ A2). apply A1.
  - rewrite (al_ts _ _ A2). apply A1.
  - intros n N S. rewrite (al_get _ _ A2); auto; [now apply (al_get _ _ A1)|]. now rewrite (is_tag_eq _ _ _ (al_tag _ _ A1)).
Qed.
Lemma cosmetic_same uu t t' : NoDup (keys t) -> twin cosmetic t t' -> same_picture uu t t'.
Proof. apply twin_same; intros d d' H; apply H. Qed.
(** Taking away attributes that say nothing. *)
Lemma lookup_filter p n d l : attrs d = l -> (forall x, In x l -> has_name n x = true -> p x = true) -> lookup n (with_attrs d (filter p l)) = lookup n d.
Proof. intros <- H. unfold lookup. cbn [attrs with_attrs]. f_equal. now apply find_filter_other. Qed.
