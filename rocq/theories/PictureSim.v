(** A document that is built like another one looks like it. *)
From Coq Require Import List Bool NArith Arith ZArith String QArith Qcanon Lia.
From Verif Require Import Names Num Value Dom DomFacts DomOps SpecDom SpecStyle SpecText SpecPaint PaintFacts Visit SpecPicture TasksSimpleProofs.
Import ListNotations.
Local Open Scope nat_scope.

(** ** The relation [looks] *)
Lemma looks_refl l : looks l l. Proof. apply same_refl. Qed.
Lemma looks_trans a b c : looks a b -> looks b c -> looks a c. Proof. apply same_trans. Qed.
Lemma looks_sym a b : looks a b -> looks b a. Proof. apply same_sym. Qed.
Lemma looks_app a a' b b' : looks a a' -> looks b b' -> looks (a ++ b) (a' ++ b').
Proof. unfold looks. rewrite !map_app. apply same_app. Qed.
Definition lk (n : aname) (l : list attr) : option value := option_map a_val (find (has_name n) l).
Lemma void_svg_lookup d n : is_tag ESvg d = true -> In n [AN AVersion; AN ABaseProfile; AN AXmlnsXlink] -> lookup n (bare_data d) = None.
Proof.
  intros S I. unfold lookup, bare_data. cbn [attrs]. destruct (find _ _) as [x|] eqn:F; [|reflexivity]. apply find_some in F. destruct F as [Fx Nx]. apply filter_In in Fx. destruct Fx as [_ V].
  exfalso. unfold void_attr in V. rewrite S in V. apply negb_true_iff, orb_false_iff in V. destruct V as [_ V]. cbn [andb] in V. cbn in I. destruct I as [<-|[<-|[<-|[]]]]; rewrite Nx in V; rewrite ?orb_true_r in V; discriminate.
Qed.
Lemma find_filter_other {A} (p q : A -> bool) l : (forall x, In x l -> p x = true -> q x = true) -> find p (filter q l) = find p l.
Proof.
  induction l as [|x l IH]; intros H; [reflexivity|]. cbn. destruct (p x) eqn:P.
  - rewrite (H x (or_introl eq_refl) P). cbn. now rewrite P.
  - destruct (q x); cbn; rewrite ?P; apply IH; intros y Hy; apply H; now right.
Qed.
Lemma bare_lookup d n : n <> AN ATransform -> (is_tag ESvg d = false \/ ~ In n [AN AVersion; AN ABaseProfile; AN AXmlnsXlink]) -> lookup n (bare_data d) = lookup n d.
Proof.
  intros N S. unfold lookup, bare_data. cbn [attrs]. f_equal. apply find_filter_other. intros x _ Hx. unfold has_name in Hx. destruct (aname_eqb_spec (a_name x) n) as [E|]; [|discriminate]. subst n.
  unfold void_attr, has_name. destruct (aname_eqb_spec (a_name x) (AN ATransform)) as [E|_]; [contradiction|]. cbn [andb orb]. apply negb_true_iff, andb_false_iff. destruct S as [S|S]; [now left|right].
  destruct (aname_eqb_spec (a_name x) (AN AVersion)) as [E|_]; [exfalso; apply S; rewrite E; cbn; auto|].
  destruct (aname_eqb_spec (a_name x) (AN ABaseProfile)) as [E|_]; [exfalso; apply S; rewrite E; cbn; auto|].
  destruct (aname_eqb_spec (a_name x) (AN AXmlnsXlink)) as [E|_]; [exfalso; apply S; rewrite E; cbn; auto|]. reflexivity.
Qed.
Lemma special_dec (n : aname) : In n [AN AVersion; AN ABaseProfile; AN AXmlnsXlink] \/ ~ In n [AN AVersion; AN ABaseProfile; AN AXmlnsXlink].
Proof.
  destruct (aname_eqb_spec n (AN AVersion)) as [E|E1]; [left; cbn; auto|]. destruct (aname_eqb_spec n (AN ABaseProfile)) as [E|E2]; [left; cbn; auto|]. destruct (aname_eqb_spec n (AN AXmlnsXlink)) as [E|E3]; [left; cbn; auto|].
  right. cbn. intuition congruence.
Qed.
Lemma elsewhere_transform n : elsewhere n = false -> n <> AN ATransform. Proof. intros H ->. discriminate H. Qed.
Lemma is_tag_eq e d d' : tag d' = tag d -> is_tag e d' = is_tag e d. Proof. unfold is_tag. now intros ->. Qed.
Lemma like_bare d d' : like d d' -> like (bare_data d) (bare_data d').
Proof.
  intros (K & T & I & L). split; [exact K|]. split; [exact T|]. split; [reflexivity|]. intros n N. pose proof (elsewhere_transform n N) as NT. pose proof (is_tag_eq ESvg d d' T) as TS.
  destruct (is_tag ESvg d) eqn:S; [destruct (special_dec n) as [J|J]|].
  - now rewrite !void_svg_lookup.
  - rewrite !bare_lookup by auto. auto.
  - rewrite !bare_lookup by auto. auto.
Qed.
Lemma same_bare l l' : same l l' -> looks l l'.
Proof.
  unfold looks. induction 1; rewrite ?map_app; cbn [map bare_pic].
  - apply same_refl.
  - now apply same_sym.
  - eapply same_trans; eauto.
  - now apply same_app.
  - apply same_shape; [now apply like_bare|assumption].
  - now apply same_layer.
  - now apply same_view.
  - now apply same_switch.
  - now apply same_alt.
  - apply same_plain.
  - apply same_nested.
  - now apply same_empty.
Qed.
Lemma same_picture_refl uu t : same_picture uu t t.
Proof. constructor; [intros l P; exists l; auto using looks_refl|]. intros d Hd _. exists d. repeat split; auto. exists l. auto using looks_refl. Qed.
Lemma resource_tag d d' : tag d = tag d' -> resource d' -> resource d. Proof. unfold resource. now intros ->. Qed.
Lemma same_picture_trans uu a b c : same_picture uu a b -> same_picture uu b c -> same_picture uu a c.
Proof.
  intros [P1 C1] [P2 C2]. constructor.
  - intros l H. destruct (P1 l H) as (l1 & H1 & L1). destruct (P2 l1 H1) as (l2 & H2 & L2). exists l2. split; [exact H2|eapply looks_trans; eauto].
  - intros d2 Hd2 R2. destruct (C2 d2 Hd2 R2) as (d1 & Hd1 & K1 & T1 & X1). destruct (C1 d1 Hd1 (resource_tag _ _ T1 R2)) as (d & Hd & K & T0 & X).
    exists d. split; [exact Hd|]. split; [congruence|]. split; [congruence|]. intros l H. destruct (X l H) as (B & l1 & H1 & L1). destruct (X1 l1 H1) as (B1 & l2 & H2 & L2). split; [congruence|]. exists l2. split; [exact H2|eapply looks_trans; eauto].
Qed.

(** ** Nodes that are painted alike *)
Record alike (d d' : ndata) : Prop := {
  al_key : key d' = key d;
  al_tag : tag d' = tag d;
  al_ts : ts_of d' = ts_of d;
  al_get : forall n, n <> AN ATransform -> (is_tag ESvg d = false \/ ~ In n [AN AVersion; AN ABaseProfile; AN AXmlnsXlink]) -> lookup n d' = lookup n d
}.
Lemma alike_refl d : alike d d. Proof. constructor; auto. Qed.
Lemma alike_get d d' a : alike d d' -> a <> ATransform -> ~ In a [AVersion; ABaseProfile; AXmlnsXlink] -> d_get d' a = d_get d a.
Proof.
  intros A N S. rewrite <- !lookup_get. apply (al_get _ _ A); [congruence|]. right. cbn. intros H. apply S. cbn. intuition congruence.
Qed.
Section Alike.
  Variables d d' : ndata.
  Hypothesis A : alike d d'.
  Ltac g := apply (alike_get d d' _ A); [discriminate|cbn; intuition discriminate].
  Lemma al_displayed : displayed d' <-> displayed d.
  Proof. unfold displayed. replace (d_get d' ADisplay) with (d_get d ADisplay); [reflexivity|symmetry; g]. Qed.
  Lemma al_given l : (forall a, In a l -> a <> ATransform /\ ~ In a [AVersion; ABaseProfile; AXmlnsXlink]) -> given d' l = given d l.
  Proof. intros H. apply given_ext. intros a Ha. apply alike_get; auto; apply H; auto. Qed.
  Ltac names := intros a Ha; cbn in Ha; repeat destruct Ha as [<-|Ha]; try contradiction; (split; [discriminate|cbn; intuition discriminate]).
  Lemma al_effects : effects d' = effects d. Proof. apply al_given. names. Qed.
  Lemma al_view : given d' viewport_attrs = given d viewport_attrs. Proof. apply al_given. names. Qed.
  Lemma al_size : given d' [AWidth; AHeight] = given d [AWidth; AHeight]. Proof. apply al_given. names. Qed.
  Lemma al_cond : given d' condition_attrs = given d condition_attrs. Proof. apply al_given. names. Qed.
  Lemma al_opacity : opacity_of d' = opacity_of d. Proof. unfold opacity_of. replace (d_get d' AOpacity) with (d_get d AOpacity); [reflexivity|symmetry; g]. Qed.
  Lemma al_href : d_get d' AXlinkHref = d_get d AXlinkHref. Proof. g. Qed.
  Lemma al_use uu : use_ts uu d' = use_ts uu d.
  Proof. unfold use_ts, coordinate. rewrite (al_ts _ _ A). replace (d_get d' AX) with (d_get d AX) by (symmetry; g). replace (d_get d' AY) with (d_get d AY) by (symmetry; g). reflexivity. Qed.
  Lemma al_layer m l : layer d' m l = layer d m l. Proof. unfold layer. now rewrite al_opacity, al_effects. Qed.
  Lemma inherited_al a : inherited a = true -> a <> ATransform /\ ~ In a [AVersion; ABaseProfile; AXmlnsXlink].
  Proof. intros I. split; [intros ->; discriminate I|]. cbn. intros [<-|[<-|[<-|[]]]]; discriminate I. Qed.
  Lemma al_style c c' : same_style c c' -> same_style (d :: c) (d' :: c').
  Proof. intros S a I. cbn. destruct (inherited_al a I) as [N M]. rewrite (alike_get d d' a A N M). now rewrite (S a I). Qed.
  Lemma al_like : like (bare_data d) (bare_data d').
  Proof.
    split; [apply A|]. split; [apply A|]. split; [reflexivity|]. intros n N. pose proof (elsewhere_transform n N) as NT. pose proof (is_tag_eq ESvg d d' (al_tag _ _ A)) as TS.
    destruct (is_tag ESvg d) eqn:S; [destruct (special_dec n) as [J|J]|].
    - now rewrite !void_svg_lookup.
    - rewrite !bare_lookup by auto. apply (al_get _ _ A); auto.
    - rewrite !bare_lookup by auto. apply (al_get _ _ A); auto.
  Qed.
  Lemma al_shape : shape_el d -> shape_el d'. Proof. unfold shape_el. now rewrite (al_tag _ _ A). Qed.
  Lemma al_group : group_el d -> group_el d'. Proof. unfold group_el. now rewrite (al_tag _ _ A). Qed.
  Lemma al_painted : painted_el d' <-> painted_el d. Proof. unfold painted_el, shape_el, group_el. now rewrite (al_tag _ _ A). Qed.
  Lemma al_element : element d' <-> element d. Proof. unfold element. now rewrite (al_tag _ _ A). Qed.
End Alike.

Lemma shape_no_symbol d : shape_el d -> tag d <> TEl ESymbol.
Proof. intros (e & E & I) H. rewrite E in H. inversion H; subst. cbn in I. intuition discriminate. Qed.
(** ** Subtrees that are painted alike *)
Section Sim.
  Variable uu : aid -> len -> Qc.
  Variables t t' : tree.
  (** The use elements that are looked at. *)
  Variable U : ndata -> Prop.
  Inductive sim : tree -> tree -> Prop :=
  | sim_shape d d' ch ch' : alike d d' -> shape_el d -> flat_map bare ch = flat_map bare ch' -> sim (T d ch) (T d' ch')
  | sim_switch d d' ch ch' : alike d d' -> tag d = TEl ESwitch -> simc ch ch' -> sim (T d ch) (T d' ch')
  | sim_box d d' ch ch' : alike d d' -> group_el d \/ tag d = TEl ESvg \/ tag d = TEl ESymbol -> sims ch ch' -> sim (T d ch) (T d' ch')
  | sim_use d d' ch ch' : alike d d' -> tag d = TEl EUse -> U d -> sim (T d ch) (T d' ch')
  | sim_dead s s' : root_key s' = root_key s -> ~ painted_el (data s) -> ~ painted_el (data s') -> tag (data s) <> TEl ESymbol -> tag (data s') <> TEl ESymbol -> sim s s'
  with sims : list tree -> list tree -> Prop :=
  | sims_nil : sims [] []
  | sims_cons s s' l l' : sim s s' -> sims l l' -> sims (s :: l) (s' :: l')
  | sims_left s l l' : ~ painted_el (data s) -> sims l l' -> sims (s :: l) l'
  | sims_right s' l l' : ~ painted_el (data s') -> sims l l' -> sims l (s' :: l')
  with simc : list tree -> list tree -> Prop :=
  | simc_nil : simc [] []
  | simc_cons s s' l l' : sim s s' -> (element (data s') <-> element (data s)) -> given (data s') condition_attrs = given (data s) condition_attrs -> simc l l' -> simc (s :: l) (s' :: l')
  | simc_left s l l' : ~ element (data s) -> simc l l' -> simc (s :: l) l'
  | simc_right s' l l' : ~ element (data s') -> simc l l' -> simc l (s' :: l').
  Hypothesis HU : forall d s, U d -> In s (subs t) -> d_get d AXlinkHref = Some (VLink (root_key s)) -> exists s', In s' (subs t') /\ root_key s' = root_key s /\ sim s s'.
  Hypothesis HN : forall d s', U d -> In s' (subs t') -> d_get d AXlinkHref = Some (VLink (root_key s')) -> exists s, In s (subs t) /\ root_key s = root_key s'.

  Lemma sim_hidden s s' : sim s s' -> ~ painted_el (data s) \/ ~ displayed (data s) -> ~ painted_el (data s') \/ ~ displayed (data s').
  Proof.
    assert (Q : forall d d', alike d d' -> ~ painted_el d \/ ~ displayed d -> ~ painted_el d' \/ ~ displayed d'). { intros d d' A. now rewrite (al_painted _ _ A), (al_displayed _ _ A). }
    destruct 1; cbn [data]; eauto.
  Qed.
  Ltac other := match goal with
    | H : ~ painted_el (data (Dom.T ?d ?c)) |- _ => cbn [data] in H; exfalso; apply H; auto with paint
    | A : group_el ?d \/ tag ?d = TEl ESvg \/ tag ?d = TEl ESymbol |- _ => destruct A as [A|[A|A]]; kinds
    | _ => kinds
    end.
  Lemma symbol_sim s s' : sim s s' -> tag (data s) = TEl ESymbol -> sims (kids s) (kids s') /\ alike (data s) (data s').
  Proof.
    destruct 1 as [d d' ch ch' A S|d d' ch ch' A S|d d' ch ch' A S L|d d' ch ch' A S|s s' K P P' N N']; cbn [data kids]; intros E; try (rewrite S in E; discriminate).
    - destruct S as (e & E' & I). rewrite E' in E. inversion E; subst. cbn in I. intuition discriminate.
    - split; assumption.
    - contradiction.
  Qed.
  Lemma svg_sim s s' : sim s s' -> tag (data s) = TEl ESvg -> sims (kids s) (kids s') /\ alike (data s) (data s').
  Proof.
    destruct 1 as [d d' ch ch' A S|d d' ch ch' A S|d d' ch ch' A S L|d d' ch ch' A S|s s' K P P' N N']; cbn [data kids]; intros E; try (rewrite S in E; discriminate).
    - destruct S as (e & E' & I). rewrite E' in E. inversion E; subst. cbn in I. intuition discriminate.
    - split; assumption.
    - exfalso. apply P. auto with paint.
  Qed.
  Lemma sim_tag s s' e : sim s s' -> painted_el (data s) \/ tag (data s) = TEl ESymbol -> tag (data s') = TEl e <-> tag (data s) = TEl e.
  Proof. destruct 1 as [d d' ch ch' A S|d d' ch ch' A S|d d' ch ch' A S L|d d' ch ch' A S|s s' K P P' N N']; cbn [data kids]; intros E; try (now rewrite (al_tag _ _ A)). tauto. Qed.
  Lemma dead_tag s e : ~ painted_el (data s) -> In e [ESvg] -> tag (data s) <> TEl e. Proof. intros P [<-|[]] E. apply P. auto with paint. Qed.
  Lemma looks_layer d d' m l l' : alike d d' -> looks l l' -> looks [layer d m l] [layer d' m l'].
  Proof. intros A L. rewrite (al_layer _ _ A). unfold looks. cbn [map bare_pic layer]. apply same_layer; [now right|exact L]. Qed.
  Lemma sim_view_kind s s' : sim s s' -> tag (data s) = TEl ESymbol \/ tag (data s) = TEl ESvg /\ displayed (data s) ->
    (tag (data s') = TEl ESymbol \/ tag (data s') = TEl ESvg /\ displayed (data s')) /\ sims (kids s) (kids s') /\ alike (data s) (data s').
  Proof.
    intros S [E|[E D]].
    - destruct (symbol_sim _ _ S E) as [L A]. split; [|auto]. left. now rewrite (al_tag _ _ A).
    - destruct (svg_sim _ _ S E) as [L A]. split; [|auto]. right. split; [now rewrite (al_tag _ _ A)|now apply (al_displayed _ _ A)].
  Qed.
  Lemma sim_no_view s s' : sim s s' -> tag (data s) <> TEl ESymbol -> tag (data s) <> TEl ESvg -> tag (data s') <> TEl ESymbol /\ tag (data s') <> TEl ESvg.
  Proof.
    destruct 1 as [d d' ch ch' A S|d d' ch ch' A S|d d' ch ch' A S L|d d' ch ch' A S|s s' K P P' N N']; cbn [data kids]; intros E1 E2; try (now rewrite (al_tag _ _ A)).
    split; [exact N'|]. now apply (dead_tag _ ESvg P'); cbn; auto.
  Qed.
  Theorem paint_sim :
    (forall m anc s l, paint uu t m anc s l -> forall s' anc', sim s s' -> same_style anc anc' -> exists l', paint uu t' m anc' s' l' /\ looks l l') /\
    (forall m anc ss l, paints uu t m anc ss l -> forall ss' anc', sims ss ss' -> same_style anc anc' -> exists l', paints uu t' m anc' ss' l' /\ looks l l') /\
    (forall m anc ss l, choices uu t m anc ss l -> forall ss' anc', simc ss ss' -> same_style anc anc' -> exists l', choices uu t' m anc' ss' l' /\ looks l l').
  Proof.
    apply paint_all.
    - intros m anc s H s' anc' S St. exists []. split; [apply p_hidden; exact (sim_hidden _ _ S H)|apply looks_refl].
    - intros m anc d ch Sh D s' anc' S St. inversion S as [x d' y ch' A X1 B E1 E2|x d' y ch' A X1 X2|x d' y ch' A X1 X2|x d' y ch' A X1 X2|s0 s1 K P P' N N']; subst; try (exfalso; other; fail); try other.
      2:{ exfalso. destruct X1 as [X1|[X1|X1]]; [kinds|kinds|exact (shape_no_symbol _ Sh X1)]. }
      eexists. split; [apply p_shape; [now apply (al_shape d)|now apply (al_displayed _ _ A)]|]. rewrite (al_ts _ _ A). apply looks_layer; [exact A|].
      unfold looks. cbn [map bare_pic]. rewrite B. apply same_shape; [now apply al_like|now apply al_style].
    - intros m anc d ch l G D P IH s' anc' S St. inversion S as [x d' y ch' A X1 B E1 E2|x d' y ch' A X1 X2|x d' y ch' A X1 X2|x d' y ch' A X1 X2|s0 s1 K P0 P' N N']; subst; try (exfalso; kinds; fail); [|exfalso; apply P0; cbn; auto with paint].
      destruct (IH ch' (d' :: anc') X2 (al_style _ _ A _ _ St)) as (l' & P' & L). exists [layer d' (t_mul m (ts_of d')) l']. split.
      + apply p_group; [now apply (al_group d)|now apply (al_displayed _ _ A)|]. now rewrite (al_ts _ _ A).
      + rewrite (al_ts _ _ A). now apply looks_layer.
    - intros m anc d ch l G D P IH s' anc' S St. inversion S as [x d' y ch' A X1 B E1 E2|x d' y ch' A X1 X2|x d' y ch' A X1 X2|x d' y ch' A X1 X2|s0 s1 K P0 P' N N']; subst; try (exfalso; kinds; fail); [|destruct X1 as [X1|[X1|X1]]; kinds|exfalso; apply P0; cbn; auto with paint].
      destruct (IH ch' (d' :: anc') X2 (al_style _ _ A _ _ St)) as (l' & P' & L). exists [layer d' (t_mul m (ts_of d')) [PSwitch l']]. split.
      + apply p_switch; [now rewrite (al_tag _ _ A)|now apply (al_displayed _ _ A)|]. now rewrite (al_ts _ _ A).
      + rewrite (al_ts _ _ A). apply looks_layer; [exact A|]. unfold looks. cbn [map bare_pic]. now apply same_switch.
    - intros m anc d ch l G D P IH s' anc' S St. destruct s' as [d' ch']. destruct (svg_sim _ _ S G) as [X2 A]. cbn [data kids] in X2, A.
      destruct (IH ch' (d' :: anc') X2 (al_style _ _ A _ _ St)) as (l' & P' & L). eexists. split.
      + apply p_svg; [now rewrite (al_tag _ _ A)|now apply (al_displayed _ _ A)|exact P'].
      + apply looks_layer; [exact A|]. rewrite (al_view _ _ A). unfold looks. cbn [map bare_pic]. now apply same_view.
    - intros m anc d ch s l G D E Hs T1 T2 P IH s' anc' S St. inversion S as [x d' y ch' A X1 B E1 E2|x d' y ch' A X1 X2|x d' y ch' A X1 X2|x d' y ch' A X1 X2|s0 s1 K P0 P' N N']; subst; try (exfalso; kinds; fail); [destruct X1 as [X1|[X1|X1]]; kinds| |exfalso; apply P0; cbn; auto with paint].
      destruct (HU d s X2 Hs E) as (s1 & H1 & K1 & S1). destruct (sim_no_view _ _ S1 T1 T2) as [T1' T2']. destruct (IH s1 (d' :: anc') S1 (al_style _ _ A _ _ St)) as (l' & P' & L).
      exists [layer d' (t_mul m (use_ts uu d')) l']. split.
      + apply (p_use uu t' m anc' d' ch' s1); auto; [now rewrite (al_tag _ _ A)|now apply (al_displayed _ _ A)|rewrite (al_href _ _ A), K1; exact E|]. now rewrite (al_use _ _ A).
      + rewrite (al_use _ _ A). now apply looks_layer.
    - intros m anc d ch s l G D E Hs T1 P IH s' anc' S St. inversion S as [x d' y ch' A X1 B E1 E2|x d' y ch' A X1 X2|x d' y ch' A X1 X2|x d' y ch' A X1 X2|s0 s1 K P0 P' N N']; subst; try (exfalso; kinds; fail); [destruct X1 as [X1|[X1|X1]]; kinds| |exfalso; apply P0; cbn; auto with paint].
      destruct (HU d s X2 Hs E) as (s1 & H1 & K1 & S1). destruct (sim_view_kind _ _ S1 T1) as (T1' & LS & A1). destruct (IH (kids s1) (data s1 :: d' :: anc') LS (al_style _ _ A1 _ _ (al_style _ _ A _ _ St))) as (l' & P' & L).
      eexists. split.
      + apply (p_use_view uu t' m anc' d' ch' s1); auto; [now rewrite (al_tag _ _ A)|now apply (al_displayed _ _ A)|rewrite (al_href _ _ A), K1; exact E|exact P'].
      + rewrite (al_use _ _ A). apply looks_layer; [exact A|]. apply looks_layer; [exact A1|]. rewrite (al_size _ _ A), (al_view _ _ A1). unfold looks. cbn [map bare_pic]. now apply same_view.
    - intros m anc d ch s G D E Hs T1 T2 s' anc' S St. inversion S as [x d' y ch' A X1 B E1 E2|x d' y ch' A X1 X2|x d' y ch' A X1 X2|x d' y ch' A X1 X2|s0 s1 K P0 P' N N']; subst; try (exfalso; kinds; fail); [destruct X1 as [X1|[X1|X1]]; kinds| |exfalso; apply P0; cbn; auto with paint].
      destruct (HU d s X2 Hs E) as (s1 & H1 & K1 & S1). destruct (svg_sim _ _ S1 T1) as [_ A1]. exists []. split; [|apply looks_refl].
      apply (p_use_hidden uu t' m anc' d' ch' s1); auto; [now rewrite (al_tag _ _ A)|now apply (al_displayed _ _ A)|rewrite (al_href _ _ A), K1; exact E|now rewrite (al_tag _ _ A1)|]. now rewrite (al_displayed _ _ A1).
    - intros m anc d ch G D E s' anc' S St. inversion S as [x d' y ch' A X1 B E1 E2|x d' y ch' A X1 X2|x d' y ch' A X1 X2|x d' y ch' A X1 X2|s0 s1 K P0 P' N N']; subst; try (exfalso; kinds; fail); [destruct X1 as [X1|[X1|X1]]; kinds| |exfalso; apply P0; cbn; auto with paint].
      exists []. split; [|apply looks_refl]. apply p_use_none; [now rewrite (al_tag _ _ A)|now apply (al_displayed _ _ A)|]. intros s1 H1 H2. rewrite (al_href _ _ A) in H2. destruct (HN d s1 X2 H1 H2) as (s & Hs & K). apply (E s Hs). now rewrite K.
    - intros m anc ss' anc' S St. remember [] as e eqn:Ee. induction S; try discriminate.
      + exists []. split; [constructor|apply looks_refl].
      + destruct (IHS Ee) as (l2 & P & L). exists ([] ++ l2). split; [constructor; [apply p_hidden; now left|exact P]|exact L].
    - intros m anc s l p q Pp IH1 Pq IH2 ss' anc' S St. remember (s :: l) as e eqn:Ee. revert s l p q Pp IH1 Pq IH2 Ee. induction S as [|s0 s' l0 l' S0 Sl IH|s0 l0 l' Hp Sl IH|s' l0 l' Hp Sl IH]; intros s l p q Pp IH1 Pq IH2 Ee.
      + discriminate.
      + inversion Ee; subst. destruct (IH1 s' anc' S0 St) as (p' & P' & L'). destruct (IH2 l' anc' Sl St) as (q' & Q' & M'). exists (p' ++ q'). split; [now constructor|now apply looks_app].
      + inversion Ee; subst. assert (p = []). { inversion Pp; subst; auto; cbn [data] in Hp; exfalso; apply Hp; auto with paint. } subst p. destruct (IH2 l' anc' Sl St) as (q' & Q' & M'). exists q'. split; assumption.
      + destruct (IH s l p q Pp IH1 Pq IH2 Ee) as (l2 & P & L). exists ([] ++ l2). split; [constructor; [apply p_hidden; now left|exact P]|exact L].
    - intros m anc ss' anc' S St. remember [] as e eqn:Ee. induction S; try discriminate.
      + exists []. split; [constructor|apply looks_refl].
      + destruct (IHS Ee) as (l2 & P & L). exists l2. split; [apply ch_skip; [assumption|exact P]|exact L].
    - intros m anc s l q NE Pq IH2 ss' anc' S St. remember (s :: l) as e eqn:Ee. revert s l q NE Pq IH2 Ee. induction S as [|s0 s' l0 l' S0 El Gc Sl IH|s0 l0 l' Hp Sl IH|s' l0 l' Hp Sl IH]; intros s l q NE Pq IH2 Ee.
      + discriminate.
      + inversion Ee; subst. destruct (IH2 l' anc' Sl St) as (q' & Q' & M'). exists q'. split; [apply ch_skip; [now rewrite El|exact Q']|exact M'].
      + inversion Ee; subst. exact (IH2 l' anc' Sl St).
      + destruct (IH s l q NE Pq IH2 Ee) as (l2 & P & L). exists l2. split; [now apply ch_skip|exact L].
    - intros m anc s l p q NE Pp IH1 Pq IH2 ss' anc' S St. remember (s :: l) as e eqn:Ee. revert s l p q NE Pp IH1 Pq IH2 Ee. induction S as [|s0 s' l0 l' S0 El Gc Sl IH|s0 l0 l' Hp Sl IH|s' l0 l' Hp Sl IH]; intros s l p q NE Pp IH1 Pq IH2 Ee.
      + discriminate.
      + inversion Ee; subst. destruct (IH1 s' anc' S0 St) as (p' & P' & L'). destruct (IH2 l' anc' Sl St) as (q' & Q' & M'). eexists. split; [apply ch_cons; [now apply El|exact P'|exact Q']|]. rewrite Gc.
        change (looks ([PAlt (given (data s) condition_attrs) p] ++ q) ([PAlt (given (data s) condition_attrs) p'] ++ q')). apply looks_app; [|exact M']. unfold looks. cbn [map bare_pic]. now apply same_alt.
      + inversion Ee; subst. contradiction.
      + destruct (IH s l p q NE Pp IH1 Pq IH2 Ee) as (l2 & P & L). exists l2. split; [now apply ch_skip|exact L].
  Qed.
  Lemma picture_sim s s' : svg_element t = Some s -> svg_element t' = Some s' -> sim s s' -> same_style [data t] [data t'] -> forall l, picture uu t l -> exists l', picture uu t' l' /\ looks l l'.
  Proof.
    intros E E' S St l (s0 & E0 & P). assert (s0 = s) by congruence. subst s0. destruct (proj1 paint_sim _ _ _ _ P _ _ S St) as (l' & P' & L). exists l'. split; [exists s'; auto|exact L].
  Qed.
  Lemma content_sim k a s a' s' : NoDup (keys t) -> In (a, s) (places [] t) -> root_key s = k -> In (a', s') (places [] t') -> root_key s' = k -> sims (kids s) (kids s') -> same_style (data s :: a) (data s' :: a') ->
    forall l, content uu t k l -> exists l', content uu t' k l' /\ looks l l'.
  Proof.
    intros N H K H' K' S St l (a0 & s0 & H0 & K0 & P). assert (E : (a0, s0) = (a, s)) by (apply (place_unique t [] _ _ N H0 H); cbn; congruence). inversion E; subst a0 s0.
    destruct (proj1 (proj2 paint_sim) _ _ _ _ P _ _ S St) as (l' & P' & L). exists l'. split; [exists a', s'; auto|exact L].
  Qed.
End Sim.
