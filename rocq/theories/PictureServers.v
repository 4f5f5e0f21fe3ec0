(** Passes that change gradients and stops only. *)
From Coq Require Import List Bool NArith Arith ZArith String QArith Qcanon Lia.
From Verif Require Import Names Num Value Dom DomFacts DomOps Outcome DomRemove TasksSimple TasksSimpleProofs SpecDom SpecStyle SpecText SpecPaint PaintFacts Visit SpecUse SpecUngroup SpecGroupStyle WfAll SpecPicture SpecPrepared PictureSim PictureTwin.
From Verif Require MoveFacts Img Push Transforms.
Import ListNotations.
Local Open Scope nat_scope.

Definition server_attrs : list aid :=
  [AGradientUnits; ASpreadMethod; AX1; AY1; AX2; AY2; ACx; ACy; AR; AFx; AFy; AGradientTransform; AOffset; AStopColor; AStopOpacity].
Definition word (v : value) : Prop := v = VPre Vid_inherit \/ v = VPre Vid_currentColor.
(** Values that are in [t0], and values without links and keywords. *)
Definition old (t0 : tree) (v : value) : Prop :=
  (exists d x, In d (flat t0) /\ In x (attrs d) /\ a_val x = v) \/ (link_of v = None /\ ~ word v).
(** A [gradientTransform] is a transform, if it is in [t0]. *)
Definition trans_all (t0 : tree) : Prop := forall d y, In d (flat t0) -> In y (attrs d) -> a_name y = AN AGradientTransform -> exists m, a_val y = VTransform m.
Definition fits (t0 : tree) (n : aname) (v : value) : Prop := old t0 v /\ (trans_all t0 -> n = AN AGradientTransform -> exists m, v = VTransform m).
Definition settled (t0 : tree) (y : attr) : Prop := fits t0 (a_name y) (a_val y).
Record side (t0 : tree) (d d' : ndata) : Prop := {
  sd_key : key d' = key d;
  sd_tag : tag d' = tag d;
  sd_id : nid d' = nid d;
  sd_get : forall a, ~ In a server_attrs -> d_get d' a = d_get d a;
  sd_vals : (forall y, In y (attrs d) -> settled t0 y) -> forall y, In y (attrs d') -> settled t0 y;
  sd_same : ~ server d -> d' = d
}.
Lemma side_refl t0 d : side t0 d d. Proof. constructor; auto. Qed.
Lemma server_tag d d' : tag d' = tag d -> server d' -> server d. Proof. unfold server, gradient_el. now intros ->. Qed.
Lemma side_trans t0 a b c : side t0 a b -> side t0 b c -> side t0 a c.
Proof.
  intros A B. constructor.
  - rewrite (sd_key _ _ _ B). apply A.
  - rewrite (sd_tag _ _ _ B). apply A.
  - rewrite (sd_id _ _ _ B). apply A.
  - intros x Hx. rewrite (sd_get _ _ _ B x Hx). now apply A.
  - intros H. apply B. now apply A.
  - intros H. rewrite (sd_same _ _ _ B); [now apply A|]. intros X. apply H. apply (server_tag a b (sd_tag _ _ _ A) X).
Qed.
Lemma server_dec d : server d \/ ~ server d.
Proof.
  assert (Q : forall e, tag d = TEl e \/ tag d <> TEl e). { intros e. destruct (is_tag e d) eqn:X; [left; now apply is_tag_iff|right; intros H'; apply is_tag_iff in H'; congruence]. }
  unfold server, gradient_el. pose proof (Q ELinearGradient). pose proof (Q ERadialGradient). pose proof (Q EStop). tauto.
Qed.
Lemma server_not d : server d -> ~ painted_el d /\ tag d <> TEl ESymbol /\ ~ resource d.
Proof. intros H. unfold painted_el, shape_el, group_el, resource. destruct H as [[E|E]|E]; rewrite E; (split; [intros [(e & X & I)|[[X|X]|[X|[X|X]]]]; try discriminate; inversion X; subst; cbn in I; intuition discriminate|split; [discriminate|intros (e & X & I); inversion X; subst; cbn in I; intuition discriminate]]). Qed.
Lemma inherited_side a : inherited a = true -> ~ In a server_attrs.
Proof. intros H I. cbn in I. repeat (destruct I as [<-|I]; [discriminate H|]). destruct I. Qed.

Section Servers.
  Variable t0 : tree.
  Notation R := (side t0).
  Notation twin := (twin R).
  Definition clear (s : tree) : Prop := forall d, In d (flat s) -> ~ server d.
  Lemma twin_clear s : forall s', clear s -> twin s s' -> s' = s.
  Proof.
    induction s as [d ch IH] using tree_ind'. intros s' C W. inversion W as [x d' y ch' Rd F]; subst. rewrite (sd_same _ _ _ Rd) by (apply C; now left). f_equal.
    assert (C' : Forall clear ch) by (apply Forall_forall; intros c Hc z Hz; apply C; right; apply in_flat_map; eauto). clear C W Rd. induction F as [|c c' l l' Wc F IH2]; [reflexivity|]. f_equal; [exact (Forall_inv IH c' (Forall_inv C') Wc)|]. apply IH2; [exact (Forall_inv_tail IH)|exact (Forall_inv_tail C')].
  Qed.
  Lemma twin_clears l l' : Forall clear l -> Forall2 twin l l' -> l' = l.
  Proof. intros C F. induction F as [|c c' l l' W F IH]; [reflexivity|]. f_equal; [exact (twin_clear _ _ (Forall_inv C) W)|exact (IH (Forall_inv_tail C))]. Qed.
  (** No gradient is inside of a shape. *)
  Definition clean_shapes (s : tree) : Prop := forall x, In x (subs s) -> shape_el (data x) -> forall c, In c (kids x) -> clear c.
  Lemma clean_kid d ch c : clean_shapes (T d ch) -> In c ch -> clean_shapes c.
  Proof. intros C Hc x Hx. apply C. cbn [subs]. right. apply in_flat_map. eauto. Qed.
  Lemma side_kind d d' : R d d' -> d' = d \/ (~ painted_el d /\ ~ painted_el d' /\ tag d <> TEl ESymbol /\ tag d' <> TEl ESymbol).
  Proof.
    intros S. destruct (server_dec d) as [V|V]; [right|left; now apply S]. destruct (server_not d V) as (A & B & _). assert (V' : server d') by (apply (server_tag d' d); [symmetry; apply S|exact V]). destruct (server_not d' V') as (A' & B' & _). auto.
  Qed.
  Lemma side_given d d' l : R d d' -> (forall a, In a l -> ~ In a server_attrs) -> given d' l = given d l.
  Proof. intros S H. unfold given. induction l as [|a l IH]; [reflexivity|]. cbn. rewrite (sd_get _ _ _ S a) by (apply H; now left). now rewrite IH by (intros b Hb; apply H; now right). Qed.
  Lemma side_cond d d' : R d d' -> given d' condition_attrs = given d condition_attrs.
  Proof. intros S. apply (side_given d d' _ S). intros a Ha I. cbn in Ha, I. intuition congruence. Qed.
  Lemma side_element d d' : R d d' -> element d' <-> element d. Proof. intros S. unfold element. now rewrite (sd_tag _ _ _ S). Qed.
  Lemma tw_sim s : forall s', clean_shapes s -> twin s s' -> sim (fun _ => True) s s'.
  Proof.
    induction s as [d ch IH] using tree_ind'. intros s' C W. inversion W as [x d' y ch' Rd F]; subst. assert (C' : Forall clean_shapes ch) by (apply Forall_forall; intros c Hc; exact (clean_kid d ch c C Hc)).
    destruct (side_kind d d' Rd) as [->|(K1 & K2 & K3 & K4)]; [|apply sim_dead; cbn [data root_key]; auto; exact (sd_key _ _ _ Rd)].
    destruct (kind_cases d) as [K|[K|[K|[K|[K1 K2]]]]].
    - rewrite (twin_clears ch ch'); [apply sim_shape; auto; apply alike_refl| |exact F]. apply Forall_forall. intros c Hc. apply (C (T d ch)); [now left|exact K|exact Hc].
    - apply sim_switch; [apply alike_refl|exact K|]. clear W C Rd. induction F as [|c c' l l' Wc F IH2]; [constructor|]. pose proof (twin_data _ _ _ Wc) as Rc. constructor; [exact (Forall_inv IH c' (Forall_inv C') Wc)|exact (side_element _ _ Rc)|exact (side_cond _ _ Rc)|]. exact (IH2 (Forall_inv_tail IH) (Forall_inv_tail C')).
    - apply sim_box; [apply alike_refl|exact K|]. clear W C Rd. induction F as [|c c' l l' Wc F IH2]; [constructor|]. constructor; [exact (Forall_inv IH c' (Forall_inv C') Wc)|]. exact (IH2 (Forall_inv_tail IH) (Forall_inv_tail C')).
    - now apply sim_use; [apply alike_refl|..].
    - now apply sim_dead.
  Qed.
  Lemma tw_sims l l' : Forall clean_shapes l -> Forall2 twin l l' -> sims (fun _ => True) l l'.
  Proof. intros C F. induction F; constructor; [apply tw_sim; [exact (Forall_inv C)|assumption]|exact (IHF (Forall_inv_tail C))]. Qed.
  Lemma side_near d d' c c' : R d d' -> same_style c c' -> same_style (d :: c) (d' :: c').
  Proof. intros S H a Ia. cbn [nearest]. rewrite (sd_get _ _ _ S a (inherited_side a Ia)). destruct (d_get d a); [reflexivity|]. now apply H. Qed.
  Lemma tw_style A A' : Forall2 R A A' -> same_style A A'.
  Proof. induction 1; [apply same_style_refl|]. now apply side_near. Qed.
  Lemma tw_root s s' : twin s s' -> root_key s' = root_key s. Proof. intros W. exact (sd_key _ _ _ (twin_data _ _ _ W)). Qed.
  Lemma tw_svg t t' : twin t t' -> forall s, svg_element t = Some s -> exists s', svg_element t' = Some s' /\ twin s s'.
  Proof.
    intros W s. unfold svg_element. pose proof (twin_kids _ _ _ W) as F. induction F as [|c c' l l' Wc F IH]; [discriminate|]. cbn. rewrite (is_tag_eq ESvg (data c) (data c')) by (apply (sd_tag _ _ _ (twin_data _ _ _ Wc))).
    destruct (is_tag ESvg (data c)); [|exact IH]. intros E. inversion E; subst. eauto.
  Qed.
  Lemma apart_clean t : servers_apart t -> clean_shapes t.
  Proof.
    intros A x Hx Sx c Hc d Hd V. destruct (MoveFacts.sub_place x t [] Hx) as (a & Pa). destruct (in_place d c [data x] Hd) as (b & s & Ps & <-). destruct (proj1 (Img.place_base c [data x] b s) Ps) as (l & -> & _).
    assert (Px : In (l ++ [data x], s) (places [] x)) by (destruct x as [dx chx]; cbn [data kids] in *; cbn [places]; right; apply in_flat_map; eauto).
    apply (sa_shape t A _ _ (data x) (Img.place_inside t [] a x _ s Pa Px) V); [|exact Sx]. apply in_or_app. left. apply in_or_app. right. now left.
  Qed.
  Theorem side_same uu t t' : NoDup (keys t) -> servers_apart t -> twin t t' -> same_picture uu t t'.
  Proof.
    intros N A W. pose proof (apart_clean t A) as C. assert (Cs : forall s, In s (subs t) -> clean_shapes s) by (intros s Hs x Hx; apply C; exact (subs_trans t s x Hs Hx)).
    assert (HU : forall (d : ndata) s, True -> In s (subs t) -> d_get d AXlinkHref = Some (VLink (root_key s)) -> exists s', In s' (subs t') /\ root_key s' = root_key s /\ sim (fun _ => True) s s').
    { intros d s _ Hs _. destruct (twin_subs _ _ _ _ W Hs) as (s' & Hs' & Ws). exists s'. split; [exact Hs'|]. split; [now apply tw_root|apply tw_sim; auto]. }
    assert (HN : forall (d : ndata) s', True -> In s' (subs t') -> d_get d AXlinkHref = Some (VLink (root_key s')) -> exists s, In s (subs t) /\ root_key s = root_key s').
    { intros d s' _ Hs _. destruct (twin_subs' _ _ _ _ W Hs) as (s & Hs' & Ws). exists s. split; [exact Hs'|]. symmetry. now apply tw_root. }
    constructor.
    - intros l P. assert (E : exists s, svg_element t = Some s) by (destruct P as (s & E & _); eauto). destruct E as (s & E). destruct (tw_svg _ _ W s E) as (s' & E' & Ws). assert (Hs : In s (subs t)) by (apply (Push.kid_sub t s t (subs_self t)); apply (find_some _ _ E)).
      apply (picture_sim uu t t' (fun _ => True) HU HN s s' E E' (tw_sim _ _ (Cs s Hs) Ws)); [|exact P]. apply side_near; [exact (twin_data _ _ _ W)|apply same_style_refl].
    - intros d' Hd' Rs. destruct (in_place d' t' [] Hd') as (a' & s' & H' & <-). destruct (twin_places _ t [] [] t' a' s' W (Forall2_nil _) H') as (a & s & H & F & Ws). pose proof (twin_data _ _ _ Ws) as Rd.
      exists (data s). split; [exact (place_in _ _ _ _ H)|]. split; [symmetry; apply Rd|]. split; [symmetry; apply Rd|]. assert (Hs : In s (subs t)) by exact (MoveFacts.place_sub _ _ _ _ H). intros l L. assert (E : data s' = data s). { apply (sd_same _ _ _ Rd). intros V. apply (proj2 (proj2 (server_not _ V))). unfold resource. now rewrite <- (sd_tag _ _ _ Rd). } split; [now rewrite E|].
      rewrite (sd_key _ _ _ Rd). apply (content_sim uu t t' (fun _ => True) HU HN (key (data s)) a s a' s' N H eq_refl H'); [now apply tw_root| | |exact L].
      + apply tw_sims; [|now apply twin_kids]. apply Forall_forall. intros c Hc. apply Cs. exact (Push.kid_sub s c t Hs Hc).
      + apply side_near; [exact Rd|now apply tw_style].
  Qed.
End Servers.
