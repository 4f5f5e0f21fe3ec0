(** The preparation, for documents that are prepared. *)
From Coq Require Import List Bool NArith Arith ZArith String QArith Qcanon Lia.
From Verif Require Import Names Num Value Dom DomFacts DomOps Outcome DomRemove Stops APass Transforms VLoop Gradients Links Inherit Move MoveFacts RmUnusedDefs GroupDefs Round SpecRound RoundProofs TasksSimple TasksSimpleProofs SpecDom SpecStyle SpecText SpecPaint PaintFacts Visit SpecUse SpecUngroup SpecGroupStyle WfAll SpecPicture SpecPrepared PictureSim PictureTwin PictureServers.
From Verif Require Img Push AttrFacts DuplProofs StyleMove.
Import ListNotations.
Local Open Scope nat_scope.

(** ** Twins *)
Section Prep.
  Variable t0 : tree.
  Notation R := (side t0).
  Notation twin := (twin R).
  Lemma tw_refl t : twin t t.
  Proof. induction t as [d ch IH] using tree_ind'. constructor; [apply side_refl|]. induction IH; constructor; auto. Qed.
  Lemma tw_trans a : forall b c, twin a b -> twin b c -> twin a c.
  Proof.
    induction a as [d ch IH] using tree_ind'. intros b c A B. inversion A as [x1 d1 x2 ch1 R1 F1]; subst. inversion B as [y1 d2 y2 ch2 R2 F2]; subst. constructor; [exact (side_trans _ _ _ _ R1 R2)|].
    clear A B R1 R2. revert ch2 F2. induction F1 as [|u u' l l' W F IH2]; intros ch2 F2; inversion F2; subst; constructor; [exact (Forall_inv IH _ _ W H1)|]. exact (IH2 (Forall_inv_tail IH) _ H3).
  Qed.
  Lemma tw_flat a : forall b, twin a b -> Forall2 R (flat a) (flat b).
  Proof.
    induction a as [d ch IH] using tree_ind'. intros b A. inversion A as [x1 d1 x2 ch1 R1 F1]; subst. cbn [flat]. constructor; [exact R1|]. clear A R1. induction F1 as [|u u' l l' W F IH2]; [constructor|]. cbn. apply Forall2_app; [exact (Forall_inv IH _ W)|exact (IH2 (Forall_inv_tail IH))].
  Qed.
  Lemma f2_back {A} (P : A -> A -> Prop) l l' x' : Forall2 P l l' -> In x' l' -> exists x, In x l /\ P x x'.
  Proof. induction 1; cbn; [tauto|]. intros [->|I]; [eauto|]. destruct (IHForall2 I) as (z & Z1 & Z2). eauto. Qed.
  Lemma f2_forth {A} (P : A -> A -> Prop) l l' x : Forall2 P l l' -> In x l -> exists x', In x' l' /\ P x x'.
  Proof. induction 1; cbn; [tauto|]. intros [->|I]; [eauto|]. destruct (IHForall2 I) as (z & Z1 & Z2). eauto. Qed.
  Lemma tw_keys a b : twin a b -> keys b = keys a.
  Proof. intros W. apply tw_flat in W. unfold keys. induction W as [|d d' l l' S F IH]; [reflexivity|]. cbn. now rewrite IH, (sd_key _ _ _ S). Qed.
  (** All values are old. *)
  Definition stale (t : tree) : Prop := forall d y, In d (flat t) -> In y (attrs d) -> settled t0 y.
  Lemma tw_stale a b : twin a b -> stale a -> stale b.
  Proof. intros W S d y Hd Hy. destruct (f2_back _ _ _ _ (tw_flat _ _ W) Hd) as (c & Hc & X). exact (sd_vals _ _ _ X (fun z => S c z Hc) y Hy). Qed.
  Lemma stale_self : stale t0. Proof. intros d y Hd Hy. split; [left; eauto|]. intros T E. exact (T d y Hd Hy E). Qed.
  (** ** Changes of one attribute *)
  Lemma calm_old v : link_of v = None -> ~ word v -> old t0 v. Proof. intros A B. now right. Qed.
  Lemma side_put_hidden d a v : server d -> In a server_attrs -> fits t0 (AN a) v -> R d (d_set_hidden d a v).
  Proof.
    intros V I O. constructor; try reflexivity; [| |tauto].
    - intros b Hb. apply AttrFacts.d_get_hidden_other. congruence.
    - intros H y Hy. unfold d_set_hidden in Hy. cbn [attrs with_attrs] in Hy. rewrite put_hidden in Hy. apply put_in in Hy. destruct Hy as [Hy| ->]; [now apply H|exact O].
  Qed.
  Lemma side_put d a v : server d -> In a server_attrs -> fits t0 (AN a) v -> R d (d_set d a v).
  Proof.
    intros V I O. constructor; try reflexivity; [| |tauto].
    - intros b Hb. apply d_get_set_other. congruence.
    - intros H y Hy. unfold d_set in Hy. cbn [attrs with_attrs] in Hy. apply set_attr_in in Hy. destruct Hy as [Hy| ->]; [now apply H|exact O].
  Qed.
  (** ** Loops *)
  Lemma tw_upd k d d' t : NoDup (keys t) -> In d (flat t) -> key d = k -> R d d' -> twin t (upd k (fun _ => d') t).
  Proof.
    intros N Hd K S. unfold upd. apply twin_tmap. intros x Hx. destruct (Nat.eqb_spec (key x) k) as [E|E]; [|apply side_refl]. assert (x = d) by (apply (data_unique t); congruence). now subst x.
  Qed.
  Lemma tw_vloop f ks : (forall u d d', stale u -> In d (flat u) -> server d -> f u d = Ok d' -> R d d') -> forall t t',
    NoDup (keys t) -> stale t -> (forall d, In d (flat t) -> In (key d) ks -> server d) -> vloop f ks t = Ok t' -> twin t t'.
  Proof.
    intros H. induction ks as [|k ks IH]; intros t t' N S V; cbn [vloop]; [intros E; injection E as <-; apply tw_refl|]. destruct (find_data k t) as [d|] eqn:Fd.
    - intros E. apply bind_ok in E. destruct E as (d1 & E1 & E). destruct (find_data_some _ _ _ Fd) as [Hd K]. assert (S1 : R d d1) by (apply (H t); auto; apply V; [exact Hd|left; now symmetry]). pose proof (tw_upd k d d1 t N Hd K S1) as W. apply (tw_trans _ _ _ W). apply IH in E; [exact E|now rewrite (tw_keys _ _ W)|exact (tw_stale _ _ W S)|].
      intros x Hx Hk. destruct (f2_back _ _ _ _ (tw_flat _ _ W) Hx) as (c & Hc & X). apply (server_tag x c); [symmetry; apply X|]. apply V; [exact Hc|]. right. now rewrite <- (sd_key _ _ _ X).
    - apply IH; auto. intros x Hx Hk. apply V; [exact Hx|now right].
  Qed.
  Lemma tw_kmap f t : (forall s d r, In s (subs t) -> R (data s) d -> f d (map data (kids s)) = Ok r -> R d (fst r) /\ Forall2 R (map data (kids s)) (snd r)) ->
    forall d t', R (data t) d -> kmap f d t = Ok t' -> twin t t'.
  Proof.
    induction t as [dt ch IH] using tree_ind'. intros H d t' S E. rewrite kmap_T in E. apply bind_ok in E. destruct E as (r & Er & E). apply bind_ok in E. destruct E as (ch' & Ec & E). injection E as <-.
    destruct (H (T dt ch) d r (or_introl eq_refl) S Er) as [H1 H2]. constructor; [exact (side_trans _ _ _ _ S H1)|]. cbn [kids] in H2.
    assert (H' : forall c, In c ch -> forall s d r, In s (subs c) -> R (data s) d -> f d (map data (kids s)) = Ok r -> R d (fst r) /\ Forall2 R (map data (kids s)) (snd r)) by (intros c Hc s x y Hs; apply H; cbn [subs]; right; apply in_flat_map; eauto).
    clear H Er H1 S. revert H2 Ec. generalize (snd r). clear r. revert ch'. induction IH as [|c ch Hc F IH2]; intros ch' ds H2 Ec.
    - inversion H2; subst. cbn in Ec. injection Ec as <-. constructor.
    - inversion H2 as [|? d1 ? ds' E1 E2]; subst. cbn in Ec. apply bind_ok in Ec. destruct Ec as (c' & C1 & Ec). apply bind_ok in Ec. destruct Ec as (r' & C2 & Ec). injection Ec as <-.
      constructor; [exact (Hc (H' c (or_introl eq_refl)) d1 c' E1 C1)|]. apply (IH2 (fun x Hx => H' x (or_intror Hx)) r' ds' E2 C2).
  Qed.
  (** ** The gradients *)
  Lemma get_at d a v : d_get d a = Some v -> exists y, In y (attrs d) /\ a_name y = AN a /\ a_val y = v.
  Proof. unfold d_get, get_value, get_attr. destruct (find _ (attrs d)) as [y|] eqn:Q; [|discriminate]. intros E. injection E as <-. apply find_some in Q. destruct Q as [Q1 Q2]. exists y. split; [exact Q1|]. split; [now apply has_name_true|reflexivity]. Qed.
  Lemma lookup_value n t a : forall d v, In d (flat t) -> Gradients.lookup n t a d = Found v -> exists x y, In x (flat t) /\ In y (attrs x) /\ a_name y = AN a /\ a_val y = v.
  Proof.
    induction n as [|n IH]; intros d v Hd; cbn [Gradients.lookup]; destruct (d_get d a) as [w|] eqn:E; try (intros X; injection X as <-; destruct (get_at d a w E) as (y & A & B); eauto; fail).
    - destruct (d_get d AXlinkHref) as [[]|]; discriminate.
    - destruct (d_get d AXlinkHref) as [[]|]; try discriminate. destruct (find_data _ t) as [x|] eqn:Fx; [|discriminate]. destruct (find_data_some _ _ _ Fx) as [Hx _]. now apply IH.
  Qed.
  Lemma check_side t a def d d' : stale t -> In a server_attrs -> (forall v, def = Some v -> fits t0 (AN a) v) -> In d (flat t) ->
    forall x, R d x -> server d -> check_attr t a def x = Ok d' -> R x d'.
  Proof.
    intros St Ia Od Hd x S V. assert (Vx : server x) by (apply (server_tag x d); [symmetry; apply S|exact V]). unfold check_attr. destruct (d_has x a); [intros E; injection E as <-; apply side_refl|].
    destruct (Gradients.lookup _ t a x) as [v| |] eqn:L; [| |discriminate].
    - intros E. injection E as <-. apply side_put_hidden; auto. assert (Own : forall w, d_get x a = Some w -> fits t0 (AN a) w) by (intros w E; destruct (get_at x a w E) as (y & A & B & <-); rewrite <- B; exact (sd_vals _ _ _ S (fun w => St d w Hd) y A)).
      destruct (List.length (flat t)) as [|n]; cbn [Gradients.lookup] in L; destruct (d_get x a) as [w|] eqn:E.
      + injection L as <-. now apply Own.
      + destruct (d_get x AXlinkHref) as [[]|]; discriminate.
      + injection L as <-. now apply Own.
      + destruct (d_get x AXlinkHref) as [[]|]; try discriminate. destruct (find_data _ t) as [u|] eqn:Fx; [|discriminate]. destruct (find_data_some _ _ _ Fx) as [Hu _]. destruct (lookup_value _ _ _ _ _ Hu L) as (u' & y & A & B & C & <-). rewrite <- C. exact (St u' y A B).
    - destruct def as [v|]; intros E; injection E as <-; [|apply side_refl]. apply side_put_hidden; auto.
  Qed.
  Lemma order_incl e t nodes : forall n order ks, incl order nodes -> order_loop n e t nodes order = Some ks -> incl ks nodes.
  Proof.
    assert (V : forall l order, incl l nodes -> incl order nodes -> incl (fold_left (order_visit e t) l order) nodes).
    { induction l as [|k l IH]; intros order L O; [exact O|]. cbn. apply IH; [intros x Hx; apply L; now right|]. unfold order_visit. destruct (mem k order); [exact O|]. destruct (existsb _ _); [exact O|]. apply incl_app; [exact O|]. intros x [<-|[]]. apply L. now left. }
    induction n as [|n IH]; intros order ks O; cbn; (destruct (Nat.eqb _ _); [intros E; injection E as <-; exact O|]); [discriminate|]. apply IH. apply V; [apply incl_refl|exact O].
  Qed.
  Lemma order_servers e t ks : NoDup (keys t) -> In e [ELinearGradient; ERadialGradient] -> gen_order e t = Some ks -> forall d, In d (flat t) -> In (key d) ks -> server d.
  Proof.
    intros N He E d Hd Hk. apply order_incl in E; [|intros x []]. apply E in Hk. unfold kind_nodes in Hk. apply in_map_iff in Hk. destruct Hk as (x & K & Hx). apply filter_In in Hx. destruct Hx as [Hx Tx]. assert (x = d) by (apply (data_unique t); auto). subst x. apply is_tag_iff in Tx. left. destruct He as [<-|[<-|[]]]; [now left|now right].
  Qed.
  Ltac calm := split; [apply calm_old; [reflexivity|intros [W|W]; discriminate W]|intros _ Qn; discriminate Qn].
  Ltac ins := cbn; tauto.
  Lemma def_old n v w : fits t0 n v -> Some v = Some w -> fits t0 n w. Proof. intros O E. injection E as <-. exact O. Qed.
  Lemma own_old t d x a n w : n <> AN AGradientTransform -> stale t -> In d (flat t) -> R d x -> d_get x a = Some w -> fits t0 n w.
  Proof.
    intros Nn S Hd X E. destruct (get_at x a w E) as (y & A & B & <-). destruct (sd_vals _ _ _ X (fun w => S d w Hd) y A) as [O _]. split; [exact O|]. intros _ Q. contradiction.
  Qed.
  Ltac step St Hd V := match goal with
    | X : side _ ?d0 ?x, H : bind (check_attr _ _ _ ?x) _ = Ok _ |- _ =>
        let d := fresh "d" in let E := fresh "E" in let Y := fresh "Y" in
        apply bind_ok in H; destruct H as (d & E & H);
        apply (check_side _ _ _ d0 _ St) in E; [|ins|intros w; first [apply def_old; calm|(refine (own_old _ _ _ _ _ _ _ St Hd X); discriminate)|discriminate]|exact Hd|exact X|exact V];
        pose proof (side_trans _ _ _ _ X E) as Y; clear X
    end.
  Lemma linear_side u d d' : stale u -> In d (flat u) -> server d -> resolve_linear_node u d = Ok d' -> R d d'.
  Proof.
    intros St Hd V. unfold resolve_linear_node. intros H. pose proof (side_refl t0 d) as X. repeat (step St Hd V).
        match goal with X : side _ d _ |- _ => apply (side_trans _ _ _ _ X); apply (check_side _ _ _ d _ St) in H; auto; [ins|discriminate] end.
  Qed.
  Lemma radial_side u d d' : stale u -> In d (flat u) -> server d -> resolve_radial_node u d = Ok d' -> R d d'.
  Proof.
    intros St Hd V. unfold resolve_radial_node. cbv zeta. intros H. pose proof (side_refl t0 d) as X. do 5 step St Hd V. match goal with X : side _ d ?x |- _ => rename X into Y; rename x into d4 end.
    assert (O1 : forall w, d_get d4 ACx = Some w -> fits t0 (AN AFx) w) by (intros w; refine (own_old _ _ _ _ _ _ _ St Hd Y); discriminate). assert (O2 : forall w, d_get d4 ACy = Some w -> fits t0 (AN AFy) w) by (intros w; refine (own_old _ _ _ _ _ _ _ St Hd Y); discriminate).
    apply bind_ok in H. destruct H as (e1 & F1 & H). apply (check_side _ _ _ d _ St) in F1; auto; [|ins]. pose proof (side_trans _ _ _ _ Y F1) as Y1. apply bind_ok in H. destruct H as (e2 & F2 & H). apply (check_side _ _ _ d _ St) in F2; auto; [|ins]. pose proof (side_trans _ _ _ _ Y1 F2) as Y2.
    apply (side_trans _ _ _ _ Y2). apply (check_side _ _ _ d _ St) in H; auto; [ins|discriminate].
  Qed.
  Lemma tw_linear t t' : NoDup (keys t) -> stale t -> resolve_linear_gradient_attributes t = Some (Ok t') -> twin t t'.
  Proof.
    intros N S. unfold resolve_linear_gradient_attributes. destruct (gen_order _ t) as [ks|] eqn:G; [|discriminate]. intros E. injection E as E. apply (tw_vloop _ _ linear_side t t' N S) in E; [exact E|]. exact (order_servers _ _ _ N (or_introl eq_refl) G).
  Qed.
  Lemma tw_radial t t' : NoDup (keys t) -> stale t -> resolve_radial_gradient_attributes t = Some (Ok t') -> twin t t'.
  Proof.
    intros N S. unfold resolve_radial_gradient_attributes. destruct (gen_order _ t) as [ks|] eqn:G; [|discriminate]. intros E. injection E as E. apply (tw_vloop _ _ radial_side t t' N S) in E; [exact E|]. exact (order_servers _ _ _ N (or_intror (or_introl eq_refl)) G).
  Qed.
  (** ** The stops *)
  Definition only_stops (t : tree) : Prop := forall s c, In s (subs t) -> gradient_el (data s) -> In c (kids s) -> tag (data c) = TEl EStop.
  Lemma is_grad_iff d : is_grad d = true <-> gradient_el d.
  Proof. unfold is_grad, tag_sat, gradient_el. destruct (tag d) as [|e| | | |]; try (split; [discriminate|intros [H|H]; discriminate H]). destruct e; cbn; split; intros H; try discriminate H; auto; destruct H as [H|H]; discriminate H. Qed.
  Lemma stop_side i d d' : server d -> resolve_stop i d = Ok d' -> R d d'.
  Proof.
    intros V H. unfold resolve_stop in H. apply bind_ok in H. destruct H as (d1 & E1 & H). injection H as <-.
    assert (A : R d d1). { destruct (d_get d AOffset) as [[]|]; try (destruct (Nat.eqb i 0); [injection E1 as <-; apply side_put; [exact V|ins|calm]|discriminate]). injection E1 as <-. destruct (unit_eqb _ _); [apply side_put; [exact V|ins|calm]|apply side_refl]. }
    assert (V1 : server d1) by (apply (server_tag d1 d); [symmetry; apply A|exact V]). apply (side_trans _ _ _ _ A).
    assert (B : R d1 (if d_has d1 AStopColor then d1 else d_set_hidden d1 AStopColor black)) by (destruct (d_has _ _); [apply side_refl|apply side_put_hidden; [exact V1|ins|calm]]). revert B. generalize (if d_has d1 AStopColor then d1 else d_set_hidden d1 AStopColor black). intros d2 B.
    assert (V2 : server d2) by (apply (server_tag d2 d1); [symmetry; apply B|exact V1]). apply (side_trans _ _ _ _ B). destruct (d_has _ _); [apply side_refl|apply side_put_hidden; [exact V2|ins|calm]].
  Qed.
  Lemma stops_side l : forall i l', Forall server l -> resolve_stop_list i l = Ok l' -> Forall2 R l l'.
  Proof.
    induction l as [|d l IH]; intros i l' V; cbn; [intros E; injection E as <-; constructor|]. intros E. apply bind_ok in E. destruct E as (d' & E1 & E). apply bind_ok in E. destruct E as (r & E2 & E). injection E as <-. constructor; [exact (stop_side i d d' (Forall_inv V) E1)|exact (IH _ _ (Forall_inv_tail V) E2)].
  Qed.
  Lemma F2_side l : Forall2 R l l. Proof. induction l; constructor; auto using side_refl. Qed.
  Lemma tw_stops t t' : only_stops t -> resolve_stop_attributes t = Ok t' -> twin t t'.
  Proof.
    intros O E. unfold resolve_stop_attributes, kpass in E. apply (tw_kmap _ t) in E; [exact E| |apply side_refl]. intros s d r Hs S H. unfold resolve_stop_visit in H. destruct (is_grad d) eqn:G; [|injection H as <-; split; [apply side_refl|apply F2_side]].
    apply bind_ok in H. destruct H as (l' & E1 & H). injection H as <-. split; [apply side_refl|]. apply (stops_side _ 0); [|exact E1]. apply Forall_forall. intros x Hx. apply in_map_iff in Hx. destruct Hx as (c & <- & Hc). right. apply (O s c Hs); [|exact Hc]. apply is_grad_iff in G. unfold gradient_el in *. now rewrite <- (sd_tag _ _ _ S).
  Qed.
  Lemma fix_side l : forall q l', Forall server l -> fix_stops q l = Ok l' -> Forall2 R l l'.
  Proof.
    induction l as [|d l IH]; intros q l' V; cbn; [intros E; injection E as <-; constructor|]. destruct (d_get d AOffset) as [[]|]; try discriminate. destruct l0 as [n []]; try discriminate. intros E. apply bind_ok in E. destruct E as (r & E2 & E). injection E as <-. constructor; [apply side_put; [exact (Forall_inv V)|ins|calm]|exact (IH _ _ (Forall_inv_tail V) E2)].
  Qed.
  Definition rects (t : tree) : Prop := forall d, In d (flat t) -> tag d = TEl ERect ->
    d_get d AWidth <> None /\ d_get d AHeight <> None /\ forall a, In a [AWidth; AHeight; ARx; ARy] -> not_negative (d_get d a).
  Definition polys (t : tree) : Prop := forall d l, In d (flat t) -> tag d = TEl EPolyline \/ tag d = TEl EPolygon -> d_get d APoints = Some (VNumList l) ->
    l <> [] /\ Nat.even (List.length l) = true.
  Lemma not_negative_b v : not_negative v -> negative v = false.
  Proof. intros H. destruct v as [[]|]; try reflexivity. cbn. specialize (H _ eq_refl). unfold qltb. apply negb_false_iff. apply Qle_bool_iff. exact H. Qed.
  Lemma rect_fixed d : d_get d AWidth <> None -> d_get d AHeight <> None -> (forall a, In a [AWidth; AHeight; ARx; ARy] -> not_negative (d_get d a)) -> fix_rect_attributes d = d.
  Proof.
    intros W H N. unfold fix_rect_attributes, rm_negative_len. assert (L : forall a, In a [AWidth; AHeight; ARx; ARy] -> d_get d a <> None -> fix_len d a = d).
    { intros a Ia Ga. unfold fix_len. rewrite (not_negative_b _ (N a Ia)). replace (d_has d a) with true; [reflexivity|]. symmetry. unfold d_has, has_attr, d_get, get_value in *. destruct (get_attr (attrs d) a); [reflexivity|now destruct Ga]. }
    rewrite (L AWidth), (L AHeight) by (cbn; tauto || assumption). rewrite (not_negative_b (d_get d ARx)) by (apply N; cbn; tauto). now rewrite (not_negative_b (d_get d ARy)) by (apply N; cbn; tauto).
  Qed.
  Lemma poly_fixed d : (forall l, d_get d APoints = Some (VNumList l) -> l <> [] /\ Nat.even (List.length l) = true) -> fix_poly_attributes d = d.
  Proof.
    intros H. unfold fix_poly_attributes. destruct (d_get d APoints) as [[]|]; try reflexivity. destruct (H _ eq_refl) as [A B]. assert (O : Nat.odd (List.length l) = false) by (unfold Nat.odd; now rewrite B). rewrite O. cbv zeta. now destruct l.
  Qed.
  Lemma tw_fix t t' : only_stops t -> rects t -> polys t -> (forall d, In d (flat t) -> d_get d AMarker = None) -> fix_invalid_attributes t = Ok t' -> twin t t'.
  Proof.
    intros O Re Po Ma E. unfold fix_invalid_attributes in E. apply bind_ok in E. destruct E as (t1 & E & X). injection X as <-. assert (W : twin t t1).
    { unfold kpass in E. apply (tw_kmap _ t) in E; [exact E| |apply side_refl]. intros s d r Hs S H. assert (Hd : In (data s) (flat t)) by exact (data_of_sub s t Hs). assert (Sv : ~ server (data s) -> d = data s) by apply S.
      assert (Nope : forall r', Ok (d, map data (kids s)) = Ok r' -> R d (fst r') /\ Forall2 R (map data (kids s)) (snd r')) by (intros r' Q; injection Q as <-; split; [apply side_refl|apply F2_side]).
      assert (Tg := sd_tag _ _ _ S). unfold fix_visit in H. destruct (tag d) as [|e| | | |] eqn:Et; try (now apply Nope).
      assert (Cs : e = ERect \/ e = EPolyline \/ e = EPolygon \/ e = ELinearGradient \/ e = ERadialGradient \/ fix_visit d (map data (kids s)) = Ok (d, map data (kids s))) by (unfold fix_visit; rewrite Et; destruct e; auto 6).
      destruct Cs as [->|[->|[->|[->|[->|Cs]]]]].
      - assert (Q : d = data s) by (apply Sv; unfold server, gradient_el; rewrite <- Tg; intuition discriminate). destruct (Re _ Hd (eq_sym Tg)) as (A & B & C). rewrite Q, (rect_fixed _ A B C), <- Q in H. now apply Nope.
      - assert (Q : d = data s) by (apply Sv; unfold server, gradient_el; rewrite <- Tg; intuition discriminate). rewrite Q, poly_fixed, <- Q in H; [now apply Nope|]. intros l. apply (Po _ l Hd). left. now symmetry.
      - assert (Q : d = data s) by (apply Sv; unfold server, gradient_el; rewrite <- Tg; intuition discriminate). rewrite Q, poly_fixed, <- Q in H; [now apply Nope|]. intros l. apply (Po _ l Hd). right. now symmetry.
      - apply bind_ok in H. destruct H as (l' & E1 & H). injection H as <-. split; [apply side_refl|]. apply (fix_side _ q0); [|exact E1]. apply Forall_forall. intros x Hx. apply in_map_iff in Hx. destruct Hx as (c & <- & Hc). right. apply (O s c Hs); [left; now symmetry|exact Hc].
      - apply bind_ok in H. destruct H as (l' & E1 & H). injection H as <-. split; [apply side_refl|]. apply (fix_side _ q0); [|exact E1]. apply Forall_forall. intros x Hx. apply in_map_iff in Hx. destruct Hx as (c & <- & Hc). right. apply (O s c Hs); [right; now symmetry|exact Hc].
      - unfold fix_visit in Cs. rewrite Et in Cs. rewrite Cs in H. now apply Nope. }
    replace (fix_marker t1) with t1; [exact W|]. symmetry. apply tmap_id. intros d Hd. destruct (f2_back _ _ _ _ (tw_flat _ _ W) Hd) as (c & Hc & X). assert (G : d_get d AMarker = None) by (rewrite (sd_get _ _ _ X) by (cbn; intuition discriminate); now apply Ma).
    unfold d_has, has_attr. unfold d_get, get_value in G. now destruct (get_attr (attrs d) AMarker).
  Qed.
  (** ** Keywords *)
  Lemma no_keywords v d : v = Vid_inherit \/ v = Vid_currentColor -> (forall x, In x (attrs d) -> ~ word (a_val x)) -> keyword_attrs v d = [].
  Proof.
    intros Hv H. unfold keyword_attrs. induction (attrs d) as [|x l IH]; [reflexivity|]. cbn. rewrite IH by (intros y Hy; apply H; now right). rewrite app_nil_r. specialize (H x (or_introl eq_refl)). destruct (a_name x); [|reflexivity]. destruct (a_val x); try reflexivity. destruct (vid_eqb_spec v0 v) as [->|]; [|reflexivity]. exfalso. apply H. destruct Hv as [-> | ->]; [now left|now right].
  Qed.
  Lemma inherit_id t : (forall d x, In d (flat t) -> In x (attrs d) -> ~ word (a_val x)) -> resolve_inherit t = Ok t.
  Proof.
    intros H. unfold resolve_inherit. assert (A : forall anc s, (forall d, In d (flat s) -> In d (flat t)) -> apass inherit_node anc s = Ok s).
    { intros anc s. revert anc. induction s as [d ch IH] using tree_ind'. intros anc I. rewrite apass_T. assert (Hd : In d (flat t)) by (apply I; now left). assert (E : inherit_node anc d = Ok d). { unfold inherit_node. rewrite !no_keywords by (auto; intros x; exact (H d x Hd)). cbn [each bind]. now destruct (is_svg_el d). }
      rewrite E. cbn [bind]. assert (F : aforest inherit_node (d :: anc) ch = Ok ch); [|now rewrite F].
      assert (I' : forall c, In c ch -> forall x, In x (flat c) -> In x (flat t)) by (intros c Hc x Hx; apply I; right; apply in_flat_map; eauto). clear I E Hd. induction IH as [|c ch Hc F IH2]; [reflexivity|]. cbn [aforest]. rewrite (Hc _ (I' c (or_introl eq_refl))). cbn [bind]. fold (aforest inherit_node (d :: anc)). rewrite IH2 by (intros c' Hc'; apply I'; now right). reflexivity. }
    rewrite (A [] t) by auto. cbn [bind]. replace (links_allowed t t) with true; [reflexivity|]. symmetry. unfold links_allowed. apply forallb_forall. intros d Hd. destruct (find_data (key d) t) as [d1|] eqn:Q; [|reflexivity]. destruct (find_data_some _ _ _ Q) as [Hd1 _]. apply forallb_forall. intros x Hx. unfold keyword_attr. destruct (a_name x); [|reflexivity].
    now rewrite !no_keywords by (auto; intros y; exact (H d1 y Hd1)).
  Qed.
  (** ** Numbers *)
  Lemma round_short p n : (1 <= p <= 12)%nat -> short p n -> round_number p n = n.
  Proof.
    intros H (z & E). apply Qc_is_canon. rewrite round_number_val by exact H. pose proof (pow_pos p) as Pp. assert (Pz : ~ (inject_Z (10 ^ Z.of_nat p) == 0)%Q) by (intros Q; rewrite Q in Pp; discriminate Pp).
    assert (X : (this n * inject_Z (10 ^ Z.of_nat p) == inject_Z z)%Q) by (rewrite E; field; exact Pz).
    assert (Y : qround (this n * inject_Z (10 ^ Z.of_nat p)) = z) by (rewrite <- (qround_Z z) at 1; apply Z.le_antisymm; apply qround_mono; rewrite X; apply Qle_refl). rewrite Y, E. reflexivity.
  Qed.
  Definition digits (o : precisions) : list nat := [pr_coord o; pr_prop o; pr_paths o; pr_ts o].
  Section Digits.
    Variable o : precisions.
    Hypothesis U : forall p, In p (digits o) -> (1 <= p <= 12)%nat.
    Definition shortv (v : value) : Prop := forall n p, In n (nums v) -> In p (digits o) -> short p n.
    Lemma rs v n p : shortv v -> In n (nums v) -> In p (digits o) -> round_number p n = n.
    Proof. intros H Hn Hp. apply round_short; [now apply U|now apply H]. Qed.
    Lemma map_same {A} (f : A -> A) l : (forall x, In x l -> f x = x) -> map f l = l.
    Proof. intros H. rewrite <- (map_id l) at 2. now apply map_ext_in. Qed.
    Lemma round_value_short a v : shortv v -> round_value o a v = v.
    Proof.
      intros H. unfold round_value, round_len. destruct (is_coord_attr a); [|destruct (is_prop_attr a); [|destruct (is_ts_attr a); [|destruct (aid_eqb a AD); [|destruct (_ || _); [|reflexivity]]]]]; destruct v; try reflexivity.
      - destruct l as [n u]. cbn [num unit]. rewrite (rs (VLen (Len n u)) n); cbn; auto.
      - f_equal. apply map_same. intros [n u] Hl. cbn [num unit]. rewrite (rs (VLenList l) n); auto; [cbn; apply (in_map num _ _ Hl)|cbn; auto].
      - destruct l as [n u]. cbn [num unit]. rewrite (rs (VLen (Len n u)) n); cbn; auto.
      - rewrite (rs (VNum n) n); cbn; auto.
      - destruct t as [a0 b0 c0 d0 e0 f0]. cbn [ta tb tc td te tf]. assert (Q : forall n p, In n [a0; b0; c0; d0; e0; f0] -> In p (digits o) -> round_number p n = n) by (intros n p Hn; apply (rs _ n p H); exact Hn). rewrite !Q by (cbn; tauto). reflexivity.
      - f_equal. apply map_same. intros [ab sg] Hs. cbn [absolute sdata]. f_equal. assert (Q : forall n, In n (seg_nums sg) -> round_number (pr_paths o) n = n) by (intros n Hn; apply (rs _ n _ H); [cbn; apply in_flat_map; exists (Seg ab sg); auto|cbn; auto]).
        destruct sg; cbn [round_seg seg_nums] in *; rewrite ?Q by (cbn; tauto); reflexivity.
      - f_equal. apply map_same. intros n Hn. apply (rs _ n _ H); [exact Hn|cbn; auto].
    Qed.
    Lemma round_old a v : fits t0 (AN a) v -> fits t0 (AN a) (round_value o a v).
    Proof.
      intros [O T]. split.
      2:{ intros A E. destruct (T A E) as (m & ->). unfold round_value. destruct (is_coord_attr a); [|destruct (is_prop_attr a); [|destruct (is_ts_attr a); [|destruct (aid_eqb a AD); [|destruct (_ || _)]]]]; eexists; reflexivity. }
      assert (Q : round_value o a v = v \/ (link_of (round_value o a v) = None /\ ~ word (round_value o a v))); [|destruct Q as [-> |Q]; [exact O|now right]].
      unfold round_value. destruct (is_coord_attr a); [|destruct (is_prop_attr a); [|destruct (is_ts_attr a); [|destruct (aid_eqb a AD); [|destruct (_ || _); [|now left]]]]]; destruct v; try (now left); right; (split; [reflexivity|intros [W|W]; discriminate W]).
    Qed.
    Lemma round_get d a : d_get (with_attrs d (map (round_attr o) (attrs d))) a = option_map (round_value o a) (d_get d a).
    Proof.
      unfold d_get, get_value, get_attr. cbn [attrs with_attrs]. induction (attrs d) as [|x l IH]; [reflexivity|]. cbn [map find]. assert (N : has_name (AN a) (round_attr o x) = has_name (AN a) x) by (unfold round_attr, has_name; now destruct (a_name x) eqn:E; cbn; rewrite ?E). rewrite N. destruct (has_name (AN a) x) eqn:Hn; [|exact IH].
      cbn. f_equal. apply has_name_true in Hn. unfold round_attr. now rewrite Hn.
    Qed.
    Lemma tw_round t : (forall d x, In d (flat t0) -> In x (attrs d) -> shortv (a_val x)) -> twin t0 t -> twin t (round_numbers o t).
    Proof.
      intros H W. apply twin_tmap. intros d Hd. destruct (is_svg_el d); [|apply side_refl]. destruct (f2_back _ _ _ _ (tw_flat _ _ W) Hd) as (c & Hc & X). constructor; try reflexivity.
      - intros a Ha. rewrite round_get. rewrite (sd_get _ _ _ X a Ha). destruct (d_get c a) as [v|] eqn:E; [|reflexivity]. cbn. f_equal. apply round_value_short. unfold d_get, get_value, get_attr in E. destruct (find _ (attrs c)) as [y|] eqn:Q; [|discriminate]. injection E as <-. exact (H c y Hc (proj1 (find_some _ _ Q))).
      - intros S y Hy. cbn [attrs with_attrs] in Hy. apply in_map_iff in Hy. destruct Hy as (x & <- & Hx). specialize (S x Hx). unfold settled, round_attr in *. destruct (a_name x) as [n|n] eqn:En; [|now rewrite En]. cbn [a_val a_name]. now apply round_old.
      - intros V. assert (d = c) by (apply (sd_same _ _ _ X); intros V'; apply V; apply (server_tag d c); [symmetry; apply X|exact V']). subst c. destruct d as [k tg i l]. unfold with_attrs. cbn [key tag nid attrs] in *. f_equal. apply map_same. intros x Hx. unfold round_attr. destruct x as [[n|n] v b]; [|reflexivity]. cbn [a_name a_val a_vis]. f_equal. apply round_value_short. exact (H _ _ Hc Hx).
    Qed.
  End Digits.
  (** ** The defs element *)
  Definition main_ok (t : tree) : Prop := exists svg m l, svg_element t = Some svg /\ kids svg = m :: l /\ tag (data m) = TEl EDefs /\
    (forall d, In d (flat t) -> tag d = TEl EDefs -> d = data m) /\
    forall a s e, In (a, s) (places [] t) -> tag (data s) = TEl e ->
      In e [EAltGlyphDef; EClipPath; ECursor; EFilter; ELinearGradient; EMarker; EMask; EPattern; ERadialGradient; ESymbol] -> exists b, a = data m :: b.
  Lemma group_id t : main_ok t -> group_defs t = Ok t.
  Proof.
    intros (svg & m & l & E & Ek & Tm & U & P). assert (Hsvg : In svg (subs t)) by (apply (Push.kid_sub t svg t (subs_self t)); apply (find_some _ _ E)). assert (Hm : In m (subs t)) by (apply (Push.kid_sub svg m t Hsvg); rewrite Ek; now left). assert (Hdm : In (data m) (flat t)) by exact (data_of_sub m t Hm).
    assert (F : first_defs t = Some (data m)). { unfold first_defs. destruct (find (is_tag EDefs) (flat t)) as [d|] eqn:Q; [|exfalso; pose proof (find_none _ _ Q _ Hdm) as X; apply is_tag_iff in Tm; congruence]. apply find_some in Q. f_equal. apply U; [apply Q|apply is_tag_iff, Q]. }
    unfold group_defs. rewrite E. unfold main_defs. rewrite F, Ek. unfold root_key at 1. rewrite Nat.eqb_refl.
    assert (M : to_move (key (data m)) t = []). { unfold to_move. replace (filter _ (ctx [] t)) with (@nil (list ndata * ndata)); [reflexivity|]. symmetry. apply StyleMove.filter_none. intros [a d] Hp. cbn [snd]. apply ctx_place in Hp. destruct Hp as (s & Hs & <-). destruct (is_ref (data s)) eqn:Q; [|reflexivity]. unfold is_ref in Q. destruct (tag (data s)) as [|e| | | |] eqn:Et; try discriminate.
      destruct (P a s e Hs Et) as (b & ->); [destruct e; try discriminate Q; cbn; tauto|]. cbn. now rewrite Nat.eqb_refl. }
    rewrite M. cbn [fold_left moves_ok]. assert (O : forall d, In d (flat t) -> other_defs (key (data m)) d = false). { intros d Hd. unfold other_defs, is_defs. destruct (is_tag EDefs d) eqn:Q; [|reflexivity]. apply is_tag_iff in Q. rewrite (U d Hd Q), Nat.eqb_refl. reflexivity. }
    assert (I : in_other (key (data m)) t = []). { unfold in_other. assert (G : forall L, (forall s, In s L -> In s (subs t)) -> flat_map (fun s => if other_defs (key (data m)) (data s) then map root_key (kids s) else []) L = []); [|apply G; auto]. induction L as [|s L IH]; intros HL; [reflexivity|]. cbn [flat_map]. rewrite (O (data s)) by (apply data_of_sub, HL; now left). apply IH. intros x Hx. apply HL. now right. }
    rewrite I. cbn [fold_left]. rewrite (StyleMove.filter_none _ _ O). reflexivity.
  Qed.
  Lemma f2_unique t d d' : NoDup (keys t) -> In d (flat t) -> In d' (flat t) -> key d = key d' -> d = d'. Proof. intros. now apply (data_unique t). Qed.
  Lemma tw_main t t' : NoDup (keys t) -> twin t t' -> main_ok t -> main_ok t'.
  Proof.
    intros N W (svg & m & l & E & Ek & Tm & U & P). destruct (tw_svg _ _ _ W svg E) as (svg' & E' & Ws). pose proof (twin_kids _ _ _ Ws) as F. rewrite Ek in F. inversion F as [|? m' ? l' Wm Fl Ea Eb]; subst. symmetry in Eb. exists svg', m', l'. split; [exact E'|]. split; [exact Eb|]. pose proof (twin_data _ _ _ Wm) as Rm. assert (N' : NoDup (keys t')) by now rewrite (tw_keys _ _ W).
    assert (Hm' : In (data m') (flat t')) by (apply data_of_sub; apply (Push.kid_sub svg' m' t'); [apply (Push.kid_sub t' svg' t' (subs_self t')); apply (find_some _ _ E')|rewrite Eb; now left]).
    assert (B : forall d, In d (flat t') -> key d = key (data m) -> d = data m') by (intros d Hd K; apply (data_unique t'); auto; now rewrite K, (sd_key _ _ _ Rm)).
    split; [now rewrite (sd_tag _ _ _ Rm)|]. split.
    - intros d Hd Td. destruct (f2_back _ _ _ _ (tw_flat _ _ W) Hd) as (c & Hc & X). apply B; [exact Hd|]. rewrite (sd_key _ _ _ X). f_equal. apply U; [exact Hc|]. now rewrite <- (sd_tag _ _ _ X).
    - intros a' s' e Hp Ts Ie. destruct (twin_places _ t [] [] t' a' s' W (Forall2_nil _) Hp) as (a & s & H0 & Fa & Wx). destruct (P a s e H0) as (b & ->); [now rewrite <- (sd_tag _ _ _ (twin_data _ _ _ Wx))|exact Ie|]. inversion Fa as [|? x ? b' X Fb]; subst. exists b'. f_equal. apply B; [|exact (sd_key _ _ _ X)]. apply (DuplProofs.anc_in t' (x :: b') (data s')); [|now left]. apply ctx_place. eauto.
  Qed.
  (** ** What stays *)
  Section Stays.
    Variable t1 : tree.
    Hypothesis W : twin t0 t1.
    Hypothesis F1 : fine t1.
    Lemma st_ref k : referenced t1 k -> referenced t0 k.
    Proof. intros (d & Hd & y & Hy & E). destruct (tw_stale _ _ W stale_self d y Hd Hy) as [[(c & x & A & B & C)|[A _]] _]; [|congruence]. exists c. split; [exact A|]. exists x. rewrite C. auto. Qed.
    Lemma st_back d' : In d' (flat t1) -> exists d, In d (flat t0) /\ R d d'. Proof. intros H. exact (f2_back _ _ _ _ (tw_flat _ _ W) H). Qed.
    Lemma st_sub s' : In s' (subs t1) -> exists s, In s (subs t0) /\ twin s s'. Proof. exact (twin_subs' _ t0 t1 s' W). Qed.
    Lemma st_place a' s' : In (a', s') (places [] t1) -> exists a s, In (a, s) (places [] t0) /\ Forall2 R a a' /\ twin s s'.
    Proof. exact (twin_places _ t0 [] [] t1 a' s' W (Forall2_nil _)). Qed.
    Lemma st_inside s s' : twin s s' -> Forall2 R (inside s) (inside s').
    Proof. intros X. unfold inside. pose proof (twin_kids _ _ _ X) as F. induction F as [|c c' l l' Wc F IH]; [constructor|]. cbn. apply Forall2_app; [now apply tw_flat|exact IH]. Qed.
    Lemma st_tag s s' : twin s s' -> tag (data s') = tag (data s). Proof. intros X. exact (sd_tag _ _ _ (twin_data _ _ _ X)). Qed.
    Lemma shape_tag d d' : tag d' = tag d -> shape_el d' -> shape_el d. Proof. unfold shape_el. now intros ->. Qed.
    Lemma res_tag d d' : tag d' = tag d -> resource d' -> resource d. Proof. unfold resource. now intros ->. Qed.
    Lemma st_hollow s s' : twin s s' -> not_hollow s -> not_hollow s'.
    Proof. intros X (d & Hd & Td). destruct (f2_forth _ _ _ _ (st_inside _ _ X) Hd) as (d' & Hd' & S). exists d'. split; [exact Hd'|]. now rewrite (sd_tag _ _ _ S). Qed.
    Lemma st_ids : own_ids t0 -> own_ids t1.
    Proof.
      intros O d n Hd Hn Rf. destruct (st_ref (key n)) as (c & Hc & Rc); [exists d; auto|]. destruct (st_back n Hn) as (m & Hm & Sm). rewrite (sd_key _ _ _ Sm) in Rc. destruct (O c m Hc Hm Rc) as [A B]. rewrite (sd_id _ _ _ Sm). split; [exact A|].
      intros x Hx E. destruct (st_back x Hx) as (y & Hy & Sy). rewrite (sd_id _ _ _ Sy) in E. apply (data_unique t1); auto; [apply F1|]. now rewrite (sd_key _ _ _ Sy), (sd_key _ _ _ Sm), (B y Hy E).
    Qed.
    Lemma get_back d d' a v : R d d' -> ~ In a server_attrs -> d_get d' a = Some v -> d_get d a = Some v. Proof. intros S H. now rewrite (sd_get _ _ _ S a H). Qed.
    Lemma st_gready : gready t0 -> gready t1.
    Proof.
      intros G. constructor.
      - apply F1.
      - apply F1.
      - apply F1.
      - destruct (g_svg t0 G) as (s & E). destruct (tw_svg _ _ _ W s E) as (s' & E' & _). eauto.
      - intros c' Hc' Gc. destruct (f2_in' _ _ _ _ (twin_kids _ _ _ W) Hc') as (c & Hc & X). apply (g_top t0 G c Hc). unfold group in *. now rewrite <- (st_tag _ _ X).
      - apply st_ids, G.
      - intros a' s' p' P Gs Hp Sh. destruct (st_place a' s' P) as (a & s & P0 & Fa & X). destruct (f2_back _ _ _ _ Fa Hp) as (p & Hp0 & Sp). apply (g_shape t0 G a s p P0); [unfold group in *; now rewrite <- (st_tag _ _ X)|exact Hp0|exact (shape_tag _ _ (sd_tag _ _ _ Sp) Sh)].
      - intros a' s' p' P Gs Hp Tp. destruct (st_place a' s' P) as (a & s & P0 & Fa & X). destruct (f2_back _ _ _ _ Fa Hp) as (p & Hp0 & Sp). destruct (g_switch t0 G a s p P0) as [A B]; [unfold group in *; now rewrite <- (st_tag _ _ X)|exact Hp0|now rewrite <- (sd_tag _ _ _ Sp)|]. split; [exact (st_hollow _ _ X A)|].
        intros c' Hc'. destruct (f2_in' _ _ _ _ (twin_kids _ _ _ X) Hc') as (c & Hc & Xc). destruct (B c Hc) as [B1 B2]. pose proof (twin_data _ _ _ Xc) as Sc. split; [now apply (side_element _ _ _ Sc)|]. now rewrite (side_cond _ _ _ Sc).
      - intros s' Hs' Gs Rs. destruct (st_sub s' Hs') as (s & Hs & X). apply (st_hollow _ _ X). apply (g_used t0 G s Hs); [unfold group in *; now rewrite <- (st_tag _ _ X)|]. rewrite <- (tw_root _ _ _ X). now apply st_ref.
      - intros d' a v Hd' Tg E. destruct (st_back d' Hd') as (d & Hd & S). assert (d' = d) by (apply S; unfold server, gradient_el; rewrite <- (sd_tag _ _ _ S), Tg; intuition discriminate). subst d'. exact (g_attrs t0 G d a v Hd Tg E).
      - intros d' v Hd' E. destruct (st_back d' Hd') as (d & Hd & S). apply (g_opacity t0 G d v Hd). apply (get_back _ _ _ _ S) in E; [exact E|cbn; intuition discriminate].
      - intros d' v Hd' E. destruct (st_back d' Hd') as (d & Hd & S). apply (g_trans t0 G d v Hd). apply (get_back _ _ _ _ S) in E; [exact E|cbn; intuition discriminate].
      - intros s' d' Hs' Gs Hd' Rs. destruct (st_sub s' Hs') as (s & Hs & X). destruct (f2_back _ _ _ _ (st_inside _ _ X) Hd') as (d & Hd & S). apply (g_below t0 G s d Hs); [unfold group in *; now rewrite <- (st_tag _ _ X)|exact Hd|exact (res_tag _ _ (sd_tag _ _ _ S) Rs)].
      - intros s' d' Hs' Gs Ts Hd'. destruct (st_sub s' Hs') as (s & Hs & X). destruct (f2_back _ _ _ _ (st_inside _ _ X) Hd') as (d & Hd & S). destruct (g_moved t0 G s d Hs) as [A B]; [unfold group in *; now rewrite <- (st_tag _ _ X)| |exact Hd|].
        + rewrite <- (sd_get _ _ _ (twin_data _ _ _ X)); [exact Ts|cbn; intuition discriminate].
        + rewrite (sd_tag _ _ _ S), (sd_key _ _ _ S). split; [exact A|]. intros Q. apply B. now apply st_ref.
    Qed.
    Lemma st_sready : sready t0 -> sready t1.
    Proof.
      intros G. constructor.
      - apply F1.
      - apply F1.
      - apply F1.
      - destruct (s_svg t0 G) as (s & E & Ns). destruct (tw_svg _ _ _ W s E) as (s' & E' & X). exists s'. split; [exact E'|]. rewrite (tw_root _ _ _ X). intros Q. apply Ns. now apply st_ref.
      - apply st_ids, G.
      - intros a' s' p' P Gs Hp Sh. destruct (st_place a' s' P) as (a & s & P0 & Fa & X). destruct (f2_back _ _ _ _ Fa Hp) as (p & Hp0 & Sp). apply (s_shape t0 G a s p P0); [unfold holder in *; now rewrite <- (st_tag _ _ X)|exact Hp0|exact (shape_tag _ _ (sd_tag _ _ _ Sp) Sh)].
      - intros d' v Hd' E. destruct (st_back d' Hd') as (d & Hd & S). apply (s_trans t0 G d v Hd). apply (get_back _ _ _ _ S) in E; [exact E|cbn; intuition discriminate].
      - intros d' a v Hd' Tg Ia E. destruct (st_back d' Hd') as (d & Hd & S). assert (d' = d) by (apply S; unfold server, gradient_el; rewrite <- (sd_tag _ _ _ S), Tg; intuition discriminate). subst d'. exact (s_effects t0 G d a v Hd Tg Ia E).
      - intros a' s' P Rs. destruct (st_place a' s' P) as (a & s & P0 & Fa & X). destruct (s_res t0 G a s P0) as [A B]; [exact (res_tag _ _ (st_tag _ _ X) Rs)|]. split.
        + intros p' b' ->. inversion Fa as [|p ? b ? Sp Fb]; subst. intros Hh. apply (A p b eq_refl). unfold holder in *. now rewrite <- (sd_tag _ _ _ Sp).
        + intros p' Hp'. destruct (f2_back _ _ _ _ Fa Hp') as (p & Hp & Sp). destruct (B p Hp) as [-> |(e & Te)]; [left|right; exists e; now rewrite (sd_tag _ _ _ Sp)]. apply (data_unique t1); [apply F1| |apply data_of_sub, subs_self|].
          * apply (DuplProofs.anc_in t1 a' (data s')); [|exact Hp']. apply ctx_place. eauto.
          * rewrite (sd_key _ _ _ Sp). symmetry. exact (sd_key _ _ _ (twin_data _ _ _ W)).
      - intros d' Hd' Tg. destruct (st_back d' Hd') as (d & Hd & S). rewrite (sd_get _ _ _ S) by (cbn; intuition discriminate). apply (s_viewts t0 G d Hd). now rewrite <- (sd_tag _ _ _ S).
      - intros s' Hs' Tg. destruct (st_sub s' Hs') as (s & Hs & X). destruct (s_views t0 G s Hs) as [(c & Hc & Tc)|Q]; [now rewrite <- (st_tag _ _ X)|left|right].
        + destruct (f2_in _ _ _ _ (twin_kids _ _ _ X) Hc) as (c' & Hc' & Xc). exists c'. split; [exact Hc'|]. now rewrite (st_tag _ _ Xc).
        + intros d' Hd'. destruct (f2_back _ _ _ _ (st_inside _ _ X) Hd') as (d & Hd & S). rewrite (sd_get _ _ _ S) by (cbn; intuition discriminate). now apply Q.
    Qed.
    Lemma st_remarks : remarks_apart t0 -> remarks_apart t1.
    Proof.
      intros [A B]. split.
      - intros s' k Hs' Rm Hk Q. destruct (st_sub s' Hs') as (s & Hs & X). apply (A s k Hs); [now rewrite <- (remark_tag _ _ (st_tag _ _ X))| |now apply st_ref]. now rewrite <- (tw_keys _ _ X).
      - intros s' c' Hs' Hc' Rm. destruct (st_sub s' Hs') as (s & Hs & X). destruct (f2_in' _ _ _ _ (twin_kids _ _ _ X) Hc') as (c & Hc & Xc). rewrite (st_tag _ _ X). apply (B s c Hs Hc). now rewrite <- (remark_tag _ _ (st_tag _ _ Xc)).
    Qed.
    Lemma st_defs : defs_apart t0 -> defs_apart t1.
    Proof. intros A d' Hd' Td Q. destruct (st_back d' Hd') as (d & Hd & S). apply (A d Hd); [now rewrite <- (sd_tag _ _ _ S)|]. rewrite <- (sd_key _ _ _ S). now apply st_ref. Qed.
    Lemma st_servers : servers_apart t0 -> servers_apart t1.
    Proof.
      intros [A B L]. split; [| |intros s' k Hs' Ts Hk Rk; destruct (st_sub s' Hs') as (s & Hs & X); apply (L s k Hs); [now rewrite <- (st_tag _ _ X)|now rewrite <- (tw_keys _ _ X)|now apply st_ref]].
      - intros s' c' Hs' Gs Hc'. destruct (st_sub s' Hs') as (s & Hs & X). destruct (f2_in' _ _ _ _ (twin_kids _ _ _ X) Hc') as (c & Hc & Xc). rewrite (st_tag _ _ Xc). apply (A s c Hs); [|exact Hc]. unfold gradient_el in *. now rewrite <- (st_tag _ _ X).
      - intros a' s' p' P Vs Hp Sh. destruct (st_place a' s' P) as (a & s & P0 & Fa & X). destruct (f2_back _ _ _ _ Fa Hp) as (p & Hp0 & Sp). apply (B a s p P0); [exact (server_tag _ _ (st_tag _ _ X) Vs)|exact Hp0|exact (shape_tag _ _ (sd_tag _ _ _ Sp) Sh)].
    Qed.
  End Stays.
End Prep.
