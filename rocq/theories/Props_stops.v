(** Properties C17, C18, C20: gradient stops and invalid attributes. Specification: SpecStops.v. *)
From Coq Require Import List Bool NArith Arith ZArith String Lia QArith Qcanon.
From Verif Require Import Names Num Value Dom DomFacts DomOps Outcome DomRemove Stops SpecStops SpecDom AttrFacts StopsProofs.
Import ListNotations.
Local Open Scope nat_scope.

(** C17. Stop resolution fails exactly when a non-first child of a gradient has no length offset. *)
Theorem C17_fails_iff : forall t,
  (exists e, resolve_stop_attributes t = Err e) <->
  (exists s i d, In s (subs t) /\ gradient s /\ nth_error (map data (kids s)) (S i) = Some d /\ ~ has_length_offset d).
Proof.
  intros t. unfold resolve_stop_attributes, kpass. split.
  - intros (e & H). destruct (kmap_fail _ _ resolve_visit_len resolve_visit_Q t (data t) (same_node_refl _)) as [F _].
    destruct (F e H) as (s & d0 & Hs & Hd & E). unfold resolve_stop_visit in E. destruct (is_grad d0) eqn:G; [|discriminate].
    apply bind_err in E. destruct E as [E|(r & _ & E)]; [|discriminate]. apply resolve_list_err in E.
    destruct E as (_ & i & d & H1 & H2 & H3). destruct i as [|i]; [lia|]. exists s, i, d. repeat split; auto.
    apply is_grad_iff. rewrite <- G. symmetry. apply is_grad_tag. apply Hd.
  - intros (s & i & d & Hs & G & Hd & Ho). destruct (kmap resolve_stop_visit (data t) t) as [t'|e|] eqn:E.
    + exfalso. destruct (kmap_subs _ _ resolve_visit_len resolve_visit_Q t (data t) t' (same_node_refl _) E) as [_ F].
      destruct (Forall2_in_l _ _ _ s F Hs) as (s' & _ & d0 & ks & Q & V & _). unfold resolve_stop_visit in V.
      rewrite (is_grad_tag (data s) d0), (proj2 (is_grad_iff s) G) in V by apply Q.
      apply bind_ok in V. destruct V as (r & V & _).
      assert (X : resolve_stop_list 0 (map data (kids s)) = Err (MissingAttribute EStop AOffset)).
      { apply resolve_list_err. split; [reflexivity|]. exists (S i), d. split; [exact Hd|]. split; [discriminate|exact Ho]. }
      congruence.
    + eauto.
    + exfalso. destruct (kmap_fail _ _ resolve_visit_len resolve_visit_Q t (data t) (same_node_refl _)) as [_ F].
      destruct (F E) as (x & d0 & _ & _ & V). unfold resolve_stop_visit in V. destruct (is_grad d0); [|discriminate].
      apply bind_panic in V. destruct V as [V|(r & _ & V)]; [now apply resolve_list_panic in V|discriminate].
Qed.
Print Assumptions C17_fails_iff.

(** The only failure is the documented error; there is no panic. *)
Theorem C17_error_kind : forall t, resolve_stop_attributes t <> Panic /\
  (forall e, resolve_stop_attributes t = Err e -> e = MissingAttribute EStop AOffset).
Proof.
  intros t. unfold resolve_stop_attributes, kpass.
  destruct (kmap_fail _ _ resolve_visit_len resolve_visit_Q t (data t) (same_node_refl _)) as [F1 F2]. split.
  - intros E. destruct (F2 E) as (x & d0 & _ & _ & V). unfold resolve_stop_visit in V. destruct (is_grad d0); [|discriminate].
    apply bind_panic in V. destruct V as [V|(r & _ & V)]; [now apply resolve_list_panic in V|discriminate].
  - intros e E. destruct (F1 e E) as (x & d0 & _ & _ & V). unfold resolve_stop_visit in V. destruct (is_grad d0); [|discriminate].
    apply bind_err in V. destruct V as [V|(r & _ & V)]; [now apply resolve_list_err in V as (-> & _)|discriminate].
Qed.
Print Assumptions C17_error_kind.

(** On success every child of a gradient has a resolved offset, a colour and an opacity; the children
    of other nodes are not changed, and the tree keeps its shape, names and ids. *)
Theorem C17_resolves : forall t t', resolve_stop_attributes t = Ok t' ->
  erase_attrs t' = erase_attrs t /\ data t' = data t /\
  Forall2 (fun s s' => (gradient s -> resolved_stops (map data (kids s)) (map data (kids s'))) /\
                       (~ gradient s -> map data (kids s') = map data (kids s))) (subs t) (subs t').
Proof.
  intros t t' H. unfold resolve_stop_attributes, kpass in H. split; [|split].
  - apply (kmap_erase resolve_stop_visit (fun d => with_attrs d []) t resolve_visit_len) with (d := data t); auto.
    intros d l d' l' V. pose proof (resolve_visit_Q _ _ _ _ V) as Q. split.
    + unfold resolve_stop_visit in V. destruct (is_grad d); [|now injection V as <- <-].
      apply bind_ok in V. destruct V as (r & _ & V). now injection V as <- <-.
    + clear V. induction Q as [|x y l l' (Q1 & Q2 & Q3) _ IH]; [reflexivity|]. cbn. f_equal; [|exact IH]. unfold with_attrs. now rewrite Q1, Q2, Q3.
  - destruct (kmap_subs _ _ resolve_visit_len resolve_visit_Q t (data t) t' (same_node_refl _) H) as [D _]. rewrite D.
    unfold resolve_stop_visit. destruct (is_grad (data t)); [|reflexivity]. now destruct (resolve_stop_list 0 _).
  - destruct (kmap_subs _ _ resolve_visit_len resolve_visit_Q t (data t) t' (same_node_refl _) H) as [_ F].
    eapply Forall2_impl; [|exact F]. cbn. intros s s' (d0 & ks & Q & V & O).
    assert (KS : ks = map data (kids s')).
    { clear - O. induction O as [|k k' l m (a & b & V) _ IH]; [reflexivity|]. f_equal; [|exact IH].
      unfold resolve_stop_visit in V. destruct (is_grad k); [|now injection V as <- <-].
      apply bind_ok in V. destruct V as (r & _ & V). now injection V as <- <-. }
    subst ks. unfold resolve_stop_visit in V. rewrite (is_grad_tag (data s) d0) in V by apply Q. split.
    + intros G. apply is_grad_iff in G. rewrite G in V. apply bind_ok in V. destruct V as (r & V1 & V). injection V as _ ->.
      now apply resolve_list0_ok.
    + intros G. destruct (is_grad (data s)) eqn:E; [exfalso; apply G; now apply is_grad_iff|]. now injection V as _ ->.
Qed.
Print Assumptions C17_resolves.

Definition stops_doc : tree :=
  doc [el 1 ESvg [] [el 2 ELinearGradient [] [el 3 EStop [] []; el 4 EStop [at_ AOffset (VLen (Len (zq 50) UPercent))] [];
                                               el 5 EStop [at_ AOffset (VLen (Len (zq 2) UNone))] []; el 6 EStop [at_ AOffset (px 0)] []]]].
Example C17_instance : (exists t, resolve_stop_attributes stops_doc = Ok t /\
    match find_data 4 t with Some d => opt_value_eqb (d_get d AOffset) (Some (number (fq 1 2))) | None => false end = true) /\
  resolve_stop_attributes (doc [el 1 ESvg [] [el 2 ELinearGradient [] [el 3 EStop [] []; el 4 EStop [] []]]]) = Err (MissingAttribute EStop AOffset).
Proof. split; [eexists; split; [reflexivity|vm_compute; reflexivity]|reflexivity]. Qed.

(** C18. Fixing establishes validity. *)
Lemma fix_split t t' : fix_invalid_attributes t = Ok t' -> exists t1, kpass fix_visit t = Ok t1 /\ t' = fix_marker t1.
Proof. intros H. unfold fix_invalid_attributes in H. apply bind_ok in H. destruct H as (t1 & H1 & H). injection H as <-. eauto. Qed.
Lemma fix_kids_offsets s s' d0 ks : fix_visit d0 (map data (kids s)) = Ok (data s', ks) ->
  Forall2 (fun k k' => exists l l', fix_visit k l = Ok (k', l')) ks (map data (kids s')) ->
  Forall2 (fun k k' => get_attr (attrs k') AOffset = get_attr (attrs k) AOffset) ks (map data (kids s')).
Proof.
  intros _ O. eapply Forall2_impl; [|exact O]. intros k k' (l & l' & V). apply fix_visit_self in V. destruct V as (_ & V & _). apply V. cbn. intuition discriminate.
Qed.
Lemma Forall2_trans' {A B C} (P : A -> B -> Prop) (Q : B -> C -> Prop) (R : A -> C -> Prop) l m n :
  (forall x y z, P x y -> Q y z -> R x z) -> Forall2 P l m -> Forall2 Q m n -> Forall2 R l n.
Proof. intros H F. revert n. induction F; intros n' G; inversion G; subst; constructor; eauto. Qed.
Lemma fixed_offsets l l' : fix_stops q0 l = Ok l' -> exists ns, Forall2 offset_number l ns /\ Forall2 offset_number l' (maxes q0 ns).
Proof.
  intros H. destruct (fix_stops_ok l q0 l' H) as (ns & N1 & N2 & N3). exists ns. split; [exact N1|]. clear H N1.
  revert l l' N2 N3. generalize (maxes q0 ns) as os. induction os as [|o os IH]; intros l l' N2 N3; destruct l' as [|d' l']; try discriminate; [constructor|].
  cbn in N2. inversion N2 as [|d r lr rr F1 F2]; subst. cbn in F1. constructor; [subst d'; apply d_get_set_same|]. eapply IH; [exact F2|]. now injection N3.
Qed.
Lemma fix_marker_subs t : Forall2 (fun s s' => same_node (data s) (data s') /\ (forall b, b <> AMarker -> get_attr (attrs (data s')) b = get_attr (attrs (data s)) b) /\
    d_has (data s') AMarker = false /\ Forall2 (fun k k' => forall b, b <> AMarker -> get_attr (attrs k') b = get_attr (attrs k) b) (map data (kids s)) (map data (kids s')))
  (subs t) (subs (fix_marker t)).
Proof.
  unfold fix_marker. rewrite subs_tmap. induction (subs t) as [|s l IH]; constructor; [|exact IH]. rewrite data_tmap, kids_tmap. split; [|split; [|split]].
  - destruct (d_has (data s) AMarker); [apply sn_with|apply same_node_refl].
  - intros b Hb. now apply fix_marker_get.
  - apply d_has_false, fix_marker_none.
  - rewrite map_map. clear. induction (kids s) as [|c l IH]; constructor; [|exact IH]. rewrite data_tmap. intros b Hb. now apply fix_marker_get.
Qed.
Theorem C18_establishes_validity : forall t t', fix_invalid_attributes t = Ok t' -> valid_doc t'.
Proof.
  intros t t' H. apply fix_split in H. destruct H as (t1 & H & ->). unfold kpass in H.
  destruct (kmap_subs _ _ fix_visit_len fix_visit_Q t (data t) t1 (same_but_refl _ _) H) as [_ F].
  pose proof (fix_marker_subs t1) as M.
  assert (G : forall s2, In s2 (subs (fix_marker t1)) -> exists s s1 d0 ks,
     same_but [AOffset] (data s) d0 /\ fix_visit d0 (map data (kids s)) = Ok (data s1, ks) /\
     Forall2 (fun k k' => exists l l', fix_visit k l = Ok (k', l')) ks (map data (kids s1)) /\
     same_node (data s1) (data s2) /\ (forall b, b <> AMarker -> get_attr (attrs (data s2)) b = get_attr (attrs (data s1)) b) /\
     d_has (data s2) AMarker = false /\ Forall2 (fun k k' => forall b, b <> AMarker -> get_attr (attrs k') b = get_attr (attrs k) b) (map data (kids s1)) (map data (kids s2))).
  { intros s2 H2. destruct (Forall2_in_r _ _ _ _ M H2) as (s1 & H1 & M1). destruct (Forall2_in_r _ _ _ _ F H1) as (s & Hs & d0 & ks & A & B & C).
    exists s, s1, d0, ks. tauto. }
  constructor; intros s2 H2; destruct (G s2 H2) as (s & s1 & d0 & ks & A & B & C & N & E & Mk & K).
  - intros Tg. assert (T0 : tag d0 = TEl ERect).
    { pose proof (fix_visit_self _ _ _ _ B) as (X & _). destruct X as (_ & X & _). destruct N as (_ & Y & _). congruence. }
    pose proof (fix_visit_self _ _ _ _ B) as X. assert (E1 : data s1 = fix_rect_attributes d0) by (apply X; exact T0).
    apply (valid_rect_ext (data s1)); [|rewrite E1; apply fix_rect_valid]. intros a Ha. apply E. intros ->. cbn in Ha. intuition discriminate.
  - intros Tg. assert (T0 : tag d0 = TEl EPolyline \/ tag d0 = TEl EPolygon).
    { pose proof (fix_visit_self _ _ _ _ B) as (X & _). destruct X as (_ & X & _). destruct N as (_ & Y & _). rewrite <- X, <- Y. exact Tg. }
    pose proof (fix_visit_self _ _ _ _ B) as X. assert (E1 : data s1 = fix_poly_attributes d0) by (apply X; exact T0).
    intros l. rewrite (get_ext (data s1)) by (apply E; discriminate). rewrite E1. apply fix_poly_valid.
  - intros Tg. assert (T0 : tag d0 = TEl ELinearGradient \/ tag d0 = TEl ERadialGradient).
    { pose proof (fix_visit_self _ _ _ _ B) as (X & _). destruct X as (_ & X & _). destruct N as (_ & Y & _). unfold gradient in Tg. rewrite <- X, <- Y. exact Tg. }
    pose proof (fix_visit_self _ _ _ _ B) as X. assert (FS : fix_stops q0 (map data (kids s)) = Ok ks) by (apply X; exact T0).
    destruct (fixed_offsets _ _ FS) as (ns & _ & O). pose proof (fix_kids_offsets s s1 d0 ks B C) as KO.
    exists (maxes q0 ns). split; [|split; [apply maxes_spec|apply maxes_spec; unfold q0, q1; qlra]].
    assert (KO2 : Forall2 (fun k k' => get_attr (attrs k') AOffset = get_attr (attrs k) AOffset) ks (map data (kids s2))).
    { eapply Forall2_trans'; [|exact KO|exact K]. cbn. intros x y z H1 H3. rewrite H3 by discriminate. exact H1. }
    clear - O KO2. revert O. generalize (maxes q0 ns) as os. induction KO2 as [|k k' l l' H1 _ IH]; intros os O; inversion O; subst; constructor; auto.
    unfold offset_number in *. now rewrite (get_ext k).
  - exact Mk.
Qed.
Print Assumptions C18_establishes_validity.

(** A valid document is left as it is (offsets of stops are never hidden in parsed documents), so the
    pass is idempotent. *)
Definition visible_offsets (t : tree) : Prop :=
  forall s c x, In s (subs t) -> gradient s -> In c (kids s) -> get_attr (attrs (data c)) AOffset = Some x -> a_vis x = true.
Lemma fix_stops_noop l ns : Forall2 offset_number l ns -> (forall d x, In d l -> get_attr (attrs d) AOffset = Some x -> a_vis x = true) ->
  forall p, maxes p ns = ns -> fix_stops p l = Ok l.
Proof.
  intros F. induction F as [|d n l ns H F IH]; intros V p M; [reflexivity|]. cbn in M |- *. unfold offset_number in H. rewrite H.
  fold (clamp n). fold (qmax p (clamp n)). injection M as M1 M2. rewrite M1 in M2 |- *. rewrite IH; [cbn [bind]|intros; eapply V; [right|]; eauto|exact M2].
  unfold number. rewrite d_set_same; [reflexivity|]. unfold d_get, get_value in H.
  destruct (get_attr (attrs d) AOffset) as [x|] eqn:E; [|discriminate]. pose proof (V d x (or_introl eq_refl) E) as Vx.
  apply get_attr_some in E. destruct E as [_ E]. destruct x as [a v b]. cbn in *. congruence.
Qed.
Theorem C18_valid_untouched : forall t, valid_doc t -> visible_offsets t -> fix_invalid_attributes t = Ok t.
Proof.
  intros t V O. unfold fix_invalid_attributes.
  assert (K : kpass fix_visit t = Ok t).
  { apply kmap_noop. intros s Hs. unfold fix_visit. destruct (tag (data s)) as [|e| | | |] eqn:Tg; try reflexivity. 
    assert (ST : gradient s -> bind (fix_stops q0 (map data (kids s))) (fun l' => Ok (data s, l')) = Ok (data s, map data (kids s))).
    { intros G. destruct (vd_stops t V s Hs G) as (os & O1 & O2 & O3). rewrite (fix_stops_noop _ os); [reflexivity|exact O1| |].
      - intros d x Hd. apply in_map_iff in Hd. destruct Hd as (c & <- & Hc). now apply (O s c x).
      - apply maxes_id; [exact O2|exact O3|]. unfold q0. qlra. }
    destruct e; try reflexivity.
    - apply ST. now left.
    - rewrite fix_poly_noop; [reflexivity|]. apply (vd_poly t V s Hs). auto.
    - rewrite fix_poly_noop; [reflexivity|]. apply (vd_poly t V s Hs). auto.
    - apply ST. now right.
    - rewrite fix_rect_noop; [reflexivity|]. now apply (vd_rect t V s Hs). }
  rewrite K. cbn. f_equal. unfold fix_marker. apply tmap_id. intros d Hd.
  rewrite <- map_data_subs in Hd. apply in_map_iff in Hd. destruct Hd as (s & <- & Hs). now rewrite (vd_marker t V s Hs).
Qed.
Print Assumptions C18_valid_untouched.
Lemma fix_visible t t' : fix_invalid_attributes t = Ok t' -> visible_offsets t'.
Proof.
  intros H. apply fix_split in H. destruct H as (t1 & H & ->). unfold kpass in H.
  destruct (kmap_subs _ _ fix_visit_len fix_visit_Q t (data t) t1 (same_but_refl _ _) H) as [_ F].
  intros s2 c2 x H2 G Hc. destruct (Forall2_in_r _ _ _ _ (fix_marker_subs t1) H2) as (s1 & H1 & N & E & _ & K).
  destruct (Forall2_in_r _ _ _ _ F H1) as (s & Hs & d0 & ks & A & B & C).
  assert (Hd : In (data c2) (map data (kids s2))) by now apply in_map.
  destruct (Forall2_in_r _ _ _ _ K Hd) as (k1 & Hk1 & E1). rewrite E1 by discriminate.
  destruct (Forall2_in_r _ _ _ _ (fix_kids_offsets s s1 d0 ks B C) Hk1) as (k & Hk & ->).
  assert (T0 : tag d0 = TEl ELinearGradient \/ tag d0 = TEl ERadialGradient).
  { pose proof (fix_visit_self _ _ _ _ B) as (X & _). destruct X as (_ & X & _). destruct N as (_ & Y & _). unfold gradient in G. rewrite <- X, <- Y. exact G. }
  pose proof (fix_visit_self _ _ _ _ B) as X. assert (FS : fix_stops q0 (map data (kids s)) = Ok ks) by (apply X; exact T0).
  destruct (fix_stops_ok _ _ _ FS) as (ns & _ & N2 & N3). clear - Hk N2 N3. revert Hk N2 N3. revert ks. generalize (maxes q0 ns) as os.
  generalize (map data (kids s)) as l. intros l os. revert l. induction os as [|o os IH]; intros l ks Hk N2 N3; destruct ks as [|y ks]; try discriminate; [contradiction|].
  cbn in N2. inversion N2 as [|? ? ? ? F1 F2]; subst. cbn in F1. destruct Hk as [<-|Hk]; [|eapply IH; [exact Hk|exact F2|now injection N3]].
  subst y. unfold d_set. cbn [attrs with_attrs]. rewrite get_set_same. intros [= <-]. reflexivity.
Qed.
Theorem C18_idempotent : forall t t', fix_invalid_attributes t = Ok t' -> fix_invalid_attributes t' = Ok t'.
Proof. intros t t' H. apply C18_valid_untouched; [eapply C18_establishes_validity|eapply fix_visible]; exact H. Qed.
Print Assumptions C18_idempotent.

(** What exactly changes. [s] and [s'] are the same node before and after. *)
Record fixed (s s' : tree) : Prop := {
  fx_node : same_node (data s) (data s');
  fx_others : forall b, ~ In b [AWidth; AHeight; ARx; ARy; APoints; AOffset; AMarker] -> get_attr (attrs (data s')) b = get_attr (attrs (data s)) b;
  fx_not_rect : tag (data s) <> TEl ERect -> forall b, In b [AWidth; AHeight; ARx; ARy] -> get_attr (attrs (data s')) b = get_attr (attrs (data s)) b;
  fx_rect_good : forall b, In b [AWidth; AHeight; ARx; ARy] -> d_has (data s) b = true -> not_negative (d_get (data s) b) -> get_attr (attrs (data s')) b = get_attr (attrs (data s)) b;
  fx_size : tag (data s) = TEl ERect -> forall b, In b [AWidth; AHeight] -> d_has (data s) b = false \/ ~ not_negative (d_get (data s) b) -> d_get (data s') b = Some (VLen (Len q0 UNone));
  fx_radius : tag (data s) = TEl ERect -> forall b, In b [ARx; ARy] -> d_has (data s) b = false \/ ~ not_negative (d_get (data s) b) -> d_has (data s') b = false;
  fx_not_poly : tag (data s) <> TEl EPolyline -> tag (data s) <> TEl EPolygon -> get_attr (attrs (data s')) APoints = get_attr (attrs (data s)) APoints;
  fx_points : tag (data s) = TEl EPolyline \/ tag (data s) = TEl EPolygon -> forall l, d_get (data s) APoints = Some (VNumList l) ->
     (List.length l < 2 /\ d_has (data s') APoints = false) \/
     exists l', d_get (data s') APoints = Some (VNumList l') /\ (l = l' \/ exists x, l = l' ++ [x]);
  fx_stops : gradient s -> exists ns cs os, Forall2 offset_number (map data (kids s)) ns /\ Forall2 clamped ns cs /\
     running_max cs os /\ Forall2 offset_number (map data (kids s')) os;
  fx_no_stops : ~ gradient s -> Forall2 (fun k k' => get_attr (attrs k') AOffset = get_attr (attrs k) AOffset) (map data (kids s)) (map data (kids s'))
}.
Lemma paired_cases l : List.length (paired l) = 0 /\ List.length l < 2 \/ l = paired l \/ exists x, l = paired l ++ [x].
Proof.
  unfold paired. destruct (Nat.odd (List.length l)) eqn:E; [|auto]. destruct (List.length l) as [|n] eqn:L; [discriminate|].
  right. right. destruct l as [|x l]; [discriminate|]. exists (last (x :: l) x). now apply app_removelast_last.
Qed.
Theorem C18_changes : forall t t', fix_invalid_attributes t = Ok t' -> Forall2 fixed (subs t) (subs t').
Proof.
  intros t t' H. apply fix_split in H. destruct H as (t1 & H & ->). unfold kpass in H.
  destruct (kmap_subs _ _ fix_visit_len fix_visit_Q t (data t) t1 (same_but_refl _ _) H) as [_ F].
  eapply Forall2_trans'; [|exact F|exact (fix_marker_subs t1)]. cbn.
  intros s s1 s2 (d0 & ks & (N0 & A) & B & C) (N & E & Mk & K).
  pose proof (fix_visit_self _ _ _ _ B) as (X1 & X2 & X3 & X4 & X5 & X6 & X7 & X8).
  assert (T0 : tag d0 = tag (data s)) by apply N0. rewrite T0 in *.
  assert (A' : forall b, b <> AOffset -> get_attr (attrs d0) b = get_attr (attrs (data s)) b) by (intros b Hb; apply A; intros [|[]]; congruence).
  assert (NM : forall b, In b [AWidth; AHeight; ARx; ARy] -> b <> AMarker /\ b <> AOffset /\ b <> APoints).
  { intros b Hb. cbn in Hb. repeat split; intros ->; intuition discriminate. }
  constructor.
  - eapply same_node_trans; [exact N0|]. eapply same_node_trans; [exact X1|exact N].
  - intros b Hb. cbn in Hb. rewrite E by (intros ->; tauto). rewrite X2 by (cbn; tauto). apply A'. intros ->; tauto.
  - intros Tr b Hb. destruct (NM b Hb) as (M1 & M2 & M3). rewrite E, X3, A' by auto. reflexivity.
  - intros b Hb Hh Hn. destruct (NM b Hb) as (M1 & M2 & M3). rewrite E by exact M1.
    assert (DT : tag (data s) = TEl ERect \/ tag (data s) <> TEl ERect).
    { destruct (tag (data s)) as [|e| | | |]; try (right; discriminate). destruct (eid_eqb_spec e ERect); [left|right]; congruence. }
    destruct DT as [Tr|Tr]; [|rewrite X3, A' by auto; reflexivity].
    rewrite (X5 Tr). destruct (fix_rect_at d0) as (R1 & R2 & R3 & R4).
    assert (Neg : negative (d_get d0 b) = false) by (rewrite (get_ext (data s)) by (apply A'; exact M2); now apply negative_false).
    assert (Hh0 : d_has d0 b = true) by (rewrite (has_ext (data s)) by (apply A'; exact M2); exact Hh).
    assert (FL : fix_len d0 b = d0) by (unfold fix_len; rewrite Hh0, Neg; reflexivity).
    assert (RL : rm_negative_len d0 b = d0) by (unfold rm_negative_len; rewrite Neg; reflexivity).
    cbn in Hb. destruct Hb as [<-|[<-|[<-|[<-|[]]]]]; rewrite ?R1, ?R2, ?R3, ?R4, ?FL, ?RL; apply A'; discriminate.
  - intros Tr b Hb Hbad. assert (Hb4 : In b [AWidth; AHeight; ARx; ARy]) by (clear - Hb; cbn in *; tauto). destruct (NM b Hb4) as (M1 & M2 & M3). rewrite (get_ext (data s1)) by (apply E; exact M1).
    rewrite (X5 Tr). destruct (fix_rect_at d0) as (R1 & R2 & _).
    assert (FL : d_get (fix_len d0 b) b = Some (VLen (Len q0 UNone))).
    { unfold fix_len. rewrite (has_ext (data s)) by (apply A'; exact M2). rewrite (get_ext (data s) d0) by (apply A'; exact M2).
      destruct (d_has (data s) b); [|apply d_get_set_same]. destruct Hbad as [Hbad|Hbad]; [discriminate|].
      destruct (negative (d_get (data s) b)) eqn:Ng; [apply d_get_set_same|]. apply negative_false in Ng. contradiction. }
    cbn in Hb. destruct Hb as [<-|[<-|[]]]; [rewrite (get_ext _ _ _ R1)|rewrite (get_ext _ _ _ R2)]; exact FL.
  - intros Tr b Hb Hbad. assert (Hb4 : In b [AWidth; AHeight; ARx; ARy]) by (clear - Hb; cbn in *; tauto). destruct (NM b Hb4) as (M1 & M2 & M3). rewrite (has_ext (data s1)) by (apply E; exact M1).
    rewrite (X5 Tr). destruct (fix_rect_at d0) as (_ & _ & R3 & R4).
    assert (RL : d_has (rm_negative_len d0 b) b = false).
    { unfold rm_negative_len. rewrite (get_ext (data s) d0) by (apply A'; exact M2).
      destruct (negative (d_get (data s) b)) eqn:Ng; [apply d_has_rm_same|]. rewrite (has_ext (data s)) by (apply A'; exact M2).
      destruct Hbad as [Hbad|Hbad]; [exact Hbad|]. apply negative_false in Ng. contradiction. }
    cbn in Hb. destruct Hb as [<-|[<-|[]]]; [rewrite (has_ext _ _ _ R3)|rewrite (has_ext _ _ _ R4)]; exact RL.
  - intros P1 P2. rewrite E, X4, A' by (auto; discriminate). reflexivity.
  - intros P l Hl. rewrite (has_ext (data s1)) by (apply E; discriminate). rewrite (get_ext (data s1)) by (apply E; discriminate).
    rewrite (X6 P), d_has_get, fix_poly_get. rewrite (get_ext (data s)) by (apply A'; discriminate). rewrite Hl.
    destruct (paired_cases l) as [[L1 L2]|L]; [left; split; [exact L2|]; destruct (paired l); [reflexivity|discriminate]|].
    destruct (paired l) as [|x l'] eqn:Pl.
    + left. split; [|reflexivity]. destruct L as [->|(y & ->)]; cbn; lia.
    + right. eexists. split; [reflexivity|exact L].
  - intros G. destruct (X8 G) as [FS _]. destruct (fixed_offsets _ _ FS) as (ns & O1 & O2). exists ns, (map clamp ns), (maxes q0 ns).
    split; [exact O1|]. split; [|split; [apply maxes_running_max|]].
    + clear. induction ns; constructor; auto using clamp_spec.
    + assert (KO2 : Forall2 (fun k k' => get_attr (attrs k') AOffset = get_attr (attrs k) AOffset) ks (map data (kids s2))).
      { eapply Forall2_trans'; [|exact (fix_kids_offsets s s1 d0 ks B C)|exact K]. cbn. intros x y z Y1 Y3. rewrite Y3 by discriminate. exact Y1. }
      clear - O2 KO2. revert O2. generalize (maxes q0 ns) as os. induction KO2 as [|k k' l l' Y1 _ IH]; intros os O; inversion O; subst; constructor; auto.
      unfold offset_number in *. now rewrite (get_ext k).
  - intros G. unfold gradient in G. assert (EK : ks = map data (kids s)) by (apply X7; tauto).
    pose proof (fix_kids_offsets s s1 d0 ks B C) as KO. rewrite EK in KO.
    eapply Forall2_trans'; [|exact KO|exact K]. cbn. intros x y z Y1 Y3. rewrite Y3 by discriminate. exact Y1.
Qed.
Print Assumptions C18_changes.

(** The pass panics exactly when some child of a gradient has no plain number offset, and never
    reports an error. *)
Theorem C18_panics_iff : forall t, (forall e, fix_invalid_attributes t <> Err e) /\
  (fix_invalid_attributes t = Panic <->
   exists s c, In s (subs t) /\ gradient s /\ In c (kids s) /\ forall n, ~ offset_number (data c) n).
Proof.
  intros t. destruct (kmap_fail _ _ fix_visit_len fix_visit_Q t (data t) (same_but_refl _ _)) as [F1 F2].
  assert (V : forall d l r, (r = Panic \/ exists e, r = Err e) -> fix_visit d l = r -> is_grad d = true /\ fix_stops q0 l = match r with Panic => Panic | Err e => Err e | Ok _ => Ok [] end).
  { intros d l r Hr E. unfold fix_visit, is_grad, tag_sat in *. destruct (tag d) as [|e| | | |]; try (destruct Hr as [->|(x & ->)]; discriminate).
    destruct e; try (destruct Hr as [->|(x & ->)]; discriminate);
      (split; [reflexivity|]; destruct (fix_stops q0 l); cbn in E; subst r; destruct Hr as [Hr|(x & Hr)]; try discriminate; try reflexivity; congruence). }
  split.
  - intros e H. unfold fix_invalid_attributes in H. apply bind_err in H. destruct H as [H|(r & _ & H)]; [|discriminate].
    destruct (F1 e H) as (s & d0 & Hs & Q & E). destruct (V _ _ _ (or_intror (ex_intro _ e eq_refl)) E) as [_ X]. now apply fix_stops_fail in X.
  - split.
    + intros H. unfold fix_invalid_attributes in H. apply bind_panic in H. destruct H as [H|(r & _ & H)]; [|discriminate].
      destruct (F2 H) as (s & d0 & Hs & (Q & _) & E). destruct (V _ _ _ (or_introl eq_refl) E) as [G X]. apply fix_stops_fail in X.
      destruct X as (d & Hd & X). apply in_map_iff in Hd. destruct Hd as (c & <- & Hc). exists s, c. repeat split; auto.
      apply is_grad_iff. rewrite <- (is_grad_tag (data s) d0) by apply Q. exact G.
    + intros (s & c & Hs & G & Hc & X). unfold fix_invalid_attributes. destruct (kpass fix_visit t) as [t'|e|] eqn:E; [| |reflexivity]; exfalso.
      * destruct (kmap_subs _ _ fix_visit_len fix_visit_Q t (data t) t' (same_but_refl _ _) E) as [_ F].
        destruct (Forall2_in_l _ _ _ _ F Hs) as (s' & _ & d0 & ks & (Q & _) & B & _). apply fix_visit_self in B.
        destruct B as (_ & _ & _ & _ & _ & _ & _ & B). destruct B as [B _]; [destruct Q as (_ & -> & _); exact G|].
        assert (P : fix_stops q0 (map data (kids s)) = Panic) by (apply fix_stops_fail; exists (data c); split; [now apply in_map|exact X]). congruence.
      * destruct (F1 e E) as (x & d0 & _ & _ & B). destruct (V _ _ _ (or_intror (ex_intro _ e eq_refl)) B) as [_ Y]. now apply fix_stops_fail in Y.
Qed.
Print Assumptions C18_panics_iff.
(** So after stop resolution the fixes run, if offsets are numbers or percentages. *)
Theorem C18_no_panic_after_resolution : forall t t1, resolve_stop_attributes t = Ok t1 ->
  (forall s c l, In s (subs t) -> gradient s -> In c (kids s) -> d_get (data c) AOffset = Some (VLen l) -> unit l = UNone \/ unit l = UPercent) ->
  exists t2, fix_invalid_attributes t1 = Ok t2.
Proof.
  intros t t1 R U. destruct (fix_invalid_attributes t1) as [t2|e|] eqn:E; [eauto| |]; exfalso; [now apply C18_panics_iff in E|].
  apply C18_panics_iff in E. destruct E as (s1 & c1 & Hs1 & G1 & Hc1 & X).
  destruct (C17_resolves t t1 R) as (_ & _ & F). destruct (kmap_subs _ _ resolve_visit_len resolve_visit_Q t (data t) t1 (same_node_refl _) R) as [_ F'].
  assert (B : exists s, In s (subs t) /\ gradient s /\ resolved_stops (map data (kids s)) (map data (kids s1))).
  { clear - F F' Hs1 G1. assert (H : exists s, In s (subs t) /\ (gradient s -> resolved_stops (map data (kids s)) (map data (kids s1))) /\ tag (data s1) = tag (data s)).
    { revert F F' Hs1. generalize (subs t) (subs t1). intros l m F F'. induction F as [|a b l m H F IH]; intros H1; [contradiction|].
      inversion F' as [|? ? ? ? A1 A2]; subst. destruct H1 as [<-|H1].
      - exists a. split; [now left|]. split; [apply H|]. destruct A1 as (d0 & ks & Q & V & _). unfold resolve_stop_visit in V.
        destruct Q as (_ & Q & _). rewrite <- Q. destruct (is_grad d0); [apply bind_ok in V; destruct V as (r & _ & V)|]; injection V as -> _; reflexivity.
      - destruct (IH A2 H1) as (s & Y1 & Y2). exists s. split; [now right|exact Y2]. }
    destruct H as (s & Y1 & Y2 & Y3). unfold gradient in G1. rewrite Y3 in G1. exists s. auto. }
  destruct B as (s & Hs & G & RS). assert (Hd : In (data c1) (map data (kids s1))) by now apply in_map.
  assert (Y : exists d b, In d (map data (kids s)) /\ resolved_stop b d (data c1)).
  { inversion RS as [Z1 Z2|d d' l l' A1 A2 Z1 Z2]; [rewrite <- Z2 in Hd; contradiction|]. rewrite <- Z2 in Hd. destruct Hd as [->|Hd].
    - exists d, true. split; [now left|exact A1].
    - destruct (Forall2_in_r _ _ _ _ A2 Hd) as (x & Hx & Px). exists x, false. split; [now right|exact Px]. }
  destruct Y as (d & b & Hd' & (_ & _ & O & _)). apply in_map_iff in Hd'. destruct Hd' as (c & <- & Hc).
  destruct O as [(n & _ & O)|[(n & u & Nu & O1 & O2)|(_ & _ & O)]]; [now apply X in O| |now apply X in O].
  destruct (U s c _ Hs G Hc O1) as [Eu|Eu]; cbn in Eu; subst u; [|congruence]. apply (X n). unfold offset_number. rewrite (get_ext (data c)) by exact O2. exact O1.
Qed.
Print Assumptions C18_no_panic_after_resolution.
Example C18_instance :
  (exists t1 t2, resolve_stop_attributes stops_doc = Ok t1 /\ fix_invalid_attributes t1 = Ok t2 /\
     match find_data 6 t2 with Some d => opt_value_eqb (d_get d AOffset) (Some (number q1)) | None => false end = true) /\
  fix_invalid_attributes (doc [el 1 ESvg [at_ AMarker (VLink 3)] [el 2 EPolygon [at_ APoints (VNumList [q1])] []; el 3 EMarker [] []]]) =
    Ok (doc [el 1 ESvg [] [el 2 EPolygon [] []; el 3 EMarker [] []]]).
Proof. split; [eexists; eexists; split; [reflexivity|split; [reflexivity|vm_compute; reflexivity]]|reflexivity]. Qed.
(** An offset with a unit survives the resolution and then panics. (svgdom's parser decides whether such
    an offset can be read.) *)
Theorem C18_offset_with_unit_panics_refuted : exists t t1, resolve_stop_attributes t = Ok t1 /\ fix_invalid_attributes t1 = Panic.
Proof. exists (doc [el 1 ESvg [] [el 2 ELinearGradient [] [el 3 EStop [at_ AOffset (VLen (Len q1 UPx))] []]]]). eexists. split; reflexivity. Qed.

(** C20. Removing repeated stops keeps the colour ramp of every gradient. *)
Lemma mem_key_with ks d l : mem_key ks (with_attrs d l) = mem_key ks d. Proof. reflexivity. Qed.
Lemma same_stop_of a b : same_stop a b = true -> stop_of a = stop_of b.
Proof.
  unfold same_stop. rewrite !andb_true_iff. intros ((H1 & H2) & H3).
  assert (E : forall x y, opt_value_eqb x y = true -> x = y).
  { intros [x|] [y|]; cbn; try discriminate; auto. destruct (value_eqb_spec x y); [congruence|discriminate]. }
  apply E in H1, H2, H3. unfold stop_of. now rewrite H1, H2, H3.
Qed.
(** The stop list without the elements that repeat their predecessor. *)
Fixpoint dedup (prev : ndata) (l : list ndata) : list ndata :=
  match l with
  | [] => []
  | d :: l' => if same_stop prev d then dedup d l' else d :: dedup d l'
  end.
Lemma dedup_ramp l : forall p s x, stop_of p = s -> (so s <= x)%Qc -> ramp_from s (map stop_of (dedup p l)) x = ramp_from s (map stop_of l) x.
Proof.
  induction l as [|d l IH]; intros p s x Hp Hx; [reflexivity|]. cbn [dedup]. destruct (same_stop p d) eqn:E.
  - apply same_stop_of in E. cbn [map ramp_from]. rewrite <- E, Hp. destruct (qltbP x (so s)) as [L|L]; [exfalso; qlra|]. apply (IH d); [congruence|exact Hx].
  - cbn [map ramp_from]. destruct (qltbP x (so (stop_of d))) as [L|L]; [reflexivity|]. now apply IH.
Qed.
Lemma repeated_filter l : forall p ks, NoDup (map key l) -> (forall d, In d l -> mem_key ks d = mem_key (repeated p l) d) ->
  filter (fun d => negb (mem_key ks d)) l = dedup p l.
Proof.
  induction l as [|d l IH]; intros p ks N H; [reflexivity|]. cbn [filter dedup map] in *. inversion N as [|? ? Nd N']; subst.
  rewrite (H d) by (left; reflexivity). cbn [repeated]. unfold mem_key at 1. rewrite existsb_app.
  assert (R : existsb (Nat.eqb (key d)) (repeated d l) = false).
  { destruct (existsb _ _) eqn:X; [|reflexivity]. apply mem_in in X. exfalso. apply Nd. clear - X. revert X. generalize d at 2 as p.
    induction l as [|y l IH]; intros p X; [contradiction|]. cbn in X. apply in_app_or in X. destruct X as [X|X].
    - destruct (same_stop p y); [destruct X as [X|[]]; left; exact X|contradiction].
    - right. now apply (IH y). }
  rewrite R, orb_false_r.
  assert (H' : forall x, In x l -> mem_key ks x = mem_key (repeated d l) x).
  { intros x Hx. rewrite (H x) by (right; exact Hx). cbn [repeated]. unfold mem_key. rewrite existsb_app.
    destruct (same_stop p d); [|reflexivity]. cbn. destruct (Nat.eqb_spec (key x) (key d)) as [E|]; [|reflexivity].
    exfalso. apply Nd. rewrite <- E. now apply in_map. }
  destruct (same_stop p d); cbn [existsb orb].
  - rewrite Nat.eqb_refl. cbn. now apply IH.
  - cbn. f_equal. now apply IH.
Qed.
Lemma repeated_in p l k : In k (repeated p l) -> In k (map key l).
Proof.
  revert p. induction l as [|d l IH]; intros p H; [contradiction|]. cbn in *. apply in_app_or in H. destruct H as [H|H].
  - destruct (same_stop p d); [destruct H as [H|[]]; auto|contradiction].
  - right. now apply (IH d).
Qed.
Lemma repeated_stops_in s k : In k (repeated_stops s) -> gradient s /\ exists c0 cs, kids s = c0 :: cs /\ In k (repeated (data c0) (map data cs)).
Proof.
  unfold repeated_stops. destruct (is_grad (data s)) eqn:G; [|contradiction]. intros H. split; [now apply is_grad_iff|].
  destruct (kids s) as [|c0 cs]; [contradiction|]. exists c0, cs. split; [reflexivity|exact H].
Qed.
(** The removed keys. *)
Definition stop_keys (t : tree) : list nat := flat_map repeated_stops (subs t).
Lemma stop_keys_child t k : In k (stop_keys t) -> exists s c, In s (subs t) /\ gradient s /\ In c (kids s) /\ root_key c = k.
Proof.
  intros H. apply in_flat_map in H. destruct H as (s & Hs & H). apply repeated_stops_in in H. destruct H as (G & c0 & cs & E & H).
  apply repeated_in in H. rewrite map_map in H. apply in_map_iff in H. destruct H as (c & Hk & Hc). exists s, c. rewrite E. repeat split; auto. now right.
Qed.
Lemma unlink_d_get ks d a : attrs_nodup d -> d_get (unlink_data ks d) a = d_get d a \/
  (d_get (unlink_data ks d) a = None /\ exists k, In k ks /\ (d_get d a = Some (VLink k) \/ d_get d a = Some (VFunc k))).
Proof.
  intros N. unfold d_get, get_value. rewrite unlink_get by exact N. destruct (get_attr (attrs d) a) as [x|]; [|now left].
  destruct (existsb _ ks) eqn:E; [right|now left]. split; [reflexivity|]. apply refers_mem in E. destruct E as (k & H & Hk). exists k. split; [exact Hk|].
  destruct (a_val x); try discriminate; injection H as ->; auto.
Qed.
Lemma stop_of_unlink ks d : attrs_nodup d -> stop_of (unlink_data ks d) = stop_of d.
Proof.
  intros N. unfold stop_of.
  destruct (unlink_d_get ks d AOffset N) as [->|(-> & k & _ & [-> | ->])];
  destruct (unlink_d_get ks d AStopColor N) as [->|(-> & k1 & _ & [-> | ->])];
  destruct (unlink_d_get ks d AStopOpacity N) as [->|(-> & k2 & _ & [-> | ->])]; reflexivity.
Qed.
Lemma stop_keys_not_root t : NoDup (keys t) -> ~ In (root_key t) (stop_keys t).
Proof.
  intros N H. apply stop_keys_child in H. destruct H as (s & c & Hs & _ & Hc & E). now apply (root_not_kid t s c) in E.
Qed.
Lemma stop_keys_stop t a : NoDup (keys t) -> only_stops t -> In a (subs t) -> In (root_key a) (stop_keys t) -> tag (data a) = TEl EStop /\ kids a = [].
Proof.
  intros N O Ha H. apply stop_keys_child in H. destruct H as (s & c & Hs & G & Hc & E).
  assert (a = c) by (apply (sub_unique t); auto; apply in_kids_subs, (kid_sub s); auto). subst c. now apply (O s a).
Qed.
Lemma remove_stops_eq t : NoDup (keys t) ->
  remove_invalid_stops t = pruned (mem_key (stop_keys t)) (unlink (below (mem_key (stop_keys t)) t) t).
Proof. intros N. apply remove_nodes_closed; [exact N|now apply stop_keys_not_root]. Qed.
Lemma filter_kids_data p (l : list tree) : filter p (map data l) = map data (filter (fun c => p (data c)) l).
Proof. induction l as [|c l IH]; [reflexivity|]. cbn. destruct (p (data c)); cbn; now rewrite IH. Qed.
Lemma subs_attrs_nodup t d : WFA t -> In d (flat t) -> attrs_nodup d.
Proof. unfold WFA. rewrite Forall_forall. auto. Qed.
Lemma kids_in_flat t s c : In s (subs t) -> In c (kids s) -> In (data c) (flat t).
Proof. intros Hs Hc. apply data_of_sub, in_kids_subs. now apply (kid_sub s). Qed.
Theorem C20_same_ramp_partial : forall t, WF t -> WFA t -> only_stops t -> forall s, In s (subs t) -> gradient s ->
  exists s', In s' (subs (remove_invalid_stops t)) /\ root_key s' = root_key s /\ gradient s' /\
    forall x, ramp (own_stops s') x = ramp (own_stops s) x.
Proof.
  intros t W A O s Hs G. assert (N := wf_keys t W). rewrite remove_stops_eq by exact N.
  set (K := stop_keys t). set (R := below (mem_key K) t). exists (pruned (mem_key K) (unlink R s)).
  assert (Hin : In (unlink R s) (subs (unlink R t))) by (rewrite !unlink_eq, subs_tmap; now apply in_map).
  split; [|split; [|split]].
  - apply subs_pruned_keep; [exact Hin|]. intros a Ha Ka Hsa.
    rewrite unlink_eq, kids_tmap, flat_map_map in Ha. apply in_flat_map in Ha. destruct Ha as (c & Hc & Ha).
    rewrite subs_tmap in Ha. apply in_map_iff in Ha. destruct Ha as (a0 & <- & Ha0).
    assert (Ha1 : In a0 (subs t)) by (apply in_kids_subs, in_flat_map; eauto).
    rewrite data_tmap in Ka. unfold mem_key in Ka. apply mem_in in Ka. change (key (unlink_data R (data a0))) with (root_key a0) in Ka.
    destruct (stop_keys_stop t a0 N O Ha1 Ka) as [Tg Kd]. rewrite subs_tmap in Hsa. apply in_map_iff in Hsa. destruct Hsa as (y & Ey & Hy).
    destruct a0 as [da ca]. cbn in Kd. subst ca. destruct Hy as [<-|[]]. rewrite unlink_eq in Ey.
    assert (X : tag (data (tmap (unlink_data R) s)) = tag (data (tmap (unlink_data R) (T da [])))) by now rewrite Ey.
    rewrite !data_tmap in X. cbn in X, Tg. rewrite Tg in X. destruct G as [G|G]; congruence.
  - unfold root_key. rewrite data_pruned, unlink_eq, data_tmap. reflexivity.
  - unfold gradient. rewrite data_pruned, unlink_eq, data_tmap. exact G.
  - intros x. assert (AllStops : forall d, In d (map data (kids s)) -> is_tag EStop d = true).
    { intros d Hd. apply in_map_iff in Hd. destruct Hd as (c & <- & Hc). unfold is_tag. destruct (O s c Hs G Hc) as [-> _]. reflexivity. }
    assert (E2 : own_stops s = map stop_of (map data (kids s))).
    { unfold own_stops. f_equal. now apply filter_all. }
    assert (E1 : own_stops (pruned (mem_key K) (unlink R s)) = map stop_of (filter (fun d => negb (mem_key K d)) (map data (kids s)))).
    { unfold own_stops. rewrite kids_pruned, unlink_eq, kids_tmap, map_map.
      assert (F : filter (fun c => negb (mem_key K (data c))) (map (tmap (unlink_data R)) (kids s)) = map (tmap (unlink_data R)) (filter (fun c => negb (mem_key K (data c))) (kids s))).
      { clear. induction (kids s) as [|c l IH]; [reflexivity|]. cbn. rewrite data_tmap. change (mem_key K (unlink_data R (data c))) with (mem_key K (data c)).
        destruct (mem_key K (data c)); cbn; now rewrite IH. }
      rewrite F, map_map, filter_all.
      2:{ intros d Hd. apply in_map_iff in Hd. destruct Hd as (c & <- & Hc). rewrite data_pruned, data_tmap. apply filter_In in Hc.
          apply (AllStops (data c)). apply in_map. apply Hc. }
      rewrite map_map, filter_kids_data, map_map. apply map_ext_in. intros c Hc. apply filter_In in Hc. rewrite data_pruned, data_tmap.
      apply stop_of_unlink. apply (subs_attrs_nodup t); [exact A|]. apply (kids_in_flat t s); [exact Hs|apply Hc]. }
    rewrite E1, E2. clear E1 E2 Hin.
    destruct (map data (kids s)) as [|d0 l] eqn:EK; [reflexivity|].
    (* keys of this gradient's children are removed by this gradient only *)
    assert (NK : NoDup (map key (d0 :: l))).
    { rewrite <- EK. rewrite map_map. clear - N Hs. pose proof (sub_NoDup s t N Hs) as Ns. rewrite keys_kids in Ns. inversion Ns as [|? ? _ Nk]; subst.
      clear - Nk. induction (kids s) as [|c l IH]; [constructor|]. cbn in *. apply NoDup_app_inv in Nk. destruct Nk as (N1 & N2 & N3). constructor; [|auto].
      intros H. apply in_map_iff in H. destruct H as (c' & E & Hc'). apply (N3 (root_key c)); [apply root_in_keys|].
      apply in_flat_map. exists c'. split; [exact Hc'|]. unfold root_key. rewrite <- E. apply root_in_keys. }
    assert (MK : forall d, In d (d0 :: l) -> mem_key K d = mem_key (repeated d0 l) d).
    { intros d Hd. unfold mem_key. apply eq_true_iff_eq. rewrite !mem_in. split.
      - intros H. apply in_flat_map in H. destruct H as (s2 & Hs2 & H). assert (H' := H). apply repeated_stops_in in H'. destruct H' as (G2 & c0 & cs & Ek & H').
        assert (C2 : exists c2, In c2 (kids s2) /\ root_key c2 = key d).
        { apply repeated_in in H'. rewrite map_map in H'. apply in_map_iff in H'. destruct H' as (c2 & E2' & Hc2). exists c2. split; [rewrite Ek; now right|exact E2']. }
        destruct C2 as (c2 & Hc2 & Ec2). rewrite <- EK in Hd. apply in_map_iff in Hd. destruct Hd as (c1 & Ed & Hc1).
        assert (s = s2) by (apply (kid_parent t N s s2 c1 c2); auto; unfold root_key in *; congruence). subst s2.
        rewrite Ek in EK. cbn in EK. injection EK as <- <-. exact H'.
      - intros H. apply in_flat_map. exists s. split; [exact Hs|]. unfold repeated_stops. rewrite (proj2 (is_grad_iff s) G), EK. exact H. }
    inversion NK as [|? ? Nd0 Nl]; subst.
    cbn [filter]. assert (M0 : mem_key K d0 = false).
    { rewrite MK by (left; reflexivity). unfold mem_key. destruct (existsb _ _) eqn:X; [|reflexivity]. apply mem_in in X. apply repeated_in in X. contradiction. }
    rewrite M0. cbn [negb]. rewrite (repeated_filter l d0 K Nl) by (intros d Hd; apply MK; right; exact Hd).
    cbn [map ramp]. destruct (qltbP x (so (stop_of d0))) as [L|L]; [reflexivity|]. f_equal. now apply dedup_ramp.
Qed.
Print Assumptions C20_same_ramp_partial.

(** Nothing but stops is removed, and the rest only loses references to removed stops. *)
Theorem C20_only_stops_removed : forall t, WF t -> only_stops t ->
  WF (remove_invalid_stops t) /\ sublist (keys (remove_invalid_stops t)) (keys t) /\
  forall d, In d (flat t) -> tag d <> TEl EStop ->
    exists d', In d' (flat (remove_invalid_stops t)) /\ same_node d d' /\
      forall a, In a (attrs d) -> In a (attrs d') \/ exists k d2, link_of (a_val a) = Some k /\ In d2 (flat t) /\ key d2 = k /\ tag d2 = TEl EStop.
Proof.
  intros t W O. assert (N := wf_keys t W). split; [|split].
  - apply WF_remove_nodes; [exact W|now apply stop_keys_not_root].
  - rewrite remove_stops_eq by exact N. eapply sublist_trans; [apply keys_prune_sublist|]. rewrite keys_unlink. apply sublist_refl.
  - intros d Hd Tg. rewrite remove_stops_eq by exact N. set (K := stop_keys t). set (R := below (mem_key K) t).
    exists (unlink_data R d). split; [|split; [apply sn_with|]].
    + unfold pruned. apply prune_flat; [now rewrite keys_unlink|]. split; [rewrite unlink_eq, flat_tmap; now apply in_map|].
      rewrite <- (below_in (mem_key K)), unlink_eq, below_tmap by reflexivity. change (key (unlink_data R d)) with (key d).
      intros H. apply below_in in H. destruct H as (s & Hs & Hp & Hk). unfold mem_key in Hp. apply mem_in in Hp.
      destruct (stop_keys_stop t s N O (in_kids_subs s t Hs) Hp) as [T1 T2]. destruct s as [ds cs]. cbn in T1, T2. subst cs. cbn in Hk.
      destruct Hk as [Hk|[]]. apply Tg. assert (d = ds); [|subst; exact T1]. apply (data_unique t); auto. apply (in_subs_flat (T ds []) t); [now apply in_kids_subs|now left].
    + intros a Ha. destruct (existsb (fun k => refers k a) R) eqn:E.
      * right. apply refers_mem in E. destruct E as (k & L & Hk). unfold R in Hk. apply below_in in Hk. destruct Hk as (s & Hs & Hp & Hk).
        unfold mem_key in Hp. apply mem_in in Hp. destruct (stop_keys_stop t s N O (in_kids_subs s t Hs) Hp) as [T1 T2]. destruct s as [ds cs].
        cbn in T1, T2. subst cs. cbn in Hk. destruct Hk as [Hk|[]]. exists k, ds. repeat split; auto.
        apply (in_subs_flat (T ds []) t); [now apply in_kids_subs|now left].
      * left. apply filter_In. split; [exact Ha|]. now rewrite E.
Qed.
Print Assumptions C20_only_stops_removed.
Definition repeated_doc : tree :=
  doc [el 1 ESvg [] [el 2 ELinearGradient [] [el 3 EStop [at_ AOffset (px 0)] []; el 4 EStop [at_ AOffset (px 0)] []; el 5 EStop [at_ AOffset (px 1)] []]]].
Example C20_instance : WF repeated_doc /\ WFA repeated_doc /\ only_stops repeated_doc /\ keys (remove_invalid_stops repeated_doc) = [0; 1; 2; 3; 5].
Proof.
  split; [|split; [|split; [|reflexivity]]].
  - constructor; [repeat constructor; cbn; intuition discriminate|cbn; contradiction].
  - unfold WFA. cbn. repeat constructor; cbn; intuition.
  - intros s c Hs G Hc. unfold gradient in G. cbn in Hs. repeat (destruct Hs as [<-|Hs]; [try (destruct G; discriminate)|]); [|contradiction..].
    cbn in Hc. repeat (destruct Hc as [<-|Hc]; [auto|]). contradiction.
Qed.
(** The condition on children is needed: children that are not stops are compared as well, after
    stop resolution has given them stop attributes, so the first stop is lost here. *)
Theorem C20_other_children_refuted : exists t t1 s s', resolve_stop_attributes t = Ok t1 /\ In s (subs t1) /\ gradient s /\
  In s' (subs (remove_invalid_stops t1)) /\ root_key s' = root_key s /\ List.length (own_stops s) = 2 /\ List.length (own_stops s') = 1.
Proof.
  pose (t := doc [el 1 ESvg [] [el 2 ELinearGradient [] [el 3 ETitle [] []; el 4 EStop [at_ AOffset (px 0)] []; el 5 EStop [at_ AOffset (px 1)] []]]]).
  destruct (resolve_stop_attributes t) as [t1|e|] eqn:E; [|discriminate E|discriminate E].
  exists t, t1. destruct (find_sub 2 t1) as [s|] eqn:F1; [|injection E as <-; discriminate F1].
  destruct (find_sub 2 (remove_invalid_stops t1)) as [s'|] eqn:F2; [|injection E as <-; vm_compute in F2; discriminate F2].
  exists s, s'. assert (F1' := F1). assert (F2' := F2). apply find_sub_some in F1', F2'. split; [exact E|]. split; [apply F1'|].
  injection E as <-. injection F1 as <-. split; [left; reflexivity|]. split; [apply F2'|]. split; [now rewrite (proj2 F2')|].
  split; [reflexivity|]. assert (X : option_map (fun s => List.length (own_stops s)) (Some s') = Some 1) by (rewrite <- F2; vm_compute; reflexivity).
  now injection X.
Qed.
