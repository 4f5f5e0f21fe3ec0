(** Moving children into a new group, or to the end of their parent. *)
From Coq Require Import List Bool NArith Arith ZArith String Lia QArith Qcanon Permutation.
From Verif Require Import Names Num Value Dom DomFacts DomOps Outcome Move MoveFacts SpecDom SpecStyle SpecText Visit SpecPaint PaintFacts Img UseProofs UseStep UseEnd Push Melt SpecUse SpecUngroup UngroupKeep UngroupEnd Wrap GroupDefsEnd GroupStyle SpecGroupStyle SpecStops SpecShading Shading.
Import ListNotations.
Local Open Scope nat_scope.

Definition svg (c : tree) : bool := is_svg_el (data c).
Lemma svg_painted c : painted_el (data c) -> svg c = true. Proof. apply is_svg_painted. Qed.
Lemma unsvg_paint uu t m anc s p : svg s = false -> paint uu t m anc s p -> p = [].
Proof.
  intros E P. assert (X : ~ painted_el (data s)) by (intros Q; apply svg_painted in Q; congruence). inversion P; subst; [reflexivity|..]; exfalso; apply X; cbn; unfold painted_el; tauto.
Qed.

(** Only the SVG elements among children are painted. *)
Lemma paints_svg uu t m anc l : forall p, paints uu t m anc l p <-> paints uu t m anc (filter svg l) p.
Proof.
  induction l as [|s l IH]; intros p; [reflexivity|]. cbn [filter]. destruct (svg s) eqn:E.
  - split; intros H; inversion H; subst; constructor; auto; now apply IH.
  - rewrite <- IH. split; intros H.
    + inversion H; subst. match goal with X : paint _ _ _ _ s _ |- _ => apply (unsvg_paint _ _ _ _ _ _ E) in X; subst end. assumption.
    + change p with ([] ++ p). constructor; [|exact H]. apply p_hidden. left. intros Q. apply svg_painted in Q. congruence.
Qed.
Lemma paints_app_inv uu t m anc l1 : forall l2 p, paints uu t m anc (l1 ++ l2) p -> exists p1 p2, p = p1 ++ p2 /\ paints uu t m anc l1 p1 /\ paints uu t m anc l2 p2.
Proof.
  induction l1 as [|s l1 IH]; intros l2 p H; [exists [], p; split; [reflexivity|split; [constructor|exact H]]|]. cbn in H. inversion H; subst. match goal with X : paints _ _ _ _ (l1 ++ l2) _ |- _ => apply IH in X; destruct X as (p1 & p2 & -> & A & B) end.
  eexists (_ ++ p1), p2. split; [apply app_assoc|]. split; [constructor; eassumption|exact B].
Qed.

(** Keys, tags and the order of children; nothing of this changes, except in the nodes [D]. *)
Definition skel (s : tree) : list (nat * tagt) := map (fun c => (root_key c, tag (data c))) (kids s).
Definition frame (D : nat -> Prop) (t t' : tree) : Prop :=
  forall s, In s (subs t) -> ~ D (root_key s) -> exists s', In s' (subs t') /\ root_key s' = root_key s /\ tag (data s') = tag (data s) /\ skel s' = skel s.
Lemma frame_refl D t : frame D t t. Proof. intros s Hs _. exists s. auto. Qed.
Lemma frame_weaken (D D' : nat -> Prop) t t' : frame D t t' -> (forall k, In k (keys t) -> D k -> D' k) -> frame D' t t'.
Proof. intros F H s Hs Nd. apply F; [exact Hs|]. intros X. apply Nd. apply H; [exact (key_in_sub _ _ Hs)|exact X]. Qed.
Lemma frame_trans D t t1 t2 : frame D t t1 -> frame D t1 t2 -> frame D t t2.
Proof. intros F1 F2 s Hs Nd. destruct (F1 s Hs Nd) as (s1 & H1 & K1 & T1 & S1). destruct (F2 s1 H1) as (s2 & H2 & K2 & T2 & S2); [now rewrite K1|]. exists s2. repeat split; congruence. Qed.
Lemma frame_tmap D f t : (forall d, key (f d) = key d) -> (forall d, tag (f d) = tag d) -> frame D t (tmap f t).
Proof.
  intros K Tg s Hs _. exists (tmap f s). split; [rewrite subs_tmap; now apply in_map|]. unfold root_key at 1. rewrite !data_tmap, K, Tg. repeat split. unfold skel. rewrite kids_tmap, map_map. apply map_ext. intros c. unfold root_key. now rewrite data_tmap, K, Tg.
Qed.

Section SWrap.
  Variable uu : aid -> len -> Qc.
  Variables t P : tree.
  Variable arr : list tree -> list tree.
  Variable extra : list ndata.
  Let ch' := arr (kids P).
  Let w := wrapped P arr.
  Let t' := w t.
  Hypothesis R : sready t.
  Hypothesis HP : In P (subs t).
  Hypothesis TP : holder (data P).
  Hypothesis Perm : Permutation (flat_map flat ch') (extra ++ flat_map flat (kids P)).
  Hypothesis New : forall d, In d extra -> ~ In (key d) (keys t).
  Hypothesis Nx : NoDup (map key extra).
  Hypothesis Bare : forall d, In d extra -> tag d = TEl EG /\ nid d = EmptyString /\ attrs d = [].
  Hypothesis Has : forall d, In d extra -> exists g, In g ch' /\ data g = d.
  Hypothesis Paints : forall m anc p, paints uu t' m (data P :: anc) (kids P) p -> exists p', paints uu t' m (data P :: anc) ch' p' /\ same p p'.
  Hypothesis Cover : forall c, In c (kids P) -> In c ch' \/ tag (data c) <> TEl EDefs /\ exists g, In g ch' /\ In c (kids g) /\ In (data g) extra.
  Let N := wf_keys t (s_wf t R).

  Lemma bare_plain d : In d extra -> plain d.
  Proof. intros H. destruct (Bare d H) as (_ & _ & A). unfold plain, displayed, opacity_of, effects, ts_of, given, d_get, get_value, get_attr. rewrite A. cbn. repeat split; auto. discriminate. Qed.
  Lemma sw_links d k : In d (flat t) -> refers_to d k -> In k (keys t).
  Proof. intros Hd (x & Hx & E). apply (wf_links t (s_wf t R)). apply targets_in. eauto. Qed.
  Lemma sw_place a p : In (a, P) (places [] t) -> In p a -> ~ shape_el p. Proof. intros H. apply (s_shape t R a P p H). exact TP. Qed.
  Lemma sw_cover c : In c (kids P) -> In c ch' \/ exists g, In g ch' /\ In c (kids g) /\ plain (data g) /\ In (data g) extra.
  Proof. intros Hc. destruct (Cover c Hc) as [H|(_ & g & A & B & C)]; [now left|right]. exists g. auto using bare_plain. Qed.
  Lemma sw_drawing : same_drawing uu t t'.
  Proof. exact (wrap_drawing uu t P arr extra N sw_links HP TP sw_place Perm Paints sw_cover (s_root t R)). Qed.
  Lemma sw_flat d : In d (flat t') <-> In d extra \/ In d (flat t). Proof. exact (w_flat t P arr extra N HP Perm d). Qed.
  Lemma sw_key k : In k (keys t') <-> In k (map key extra) \/ In k (keys t). Proof. exact (w_key t P arr extra N HP Perm k). Qed.
  Lemma sw_nodup : NoDup (keys t'). Proof. exact (w_nodup t P arr extra N HP Perm New Nx). Qed.
  Lemma sw_sub s : In s (subs t) -> In (w s) (subs t'). Proof. exact (w_sub t P arr extra N HP sw_cover s). Qed.
  Lemma sw_frame : frame (eq (root_key P)) t t'.
  Proof.
    intros s Hs Ne. exists (w s). split; [now apply sw_sub|]. unfold w at 1 2. rewrite w_root, w_data. repeat split. unfold skel, w. rewrite w_split by (intros E; apply Ne; now rewrite E). cbn [kids]. rewrite map_map. apply map_ext. intros c. now rewrite w_root, w_data.
  Qed.
  Lemma sw_shades : shades_kept t t'.
  Proof.
    intros s Hs G O. exists (w s). split; [now apply sw_sub|]. unfold w. rewrite w_data. split; [apply alike_shade_refl|].
    assert (Ne : root_key s <> root_key P). { intros E. assert (s = P) by (apply (sub_unique t); auto). subst s. destruct G as [G|G], TP as [Q|Q]; congruence. }
    rewrite (w_split P arr s Ne). cbn [kids]. rewrite map_map. clear. induction (kids s) as [|c l IH]; constructor; [rewrite w_data; apply alike_shade_refl|exact IH].
  Qed.
  Lemma sw_P : In (T (data P) ch') (subs t'). Proof. unfold ch'. rewrite <- (w_P P arr). exact (sw_sub P HP). Qed.
  Lemma sw_ref k : referenced t' k <-> referenced t k.
  Proof.
    split; intros (d & Hd & x & Hx & E).
    - apply sw_flat in Hd. destruct Hd as [Hd|Hd]; [destruct (Bare d Hd) as (_ & _ & A); rewrite A in Hx; destruct Hx|]. exists d. split; [exact Hd|]. exists x. auto.
    - exists d. split; [apply sw_flat; now right|]. exists x. auto.
  Qed.
  Lemma sw_back a' s' : In (a', s') (places [] t') -> In (root_key s') (keys t) -> exists a s, In (a, s) (places [] t) /\ s' = w s /\ deeper P extra a a'.
  Proof. exact (w_back t P arr extra N HP Perm New Nx sw_cover a' s'). Qed.
  Lemma sw_dec s' : In s' (subs t') -> In (root_key s') (keys t) \/ In (data s') extra.
  Proof. intros H. apply data_of_sub in H. apply sw_flat in H. destruct H as [H|H]; [now right|left]. unfold root_key. now apply in_map. Qed.
  Lemma deeper_in a a' p : deeper P extra a a' -> In p a' -> In p a \/ In p extra.
  Proof. intros [->|(b & aP & dg & -> & -> & I & _)] H; [now left|]. apply in_app_or in H. rewrite in_app_iff. cbn in *. intuition (subst; auto). Qed.
  Lemma w_inside s d : In s (subs t) -> In d (inside (w s)) -> In d extra \/ In d (inside s).
  Proof.
    intros Hs H. assert (Q : In (key d) (keys (w s)) -> True) by auto. unfold inside in H.
    assert (G : forall x, In x (subs t) -> forall d, In d (flat (w x)) -> In d extra \/ In d (flat x)).
    { clear - R HP Perm N. induction x as [dx cx IH] using tree_ind'. rewrite Forall_forall in IH. intros Hx d Hd. destruct (Nat.eq_dec (key dx) (root_key P)) as [E|E].
      - assert (X : T dx cx = P) by (apply (w_is_P t P N HP); auto). rewrite X in *. unfold w in Hd. rewrite w_P in Hd. destruct Hd as [Hd|Hd]; [right; rewrite <- Hd; apply flat_self|]. apply (Permutation_in _ Perm) in Hd. apply in_app_or in Hd. destruct Hd as [Hd|Hd]; [now left|right]. rewrite (tree_split P). now right.
      - unfold w in *. rewrite w_T in Hd by exact E. destruct Hd as [Hd|Hd]; [right; now left|]. apply in_flat_map in Hd. destruct Hd as (c' & Hc' & Hd). apply in_map_iff in Hc'. destruct Hc' as (c & <- & Hc). destruct (IH c Hc (kid_sub _ c t Hx Hc) d Hd) as [K|K]; [now left|right]. right. apply in_flat_map. eauto. }
    destruct (w_dec t P N HP s Hs) as [->|E].
    - unfold w in H. rewrite w_P in H. cbn [kids] in H. apply (Permutation_in _ Perm) in H. apply in_app_or in H. exact H.
    - unfold w in H. rewrite w_split in H by exact E. cbn [kids] in H. apply in_flat_map in H. destruct H as (c' & Hc' & H). apply in_map_iff in Hc'. destruct Hc' as (c & <- & Hc). destruct (G c (kid_sub _ c t Hs Hc) d H) as [K|K]; [now left|right]. apply in_flat_map. eauto.
  Qed.
  Lemma sw_ready : sready t'.
  Proof.
    destruct (sub_place P t [] HP) as (aP & PP). destruct (w_places t P arr extra N HP sw_cover t (subs_self t) [] aP P PP) as (aP' & PP' & DP). fold w in PP'. unfold w in PP'. rewrite w_P in PP'. fold ch' in PP'. fold w t' in PP'.
    assert (NP : forall a' g, In (a', g) (places [] t') -> In (data g) extra -> a' = data P :: aP').
    { intros a' g Q E. destruct (Has _ E) as (g2 & Hg & Eg). pose proof (place_kid t' [] aP' _ g2 PP' Hg) as Q2. cbn [data] in Q2. assert (Z : (a', g) = (data P :: aP', g2)) by (apply (place_unique t' []); auto using sw_nodup; cbn; unfold root_key; now rewrite Eg). now inversion Z. }
    assert (Sh : forall d, In d extra -> ~ shape_el d). { intros d Hd (e & E & I). destruct (Bare d Hd) as (T1 & _ & _). rewrite T1 in E. inversion E; subst. cbn in I. intuition discriminate. }
    split.
    - split; [exact sw_nodup|]. intros k Hk. apply targets_in in Hk. destruct Hk as (d & x & Hd & Hx & E). apply sw_key. right. apply sw_flat in Hd. destruct Hd as [Hd|Hd]; [destruct (Bare d Hd) as (_ & _ & A); rewrite A in Hx; destruct Hx|]. apply (sw_links d); [exact Hd|exists x; auto].
    - apply Forall_forall. intros d Hd. apply sw_flat in Hd. destruct Hd as [Hd|Hd]; [destruct (Bare d Hd) as (_ & _ & A); unfold attrs_nodup; rewrite A; constructor|]. exact (proj1 (Forall_forall _ _) (s_wfa t R) d Hd).
    - unfold t', w, wrapped. rewrite data_set_kids. apply (s_root t R).
    - destruct (s_svg t R) as (s & E & U). exists (w s). split; [exact (w_svg t P arr N HP TP (s_root t R) s E)|]. unfold w. rewrite w_root. intros X. apply U. now apply sw_ref.
    - intros d n Hd Hn Rf. apply sw_flat in Hd. destruct Hd as [Hd|Hd]; [destruct Rf as (x & Hx & _); destruct (Bare d Hd) as (_ & _ & A); rewrite A in Hx; destruct Hx|].
      assert (Hn2 : In n (flat t)). { apply sw_flat in Hn. destruct Hn as [Hn|Hn]; [|exact Hn]. exfalso. apply (New n Hn). now apply (sw_links d). }
      destruct (s_ids t R d n Hd Hn2 Rf) as (A & B). split; [exact A|]. intros x Hx E. apply sw_flat in Hx. destruct Hx as [Hx|Hx]; [|auto]. destruct (Bare x Hx) as (_ & C & _). congruence.
    - intros a s p Q Hh Hp. destruct (sw_dec s (place_sub _ _ _ _ Q)) as [K|K].
      + destruct (sw_back a s Q K) as (a0 & s0 & Q0 & -> & D). destruct (deeper_in _ _ _ D Hp) as [I|I]; [|now apply Sh]. apply (s_shape t R a0 s0 p); auto. unfold w in Hh. now rewrite w_data in Hh.
      + pose proof (NP a s Q K) as Ea. subst a. destruct Hp as [<-|Hp].
        * intros (e & E & I). destruct TP as [Z|Z]; rewrite Z in E; inversion E; subst; cbn in I; intuition discriminate.
        * destruct (deeper_in _ _ _ DP Hp) as [I|I]; [|now apply Sh]. exact (s_shape t R aP P p PP TP I).
    - intros d v Hd E. apply sw_flat in Hd. destruct Hd as [Hd|Hd]; [|now apply (s_trans t R d)]. destruct (Bare d Hd) as (_ & _ & A). unfold d_get, get_value, get_attr in E. rewrite A in E. discriminate.
    - intros d a v Hd Tg Ha E. apply sw_flat in Hd. destruct Hd as [Hd|Hd]; [|now apply (s_effects t R d a)]. destruct (Bare d Hd) as (_ & _ & A). unfold d_get, get_value, get_attr in E. rewrite A in E. discriminate.
    - intros a s Q Rs. destruct (sw_dec s (place_sub _ _ _ _ Q)) as [K|K]; [|exfalso; destruct (Bare _ K) as (T1 & _); destruct Rs as (e & E & I); rewrite T1 in E; inversion E; subst; cbn in I; intuition discriminate].
      destruct (sw_back a s Q K) as (a0 & s0 & Q0 & -> & D). unfold w in Rs. rewrite w_data in Rs. destruct (s_res t R a0 s0 Q0 Rs) as (A & B). split.
      + intros p b E. destruct D as [->|(b0 & aP2 & dg & -> & -> & _)]; [now apply (A p b)|]. destruct b0 as [|y b0]; cbn in *; inversion E; subst; [|now apply (A p (b0 ++ data P :: aP2))]. exfalso. now apply (A (data P) aP2 eq_refl).
      + intros p Hp. destruct (deeper_in _ _ _ D Hp) as [I|I]; [unfold t', w; rewrite w_data; now apply B|]. right. exists EG. now apply Bare.
    - intros d Hd E. apply sw_flat in Hd. destruct Hd as [Hd|Hd]; [|now apply (s_viewts t R)]. destruct (Bare d Hd) as (T1 & _). congruence.
    - intros s Hs E. destruct (sw_dec s Hs) as [K|K]; [|destruct (Bare _ K) as (T1 & _); congruence]. destruct (sub_place s t' [] Hs) as (a & Q). destruct (sw_back a s Q K) as (a0 & s0 & Q0 & -> & D). pose proof (place_sub _ _ _ _ Q0) as Hs0. unfold w in E. rewrite w_data in E.
      destruct (s_views t R s0 Hs0 E) as [(c & Hc & Tc)|H].
      + left. destruct (w_dec t P N HP s0 Hs0) as [->|Ne].
        * unfold w. rewrite w_P. cbn [kids]. destruct (Cover c Hc) as [I|(X & _)]; [exists c; auto|contradiction].
        * unfold w. rewrite w_split by exact Ne. cbn [kids]. exists (w c). split; [now apply in_map|]. unfold w. now rewrite w_data.
      + right. intros d Hd. destruct (w_inside s0 d Hs0 Hd) as [I|I]; [|now apply H]. destruct (Bare d I) as (_ & _ & A). unfold d_get, get_value, get_attr. now rewrite A.
  Qed.
  Lemma sw_kept : only_groups_added t t'.
  Proof.
    split.
    - intros d Hd. exists d. split; [apply sw_flat; now right|auto].
    - intros d Hd. apply sw_flat in Hd. destruct Hd as [Hd|Hd]; [right; destruct (Bare d Hd) as (A & B & _); auto|left]. now apply in_map.
  Qed.
End SWrap.

(** ** Selected children *)
Definition slice (ns : list nat) (ch : list tree) : Prop := exists B1 A B2, ch = B1 ++ A ++ B2 /\ ns = map root_key (filter svg A).
Lemma among_in ks k : among ks k = true <-> In k ks.
Proof. unfold among. rewrite existsb_exists. split; [intros (x & H & E); apply Nat.eqb_eq in E; now subst|intros H; exists k; split; [exact H|apply Nat.eqb_refl]]. Qed.
Lemma key_inj ch c c' : NoDup (map root_key ch) -> In c ch -> In c' ch -> root_key c = root_key c' -> c = c'.
Proof.
  induction ch as [|x ch IH]; [intros _ []|]. cbn. intros N. apply NoDup_cons_iff in N. destruct N as [N1 N2]. intros [->|K1] [->|K2] E; auto.
  - exfalso. apply N1. rewrite E. now apply in_map.
  - exfalso. apply N1. rewrite <- E. now apply in_map.
Qed.
Lemma picked_iff ns ch B1 A B2 c : NoDup (map root_key ch) -> ch = B1 ++ A ++ B2 -> ns = map root_key (filter svg A) -> In c ch -> (picked ns c = true <-> In c A /\ svg c = true).
Proof.
  intros N E En Hc. unfold picked. rewrite among_in, En, in_map_iff. split.
  - intros (x & K & Hx). apply filter_In in Hx. assert (x = c) by (apply (key_inj ch); auto; rewrite E, !in_app_iff; tauto). subst x. tauto.
  - intros H. exists c. split; [reflexivity|]. now apply filter_In.
Qed.
Lemma filter_none {A} (f : A -> bool) l : (forall x, In x l -> f x = false) -> filter f l = [].
Proof. induction l as [|x l IH]; [auto|]. cbn. intros H. rewrite (H x (or_introl eq_refl)). apply IH. auto. Qed.
Lemma filter_all_id {A} (f : A -> bool) l : (forall x, In x l -> f x = true) -> filter f l = l.
Proof. induction l as [|x l IH]; [auto|]. cbn. intros H. rewrite (H x (or_introl eq_refl)). f_equal. apply IH. auto. Qed.
Lemma filter_ext_in' {A} (f g : A -> bool) l : (forall x, In x l -> f x = g x) -> filter f l = filter g l.
Proof. induction l as [|x l IH]; [auto|]. cbn. intros H. rewrite (H x (or_introl eq_refl)). rewrite IH by auto. reflexivity. Qed.
Lemma filter_perm {A} (f : A -> bool) l : Permutation (filter (fun x => negb (f x)) l ++ filter f l) l.
Proof. induction l as [|x l IH]; [reflexivity|]. cbn. destruct (f x); cbn; [apply Permutation_sym, Permutation_cons_app, Permutation_sym, IH|now apply perm_skip]. Qed.
Lemma pull_skip ns g B r : (forall c, In c B -> picked ns c = false) -> pull ns g (B ++ r) = B ++ pull ns g r.
Proof. induction B as [|c B IH]; [auto|]. cbn [app pull]. intros H. rewrite (H c (or_introl eq_refl)). f_equal. apply IH. intros x Hx. apply H. now right. Qed.
Lemma filter_first {A} (f : A -> bool) l : filter f l <> [] -> exists l0 x l1, l = l0 ++ x :: l1 /\ filter f l0 = [] /\ f x = true.
Proof.
  induction l as [|x l IH]; [intros H; now destruct H|]. cbn. destruct (f x) eqn:E; [intros _; exists [], x, l; auto|]. intros H. destruct (IH H) as (l0 & y & l1 & -> & A1 & A2). exists (x :: l0), y, l1. cbn. rewrite E. auto.
Qed.
Lemma filter_nil_false {A} (f : A -> bool) l x : filter f l = [] -> In x l -> f x = false.
Proof. intros H Hx. destruct (f x) eqn:E; [|reflexivity]. assert (K : In x (filter f l)) by (apply filter_In; auto). rewrite H in K. destruct K. Qed.
Definition new_group (g : nat) : ndata := ND g (TEl EG) EmptyString [].
Lemma pull_spec ns g ch B1 A B2 : NoDup (map root_key ch) -> ch = B1 ++ A ++ B2 -> ns = map root_key (filter svg A) -> ns <> [] ->
  exists C1 C2, pull ns g ch = C1 ++ T (new_group g) (filter svg A) :: C2 /\ filter svg C1 = filter svg B1 /\ filter svg C2 = filter svg B2 /\ Permutation (C1 ++ C2 ++ filter svg A) ch.
Proof.
  intros N E En Ne. pose proof (fun c => picked_iff ns ch B1 A B2 c N E En) as PI.
  assert (Nf : filter svg A <> []) by (intros X; apply Ne; now rewrite En, X). destruct (filter_first _ _ Nf) as (A0 & c & A1 & EA & F0 & Sc).
  assert (D : forall l1 x l2 y l3, ch = l1 ++ x :: l2 ++ y :: l3 -> x <> y).
  { intros l1 x l2 y l3 Ec <-. rewrite Ec, map_app in N. cbn in N. apply NoDup_remove_2 in N. apply N. rewrite in_app_iff, map_app, in_app_iff. cbn. auto. }
  assert (PB1 : forall x, In x B1 -> picked ns x = false).
  { intros x Hx. destruct (picked ns x) eqn:P; [|reflexivity]. assert (Hc : In x ch) by (rewrite E; apply in_or_app; now left). apply (PI x Hc) in P. destruct P as [Px _]. exfalso. apply in_split in Hx. destruct Hx as (u1 & u2 & ->). apply in_split in Px. destruct Px as (v1 & v2 & ->). apply (D u1 x (u2 ++ v1) x (v2 ++ B2)); [|reflexivity]. rewrite E. rewrite <- ?app_assoc. cbn. rewrite <- ?app_assoc. reflexivity. }
  assert (PB2 : forall x, In x B2 -> picked ns x = false).
  { intros x Hx. destruct (picked ns x) eqn:P; [|reflexivity]. assert (Hc : In x ch) by (rewrite E; rewrite !in_app_iff; tauto). apply (PI x Hc) in P. destruct P as [Px _]. exfalso. apply in_split in Hx. destruct Hx as (u1 & u2 & ->). apply in_split in Px. destruct Px as (v1 & v2 & ->). apply (D (B1 ++ v1) x (v2 ++ u1) x u2); [|reflexivity]. rewrite E. rewrite <- ?app_assoc. cbn. rewrite <- ?app_assoc. reflexivity. }
  assert (PA : forall x, In x A -> picked ns x = svg x).
  { intros x Hx. assert (Hc : In x ch) by (rewrite E; rewrite !in_app_iff; tauto). pose proof (PI x Hc) as Z. destruct (svg x); [apply Z; auto|]. destruct (picked ns x); [|reflexivity]. destruct (proj1 Z eq_refl). congruence. }
  exists (B1 ++ A0), (filter (fun x => negb (svg x)) A1 ++ B2). assert (Pull : pull ns g ch = (B1 ++ A0) ++ T (new_group g) (filter svg A) :: filter (fun x => negb (svg x)) A1 ++ B2).
  { rewrite E, EA. rewrite <- app_assoc. rewrite app_assoc. rewrite pull_skip.
    - cbn [app pull]. f_equal. rewrite (PA c) by (rewrite EA; apply in_or_app; right; now left). rewrite Sc. f_equal.
      + unfold new_group. f_equal. rewrite filter_app, F0. cbn [app filter]. rewrite (PA c) by (rewrite EA; apply in_or_app; right; now left). rewrite Sc. f_equal. rewrite filter_app, (filter_none _ B2), app_nil_r by auto. apply filter_ext_in'. intros x Hx. apply PA. rewrite EA. apply in_or_app. right. now right.
      + rewrite filter_app. f_equal; [apply filter_ext_in'; intros x Hx; f_equal; apply PA; rewrite EA; apply in_or_app; right; now right|]. apply filter_all_id. intros x Hx. now rewrite PB2.
    - intros x Hx. apply in_app_or in Hx. destruct Hx as [Hx|Hx]; [now apply PB1|]. rewrite PA by (rewrite EA; apply in_or_app; now left). exact (filter_nil_false _ _ _ F0 Hx). }
  split; [exact Pull|]. split; [rewrite filter_app, F0; apply app_nil_r|]. split.
  - rewrite filter_app. rewrite (filter_none svg (filter _ A1)); [reflexivity|]. intros x Hx. apply filter_In in Hx. destruct Hx as [_ Hx]. now apply negb_true_iff in Hx.
  - rewrite E, EA. rewrite <- !app_assoc. apply Permutation_app_head, Permutation_app_head. rewrite filter_app, F0. cbn [app filter]. rewrite Sc. pose proof (filter_perm svg A1) as FP. rewrite app_assoc. eapply Permutation_trans; [apply Permutation_sym, Permutation_middle|]. apply perm_skip. rewrite <- app_assoc. eapply Permutation_trans; [apply Permutation_app_head, Permutation_app_comm|]. rewrite app_assoc. now apply Permutation_app_tail.
Qed.
Lemma kids_nodup t P : NoDup (keys t) -> In P (subs t) -> NoDup (map root_key (kids P)).
Proof. intros N H. pose proof (sub_NoDup P t N H) as Np. rewrite keys_split in Np. inversion Np as [|? ? _ N2]; subst. clear - N2. induction (kids P) as [|c l IH]; [constructor|]. cbn in *. apply NoDup_app_inv in N2. destruct N2 as (N1 & N2 & N3). constructor; [|auto]. intros X. apply in_map_iff in X. destruct X as (y & E & Hy). apply (N3 (root_key c)); [rewrite keys_split; now left|]. apply in_flat_map. exists y. split; [exact Hy|]. rewrite keys_split, E. now left. Qed.

(** What one step keeps. *)
Record step (uu : aid -> len -> Qc) (t t' : tree) : Prop := {
  st_ready : sready t';
  st_drawing : same_drawing uu t t';
  st_kept : only_groups_added t t';
  st_ref : forall k, referenced t' k -> referenced t k;
  st_shades : shades_kept t t'
}.
Lemma step_refl uu t : sready t -> step uu t t.
Proof. intros R. split; [exact R|apply same_drawing_refl|split; [intros d Hd; exists d; auto|intros d Hd; left; now apply in_map]|auto|apply shades_refl]. Qed.
Lemma step_trans uu a b c : step uu a b -> step uu b c -> step uu a c.
Proof.
  intros H1 H2. split; [apply (st_ready _ _ _ H2)|exact (same_drawing_trans _ _ _ _ (st_drawing _ _ _ H1) (st_drawing _ _ _ H2))| |intros k Hk; apply (st_ref _ _ _ H1); now apply (st_ref _ _ _ H2)|exact (shades_trans _ _ _ (st_shades _ _ _ H1) (st_shades _ _ _ H2))].
  destruct (st_kept _ _ _ H1) as (A1 & A2), (st_kept _ _ _ H2) as (B1 & B2). split.
  - intros d Hd. destruct (A1 d Hd) as (d1 & Hd1 & K1 & T1 & I1). destruct (B1 d1 Hd1) as (d2 & Hd2 & K2 & T2 & I2). exists d2. repeat split; congruence.
  - intros d Hd. destruct (B2 d Hd) as [K|K]; [|now right]. unfold keys in K. apply in_map_iff in K. destruct K as (d1 & Ek & Hd1). destruct (B1 d1 Hd1) as (d2 & Hd2 & K2 & T2 & I2). assert (d2 = d) by (apply (data_unique c); auto; [exact (wf_keys _ (s_wf _ (st_ready _ _ _ H2)))|congruence]). subst d2. destruct (A2 d1 Hd1) as [Q|(Q1 & Q2)]; [left; congruence|right; split; congruence].
Qed.

Lemma flat_map_perm {A B} (f : A -> list B) l l' : Permutation l l' -> Permutation (flat_map f l) (flat_map f l'). Proof. apply Permutation_flat_map. Qed.
Lemma gather_ok uu t P ns : sready t -> In P (subs t) -> holder (data P) -> slice ns (kids P) -> ns <> [] ->
  (forall c, In c (kids P) -> picked ns c = true -> tag (data c) <> TEl EDefs) ->
  let t' := gather (root_key P) ns (fresh t) t in
  step uu t t' /\ In (T (data P) (pull ns (fresh t) (kids P))) (subs t') /\ In (T (new_group (fresh t)) (filter (picked ns) (kids P))) (pull ns (fresh t) (kids P)) /\ frame (eq (root_key P)) t t' /\
  (forall s', In s' (subs t') -> In (root_key s') (keys t) \/ root_key s' = fresh t).
Proof.
  intros R HP TP (B1 & A & B2 & E & En) Ne Nd t'. pose proof (wf_keys t (s_wf t R)) as N. pose proof (kids_nodup t P N HP) as Nk. destruct (pull_spec ns (fresh t) (kids P) B1 A B2 Nk E En Ne) as (C1 & C2 & Pu & F1 & F2 & Pm).
  set (dg := new_group (fresh t)) in *. set (arr := pull ns (fresh t)) in *. assert (Ft : filter (picked ns) (kids P) = filter svg A).
  { rewrite E at 1. rewrite !filter_app. rewrite (filter_none (picked ns) B1), (filter_none (picked ns) B2), app_nil_r.
    - cbn. apply filter_ext_in'. intros x Hx. assert (Hc : In x (kids P)) by (rewrite E, !in_app_iff; tauto). pose proof (picked_iff ns (kids P) B1 A B2 x Nk E En Hc) as Z. destruct (svg x); [apply Z; auto|]. destruct (picked ns x); [|reflexivity]. destruct (proj1 Z eq_refl). congruence.
    - intros x Hx. destruct (picked ns x) eqn:Q; [exfalso|reflexivity]. assert (Hc : In x (kids P)) by (rewrite E, !in_app_iff; tauto). apply (picked_iff ns (kids P) B1 A B2 x Nk E En Hc) in Q. destruct Q as [Q _]. rewrite E, app_assoc, map_app in Nk. apply NoDup_app_inv in Nk. destruct Nk as (_ & _ & D). apply (D (root_key x)); apply in_map; [apply in_or_app; now right|exact Hx].
    - intros x Hx. destruct (picked ns x) eqn:Q; [exfalso|reflexivity]. assert (Hc : In x (kids P)) by (rewrite E, !in_app_iff; tauto). apply (picked_iff ns (kids P) B1 A B2 x Nk E En Hc) in Q. destruct Q as [Q _]. rewrite E, map_app in Nk. apply NoDup_app_inv in Nk. destruct Nk as (_ & _ & D). apply (D (root_key x)); apply in_map; [exact Hx|apply in_or_app; now left]. }
  assert (Q1 : Permutation (flat_map flat (arr (kids P))) ([dg] ++ flat_map flat (kids P))).
  { rewrite Pu. apply (flat_map_perm flat) in Pm. rewrite !flat_map_app in Pm. rewrite flat_map_app. cbn [flat_map flat]. cbn [app]. eapply Permutation_trans; [apply Permutation_sym, Permutation_middle|]. apply perm_skip. eapply Permutation_trans; [|exact Pm]. apply Permutation_app_head. apply Permutation_app_comm. }
  assert (Q2 : forall d, In d [dg] -> ~ In (key d) (keys t)). { intros d [<-|[]]. exact (fresh_not t). }
  assert (Q3 : NoDup (map key [dg])) by (constructor; [intros []|constructor]).
  assert (Q4 : forall d, In d [dg] -> tag d = TEl EG /\ nid d = EmptyString /\ attrs d = []). { intros d [<-|[]]. auto. }
  assert (Q5 : forall d, In d [dg] -> exists g, In g (arr (kids P)) /\ data g = d). { intros d [<-|[]]. rewrite Pu. eexists. split; [apply in_or_app; right; left; reflexivity|reflexivity]. }
  assert (Q6 : forall m anc p, paints uu (wrapped P arr t) m (data P :: anc) (kids P) p -> exists p', paints uu (wrapped P arr t) m (data P :: anc) (arr (kids P)) p' /\ same p p').
  { intros m anc p H. apply (proj1 (paints_svg _ _ _ _ _ _)) in H. rewrite E, !filter_app in H. apply paints_app_inv in H. destruct H as (p1 & q & -> & H1 & H). apply paints_app_inv in H. destruct H as (p2 & p3 & -> & H2 & H3).
    assert (Sd : same_style (data P :: anc) (dg :: data P :: anc)) by (intros a I; cbn; unfold d_get, get_value, get_attr; reflexivity).
    destruct (proj1 (proj2 (paint_style uu (wrapped P arr t))) _ _ _ _ H2 _ Sd) as (p2' & H2' & S2). exists (p1 ++ [PLayer q1 [] m p2'] ++ p3). split.
    - apply (proj2 (paints_svg _ _ _ _ _ _)). rewrite Pu, filter_app. change (filter svg (T dg (filter svg A) :: C2)) with (T dg (filter svg A) :: filter svg C2). rewrite F1, F2. apply paints_app; [exact H1|]. constructor; [|exact H3]. pose proof (p_group uu (wrapped P arr t) m (data P :: anc) dg (filter svg A) p2') as Z. assert (Tz : t_mul m (ts_of dg) = m) by apply t_mul_id_r. rewrite Tz in Z. unfold layer in Z. apply Z; [now left|unfold displayed; discriminate|exact H2'].
    - apply same_app; [apply same_refl|]. apply same_app; [|apply same_refl]. apply (same_trans _ p2'); [exact S2|]. apply same_sym. apply same_plain. }
  assert (Q7 : forall c, In c (kids P) -> In c (arr (kids P)) \/ tag (data c) <> TEl EDefs /\ exists g, In g (arr (kids P)) /\ In c (kids g) /\ In (data g) [dg]).
  { intros c Hc. pose proof (Permutation_in _ (Permutation_sym Pm) Hc) as K. rewrite !in_app_iff in K. rewrite Pu. destruct K as [K|[K|K]]; [left; apply in_or_app; now left|left; apply in_or_app; right; now right|right]. split; [apply Nd; [exact Hc|]; rewrite <- Ft in K; apply filter_In in K; tauto|]. exists (T dg (filter svg A)). split; [apply in_or_app; right; now left|]. split; [exact K|now left]. }
  assert (Et : t' = wrapped P arr t) by reflexivity. split; [|split; [|split; [|split]]].
  - rewrite Et. split.
    + exact (sw_ready t P arr [dg] R HP TP Q1 Q2 Q3 Q4 Q5 Q7).
    + exact (sw_drawing uu t P arr [dg] R HP TP Q1 Q4 Q6 Q7).
    + exact (sw_kept t P arr [dg] R HP Q1 Q4).
    + intros k. apply (sw_ref t P arr [dg] R HP Q1 Q4 k).
    + exact (sw_shades t P arr [dg] R HP TP Q4 Q7).
  - rewrite Et. exact (sw_P t P arr [dg] R HP Q4 Q7).
  - rewrite Pu, Ft. apply in_or_app. right. now left.
  - rewrite Et. exact (sw_frame t P arr [dg] R HP Q4 Q7).
  - rewrite Et. intros s' H. destruct (sw_dec t P arr [dg] R HP Q1 s' H) as [K|[K|[]]]; [now left|right]. unfold root_key. now rewrite <- K.
Qed.
Lemma to_end_ok uu t P ns : sready t -> In P (subs t) -> holder (data P) -> (forall c, In c (kids P) -> picked ns c = svg c) ->
  let t' := to_end (root_key P) ns t in
  step uu t t' /\ In (T (data P) (filter (fun c => negb (svg c)) (kids P) ++ filter svg (kids P))) (subs t') /\ frame (eq (root_key P)) t t' /\ (forall k, In k (keys t') -> In k (keys t)).
Proof.
  intros R HP TP Pk t'. set (arr := fun ch => filter (fun c => negb (picked ns c)) ch ++ filter (picked ns) ch).
  assert (Ea : arr (kids P) = filter (fun c => negb (svg c)) (kids P) ++ filter svg (kids P)). { unfold arr. f_equal; apply filter_ext_in'; intros x Hx; rewrite Pk by exact Hx; reflexivity. }
  assert (Q1 : Permutation (flat_map flat (arr (kids P))) ([] ++ flat_map flat (kids P))) by (apply flat_map_perm, filter_perm).
  assert (Q2 : forall d : ndata, In d [] -> ~ In (key d) (keys t)) by (intros d []).
  assert (Q4 : forall d : ndata, In d [] -> tag d = TEl EG /\ nid d = EmptyString /\ attrs d = []) by (intros d []).
  assert (Q5 : forall d : ndata, In d [] -> exists g, In g (arr (kids P)) /\ data g = d) by (intros d []).
  assert (Q6 : forall m anc p, paints uu (wrapped P arr t) m (data P :: anc) (kids P) p -> exists p', paints uu (wrapped P arr t) m (data P :: anc) (arr (kids P)) p' /\ same p p').
  { intros m anc p H. exists p. split; [|apply same_refl]. apply (proj1 (paints_svg _ _ _ _ _ _)) in H. apply (proj2 (paints_svg _ _ _ _ _ _)). rewrite Ea, filter_app. rewrite (filter_none svg (filter _ _)), (filter_all_id svg (filter svg _)); [exact H| |]; intros x Hx; apply filter_In in Hx; [tauto|]. destruct Hx as [_ Hx]. now apply negb_true_iff in Hx. }
  assert (Q7 : forall c, In c (kids P) -> In c (arr (kids P)) \/ tag (data c) <> TEl EDefs /\ exists g, In g (arr (kids P)) /\ In c (kids g) /\ In (data g) []).
  { intros c Hc. left. apply (Permutation_in _ (Permutation_sym (filter_perm (picked ns) (kids P)))). exact Hc. }
  assert (Et : t' = wrapped P arr t) by reflexivity. split; [|split; [|split]].
  - rewrite Et. split.
    + exact (sw_ready t P arr [] R HP TP Q1 Q2 (NoDup_nil _) Q4 Q5 Q7).
    + exact (sw_drawing uu t P arr [] R HP TP Q1 Q4 Q6 Q7).
    + exact (sw_kept t P arr [] R HP Q1 Q4).
    + intros k. apply (sw_ref t P arr [] R HP Q1 Q4 k).
    + exact (sw_shades t P arr [] R HP TP Q4 Q7).
  - rewrite Et, <- Ea. exact (sw_P t P arr [] R HP Q4 Q7).
  - rewrite Et. exact (sw_frame t P arr [] R HP Q4 Q7).
  - rewrite Et. intros k Hk. apply (sw_key t P arr [] R HP Q1) in Hk. destruct Hk as [[]|Hk]. exact Hk.
Qed.
