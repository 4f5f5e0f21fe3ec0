(** Proofs for Needless.v: what the pass does to every node. *)
From Coq Require Import List Bool NArith Arith ZArith String Lia QArith Qcanon.
From Verif Require Import Names Num Value Dom DomFacts DomOps Outcome DomRemove Stops SpecDom SpecStyle SpecWritten SpecDefaults GradTransProofs RmText SpecText TextProofs Props_text Needless SpecNeedless Visit.
Import ListNotations.
Local Open Scope nat_scope.

Definition same_kind (d d' : ndata) : Prop := key d' = key d /\ tag d' = tag d /\ nid d' = nid d.
Lemma sk_refl d : same_kind d d. Proof. repeat split. Qed.
Lemma sk_trans a b c : same_kind a b -> same_kind b c -> same_kind a c.
Proof. intros (A1 & A2 & A3) (B1 & B2 & B3). repeat split; congruence. Qed.
(** Links are only lost. *)
Definition fewer_links (d d' : ndata) : Prop := incl (node_links d') (node_links d).
Lemma fl_refl d : fewer_links d d. Proof. apply incl_refl. Qed.
Lemma fl_trans a b c : fewer_links a b -> fewer_links b c -> fewer_links a c. Proof. intros H1 H2 x Hx. auto. Qed.
Lemma fl_filter d p : fewer_links d (with_attrs d (filter p (attrs d))).
Proof. intros k Hk. apply node_links_iff in Hk. apply node_links_iff. destruct Hk as (x & Hx & E). cbn in Hx. apply filter_In in Hx. exists x. tauto. Qed.
Lemma fl_rm d a : fewer_links d (d_rm d a). Proof. apply fl_filter. Qed.
Lemma fl_rm_all l : forall d, fewer_links d (rm_all l d).
Proof. induction l as [|a l IH]; intros d; [apply fl_refl|]. eapply fl_trans; [apply (fl_rm d a)|apply IH]. Qed.
Lemma fl_set d a v : link_of v = None -> fewer_links d (d_set d a v).
Proof.
  intros L k Hk. apply node_links_iff in Hk. apply node_links_iff. destruct Hk as (x & Hx & E). unfold d_set in Hx. cbn in Hx. apply set_attr_in in Hx. destruct Hx as [Hx| ->]; [eauto|]. cbn in E. congruence.
Qed.
Lemma sk_rm_all l d : same_kind d (rm_all l d). Proof. destruct (rm_all_tag l d) as (A & B & C). repeat split; assumption. Qed.
Lemma strip_strip d : strip_paint (strip_paint d) = strip_paint d.
Proof.
  unfold strip_paint, with_attrs. cbn. f_equal. induction (attrs d) as [|x l IH]; [reflexivity|]. cbn. destruct (paint_attr x) eqn:E; cbn; [exact IH|]. rewrite E. cbn. now rewrite IH.
Qed.
Lemma shape_sk d : same_kind d (process_shape d) /\ fewer_links d (process_shape d).
Proof. unfold process_shape. destruct (tag d) as [|[]| | | |] eqn:E; try (split; [apply sk_refl|apply fl_refl]); (split; [split; [reflexivity|split; reflexivity]|apply fl_filter]). Qed.
Lemma fill_sk d : same_kind d (process_fill d) /\ fewer_links d (process_fill d).
Proof.
  unfold process_fill. set (d1 := if value_is d AFill _ then _ else d). assert (H : same_kind d d1 /\ fewer_links d d1).
  { unfold d1. destruct (value_is _ _ _); [|split; [apply sk_refl|apply fl_refl]]. split; [repeat split|]. eapply fl_trans; apply fl_rm. }
  destruct H as [H1 H2]. destruct (value_is d1 _ _); [|auto]. split; [eapply sk_trans; [exact H1|repeat split]|]. eapply fl_trans; [exact H2|]. eapply fl_trans; [|apply fl_rm]. eapply fl_trans; [|apply fl_rm]. now apply fl_set.
Qed.
Lemma stroke_sk anc d : same_kind d (process_stroke anc d) /\ fewer_links d (process_stroke anc d).
Proof.
  unfold process_stroke. destruct (is_invisible d).
  - assert (H : same_kind d (rm_all stroke_attributes (d_rm d AStroke)) /\ fewer_links d (rm_all stroke_attributes (d_rm d AStroke))).
    { split; [eapply sk_trans; [|apply sk_rm_all]; repeat split|]. eapply fl_trans; [apply (fl_rm d AStroke)|apply fl_rm_all]. }
    set (d1 := rm_all _ _) in *. clearbody d1. destruct H as [H1 H2]. destruct (find _ anc) as [n|]; [|auto]. destruct (value_is n _ _); [auto|].
    split; [eapply sk_trans; [exact H1|repeat split]|]. eapply fl_trans; [exact H2|]. now apply fl_set.
  - destruct (value_is d _ _); [|split; [apply sk_refl|apply fl_refl]]. pose proof (sk_rm_all stroke_attributes d) as H1. pose proof (fl_rm_all stroke_attributes d) as H2.
    set (d1 := rm_all _ _) in *. clearbody d1. destruct (find _ anc); [auto|]. split; [eapply sk_trans; [exact H1|repeat split]|]. eapply fl_trans; [exact H2|apply fl_rm].
Qed.
Lemma overflow_sk d : same_kind d (process_overflow d) /\ fewer_links d (process_overflow d).
Proof. unfold process_overflow. destruct (tag d) as [|[]| | | |] eqn:E; first [split; [apply sk_refl|apply fl_refl]|split; [repeat split|apply fl_rm]]. Qed.
Lemma needless_sk anc leaf d : same_kind d (needless_node anc leaf d) /\ fewer_links d (needless_node anc leaf d).
Proof.
  unfold needless_node. destruct (shape_sk d) as [A1 A2]. set (d1 := process_shape d) in *. clearbody d1.
  assert (B : same_kind d (d_rm d1 AColor) /\ fewer_links d (d_rm d1 AColor)) by (split; [eapply sk_trans; [exact A1|repeat split]|eapply fl_trans; [exact A2|apply fl_rm]]).
  set (d2 := d_rm d1 AColor) in *. clearbody d2. clear d1 A1 A2. destruct B as [B1 B2].
  set (d3 := if tag_sat is_container d2 then d2 else d_rm d2 AEnableBackground). assert (C : same_kind d d3 /\ fewer_links d d3).
  { unfold d3. destruct (tag_sat _ _); [auto|]. split; [eapply sk_trans; [exact B1|repeat split]|eapply fl_trans; [exact B2|apply fl_rm]]. }
  clearbody d3. clear d2 B1 B2. destruct C as [C1 C2].
  set (d4 := if leaf then process_fill d3 else d3). assert (D : same_kind d d4 /\ fewer_links d d4).
  { unfold d4. destruct leaf; [|auto]. destruct (fill_sk d3). split; [eapply sk_trans; eauto|eapply fl_trans; eauto]. }
  clearbody d4. clear d3 C1 C2. destruct D as [D1 D2].
  set (d5 := if leaf then process_stroke anc d4 else d4). assert (F : same_kind d d5 /\ fewer_links d d5).
  { unfold d5. destruct leaf; [|auto]. destruct (stroke_sk anc d4). split; [eapply sk_trans; eauto|eapply fl_trans; eauto]. }
  clearbody d5. destruct F as [F1 F2]. destruct (overflow_sk d5). split; [eapply sk_trans; eauto|eapply fl_trans; eauto].
Qed.

Lemma targets_less g g' t : (forall d, In d (flat t) -> fewer_links (g d) (g' d)) -> incl (targets (tmap g' t)) (targets (tmap g t)).
Proof.
  intros H k. rewrite !targets_flat, !flat_tmap, !in_flat_map. intros (x & Hx & Hk). apply in_map_iff in Hx. destruct Hx as (d & <- & Hd). exists (g d). split; [now apply in_map|]. now apply H.
Qed.
Lemma unused_less k t t' : incl (targets t') (targets t) -> is_used k t = false -> is_used k t' = false.
Proof. intros I H. destruct (is_used k t') eqn:E; [|reflexivity]. apply is_used_iff in E. apply I in E. apply is_used_iff in E. congruence. Qed.

Definition is_leaf (s : tree) : bool := match kids s with [] => true | _ => false end.
Definition node_fn (anc : list ndata) (leaf : bool) (d : ndata) : ndata := if is_svg_el d then needless_node anc leaf d else d.
Definition clip_child (anc : list ndata) : Prop := exists p l, anc = p :: l /\ tag p = TEl EClipPath.
Definition stripped_if (b : bool) (d : ndata) : ndata := if b then strip_paint d else d.
Lemma stripped_sk b d : same_kind d (stripped_if b d). Proof. destruct b; repeat split. Qed.
Lemma node_fn_sk anc l d : same_kind d (node_fn anc l d) /\ fewer_links d (node_fn anc l d).
Proof. unfold node_fn. destruct (is_svg_el d); [apply needless_sk|split; [apply sk_refl|apply fl_refl]]. Qed.

Section pass.
Variable t : tree.
Hypothesis N : NoDup (keys t).
Definition inv (done : list nat) (g : ndata -> ndata) : Prop :=
  forall anc s, In (anc, s) (places [] t) -> exists b, (b = true -> clip_child anc /\ is_used (root_key s) (tmap g t) = false) /\
    let x := stripped_if b (data s) in
    (In (root_key s) done -> g (data s) = node_fn (map g anc) (is_leaf s) x) /\ (~ In (root_key s) done -> g (data s) = x).
Lemma inv_sk done g : inv done g -> forall d, In d (flat t) -> same_kind d (g d).
Proof.
  intros I d Hd. destruct (in_place d t [] Hd) as (anc & s & P & <-). destruct (I anc s P) as (b & _ & I1 & I2). cbn zeta in *.
  destruct (in_dec Nat.eq_dec (root_key s) done) as [H|H].
  - rewrite (I1 H). eapply sk_trans; [|apply node_fn_sk]. apply stripped_sk.
  - rewrite (I2 H). apply stripped_sk.
Qed.
Lemma clip_step ks : forall g, (forall d, In d (flat t) -> same_kind d (g d)) ->
  exists g1, process_clip_path ks (tmap g t) = tmap g1 t /\ (forall d, In d (flat t) -> same_kind d (g1 d)) /\
    forall d, In d (flat t) -> g1 d = g d \/ (In (key d) ks /\ g1 d = strip_paint (g d) /\ is_used (key d) (tmap g1 t) = false).
Proof.
  induction ks as [|k ks IH]; intros g Hg; [exists g; split; [reflexivity|]; auto|]. cbn [process_clip_path fold_left].
  destruct (is_used k (tmap g t)) eqn:U.
  - destruct (IH g Hg) as (g1 & E & H1 & H2). exists g1. split; [exact E|]. split; [exact H1|]. intros d Hd. destruct (H2 d Hd) as [?|(? & ? & ?)]; [auto|]. right. split; [now right|auto].
  - set (g' := fun d => if Nat.eqb (key d) k then strip_paint (g d) else g d).
    assert (E' : upd k strip_paint (tmap g t) = tmap g' t).
    { unfold upd. rewrite tmap_tmap. apply tmap_ext. intros d Hd. unfold g'. destruct (Hg d Hd) as [-> _]. reflexivity. }
    rewrite E'. assert (Hg' : forall d, In d (flat t) -> same_kind d (g' d)).
    { intros d Hd. unfold g'. destruct (Nat.eqb _ _); [|auto]. eapply sk_trans; [exact (Hg d Hd)|repeat split]. }
    destruct (IH g' Hg') as (g1 & E & H1 & H2). exists g1. split; [exact E|]. split; [exact H1|].
    assert (L : incl (targets (tmap g1 t)) (targets (tmap g t))).
    { apply targets_less. intros d Hd. destruct (H2 d Hd) as [->|(_ & -> & _)]; unfold g'; destruct (Nat.eqb _ _); try apply fl_refl; try apply fl_filter. rewrite strip_strip. apply fl_filter. }
    intros d Hd. destruct (H2 d Hd) as [E2|(H3 & E2 & H4)]; unfold g' in E2; destruct (Nat.eqb_spec (key d) k) as [Ek|Ek]; auto.
    + right. split; [left; auto|]. split; [exact E2|]. rewrite Ek. exact (unused_less _ _ _ L U).
    + right. split; [left; auto|]. split; [rewrite E2; apply strip_strip|]. exact H4.
    + right. split; [right; exact H3|auto].
Qed.
Lemma places_g g anc s : In (anc, s) (places [] t) -> In (map g anc, tmap g s) (places [] (tmap g t)).
Proof. intros H. change (places [] (tmap g t)) with (places (map g []) (tmap g t)). rewrite places_tmap. apply in_map_iff. exists (anc, s). auto. Qed.
Lemma flat_map_g (anc : list ndata) (g1 g : ndata -> ndata) : (forall a, In a anc -> g1 a = g a) -> map g1 anc = map g anc.
Proof. intros H. now apply map_ext_in. Qed.
Lemma anc_in anc s a : In (anc, s) (places [] t) -> In a anc -> In a (flat t).
Proof.
  intros P Ha. destruct (place_anc t [] anc s P) as (l & E & H). rewrite app_nil_r in E. subst l. apply in_split in Ha. destruct Ha as (l1 & l2 & ->).
  destruct (H l1 a l2 eq_refl) as (s' & P' & <- & _). exact (place_in _ _ _ _ P').
Qed.
Lemma visit_step done k rest g : keys t = done ++ k :: rest -> inv done g -> exists g', needless_visit (tmap g t) k = tmap g' t /\ inv (done ++ [k]) g'.
Proof.
  intros E I. pose proof (inv_sk done g I) as Sg.
  assert (Nk : ~ In k done). { intros H. rewrite E in N. apply NoDup_remove_2 in N. apply N. apply in_or_app. auto. }
  assert (Hk : In k (keys t)) by (rewrite E; apply in_elt).
  rewrite <- (places_keys t []) in Hk. apply in_map_iff in Hk. destruct Hk as ((anc0 & s0) & Ek & P0). cbn [snd] in Ek.
  assert (Ng : NoDup (keys (tmap g t))).
  { unfold keys. rewrite flat_tmap, map_map. rewrite (map_ext_in _ key); [exact N|]. intros d Hd. apply (Sg d Hd). }
  assert (Rk : root_key (tmap g s0) = k). { unfold root_key. rewrite tmap_data. destruct (Sg _ (place_in _ _ _ _ P0)) as [-> _]. exact Ek. }
  assert (F : find_place [] k (tmap g t) = Some (map g anc0, tmap g s0)) by (rewrite <- Rk; apply find_place_in; [exact Ng|now apply places_g]).
  assert (Tg : is_svg_el (g (data s0)) = is_svg_el (data s0)) by (unfold is_svg_el; now rewrite (proj1 (proj2 (Sg _ (place_in _ _ _ _ P0))))).
  assert (Undone : forall anc s, In (anc, s) (places [] t) -> In (root_key s) done -> ~ In k (map key (data s :: anc))).
  { intros anc s P H X. cbn in X. destruct X as [X|X]; [apply Nk; rewrite <- X; exact H|]. apply in_map_iff in X. destruct X as (a & Ea & Ha). apply Nk. rewrite <- Ea. exact (keys_prefix t done (k :: rest) anc s N P E H a Ha). }
  unfold needless_visit. rewrite F. rewrite tmap_data, Tg. destruct (is_svg_el (data s0)) eqn:Sv.
  2: { exists g. split; [reflexivity|]. intros anc s P. destruct (I anc s P) as (b & B & I1 & I2). exists b. split; [exact B|]. cbn zeta in *. split.
       - intros H. apply in_app_or in H. destruct H as [H|[H|[]]]; [now apply I1|]. rewrite I2 by (rewrite <- H; exact Nk).
         assert (X : (anc, s) = (anc0, s0)) by (apply (place_unique t []); auto; cbn; congruence). inversion X; subst. unfold node_fn.
         assert (Y : is_svg_el (stripped_if b (data s0)) = false) by (unfold is_svg_el in *; rewrite (proj1 (proj2 (stripped_sk b (data s0)))); exact Sv). now rewrite Y.
       - intros H. apply I2. intros X. apply H. apply in_or_app. auto. }
  set (ks := map root_key (kids (tmap g s0))).
  assert (Hks : forall c, In c (kids s0) -> In (root_key c) ks /\ True).
  { intros c Hc. split; [|trivial]. unfold ks. rewrite kids_tmap, map_map. apply in_map_iff. exists c. split; [|exact Hc]. unfold root_key. rewrite tmap_data.
    apply (Sg (data c)). exact (place_in _ _ _ _ (place_kid t [] anc0 s0 c P0 Hc)). }
  assert (Hks' : forall j, In j ks -> exists c, In c (kids s0) /\ root_key c = j).
  { intros j Hj. unfold ks in Hj. rewrite kids_tmap, map_map in Hj. apply in_map_iff in Hj. destruct Hj as (c & Ec & Hc). exists c. split; [exact Hc|]. rewrite <- Ec. unfold root_key at 2. rewrite tmap_data. symmetry.
    apply (Sg (data c)). exact (place_in _ _ _ _ (place_kid t [] anc0 s0 c P0 Hc)). }
  assert (C : exists g1, (if is_tag EClipPath (g (data s0)) then process_clip_path ks (tmap g t) else tmap g t) = tmap g1 t /\ (forall d, In d (flat t) -> same_kind d (g1 d)) /\
     forall d, In d (flat t) -> g1 d = g d \/ (In (key d) ks /\ tag (data s0) = TEl EClipPath /\ g1 d = strip_paint (g d) /\ is_used (key d) (tmap g1 t) = false)).
  { destruct (is_tag EClipPath (g (data s0))) eqn:Cl.
    - destruct (clip_step ks g Sg) as (g1 & E1 & H1 & H2). exists g1. split; [exact E1|]. split; [exact H1|]. intros d Hd. destruct (H2 d Hd) as [?|(? & ? & ?)]; [auto|]. right. repeat split; auto.
      unfold is_tag in Cl. rewrite (proj1 (proj2 (Sg _ (place_in _ _ _ _ P0)))) in Cl. destruct (tag (data s0)) as [|e| | | |]; try discriminate. destruct (eid_eqb_spec e EClipPath); congruence.
    - exists g. split; [reflexivity|]. auto. }
  destruct C as (g1 & E1 & S1 & G1). rewrite E1.
  assert (Lf : (match kids (tmap g s0) with [] => true | _ :: _ => false end) = is_leaf s0) by (unfold is_leaf; rewrite kids_tmap; destruct (kids s0); reflexivity). rewrite Lf. clear Lf.
  (* kids are after k and different from k *)
  assert (KidsNew : forall j, In j ks -> ~ In j (done ++ [k])).
  { intros j Hj X. destruct (Hks' j Hj) as (c & Hc & Ej). pose proof (place_kid t [] anc0 s0 c P0 Hc) as Pc. apply in_app_or in X. destruct X as [X|[X|[]]].
    - rewrite <- Ej in X. apply (Undone _ _ Pc X). cbn. right. left. exact Ek.
    - assert (Y : (data s0 :: anc0, c) = (anc0, s0)) by (apply (place_unique t []); auto; cbn; congruence). inversion Y as [[Y1 Y2]]. symmetry in Y1. apply (f_equal (@List.length _)) in Y1. cbn in Y1. lia. }
  set (h := needless_node (map g anc0) (is_leaf s0)).
  set (g2 := fun d => if Nat.eqb (key d) k then h (g1 d) else g1 d).
  assert (E2 : upd k h (tmap g1 t) = tmap g2 t).
  { unfold upd. rewrite tmap_tmap. apply tmap_ext. intros d Hd. unfold g2. destruct (S1 d Hd) as [-> _]. reflexivity. }
  exists g2. split; [exact E2|].
  assert (L1 : incl (targets (tmap g1 t)) (targets (tmap g t))).
  { apply targets_less. intros d Hd. destruct (G1 d Hd) as [->|(_ & _ & -> & _)]; [apply fl_refl|apply fl_filter]. }
  assert (L2 : incl (targets (tmap g2 t)) (targets (tmap g1 t))).
  { apply targets_less. intros d Hd. unfold g2. destruct (Nat.eqb _ _); [|apply fl_refl]. apply needless_sk. }
  assert (L : incl (targets (tmap g2 t)) (targets (tmap g t))) by (intros x Hx; auto).
  (* a node that is not new and not k has its old data *)
  assert (Old : forall d, In d (flat t) -> In (key d) done -> g2 d = g d).
  { intros d Hd H. unfold g2. destruct (Nat.eqb_spec (key d) k) as [X|X]; [exfalso; apply Nk; rewrite <- X; exact H|]. destruct (G1 d Hd) as [?|(H1 & _)]; [auto|]. exfalso. apply (KidsNew _ H1). apply in_or_app. auto. }
  intros anc s P. destruct (I anc s P) as (b & B & I1 & I2). cbn zeta in *.
  assert (Hs : In (data s) (flat t)) by exact (place_in _ _ _ _ P). fold (root_key s) in *.
  destruct (in_dec Nat.eq_dec (root_key s) (done ++ [k])) as [Hd|Hd].
  - exists b. split; [intros Eb; destruct (B Eb) as [B1 B2]; split; [exact B1|exact (unused_less _ _ _ L B2)]|]. split; [intros _|intros X; contradiction].
    assert (Anc : map g2 anc = map g anc).
    { apply map_ext_in. intros a Ha. apply Old; [exact (anc_in anc s a P Ha)|]. apply in_app_or in Hd. destruct Hd as [Hd|[Hd|[]]]; [exact (keys_prefix t done (k :: rest) anc s N P E Hd a Ha)|].
      assert (X : In (key a) (done ++ [k])). { apply (keys_prefix t (done ++ [k]) rest anc s N P); [rewrite <- app_assoc; exact E|rewrite Hd; apply in_elt|exact Ha]. }
      apply in_app_or in X. destruct X as [X|[X|[]]]; [exact X|]. exfalso.
      (* an ancestor with the same key *)
      apply in_split in Ha. destruct Ha as (u & v & Ev). destruct (place_anc t [] anc s P) as (l & El & Hl). rewrite app_nil_r in El. subst l. destruct (Hl u a v Ev) as (s' & P' & D' & _).
      assert (Y : (v ++ [], s') = (anc, s)) by (apply (place_unique t []); auto; cbn; unfold root_key at 1; rewrite D'; congruence). inversion Y as [[Y1 Y2]]. rewrite app_nil_r in Y1. rewrite <- Y1 in Ev. apply (f_equal (@List.length _)) in Ev. rewrite app_length in Ev. cbn in Ev. lia. }
    rewrite Anc. apply in_app_or in Hd. destruct Hd as [Hd|[Hd|[]]].
    + rewrite Old; auto.
    + assert (X : (anc, s) = (anc0, s0)) by (apply (place_unique t []); auto; cbn; congruence). inversion X; subst anc0 s0. unfold g2. fold (root_key s). rewrite Hd, Nat.eqb_refl.
      assert (X1 : g1 (data s) = g (data s)). { destruct (G1 _ Hs) as [?|(H1 & _)]; [auto|]. exfalso. apply (KidsNew _ H1). apply in_or_app. right. left. exact Hd. }
      rewrite X1, I2 by (rewrite <- Hd; exact Nk). unfold node_fn, h.
      assert (Y : is_svg_el (stripped_if b (data s)) = true) by (unfold is_svg_el in *; rewrite (proj1 (proj2 (stripped_sk b (data s)))); exact Sv). now rewrite Y.
  - assert (X2 : g2 (data s) = g1 (data s)). { unfold g2. fold (root_key s). destruct (Nat.eqb_spec (root_key s) k) as [X|X]; [|reflexivity]. exfalso. apply Hd. apply in_or_app. right. left. auto. }
    assert (Hd' : ~ In (root_key s) done) by (intros X; apply Hd; apply in_or_app; auto).
    destruct (G1 _ Hs) as [Eg|(H1 & Tc & Eg & U)].
    + exists b. split; [intros Eb; destruct (B Eb) as [B1 B2]; split; [exact B1|exact (unused_less _ _ _ L B2)]|]. split; [intros X; contradiction|intros _]. rewrite X2, Eg. now apply I2.
    + exists true. split; [intros _; split|].
      * destruct (Hks' _ H1) as (c & Hc & Ec). pose proof (place_kid t [] anc0 s0 c P0 Hc) as Pc. assert (Y : (anc, s) = (data s0 :: anc0, c)) by (apply (place_unique t []); auto). inversion Y; subst. exists (data s0), anc0. auto.
      * exact (unused_less _ _ _ L2 U).
      * split; [intros X; contradiction|intros _]. rewrite X2, Eg, I2 by exact Hd'. destruct b; cbn [stripped_if]; [apply strip_strip|reflexivity].
Qed.
(** The whole pass. *)
Lemma pass_inv : exists g, remove_needless_attributes t = tmap g t /\ inv (keys t) g.
Proof.
  unfold remove_needless_attributes.
  assert (G : forall rest done g, keys t = done ++ rest -> inv done g -> exists g', fold_left needless_visit rest (tmap g t) = tmap g' t /\ inv (keys t) g').
  { induction rest as [|k rest IH]; intros done g E I; [exists g; split; [reflexivity|]; rewrite app_nil_r in E; now rewrite E|].
    destruct (visit_step done k rest g E I) as (g' & E' & I'). cbn [fold_left]. rewrite E'. apply (IH (done ++ [k])); [rewrite <- app_assoc; exact E|exact I']. }
  destruct (G (keys t) [] (fun d => d) eq_refl) as (g & E & I); [|exists g; split; [|exact I]; rewrite <- E; f_equal; symmetry; apply tmap_id; reflexivity].
  intros anc s P. exists false. split; [discriminate|]. cbn. split; [intros []|auto].
Qed.
End pass.
