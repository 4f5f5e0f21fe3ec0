(** Proofs about resolve_use: one step. *)
From Coq Require Import List Bool NArith Arith ZArith String Lia QArith Qcanon Permutation.
From Verif Require Import Names Num Value Dom DomFacts DomOps Outcome Move MoveFacts SpecDom SpecStyle SpecText Visit Regroup SpecPaint PaintFacts Img ResolveUse SpecUse MergeProofs UseProofs.
Import ListNotations.
Local Open Scope nat_scope.

Definition swap (u l : nat) (s : tree) (c : tree) : option (list tree) :=
  if Nat.eqb (root_key c) l then Some [] else if Nat.eqb (root_key c) u then Some [s] else None.
Lemma key_in_sub s t : In s (subs t) -> In (root_key s) (keys t).
Proof. intros H. unfold keys, root_key. apply in_map. now apply data_of_sub. Qed.
Lemma keys_sub s t k : In s (subs t) -> In k (keys s) -> In k (keys t).
Proof. intros H K. apply in_map_iff in K. destruct K as (d & <- & Hd). rewrite <- map_data_subs in Hd. apply in_map_iff in Hd. destruct Hd as (x & <- & Hx). apply (key_in_sub x). exact (subs_trans t s x H Hx). Qed.
Lemma sub_of_key k s : In k (keys s) -> exists x, In x (subs s) /\ root_key x = k.
Proof. intros K. apply in_map_iff in K. destruct K as (d & <- & Hd). rewrite <- map_data_subs in Hd. apply in_map_iff in Hd. destruct Hd as (x & <- & Hx). eauto. Qed.
Lemma self_not_below s : NoDup (keys s) -> ~ In s (flat_map subs (kids s)).
Proof. destruct s as [d ch]. intros N H. rewrite keys_cons in N. inversion N as [|? ? N1 N2]; subst. apply N1. cbn in H. apply in_flat_map in H. destruct H as (c & Hc & H). apply in_flat_map. exists c. split; [exact Hc|]. exact (key_in_sub _ _ H). Qed.
Lemma insert_detach u l s t : u <> l -> root_key s = l -> ~ In u (keys s) -> (forall c, In c (subs t) -> root_key c = u -> ~ In l (keys c)) ->
  detach u (insert_after u s (detach l t)) = img (swap u l s) t.
Proof.
  intros Nu Rs Ns. induction t as [d ch IH] using tree_ind'. intros H. rewrite img_T, detach_T. cbn [insert_after]. rewrite detach_T. f_equal. rewrite Forall_forall in IH.
  induction ch as [|c ch IHc]; [reflexivity|]. cbn [flat_map]. rewrite !flat_map_app. f_equal.
  - unfold rpl, swap. destruct (Nat.eqb_spec (root_key c) l) as [E|E]; [reflexivity|]. cbn [flat_map app]. rewrite root_detach. destruct (Nat.eqb_spec (root_key c) u) as [F|F].
    + cbn [flat_map app]. rewrite root_detach. destruct (Nat.eqb_spec (root_key c) u); [|contradiction]. destruct (Nat.eqb_spec (root_key s) u); [congruence|]. cbn. now rewrite detach_out.
    + cbn [flat_map app]. assert (X : root_key (insert_after u s (detach l c)) = root_key c) by (rewrite <- (root_detach l c); destruct (detach l c); reflexivity). rewrite X. destruct (Nat.eqb_spec (root_key c) u); [contradiction|]. cbn. f_equal.
      apply IH; [now left|]. intros x Hx. apply H. right. cbn. apply in_or_app. now left.
  - apply IHc; [intros x Hx; apply IH; now right|]. intros x [<-|Hx].
    + intros E. specialize (H (T d (c :: ch)) (or_introl eq_refl) E). intros K. apply H. rewrite keys_cons in *. destruct K as [K|K]; [now left|right; cbn; apply in_or_app; now right].
    + apply H. right. cbn. apply in_or_app. now right.
Qed.
Lemma img_upd g k f t : (forall s s', root_key s = root_key s' -> g s = g s') -> (forall s, root_key s = k -> g s <> None) -> (forall d, key (f d) = key d) -> root_key t <> k -> img g (upd k f t) = img g t.
Proof.
  intros E G Kf. unfold upd. induction t as [d ch IH] using tree_ind'. intros R. unfold root_key in R. cbn in R. cbn [tmap]. rewrite !img_T. destruct (Nat.eqb_spec (key d) k); [contradiction|]. f_equal. rewrite Forall_forall in IH.
  induction ch as [|c ch IHc]; [reflexivity|]. cbn [map flat_map]. rewrite IHc by (intros x Hx; apply IH; now right). f_equal. unfold rpl.
  assert (X : root_key (tmap (fun d0 => if Nat.eqb (key d0) k then f d0 else d0) c) = root_key c). { destruct c as [dc cc]. unfold root_key. cbn. destruct (Nat.eqb (key dc) k); auto. }
  rewrite (E _ _ X). destruct (g c) eqn:Q; [reflexivity|]. f_equal. apply IH; [now left|]. intros Z. now apply (G c Z).
Qed.

Lemma flat_cases d s : In d (flat s) -> d = data s \/ In d (flat_map flat (kids s)).
Proof. destruct s as [d0 ch]. intros [<-|H]; [now left|now right]. Qed.
Lemma flat_kids_in d s : In d (flat_map flat (kids s)) -> In d (flat s).
Proof. destruct s as [d0 ch]. intros H. now right. Qed.
Lemma reps_nodup g z : NoDup (keys z) -> NoDup (reps g z).
Proof.
  induction z as [d ch IH] using tree_ind'. intros Nz. cbn [reps]. rewrite keys_cons in Nz. inversion Nz as [|? ? N1 N2]; subst. clear N1 Nz. rewrite Forall_forall in IH.
  assert (Kr : forall r c0, In r (match g c0 with Some _ => [c0] | None => reps g c0 end) -> In (root_key r) (keys c0)).
  { intros r c0 Hr. destruct (g c0); [destruct Hr as [<-|[]]; apply key_in_sub, subs_self|]. apply reps_spec in Hr. apply key_in_sub. apply in_kids_subs. apply Hr. }
  induction ch as [|c ch IHc]; [constructor|]. cbn [flat_map] in *. apply NoDup_app_inv in N2. destruct N2 as (N3 & N4 & N5).
  apply NoDup_app_intro.
  - destruct (g c); [repeat constructor; intros []|]. apply IH; [now left|exact N3].
  - apply IHc; [intros x Hx; apply IH; now right|exact N4].
  - intros r H1 H2. apply in_flat_map in H2. destruct H2 as (c' & Hc' & H2). apply (N5 (root_key r)); [exact (Kr r c H1)|]. apply in_flat_map. exists c'. split; [exact Hc'|exact (Kr r c' H2)].
Qed.

Section Step.
  Variable uu : aid -> len -> Qc.
  Variables t U L : tree.
  Hypothesis W : WF t.
  Hypothesis WA : WFA t.
  Hypothesis Rt : tag (data t) = TRoot.
  Hypothesis Ids : own_ids t.
  Hypothesis R : replaceable t U L.
  Hypothesis F : fits t U L.
  Hypothesis NU : ~ In (root_key U) (keys L).
  Let N := wf_keys t W.
  Let u := root_key U.
  Let l := root_key L.
  Let du := data U.
  Let dl := data L.
  Definition newl : tree := T (merged du dl) (kids L).
  Definition t' : tree := img (swap u l newl) t.
  Let HU : In U (subs t). Proof. apply (r_use _ _ _ R). Qed.
  Let HL : In L (subs t). Proof. apply (r_link _ _ _ R). Qed.
  Let Ndu : attrs_nodup du. Proof. apply (proj1 (Forall_forall _ _) WA). now apply data_of_sub. Qed.
  Let Ndl : attrs_nodup dl. Proof. apply (proj1 (Forall_forall _ _) WA). now apply data_of_sub. Qed.
  Lemma u_ne_l : u <> l.
  Proof. intros E. apply NU. unfold u, l in E. rewrite E. unfold root_key, keys. apply in_map, flat_self. Qed.
  Lemma unref k : In k (keys U) -> forall d, In d (flat t) -> ~ refers_to d k.
  Proof.
    intros K d Hd. destruct U as [du0 cu] eqn:E. rewrite keys_cons in K. destruct K as [<-|K]; [apply (r_free _ _ _ R d Hd)|]. apply in_flat_map in K. destruct K as (c & Hc & K). apply in_map_iff in K. destruct K as (x & <- & Hx).
    refine (proj2 (proj2 (f_inside _ _ _ F x _)) d Hd). cbn. apply in_flat_map. eauto.
  Qed.
  Lemma u_refs_l : refers_to du l.
  Proof. destruct (r_link _ _ _ R) as [_ E]. rewrite get_lk in E. apply lk_some in E. destruct E as (x & Hx & _ & Ex). exists x. split; [exact Hx|]. now rewrite Ex. Qed.
  Lemma l_not_in_u : ~ In l (keys U).
  Proof. intros K. apply (unref l K du); [now apply data_of_sub|apply u_refs_l]. Qed.
  Lemma is_U s : In s (subs t) -> root_key s = u -> s = U.
  Proof. intros Hs E. now apply (sub_unique t). Qed.
  Lemma is_L s : In s (subs t) -> root_key s = l -> s = L.
  Proof. intros Hs E. now apply (sub_unique t). Qed.
  Lemma root_ne : root_key t <> u /\ root_key t <> l.
  Proof.
    split; intros E.
    - assert (X : t = U) by (apply is_U; [apply subs_self|exact E]). destruct (r_use _ _ _ R) as [_ Q]. rewrite <- X, Rt in Q. discriminate.
    - assert (X : t = L) by (apply is_L; [apply subs_self|exact E]). destruct (r_defs _ _ _ R) as (p & a & P & _). assert (Y : (p :: a, L) = ([], t)); [|discriminate]. apply (place_unique t []); auto. destruct t; now left.
  Qed.
  Lemma newl_root : root_key newl = l. Proof. reflexivity. Qed.
  Lemma newl_keys : keys newl = keys L.
  Proof. unfold newl. destruct L as [d ch]. now rewrite !keys_cons. Qed.
  Let Hunits := f_units _ _ _ F.
  Let Hattrs := f_attrs _ _ _ F.
  Let Hdis := f_disjoint _ _ _ F.
  Let Hmoved := f_moved _ _ _ F.
  Lemma merged_attr x : In x (attrs (merged du dl)) -> (In x (attrs dl)) \/ (In x (attrs du) /\ a_name x <> AN AXlinkHref) \/ link_of (a_val x) = None.
  Proof.
    unfold merged. cbn [attrs with_attrs]. intros H. apply in_puts in H. destruct H as [H|H]; [|now left]. right. destruct (moved_in du x H) as [[A B]|(m & ->)]; [now left|right; reflexivity].
  Qed.
  (** References in the new document. *)
  Definition refs_from (s : tree) : Prop := forall d k, In d (flat s) -> refers_to d k -> exists d0, In d0 (flat t) /\ refers_to d0 k.
  Lemma refs_newl : refs_from newl.
  Proof.
    intros d k Hd (x & Hx & E). destruct Hd as [<-|Hd].
    - destruct (merged_attr x Hx) as [A|[[A _]|A]]; [exists dl|exists du|congruence]; (split; [now apply data_of_sub|exists x; auto]).
    - exists d. split; [|exists x; auto]. apply in_flat_map in Hd. destruct Hd as (c & Hc & Hd). rewrite <- map_data_subs in Hd. apply in_map_iff in Hd. destruct Hd as (y & <- & Hy). apply data_of_sub. apply (subs_trans t L y HL). apply in_kids_subs. apply in_flat_map. eauto.
  Qed.
  Lemma step_eq : resolve_one t (u, l) = Ok t'.
  Proof.
    unfold resolve_one. set (h := fun d => d_rm d AXlinkHref). set (t1 := upd u h t).
    assert (K1 : keys t1 = keys t) by (apply keys_tmap; intros d; destruct (Nat.eqb (key d) u); reflexivity).
    assert (N1 : NoDup (keys t1)) by now rewrite K1.
    assert (Q : find_data u t1 = Some (h du)).
    { unfold t1, upd. assert (I : In (h du) (flat (tmap (fun d => if Nat.eqb (key d) u then h d else d) t))). { rewrite flat_tmap. apply in_map_iff. exists du. split; [unfold u, root_key, du; now rewrite Nat.eqb_refl|now apply data_of_sub]. }
      destruct (find_data u (tmap _ t)) as [x|] eqn:E.
      - unfold find_data in E. apply find_some in E. destruct E as [E1 E2]. apply Nat.eqb_eq in E2. f_equal. apply (data_unique _ x (h du) N1 E1 I). exact E2.
      - unfold find_data in E. pose proof (find_none _ _ E _ I) as Z. cbn in Z. unfold u, root_key, du in Z. rewrite Nat.eqb_refl in Z. discriminate. }
    assert (Q2 : find_sub l t1 = Some L).
    { apply find_sub_iff; [exact N1|]. unfold t1, upd. rewrite subs_tmap. apply in_map_iff. exists L. split; [|exact HL]. apply tmap_id. intros d Hd. destruct (Nat.eqb_spec (key d) u) as [E|E]; [|reflexivity]. exfalso. apply NU. fold u. rewrite <- E. unfold keys. now apply in_map. }
    rewrite Q, Q2. unfold h. rewrite (shift_moved uu du dl Hunits Hmoved).
    assert (OK : forallb (put_ok t1 (data L)) (attrs (moved_use du)) = true).
    { apply forallb_forall. intros x Hx. unfold put_ok. destruct (link_of (a_val x)) as [k|] eqn:E; [|reflexivity]. destruct (find_data k t1) as [n|] eqn:Fn; [|reflexivity].
      destruct (moved_in du x Hx) as [[A B]|(m & ->)]; [|discriminate]. unfold find_data in Fn. apply find_some in Fn. destruct Fn as [F1 F2]. apply Nat.eqb_eq in F2.
      unfold t1, upd in F1. rewrite flat_tmap in F1. apply in_map_iff in F1. destruct F1 as (n0 & En & Hn0). assert (Kn : key n0 = k) by (rewrite <- F2, <- En; destruct (Nat.eqb (key n0) u); reflexivity).
      assert (Rk : refers_to du (key n0)) by (exists x; rewrite Kn; auto). assert (Nu : key n0 <> u). { intros Z. rewrite Z in Rk. apply (r_free _ _ _ R du); [now apply data_of_sub|exact Rk]. }
      destruct (Nat.eqb_spec (key n0) u) as [Z|_]; [contradiction|]. subst n. destruct (Ids du n0) as [I1 I2]; [now apply data_of_sub|exact Hn0|exact Rk|].
      unfold can_link. rewrite !andb_true_iff, !negb_true_iff. repeat split.
      - unfold has_id. destruct (String.eqb_spec (nid n0) ""); [contradiction|reflexivity].
      - apply String.eqb_neq. intros Z. assert (X : data L = n0) by (apply I2; [now apply data_of_sub|exact Z]). assert (Y : key n0 = l) by now rewrite <- X. destruct (r_once _ _ _ R du x) as [_ Y2]; [now apply data_of_sub|exact A|rewrite E, <- Kn; f_equal; exact Y|]. contradiction.
      - apply not_true_iff_false. intros Z. apply existsb_exists in Z. destruct Z as (y & Hy & Z). apply refers_iff in Z. destruct (r_once _ _ _ R n0 y Hn0 Hy Z) as [X _]. apply Nu. now rewrite X. }
    rewrite OK. fold dl. change (Ok (remove u (insert_after u newl (detach l t1))) = Ok t'). f_equal. unfold remove.
    set (X := insert_after u newl (detach l t1)).
    assert (Hu1 : forall c, In c (subs t1) -> root_key c = u -> ~ In l (keys c)).
    { intros c Hc E. unfold t1, upd in Hc. rewrite subs_tmap in Hc. apply in_map_iff in Hc. destruct Hc as (c0 & <- & Hc0). assert (c0 = U). { apply is_U; [exact Hc0|]. rewrite <- E. destruct c0 as [dc cc]. unfold root_key. cbn. destruct (Nat.eqb (key dc) u); reflexivity. }
      subst c0. rewrite keys_tmap by (intros d; destruct (Nat.eqb (key d) u); reflexivity). apply l_not_in_u. }
    assert (Nn : ~ In u (keys newl)) by now rewrite newl_keys.
    assert (EX : X = img (fun c => if Nat.eqb (root_key c) l then Some [] else if Nat.eqb (root_key c) u then Some [c; newl] else None) t1).
    { unfold X. clear OK Q Q2 N1 K1 X. revert Hu1. generalize t1 as z. induction z as [d ch IH] using tree_ind'. intros Hu1. rewrite detach_T, img_T. cbn [insert_after]. f_equal. rewrite Forall_forall in IH. induction ch as [|c ch IHc]; [reflexivity|]. cbn [flat_map]. rewrite flat_map_app. f_equal.
      - unfold rpl. destruct (Nat.eqb_spec (root_key c) l) as [E|E]; [reflexivity|]. cbn [flat_map app]. rewrite root_detach. destruct (Nat.eqb_spec (root_key c) u) as [G|G].
        + cbn. rewrite detach_out; [reflexivity|]. apply Hu1; [right; cbn; apply in_or_app; left; apply subs_self|exact G].
        + cbn. f_equal. apply IH; [now left|]. intros x Hx. apply Hu1. right. cbn. apply in_or_app. now left.
      - apply IHc; [intros x Hx; apply IH; now right|]. intros x [<-|Hx].
        + intros E. specialize (Hu1 (T d (c :: ch)) (or_introl eq_refl) E). intros K. apply Hu1. rewrite keys_cons in *. destruct K as [K|K]; [now left|right; cbn; apply in_or_app; now right].
        + apply Hu1. right. cbn. apply in_or_app. now right. }
    assert (Rf : forall d k, In d (flat X) -> refers_to d k -> exists d0, In d0 (flat t) /\ refers_to d0 k).
    { assert (R1 : forall d k, In d (flat t1) -> refers_to d k -> exists d0, In d0 (flat t) /\ refers_to d0 k).
      { intros d k Hd (x & Hx & E). unfold t1, upd in Hd. rewrite flat_tmap in Hd. apply in_map_iff in Hd. destruct Hd as (d0 & <- & Hd0). exists d0. split; [exact Hd0|]. exists x. split; [|exact E]. destruct (Nat.eqb (key d0) u); [|exact Hx]. unfold h, d_rm, rm_attr in Hx. cbn in Hx. now apply filter_In in Hx. }
      intros d k Hd. rewrite EX in Hd. apply flat_img in Hd. destruct Hd as [Hd|(r & ls & x & Hr & Er & Hx & Hd)]; [now apply R1|]. destruct (Nat.eqb (root_key r) l); [inversion Er; subst; destruct Hx|]. destruct (Nat.eqb (root_key r) u); [|discriminate]. inversion Er; subst. destruct Hx as [<-|[<-|[]]].
      - apply R1. apply reps_spec in Hr. destruct Hr as [Hr _]. apply in_kids_subs in Hr. rewrite <- map_data_subs in Hd. apply in_map_iff in Hd. destruct Hd as (y & <- & Hy). apply data_of_sub. exact (subs_trans _ _ _ Hr Hy).
      - apply refs_newl. exact Hd. }
    rewrite unlink_none.
    - unfold X. rewrite insert_detach; [|exact u_ne_l|reflexivity|exact Nn|exact Hu1]. unfold t1. apply img_upd.
      + intros s s' E. unfold swap. now rewrite E.
      + intros s E. unfold swap. rewrite E, Nat.eqb_refl. destruct (Nat.eqb u l); discriminate.
      + reflexivity.
      + apply root_ne.
    - intros d k Hd Hk Hr. destruct (Rf d k Hd Hr) as (d0 & Hd0 & Hr0). refine (unref k _ d0 Hd0 Hr0). unfold sub_keys in Hk. destruct (find_sub u X) as [s|] eqn:E; [|destruct Hk]. apply find_sub_some in E. destruct E as [Hs Es]. rewrite EX in Hs. apply subs_img in Hs.
      assert (Z : forall r, In r (subs t1) -> root_key r = u -> forall y, In y (subs r) -> forall j, In j (keys y) -> In j (keys U)).
      { intros r Hr' Er y Hy j Hj. apply (keys_sub y r j Hy) in Hj. unfold t1, upd in Hr'. rewrite subs_tmap in Hr'. apply in_map_iff in Hr'. destruct Hr' as (c0 & <- & Hc0). assert (c0 = U). { apply is_U; [exact Hc0|]. rewrite <- Er. destruct c0 as [dc cc]. unfold root_key. cbn. destruct (Nat.eqb (key dc) u); reflexivity. }
        subst c0. rewrite keys_tmap in Hj by (intros z; destruct (Nat.eqb (key z) u); reflexivity). exact Hj. }
      destruct Hs as [(s0 & Hs0 & -> & [->|G])|(r & ls & y & Hr' & Er & Hy & Hs)].
      + exfalso. rewrite root_img in Es. apply (proj1 root_ne). rewrite <- Es. unfold t1, upd. destruct t as [dt ct]. unfold root_key. cbn. destruct (Nat.eqb (key dt) u); reflexivity.
      + exfalso. rewrite root_img in Es. rewrite Es, Nat.eqb_refl in G. destruct (Nat.eqb u l); discriminate.
      + destruct (Nat.eqb (root_key r) l); [inversion Er; subst; destruct Hy|]. destruct (Nat.eqb_spec (root_key r) u) as [Gu|]; [|discriminate]. inversion Er; subst ls. apply reps_spec in Hr'. destruct Hr' as [Hr' _]. apply in_kids_subs in Hr'. destruct Hy as [<-|[<-|[]]].
        * exact (Z r Hr' Gu s Hs k Hk).
        * exfalso. apply Nn. rewrite <- Es. apply key_in_sub. exact Hs.
  Qed.

  (** What is where in the new document. *)
  Let g := swap u l newl.
  Lemma g_none s : g s = None <-> root_key s <> u /\ root_key s <> l.
  Proof. unfold g, swap. destruct (Nat.eqb_spec (root_key s) l), (Nat.eqb_spec (root_key s) u); split; try discriminate; intuition congruence. Qed.
  Lemma g_U : g U = Some [newl].
  Proof. unfold g, swap. fold u. destruct (Nat.eqb_spec u l) as [E|_]; [destruct (u_ne_l E)|]. now rewrite Nat.eqb_refl. Qed.
  Lemma g_L : g L = Some [].
  Proof. unfold g, swap. fold l. now rewrite Nat.eqb_refl. Qed.
  Lemma g_cases r : In r (subs t) -> g r <> None -> r = U \/ r = L.
  Proof. intros Hr G. unfold g, swap in G. destruct (Nat.eqb_spec (root_key r) l); [right; now apply is_L|]. destruct (Nat.eqb_spec (root_key r) u); [left; now apply is_U|destruct (G eq_refl)]. Qed.
  Lemma below_kids s t0 : In s (subs t0) -> s <> t0 -> In s (flat_map subs (kids t0)).
  Proof. destruct t0. intros [<-|H] E; [destruct (E eq_refl)|exact H]. Qed.
  Lemma U_below : In U (flat_map subs (kids t)).
  Proof. apply below_kids; [exact HU|]. intros E. apply (proj1 root_ne). now rewrite <- E. Qed.
  Lemma L_below : In L (flat_map subs (kids t)).
  Proof. apply below_kids; [exact HL|]. intros E. apply (proj2 root_ne). now rewrite <- E. Qed.
  Lemma U_reps : In U (reps g t).
  Proof.
    apply reps_complete; [exact U_below|rewrite g_U; discriminate|]. intros r Hr G K. apply in_kids_subs in Hr. destruct (g_cases r Hr G) as [-> | ->]; [reflexivity|]. destruct (NU K).
  Qed.
  Lemma outside_kept s : In s (subs t) -> ~ In (root_key s) (keys U) -> ~ In (root_key s) (keys L) -> forall r, In r (flat_map subs (kids t)) -> g r <> None -> ~ In (root_key s) (keys r).
  Proof. intros Hs A B r Hr G. apply in_kids_subs in Hr. destruct (g_cases r Hr G) as [-> | ->]; assumption. Qed.
  Lemma newl_subs s : In s (subs newl) -> In s (subs t').
  Proof. apply (reps_sub g t U [newl] newl U_reps g_U). now left. Qed.
  Lemma newl_place a : In (a, U) (places [] t) -> In (a, newl) (places [] t').
  Proof. intros P. apply (reps_place g t U [newl] newl [] a U_reps P N g_U). now left. Qed.
  (** Nothing is replaced inside of [L]. *)
  Lemma inside_L s : In s (flat_map subs (kids L)) -> g s = None /\ img g s = s /\ In s (subs t').
  Proof.
    intros Hs. assert (A : forall x, In x (flat_map subs (kids L)) -> g x = None).
    { intros x Hx. apply g_none. split; intros E; [apply NU; fold u; rewrite <- E; apply key_in_sub; now apply in_kids_subs|]. assert (X : x = L) by (apply is_L; [apply (subs_trans t L); [exact HL|now apply in_kids_subs]|exact E]). subst x. exact (self_not_below L (sub_NoDup L t N HL) Hx). }
    split; [now apply A|]. split.
    - apply img_id. intros x Hx. apply A. apply in_flat_map in Hs. destruct Hs as (c & Hc & Hs). apply in_flat_map. exists c. split; [exact Hc|]. apply (subs_trans c s x Hs). now apply in_kids_subs.
    - apply newl_subs. right. exact Hs.
  Qed.
  Lemma kids_L_id : flat_map (rpl g) (kids L) = kids L.
  Proof. apply rpls_id. intros s Hs. now apply inside_L. Qed.
  (** Subtrees other than [L] that are not inside [U] are still there. *)
  Lemma kept s : In s (subs t) -> root_key s <> l -> ~ In (root_key s) (keys U) -> In (img g s) (subs t') /\ rpl g s = [img g s].
  Proof.
    intros Hs A B. assert (G : g s = None) by (apply g_none; split; [intros E; apply B; rewrite E; unfold u, root_key, keys; apply in_map, flat_self|exact A]). split; [|unfold rpl; now rewrite G].
    destruct (in_dec Nat.eq_dec (root_key s) (keys L)) as [K|K].
    - assert (X : In s (flat_map subs (kids L))). { apply sub_of_key in K. destruct K as (x & Hx & E). assert (x = s) by (apply (sub_unique t); auto; exact (subs_trans t L x HL Hx)). subst x. apply below_kids; [exact Hx|]. intros ->. now apply A. }
      destruct (inside_L s X) as (_ & -> & Q). exact Q.
    - apply img_sub; [exact Hs|]. now apply outside_kept.
  Qed.
  Lemma keys_t' k : In k (keys t') -> In k (keys t).
  Proof.
    intros K. apply in_map_iff in K. destruct K as (d & <- & Hd). apply flat_img in Hd. destruct Hd as [Hd|(r & ls & x & Hr & Er & Hx & Hd)]; [unfold keys; now apply in_map|]. apply reps_spec in Hr. destruct Hr as [Hr _]. apply in_kids_subs in Hr.
    fold g in Er. destruct (g_cases r Hr) as [-> | ->]; [congruence| |].
    - rewrite g_U in Er. inversion Er; subst. destruct Hx as [<-|[]]. apply (keys_sub L t); [exact HL|]. rewrite <- newl_keys. unfold keys. now apply in_map.
    - rewrite g_L in Er. inversion Er; subst. destruct Hx.
  Qed.
  Lemma refs_kept d : In d (flat t) -> forall k, refers_to d k -> ~ In k (keys U).
  Proof. intros Hd k Hr K. exact (unref k K d Hd Hr). Qed.
  Lemma not_L_kid s : In s (subs t) -> tag (data s) <> TEl EDefs -> forall c, In c (kids s) -> In c (subs t) /\ root_key c <> l.
  Proof.
    intros Hs D c Hc. split; [apply (subs_trans t s); [exact Hs|]; apply in_kids_subs; apply in_flat_map; exists c; split; [exact Hc|apply subs_self]|]. intros E. destruct (sub_place s t [] Hs) as (a & P). pose proof (place_kid t [] a s c P Hc) as Pc.
    destruct (r_defs _ _ _ R) as (p & b & PL & T). assert (X : (data s :: a, c) = (p :: b, L)) by (apply (place_unique t []); auto). inversion X; subst. contradiction.
  Qed.
  Lemma href_refers d k : d_get d AXlinkHref = Some (VLink k) -> refers_to d k.
  Proof. intros E. rewrite get_lk in E. apply lk_some in E. destruct E as (x & Hx & _ & Ex). exists x. split; [exact Hx|]. now rewrite Ex. Qed.
  Lemma href_target d s : In d (flat t) -> key d <> u -> In s (subs t) -> d_get d AXlinkHref = Some (VLink (root_key s)) -> root_key s <> l /\ ~ In (root_key s) (keys U).
  Proof.
    intros Hd Nd Hs E. split; [|exact (refs_kept d Hd _ (href_refers _ _ E))]. intros El. apply href_refers in E. destruct E as (x & Hx & Ex). rewrite El in Ex. destruct (r_once _ _ _ R d x Hd Hx Ex) as [-> _]. now apply Nd.
  Qed.
  (** Merging two layers. *)
  Lemma same_merge m0 x x' : same x x' ->
    (effects du = [] \/ effects dl = [] /\ d_has dl AOpacity = false /\ d_has dl ATransform = false) ->
    same [layer du (t_mul m0 (use_ts uu du)) [layer dl (t_mul (t_mul m0 (use_ts uu du)) (ts_of dl)) x]] [layer (merged du dl) (t_mul m0 (ts_of (merged du dl))) x'].
  Proof.
    intros S E. rewrite (ts_merged uu du dl Ndu Hunits Hdis Hmoved m0). set (M := t_mul (t_mul m0 (use_ts uu du)) (ts_of dl)). unfold layer. rewrite (opacity_merged du dl Ndu Hdis Hmoved).
    assert (I : forall a, In a effect_attrs -> In a effect_attrs) by auto. destruct E as [E|(E & O & Q)].
    - unfold effects. rewrite (given_merged_l du dl Ndu Hmoved effect_attrs I E). unfold effects in E. rewrite E. eapply same_trans; [apply same_nested|]. apply same_layer; auto.
    - unfold effects. rewrite (given_merged_r du dl Ndu Hmoved effect_attrs I E). unfold effects in E. rewrite E. assert (X : opacity_of dl = q1) by (unfold opacity_of; apply has_get_none in O; now rewrite O). assert (Y : ts_of dl = t_id) by (unfold ts_of; apply has_get_none in Q; now rewrite Q).
      unfold M. rewrite X, Y, t_mul_id_r. replace (opacity_of du * q1)%Qc with (opacity_of du) by (change q1 with 1%Qc; ring). apply same_layer; [now right|]. eapply same_trans; [apply same_plain|exact S].
  Qed.
  Lemma effects_ok : effects du = [] \/ effects dl = [] /\ d_has dl AOpacity = false /\ d_has dl ATransform = false.
  Proof. destruct (f_effects _ _ _ F) as [E|(_ & _ & E)]; auto. Qed.
  Lemma style_L anc anc' : same_style anc (du :: anc') -> same_style (dl :: anc) (merged du dl :: anc').
  Proof. intros H. eapply same_style_trans; [apply same_style_cons; exact H|]. exact (style_merged du dl Ndu Hdis Hmoved anc'). Qed.
  Lemma disp_merged : displayed (merged du dl) <-> displayed du /\ displayed dl.
  Proof. exact (displayed_merged du dl Ndu Hdis Hmoved). Qed.
  Lemma no_filter_nil d m : effects d = [] -> same [layer d m []] [].
  Proof. intros E. unfold layer. rewrite E. apply same_empty. cbn. auto. Qed.
  Lemma tag_merged : tag (merged du dl) = tag dl. Proof. reflexivity. Qed.
  Lemma shape_clean d ch : In (T d ch) (subs t) -> shape_el d -> T d ch <> L -> img g (T d ch) = T d ch.
  Proof.
    intros Hs S NL. apply img_id. intros x Hx. apply g_none. assert (Hx' : In x (subs t)) by (apply (subs_trans t (T d ch)); [exact Hs|now apply in_kids_subs]). split; intros E.
    - assert (x = U) by now apply is_U. subst x. destruct (under_place t (T d ch) U Hs Hx) as (a & P & I). exact (f_place _ _ _ F a d (or_introl P) I S).
    - assert (x = L) by now apply is_L. subst x. destruct (under_place t (T d ch) L Hs Hx) as (a & P & I). exact (f_place _ _ _ F a d (or_intror P) I S).
  Qed.
  Lemma use_el d : tag d = TEl EUse -> forall e, In e [EG; EA; ESwitch; ESvg; EDefs] -> tag d <> TEl e.
  Proof. intros E e He H. rewrite E in H. inversion H; subst. cbn in He. intuition discriminate. Qed.
  Lemma root_T d ch : root_key (T d ch) = key d. Proof. reflexivity. Qed.
  Ltac not_u E := match type of E with In (T ?d ?ch) (subs t) => assert (key d <> u) by (intros Eu; assert (XU : T d ch = U) by (apply is_U; [exact E|exact Eu]); pose proof (proj2 (r_use _ _ _ R)) as TU; rewrite <- XU in TU; cbn [data] in TU; kinds) end.
  Lemma rpl_other s : root_key s <> u -> root_key s <> l -> rpl g s = [img g s].
  Proof. intros A B. unfold rpl. assert (G : g s = None) by now apply g_none. now rewrite G. Qed.
  Definition in_switch (ls : list tree) : Prop := forall s, In s ls -> exists p a, In (p :: a, s) (places [] t) /\ tag p = TEl ESwitch.

  Lemma simulation :
    (forall m anc s p, paint uu t m anc s p -> In s (subs t) ->
       (root_key s <> l -> forall anc', same_style anc anc' -> exists p', paints uu t' m anc' (rpl g s) p' /\ same p p') /\
       (s = L -> forall m0 anc', m = t_mul m0 (use_ts uu du) -> same_style anc (du :: anc') -> displayed du -> exists p', paint uu t' m0 anc' newl p' /\ same [layer du m p] p')) /\
    (forall m anc ls p, paints uu t m anc ls p -> (forall s, In s ls -> In s (subs t) /\ root_key s <> l) ->
       forall anc', same_style anc anc' -> exists p', paints uu t' m anc' (flat_map (rpl g) ls) p' /\ same p p') /\
    (forall m anc ls p, choices uu t m anc ls p -> (forall s, In s ls -> In s (subs t) /\ root_key s <> l) -> in_switch ls ->
       forall anc', same_style anc anc' -> exists p', choices uu t' m anc' (flat_map (rpl g) ls) p' /\ same p p').
  Proof.
    apply paint_all.
    - (* hidden *) intros m anc s H Hs. split.
      + intros Nl anc' Sa. exists []. split; [|apply same_refl]. destruct (Nat.eq_dec (root_key s) u) as [E|E].
        * assert (s = U) by now apply is_U. subst s. unfold rpl. rewrite g_U. apply paints_one. apply p_hidden. right. cbn [data newl]. intros D. apply disp_merged in D. destruct H as [H|H]; apply H; [apply painted_use; apply (r_use _ _ _ R)|apply D].
        * rewrite rpl_other by auto. apply paints_one. apply p_hidden. now rewrite data_img.
      + intros -> m0 anc' -> Sa D. exists []. split.
        * apply p_hidden. cbn [data newl]. destruct H as [H|H]; [left; exact H|right; intros Q; apply disp_merged in Q; tauto].
        * destruct (f_effects _ _ _ F) as [E|(P & Dl & _)]; [now apply no_filter_nil|]. exfalso. destruct H as [H|H]; [apply H; destruct P as [P|[P|P]]; auto with paint|contradiction].
    - (* shape *) intros m anc d ch S D Hs. split.
      + intros Nl anc' Sa. not_u Hs. rewrite rpl_other by auto. rewrite shape_clean; auto; [|intros E; apply Nl; now rewrite E]. eexists. split; [apply paints_one; apply p_shape; assumption|]. apply same_layer_of. apply same_shape; [apply like_refl|now apply same_style_cons].
      + intros E m0 anc' -> Sa Du. assert (Ed : d = dl) by (unfold dl; now rewrite <- E). subst d. exists [layer (merged du dl) (t_mul m0 (ts_of (merged du dl))) [PShape (merged du dl) ch (t_mul m0 (ts_of (merged du dl))) (merged du dl :: anc')]]. split.
        * assert (Ec : ch = kids L) by now rewrite <- E. unfold newl. rewrite <- Ec. apply p_shape; [exact S|now apply disp_merged].
        * apply same_merge; [|exact effects_ok]. rewrite (ts_merged uu du dl Ndu Hunits Hdis Hmoved m0). apply same_shape; [exact (like_merged uu du dl Ndu Hattrs Hmoved)|now apply style_L].
    - (* group *) intros m anc d ch ls G D P IH Hs. assert (Nd : tag (data (T d ch)) <> TEl EDefs) by (destruct G as [G|G]; cbn; rewrite G; discriminate). split.
      + intros Nl anc' Sa. not_u Hs. rewrite rpl_other by auto. destruct (IH (not_L_kid _ Hs Nd) (d :: anc') (same_style_cons d _ _ Sa)) as (p' & P' & S'). eexists. split; [apply paints_one; rewrite img_T; apply p_group; eassumption|now apply same_layer_of].
      + intros E m0 anc' -> Sa Du. assert (Ed : d = dl) by (unfold dl; now rewrite <- E). assert (Ec : ch = kids L) by now rewrite <- E. subst d ch. destruct (IH (not_L_kid _ Hs Nd) (merged du dl :: anc') (style_L _ _ Sa)) as (p' & P' & S'). rewrite kids_L_id in P'. eexists. split.
        * unfold newl. apply p_group; [exact G|now apply disp_merged|]. rewrite (ts_merged uu du dl Ndu Hunits Hdis Hmoved m0). exact P'.
        * apply same_merge; [exact S'|exact effects_ok].
    - (* switch *) intros m anc d ch ls G D P IH Hs. assert (Nd : tag (data (T d ch)) <> TEl EDefs) by (cbn; rewrite G; discriminate).
      assert (Sw : in_switch ch). { intros c Hc. destruct (sub_place _ _ [] Hs) as (a & Pl). exists d, a. split; [exact (place_kid t [] a _ c Pl Hc)|exact G]. } split.
      + intros Nl anc' Sa. not_u Hs. rewrite rpl_other by auto. destruct (IH (not_L_kid _ Hs Nd) Sw (d :: anc') (same_style_cons d _ _ Sa)) as (p' & P' & S'). eexists. split; [apply paints_one; rewrite img_T; apply p_switch; eassumption|]. apply same_layer_of. now apply same_switch.
      + intros E m0 anc' -> Sa Du. assert (Ed : d = dl) by (unfold dl; now rewrite <- E). assert (Ec : ch = kids L) by now rewrite <- E. subst d ch. destruct (IH (not_L_kid _ Hs Nd) Sw (merged du dl :: anc') (style_L _ _ Sa)) as (p' & P' & S'). rewrite kids_L_id in P'. eexists. split.
        * unfold newl. apply p_switch; [exact G|now apply disp_merged|]. rewrite (ts_merged uu du dl Ndu Hunits Hdis Hmoved m0). exact P'.
        * apply same_merge; [now apply same_switch|exact effects_ok].
    - (* svg *) intros m anc d ch ls G D P IH Hs. assert (Nd : tag (data (T d ch)) <> TEl EDefs) by (cbn; rewrite G; discriminate). split.
      + intros Nl anc' Sa. not_u Hs. rewrite rpl_other by auto. destruct (IH (not_L_kid _ Hs Nd) (d :: anc') (same_style_cons d _ _ Sa)) as (p' & P' & S'). eexists. split; [apply paints_one; rewrite img_T; apply p_svg; eassumption|]. apply same_layer_of. now apply same_view.
      + intros E. exfalso. apply (f_svg _ _ _ F). now rewrite <- E.
    - (* use *) intros m anc d ch s ls G D E Hx T1 T2 P IH Hs. split.
      + intros Nl anc' Sa. destruct (Nat.eq_dec (key d) u) as [Eu|Eu].
        * assert (XU : T d ch = U) by (apply is_U; [exact Hs|exact Eu]). assert (Ed : d = du) by (unfold du; now rewrite <- XU). subst d. assert (XL : s = L). { apply is_L; [exact Hx|]. destruct (r_link _ _ _ R) as [_ Q]. unfold du in E. rewrite E in Q. inversion Q as [Q0]. exact Q0. }
          destruct (proj2 (IH Hx) XL m anc' eq_refl (same_style_cons du _ _ Sa) D) as (p' & P' & S'). exists p'. split; [|exact S']. rewrite XU. unfold rpl. rewrite g_U. now apply paints_one.
        * rewrite rpl_other by auto. destruct (href_target d s) as [A B]; auto. { now apply (data_of_sub (T d ch)). } destruct (kept s Hx A B) as [K1 K2]. destruct (proj1 (IH Hx) A (d :: anc') (same_style_cons d _ _ Sa)) as (p' & P' & S'). rewrite K2 in P'. apply paints_one_inv in P'.
          eexists. split; [apply paints_one; rewrite img_T; apply (p_use uu t' m anc' d _ (img g s)); try rewrite root_img; try rewrite data_img; eassumption|]. now apply same_layer_of.
      + intros EL. exfalso. apply (proj2 (r_tag _ _ _ R)). now rewrite <- EL.
    - (* use of a view *) intros m anc d ch s ls G D E Hx V P IH Hs. split.
      + intros Nl anc' Sa. destruct (Nat.eq_dec (key d) u) as [Eu|Eu].
        * exfalso. assert (XU : T d ch = U) by (apply is_U; [exact Hs|exact Eu]). assert (Ed : d = du) by (unfold du; now rewrite <- XU). subst d. assert (XL : s = L). { apply is_L; [exact Hx|]. destruct (r_link _ _ _ R) as [_ Q]. unfold du in E. rewrite E in Q. inversion Q as [Q0]. exact Q0. }
          subst s. destruct V as [V|[V _]]; [now apply (proj1 (r_tag _ _ _ R))|now apply (f_svg _ _ _ F)].
        * rewrite rpl_other by auto. destruct (href_target d s) as [A B]; auto. { now apply (data_of_sub (T d ch)). } destruct (kept s Hx A B) as [K1 K2].
          assert (Nd : tag (data s) <> TEl EDefs) by (destruct V as [V|[V _]]; rewrite V; discriminate). destruct (IH (not_L_kid _ Hx Nd) (data s :: d :: anc') (same_style_cons _ _ _ (same_style_cons d _ _ Sa))) as (p' & P' & S').
          pose proof (p_use_view uu t' m anc' d (flat_map (rpl g) ch) (img g s) p' G D) as Q. rewrite root_img, data_img, kids_img in Q. specialize (Q E K1 V P'). eexists. split; [apply paints_one; rewrite img_T; exact Q|]. apply same_layer_of, same_layer_of. now apply same_view.
      + intros EL. exfalso. apply (proj2 (r_tag _ _ _ R)). now rewrite <- EL.
    - (* use of a hidden svg *) intros m anc d ch s G D E Hx V P Hs. split.
      + intros Nl anc' Sa. destruct (Nat.eq_dec (key d) u) as [Eu|Eu].
        * exfalso. assert (XU : T d ch = U) by (apply is_U; [exact Hs|exact Eu]). assert (Ed : d = du) by (unfold du; now rewrite <- XU). subst d. assert (XL : s = L). { apply is_L; [exact Hx|]. destruct (r_link _ _ _ R) as [_ Q]. unfold du in E. rewrite E in Q. inversion Q as [Q0]. exact Q0. }
          subst s. now apply (f_svg _ _ _ F).
        * rewrite rpl_other by auto. destruct (href_target d s) as [A B]; auto. { now apply (data_of_sub (T d ch)). } destruct (kept s Hx A B) as [K1 K2].
          pose proof (p_use_hidden uu t' m anc' d (flat_map (rpl g) ch) (img g s) G D) as Q. rewrite root_img, data_img in Q. exists []. split; [apply paints_one; rewrite img_T; now apply Q|apply same_refl].
      + intros EL. exfalso. apply (proj2 (r_tag _ _ _ R)). now rewrite <- EL.
    - (* use without a target *) intros m anc d ch G D E Hs. split.
      + intros Nl anc' Sa. destruct (Nat.eq_dec (key d) u) as [Eu|Eu].
        * exfalso. assert (XU : T d ch = U) by (apply is_U; [exact Hs|exact Eu]). destruct (r_link _ _ _ R) as [HL' Q]. apply (E L HL'). rewrite <- XU in Q. exact Q.
        * rewrite rpl_other by auto. exists []. split; [|apply same_refl]. apply paints_one. rewrite img_T. apply p_use_none; auto. intros s' Hs' Q. apply key_in_sub, keys_t', sub_of_key in Hs'. destruct Hs' as (x & Hx & Ex). apply (E x Hx). now rewrite Ex.
      + intros EL. exfalso. apply (proj2 (r_tag _ _ _ R)). now rewrite <- EL.
    - intros m anc _ anc' _. exists []. split; [constructor|apply same_refl].
    - intros m anc s ls p q _ IH1 _ IH2 H anc' Sa. destruct (H s (or_introl eq_refl)) as [Hs Nl]. destruct (proj1 (IH1 Hs) Nl anc' Sa) as (p' & P' & S'). destruct (IH2 (fun x Hx => H x (or_intror Hx)) anc' Sa) as (q' & Q' & T').
      exists (p' ++ q'). cbn [flat_map]. split; [now apply paints_app|now apply same_app].
    - intros m anc _ _ anc' _. exists []. split; [constructor|apply same_refl].
    - intros m anc s ls q Ne _ IH H Sw anc' Sa. destruct (H s (or_introl eq_refl)) as [Hs Nl]. destruct (IH (fun x Hx => H x (or_intror Hx)) (fun x Hx => Sw x (or_intror Hx)) anc' Sa) as (q' & Q' & T'). exists q'. split; [|exact T']. cbn [flat_map].
      rewrite rpl_other; [apply ch_skip; [now rewrite data_img|exact Q']| |exact Nl]. intros Eu. apply Ne. left. exists EUse. assert (s = U) by now apply is_U. subst s. apply (r_use _ _ _ R).
    - intros m anc s ls p q El _ IH1 _ IH2 H Sw anc' Sa. destruct (H s (or_introl eq_refl)) as [Hs Nl]. destruct (proj1 (IH1 Hs) Nl anc' Sa) as (p' & P' & S'). destruct (IH2 (fun x Hx => H x (or_intror Hx)) (fun x Hx => Sw x (or_intror Hx)) anc' Sa) as (q' & Q' & T'). cbn [flat_map].
      destruct (Nat.eq_dec (root_key s) u) as [Eu|Eu].
      + assert (s = U) by now apply is_U. subst s. unfold rpl in P' |- *. rewrite g_U in P' |- *. apply paints_one_inv in P'. destruct (Sw U (or_introl eq_refl)) as (pa & a & Pl & Tp). destruct (f_switch _ _ _ F pa a Pl Tp) as [Q1 Q2].
        exists (PAlt (given du condition_attrs) p' :: q'). split.
        * cbn [app]. assert (Eg : given (data newl) condition_attrs = given du condition_attrs). { apply (given_merged_r du dl Ndu Hmoved condition_attrs); [|exact Q2]. intros b Hb. unfold effect_attrs. apply in_or_app. now right. }
          rewrite <- Eg. apply ch_cons; [exact Q1|exact P'|exact Q'].
        * change (same ([PAlt (given du condition_attrs) p] ++ q) ([PAlt (given du condition_attrs) p'] ++ q')). apply same_app; [now apply same_alt|exact T'].
      + rewrite rpl_other in P' |- * by auto. apply paints_one_inv in P'. exists (PAlt (given (data s) condition_attrs) p' :: q'). split.
        * rewrite <- (data_img g s) at 1. apply ch_cons; [now rewrite data_img|exact P'|exact Q'].
        * change (same ([PAlt (given (data s) condition_attrs) p] ++ q) ([PAlt (given (data s) condition_attrs) p'] ++ q')). apply same_app; [now apply same_alt|exact T'].
  Qed.

  Lemma svg_t' s : svg_element t = Some s -> svg_element t' = Some (img g s) /\ root_key s <> l /\ root_key s <> u /\ In s (subs t).
  Proof.
    unfold svg_element. assert (Kt : forall c, In c (kids t) -> In c (subs t) /\ root_key c <> l) by (apply not_L_kid; [apply subs_self|rewrite Rt; discriminate]).
    replace (kids t') with (flat_map (rpl g) (kids t)) by (symmetry; apply kids_img). revert Kt. generalize (kids t) as ks. induction ks as [|c ks IH]; [discriminate|]. intros Kt. destruct (Kt c (or_introl eq_refl)) as [Hc Nc]. cbn [find flat_map].
    destruct (is_tag ESvg (data c)) eqn:E.
    - intros Q. inversion Q; subst s. assert (Nu : root_key c <> u). { intros X. assert (c = U) by now apply is_U. subst c. pose proof (proj2 (r_use _ _ _ R)) as TU. unfold is_tag in E. rewrite TU in E. discriminate. }
      rewrite rpl_other by auto. cbn [app find]. rewrite data_img, E. auto.
    - intros Q. destruct (IH (fun x Hx => Kt x (or_intror Hx)) Q) as (A & B). split; [|exact B]. destruct (Nat.eq_dec (root_key c) u) as [X|X].
      + assert (c = U) by now apply is_U. subst c. unfold rpl at 1. rewrite g_U. cbn [app find newl data]. destruct (is_tag ESvg (merged du dl)) eqn:Z; [|exact A]. exfalso. apply (f_svg _ _ _ F). unfold is_tag in Z. rewrite tag_merged in Z. fold dl. destruct (tag dl) as [|e|?|?|?|?]; try discriminate. destruct (eid_eqb_spec e ESvg); [now subst|discriminate].
      + rewrite rpl_other by auto. cbn [app find]. rewrite data_img, E. exact A.
  Qed.
  Lemma not_in_UL d : In d (flat t) -> resource d -> ~ In (key d) (keys U) /\ ~ In (key d) (keys L).
  Proof.
    intros Hd Rd. split; intros K; apply in_map_iff in K; destruct K as (x & Ex & Hx).
    - assert (x = d). { apply (data_unique t); auto. rewrite <- map_data_subs in Hx. apply in_map_iff in Hx. destruct Hx as (y & <- & Hy). apply data_of_sub. exact (subs_trans t U y HU Hy). } subst x.
      apply flat_cases in Hx. destruct Hx as [->|Hx].
      + pose proof (proj2 (r_use _ _ _ R)) as TU. destruct Rd as (e & Te & He). rewrite Te in TU. inversion TU; subst e. cbn in He. intuition discriminate.
      + exact (proj1 (proj2 (f_inside _ _ _ F d Hx)) Rd).
    - assert (x = d). { apply (data_unique t); auto. rewrite <- map_data_subs in Hx. apply in_map_iff in Hx. destruct Hx as (y & <- & Hy). apply data_of_sub. exact (subs_trans t L y HL Hy). } subst x. exact (f_resource _ _ _ F d Hx Rd).
  Qed.
  Lemma step_drawing : same_drawing uu t t'.
  Proof.
    destruct simulation as (S1 & S2 & _). split.
    - intros p (s & E & P). destruct (svg_t' s E) as (E' & A & B & Hs). destruct (proj1 (S1 _ _ _ _ P Hs) A [data t] (same_style_refl _)) as (p' & P' & Sp). rewrite rpl_other in P' by auto. apply paints_one_inv in P'. exists p'. split; [|exact Sp]. exists (img g s). split; [exact E'|]. unfold t' in *. now rewrite data_img.
    - intros d p Hd Rd (anc & s & P & K & Q). destruct (not_in_UL d Hd Rd) as [NA NB]. assert (Hs : In s (subs t)) by exact (place_sub _ _ _ _ P). assert (Ed : data s = d). { apply (data_unique t); auto. now apply data_of_sub. }
      assert (Out : forall r, In r (flat_map subs (kids t)) -> g r <> None -> ~ In (root_key s) (keys r)) by (apply outside_kept; [exact Hs|now rewrite K|now rewrite K]). split.
      + apply img_flat; [exact Hd|]. rewrite <- K. exact Out.
      + assert (Nd : tag (data s) <> TEl EDefs) by (rewrite Ed; destruct Rd as (e & Te & He); rewrite Te; intros X; inversion X; subst; cbn in He; intuition discriminate).
        destruct (S2 _ _ _ _ Q (not_L_kid s Hs Nd) (data s :: anc) (same_style_refl _)) as (p' & P' & Sp). exists p'. split; [|exact Sp]. exists anc, (img g s). split; [now apply img_place|]. rewrite root_img, data_img, kids_img. auto.
  Qed.

  (** The new document is in order. *)
  Lemma flat_t' d : In d (flat t') -> (In d (flat t) /\ key d <> l /\ key d <> u) \/ d = merged du dl \/ In d (flat_map flat (kids L)).
  Proof.
    intros Hd. rewrite <- map_data_subs in Hd. apply in_map_iff in Hd. destruct Hd as (s' & <- & Hs'). apply subs_img in Hs'. destruct Hs' as [(s & Hs & -> & Q)|(r & ls & x & Hr & Er & Hx & Hs)].
    - left. rewrite data_img. split; [now apply data_of_sub|]. change (root_key s <> l /\ root_key s <> u). destruct Q as [-> | Q]; [split; apply root_ne|]. apply g_none in Q. tauto.
    - right. apply reps_spec in Hr. destruct Hr as [Hr G]. apply in_kids_subs in Hr. fold g in Er, G. destruct (g_cases r Hr G) as [-> | ->]; [rewrite g_U in Er|rewrite g_L in Er]; inversion Er; subst; [|destruct Hx]. destruct Hx as [<-|[]]. destruct Hs as [<-|Hs]; [now left|right]. apply in_flat_map in Hs. destruct Hs as (c & Hc & Hs). apply in_flat_map. exists c. split; [exact Hc|now apply data_of_sub].
  Qed.
  Lemma below_L d : In d (flat_map flat (kids L)) -> In d (flat t) /\ key d <> l /\ key d <> u.
  Proof.
    intros H. apply in_flat_map in H. destruct H as (c & Hc & H). rewrite <- map_data_subs in H. apply in_map_iff in H. destruct H as (s & <- & Hs). assert (X : In s (flat_map subs (kids L))) by (apply in_flat_map; eauto). split; [apply data_of_sub; apply (subs_trans t L); [exact HL|now apply in_kids_subs]|].
    destruct (inside_L s X) as (Q & _). apply g_none in Q. unfold root_key in Q. tauto.
  Qed.
  Lemma old_data d : In d (flat t') -> d = merged du dl \/ (In d (flat t) /\ key d <> l /\ key d <> u).
  Proof. intros H. destruct (flat_t' d H) as [A|[A|A]]; [right; exact A|left; exact A|right; now apply below_L]. Qed.
  Lemma reps_perm : exists rs, Permutation (reps g t) (U :: rs) /\ (rs = [] \/ rs = [L]) .
  Proof.
    assert (Nr : NoDup (reps g t)) by (apply reps_nodup; exact N).
    assert (In_r : forall r, In r (reps g t) -> r = U \/ r = L). { intros r Hr. apply reps_spec in Hr. destruct Hr as [Hr G]. apply in_kids_subs in Hr. now apply g_cases. }
    pose proof U_reps as HUr. destruct (in_split _ _ HUr) as (l1 & l2 & E). exists (l1 ++ l2). split; [rewrite E; symmetry; apply Permutation_middle|]. rewrite E in Nr. pose proof (NoDup_remove_1 _ _ _ Nr) as Nr1. pose proof (NoDup_remove_2 _ _ _ Nr) as Nr2.
    assert (All : forall r, In r (l1 ++ l2) -> r = L). { intros r Hr. destruct (In_r r) as [X|X]; [rewrite E; apply in_app_or in Hr; apply in_or_app; destruct Hr; [now left|right; now right]| |exact X]. subst r. contradiction. }
    destruct (l1 ++ l2) as [|a [|b rest]]; [now left|right; f_equal; apply All; now left|]. exfalso. assert (a = L) by (apply All; now left). assert (b = L) by (apply All; right; now left). subst. inversion Nr1 as [|? ? Z _]; subst. apply Z. now left.
  Qed.
  Lemma L_reps : In L (reps g t).
  Proof.
    apply reps_complete; [exact L_below|rewrite g_L; discriminate|]. intros r Hr G K. apply in_kids_subs in Hr. destruct (g_cases r Hr G) as [-> | ->]; [destruct (l_not_in_u K)|reflexivity].
  Qed.
  Lemma count_t' k : count_occ Nat.eq_dec (keys t') k + count_occ Nat.eq_dec (keys U) k = count_occ Nat.eq_dec (keys t) k.
  Proof.
    pose proof (count_img g t k) as C. destruct reps_perm as (rs & P & Q). assert (P' : Permutation (reps g t) [U; L]).
    { destruct Q as [-> | ->]; [|exact P]. exfalso. pose proof L_reps as I. rewrite P in I. destruct I as [I|[]]. apply NU. rewrite I. apply key_in_sub, subs_self. }
    assert (X : forall (f : tree -> list nat), count_occ Nat.eq_dec (flat_map f (reps g t)) k = count_occ Nat.eq_dec (f U) k + count_occ Nat.eq_dec (f L) k).
    { intros f. rewrite (proj1 (Permutation_count_occ Nat.eq_dec _ _) (Permutation_flat_map f P')). cbn [flat_map]. rewrite app_nil_r. apply count_occ_app. }
    rewrite !X in C. rewrite g_U, g_L in C. cbn [flat_map] in C. rewrite app_nil_r, newl_keys in C. change (img g t) with t' in C. cbn [count_occ] in C. lia.
  Qed.
  Lemma nodup_t' : NoDup (keys t').
  Proof. apply (NoDup_count_occ Nat.eq_dec). intros k. pose proof (proj1 (NoDup_count_occ Nat.eq_dec _) N k) as Q. pose proof (count_t' k). lia. Qed.
  Lemma u_gone k : In k (keys U) -> ~ In k (keys t').
  Proof. intros K K'. pose proof (proj1 (NoDup_count_occ Nat.eq_dec _) N k) as Q. pose proof (count_t' k) as C. apply (count_occ_In Nat.eq_dec) in K, K'. lia. Qed.
  Lemma key_kept k : In k (keys t) -> ~ In k (keys U) -> In k (keys t').
  Proof. intros K NK. pose proof (count_t' k) as C. apply (count_occ_In Nat.eq_dec) in K. apply (count_occ_not_In Nat.eq_dec) in NK. apply (count_occ_In Nat.eq_dec). lia. Qed.
  Lemma refs_t' d x k : In d (flat t') -> In x (attrs d) -> link_of (a_val x) = Some k -> exists d0, In d0 (flat t) /\ In x (attrs d0) /\ (d = d0 \/ d = merged du dl /\ (d0 = dl \/ d0 = du /\ a_name x <> AN AXlinkHref)).
  Proof.
    intros Hd Hx E. destruct (old_data d Hd) as [->|[A _]]; [|eauto]. destruct (merged_attr x Hx) as [A|[[A B]|A]]; [exists dl|exists du|congruence]; (split; [now apply data_of_sub|split; [exact A|right; auto]]).
  Qed.
  Lemma refers_t' d k : In d (flat t') -> refers_to d k -> exists d0, In d0 (flat t) /\ refers_to d0 k.
  Proof. intros Hd (x & Hx & E). destruct (refs_t' d x k Hd Hx E) as (d0 & A & B & _). exists d0. split; [exact A|exists x; auto]. Qed.
  Lemma WF_t' : WF t'.
  Proof.
    split; [exact nodup_t'|]. intros k Hk. apply targets_in in Hk. destruct Hk as (d & x & Hd & Hx & E). assert (Rk : refers_to d k) by (exists x; auto). destruct (refers_t' d k Hd Rk) as (d0 & Hd0 & R0). apply key_kept; [|exact (refs_kept d0 Hd0 k R0)].
    apply (wf_links t W). apply targets_in. destruct R0 as (y & Hy & Ey). exists d0, y. auto.
  Qed.
  Lemma WFA_t' : WFA t'.
  Proof.
    apply Forall_forall. intros d Hd. destruct (old_data d Hd) as [->|[A _]]; [exact (nodup_merged du dl Ndl)|exact (proj1 (Forall_forall _ _) WA d A)].
  Qed.
  Lemma ids_t' : own_ids t'.
  Proof.
    intros d n Hd Hn Rk. destruct (refers_t' d (key n) Hd Rk) as (d0 & Hd0 & R0). assert (O : forall x, In x (flat t') -> exists x0, In x0 (flat t) /\ key x0 = key x /\ nid x0 = nid x).
    { intros x Hx. destruct (old_data x Hx) as [->|[A _]]; [|eauto]. exists dl. split; [now apply data_of_sub|auto]. }
    destruct (O n Hn) as (n0 & Hn0 & K0 & I0). rewrite <- K0 in R0. destruct (Ids d0 n0 Hd0 Hn0 R0) as [A B]. rewrite I0 in A, B. split; [exact A|]. intros x Hx E. destruct (O x Hx) as (x0 & Hx0 & Kx & Ix). apply (data_unique t'); [exact nodup_t'|exact Hx|exact Hn|]. rewrite <- Kx, <- K0. f_equal. apply B; [exact Hx0|congruence].
  Qed.
  (** Where things are. *)
  Lemma place_image a s : In (a, s) (places [] t) -> root_key s <> l -> ~ In (root_key s) (keys U) ->
    exists a', In (a', img g s) (places [] t') /\ (a' = a \/ exists b aL aU, a = b ++ dl :: aL /\ a' = b ++ merged du dl :: aU /\ In (aU, U) (places [] t)).
  Proof.
    intros P A B. pose proof (place_sub _ _ _ _ P) as Hs. destruct (in_dec Nat.eq_dec (root_key s) (keys L)) as [K|K].
    - assert (X : In s (flat_map subs (kids L))). { apply sub_of_key in K. destruct K as (x & Hx & E). assert (x = s) by (apply (sub_unique t); auto; exact (subs_trans t L x HL Hx)). subst x. apply below_kids; [exact Hx|]. intros ->. now apply A. }
      destruct (inside_L s X) as (_ & -> & _). destruct (sub_place L t [] HL) as (aL & PL). destruct (sub_place U t [] HU) as (aU & PU). apply in_flat_map in X. destruct X as (c & Hc & X). destruct (sub_place s c [] X) as (b & Q).
      exists (b ++ merged du dl :: aU). split.
      + apply (place_kid t' [] aU newl c (newl_place aU PU)) in Hc. cbn [data newl] in Hc. exact (place_inside t' [] _ c b s Hc Q).
      + right. exists b, aL, aU. split; [|auto]. pose proof (place_inside t [] _ c b s (place_kid t [] aL L c PL Hc) Q) as P2. assert (Z : (a, s) = (b ++ data L :: aL, s)) by (apply (place_unique t []); auto). inversion Z. reflexivity.
    - exists a. split; [|now left]. apply img_place; [exact P|]. now apply outside_kept.
  Qed.
  Lemma place_back a s : In (a, img g s) (places [] t') -> In s (subs t) -> root_key s <> l -> ~ In (root_key s) (keys U) ->
    exists a0, In (a0, s) (places [] t) /\ (a = a0 \/ exists b aL aU, a0 = b ++ dl :: aL /\ a = b ++ merged du dl :: aU /\ In (aU, U) (places [] t)).
  Proof.
    intros P Hs A B. destruct (sub_place s t [] Hs) as (a0 & P0). destruct (place_image a0 s P0 A B) as (a' & P' & Q). exists a0. split; [exact P0|]. assert (Z : (a, img g s) = (a', img g s)) by (apply (place_unique t' []); auto using nodup_t'). inversion Z; subst a'. exact Q.
  Qed.
  (** Another pair. *)
  Lemma other_pair U2 L2 : replaceable t U2 L2 -> fits t U2 L2 -> root_key U2 <> u -> root_key L2 <> l -> In U2 (subs t') /\ replaceable t' U2 (img g L2) /\ fits t' U2 (img g L2).
  Proof.
    intros R2 F2 Nu Nl. assert (HU2 : In U2 (subs t)) by apply (r_use _ _ _ R2). assert (HL2 : In L2 (subs t)) by apply (r_link _ _ _ R2).
    assert (R2l : refers_to (data U2) (root_key L2)) by (apply href_refers; apply (r_link _ _ _ R2)).
    assert (NLU : ~ In (root_key L2) (keys U)) by exact (refs_kept _ (data_of_sub _ _ HU2) _ R2l).
    assert (NUU : ~ In (root_key U2) (keys U)).
    { intros K. apply sub_of_key in K. destruct K as (x & Hx & E). assert (x = U2) by (apply (sub_unique t); auto; exact (subs_trans t U x HU Hx)). subst x. assert (Hb : In U2 (flat_map subs (kids U))) by (apply below_kids; [exact Hx|intros ->; now apply Nu]).
      apply in_flat_map in Hb. destruct Hb as (c & Hc & Hb). apply data_of_sub in Hb. refine (proj1 (f_inside _ _ _ F (data U2) _) _); [apply in_flat_map; eauto|apply (r_use _ _ _ R2)]. }
    assert (NUl : root_key U2 <> l). { intros E. assert (U2 = L) by now apply is_L. subst U2. apply (proj2 (r_tag _ _ _ R)). apply (r_use _ _ _ R2). }
    assert (IU2 : img g U2 = U2).
    { apply img_id. intros x Hx. assert (Hx' : In x (subs t)) by (apply (subs_trans t U2); [exact HU2|now apply in_kids_subs]). apply g_none. apply in_flat_map in Hx. destruct Hx as (c & Hc & Hx). assert (I : In (data x) (flat_map flat (kids U2))) by (apply in_flat_map; exists c; split; [exact Hc|now apply data_of_sub]). split; intros E.
      - assert (x = U) by now apply is_U. subst x. apply (proj1 (f_inside _ _ _ F2 _ I)). apply (r_use _ _ _ R).
      - assert (x = L) by now apply is_L. subst x. apply (proj2 (proj2 (f_inside _ _ _ F2 _ I)) du); [now apply data_of_sub|exact u_refs_l]. }
    destruct (kept U2 HU2 NUl NUU) as [KU _]. rewrite IU2 in KU. destruct (kept L2 HL2 Nl NLU) as [KL _].
    assert (Shape : forall a0 a s, In (a0, s) (places [] t) -> (forall p, In p a0 -> ~ shape_el p) -> (a = a0 \/ exists b aL aU, a0 = b ++ dl :: aL /\ a = b ++ merged du dl :: aU /\ In (aU, U) (places [] t)) -> forall p, In p a -> ~ shape_el p).
    { intros a0 a s P0 Q [-> |(b & aL & aU & -> & -> & PU)] p Hp; [now apply Q|]. apply in_app_or in Hp. destruct Hp as [Hp|[<-|Hp]].
      - apply Q. apply in_or_app. now left.
      - apply (Q dl). apply in_or_app. right. now left.
      - apply (f_place _ _ _ F aU); auto. }
    assert (Head : forall a0 p a, (p :: a = a0 \/ exists b aL aU, a0 = b ++ dl :: aL /\ p :: a = b ++ merged du dl :: aU /\ In (aU, U) (places [] t)) -> exists p0 a1, a0 = p0 :: a1 /\ tag p = tag p0).
    { intros a0 p a [<-|(b & aL & aU & -> & E & _)]; [eauto|]. destruct b as [|x b]; cbn in *; inversion E; subst; [exists dl, aL|exists x, (b ++ dl :: aL)]; auto. }
    split; [exact KU|]. split; split.
    - split; [exact KU|apply (r_use _ _ _ R2)].
    - split; [exact KL|]. rewrite root_img. apply (r_link _ _ _ R2).
    - intros d Hd Rd. destruct (refers_t' d _ Hd Rd) as (d0 & A & B). exact (r_free _ _ _ R2 d0 A B).
    - destruct (r_defs _ _ _ R2) as (p & a & P & T). destruct (place_image (p :: a) L2 P Nl NLU) as (a' & P' & [-> |(b & aL & aU & E & -> & PU)]); [eauto|]. destruct b as [|x b]; cbn in *; inversion E; subst; [exists (merged du dl), aU|exists x, (b ++ merged du dl :: aU)]; auto.
    - rewrite data_img. apply (r_tag _ _ _ R2).
    - intros d x Hd Hx E. rewrite root_img in E. destruct (refs_t' d x _ Hd Hx E) as (d0 & A & B & C). destruct (r_once _ _ _ R2 d0 x A B E) as [D G]. destruct C as [-> |[-> [-> |[-> C]]]]; [auto| |contradiction].
      exfalso. apply (proj2 (r_tag _ _ _ R)). fold dl. rewrite D. apply (r_use _ _ _ R2).
    - exact (f_units _ _ _ F2).
    - exact (f_attrs _ _ _ F2).
    - rewrite data_img. exact (f_disjoint _ _ _ F2).
    - rewrite data_img. exact (f_moved _ _ _ F2).
    - rewrite data_img. exact (f_effects _ _ _ F2).
    - intros p a P T. rewrite data_img. rewrite <- IU2 in P. destruct (place_back _ U2 P HU2 NUl NUU) as (a0 & P0 & Q). destruct (Head a0 p a Q) as (p0 & a1 & -> & Ep). apply (f_switch _ _ _ F2 p0 a1 P0). congruence.
    - rewrite data_img. exact (f_svg _ _ _ F2).
    - intros d Hd. destruct (f_inside _ _ _ F2 d Hd) as (A & B & C). repeat split; auto. intros x Hx Rx. destruct (refers_t' x _ Hx Rx) as (x0 & X1 & X2). exact (C x0 X1 X2).
    - intros a p [P|P] Hp.
      + rewrite <- IU2 in P. destruct (place_back _ U2 P HU2 NUl NUU) as (a0 & P0 & Q). exact (Shape a0 a U2 P0 (fun q Hq => f_place _ _ _ F2 a0 q (or_introl P0) Hq) Q p Hp).
      + destruct (place_back _ L2 P HL2 Nl NLU) as (a0 & P0 & Q). exact (Shape a0 a L2 P0 (fun q Hq => f_place _ _ _ F2 a0 q (or_intror P0) Hq) Q p Hp).
    - intros d Hd. apply flat_img in Hd. destruct Hd as [Hd|(r & ls & x & Hr & Er & Hx & Hd)]; [exact (f_resource _ _ _ F2 d Hd)|]. apply reps_spec in Hr. destruct Hr as [Hr G]. apply in_kids_subs in Hr. apply (subs_trans t L2 r HL2) in Hr. fold g in Er, G.
      destruct (g_cases r Hr G) as [-> | ->]; [rewrite g_U in Er|rewrite g_L in Er]; inversion Er; subst ls; [|destruct Hx]. destruct Hx as [<-|[]]. destruct Hd as [<-|Hd].
      + intros (e & Te & He). apply (f_resource _ _ _ F dl (flat_self L)). exists e. auto.
      + apply (f_resource _ _ _ F d). now apply flat_kids_in.
  Qed.
  Lemma inner_uses L2 k : In L2 (subs t) -> In k (keys (img g L2)) -> In k (keys L2) \/ (In u (keys L2) /\ In k (keys L)).
  Proof.
    intros H2 K. apply in_map_iff in K. destruct K as (d & <- & Hd). apply flat_img in Hd. destruct Hd as [Hd|(r & ls & x & Hr & Er & Hx & Hd)]; [left; unfold keys; now apply in_map|]. apply reps_spec in Hr. destruct Hr as [Hr G]. apply in_kids_subs in Hr. pose proof (subs_trans t L2 r H2 Hr) as Hr'. fold g in Er, G.
    destruct (g_cases r Hr' G) as [-> | ->]; [rewrite g_U in Er|rewrite g_L in Er]; inversion Er; subst ls; [|destruct Hx]. destruct Hx as [<-|[]]. right. split; [now apply key_in_sub|]. rewrite <- newl_keys. unfold keys. now apply in_map.
  Qed.
End Step.
