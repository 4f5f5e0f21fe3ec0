(** group_defs does not abort if no inheritable link is moved around. *)
From Coq Require Import List Bool NArith Arith ZArith String Lia Permutation.
From Verif Require Import Names Num Value Dom DomFacts DomOps DomRemove Outcome APass Links VLoop Move MoveFacts RmUnusedDefs GroupDefs SpecGroupDefs GroupDefsProofs GroupDefsEnd.
Import ListNotations.
Local Open Scope nat_scope.

Lemma add_missing_in l : forall d x, In x (attrs (add_missing l d)) -> In x (attrs d) \/ (inheritable_attr x = true /\ exists y, In y l /\ In x (attrs y)).
Proof.
  unfold add_missing. set (xs := flat_map (fun p => filter inheritable_attr (attrs p)) l).
  assert (Hx : forall x, In x xs -> inheritable_attr x = true /\ exists y, In y l /\ In x (attrs y)).
  { intros x Hx. apply in_flat_map in Hx. destruct Hx as (y & Hy & Hx). apply filter_In in Hx. destruct Hx as [Hx I]. eauto. }
  clearbody xs. induction xs as [|x xs IH]; intros d y H; [auto|]. cbn [fold_left] in H. destruct (Hx x (or_introl eq_refl)) as [I Y]. destruct (add_attr_spec d x I) as (_ & _ & _ & S4).
  destruct (IH (fun z Hz => Hx z (or_intror Hz)) _ _ H) as [Q|Q]; [|auto]. destruct (S4 y Q) as [Q'| ->]; auto.
Qed.
Lemma ctx_swap s A B p : In p (ctx A s) -> exists l, fst p = l ++ A /\ In (l ++ B, snd p) (ctx B s).
Proof. rewrite (ctx_app s A), (ctx_app s B). intros H. apply in_map_iff in H. destruct H as ((l & x) & <- & H). exists l. split; [reflexivity|]. apply in_map_iff. exists (l, x). auto. Qed.
Lemma root_in_ctx t a c : In (a, c) (ctx [] t) -> In (data t) (c :: a).
Proof.
  destruct t as [d ch]. cbn [ctx data]. intros [E|H]; [injection E as <- <-; now left|]. apply in_flat_map in H. destruct H as (u & _ & H). rewrite ctx_app in H. apply in_map_iff in H. destruct H as ((l & x) & E & _). cbn in E. injection E as <- <-. right. apply in_or_app. right. now left.
Qed.
Record still (m sv : nat) (t : tree) : Prop := {
  st_own : forall p, In p (flat t) -> carries_link p -> key p <> m /\ key p <> sv;
  st_in : forall anc c p, In (anc, c) (ctx [] t) -> resolves c = true -> In p (c :: anc) -> ~ carries_link p }.
Section S.
  Variables m sv : nat.
  Lemma resolver_links t k d x : still m sv t -> In x (attrs (resolver k t d)) -> In x (attrs d) \/ link_of (a_val x) = None.
  Proof.
    intros J H. unfold resolver in H. destruct (context k t) as [[anc n]|] eqn:E; [|auto]. apply context_some in E. destruct E as [E _]. destruct (resolves n && _) eqn:R; [|auto]. apply andb_prop in R. destruct R as [R _].
    apply add_missing_in in H. destruct H as [H|(I & y & Hy & H)]; [auto|]. right. destruct (link_of (a_val x)) as [j|] eqn:L; [|reflexivity]. exfalso. apply (st_in m sv t J anc n y E R Hy). unfold inheritable_attr in I. destruct (a_name x) as [b|] eqn:En; [|discriminate]. exists x, b. rewrite L. repeat split; auto. discriminate.
  Qed.
  Lemma resolver_carries t k d : still m sv t -> carries_link (resolver k t d) -> carries_link d.
  Proof. intros J (x & b & Hx & I & L & M). destruct (resolver_links t k d x J Hx) as [H|H]; [exists x, b; auto|congruence]. Qed.
  Lemma resolves_sig d d' : sig d' = sig d -> resolves d' = resolves d. Proof. intros E. unfold resolves. now rewrite (sig_tag _ _ E). Qed.
  Lemma still_resolve t k : still m sv t -> still m sv (resolve_attrs k t).
  Proof.
    intros J. rewrite resolve_tmap. split.
    - intros p Hp C. rewrite flat_tmap in Hp. apply in_map_iff in Hp. destruct Hp as (d & <- & Hd). rewrite (sig_key _ _ (resolver_sig k t d)). apply (st_own m sv t J d Hd). exact (resolver_carries t k d J C).
    - intros anc c p Hc R Hp C. rewrite ctx_tmap0 in Hc. apply in_map_iff in Hc. destruct Hc as ((anc0 & c0) & E & Hc). cbn [fst snd] in E. injection E as <- <-. rewrite (resolves_sig _ _ (resolver_sig k t c0)) in R.
      assert (X : exists p0, In p0 (c0 :: anc0) /\ p = resolver k t p0). { destruct Hp as [<-|Hp]; [exists c0; split; [now left|reflexivity]|]. apply in_map_iff in Hp. destruct Hp as (p0 & <- & Hp). exists p0. split; [now right|reflexivity]. }
      destruct X as (p0 & Hp0 & ->). exact (st_in m sv t J anc0 c0 p0 Hc R Hp0 (resolver_carries t k p0 J C)).
  Qed.
  Lemma resolve_fine t k : NoDup (keys t) -> still m sv t -> resolve_ok k t = true.
  Proof.
    intros N J. unfold resolve_ok. apply forallb_forall. intros d' Hd'. rewrite resolve_tmap, flat_tmap in Hd'. apply in_map_iff in Hd'. destruct Hd' as (d & <- & Hd). rewrite (sig_key _ _ (resolver_sig k t d)), (find_data_in t d N Hd).
    apply forallb_forall. intros x Hx. destruct (a_name x) as [a|s] eqn:En; [|reflexivity]. destruct (resolver_links t k d x J Hx) as [H|H].
    - assert (X : d_has d a = true); [|now rewrite X]. unfold d_has, has_attr. destruct (get_attr (attrs d) a) eqn:G; [reflexivity|]. exfalso. apply (get_attr_none (attrs d) a) with (x := x) in G; auto.
    - unfold put_ok. rewrite H. apply orb_true_r.
  Qed.
  Lemma still_move t k : ok m sv t -> node_ok m sv t k -> still m sv t -> still m sv (move k m t).
  Proof.
    intros O K J. destruct (move_spec m sv t k O K) as (s & a & rest & dm & ds & _ & _ & Km & _ & Ks & P1 & P2 & Hr & O' & _ & Dt). split.
    - intros p Hp C. apply (st_own m sv t J p); [|exact C]. exact (Permutation_in p (move_perm m sv t k O K) Hp).
    - intros anc c p Hc R Hp C. apply (Permutation_in _ P2), in_app_iff in Hc. destruct Hc as [Hc|Hc]; [|exact (st_in m sv t J anc c p (Permutation_in _ (Permutation_sym P1) (in_or_app _ _ _ (or_intror Hc))) R Hp C)].
      pose proof (ctx_swap s [dm; ds; data t] a (anc, c) Hc) as (l & El & Hl). cbn [fst snd] in El, Hl. subst anc.
      assert (Q : forall p, In p (c :: l ++ a) -> ~ carries_link p). { intros q Hq. apply (st_in m sv t J (l ++ a) c q); [|exact R|exact Hq]. apply (Permutation_in _ (Permutation_sym P1)), in_or_app. left. exact Hl. }
      assert (In p (c :: l) \/ In p [dm; ds; data t]) as [H|H]. { destruct Hp as [<-|Hp]; [left; now left|]. apply in_app_iff in Hp. destruct Hp as [Hp|Hp]; [left; now right|now right]. }
      + apply (Q p); [|exact C]. destruct H as [<-|H]; [now left|right; apply in_or_app; now left].
      + assert (Hdm : In dm (flat t)). { apply (ctx_in_flat t [] ([ds; data t], dm)). apply (Permutation_in _ (Permutation_sym P1)), in_or_app. now right. }
        assert (Hds : In ds (flat t)). { destruct (ctx_anc_in t [] ([ds; data t], dm) ds) as [[]|X]; [apply (Permutation_in _ (Permutation_sym P1)), in_or_app; now right|now left|exact X]. }
        destruct H as [<-|[<-|[<-|[]]]].
        * exact (proj1 (st_own m sv t J dm Hdm C) Km).
        * exact (proj2 (st_own m sv t J ds Hds C) Ks).
        * assert (Z : In (data t) (c :: l ++ a)).
          { apply (root_in_ctx t (l ++ a) c). apply (Permutation_in _ (Permutation_sym P1)), in_or_app. left. exact Hl. }
          exact (Q _ Z C).
  Qed.
  Lemma moves_fine : forall rem t, ok m sv t -> is_svg_el (data t) = false -> (forall k, In k rem -> exists d, In d (flat t) /\ key d = k /\ is_ref d = true) -> still m sv t -> moves_ok m rem t = true.
  Proof.
    induction rem as [|k rem IH]; intros t O Rt Hk J; [reflexivity|]. cbn [moves_ok]. pose proof (ref_node_ok m sv t k O Rt (Hk k (or_introl eq_refl))) as K. rewrite resolve_fine; [|apply O|exact J]. cbn [andb].
    destruct (move_step_grows m sv t k O K) as (O' & [G _] & Sd & _). apply IH.
    - exact O'.
    - rewrite (svg_el_sig _ _ Sd). exact Rt.
    - intros j Hj. destruct (Hk j (or_intror Hj)) as (d & Hd & Kd & Rd). destruct (G d Hd) as (d' & Hd' & (S1 & _)). exists d'. split; [exact Hd'|]. split; [rewrite (sig_key _ _ S1); exact Kd|rewrite (is_ref_sig _ _ S1); exact Rd].
    - unfold move_step. pose proof (resolver_sig k t) as G'. apply still_move; [rewrite resolve_tmap; now apply ok_tmap|rewrite resolve_tmap; now apply node_ok_tmap|now apply still_resolve].
  Qed.
End S.
Lemma resolves_kind c : resolves c = true -> content_kind c.
Proof. unfold resolves, content_kind. destruct (tag c) as [|e| | | |]; try discriminate. intros H. exists e. split; [reflexivity|]. destruct e; try discriminate; cbn; auto 10. Qed.
Lemma defs_iff d : is_tag EDefs d = true <-> is_defs_el d.
Proof. unfold is_defs_el, is_tag. destruct (tag d) as [|e| | | |]; split; try discriminate; destruct (eid_eqb_spec e EDefs); congruence. Qed.
Lemma first_defs_el_some t d : first_defs t = Some d -> first_defs_el t d.
Proof.
  unfold first_defs, first_defs_el. induction (flat t) as [|y l IH]; [discriminate|]. cbn [find]. destruct (is_tag EDefs y) eqn:E.
  - intros H. injection H as <-. exists [], l. split; [reflexivity|]. split; [now apply defs_iff|intros ? []].
  - intros H. destruct (IH H) as (pre & post & -> & D & F). exists (y :: pre), post. split; [reflexivity|]. split; [exact D|]. intros z [<-|Hz]; [|auto]. intros X. apply defs_iff in X. congruence.
Qed.
Lemma still_first t svg m t1 : NoDup (keys t) -> tag (data t) = TRoot -> svg_element t = Some svg -> main_defs svg t = (m, t1) -> no_style_links t svg -> still m (root_key svg) t1.
Proof.
  intros N R Hs Hm (N1 & N2 & N3). destruct (first_step t svg m t1 N R Hs Hm) as (_ & _ & F).
  assert (Hsvg : In (data svg) (flat t)). { destruct (svg_ctx t svg Hs) as [C _]. exact (ctx_in_flat t [] _ C). }
  assert (Us : forall p, In p (flat t) -> carries_link p -> key p <> root_key svg). { intros p Hp C E. assert (p = data svg) by (apply (data_unique t); auto). subst p. auto. }
  destruct F as [(s & a & rest & E1 & E2 & E3 & E4 & E5 & E6)|(E1 & P & Nm)].
  - assert (Fl : forall p, In p (flat t1) -> In p (flat t)).
    { intros p Hp. rewrite <- (map_snd_ctx [] t1) in Hp. rewrite <- (map_snd_ctx [] t). apply (Permutation_in _ (Permutation_sym (Permutation_map snd E4))). apply (Permutation_in _ (Permutation_map snd E5)) in Hp. rewrite map_app, map_snd_ctx in *. exact Hp. }
    assert (Hd : In (data s) (flat t)) by (apply (ctx_in_flat t [] (a, data s)), ctx_place; eauto).
    split.
    + intros p Hp C. apply Fl in Hp. split; [|now apply Us]. intros E. assert (p = data s) by (apply (data_unique t); auto; congruence). subst p. exact (N1 _ (first_defs_el_some _ _ E1) C).
    + intros anc c p Hc Rc Hp C. apply (Permutation_in _ E5), in_app_iff in Hc. destruct Hc as [Hc|Hc]; [|exact (N3 anc c p (Permutation_in _ (Permutation_sym E4) (in_or_app _ _ _ (or_intror Hc))) (resolves_kind c Rc) Hp C)].
      destruct (ctx_swap s [data svg; data t] a (anc, c) Hc) as (l & El & Hl). cbn [fst snd] in El, Hl. subst anc. assert (Hl' : In (l ++ a, c) (ctx [] t)) by (apply (Permutation_in _ (Permutation_sym E4)), in_or_app; now left).
      assert (In p (c :: l) \/ In p [data svg; data t]) as [H|H]. { destruct Hp as [<-|Hp]; [left; now left|]. apply in_app_iff in Hp. destruct Hp as [Hp|Hp]; [left; now right|now right]. }
      * apply (N3 _ _ p Hl' (resolves_kind c Rc)); [|exact C]. destruct H as [<-|H]; [now left|right; apply in_or_app; now left].
      * destruct H as [<-|[<-|[]]]; [exact (N2 C)|]. exact (N3 _ _ _ Hl' (resolves_kind c Rc) (root_in_ctx t _ _ Hl') C).
  - split.
    + intros p Hp C. rewrite <- (map_snd_ctx [] t1) in Hp. apply (Permutation_in _ (Permutation_map snd P)) in Hp. cbn [map] in Hp. rewrite map_snd_ctx in Hp. destruct Hp as [<-|Hp]; [destruct C as (x & b & [] & _)|]. split; [|now apply Us]. intros E. apply Nm. rewrite <- E. now apply in_map.
    + intros anc c p Hc Rc Hp C. apply (Permutation_in _ P) in Hc. destruct Hc as [E|Hc]; [injection E as <- <-; discriminate|]. exact (N3 _ _ _ Hc (resolves_kind c Rc) Hp C).
Qed.
