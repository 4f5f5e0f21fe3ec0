(** Proofs for GroupDefs.v: the first and the last step. *)
From Coq Require Import List Bool NArith Arith ZArith String Lia Permutation.
From Verif Require Import Names Num Value Dom DomFacts DomOps DomRemove Outcome APass SpecDom SpecText TextProofs Visit Move MoveFacts RmUnusedDefs GroupDefs GroupDefsProofs.
Import ListNotations.
Local Open Scope nat_scope.

(** ** The last step *)
Definition cut_all (ks : list nat) (d : ndata) : ndata := with_attrs d (filter (fun a => negb (existsb (fun k => refers k a) ks)) (attrs d)).
Lemma filter_filter' {A} (f g : A -> bool) l : filter f (filter g l) = filter (fun x => g x && f x) l.
Proof. induction l as [|x l IH]; [reflexivity|]. cbn. destruct (g x); cbn; [destruct (f x); now rewrite IH|exact IH]. Qed.
Lemma cut_all_cons k ks d : cut_all (k :: ks) d = cut_all ks (cut_links k d).
Proof. unfold cut_all, cut_links, with_attrs. cbn. f_equal. rewrite filter_filter'. apply filter_ext. intros x. now rewrite negb_orb. Qed.
Lemma cut_all_nil d : cut_all [] d = d.
Proof. unfold cut_all. destruct d as [k g i at_]. cbn. unfold with_attrs. cbn. f_equal. induction at_ as [|x l IH]; [reflexivity|]. cbn. now rewrite IH. Qed.
Lemma last_step m sv : forall rem T, ok m sv T -> NoDup rem -> (forall k, In k rem -> node_ok m sv T k /\ forall p, In p (ctx [] T) -> child_of k p = false) ->
  let T' := remove_nodes rem T in ok m sv T' /\ sig (data T') = sig (data T) /\
  (forall p, In p (ctx [] T') <-> exists q, In q (ctx [] T) /\ ~ In (key (snd q)) rem /\ p = (map (cut_all rem) (fst q), cut_all rem (snd q))).
Proof.
  induction rem as [|k rem IH]; intros T O ND H; unfold remove_nodes; cbn [fold_left].
  - split; [exact O|]. split; [reflexivity|]. intros p. split.
    + intros Hp. exists p. split; [exact Hp|]. split; [auto|]. rewrite cut_all_nil. rewrite (map_ext _ (fun x => x) cut_all_nil), map_id. now destruct p.
    + intros (q & Hq & _ & ->). rewrite cut_all_nil. rewrite (map_ext _ (fun x => x) cut_all_nil), map_id. now destruct q.
  - inversion ND as [|? ? N1 N2]; subst. destruct (H k (or_introl eq_refl)) as [K L]. destruct (remove_leaf m sv T k O K L) as (O1 & S1 & C1). destruct (IH (remove k T) O1 N2) as (O2 & S2 & C2).
    + intros j Hj. destruct (H j (or_intror Hj)) as [(d & Hd & Kd & M1 & M2 & M3) Lj]. split.
      * exists (cut_links k d). split; [|split; [exact Kd|split; [exact M1|split; [exact M2|unfold root_key in *; now rewrite (sig_key _ _ S1)]]]].
        rewrite <- (map_snd_ctx [] T) in Hd. apply in_map_iff in Hd. destruct Hd as (q & Eq & Hq). subst d. change (cut_links k (snd q)) with (snd (map (cut_links k) (fst q), cut_links k (snd q))). apply (ctx_in_flat _ []). apply C1. exists q. split; [exact Hq|]. split; [|reflexivity]. intros X. apply N1. rewrite <- X, Kd. exact Hj.
      * intros p Hp. apply C1 in Hp. destruct Hp as (q & Hq & _ & ->). rewrite child_of_map by reflexivity. auto.
    + split; [exact O2|]. split; [unfold remove_nodes in S2; congruence|]. intros p. unfold remove_nodes in C2. rewrite C2. split.
      * intros (q & Hq & Nq & ->). apply C1 in Hq. destruct Hq as (q0 & Hq0 & Nq0 & ->). exists q0. split; [exact Hq0|]. cbn [fst snd] in *. split; [intros [X|X]; [now apply Nq0|now apply Nq]|]. rewrite cut_all_cons, map_map. f_equal. apply map_ext. intros x. symmetry. apply cut_all_cons.
      * intros (q & Hq & Nq & ->). exists (map (cut_links k) (fst q), cut_links k (snd q)). cbn [fst snd]. split; [apply C1; exists q; split; [exact Hq|split; [intros X; apply Nq; now left|reflexivity]]|]. split; [intros X; apply Nq; now right|]. rewrite cut_all_cons, map_map. f_equal. apply map_ext. intros x. apply cut_all_cons.
Qed.

(** ** The first step *)
Lemma ctx_insert t s dp ap f : NoDup (keys t) -> In (ap, dp) (ctx [] t) -> (forall l, Permutation (f l) (s :: l)) -> Permutation (ctx [] (set_kids (key dp) f t)) (ctx (dp :: ap) s ++ ctx [] t).
Proof.
  intros N H F. apply ctx_place in H. destruct H as (sp & Hsp & <-). destruct (ctx_set t sp ap [] N Hsp) as (pre & post & E1 & E2). change (key (data sp)) with (root_key sp). rewrite E2, E1.
  rewrite (Permutation_flat_map (ctx (data sp :: ap)) (F (kids sp))). cbn [flat_map]. destruct sp as [d cs]. cbn [data kids ctx].
  change ((ap, d) :: ctx (d :: ap) s ++ flat_map (ctx (d :: ap)) cs) with ([(ap, d)] ++ ctx (d :: ap) s ++ flat_map (ctx (d :: ap)) cs). change ((ap, d) :: flat_map (ctx (d :: ap)) cs) with ([(ap, d)] ++ flat_map (ctx (d :: ap)) cs).
  set (q := ctx (d :: ap) s). rewrite <- ?app_assoc. rewrite (Permutation_app_swap_app [(ap, d)] q). rewrite (Permutation_app_swap_app pre q). reflexivity.
Qed.
Lemma svg_split t s : svg_element t = Some s -> exists l r, kids t = l ++ s :: r /\ (forall x, In x l -> is_tag ESvg (data x) = false) /\ is_tag ESvg (data s) = true.
Proof.
  unfold svg_element. induction (kids t) as [|c l IH]; [discriminate|]. cbn. destruct (is_tag ESvg (data c)) eqn:E.
  - intros H. inversion H; subst. exists [], l. split; [reflexivity|]. split; [intros x []|exact E].
  - intros H. destruct (IH H) as (l1 & r & -> & H1 & H2). exists (c :: l1), r. split; [reflexivity|]. split; [|exact H2]. intros x [<-|Hx]; auto.
Qed.
Lemma fresh_not t : ~ In (fresh t) (keys t).
Proof.
  unfold fresh. assert (X : forall l k, In k l -> k <= fold_right Nat.max 0 l) by (induction l as [|y l IH]; intros k []; cbn; subst; [lia|specialize (IH k H); lia]). intros H. apply X in H. lia.
Qed.
Lemma defs_not_svg d : is_defs d = true -> is_tag ESvg d = true -> False.
Proof. unfold is_defs, is_tag. destruct (tag d) as [|e| | | |]; try discriminate. destruct (eid_eqb_spec e EDefs); [subst; discriminate|discriminate]. Qed.
Lemma defs_not_root t d : tag (data t) = TRoot -> is_defs d = true -> NoDup (keys t) -> In d (flat t) -> key d <> root_key t.
Proof. intros R D N H E. assert (d = data t) by (apply (data_unique t); auto using flat_self). subst. unfold is_defs, is_tag in D. rewrite R in D. discriminate. Qed.
Lemma prepend_kids svg t c l r : root_key t <> root_key svg -> kids t = l ++ svg :: r -> NoDup (keys t) ->
  kids (set_kids (root_key svg) (fun x => c :: x) t) = l ++ T (data svg) (c :: kids svg) :: r.
Proof.
  intros R E N. rewrite kids_set_kids by exact R. rewrite E, map_app. cbn [map]. rewrite keys_kids, E in N. inversion N as [|? ? _ N2]; subst. rewrite flat_map_app in N2. cbn [flat_map] in N2. apply NoDup_app_inv in N2. destruct N2 as (_ & N3 & N4). apply NoDup_app_inv in N3. destruct N3 as (_ & _ & N5).
  assert (K : In (root_key svg) (keys svg)) by (rewrite keys_kids; now left).
  rewrite (map_set_kids_out _ _ l), (map_set_kids_out _ _ r); [|intros X; exact (N5 _ K X)|intros X; apply (N4 _ X), in_or_app; now left]. f_equal. f_equal. destruct svg as [d cs]. unfold root_key. cbn. now rewrite Nat.eqb_refl.
Qed.
Lemma svg_not_root t svg : NoDup (keys t) -> svg_element t = Some svg -> root_key svg <> root_key t.
Proof.
  intros N H. destruct (svg_split t svg H) as (l & r & E & _). rewrite keys_kids, E in N. inversion N as [|? ? N1 _]; subst. intros X. apply N1. rewrite <- X. apply in_flat_map. exists svg. split; [apply in_elt|]. rewrite keys_kids. now left.
Qed.
Lemma svg_ctx t svg : svg_element t = Some svg -> In ([data t], data svg) (ctx [] t) /\ In ([data t], svg) (places [] t).
Proof.
  intros H. destruct (svg_split t svg H) as (l & r & E & _). assert (P1 : In ([data t], svg) (places [] t)) by (apply (place_kid t [] [] t); [destruct t; now left|rewrite E; apply in_elt]). split; [apply ctx_place; eauto|exact P1].
Qed.
Lemma flat_ctx_perm t' l : Permutation (ctx [] t') l -> Permutation (flat t') (map snd l).
Proof. intros P. rewrite <- (map_snd_ctx [] t'). now apply Permutation_map. Qed.
(** The main defs after the first step. *)
Lemma first_step t svg m t1 : NoDup (keys t) -> tag (data t) = TRoot -> svg_element t = Some svg -> main_defs svg t = (m, t1) ->
  ok m (root_key svg) t1 /\ data t1 = data t /\
  ((exists s a rest, first_defs t = Some (data s) /\ key (data s) = m /\ In (a, s) (places [] t) /\ Permutation (ctx [] t) (ctx a s ++ rest) /\ Permutation (ctx [] t1) (ctx [data svg; data t] s ++ rest) /\ In ([data t], data svg) rest) \/
   (first_defs t = None /\ Permutation (ctx [] t1) (([data svg; data t], ND m (TEl EDefs) "" []) :: ctx [] t) /\ ~ In m (keys t))).
Proof.
  intros N R Hs H. pose proof (svg_not_root t svg N Hs) as Nsr. destruct (svg_ctx t svg Hs) as [Cs Ps]. destruct (svg_split t svg Hs) as (l & r & E & Nl & Ts). unfold main_defs in H. destruct (first_defs t) as [d|] eqn:Fd.
  - unfold first_defs in Fd. pose proof (find_some _ _ Fd) as [Hd Dd]. set (k := key d) in *. assert (Nk : k <> root_key svg). { intros X. apply (defs_not_svg d Dd). assert (d = data svg) by (apply (data_unique t); auto; apply (ctx_in_flat t [] _ Cs)). now subst. }
    assert (Nkr : k <> root_key t) by (apply (defs_not_root t d); auto).
    assert (Pd : exists s a, In (a, s) (places [] t) /\ data s = d). { rewrite <- (map_snd_ctx [] t) in Hd. apply in_map_iff in Hd. destruct Hd as ([a d'] & Ed & Hd). cbn in Ed. subst d'. apply ctx_place in Hd. destruct Hd as (s & H1 & H2). eauto. }
    destruct Pd as (s & a & Pa & Es). assert (Ks : root_key s = k) by (unfold root_key, k; congruence). pose proof (find_sub_iff t s N (place_sub _ _ _ _ Pa)) as Fs. rewrite Ks in Fs. rewrite Fs in H.
    assert (Hmv : (m, t1) = (k, set_kids (root_key svg) (fun x => s :: x) (detach k t)) \/ ((m, t1) = (k, t) /\ exists c cs, kids svg = c :: cs /\ root_key c = k)).
    { destruct (kids svg) as [|c cs]; [left; now symmetry|]. destruct (Nat.eqb_spec (root_key c) k) as [X|X]; [right; split; [now symmetry|eauto]|left; now symmetry]. }
    destruct Hmv as [Hmv|[Hmv (c & cs & Ek & Kc)]]; inversion Hmv; subst m t1; clear H Hmv.
    + destruct (ctx_detach t s a [] N Pa) as (pre & post & E1 & E2); [congruence|]. rewrite Ks in E2. set (t0 := detach k t) in *.
      assert (Nin : ~ In (root_key svg) (keys s)).
      { intros X. rewrite <- (ctx_keys s a) in X. apply in_map_iff in X. destruct X as (p & Ep & Hp). assert (Hp' : In p (ctx [] t)) by (rewrite E1; apply in_or_app; right; apply in_or_app; now left).
        assert (Q : p = ([data t], data svg)) by (apply (ctx_unique t []); auto). subst p. apply ctx_rebase in Hp. destruct Hp as [Hp|(d0 & l0 & x & Hp & HB)].
        - inversion Hp as [[X1 X2]]. apply Nk. unfold root_key in *. rewrite <- Ks, <- X2. reflexivity.
        - inversion Hp as [[X1 X2 X3]]. destruct l0; [|discriminate]. cbn in X2. specialize (HB []). cbn in HB.
          assert (d0 = data s). { destruct s as [ds ch]. cbn in HB. destruct HB as [HB|HB]; [discriminate|]. apply in_flat_map in HB. destruct HB as (c0 & _ & HB). rewrite ctx_app in HB. apply in_map_iff in HB. destruct HB as ([q y] & Eq & _). inversion Eq as [[Y1 Y2]]. destruct q as [|? [|? ?]]; cbn in Y1; try discriminate. now inversion Y1. }
          subst d0. apply Nkr. unfold root_key in *. rewrite <- Ks, H. reflexivity. }
      assert (PT : Permutation (ctx [] t) (ctx a s ++ pre ++ post)) by (rewrite E1; apply Permutation_app_swap_app).
      assert (Cs0 : In ([data t], data svg) (pre ++ post)). { rewrite E1 in Cs. rewrite !in_app_iff in Cs. rewrite in_app_iff. destruct Cs as [Cs|[Cs|Cs]]; auto. exfalso. apply Nin. rewrite <- (ctx_keys s a). apply in_map_iff. exists ([data t], data svg). auto. }
      assert (N0 : NoDup (keys t0)). { rewrite <- (ctx_keys t0 []), E2. rewrite <- (ctx_keys t []) in N. apply (Permutation_NoDup (Permutation_map _ PT)) in N. rewrite map_app in N. apply NoDup_app_inv in N. tauto. }
      rewrite <- E2 in Cs0. pose proof (ctx_insert t0 s (data svg) [data t] (fun x => s :: x) N0 Cs0 (fun x => Permutation_refl _)) as P1. change (key (data svg)) with (root_key svg) in P1.
      assert (Kt0 : exists l0 sv0 r0, kids t0 = l0 ++ sv0 :: r0 /\ (forall x, In x l0 -> is_tag ESvg (data x) = false) /\ data sv0 = data svg).
      { exists (flat_map (fun c => if Nat.eqb (root_key c) k then [] else [detach k c]) l), (detach k svg), (flat_map (fun c => if Nat.eqb (root_key c) k then [] else [detach k c]) r). split; [|split].
        - unfold t0. rewrite detach_kids, E, flat_map_app. cbn [flat_map]. destruct (Nat.eqb_spec (root_key svg) k); [congruence|]. reflexivity.
        - intros x Hx. apply in_flat_map in Hx. destruct Hx as (y & Hy & Hx). destruct (Nat.eqb _ _); [contradiction|]. destruct Hx as [<-|[]]. rewrite data_detach. auto.
        - apply data_detach. }
      destruct Kt0 as (l0 & sv0 & r0 & E0 & Nl0 & D0). assert (K0 : root_key sv0 = root_key svg) by (unfold root_key; now rewrite D0).
      set (t1 := set_kids (root_key svg) (fun x => s :: x) t0) in *. assert (D1 : data t1 = data t) by (unfold t1; rewrite data_set_kids; apply data_detach).
      split; [split|split; [exact D1|]].
      * rewrite <- (ctx_keys t1 []). eapply Permutation_NoDup; [apply Permutation_sym, (Permutation_map _ P1)|]. rewrite E2, map_app, ctx_keys. rewrite <- (ctx_keys t []) in N. apply (Permutation_NoDup (Permutation_map _ PT)) in N. rewrite map_app, ctx_keys in N. exact N.
      * exists l0, (T (data sv0) (s :: kids sv0)), r0, s, (kids sv0). split; [|split; [exact Nl0|split; [cbn; now rewrite D0|split; [exact K0|split; [reflexivity|split; [exact Ks|now rewrite Es]]]]]].
        unfold t1. rewrite <- K0. apply prepend_kids; [rewrite K0; unfold t0; rewrite root_detach; auto|exact E0|exact N0].
      * unfold root_key in *. rewrite D1. auto.
      * left. exists s, a, (pre ++ post). split; [now rewrite Es|]. split; [exact Ks|]. split; [exact Pa|]. split; [exact PT|]. split; [rewrite <- E2; exact P1|rewrite <- E2; exact Cs0].
    + assert (Pc : In ([data svg; data t], c) (places [] t)) by (apply (place_kid t [] [data t] svg); [exact Ps|rewrite Ek; now left]). assert (X : (a, s) = ([data svg; data t], c)) by (apply (place_unique t []); auto; unfold root_key in *; cbn; congruence). inversion X; subst a s.
      split; [split|split; [reflexivity|]].
      * exact N.
      * exists l, svg, r, c, cs. rewrite Es. auto 10.
      * auto.
      * left. destruct (ctx_detach t c [data svg; data t] [] N Pc) as (pre & post & E1 & E2); [congruence|]. exists c, [data svg; data t], (pre ++ post). assert (PT : Permutation (ctx [] t) (ctx [data svg; data t] c ++ pre ++ post)) by (rewrite E1; apply Permutation_app_swap_app). split; [now rewrite Es|]. split; [exact Ks|]. split; [exact Pa|]. split; [exact PT|]. split; [exact PT|].
        apply (Permutation_in _ PT) in Cs. apply in_app_or in Cs. destruct Cs as [Cs|Cs]; [|exact Cs]. exfalso. apply ctx_rebase in Cs. destruct Cs as [Cs|(d0 & l0 & x & Cs & _)]; [inversion Cs|]. inversion Cs as [[Z1 Z2]]. apply (f_equal (@List.length ndata)) in Z2. rewrite app_length in Z2. cbn in Z2. lia.
  - set (k := fresh t) in *. inversion H; subst m t1; clear H. set (c := T (ND k (TEl EDefs) "" []) []). pose proof (fresh_not t) as Nf. fold k in Nf.
    pose proof (ctx_insert t c (data svg) [data t] (fun x => c :: x) N Cs (fun x => Permutation_refl _)) as P1. change (key (data svg)) with (root_key svg) in P1. set (t1 := set_kids (root_key svg) (fun x => c :: x) t) in *. assert (D1 : data t1 = data t) by (unfold t1; apply data_set_kids).
    assert (Kk : forall d, In d (flat t) -> key d <> k) by (intros d Hd X; apply Nf; rewrite <- X; now apply (in_map key)).
    split; [split|split; [exact D1|]].
    + rewrite <- (ctx_keys t1 []). eapply Permutation_NoDup; [apply Permutation_sym, (Permutation_map _ P1)|]. cbn. constructor; [rewrite ctx_keys; exact Nf|rewrite ctx_keys; exact N].
    + exists l, (T (data svg) (c :: kids svg)), r, c, (kids svg). split; [|auto 10]. unfold t1. apply prepend_kids; auto.
    + unfold root_key in *. rewrite D1. split; [apply Kk, flat_self|]. split; [apply Kk, (ctx_in_flat t [] _ Cs)|auto].
    + right. split; [reflexivity|]. split; [exact P1|exact Nf].
Qed.
