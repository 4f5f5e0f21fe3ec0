(** Replacing a group that adds nothing by its children does not change the picture. *)
From Coq Require Import List Bool NArith Arith ZArith String Lia QArith Qcanon Permutation.
From Verif Require Import Names Num Value Dom DomFacts DomOps Outcome MoveFacts SpecDom SpecStyle SpecText Visit SpecPaint PaintFacts Img UseProofs UseStep Push.
Import ListNotations.
Local Open Scope nat_scope.

Definition melt (k : nat) (c : tree) : option (list tree) := if Nat.eqb (root_key c) k then Some (kids c) else None.
(** The group has no effect of its own. *)
Definition plain (d : ndata) : Prop :=
  displayed d /\ opacity_of d = q1 /\ effects d = [] /\ ts_of d = t_id /\ forall a, inherited a = true -> d_get d a = None.

Lemma keys_split s : keys s = root_key s :: flat_map keys (kids s). Proof. destruct s; apply keys_cons. Qed.
Lemma tree_split s : s = T (data s) (kids s). Proof. destruct s; reflexivity. Qed.

Section Melt.
  Variable uu : aid -> len -> Qc.
  Variables t G : tree.
  Hypothesis N : NoDup (keys t).
  Hypothesis HG : In G (subs t).
  Hypothesis TG : tag (data G) = TEl EG.
  Hypothesis Rt : tag (data t) = TRoot.
  Hypothesis Place : forall a p, In (a, G) (places [] t) -> In p a -> ~ shape_el p.
  Hypothesis Free : forall d, In d (flat t) -> ~ refers_to d (root_key G).
  Hypothesis Nothing : (kids G = [] /\ ~ In AFilter (map fst (effects (data G)))) \/ plain (data G).
  Hypothesis Switch : forall p a, In (p :: a, G) (places [] t) -> tag p = TEl ESwitch ->
    given (data G) condition_attrs = [] /\ exists c, kids G = [c] /\ element (data c) /\ given (data c) condition_attrs = [].
  Let dG := data G.
  Let g := melt (root_key G).
  Definition melted : tree := img g t.
  Let t' := melted.

  Lemma g_none_iff s : g s = None <-> root_key s <> root_key G.
  Proof. unfold g, melt. destruct (Nat.eqb_spec (root_key s) (root_key G)); split; congruence. Qed.
  Lemma g_at : g G = Some (kids G). Proof. unfold g, melt. now rewrite Nat.eqb_refl. Qed.
  Lemma m_is_G s : In s (subs t) -> root_key s = root_key G -> s = G.
  Proof. intros Hs E. now apply (sub_unique t). Qed.
  Lemma g_is_G s : In s (subs t) -> g s <> None -> s = G.
  Proof. intros Hs E. apply m_is_G; [exact Hs|]. destruct (Nat.eq_dec (root_key s) (root_key G)) as [Q|Q]; [exact Q|]. apply g_none_iff in Q. contradiction. Qed.
  Lemma m_t_ne : t <> G. Proof. intros E. rewrite E, TG in Rt. discriminate. Qed.
  Lemma m_root_ne : root_key t <> root_key G. Proof. intros E. apply m_t_ne. apply m_is_G; [apply subs_self|exact E]. Qed.
  Lemma G_below : In G (flat_map subs (kids t)). Proof. apply below_kids; [exact HG|intros E; now apply m_t_ne]. Qed.
  Lemma G_reps : In G (reps g t).
  Proof. apply reps_complete; [exact G_below|rewrite g_at; discriminate|]. intros r Hr Q _. apply in_kids_subs in Hr. now apply g_is_G. Qed.
  Lemma inner_none s : In s (flat_map subs (kids G)) -> g s = None.
  Proof. intros H. apply g_none_iff. intros E. apply (self_not_below G (sub_NoDup G t N HG)). assert (s = G); [|now subst]. apply m_is_G; [|exact E]. apply (subs_trans t G); [exact HG|now apply in_kids_subs]. Qed.
  Lemma inner_img s : In s (flat_map subs (kids G)) -> img g s = s /\ In s (subs t').
  Proof.
    intros H. split.
    - apply img_id. intros x Hx. apply inner_none. apply in_flat_map in H. destruct H as (c & Hc & H). apply in_flat_map. exists c. split; [exact Hc|]. apply (subs_trans c s x H). now apply in_kids_subs.
    - apply in_flat_map in H. destruct H as (c & Hc & H). exact (reps_sub g t G (kids G) c G_reps g_at Hc s H).
  Qed.
  Lemma kids_G : flat_map (rpl g) (kids G) = kids G. Proof. apply rpls_id. apply inner_none. Qed.
  Lemma rpl_G : rpl g G = kids G. Proof. unfold rpl. now rewrite g_at. Qed.
  Lemma rpl_o s : root_key s <> root_key G -> rpl g s = [img g s]. Proof. intros H. apply g_none_iff in H. unfold rpl. now rewrite H. Qed.
  Lemma in_G_cases s : In s (subs t) -> In (root_key s) (keys G) -> s = G \/ In s (flat_map subs (kids G)).
  Proof.
    intros Hs K. apply sub_of_key in K. destruct K as (x & Hx & E). assert (x = s) by (apply (sub_unique t); auto; exact (subs_trans t G x HG Hx)). subst x. destruct (Nat.eq_dec (root_key s) (root_key G)) as [Q|Q]; [left; now apply m_is_G|right]. apply below_kids; [exact Hx|intros ->; now apply Q].
  Qed.
  Lemma m_kept s : In s (subs t) -> root_key s <> root_key G -> In (img g s) (subs t').
  Proof.
    intros Hs Q. destruct (in_dec Nat.eq_dec (root_key s) (keys G)) as [K|K].
    - destruct (in_G_cases s Hs K) as [->|B]; [destruct (Q eq_refl)|]. destruct (inner_img s B) as [-> I]. exact I.
    - apply img_sub; [exact Hs|]. intros r Hr Gr. apply in_kids_subs in Hr. rewrite (g_is_G r Hr Gr). exact K.
  Qed.
  Lemma m_sub s' : In s' (subs t') -> exists s, In s (subs t) /\ root_key s <> root_key G /\ s' = img g s.
  Proof.
    intros H. apply subs_img in H. destruct H as [(s & Hs & -> & Q)|(r & ls & x & Hr & Er & Hx & Hs)].
    - exists s. split; [exact Hs|]. split; [|reflexivity]. destruct Q as [->|Q]; [exact m_root_ne|now apply g_none_iff].
    - apply reps_spec in Hr. destruct Hr as [Hr Gr]. apply in_kids_subs in Hr. rewrite (g_is_G r Hr Gr) in Er. fold g in Er. rewrite g_at in Er. inversion Er; subst ls. assert (B : In s' (flat_map subs (kids G))) by (apply in_flat_map; eauto).
      exists s'. split; [apply (subs_trans t G); [exact HG|now apply in_kids_subs]|]. split; [apply g_none_iff; now apply inner_none|]. symmetry. now apply inner_img.
  Qed.
  Lemma m_flat d : In d (flat t') <-> In d (flat t) /\ key d <> root_key G.
  Proof.
    split.
    - intros H. rewrite <- map_data_subs in H. apply in_map_iff in H. destruct H as (s' & <- & Hs'). destruct (m_sub s' Hs') as (s & Hs & Q & ->). rewrite data_img. split; [now apply data_of_sub|exact Q].
    - intros [H Q]. rewrite <- map_data_subs in H. apply in_map_iff in H. destruct H as (s & <- & Hs). rewrite <- (data_img g s). apply data_of_sub. now apply m_kept.
  Qed.
  Lemma m_count k : count_occ Nat.eq_dec (keys t') k + count_occ Nat.eq_dec [root_key G] k = count_occ Nat.eq_dec (keys t) k.
  Proof.
    pose proof (count_img g t k) as C. assert (R : Permutation (reps g t) [G]).
    { assert (Nr : NoDup (reps g t)) by (apply reps_nodup; exact N). assert (A : forall r, In r (reps g t) -> r = G) by (intros r Hr; apply reps_spec in Hr; destruct Hr as [Hr Gr]; apply in_kids_subs in Hr; now apply g_is_G).
      pose proof G_reps as I. destruct (reps g t) as [|x [|y l]]; [destruct I|rewrite (A x (or_introl eq_refl)); apply Permutation_refl|]. exfalso. assert (x = y) by (rewrite (A x (or_introl eq_refl)), (A y (or_intror (or_introl eq_refl))); reflexivity). subst y. inversion Nr as [|? ? Z _]; subst. apply Z. now left. }
    assert (X : forall (h : tree -> list nat), count_occ Nat.eq_dec (flat_map h (reps g t)) k = count_occ Nat.eq_dec (h G) k).
    { intros h. rewrite (proj1 (Permutation_count_occ Nat.eq_dec _ _) (Permutation_flat_map h R)). cbn [flat_map]. now rewrite app_nil_r. }
    rewrite !X in C. rewrite g_at in C. change (img g t) with t' in C. rewrite (keys_split G) in C. change (root_key G :: flat_map keys (kids G)) with ([root_key G] ++ flat_map keys (kids G)) in C. rewrite count_occ_app in C. lia.
  Qed.
  Lemma m_nodup : NoDup (keys t').
  Proof. apply (NoDup_count_occ Nat.eq_dec). intros k. pose proof (proj1 (NoDup_count_occ Nat.eq_dec _) N k) as Q. pose proof (m_count k). lia. Qed.

  Lemma m_key k : In k (keys t') <-> In k (keys t) /\ k <> root_key G.
  Proof.
    pose proof (m_count k) as C. pose proof (proj1 (NoDup_count_occ Nat.eq_dec _) N k) as Q. rewrite !(count_occ_In Nat.eq_dec). cbn [count_occ] in C. destruct (Nat.eq_dec (root_key G) k) as [E|E]; split; intros H; try lia; split; try lia; congruence.
  Qed.
  (** ** The picture *)
  Definition in_sw (ls : list tree) : Prop := forall s, In s ls -> exists p a, In (p :: a, s) (places [] t) /\ tag p = TEl ESwitch.
  Lemma plain_style anc anc' : plain dG -> same_style anc anc' -> same_style (dG :: anc) anc'.
  Proof. intros (_ & _ & _ & _ & H) S a I. cbn. unfold dG in *. rewrite (H a I). now apply S. Qed.
  Lemma m_shape_not d : shape_el d -> tag d <> TEl EG.
  Proof. intros (e & E & H) X. rewrite E in X. inversion X; subst. cbn in H. intuition discriminate. Qed.
  Lemma m_other d ch : In (T d ch) (subs t) -> tag d <> TEl EG -> rpl g (T d ch) = [img g (T d ch)].
  Proof. intros Hs X. apply rpl_o. intros E. apply X. assert (Q : T d ch = G) by (apply m_is_G; auto). rewrite <- Q in TG. exact TG. Qed.
  Lemma m_shape d ch : In (T d ch) (subs t) -> shape_el d -> img g (T d ch) = T d ch.
  Proof.
    intros Hs S. apply img_id. intros x Hx. apply g_none_iff. intros E. assert (Hx' : In x (subs t)) by (apply (subs_trans t (T d ch)); [exact Hs|now apply in_kids_subs]). assert (x = G) by now apply m_is_G. subst x. destruct (under_place t _ G Hs Hx) as (a & P & I). exact (Place a d P I S).
  Qed.
  Lemma m_target d s : In d (flat t) -> d_get d AXlinkHref = Some (VLink (root_key s)) -> root_key s <> root_key G.
  Proof. intros Hd E K. apply (Free d Hd). rewrite <- K. rewrite get_lk in E. apply lk_some in E. destruct E as (x & Hx & _ & Ex). exists x. split; [exact Hx|]. now rewrite Ex. Qed.
  Lemma m_sim :
    (forall m anc s p, paint uu t m anc s p -> In s (subs t) -> forall anc', same_style anc anc' -> exists p', paints uu t' m anc' (rpl g s) p' /\ same p p') /\
    (forall m anc ls p, paints uu t m anc ls p -> (forall s, In s ls -> In s (subs t)) -> forall anc', same_style anc anc' -> exists p', paints uu t' m anc' (flat_map (rpl g) ls) p' /\ same p p') /\
    (forall m anc ls p, choices uu t m anc ls p -> (forall s, In s ls -> In s (subs t)) -> in_sw ls -> forall anc', same_style anc anc' -> exists p', choices uu t' m anc' (flat_map (rpl g) ls) p' /\ same p p').
  Proof.
    apply paint_all.
    - (* hidden *) intros m anc s H Hs anc' Sa. destruct (Nat.eq_dec (root_key s) (root_key G)) as [E|E].
      + assert (s = G) by now apply m_is_G. subst s. exists []. split; [|apply same_refl]. rewrite rpl_G. destruct Nothing as [[-> _]|(D & _)]; [constructor|]. exfalso. destruct H as [H|H]; [apply H; apply painted_group; now left|contradiction].
      + rewrite rpl_o by exact E. exists []. split; [|apply same_refl]. apply paints_one. apply p_hidden. now rewrite data_img.
    - (* shape *) intros m anc d ch S D Hs anc' Sa. rewrite m_other by (auto; now apply m_shape_not). rewrite m_shape by auto. eexists. split; [apply paints_one; apply p_shape; assumption|]. apply same_layer_of. apply same_shape; [apply like_refl|now apply same_style_cons].
    - (* group *) intros m anc d ch ls Gd D P IH Hs anc' Sa. pose proof (fun c Hc => kid_sub (T d ch) c t Hs Hc) as Hk. destruct (Nat.eq_dec (key d) (root_key G)) as [E|E].
      + assert (EG : T d ch = G) by now apply m_is_G. assert (Ed : d = dG) by (unfold dG; now rewrite <- EG). assert (Ec : ch = kids G) by now rewrite <- EG. rewrite EG, rpl_G. destruct Nothing as [[K0 Nf]|Pl].
        * rewrite K0 in *. subst ch. inversion P; subst. exists []. split; [constructor|]. unfold layer. now apply same_empty.
        * rewrite Ed in *. rewrite Ec in *. destruct (IH Hk anc' (plain_style _ _ Pl Sa)) as (p' & P' & S'). rewrite kids_G in P'. destruct Pl as (_ & O & Ef & Et & _). fold dG in O, Ef, Et. rewrite Et, t_mul_id_r in *. exists p'. split; [exact P'|]. unfold layer. rewrite O, Ef. eapply same_trans; [apply same_plain|exact S'].
      + rewrite rpl_o by exact E. destruct (IH Hk (d :: anc') (same_style_cons d _ _ Sa)) as (p' & P' & S'). eexists. split; [apply paints_one; rewrite img_T; apply p_group; eassumption|now apply same_layer_of].
    - (* switch *) intros m anc d ch ls Gd D P IH Hs anc' Sa. pose proof (fun c Hc => kid_sub (T d ch) c t Hs Hc) as Hk. rewrite m_other by (auto; rewrite Gd; discriminate).
      assert (Sw : in_sw ch). { intros c Hc. destruct (sub_place _ _ [] Hs) as (a & Pl). exists d, a. split; [exact (place_kid t [] a _ c Pl Hc)|exact Gd]. }
      destruct (IH Hk Sw (d :: anc') (same_style_cons d _ _ Sa)) as (p' & P' & S'). eexists. split; [apply paints_one; rewrite img_T; apply p_switch; eassumption|]. apply same_layer_of. now apply same_switch.
    - (* svg *) intros m anc d ch ls Gd D P IH Hs anc' Sa. pose proof (fun c Hc => kid_sub (T d ch) c t Hs Hc) as Hk. rewrite m_other by (auto; rewrite Gd; discriminate).
      destruct (IH Hk (d :: anc') (same_style_cons d _ _ Sa)) as (p' & P' & S'). eexists. split; [apply paints_one; rewrite img_T; apply p_svg; eassumption|]. apply same_layer_of. now apply same_view.
    - (* use *) intros m anc d ch s ls Gd D E Hx T1 T2 P IH Hs anc' Sa. rewrite m_other by (auto; rewrite Gd; discriminate). pose proof (m_target d s (data_of_sub _ _ Hs) E) as A.
      destruct (IH Hx (d :: anc') (same_style_cons d _ _ Sa)) as (p' & P' & S'). rewrite rpl_o in P' by exact A. apply paints_one_inv in P'. pose proof (m_kept s Hx A) as K1.
      eexists. split; [apply paints_one; rewrite img_T; apply (p_use uu t' m anc' d _ (img g s)); try rewrite root_img; try rewrite data_img; eassumption|]. now apply same_layer_of.
    - (* use of a view *) intros m anc d ch s ls Gd D E Hx V P IH Hs anc' Sa. rewrite m_other by (auto; rewrite Gd; discriminate). pose proof (m_target d s (data_of_sub _ _ Hs) E) as A. pose proof (m_kept s Hx A) as K1.
      destruct (IH (fun c Hc => kid_sub s c t Hx Hc) (data s :: d :: anc') (same_style_cons _ _ _ (same_style_cons d _ _ Sa))) as (p' & P' & S').
      pose proof (p_use_view uu t' m anc' d (flat_map (rpl g) ch) (img g s) p' Gd D) as Q. rewrite root_img, data_img, kids_img in Q. specialize (Q E K1 V P'). eexists. split; [apply paints_one; rewrite img_T; exact Q|]. apply same_layer_of, same_layer_of. now apply same_view.
    - (* use of a hidden svg *) intros m anc d ch s Gd D E Hx V P Hs anc' Sa. rewrite m_other by (auto; rewrite Gd; discriminate). pose proof (m_target d s (data_of_sub _ _ Hs) E) as A. pose proof (m_kept s Hx A) as K1.
      pose proof (p_use_hidden uu t' m anc' d (flat_map (rpl g) ch) (img g s) Gd D) as Q. rewrite root_img, data_img in Q. exists []. split; [apply paints_one; rewrite img_T; now apply Q|apply same_refl].
    - (* use without a target *) intros m anc d ch Gd D E Hs anc' Sa. rewrite m_other by (auto; rewrite Gd; discriminate). exists []. split; [|apply same_refl]. apply paints_one. rewrite img_T. apply p_use_none; auto. intros s' Hs' Q. destruct (m_sub s' Hs') as (x & Hx & _ & ->). rewrite root_img in Q. now apply (E x Hx).
    - intros m anc _ anc' _. exists []. split; [constructor|apply same_refl].
    - intros m anc s ls p q _ IH1 _ IH2 H anc' Sa. destruct (IH1 (H s (or_introl eq_refl)) anc' Sa) as (p' & P' & S'). destruct (IH2 (fun x Hx => H x (or_intror Hx)) anc' Sa) as (q' & Q' & T'). exists (p' ++ q'). cbn [flat_map]. split; [now apply paints_app|now apply same_app].
    - intros m anc _ _ anc' _. exists []. split; [constructor|apply same_refl].
    - intros m anc s ls q Ne _ IH H Sw anc' Sa. pose proof (H s (or_introl eq_refl)) as Hs. destruct (IH (fun x Hx => H x (or_intror Hx)) (fun x Hx => Sw x (or_intror Hx)) anc' Sa) as (q' & Q' & T'). exists q'. split; [|exact T']. cbn [flat_map].
      rewrite rpl_o; [apply ch_skip; [now rewrite data_img|exact Q']|]. intros Eu. apply Ne. left. exists EG. assert (s = G) by now apply m_is_G. subst s. exact TG.
    - intros m anc s ls p q El _ IH1 _ IH2 H Sw anc' Sa. pose proof (H s (or_introl eq_refl)) as Hs. destruct (IH1 Hs anc' Sa) as (p' & P' & S'). destruct (IH2 (fun x Hx => H x (or_intror Hx)) (fun x Hx => Sw x (or_intror Hx)) anc' Sa) as (q' & Q' & T'). cbn [flat_map].
      destruct (Nat.eq_dec (root_key s) (root_key G)) as [Eu|Eu].
      + assert (s = G) by now apply m_is_G. subst s. destruct (Sw G (or_introl eq_refl)) as (pa & a & Pl & Tp). destruct (Switch pa a Pl Tp) as (Q1 & c & Ec & Elc & Q2). rewrite rpl_G, Ec in *. apply paints_one_inv in P'. rewrite Q1. exists (PAlt [] p' :: q'). split.
        * cbn [app]. rewrite <- Q2. apply ch_cons; assumption.
        * change (same ([PAlt [] p] ++ q) ([PAlt [] p'] ++ q')). apply same_app; [now apply same_alt|exact T'].
      + rewrite rpl_o in P' |- * by auto. apply paints_one_inv in P'. exists (PAlt (given (data s) condition_attrs) p' :: q'). split.
        * cbn [app]. rewrite <- (data_img g s) at 1. apply ch_cons; [now rewrite data_img|exact P'|exact Q'].
        * change (same ([PAlt (given (data s) condition_attrs) p] ++ q) ([PAlt (given (data s) condition_attrs) p'] ++ q')). apply same_app; [now apply same_alt|exact T'].
  Qed.
  (** ** The whole document *)
  Hypothesis TopSvg : forall c, In c (kids t) -> root_key c <> root_key G.
  Lemma top_rpl : forall l, (forall c, In c l -> root_key c <> root_key G) -> flat_map (rpl g) l = map (img g) l.
  Proof. induction l as [|c l IH]; intros H; [reflexivity|]. cbn [flat_map map]. rewrite rpl_o by (apply H; now left). cbn. f_equal. apply IH. intros x Hx. apply H. now right. Qed.
  Lemma m_svg s : svg_element t = Some s -> svg_element t' = Some (img g s).
  Proof.
    unfold svg_element, t', melted. rewrite kids_img, (top_rpl (kids t) TopSvg). generalize (kids t) as l. induction l as [|c l IH]; [discriminate|]. cbn [find map]. rewrite data_img. destruct (is_tag ESvg (data c)); [intros X; now inversion X|exact IH].
  Qed.
  (** Where things are. *)
  Lemma m_place a s : In (a, s) (places [] t) -> root_key s <> root_key G ->
    exists a', In (a', img g s) (places [] t') /\ (a' = a \/ exists b aG, a = b ++ dG :: aG /\ a' = b ++ aG /\ In (aG, G) (places [] t) /\ In s (flat_map subs (kids G))).
  Proof.
    intros P A. pose proof (place_sub _ _ _ _ P) as Hs. destruct (in_dec Nat.eq_dec (root_key s) (keys G)) as [K|K].
    - destruct (in_G_cases s Hs K) as [->|X]; [destruct (A eq_refl)|]. pose proof X as X0. destruct (inner_img s X) as [-> _]. destruct (sub_place G t [] HG) as (aG & PG). apply in_flat_map in X. destruct X as (c & Hc & X). destruct (sub_place s c [] X) as (b & Q).
      exists (b ++ aG). split.
      + apply (place_inside t' [] aG c b s); [|exact Q]. exact (reps_place g t G (kids G) c [] aG G_reps PG N g_at Hc).
      + right. exists b, aG. split; [|auto]. pose proof (place_inside t [] _ c b s (place_kid t [] aG G c PG Hc) Q) as P2. assert (Z : (a, s) = (b ++ data G :: aG, s)) by (apply (place_unique t []); auto). inversion Z. reflexivity.
    - exists a. split; [|now left]. apply img_place; [exact P|]. intros r Hr Gr. apply in_kids_subs in Hr. rewrite (g_is_G r Hr Gr). exact K.
  Qed.
  Lemma m_back a s' : In (a, s') (places [] t') -> exists a0 s, In (a0, s) (places [] t) /\ root_key s <> root_key G /\ s' = img g s /\ (a = a0 \/ exists b aG, a0 = b ++ dG :: aG /\ a = b ++ aG /\ In (aG, G) (places [] t) /\ In s (flat_map subs (kids G))).
  Proof.
    intros P. pose proof (place_sub _ _ _ _ P) as Hs'. destruct (m_sub s' Hs') as (s & Hs & Q & ->). destruct (sub_place s t [] Hs) as (a0 & P0). destruct (m_place a0 s P0 Q) as (a' & P' & R). exists a0, s. split; [exact P0|]. split; [exact Q|]. split; [reflexivity|]. assert (Z : (a, img g s) = (a', img g s)) by (apply (place_unique t' []); auto using m_nodup). inversion Z; subst a'. exact R.
  Qed.
  Lemma chain_nearest b c c' : same_style c c' -> same_style (b ++ c) (b ++ c').
  Proof. intros H. induction b as [|x b IH]; [exact H|]. cbn. now apply same_style_cons. Qed.
  Lemma melt_drawing : same_drawing uu t t'.
  Proof.
    destruct m_sim as (S1 & S2 & _). split.
    - intros p (s & E & P). assert (Hs : In s (kids t)) by (unfold svg_element in E; apply find_some in E; tauto). assert (Hs' : In s (subs t)) by (apply (kid_sub t s t); [apply subs_self|exact Hs]).
      destruct (S1 _ _ _ _ P Hs' [data t] (same_style_refl _)) as (p' & P' & Sp). rewrite rpl_o in P' by now apply TopSvg. apply paints_one_inv in P'. exists p'. split; [|exact Sp]. exists (img g s). split; [now apply m_svg|]. unfold t', melted in *. rewrite data_img. exact P'.
    - intros d p Hd Rd (anc & s & P & K & Q). pose proof (place_sub _ _ _ _ P) as Hs. assert (Ed : data s = d) by (apply (data_unique t); auto; now apply data_of_sub).
      assert (NG : root_key s <> root_key G). { intros E. assert (s = G) by now apply m_is_G. subst s. destruct Rd as (e & Te & He). rewrite <- Ed, TG in Te. inversion Te; subst. cbn in He. intuition discriminate. }
      split; [apply m_flat; split; [exact Hd|]; rewrite <- Ed; exact NG|]. destruct (m_place anc s P NG) as (a' & P' & R).
      assert (Sa : same_style (data s :: anc) (data s :: a')).
      { apply same_style_cons. destruct R as [->|(b & aG & -> & -> & PG & Hin)]; [apply same_style_refl|]. apply chain_nearest. destruct Nothing as [[K0 _]|Pl]; [|apply plain_style; [exact Pl|apply same_style_refl]]. exfalso.
        rewrite K0 in Hin. destruct Hin. }
      destruct (S2 _ _ _ _ Q (fun c Hc => kid_sub s c t Hs Hc) _ Sa) as (p' & P2 & Sp). exists p'. split; [|exact Sp]. exists a', (img g s). rewrite root_img, data_img, kids_img. auto.
  Qed.
End Melt.
