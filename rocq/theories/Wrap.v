(** Moving children of an element into a group that adds nothing does not change the picture. *)
From Coq Require Import List Bool NArith Arith ZArith String Lia QArith Qcanon Permutation.
From Verif Require Import Names Num Value Dom DomFacts DomOps Outcome Move MoveFacts SpecDom SpecStyle SpecText Visit SpecPaint PaintFacts Img UseProofs UseStep Push Melt.
Import ListNotations.
Local Open Scope nat_scope.

(** Only the inherited properties of the ancestors matter. *)
Lemma paint_style uu t :
  (forall m anc s p, paint uu t m anc s p -> forall anc', same_style anc anc' -> exists p', paint uu t m anc' s p' /\ same p p') /\
  (forall m anc ls p, paints uu t m anc ls p -> forall anc', same_style anc anc' -> exists p', paints uu t m anc' ls p' /\ same p p') /\
  (forall m anc ls p, choices uu t m anc ls p -> forall anc', same_style anc anc' -> exists p', choices uu t m anc' ls p' /\ same p p').
Proof.
  apply paint_all.
  - intros m anc s H anc' S. exists []. split; [now apply p_hidden|apply same_refl].
  - intros m anc d ch S D anc' Sa. eexists. split; [apply p_shape; assumption|]. apply same_layer_of. apply same_shape; [apply like_refl|now apply same_style_cons].
  - intros m anc d ch l Gd D P IH anc' Sa. destruct (IH _ (same_style_cons d _ _ Sa)) as (p' & P' & S'). eexists. split; [apply p_group; eassumption|now apply same_layer_of].
  - intros m anc d ch l Gd D P IH anc' Sa. destruct (IH _ (same_style_cons d _ _ Sa)) as (p' & P' & S'). eexists. split; [apply p_switch; eassumption|apply same_layer_of; now apply same_switch].
  - intros m anc d ch l Gd D P IH anc' Sa. destruct (IH _ (same_style_cons d _ _ Sa)) as (p' & P' & S'). eexists. split; [apply p_svg; eassumption|apply same_layer_of; now apply same_view].
  - intros m anc d ch s l Gd D E Hx T1 T2 P IH anc' Sa. destruct (IH _ (same_style_cons d _ _ Sa)) as (p' & P' & S'). eexists. split; [apply (p_use uu t m anc' d ch s); eassumption|now apply same_layer_of].
  - intros m anc d ch s l Gd D E Hx V P IH anc' Sa. destruct (IH _ (same_style_cons (data s) _ _ (same_style_cons d _ _ Sa))) as (p' & P' & S'). eexists. split; [apply (p_use_view uu t m anc' d ch s); eassumption|]. apply same_layer_of, same_layer_of. now apply same_view.
  - intros m anc d ch s Gd D E Hx V P anc' Sa. exists []. split; [now apply (p_use_hidden uu t m anc' d ch s)|apply same_refl].
  - intros m anc d ch Gd D E anc' Sa. exists []. split; [now apply p_use_none|apply same_refl].
  - intros m anc anc' _. exists []. split; [constructor|apply same_refl].
  - intros m anc s l p q _ IH1 _ IH2 anc' Sa. destruct (IH1 _ Sa) as (p' & P' & S'), (IH2 _ Sa) as (q' & Q' & T'). exists (p' ++ q'). split; [now constructor|now apply same_app].
  - intros m anc anc' _. exists []. split; [constructor|apply same_refl].
  - intros m anc s l q Ne _ IH anc' Sa. destruct (IH _ Sa) as (q' & Q' & T'). exists q'. split; [now apply ch_skip|exact T'].
  - intros m anc s l p q El _ IH1 _ IH2 anc' Sa. destruct (IH1 _ Sa) as (p' & P' & S'), (IH2 _ Sa) as (q' & Q' & T'). eexists. split; [apply ch_cons; eassumption|].
    change (same ([PAlt (given (data s) condition_attrs) p] ++ q) ([PAlt (given (data s) condition_attrs) p'] ++ q')). apply same_app; [now apply same_alt|exact T'].
Qed.

Lemma perm_mid {A} (pre post E l l' : list A) (x : A) : Permutation l' (E ++ l) -> Permutation (pre ++ (x :: l') ++ post) (E ++ pre ++ (x :: l) ++ post).
Proof.
  intros H. eapply Permutation_trans; [apply Permutation_app_head, Permutation_app_tail, perm_skip, H|]. cbn [app]. rewrite <- app_assoc.
  change (pre ++ x :: E ++ l ++ post) with (pre ++ [x] ++ E ++ l ++ post). rewrite (app_assoc pre [x]). eapply Permutation_trans; [apply Permutation_app_swap_app|]. rewrite <- app_assoc. apply Permutation_refl.
Qed.
Section Wrap.
  Variable uu : aid -> len -> Qc.
  Variables t P : tree.
  Variable arr : list tree -> list tree.
  Variable extra : list ndata.
  Let ch' := arr (kids P).
  Definition wrapped (s : tree) : tree := set_kids (root_key P) arr s.
  Let w := wrapped.
  Let t' := w t.
  Hypothesis N : NoDup (keys t).
  Hypothesis Links : forall d k, In d (flat t) -> refers_to d k -> In k (keys t).
  Hypothesis HP : In P (subs t).
  Hypothesis TP : tag (data P) = TEl EG \/ tag (data P) = TEl ESvg.
  Hypothesis Place : forall a p, In (a, P) (places [] t) -> In p a -> ~ shape_el p.
  Hypothesis Perm : Permutation (flat_map flat ch') (extra ++ flat_map flat (kids P)).
  Hypothesis New : forall d, In d extra -> ~ In (key d) (keys t).
  Hypothesis Nx : NoDup (map key extra).
  Hypothesis Paints : forall m anc p, paints uu t' m (data P :: anc) (kids P) p -> exists p', paints uu t' m (data P :: anc) ch' p' /\ same p p'.
  Hypothesis Cover : forall c, In c (kids P) -> In c ch' \/ exists g, In g ch' /\ In c (kids g) /\ plain (data g) /\ In (data g) extra.
  Hypothesis Rt : tag (data t) = TRoot.

  Lemma w_perm : Permutation (flat t') (extra ++ flat t).
  Proof.
    destruct (flat_split t P N HP) as (pre & post & E1 & E2). unfold t', w, wrapped. rewrite E2, E1. fold ch'. replace (flat P) with (data P :: flat_map flat (kids P)) by (rewrite (tree_split P) at 3; reflexivity). now apply perm_mid.
  Qed.
  Lemma w_flat d : In d (flat t') <-> In d extra \/ In d (flat t).
  Proof. rewrite <- in_app_iff. split; apply Permutation_in; [apply w_perm|apply Permutation_sym, w_perm]. Qed.
  Lemma w_key k : In k (keys t') <-> In k (map key extra) \/ In k (keys t).
  Proof. unfold keys. rewrite <- in_app_iff, <- map_app. split; apply Permutation_in; apply Permutation_map; [apply w_perm|apply Permutation_sym, w_perm]. Qed.
  Lemma w_nodup : NoDup (keys t').
  Proof.
    apply (Permutation_NoDup (l := map key (extra ++ flat t))); [apply Permutation_map, Permutation_sym, w_perm|]. rewrite map_app. apply NoDup_app_intro; [exact Nx|exact N|]. intros k Hk. apply in_map_iff in Hk. destruct Hk as (d & <- & Hd). now apply New.
  Qed.
  Lemma w_is_P s : In s (subs t) -> root_key s = root_key P -> s = P. Proof. intros Hs E. now apply (sub_unique t). Qed.
  Lemma w_P : w P = T (data P) ch'.
  Proof. unfold w, wrapped, ch'. rewrite (tree_split P) at 2. cbn. unfold root_key. now rewrite Nat.eqb_refl. Qed.
  Lemma w_data s : data (w s) = data s. Proof. apply data_set_kids. Qed.
  Lemma w_root s : root_key (w s) = root_key s. Proof. apply root_set_kids. Qed.
  Lemma w_T d ch : key d <> root_key P -> w (T d ch) = T d (map w ch).
  Proof. intros E. unfold w, wrapped. cbn. destruct (Nat.eqb_spec (key d) (root_key P)); [contradiction|reflexivity]. Qed.
  Lemma w_split s : root_key s <> root_key P -> w s = T (data s) (map w (kids s)).
  Proof. destruct s as [d ch]. apply w_T. Qed.
  Lemma w_out s : In s (subs t) -> ~ In P (subs s) -> w s = s.
  Proof. intros Hs A. apply set_kids_out. intros K. apply A. apply sub_of_key in K. destruct K as (x & Hx & E). rewrite <- (w_is_P x); auto. exact (subs_trans t s x Hs Hx). Qed.
  Lemma w_below s : In s (flat_map subs (kids P)) -> w s = s.
  Proof.
    intros B. apply w_out; [apply (subs_trans t P); [exact HP|now apply in_kids_subs]|]. intros Q. apply (self_not_below P (sub_NoDup P t N HP)). apply in_flat_map in B. destruct B as (c & Hc & B). apply in_flat_map. exists c. split; [exact Hc|]. exact (subs_trans c s P B Q).
  Qed.
  Lemma w_kids : map w (kids P) = kids P.
  Proof. rewrite <- (map_id (kids P)) at 2. apply map_ext_in. intros c Hc. apply w_below. apply in_flat_map. exists c. split; [exact Hc|apply subs_self]. Qed.
  Lemma w_kids_in s : In s (subs t) -> forall c, In c (kids s) -> In c (subs t). Proof. intros Hs c Hc. exact (kid_sub s c t Hs Hc). Qed.
  Lemma w_dec s : In s (subs t) -> s = P \/ root_key s <> root_key P.
  Proof. intros Hs. destruct (Nat.eq_dec (root_key s) (root_key P)) as [E|E]; [left; now apply w_is_P|now right]. Qed.
  (** Where things are. *)
  Definition deeper (a a' : list ndata) : Prop := a' = a \/ exists b aP dg, a = b ++ data P :: aP /\ a' = b ++ dg :: data P :: aP /\ In dg extra /\ plain dg.
  Lemma w_places x : In x (subs t) -> forall a0 a s, In (a, s) (places a0 x) -> exists a', In (a', w s) (places a0 (w x)) /\ deeper a a'.
  Proof.
    induction x as [d ch IH] using tree_ind'. intros Hx a0 a s H. rewrite Forall_forall in IH. destruct H as [H|H].
    - inversion H; subst. exists a. split; [|now left]. destruct (w (T d ch)) as [d2 c2] eqn:E. now left.
    - apply in_flat_map in H. destruct H as (c & Hc & H). destruct (w_dec _ Hx) as [E|E].
      + assert (Ed : d = data P) by now rewrite <- E. assert (Ec : ch = kids P) by now rewrite <- E. subst d ch. clear E. pose proof w_P as WP. rewrite (tree_split P) in WP at 1. rewrite WP. pose proof (place_sub _ _ _ _ H) as Hs. rewrite (w_below s) by (apply in_flat_map; eauto).
        apply place_base in H. destruct H as (b & -> & H). destruct (Cover c Hc) as [I|(g & Hg & I & Pl & Ex)].
        * exists (b ++ data P :: a0). split; [|now left]. right. apply in_flat_map. exists c. split; [exact I|]. apply place_base. eauto.
        * exists (b ++ data g :: data P :: a0). split; [|right; exists b, a0, (data g); auto]. right. apply in_flat_map. exists g. split; [exact Hg|]. destruct g as [dg cg]. right. cbn [kids data] in *. apply in_flat_map. exists c. split; [exact I|]. apply place_base. eauto.
      + rewrite w_T by exact E. destruct (IH c Hc (w_kids_in _ Hx c Hc) (d :: a0) a s H) as (a' & P' & D'). exists a'. split; [|exact D']. right. apply in_flat_map. exists (w c). split; [now apply in_map|exact P'].
  Qed.
  Lemma w_sub s : In s (subs t) -> In (w s) (subs t').
  Proof. intros Hs. destruct (sub_place s t [] Hs) as (a & Q). destruct (w_places t (subs_self t) [] a s Q) as (a' & Q' & _). exact (place_sub _ _ _ _ Q'). Qed.
  Lemma w_back a' s' : In (a', s') (places [] t') -> In (root_key s') (keys t) -> exists a s, In (a, s) (places [] t) /\ s' = w s /\ deeper a a'.
  Proof.
    intros Q K. apply sub_of_key in K. destruct K as (s & Hs & E). destruct (sub_place s t [] Hs) as (a & Pl). destruct (w_places t (subs_self t) [] a s Pl) as (a2 & Q2 & D). assert (Z : (a', s') = (a2, w s)) by (apply (place_unique t' []); auto using w_nodup; cbn; now rewrite w_root). inversion Z; subst. exists a, s. auto.
  Qed.
  Lemma deeper_style a a' : deeper a a' -> same_style a a'.
  Proof.
    intros [->|(b & aP & dg & -> & -> & _ & Pl)]; [apply same_style_refl|]. apply chain_nearest. intros x I. destruct Pl as (_ & _ & _ & _ & Z). cbn [nearest]. now rewrite (Z x I).
  Qed.
  Lemma w_shape d ch : In (T d ch) (subs t) -> shape_el d -> w (T d ch) = T d ch.
  Proof.
    intros Hs S. apply w_out; [exact Hs|]. intros Q. destruct (Nat.eq_dec (key d) (root_key P)) as [E|E].
    - assert (X : T d ch = P) by now apply w_is_P. rewrite <- X in TP. cbn in TP. destruct S as (e & Te & He). destruct TP as [Z|Z]; rewrite Z in Te; inversion Te; subst; cbn in He; intuition discriminate.
    - destruct (under_place t _ P Hs) as (a & Pl & I); [apply below_kids; [exact Q|intros X; apply E; now rewrite X]|]. exact (Place a d Pl I S).
  Qed.
  Lemma w_sim :
    (forall m anc s p, paint uu t m anc s p -> In s (subs t) -> forall anc', same_style anc anc' -> exists p', paint uu t' m anc' (w s) p' /\ same p p') /\
    (forall m anc ls p, paints uu t m anc ls p -> (forall s, In s ls -> In s (subs t)) -> forall anc', same_style anc anc' -> exists p', paints uu t' m anc' (map w ls) p' /\ same p p') /\
    (forall m anc ls p, choices uu t m anc ls p -> (forall s, In s ls -> In s (subs t)) -> forall anc', same_style anc anc' -> exists p', choices uu t' m anc' (map w ls) p' /\ same p p').
  Proof.
    assert (NP : forall d ch e, In (T d ch) (subs t) -> tag d = TEl e -> e <> EG -> e <> ESvg -> key d <> root_key P).
    { intros d ch e Hs Te A B E. assert (X : T d ch = P) by now apply w_is_P. rewrite <- X in TP. cbn in TP. destruct TP; congruence. }
    assert (IHP : forall m anc anc' p ch d, T d ch = P -> (forall anc', same_style (d :: anc) anc' -> exists p', paints uu t' m anc' (map w ch) p' /\ same p p') -> same_style anc anc' -> exists p', paints uu t' m (data P :: anc') ch' p' /\ same p p').
    { intros m anc anc' p ch d X IH Sa. assert (Ed : d = data P) by now rewrite <- X. assert (Ec : ch = kids P) by now rewrite <- X. subst d ch. destruct (IH _ (same_style_cons (data P) _ _ Sa)) as (p1 & P1 & S1). rewrite w_kids in P1. destruct (Paints _ _ _ P1) as (p2 & P2 & S2). exists p2. split; [exact P2|]. exact (same_trans _ _ _ S1 S2). }
    apply paint_all.
    - intros m anc s H Hs anc' S. exists []. split; [apply p_hidden; now rewrite w_data|apply same_refl].
    - intros m anc d ch S D Hs anc' Sa. rewrite w_shape by auto. eexists. split; [apply p_shape; assumption|]. apply same_layer_of. apply same_shape; [apply like_refl|now apply same_style_cons].
    - intros m anc d ch l Gd D Q IH Hs anc' Sa. specialize (IH (w_kids_in _ Hs)). destruct (w_dec _ Hs) as [X|E].
      + destruct (IHP _ _ _ _ _ _ X IH Sa) as (p' & P' & S'). assert (Ed : d = data P) by now rewrite <- X. rewrite X, w_P, Ed. rewrite Ed in *. eexists. split; [apply p_group; eassumption|now apply same_layer_of].
      + rewrite w_T by exact E. destruct (IH _ (same_style_cons d _ _ Sa)) as (p' & P' & S'). eexists. split; [apply p_group; eassumption|now apply same_layer_of].
    - intros m anc d ch l Gd D Q IH Hs anc' Sa. specialize (IH (w_kids_in _ Hs)). rewrite w_T by (apply (NP d ch ESwitch Hs Gd); discriminate). destruct (IH _ (same_style_cons d _ _ Sa)) as (p' & P' & S'). eexists. split; [apply p_switch; eassumption|apply same_layer_of; now apply same_switch].
    - intros m anc d ch l Gd D Q IH Hs anc' Sa. specialize (IH (w_kids_in _ Hs)). destruct (w_dec _ Hs) as [X|E].
      + destruct (IHP _ _ _ _ _ _ X IH Sa) as (p' & P' & S'). assert (Ed : d = data P) by now rewrite <- X. rewrite X, w_P, Ed. rewrite Ed in *. eexists. split; [apply p_svg; eassumption|apply same_layer_of; now apply same_view].
      + rewrite w_T by exact E. destruct (IH _ (same_style_cons d _ _ Sa)) as (p' & P' & S'). eexists. split; [apply p_svg; eassumption|apply same_layer_of; now apply same_view].
    - intros m anc d ch s l Gd D E Hx T1 T2 Q IH Hs anc' Sa. rewrite w_T by (apply (NP d ch EUse Hs Gd); discriminate). destruct (IH Hx _ (same_style_cons d _ _ Sa)) as (p' & P' & S'). pose proof (w_sub s Hx) as Hw.
      eexists. split; [apply (p_use uu t' m anc' d _ (w s)); try rewrite w_root; try rewrite w_data; eassumption|now apply same_layer_of].
    - intros m anc d ch s l Gd D E Hx V Q IH Hs anc' Sa. rewrite w_T by (apply (NP d ch EUse Hs Gd); discriminate). specialize (IH (w_kids_in _ Hx)). pose proof (w_sub s Hx) as Hw.
      assert (K : exists p', paints uu t' t_id (data s :: d :: anc') (kids (w s)) p' /\ same l p').
      { destruct (w_dec _ Hx) as [X|Es].
        - subst s. rewrite w_P. cbn [kids]. apply (IHP t_id (d :: anc) (d :: anc') l (kids P) (data P)); [symmetry; apply tree_split|exact IH|now apply same_style_cons].
        - rewrite w_split by exact Es. cbn [kids]. apply IH. apply same_style_cons. now apply same_style_cons. }
      destruct K as (p' & P' & S'). pose proof (p_use_view uu t' m anc' d (map w ch) (w s) p' Gd D) as Z. rewrite w_root, w_data in Z. specialize (Z E Hw V P'). eexists. split; [exact Z|]. apply same_layer_of, same_layer_of. now apply same_view.
    - intros m anc d ch s Gd D E Hx V Q Hs anc' Sa. rewrite w_T by (apply (NP d ch EUse Hs Gd); discriminate). exists []. split; [|apply same_refl]. apply (p_use_hidden uu t' m anc' d _ (w s)); try rewrite w_root; try rewrite w_data; auto. now apply w_sub.
    - intros m anc d ch Gd D E Hs anc' Sa. rewrite w_T by (apply (NP d ch EUse Hs Gd); discriminate). exists []. split; [|apply same_refl]. apply p_use_none; auto. intros s' Hs' X.
      assert (K : In (root_key s') (keys t)). { apply (Links d); [exact (data_of_sub _ _ Hs)|]. rewrite get_lk in X. apply lk_some in X. destruct X as (y & Hy & _ & Ey). exists y. split; [exact Hy|]. now rewrite Ey. }
      apply sub_of_key in K. destruct K as (x & Hx & Ex). apply (E x Hx). now rewrite Ex.
    - intros m anc _ anc' _. exists []. split; [constructor|apply same_refl].
    - intros m anc s l p q _ IH1 _ IH2 H anc' Sa. destruct (IH1 (H s (or_introl eq_refl)) _ Sa) as (p' & P' & S'), (IH2 (fun x Hx => H x (or_intror Hx)) _ Sa) as (q' & Q' & T'). exists (p' ++ q'). split; [now constructor|now apply same_app].
    - intros m anc _ anc' _. exists []. split; [constructor|apply same_refl].
    - intros m anc s l q Ne _ IH H anc' Sa. destruct (IH (fun x Hx => H x (or_intror Hx)) _ Sa) as (q' & Q' & T'). exists q'. split; [apply ch_skip; [now rewrite w_data|exact Q']|exact T'].
    - intros m anc s l p q El _ IH1 _ IH2 H anc' Sa. destruct (IH1 (H s (or_introl eq_refl)) _ Sa) as (p' & P' & S'), (IH2 (fun x Hx => H x (or_intror Hx)) _ Sa) as (q' & Q' & T'). cbn [map]. exists (PAlt (given (data (w s)) condition_attrs) p' :: q'). split; [apply ch_cons; [now rewrite w_data|exact P'|exact Q']|]. rewrite w_data.
      change (same ([PAlt (given (data s) condition_attrs) p] ++ q) ([PAlt (given (data s) condition_attrs) p'] ++ q')). apply same_app; [now apply same_alt|exact T'].
  Qed.
  Lemma w_root_ne : root_key t <> root_key P.
  Proof. intros E. assert (X : t = P) by (apply w_is_P; [apply subs_self|exact E]). rewrite X in Rt. destruct TP; congruence. Qed.
  Lemma w_svg s : svg_element t = Some s -> svg_element t' = Some (w s).
  Proof.
    unfold svg_element, t'. rewrite (w_split t w_root_ne). cbn [kids]. generalize (kids t) as l. induction l as [|c l IH]; [discriminate|]. cbn [find map]. rewrite w_data. destruct (is_tag ESvg (data c)); [intros X; now inversion X|exact IH].
  Qed.
  Lemma wrap_drawing : same_drawing uu t t'.
  Proof.
    destruct w_sim as (S1 & S2 & _). split.
    - intros p (s & E & Q). assert (Hs : In s (kids t)) by (unfold svg_element in E; apply find_some in E; tauto). assert (Hs' : In s (subs t)) by (apply (kid_sub t s t); [apply subs_self|exact Hs]).
      destruct (S1 _ _ _ _ Q Hs' [data t] (same_style_refl _)) as (p' & P' & Sp). exists p'. split; [|exact Sp]. exists (w s). split; [now apply w_svg|]. unfold t' in *. rewrite w_data. exact P'.
    - intros d p Hd Rd (anc & s & Q & K & Z). pose proof (place_sub _ _ _ _ Q) as Hs. assert (Ed : data s = d) by (apply (data_unique t); auto; now apply data_of_sub). split; [apply w_flat; now right|].
      assert (E : root_key s <> root_key P). { intros E. assert (s = P) by now apply w_is_P. subst s. destruct Rd as (e & Te & He). rewrite <- Ed in Te. destruct TP as [Q0|Q0]; rewrite Q0 in Te; inversion Te; subst; cbn in He; intuition discriminate. }
      destruct (w_places t (subs_self t) [] anc s Q) as (a' & P' & De). destruct (S2 _ _ _ _ Z (w_kids_in s Hs) (data s :: a') (same_style_cons _ _ _ (deeper_style _ _ De))) as (p' & P2 & Sp). exists p'. split; [|exact Sp]. exists a', (w s). split; [exact P'|]. rewrite w_root, w_data, (w_split s E). auto.
  Qed.
End Wrap.
