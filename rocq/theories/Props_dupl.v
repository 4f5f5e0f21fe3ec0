(** C21: merging duplicate gradients; C22: merging duplicate blur filters. *)
From Coq Require Import List Bool NArith Arith ZArith String Lia Permutation QArith Qcanon.
From Verif Require Import Names Num Value Dom DomFacts DomOps DomRemove Outcome APass SpecDom SpecText TextProofs Visit Move MoveFacts GroupDefsProofs Dupl SpecGradients SpecWritten SpecGradUnits SpecStyle SpecDupl DuplFacts GradProofs GradTransProofs Props_default Props_coords DuplProofs TasksSimpleProofs BlurProofs.
Import ListNotations.
Local Open Scope nat_scope.

(** The loops. *)
Section loops.
Variable e : eid.
Hypothesis He : e = ELinearGradient \/ e = ERadialGradient.
Notation K := (fun d => tag d = TEl e).
Lemma Kt (d d' : ndata) : tag d = tag d' -> K d -> K d'. Proof. cbn. congruence. Qed.
Definition merges (r : nat -> nat) (t t' : tree) : Prop :=
  ready t' /\ redirects K r t t' /\ forall d, In d (flat t) -> gradient_node d -> same_paint (written t) (key d) (written t') (r (key d)).
Lemma merges_id t : ready t -> merges (fun k => k) t t.
Proof. intros R. split; [exact R|]. split; [apply redirects_id|]. intros d Hd _. change (key d) with (key (vis d)). apply same_paint_refl. apply in_w, Hd. Qed.
Lemma merges_comp r1 r2 t t1 t2 : ready t -> merges r1 t t1 -> merges r2 t1 t2 -> merges (fun k => r2 (r1 k)) t t2.
Proof.
  intros R (R1 & A1 & B1) (R2 & A2 & B2). split; [exact R2|]. split; [exact (redirects_comp _ _ _ _ _ _ (wf_keys _ (r_wf t R)) Kt A1 A2)|]. intros d Hd G. pose proof (B1 d Hd G) as P1.
  assert (Q : exists d1, In d1 (flat t1) /\ key d1 = r1 (key d) /\ gradient_node d1).
  { destruct P1 as (x & d1 & Hx & Kx & Hd1 & Kd1 & T1 & _). unfold written in Hd1, Hx. rewrite flat_tmap in Hd1, Hx. apply in_map_iff in Hd1. destruct Hd1 as (y & <- & Hy). apply in_map_iff in Hx. destruct Hx as (z & <- & Hz). assert (z = d) by (apply (data_unique t); [apply (r_wf t R)|exact Hz|exact Hd|exact Kx]). subst z. exists y. split; [exact Hy|]. split; [exact Kd1|]. unfold gradient_node. cbn in T1. rewrite T1. exact G. }
  destruct Q as (d1 & Hd1 & Kd1 & G1). pose proof (B2 d1 Hd1 G1) as P2. rewrite Kd1 in P2. apply (same_paint_trans _ _ _ _ _ _ (eq_rect_r (fun l => NoDup l) (wf_keys _ (r_wf t1 R1)) (written_keys t1)) P1 P2).
Qed.
Definition present (t : tree) (k : nat) : Prop := exists d, In d (flat t) /\ key d = k /\ tag d = TEl e.
Lemma inner_ok rest : forall k1 t, ready t -> NoDup (k1 :: rest) -> Forall (present t) (k1 :: rest) ->
  exists rest' t' r, dupl_inner (gradients_equal (compared e)) k1 rest t = Ok (rest', t') /\ merges r t t' /\ NoDup rest' /\ Forall (present t') rest' /\ List.length rest' <= List.length rest /\ incl rest' rest /\ (forall k, ~ In k rest -> present t k -> present t' k).
Proof.
  induction rest as [|k2 rest IH]; intros k1 t R ND F.
  - exists [], t, (fun k => k). cbn. split; [reflexivity|]. split; [now apply merges_id|]. split; [constructor|]. split; [constructor|]. split; [auto|]. split; [apply incl_refl|auto].
  - inversion F as [|? ? F1 F']; subst. inversion F' as [|? ? F2 F'']; subst. inversion ND as [|? ? N1 ND']; subst. inversion ND' as [|? ? N2 ND'']; subst.
    destruct F1 as (d1 & Hd1 & Kd1 & T1), F2 as (d2 & Hd2 & Kd2 & T2). destruct (in_place d1 t [] Hd1) as (a1 & s1 & P1 & E1). destruct (in_place d2 t [] Hd2) as (a2 & s2 & P2 & E2).
    pose proof (wf_keys t (r_wf t R)) as Nk. assert (X1 : find_sub k1 t = Some s1) by (rewrite <- Kd1, <- E1; apply find_sub_iff; [exact Nk|exact (place_sub _ _ _ _ P1)]). assert (X2 : find_sub k2 t = Some s2) by (rewrite <- Kd2, <- E2; apply find_sub_iff; [exact Nk|exact (place_sub _ _ _ _ P2)]).
    cbn. rewrite X1, X2. rewrite <- E1 in T1. rewrite <- E2 in T2. destruct (cmp_ok e t s1 s2 a1 a2 He R P1 P2 T1 T2) as (b & Eb). rewrite Eb. cbn.
    assert (Q1 : root_key s1 = k1) by (unfold root_key; congruence). assert (Q2 : root_key s2 = k2) by (unfold root_key; congruence).
    destruct b.
    + assert (N12 : root_key s1 <> root_key s2) by (rewrite Q1, Q2; intros ->; apply N1; now left).
      pose proof (step_relink e t s1 s2 a1 a2 He R P1 P2 T1 T2 N12 Eb) as Er. rewrite Q1, Q2 in Er. rewrite Er. cbn.
      pose proof (step_remove e t s1 s2 a1 a2 He R P1 P2 T1 T2 N12) as Em. rewrite Q1, Q2 in Em. rewrite Em.
      set (t1 := merged t s2 (data s1)) in *. assert (M : merges (ren k2 k1) t t1).
      { split; [exact (ready_t1 e t s1 s2 a1 a2 He R P1 P2 T1 T2 N12 Eb)|]. rewrite <- Q1, <- Q2. split; [exact (redirects_t1 e t s1 s2 a1 a2 He R P1 P2 T1 T2 N12)|]. exact (paint_step e t s1 s2 a1 a2 He R P1 P2 T1 T2 N12 Eb). }
      assert (Pr : forall k, k <> k2 -> present t k -> present t1 k). { intros k Nk' (d & Hd & Kd & Td). apply (present_t1 e t s1 s2 a1 a2 He R P1 P2 T1 T2 N12 k d Hd Kd Td). now rewrite Q2. }
      destruct (IH k1 t1) as (rest' & t' & r & E' & M' & ND3 & F3 & L3 & I3 & Kp3).
      * apply M.
      * constructor; [|exact ND'']. intros H. apply N1. now right.
      * constructor; [apply Pr; [rewrite <- Q1, <- Q2; exact N12|exists d1; rewrite <- E1; rewrite <- E1 in Hd1; auto]|]. apply Forall_forall. intros k Hk. apply Pr; [intros ->; now apply N2|]. exact (proj1 (Forall_forall _ _) F'' k Hk).
      * exists rest', t', (fun k => r (ren k2 k1 k)). split; [exact E'|]. split; [exact (merges_comp _ _ _ _ _ R M M')|]. split; [exact ND3|]. split; [exact F3|]. split; [cbn; lia|]. split; [intros k Hk; right; now apply I3|]. intros k Nk' Hk. apply Kp3; [intros X; apply Nk'; now right|]. apply Pr; [intros ->; apply Nk'; now left|exact Hk].
    + destruct (IH k1 t R) as (rest' & t' & r & E' & M' & ND3 & F3 & L3 & I3 & Kp3).
      * constructor; [|exact ND'']. intros H. apply N1. now right.
      * constructor; [inversion F; assumption|exact F''].
      * rewrite E'. cbn. exists (k2 :: rest'), t', r. split; [reflexivity|]. split; [exact M'|]. split; [constructor; [intros H; apply N2, I3, H|exact ND3]|]. split; [constructor; [apply Kp3; [exact N2|inversion F'; assumption]|exact F3]|]. split; [cbn; lia|]. split; [intros k [<-|Hk]; [now left|right; now apply I3]|]. intros k Nk' Hk. apply Kp3; [intros X; apply Nk'; now right|exact Hk].
Qed.
Lemma loop_ok n : forall l t, List.length l <= n -> ready t -> NoDup l -> Forall (present t) l -> exists t' r, dupl_loop (gradients_equal (compared e)) n l t = Ok t' /\ merges r t t'.
Proof.
  induction n as [|n IH]; intros l t L R ND F; [exists t, (fun k => k); split; [reflexivity|now apply merges_id]|]. destruct l as [|k1 rest]; [exists t, (fun k => k); split; [reflexivity|now apply merges_id]|]. cbn.
  destruct (inner_ok rest k1 t R ND F) as (rest' & t1 & r & E & M & ND' & F' & L' & _). rewrite E. cbn. destruct (IH rest' t1) as (t' & r' & E' & M'); [cbn in L; lia|apply M|exact ND'|exact F'|]. exists t', (fun k => r' (r k)). split; [exact E'|exact (merges_comp _ _ _ _ _ R M M')].
Qed.
Lemma pass_ok t : ready t -> exists t' r, rm_loop (gradients_equal (compared e)) (of_kind e t) t = Ok t' /\ merges r t t'.
Proof.
  intros R. apply loop_ok; [auto|exact R| |].
  - apply (sublist_NoDup _ (keys t)); [|apply (r_wf t R)]. unfold of_kind, keys. apply sublist_map, sublist_filter.
  - apply Forall_forall. intros k Hk. unfold of_kind in Hk. apply in_map_iff in Hk. destruct Hk as (d & <- & Hd). apply filter_In in Hd. exists d. split; [apply Hd|]. split; [reflexivity|]. now apply is_tag_iff.
Qed.
End loops.

(** C21: the pass does not panic; it removes gradients only, redirects all references to a removed
    gradient to the gradient that replaces it, changes nothing else, and every gradient is replaced with
    one that has the same values and the same stops in the saved document. Partial: [ready] documents only. *)
Theorem C21_merge_partial t : ready t ->
  (exists t' r, remove_dupl_linear_gradients t = Ok t' /\ ready t' /\ redirects (fun d => tag d = TEl ELinearGradient) r t t' /\
    forall d, In d (flat t) -> gradient_node d -> same_paint (written t) (key d) (written t') (r (key d))) /\
  (exists t' r, remove_dupl_radial_gradients t = Ok t' /\ ready t' /\ redirects (fun d => tag d = TEl ERadialGradient) r t t' /\
    forall d, In d (flat t) -> gradient_node d -> same_paint (written t) (key d) (written t') (r (key d))).
Proof.
  intros R. split.
  - exact (pass_ok ELinearGradient (or_introl eq_refl) t R).
  - exact (pass_ok ERadialGradient (or_intror eq_refl) t R).
Qed.

(** A document that meets the hypotheses: a and b are equal, then so are c (-> b) and d (-> a). *)
Definition hid (a : aid) (v : value) : attr := At (AN a) v false.
Definition pc (n : Z) : value := VLen (Len (zq n) UPercent).
Definition lin_rest : list attr := [hid AY1 (pc 0); hid AX2 (pc 100); hid AY2 (pc 0); hid AGradientUnits (VPre Vid_objectBoundingBox); hid ASpreadMethod (VPre Vid_pad)].
Definition red_stop (k : nat) : tree := el k EStop [at_ AOffset (VNum (zq 0)); at_ AStopColor (VColor 255 0 0)] [].
Definition grad_a : tree := eli 2 ELinearGradient "a" (at_ AX1 (px 5) :: lin_rest) [red_stop 10].
Definition grad_b : tree := eli 3 ELinearGradient "b" (at_ AX1 (px 5) :: at_ AGradientTransform identity :: lin_rest) [red_stop 11].
Definition grad_c (to : nat) : tree := eli 4 ELinearGradient "c" (at_ AXlinkHref (VLink to) :: hid AX1 (px 5) :: lin_rest) [].
Definition grad_d : tree := eli 5 ELinearGradient "d" (at_ AXlinkHref (VLink 2) :: hid AX1 (px 5) :: lin_rest) [].
Definition dupl_before : tree :=
  doc [el 1 ESvg [] [el 20 EDefs [] [grad_a; grad_b; grad_c 3; grad_d];
    el 21 ERect [at_ AFill (VFunc 3); at_ AStroke (VFunc 5)] []; el 22 EText [at_ AFill (VFunc 4); at_ AWidth (px 5)] []]].
Definition dupl_after : tree :=
  doc [el 1 ESvg [] [el 20 EDefs [] [grad_a; grad_c 2];
    el 21 ERect [at_ AFill (VFunc 2); at_ AStroke (VFunc 4)] []; el 22 EText [at_ AFill (VFunc 4); at_ AWidth (px 5)] []]].
Ltac cases H := repeat (destruct H as [<-|H]; [|]); [..|destruct H].
Ltac eff_lin := first [apply eff_found, ah_own; reflexivity |
  match goal with |- effective _ _ ?a _ => apply (eff_default _ _ a); [apply ah_end; reflexivity|cbn; intuition discriminate] end].
Lemma dupl_gradients d : In d (flat dupl_before) -> gradient_node d -> d = data grad_a \/ d = data grad_b \/ d = data (grad_c 3) \/ d = data grad_d.
Proof. intros Hd G. cbn in Hd. repeat (destruct Hd as [<-|Hd]; [first [solve [auto]|exfalso; destruct G; discriminate]|]). destruct Hd. Qed.
Lemma dupl_gradient_subs s : In s (subs dupl_before) -> gradient_node (data s) -> s = grad_a \/ s = grad_b \/ s = grad_c 3 \/ s = grad_d.
Proof. intros Hd G. cbn in Hd. repeat (destruct Hd as [<-|Hd]; [first [solve [auto]|exfalso; destruct G; discriminate]|]). destruct Hd. Qed.
Example C21_instance : ready dupl_before /\ remove_dupl_linear_gradients dupl_before = Ok dupl_after.
Proof.
  split; [|vm_compute; reflexivity]. split.
  - split; [cbn; repeat constructor; cbn; intuition discriminate|]. intros k Hk. vm_compute in Hk. cbn. intuition.
  - unfold dupl_before. wfa.
  - intros d d' Hd Hd'. cbn in Hd, Hd'. repeat (destruct Hd as [<-|Hd]; [repeat (destruct Hd' as [<-|Hd']; [first [reflexivity|discriminate|intros _ X; now elim X]|]); destruct Hd'|]). destruct Hd.
  - intros d Hd G. destruct (dupl_gradients d Hd G) as [-> | [-> | [-> | ->]]]; discriminate.
  - intros a d p Hc Hp Gp G. cbn in Hc. repeat (destruct Hc as [Hc|Hc]; [inversion Hc; subst a d; first [destruct G; discriminate|cbn in Hp; repeat (destruct Hp as [<-|Hp]; [destruct Gp; discriminate|]); destruct Hp]|]). destruct Hc.
  - intros a d p x Hc Hp Gp Hx (y & Hy & L). assert (K : key d = 10 \/ key d = 11). { cbn in Hc. repeat (destruct Hc as [Hc|Hc]; [inversion Hc; subst a d; first [solve [auto]|cbn in Hp; repeat (destruct Hp as [<-|Hp]; [destruct Gp; discriminate|]); destruct Hp]|]). destruct Hc. }
    assert (M : In (key d) (targets dupl_before)) by (apply targets_in; exists x, y; auto). destruct K as [K|K]; rewrite K in M; vm_compute in M; intuition discriminate.
  - intros s Hs G. destruct (dupl_gradient_subs s Hs G) as [-> | [-> | [-> | ->]]]; cbn; [left|left|right|right]; split; try reflexivity; discriminate.
  - intros d x k Hd Hx L. cbn in Hd. repeat (destruct Hd as [<-|Hd]; [cbn in Hx; repeat (destruct Hx as [<-|Hx]; [first [discriminate L|injection L as <-; eexists; split; [reflexivity|]; split; [reflexivity|]; split; [reflexivity|]; intros [G|G]; first [discriminate G|reflexivity]]|]); destruct Hx|]). destruct Hd.
  - intros d v Hd G E. destruct (dupl_gradients d Hd G) as [-> | [-> | [-> | ->]]]; cbn in E; try discriminate; injection E as <-; [exists (data grad_b)|exists (data grad_a)]; (split; [cbn; auto 10|split; reflexivity]).
  - exists (fun k => k + 10 * (k - 3)). intros d k Hd G E. destruct (dupl_gradients d Hd G) as [-> | [-> | [-> | ->]]]; cbn in E; try discriminate; injection E as <-; cbn; lia.
  - intros s c x a Hs G Hc Hx Nx Ha. destruct (dupl_gradient_subs s Hs G) as [-> | [-> | [-> | ->]]]; cbn in Hc; try contradiction; destruct Hc as [<-|[]]; cbn in Hx; destruct Hx as [<-|[<-|[]]]; auto.
  - intros d Hd G E. destruct (dupl_gradients d Hd G) as [-> | [-> | [-> | ->]]]; split; reflexivity.
  - intros d a Hd G Ha.
    assert (Ia : In (vis (data grad_a)) (flat (written dupl_before))) by (cbn; auto 10). assert (Ib : In (vis (data grad_b)) (flat (written dupl_before))) by (cbn; auto 10).
    assert (A : forall a, In a linear_attrs -> effective (written dupl_before) (vis (data grad_a)) a (d_get (data grad_a) a)). { intros b Hb. repeat (destruct Hb as [<-|Hb]; [eff_lin|]). destruct Hb. }
    assert (B : forall a, In a linear_attrs -> effective (written dupl_before) (vis (data grad_b)) a (d_get (data grad_b) a)). { intros b Hb. repeat (destruct Hb as [<-|Hb]; [eff_lin|]). destruct Hb. }
    assert (NW : NoDup (keys (written dupl_before))) by (cbn; repeat constructor; cbn; intuition discriminate).
    destruct (dupl_gradients d Hd G) as [-> | [-> | [-> | ->]]].
    + exists (d_get (data grad_a) a). split; [now apply A|apply same_value_refl].
    + exists (d_get (data grad_b) a). split; [now apply B|apply same_value_refl].
    + exists (d_get (data grad_b) a). split.
      * apply (eff_step (written dupl_before) (vis (data (grad_c 3))) a _ 3 (vis (data grad_b)) NW); try reflexivity; [|exact Ib|now apply B]. cbn in Ha. repeat (destruct Ha as [<-|Ha]; [reflexivity|]). destruct Ha.
      * cbn in Ha. repeat (destruct Ha as [<-|Ha]; [first [now left|right; cbn; auto]|]). destruct Ha.
    + exists (d_get (data grad_a) a). split.
      * apply (eff_step (written dupl_before) (vis (data grad_d)) a _ 2 (vis (data grad_a)) NW); try reflexivity; [|exact Ia|now apply A]. cbn in Ha. repeat (destruct Ha as [<-|Ha]; [reflexivity|]). destruct Ha.
      * cbn in Ha. repeat (destruct Ha as [<-|Ha]; [first [now left|right; cbn; auto]|]). destruct Ha.
Qed.

(** Without [r_tidy]: a gradient without stops and a gradient that takes its stops from another one are
    merged; the rect loses its stops. *)
Ltac wfdoc := split; [cbn; repeat constructor; cbn; intuition discriminate|intros ? Hk; vm_compute in Hk; cbn; intuition].
Definition lin_all : list attr := hid AX1 (pc 0) :: lin_rest.
Definition stopless (kids : list tree) (fill : nat) : tree :=
  doc [el 1 ESvg [] [el 20 EDefs [] kids; eli 21 ERect "r" [at_ AFill (VFunc fill)] []]].
Theorem C21_stopless_refuted : exists t t' l, WF t /\ WFA t /\ remove_dupl_linear_gradients t = Ok t' /\
  (exists d k, In d (flat t) /\ key d = 21 /\ d_get d AFill = Some (VFunc k) /\ stops_in_effect (written t) k l) /\ l <> [] /\
  (exists d' k', In d' (flat t') /\ key d' = 21 /\ d_get d' AFill = Some (VFunc k') /\ stops_in_effect (written t') k' []).
Proof.
  set (a := eli 2 ELinearGradient "a" lin_all []). set (b := eli 3 ELinearGradient "b" (at_ AXlinkHref (VLink 4) :: lin_all) []). set (c := eli 4 ELinearGradient "c" lin_all [red_stop 10]).
  exists (stopless [a; b; c] 3), (stopless [a; c] 2), [stop_values (red_stop 10)]. split; [wfdoc|]. split; [unfold stopless, a, b, c; wfa|]. split; [vm_compute; reflexivity|]. split; [|split; [discriminate|]].
  - exists (ND 21 (TEl ERect) "r" [at_ AFill (VFunc 3)]), 3. repeat (split; [solve [cbn; auto 12]|]). apply (se_next _ (tmap vis b) 4); [cbn; auto 12|reflexivity|reflexivity|]. apply (se_own _ (tmap vis c)); [cbn; auto 12|discriminate].
  - exists (ND 21 (TEl ERect) "r" [at_ AFill (VFunc 2)]), 2. repeat (split; [solve [cbn; auto 12]|]). apply (se_none _ (tmap vis a)); [cbn; auto 12|reflexivity|reflexivity].
Qed.
(** Without [r_gid]: if the first of two equal gradients has no id, an element without an id loses its
    reference to the second one, and an element with an id makes the program panic. *)
Definition two_grads (id1 idr : string) (second : list tree) (fill : list attr) : tree :=
  doc [el 1 ESvg [] [el 20 EDefs [] (eli 2 ELinearGradient id1 lin_all [red_stop 10] :: second); eli 21 ERect idr fill []]].
Theorem C21_empty_id_refuted : let b := eli 3 ELinearGradient "b" lin_all [red_stop 11] in
  (exists t t', WF t /\ WFA t /\ remove_dupl_linear_gradients t = Ok t' /\
    (exists d, In d (flat t) /\ key d = 21 /\ d_get d AFill = Some (VFunc 3)) /\ (exists d', In d' (flat t') /\ key d' = 21 /\ d_get d' AFill = None)) /\
  exists t, WF t /\ WFA t /\ remove_dupl_linear_gradients t = Panic.
Proof.
  intros b. split.
  - exists (two_grads "" "" [b] [at_ AFill (VFunc 3)]), (two_grads "" "" [] []). split; [wfdoc|]. split; [unfold two_grads, b; wfa|]. split; [vm_compute; reflexivity|]. split.
    + exists (ND 21 (TEl ERect) "" [at_ AFill (VFunc 3)]). split; [cbn; auto 10|]. split; reflexivity.
    + exists (ND 21 (TEl ERect) "" []). split; [cbn; auto 10|]. split; reflexivity.
  - exists (two_grads "" "r" [b] [at_ AFill (VFunc 3)]). split; [wfdoc|]. split; [unfold two_grads, b; wfa|]. vm_compute. reflexivity.
Qed.
(** Without [r_tidy]: gradient a has stops of its own and takes x1 from b, which has the same stops. b is
    removed and a loses x1. *)
Theorem C21_own_href_refuted : exists t t' d d', WF t /\ WFA t /\ remove_dupl_linear_gradients t = Ok t' /\ In d (flat t) /\ In d' (flat t') /\ key d' = key d /\ gradient_node d /\
  effective (written t) (vis d) AX1 (Some (px 5)) /\ effective (written t') (vis d') AX1 (Some (pc 0)).
Proof.
  set (a := fun l => eli 2 ELinearGradient "a" (l ++ hid AX1 (px 5) :: lin_rest) [red_stop 10]). set (b := eli 3 ELinearGradient "b" (at_ AX1 (px 5) :: lin_rest) [red_stop 11]).
  exists (stopless [a [at_ AXlinkHref (VLink 3)]; b] 2), (stopless [a []] 2), (data (a [at_ AXlinkHref (VLink 3)])), (data (a [])).
  split; [wfdoc|]. split; [unfold stopless, a, b; wfa|]. split; [vm_compute; reflexivity|]. split; [cbn; auto 10|]. split; [cbn; auto 10|]. split; [reflexivity|]. split; [now left|]. split.
  - apply eff_found. apply (ah_next _ _ _ 3 (vis (data b))); [reflexivity|reflexivity|cbn; auto 10|reflexivity|]. now apply ah_own.
  - apply (eff_default _ _ AX1); [apply ah_end; reflexivity|cbn; intuition discriminate].
Qed.
(** Without [r_tidy]: a has stops and refers to c, c has none and refers to b, a and b are equal: panic. *)
Theorem C21_crosslink_refuted : exists t, WF t /\ WFA t /\ acyclic t /\ (forall d, In d (flat t) -> gradient_node d -> nid d <> ""%string) /\ remove_dupl_linear_gradients t = Panic.
Proof.
  set (a := eli 2 ELinearGradient "a" (at_ AXlinkHref (VLink 4) :: lin_all) [red_stop 10]). set (b := eli 3 ELinearGradient "b" lin_all [red_stop 11]). set (c := eli 4 ELinearGradient "c" (at_ AXlinkHref (VLink 3) :: lin_all) []).
  exists (stopless [a; b; c] 2). split; [wfdoc|]. split; [unfold stopless, a, b, c; wfa|]. split.
  - exists (fun k => match k with 3 => 0 | 4 => 1 | 2 => 2 | _ => 3 end). intros d k Hd (x & Hx & L). cbn in Hd. repeat (destruct Hd as [<-|Hd]; [cbn in Hx; repeat (destruct Hx as [<-|Hx]; [first [discriminate L|injection L as <-; cbn; lia]|]); destruct Hx|]). destruct Hd.
  - split; [|vm_compute; reflexivity]. intros d Hd G. cbn in Hd. repeat (destruct Hd as [<-|Hd]; [first [discriminate|destruct G; discriminate]|]). destruct Hd.
Qed.
(** Without [r_focus]: b writes fx = cx, a does not; c has a cx of its own and takes fx from b. *)
Theorem C21_focus_refuted : exists t t' d d', WF t /\ WFA t /\ remove_dupl_radial_gradients t = Ok t' /\ In d (flat t) /\ In d' (flat t') /\ key d' = key d /\ gradient_node d /\
  effective (written t) (vis d) AFx (Some (px 5)) /\ effective (written t') (vis d') AFx (Some (px 9)).
Proof.
  set (rest := [hid ACy (pc 50); hid AR (pc 50); hid AFy (pc 50); hid AGradientUnits (VPre Vid_objectBoundingBox); hid ASpreadMethod (VPre Vid_pad)]).
  set (a := eli 2 ERadialGradient "a" (at_ ACx (px 5) :: hid AFx (px 5) :: rest) [red_stop 10]). set (b := eli 3 ERadialGradient "b" (at_ ACx (px 5) :: at_ AFx (px 5) :: rest) [red_stop 11]).
  set (c := fun k => eli 4 ERadialGradient "c" (at_ AXlinkHref (VLink k) :: at_ ACx (px 9) :: hid AFx (px 5) :: rest) []).
  exists (stopless [a; b; c 3] 4), (stopless [a; c 2] 4), (data (c 3)), (data (c 2)). split; [wfdoc|]. split; [unfold stopless, a, b, c, rest; wfa|]. split; [vm_compute; reflexivity|].
  split; [cbn; auto 10|]. split; [cbn; auto 10|]. split; [reflexivity|]. split; [now right|]. split.
  - apply eff_found. apply (ah_next _ _ _ 3 (vis (data b))); [reflexivity|reflexivity|cbn; auto 10|reflexivity|]. now apply ah_own.
  - apply eff_fx; [reflexivity| |apply eff_found, ah_own; reflexivity]. apply (ah_next _ _ _ 2 (vis (data a))); [reflexivity|reflexivity|cbn; auto 10|reflexivity|]. apply ah_end; reflexivity.
Qed.

(** C22: the pass does not panic; only filters that consist of a single feGaussianBlur are removed, each of
    them is replaced with one with the same region, units, colour space and deviation, all references to it
    are redirected, and nothing else changes. Partial: [ready_filters] documents, and see the refutation. *)
Theorem C22_merge_partial t : ready_filters t ->
  exists t' r, remove_dupl_fe_gaussian_blur t = Ok t' /\ ready_filters t' /\ redirects (fun d => tag d = TEl EFilter) r t t' /\
    (forall k, r k <> k -> exists s, In s (subs t) /\ root_key s = k /\ blur_filter s) /\
    (forall s, In s (subs t) -> blur_filter s -> exists s', In s' (subs t') /\ blur_filter s' /\ root_key s' = r (root_key s) /\ same_blur s s').
Proof. intros R. destruct (b_pass t R) as (t' & r & E & (R' & A & Old & B) & C). exists t', r. repeat (split; [assumption|]). exact B. Qed.
Lemma aid_dec (a b : aid) : {a = b} + {a <> b}.
Proof. destruct (aid_eqb_spec a b); auto. Qed.
(** If such filters and blurs have no other attributes, the replaced and the kept filter are the same. *)
Definition only_blur_attrs (t : tree) : Prop := forall s c a, In s (subs t) -> blur_filter s -> In c (kids s) ->
  (~ In a filter_attrs -> d_get (data s) a = None) /\ (a <> AStdDeviation -> d_get (data c) a = None).
Corollary C22_same_filter t : ready_filters t -> only_blur_attrs t ->
  exists t' r, remove_dupl_fe_gaussian_blur t = Ok t' /\ redirects (fun d => tag d = TEl EFilter) r t t' /\
    forall s, In s (subs t) -> blur_filter s -> exists s' c c', In s' (subs t) /\ In s' (subs t') /\ root_key s' = r (root_key s) /\ kids s = [c] /\ kids s' = [c'] /\
      forall a, d_get (data s') a = d_get (data s) a /\ d_get (data c') a = d_get (data c) a.
Proof.
  intros R O. destruct (b_pass t R) as (t' & r & E & (R' & A & Old & B) & C). exists t', r. split; [exact E|]. split; [exact A|]. intros s Hs Bs. destruct (B s Hs Bs) as (s' & Hs' & Bs' & K' & Sa & c & c' & Ec & Ec' & V).
  exists s', c, c'. pose proof (Old s' Hs' Bs') as Hs0. repeat (split; [assumption|]). intros a. destruct (O s c a Hs Bs) as [X1 X2]; [rewrite Ec; now left|]. destruct (O s' c' a Hs0 Bs') as [Y1 Y2]; [rewrite Ec'; now left|]. split.
  - destruct (in_dec aid_dec a filter_attrs) as [I|I]; [now apply Sa|]. now rewrite X1, Y1.
  - destruct (aid_dec a AStdDeviation) as [->|N]; [exact V|]. now rewrite X2, Y2.
Qed.
Definition blur (k : nat) (extra : list attr) : tree := el k EFeGaussianBlur (at_ AStdDeviation (VNum (zq 2)) :: extra) [].
Definition blur_doc (fs : list tree) (u : nat) : tree := doc [el 1 ESvg [] [el 20 EDefs [] fs; el 21 ERect [at_ AFilter (VFunc u)] []; el 22 ERect [at_ AFilter (VFunc 2)] []]].
Definition bf (k : nat) (id : string) (c : tree) : tree := eli k EFilter id [at_ AX (pc 0)] [c].
Lemma blur_ready e1 e2 : Forall (fun x => link_of (a_val x) = None) (e1 ++ e2) -> ready_filters (blur_doc [bf 2 "f" (blur 10 e1); bf 3 "g" (blur 11 e2)] 3).
Proof.
  intros Q. rewrite Forall_app, !Forall_forall in Q. destruct Q as [Q1 Q2].
  assert (Lk : forall d x k, In d (flat (blur_doc [bf 2 "f" (blur 10 e1); bf 3 "g" (blur 11 e2)] 3)) -> In x (attrs d) -> link_of (a_val x) = Some k -> (k = 2 \/ k = 3) /\ x = at_ AFilter (VFunc k) /\ (key d = 21 \/ key d = 22)).
  { intros d x k Hd Hx L. cbn in Hd. repeat (destruct Hd as [<-|Hd]; [cbn in Hx; first [contradiction|destruct Hx as [<-|Hx]; [first [discriminate L|injection L as <-; auto]|first [contradiction|rewrite (Q1 x Hx) in L; discriminate|rewrite (Q2 x Hx) in L; discriminate]]]|]). destruct Hd. }
  split.
  - split; [cbn; repeat constructor; cbn; intuition discriminate|]. intros k Hk. apply targets_in in Hk. destruct Hk as (d & x & Hd & Hx & L). destruct (Lk d x k Hd Hx L) as [[-> | ->] _]; cbn; auto 10.
  - intros d d' Hd Hd'. cbn in Hd, Hd'. repeat (destruct Hd as [<-|Hd]; [repeat (destruct Hd' as [<-|Hd']; [first [reflexivity|discriminate|intros _ X; now elim X]|]); destruct Hd'|]). destruct Hd.
  - intros d Hd G. cbn in Hd. repeat (destruct Hd as [<-|Hd]; [first [discriminate]|]). destruct Hd.
  - intros a d p Hc Hp Gp G. cbn in Hc. repeat (destruct Hc as [Hc|Hc]; [inversion Hc; subst a d; first [discriminate G|cbn in Hp; repeat (destruct Hp as [<-|Hp]; [discriminate|]); destruct Hp]|]). destruct Hc.
  - intros a d p x Hc Hp Gp Hx (y & Hy & L). destruct (Lk x y _ Hx Hy L) as [Kd _]. cbn in Hc. repeat (destruct Hc as [Hc|Hc]; [inversion Hc; subst a d; first [destruct Kd; discriminate|cbn in Hp; repeat (destruct Hp as [<-|Hp]; [discriminate|]); destruct Hp]|]). destruct Hc.
  - intros d x k Hd Hx L. destruct (Lk d x k Hd Hx L) as (_ & -> & _). exists AFilter. auto.
  - intros s d x Hs (T & _) Hd Hx. destruct (link_of (a_val x)) as [k|] eqn:L; [|reflexivity]. exfalso. cbn in Hs. repeat (destruct Hs as [<-|Hs]; [first [discriminate T|cbn in Hd; repeat (destruct Hd as [<-|Hd]; [cbn in Hx; destruct Hx as [<-|Hx]; [discriminate L|first [contradiction|rewrite (Q1 x Hx) in L; discriminate|rewrite (Q2 x Hx) in L; discriminate]]|]); destruct Hd]|]). destruct Hs.
Qed.
Example C22_instance : ready_filters (blur_doc [bf 2 "f" (blur 10 []); bf 3 "g" (blur 11 [])] 3) /\ only_blur_attrs (blur_doc [bf 2 "f" (blur 10 []); bf 3 "g" (blur 11 [])] 3) /\
  remove_dupl_fe_gaussian_blur (blur_doc [bf 2 "f" (blur 10 []); bf 3 "g" (blur 11 [])] 3) = Ok (blur_doc [bf 2 "f" (blur 10 [])] 2).
Proof.
  split; [apply blur_ready; constructor|]. split; [|vm_compute; reflexivity]. intros s c a Hs (T & _) Hc. cbn in Hs. repeat (destruct Hs as [<-|Hs]; [first [discriminate T|idtac]|]); try contradiction.
  all: destruct Hc as [<-|[]]; split; intros N; unfold d_get, get_value, get_attr, has_name; cbn [attrs data find a_name bf blur eli el at_ aname_eqb].
  1, 3: destruct (aid_eqb_spec AX a) as [<-|]; [elim N; cbn; auto|reflexivity]. all: destruct (aid_eqb_spec AStdDeviation a) as [<-|]; [now elim N|reflexivity].
Qed.
(** Other attributes of the blurs are not compared: the subregion of a primitive is lost. *)
Theorem C22_subregion_refuted : exists t t' s c s' c' k k', ready_filters t /\ remove_dupl_fe_gaussian_blur t = Ok t' /\
  (exists d d', In d (flat t) /\ key d = 21 /\ d_get d AFilter = Some (VFunc k) /\ In d' (flat t') /\ key d' = 21 /\ d_get d' AFilter = Some (VFunc k')) /\
  In s (subs t) /\ root_key s = k /\ kids s = [c] /\ d_get (data c) AWidth = Some (px 5) /\
  In s' (subs t') /\ root_key s' = k' /\ kids s' = [c'] /\ d_get (data c') AWidth = None.
Proof.
  exists (blur_doc [bf 2 "f" (blur 10 []); bf 3 "g" (blur 11 [at_ AWidth (px 5)])] 3), (blur_doc [bf 2 "f" (blur 10 [])] 2).
  exists (bf 3 "g" (blur 11 [at_ AWidth (px 5)])), (blur 11 [at_ AWidth (px 5)]), (bf 2 "f" (blur 10 [])), (blur 10 []), 3, 2. split; [apply blur_ready; constructor; [reflexivity|constructor]|]. split; [vm_compute; reflexivity|]. split.
  - exists (ND 21 (TEl ERect) "" [at_ AFilter (VFunc 3)]), (ND 21 (TEl ERect) "" [at_ AFilter (VFunc 2)]). repeat (split; [solve [cbn; auto 10]|]). reflexivity.
  - split; [cbn; auto 10|]. do 3 (split; [reflexivity|]). split; [cbn; auto 10|]. do 2 (split; [reflexivity|]). reflexivity.
Qed.
(** [color] of the gradients is not compared: stops with [currentColor] change their color. *)
Definition cg (k : nat) (id : string) (c : value) : tree := eli k ELinearGradient id (at_ AColor c :: lin_all) [el (10 + k) EStop [at_ AOffset (VNum (zq 0)); at_ AStopColor (VPre Vid_currentColor)] []].
Definition cg_red : value := VColor 255 0 0.
Definition cg_blue : value := VColor 0 0 255.
Definition cg_doc (gs : list tree) (k : nat) : tree := doc [el 1 ESvg [] [el 4 EDefs [] gs; el 5 ERect [at_ AFill (VFunc k)] []]].
Theorem C21_color_refuted : exists t t' s c s' c' k', remove_dupl_linear_gradients t = Ok t' /\
  find_data 5 t = Some (ND 5 (TEl ERect) "" [at_ AFill (VFunc (root_key s))]) /\ find_data 5 t' = Some (ND 5 (TEl ERect) "" [at_ AFill (VFunc k')]) /\ root_key s' = k' /\
  In s (subs t) /\ kids s = [c] /\ In s' (subs t') /\ kids s' = [c'] /\ d_get (data c) AStopColor = Some (VPre Vid_currentColor) /\ d_get (data c') AStopColor = Some (VPre Vid_currentColor) /\
  nearest AColor [data c; data s] = Some cg_blue /\ nearest AColor [data c'; data s'] = Some cg_red.
Proof.
  exists (cg_doc [cg 2 "a" cg_red; cg 3 "b" cg_blue] 3), (cg_doc [cg 2 "a" cg_red] 2), (cg 3 "b" cg_blue). eexists. exists (cg 2 "a" cg_red). eexists. exists 2. split; [vm_compute; reflexivity|].
  repeat (split; [first [reflexivity|solve [cbn; auto 12]]|]). reflexivity.
Qed.
