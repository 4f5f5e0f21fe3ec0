(** Tidy documents stay in order. *)
From Coq Require Import List Bool NArith Arith ZArith String Lia QArith Qcanon Permutation.
From Verif Require Import Names Num Value Dom DomFacts DomOps Outcome Cli DomRemove SpecDom SpecText SpecGradients SpecWritten SpecGradUnits Gradients Stops TasksSimple Inherit Round Shapes Transforms Links Dupl MergeGradients Regroup ResolveUse SpecUse Ungroup RmUnusedDefs RmInvisible RmDefault RmText Needless GroupDefs GradUnits SpecGroupDefs Clean SpecClean APass MoveFacts WfAll WfStruct UseStep WfUse WfGrad SpecWf Props_wf SpecEnds Ends Props_ends SpecTidy PlainMove PlainDefs Mild MildPasses MildMove MildUngroup MildInvisible MildDupl MildMerge MildDefs MildRegroup MildUse.
Import ListNotations.
Local Open Scope nat_scope.
Local Open Scope list_scope.

Section Safe.
Variables (x : svgdom) (o : cleaning_options) (Q : Prop).
Hypothesis HQ : Q -> o_remove_dupl_linear_gradients o = false /\ o_remove_dupl_radial_gradients o = false.
Definition need (p : pass) (t : tree) : Prop := calm p t /\ (Q -> in_order p t).
Inductive safe : list pass -> tree -> Prop :=
| safe_nil t : safe [] t
| safe_cons p l t : need p t -> (forall t1, perform x o p t = Some (Ok t1) -> safe l t1) -> safe (p :: l) t.
Lemma safe_runs : forall pre p post t t1, safe (pre ++ p :: post) t -> runs x o pre t (Some (Ok t1)) -> need p t1.
Proof.
  induction pre as [|q pre IH]; intros p post t t1 S R; inversion R; subst; cbn [app] in S.
  - now inversion S.
  - match goal with H : perform x o q t = Some (Ok ?t2) |- _ => inversion S as [|? ? ? N K]; subst; exact (IH p post t2 t1 (K t2 H) ltac:(assumption)) end.
Qed.
Lemma safe_seg (S : tree -> Prop) l rest : (forall p t, In p l -> S t -> need p t) -> (forall p t t1, In p l -> S t -> perform x o p t = Some (Ok t1) -> S t1) ->
  (forall t, S t -> safe rest t) -> forall t, S t -> safe (l ++ rest) t.
Proof.
  induction l as [|p l IH]; intros H1 H2 H3 t St; cbn [app]; [auto|]. constructor; [apply H1; [now left|exact St]|]. intros t1 E. apply IH; [intros; apply H1; [now right|assumption]|intros q u u1 Hq; apply H2; now right|exact H3|]. apply (H2 p t); [now left|exact St|exact E].
Qed.
(** ** What the passes need *)
Lemma ranked_acyclic GK e t : e = ELinearGradient \/ e = ERadialGradient -> okt GK t -> ranked t -> acyclic_kind e t.
Proof.
  intros He O (rank & R). exists rank. intros d y Hd Hy Td Ty (z & Hz & L). assert (G : gradient_node d) by (destruct He; subst e; [now left|now right]).
  apply (R d z (key y) Hd G Hz). destruct (og_attrs _ _ (O d Hd) G z Hz) as [(_ & k & Ev & _)|[L' _]]; [|congruence]. rewrite Ev in L. cbn in L. injection L as <-. exact Ev.
Qed.
Lemma ranked_last GK t : okt GK t -> ranked t -> href_acyclic t /\ plain_links t.
Proof.
  intros O (rank & R). split.
  - exists rank. intros d k Hd G E. destruct (d_get_in _ _ _ E) as (z & Hz & _ & V). exact (R d z k Hd G Hz V).
  - intros d z k y Hd G Hz L _ _ _. destruct (og_attrs _ _ (O d Hd) G z Hz) as [(Hn & k' & Ev & _)|[L' _]]; [|congruence]. split; [exact Hn|]. rewrite Ev in *. cbn in L. congruence.
Qed.
(** ** Before the elements are moved into the defs element *)
Definition topU (U : nat -> Prop) (t : tree) : Prop := forall a d, In (a, d) (ctx [] t) -> U (key d) -> tag d <> TEl EDefs /\ tag d <> TRoot /\ 2 <= List.length a.
Definition stateA (t : tree) : Prop := fine t /\ (exists U ur GK, tame U ur GK t /\ gp t /\ topU U t) /\ (Q -> ranked t).
Lemma M_tag_el d d' e : M d d' -> tag d' <> TEl EPath -> tag d' = e -> tag d = e.
Proof. intros H N E. destruct (M_tag _ _ H) as [X|[X _]]; congruence. Qed.
Lemma topU_shr U t t' : topU U t -> shr M t t' -> topU U t'.
Proof.
  intros H S a d Hd Ud. destruct (shr_ctx M t t' [] [] (a, d) S (Forall2_nil _) Hd) as ([a0 d0] & H0 & M0 & F0). cbn [fst snd] in *. rewrite (M_key _ _ M0) in Ud. destruct (H a0 d0 H0 Ud) as (A & B & C).
  split; [intros X; apply A; apply (M_tag_el _ _ _ M0); [rewrite X; discriminate|exact X]|]. split; [intros X; apply B; apply (M_tag_el _ _ _ M0); [rewrite X; discriminate|exact X]|]. assert (L : List.length a0 = List.length a) by (clear - F0; induction F0; cbn; congruence). lia.
Qed.
Lemma stateA_shr t t' : stateA t -> fine t' -> shr M t t' -> stateA t'.
Proof.
  intros (F & (U & ur & GK & T & G & P) & R) F' S. split; [exact F'|]. split.
  - exists U, ur, GK. split; [exact (tame_desc _ _ _ _ _ T (desc_shr _ _ S))|]. split; [exact (gp_shr _ _ G S)|exact (topU_shr _ _ _ P S)].
  - intros q. exact (ranked_desc _ _ (R q) (desc_shr _ _ S)).
Qed.
Definition segA : list pass := [PLinear; PRadial; PStops; PInherit; PFix].
Ltac each H := repeat (destruct H as [<-|H]; [|]); [..|destruct H].
Lemma needA p t : In p segA -> stateA t -> need p t.
Proof.
  intros H (F & (U & ur & GK & T & G & P) & R). pose proof (tm_nodes _ _ _ _ T) as O. unfold segA in H. each H; (split; [exact I|]); intros q; cbn [in_order]; try exact I; apply (ranked_acyclic GK); auto.
Qed.
Lemma tame_nokw U ur GK t : tame U ur GK t -> forall d, In d (flat t) -> no_kw d.
Proof.
  intros T d Hd [E|E] y k Hy Hn V; [|exact (tm_g _ _ _ _ T d y Hd E Hy Hn)]. destruct (tm_use _ _ _ _ T d y Hd E Hy Hn) as (j & X & _). congruence.
Qed.
Lemma keepA p t t1 : In p segA -> stateA t -> perform x o p t = Some (Ok t1) -> stateA t1.
Proof.
  intros H S E. pose proof S as (F & (U & ur & GK & T & G & P) & R). pose proof (tm_nodes _ _ _ _ T) as O.
  assert (C : calm p t) by (exact (proj1 (needA p t H S))). apply (stateA_shr t); [exact S|exact (fine_perform x o p t t1 F C E)|]. pose proof (fine_nodup t F) as ND.
  unfold segA in H. each H; cbn [perform] in E.
  - exact (mild_linear GK t t1 ND O E).
  - exact (mild_radial GK t t1 ND O E).
  - injection E as E. exact (mild_stops GK t t1 O E).
  - injection E as E. exact (mild_inherit GK t t1 O (tame_nokw _ _ _ _ T) E).
  - injection E as E. exact (mild_fix GK t t1 O E).
Qed.
(** ** After it *)
Definition stateB (t : tree) : Prop := state t /\ (Q -> ranked t).
Lemma top_len t s : svg_element t = Some s -> In ([data t], data s) (ctx [] t).
Proof. intros E. apply svg_sub in E. destruct t as [d ch]. cbn in *. right. apply in_flat_map. exists s. split; [exact E|]. destruct s. now left. Qed.
Lemma defsB t t1 : stateA t -> perform x o PGroupDefs t = Some (Ok t1) -> stateB t1.
Proof.
  intros S E. pose proof S as (F & (U & ur & GK & T & G & P) & R). assert (F1 : fine t1) by (exact (fine_perform x o PGroupDefs t t1 F I E)). cbn [perform] in E. injection E as E.
  destruct (svg_element t) as [svg|] eqn:Es; [|unfold group_defs in E; rewrite Es in E; discriminate].
  assert (H : forall d, In d (flat t) -> U (key d) -> tag d <> TEl EDefs /\ tag d <> TRoot /\ key d <> root_key svg).
  { intros d Hd Ud. rewrite <- (map_snd_ctx [] t) in Hd. apply in_map_iff in Hd. destruct Hd as ([a d'] & Ed & Hd). cbn in Ed. subst d'. destruct (P a d Hd Ud) as (A & B & C). split; [exact A|]. split; [exact B|]. intros K. pose proof (top_len t svg Es) as Hs. pose proof (ctx_unique t [] _ _ (fine_nodup t F) Hd Hs K) as X. injection X as -> _. cbn in C. lia. }
  destruct (tame_defs U ur GK t svg t1 F T G Es H E) as (A & B & C). split; [|auto]. split; [exact F1|]. eauto.
Qed.
Definition segB : list pass := [PRound; PTitle; PDesc; PMetadata; PUnusedDefs; PInvalidStops; PGradTransforms; PDuplLinear; PDuplRadial; PDuplBlur; PMerge; PGradTransforms;
  PUngroup; PShapeTransforms; PConvertShapes; PPaths; PInvisible; PRegroupStops; PUngroup].
Lemma ctx_strict : forall t A anc y, NoDup (keys t) -> In (anc, y) (ctx A t) -> exists l, anc = l ++ A /\ forall p, In p l -> key p <> key y.
Proof.
  intros t. induction t as [d ch IH] using tree_ind'. intros A anc y ND H. cbn in H. destruct H as [H|H]; [injection H as <- <-; exists []; split; [reflexivity|intros p []]|].
  apply in_flat_map in H. destruct H as (c & Hc & H). rewrite Forall_forall in IH. rewrite keys_cons in ND. inversion ND as [|? ? N1 N2]; subst. destruct (IH c Hc (d :: A) anc y) as (l & E & L); [|exact H|].
  - clear - N2 Hc. induction ch as [|c' ch IH]; [destruct Hc|]. cbn in N2. apply NoDup_app_inv in N2. destruct Hc as [<-|Hc]; [apply N2|apply IH; [exact Hc|apply N2]].
  - exists (l ++ [d]). rewrite <- app_assoc. split; [exact E|]. intros p Hp. apply in_app_or in Hp. destruct Hp as [Hp|[<-|[]]]; [now apply L|]. intros K. apply N1. rewrite K. apply in_flat_map. exists c. split; [exact Hc|]. unfold keys. rewrite <- (map_snd_ctx (d :: A) c). rewrite map_map. apply in_map_iff. exists (anc, y). auto.
Qed.
Lemma strict_anc t anc y p : NoDup (keys t) -> In (anc, y) (ctx [] t) -> In p anc -> key p <> key y.
Proof. intros ND H Hp. destruct (ctx_strict t [] anc y ND H) as (l & E & L). rewrite app_nil_r in E. subst l. auto. Qed.
Lemma anc_flat : forall t A anc y p, In (anc, y) (ctx A t) -> In p anc -> In p A \/ In p (flat t).
Proof.
  intros t. induction t as [d ch IH] using tree_ind'. intros A anc y p H Hp. cbn in H. destruct H as [H|H]; [injection H as <- <-; now left|]. apply in_flat_map in H. destruct H as (c & Hc & H). rewrite Forall_forall in IH. destruct (IH c Hc _ _ _ p H Hp) as [[<-|X]|X]; [right; now left|now left|right; right; apply in_flat_map; eauto].
Qed.
Lemma snd_flat t A anc y : In (anc, y) (ctx A t) -> In y (flat t).
Proof. intros H. rewrite <- (map_snd_ctx A t). apply in_map_iff. exists (anc, y). auto. Qed.
Lemma needB p t : In p segB -> stateB t -> need p t.
Proof.
  intros H ((F & U & ur & GK & T & Ne) & R). pose proof (tm_nodes _ _ _ _ T) as O. pose proof (fine_nodup t F) as ND. split.
  - destruct p; try exact I.
    + (* PMerge *) intros g anc y p Hg Gg Hy Hp (z & Hz & L) Gy. destruct (og_attrs _ _ (O g Hg) Gg z Hz) as [(_ & k & Ev & Gk)|[L' _]]; [|congruence]. rewrite Ev in L. cbn in L. injection L as ->.
      assert (Hpf : In p (flat t)) by (destruct (anc_flat t [] anc y p Hy Hp) as [[]|X]; exact X). pose proof (og_key _ _ (O p Hpf) Gk) as Gp. destruct (Ne y p (snd_flat _ _ _ _ Hy) Hpf Gy (anc_inside _ _ _ _ Hy Hp)) as [K|[N _]]; [exact (strict_anc _ _ _ _ ND Hy Hp K)|contradiction].
    + (* PRegroupStops *) intros anc y p Hy Hp Gp Gy. assert (Hpf : In p (flat t)) by (destruct (anc_flat t [] anc y p Hy Hp) as [[]|X]; exact X). destruct (Ne y p (snd_flat _ _ _ _ Hy) Hpf Gy (anc_inside _ _ _ _ Hy Hp)) as [K|[N _]]; [exact (strict_anc _ _ _ _ ND Hy Hp K)|contradiction].
    + exfalso. unfold segB in H. cbn in H. intuition discriminate.
  - intros q. specialize (R q). destruct p; try exact I; try (exfalso; unfold segB in H; cbn in H; intuition discriminate). apply (ranked_acyclic GK); auto.
Qed.
Lemma stateB_desc t t' : stateB t -> fine t' -> desc t t' -> stateB t'.
Proof.
  intros ((F & U & ur & GK & T & Ne) & R) F' D. split; [|intros q; exact (ranked_desc _ _ (R q) D)]. split; [exact F'|]. exists U, ur, GK. split; [exact (tame_desc _ _ _ _ _ T D)|exact (nest_desc _ _ _ Ne D)].
Qed.
Lemma stateB_nodes t t' : (forall d', In d' (flat t') -> exists d, In d (flat t) /\ M d d') -> ranked t -> ranked t'.
Proof.
  intros D (rank & R). exists rank. intros d y k Hd Gd Hy V. destruct (D d Hd) as (d0 & H0 & M0). pose proof (proj1 (M_grad _ _ M0) Gd) as G0. rewrite (M_key _ _ M0). destruct (M_attrs _ _ M0 y Hy) as [X|[X _]]; [exact (R d0 y k H0 G0 X V)|].
  destruct (X G0) as [L _]. rewrite V in L. discriminate.
Qed.
Lemma keepB p t t1 : In p segB -> enabled o p = true -> stateB t -> perform x o p t = Some (Ok t1) -> stateB t1.
Proof.
  intros H En S E. pose proof S as ((F & U & ur & GK & T & Ne) & R). pose proof (tm_nodes _ _ _ _ T) as O. pose proof (fine_nodup t F) as ND. pose proof (tame_GKof U ur GK t (fine_wf t F) T) as TG.
  assert (F1 : fine t1) by (exact (fine_perform x o p t t1 F (proj1 (needB p t H S)) E)).
  assert (Dsh : shr M t t1 -> stateB t1) by (intros X; exact (stateB_desc t t1 S F1 (desc_shr _ _ X))).
  assert (Dbe : below t t1 -> stateB t1) by (intros X; exact (stateB_desc t t1 S F1 (below_desc _ _ X))).
  destruct p; try (exfalso; unfold segB in H; cbn in H; intuition discriminate); cbn [perform] in E.
  - injection E as <-. apply Dsh. exact (mild_round GK _ t O).
  - injection E as <-. apply Dbe. apply below_drain.
  - injection E as <-. apply Dbe. apply below_drain.
  - injection E as <-. apply Dbe. apply below_drain.
  - apply Dbe. exact (below_unused_defs t t1 F E).
  - injection E as <-. apply Dbe. apply below_remove_nodes.
  - injection E as E. apply Dsh. exact (mild_grad_transforms GK t t1 ND O E).
  - injection E as E. pose proof (dupl_linear_descg U ur t t1 ND TG E) as D. split; [|intros q; cbn [enabled] in En; destruct (HQ q); congruence]. split; [exact F1|]. exists U, ur, (GKof t). split; [exact (tame_descg _ _ _ _ _ TG D)|exact (nest_descg _ _ _ _ Ne D)].
  - injection E as E. pose proof (dupl_radial_descg U ur t t1 ND TG E) as D. split; [|intros q; cbn [enabled] in En; destruct (HQ q); congruence]. split; [exact F1|]. exists U, ur, (GKof t). split; [exact (tame_descg _ _ _ _ _ TG D)|exact (nest_descg _ _ _ _ Ne D)].
  - injection E as E. exact (stateB_desc t t1 S F1 (dupl_blur_desc U ur t t1 ND TG E)).
  - unfold merge_all in E. destruct (merge_gradients _ t) as [t2|] eqn:E2; [|discriminate]. cbn in E. injection E as <-. destruct (good_merge U ur GK _ t t t2 (good_refl U ur GK t F T Ne) E2) as [G1 G2 G3 G4]. split; [split; [exact G1|eauto]|]. intros q. exact (stateB_nodes _ _ G4 (R q)).
  - apply Dbe. refine (below_ungroup U _ _ t t1 F Ne _ E). intros d y Hd Td Hy. exact (tm_g _ _ _ _ T d y Hd Td Hy).
  - injection E as E. apply Dsh. exact (mild_shapes GK t t1 O E).
  - injection E as E. apply Dsh. exact (mild_convert GK t t1 O E).
  - injection E as E. apply Dsh. exact (mild_paths GK _ t t1 O E).
  - apply Dbe. exact (below_invisible U ur GK _ t t1 F T E).
  - unfold regroup_gradient_stops in E. destruct (regroup_loop _ _ t) as [[b t2]|e|] eqn:E2; try discriminate.
    assert (Rd : ready_for (stop_owners t) t).
    { intros k d Hk Hd Kd. unfold stop_owners in Hk. apply in_map_iff in Hk. destruct Hk as (s & Ks & Hs). apply filter_In in Hs. destruct Hs as [Hs C]. apply andb_true_iff in C. destruct C as [C _]. apply andb_true_iff in C. destruct C as [C _]. apply is_gradient_iff. assert (d = data s) by (apply (data_unique t); [apply F|exact Hd|now apply data_of_sub|unfold root_key in Ks; congruence]). now subst d. }
    destruct (state_loop _ _ t _ (conj F (ex_intro _ U (ex_intro _ ur (ex_intro _ GK (conj T Ne))))) Rd E2) as [S2 R2].
    cbn [snd] in *. destruct b; [|injection E as <-; split; [exact S2|auto]]. assert (SB : stateB t2) by (split; [exact S2|auto]). pose proof S2 as (F2 & U2 & ur2 & GK2 & T2 & _). apply (stateB_desc t2 t1 SB F1). apply desc_shr. exact (mild_linear GK2 t2 t1 (fine_nodup t2 F2) (tm_nodes _ _ _ _ T2) E).
Qed.
(** ** Use elements *)
Lemma needUse t : stateB t -> need PResolveUse t.
Proof.
  intros ((F & U & ur & GK & T & Ne) & R). split; [|intros _; exact I]. exists ur. intros u l u' l' H H' Hu. pose proof (fine_nodup t F) as ND.
  assert (X : forall v m, replaceable t v m -> exists k, root_key m = k /\ U k /\ forall b, inside t (root_key v) b -> U b -> ur k < ur b).
  { intros v m Hv. pose proof (proj2 (r_link _ _ _ Hv)) as L1. destruct (r_use _ _ _ Hv) as [L2 L3]. destruct (d_get_in _ _ _ L1) as (y & Hy & Ny & Vy). destruct (tm_use _ _ _ _ T (data v) y (data_of_sub _ _ L2) L3 Hy Ny) as (k & E & A & B). rewrite Vy in E. injection E as E. exists k. auto. }
  destruct (X u l H) as (k & <- & A & _). destruct (X u' l' H') as (k' & <- & A' & B'). apply B'; [|exact A]. exists l. split; [apply (r_link _ _ _ H)|]. split; [reflexivity|]. unfold keys, root_key. apply in_map. now apply data_of_sub.
Qed.
Definition stateC (t : tree) : Prop := fine t /\ (exists GK, okt GK t) /\ (Q -> ranked t).
Lemma useC t t1 : stateB t -> perform x o PResolveUse t = Some (Ok t1) -> stateC t1.
Proof.
  intros S E. pose proof S as ((F & U & ur & GK & T & Ne) & R). assert (F1 : fine t1) by (exact (fine_perform x o PResolveUse t t1 F (proj1 (needUse t S)) E)). cbn [perform] in E. injection E as E. pose proof (nodes_resolve_use U ur GK t t1 F T E) as N. split; [exact F1|]. split; [exists GK; exact (nodes_okt GK _ _ N (tm_nodes _ _ _ _ T))|]. intros q. exact (nodes_ranked _ _ N (R q)).
Qed.
Lemma stateBC t : stateB t -> stateC t.
Proof. intros ((F & U & ur & GK & T & Ne) & R). split; [exact F|]. split; [exists GK; exact (tm_nodes _ _ _ _ T)|exact R]. Qed.
Definition segC : list pass := [PDefaultAttrs; PTextAttrs; PNeedlessAttrs].
Lemma needC p t : In p segC -> need p t.
Proof. unfold segC. intros H. each H; split; try exact I; intros _; exact I. Qed.
Lemma keepC p t t1 : In p segC -> stateC t -> perform x o p t = Some (Ok t1) -> stateC t1.
Proof.
  intros H (F & (GK & O) & R) E. assert (F1 : fine t1) by (exact (fine_perform x o p t t1 F (proj1 (needC p t H)) E)).
  assert (S : shr M t t1). { unfold segC in H. each H; cbn [perform] in E; injection E as E; [exact (mild_default GK _ t t1 O E)|exact (mild_text t t1 E)|rewrite <- E; apply mild_needless]. }
  split; [exact F1|]. split; [exists GK; exact (okt_shr GK _ _ O S)|]. intros q. exact (ranked_desc _ _ (R q) (desc_shr _ _ S)).
Qed.
Lemma needD t : stateC t -> need PGradAttrs t.
Proof. intros (F & (GK & O) & R). split; [exact I|]. intros q. exact (ranked_last GK t O (R q)). Qed.
Definition segD : list pass := [PUnusedCoords; PUngroup; PGroupStyle; PIds; PTrimIds; PVersion; PUngroupDefs; PEmptyDefs; PXmlns; PDefaultTransform; PJoinStyle].
Lemma needE p t : In p segD -> need p t.
Proof. unfold segD. intros H. each H; split; try exact I; intros _; exact I. Qed.
Lemma pipeline_eq : pipeline = segA ++ [PGroupDefs] ++ segB ++ [PResolveUse] ++ segC ++ [PGradAttrs] ++ segD.
Proof. reflexivity. Qed.
Lemma safe_opt p rest (S S' : tree -> Prop) : (forall t, S t -> need p t) -> (forall t t1, S t -> perform x o p t = Some (Ok t1) -> S' t1) -> (enabled o p = false -> forall t, S t -> S' t) ->
  (forall t, S' t -> safe rest t) -> forall t, S t -> safe (filter (enabled o) [p] ++ rest) t.
Proof.
  intros H1 H2 H3 H4 t St. cbn [filter]. destruct (enabled o p) eqn:E; cbn [app]; [|auto]. constructor; [auto|]. intros t1 Et. apply H4. exact (H2 t t1 St Et).
Qed.
Lemma safe_all t : stateA t -> safe (filter (enabled o) pipeline) t.
Proof.
  rewrite pipeline_eq, !filter_app. intros S.
  apply (safe_seg stateA); [intros p u Hp; apply filter_In in Hp; apply needA; apply Hp|intros p u u1 Hp; apply filter_In in Hp; apply keepA; apply Hp| |exact S]. clear t S.
  apply (safe_opt PGroupDefs _ stateA stateB); [intros t _; split; [exact I|intros _; exact I]|exact defsB|intros X; discriminate X|].
  apply (safe_seg stateB); [intros p u Hp; apply filter_In in Hp; apply needB; apply Hp|intros p u u1 Hp; apply filter_In in Hp; destruct Hp; now apply keepB|].
  apply (safe_opt PResolveUse _ stateB stateC); [exact needUse|exact useC|intros _; exact stateBC|].
  apply (safe_seg stateC); [intros p u Hp _; apply filter_In in Hp; apply needC; apply Hp|intros p u u1 Hp; apply filter_In in Hp; apply keepC; apply Hp|].
  apply (safe_opt PGradAttrs _ stateC fine); [exact needD|intros t t1 (F & _) E; exact (fine_perform x o PGradAttrs t t1 F I E)|intros _ t (F & _); exact F|].
  intros t F. rewrite <- (app_nil_r (filter (enabled o) segD)). apply (safe_seg fine); [intros p u Hp _; apply filter_In in Hp; apply needE; apply Hp| |intros; constructor|exact F].
  intros p u u1 Hp Fu E. apply filter_In in Hp. exact (fine_perform x o p u u1 Fu (proj1 (needE p u (proj1 Hp))) E).
Qed.
Lemma all_needs t : stateA t -> forall pre p post t1, filter (enabled o) pipeline = (pre ++ p :: post)%list -> runs x o pre t (Some (Ok t1)) -> need p t1.
Proof. intros S pre p post t1 E R. apply (safe_runs pre p post t t1); [|exact R]. rewrite <- E. now apply safe_all. Qed.
End Safe.
