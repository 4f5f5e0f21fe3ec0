(** Documents without references: all of the passes, one after the other. *)
From Coq Require Import List Bool NArith Arith ZArith String Lia QArith Qcanon.
From Verif Require Import Names Num Value Dom DomFacts DomOps Outcome DomRemove SpecDom SpecPath Stops Shapes Transforms Links TasksSimple SpecUse Cli Clean SpecClean Props_clean SpecWf SpecWritten WfAll Props_wf SpecPanic PlainTree PlainPasses PlainSkip PlainMove PlainDefs PlainInvisible PlainUngroup PlainEnd SpecGradients SpecGradUnits SpecEnds Props_ends.
Import ListNotations.
Local Open Scope nat_scope.

Section All.
Variables (x : svgdom) (o : cleaning_options) (N : list nat) (ks : nat).
Hypothesis small : (Z.of_nat (List.length N) < 780965692)%Z.
(** What is known before a pass. *)
Definition S0 (t : tree) : Prop := fine t /\ Inv true N ks None t /\ forall d, In d (flat t) -> is_tag EDefs d = true -> d_has d ADisplay = false.
Definition S1 (b : bool) (t : tree) : Prop := fine t /\ exists m, Inv b N ks (Some m) t.
Definition S2 (t : tree) : Prop := fine t /\ J N t.
Definition S3 (t : tree) : Prop := fine t /\ has_svg t.
Definition step (S : tree -> Prop) (p : pass) (S' : tree -> Prop) : Prop :=
  (forall t, S t -> perform x o p t <> Some Panic /\ forall t', perform x o p t = Some (Ok t') -> S' t').
(** The pass ends. *)
Definition ends (p : pass) (S : tree -> Prop) : Prop := forall t, S t -> perform x o p t <> None.
Definition safe (l : list pass) (S : tree -> Prop) : Prop := forall t r, S t -> runs x o (filter (enabled o) l) t r -> r <> Some Panic /\ r <> None.
Lemma safe_nil S : safe [] S.
Proof. intros t r _ H. inversion H; subst. split; discriminate. Qed.
Lemma safe_cons p l S S' : ends p S -> step S p S' -> (enabled o p = true \/ forall t, S t -> S' t) -> safe l S' -> safe (p :: l) S.
Proof.
  intros En St W H t r HS R. cbn [filter] in R. destruct (enabled o p) eqn:E.
  - destruct (St t HS) as [A B]. inversion R as [|? ? ? t1 ? P R'| |? ? ? P|? ? ? P]; subst; [exact (H t1 r (B t1 P) R')|split; discriminate|congruence|exfalso; exact (En t HS P)].
  - destruct W as [W|W]; [discriminate|]. exact (H t r (W t HS) R).
Qed.
Lemma safe_same p l S : ends p S -> step S p S -> safe l S -> safe (p :: l) S.
Proof. intros H0 H. apply safe_cons; auto. Qed.
Lemma Inv_calm b kd p t : Inv b N ks kd t -> calm p t.
Proof.
  intros I. assert (G : forall d, In d (flat t) -> ~ gradient_node d). { intros d Hd [X|X]; pose proof (ok_quiet _ _ _ (i_nodes _ _ _ _ _ I d Hd)) as (A & B & _); congruence. }
  destruct p; cbn [calm]; auto.
  - intros g anc y q Hg Gg. now apply G in Gg.
  - intros anc g q Hg Hq Gq Gg. apply (G g); [|exact Gg]. exact (GroupDefsProofs.ctx_in_flat _ _ _ Hg).
  - exists (fun _ => 0). intros u l u' l' H. exfalso. destruct (r_use _ _ _ H) as [Hu _]. destruct (r_link _ _ _ H) as [_ Hl]. pose proof (ok_get b N (data u) AXlinkHref _ (i_nodes _ _ _ _ _ I (data u) (data_of_sub u t Hu)) Hl) as [X _]. discriminate X.
Qed.
Lemma Inv_order b kd p t : Inv b N ks kd t -> in_order p t.
Proof.
  intros I. assert (G : forall d, In d (flat t) -> ~ gradient_node d). { intros d Hd [X|X]; pose proof (ok_quiet _ _ _ (i_nodes _ _ _ _ _ I d Hd)) as (A & B & _); congruence. }
  assert (A : forall e, e = ELinearGradient \/ e = ERadialGradient -> acyclic_kind e t). { intros e He. exists (fun _ => 0). intros d y Hd _ Td. exfalso. apply (G d Hd). unfold gradient_node. destruct He; subst e; auto. }
  destruct p; cbn [in_order]; auto. split.
  - exists (fun _ => 0). intros d k Hd Gd. now apply G in Gd.
  - intros d y k z Hd Gd. now apply G in Gd.
Qed.
Lemma Inv_ends b kd p t : fine t -> Inv b N ks kd t -> perform x o p t <> None.
Proof. intros F I. apply C47_pass; [now apply well_formed_fine|exact (Inv_calm _ _ p t I)|exact (Inv_order _ _ p t I)]. Qed.
Lemma ends0 p : ends p S0. Proof. intros t (F & I & _). exact (Inv_ends _ _ p t F I). Qed.
Lemma ends1 b p : ends p (S1 b). Proof. intros t (F & m & I). exact (Inv_ends _ _ p t F I). Qed.
Lemma step0 p : (forall t, okt true N t -> NoDup (keys t) -> perform x o p t <> Some Panic /\ forall t', perform x o p t = Some (Ok t') -> shr true (guarded ks None) t t') -> step S0 p S0.
Proof.
  intros H t (F & I & D). destruct (H t (i_nodes _ _ _ _ _ I) (i_keys _ _ _ _ _ I)) as [A B]. split; [exact A|]. intros t' E. split; [exact (fine_perform x o p t t' F (Inv_calm _ _ p t I) E)|]. pose proof (B t' E) as Sh. split; [exact (Inv_shr _ _ _ _ _ _ I Sh)|].
  intros d' Hd' Td'. rewrite <- map_data_subs in Hd'. apply in_map_iff in Hd'. destruct Hd' as (s' & <- & Hs'). destruct (shr_subs _ _ _ _ _ Sh Hs') as (s & Hs & Ss). pose proof (shr_data _ _ _ _ Ss) as Rs.
  assert (Td : is_tag EDefs (data s) = true). { destruct (R_tag _ _ _ Rs) as [X|(X & _)]; unfold is_tag in *; rewrite X in Td'; [exact Td'|discriminate]. }
  pose proof (D (data s) (data_of_sub s t Hs) Td) as Q. exact (R_has _ _ _ ADisplay Rs (or_introl eq_refl) Q).
Qed.
Lemma step1 b p : (forall t m s, fine t -> Inv b N ks (Some m) t -> svg_element t = Some s -> root_key s = ks -> perform x o p t <> Some Panic /\ forall t', perform x o p t = Some (Ok t') -> Inv b N ks (Some m) t') -> step (S1 b) p (S1 b).
Proof.
  intros H t (F & m & I). destruct (i_svg _ _ _ _ _ I) as (s & Es & Ks & _). destruct (H t m s F I Es Ks) as [A B]. split; [exact A|]. intros t' E. split; [exact (fine_perform x o p t t' F (Inv_calm _ _ p t I) E)|]. exists m. exact (B t' E).
Qed.
Lemma step1s b p : (forall t m s, okt b N t -> NoDup (keys t) -> svg_element t = Some s -> In (root_key s) (guarded ks (Some m)) -> perform x o p t <> Some Panic /\ forall t', perform x o p t = Some (Ok t') -> shr b (guarded ks (Some m)) t t') -> step (S1 b) p (S1 b).
Proof.
  intros H. apply step1. intros t m s F I Es Ks. destruct (H t m s (i_nodes _ _ _ _ _ I) (i_keys _ _ _ _ _ I) Es) as [A B]; [rewrite Ks; now left|]. split; [exact A|]. intros t' E. exact (Inv_shr _ _ _ _ _ _ I (B t' E)).
Qed.
Lemma some_panic (r : result tree) : r <> Panic -> Some r <> Some Panic. Proof. congruence. Qed.
Lemma some_ok (P : tree -> Prop) (r : result tree) : (r <> Panic /\ forall t', r = Ok t' -> P t') -> Some r <> Some Panic /\ forall t', Some r = Some (Ok t') -> P t'.
Proof. intros [A B]. split; [congruence|]. intros t' E. injection E as E. auto. Qed.
Lemma total_ok (P : tree -> Prop) t : P t -> Some (Ok t) <> Some (@Panic tree) /\ forall t', Some (Ok t) = Some (Ok t') -> P t'.
Proof. intros A. split; [discriminate|]. intros t' E. now injection E as <-. Qed.
Lemma all_safe : safe pipeline S0.
Proof.
  unfold pipeline.
  apply safe_same; [solve [apply ends0|apply ends1|intros ? _; discriminate]| |]. { apply step0. intros t O Nd. cbn [perform]. rewrite (skip_linear true N t O). apply (total_ok (shr true _ t)). now apply (shr_refl true N). }
  apply safe_same; [solve [apply ends0|apply ends1|intros ? _; discriminate]| |]. { apply step0. intros t O Nd. cbn [perform]. rewrite (skip_radial true N t O). apply (total_ok (shr true _ t)). now apply (shr_refl true N). }
  apply safe_same; [solve [apply ends0|apply ends1|intros ? _; discriminate]| |]. { apply step0. intros t O Nd. apply (some_ok (shr true _ t)). exact (plain_stops true N _ t O). }
  apply safe_same; [solve [apply ends0|apply ends1|intros ? _; discriminate]| |]. { apply step0. intros t O Nd. apply (some_ok (shr true _ t)). exact (plain_inherit true N _ t O). }
  apply safe_same; [solve [apply ends0|apply ends1|intros ? _; discriminate]| |]. { apply step0. intros t O Nd. apply (some_ok (shr true _ t)). exact (plain_fix true N _ t O). }
  apply (safe_cons _ _ _ (S1 true)); [apply ends0| |now left|].
  { intros t (F & I & D). destruct (plain_group_defs _ _ _ _ F I D) as [A B]. split; [cbn; congruence|]. intros t' E. split; [exact (fine_perform x o _ t t' F (Inv_calm _ _ _ t I) E)|]. cbn in E. injection E as E. exact (B t' E). }
  apply safe_same; [solve [apply ends0|apply ends1|intros ? _; discriminate]| |]. { apply step1s. intros t m s O Nd Es Ks. apply (total_ok (shr true _ t)). exact (plain_round true N _ _ t O). }
  apply safe_same; [solve [apply ends0|apply ends1|intros ? _; discriminate]| |]. { apply step1. intros t m s F I Es Ks. apply (total_ok (Inv true N ks (Some m))). apply plain_element; [discriminate|discriminate|exact I]. }
  apply safe_same; [solve [apply ends0|apply ends1|intros ? _; discriminate]| |]. { apply step1. intros t m s F I Es Ks. apply (total_ok (Inv true N ks (Some m))). apply plain_element; [discriminate|discriminate|exact I]. }
  apply safe_same; [solve [apply ends0|apply ends1|intros ? _; discriminate]| |]. { apply step1. intros t m s F I Es Ks. apply (total_ok (Inv true N ks (Some m))). apply plain_element; [discriminate|discriminate|exact I]. }
  apply safe_same; [solve [apply ends0|apply ends1|intros ? _; discriminate]| |]. { apply step1. intros t m s F I Es Ks. exact (plain_unused_defs _ _ _ _ t F I). }
  apply safe_same; [solve [apply ends0|apply ends1|intros ? _; discriminate]| |]. { apply step1. intros t m s F I Es Ks. cbn [perform]. rewrite (skip_stops true N t (i_nodes _ _ _ _ _ I)). now apply (total_ok (Inv true N ks (Some m))). }
  apply safe_same; [solve [apply ends0|apply ends1|intros ? _; discriminate]| |]. { apply step1s. intros t m s O Nd Es Ks. apply (some_ok (shr true _ t)). exact (plain_grad_transforms true N _ t O Nd). }
  apply safe_same; [solve [apply ends0|apply ends1|intros ? _; discriminate]| |]. { apply step1. intros t m s F I Es Ks. cbn [perform]. rewrite (skip_dupl_linear true N t (i_nodes _ _ _ _ _ I)). now apply (total_ok (Inv true N ks (Some m))). }
  apply safe_same; [solve [apply ends0|apply ends1|intros ? _; discriminate]| |]. { apply step1. intros t m s F I Es Ks. cbn [perform]. rewrite (skip_dupl_radial true N t (i_nodes _ _ _ _ _ I)). now apply (total_ok (Inv true N ks (Some m))). }
  apply safe_same; [solve [apply ends0|apply ends1|intros ? _; discriminate]| |]. { apply step1. intros t m s F I Es Ks. cbn [perform]. rewrite (skip_dupl_blur true N t (i_nodes _ _ _ _ _ I)). now apply (total_ok (Inv true N ks (Some m))). }
  apply safe_same; [solve [apply ends0|apply ends1|intros ? _; discriminate]| |]. { apply step1. intros t m s F I Es Ks. cbn [perform]. rewrite (skip_merge true N t (i_nodes _ _ _ _ _ I)). now apply (total_ok (Inv true N ks (Some m))). }
  apply safe_same; [solve [apply ends0|apply ends1|intros ? _; discriminate]| |]. { apply step1s. intros t m s O Nd Es Ks. apply (some_ok (shr true _ t)). exact (plain_grad_transforms true N _ t O Nd). }
  apply safe_same; [solve [apply ends0|apply ends1|intros ? _; discriminate]| |]. { apply step1. intros t m s F I Es Ks. exact (plain_ungroup _ _ _ _ _ _ t F I). }
  apply safe_same; [solve [apply ends0|apply ends1|intros ? _; discriminate]| |]. { apply step1s. intros t m s O Nd Es Ks. apply (some_ok (shr true _ t)). exact (plain_shapes true N _ t O). }
  apply safe_same; [solve [apply ends0|apply ends1|intros ? _; discriminate]| |]. { apply step1s. intros t m s O Nd Es Ks. apply (some_ok (shr true _ t)). exact (plain_convert true N _ t O). }
  apply (safe_cons _ _ _ (S1 false)); [apply ends1| |right; intros t (F & m & I); split; [exact F|]; exists m; exact (Inv_weak _ _ _ _ I)|].
  { intros t (F & m & I). destruct (plain_paths N (guarded ks (Some m)) (segment_opts o) t (i_nodes _ _ _ _ _ I)) as [A B]. split; [cbn; congruence|]. intros t' E. split; [exact (fine_perform x o _ t t' F (Inv_calm _ _ _ t I) E)|]. cbn in E. injection E as E. exists m. exact (Inv_shr _ _ _ _ _ _ (Inv_weak _ _ _ _ I) (B t' E)). }
  apply safe_same; [solve [apply ends0|apply ends1|intros ? _; discriminate]| |]. { apply step1. intros t m s F I Es Ks. exact (plain_invisible _ _ _ _ _ t F I). }
  apply safe_same; [solve [apply ends0|apply ends1|intros ? _; discriminate]| |]. { apply step1. intros t m s F I Es Ks. cbn [perform]. rewrite (skip_regroup false N t (i_nodes _ _ _ _ _ I)). now apply (total_ok (Inv false N ks (Some m))). }
  apply safe_same; [solve [apply ends0|apply ends1|intros ? _; discriminate]| |]. { apply step1. intros t m s F I Es Ks. exact (plain_ungroup _ _ _ _ _ _ t F I). }
  apply safe_same; [solve [apply ends0|apply ends1|intros ? _; discriminate]| |]. { apply step1. intros t m s F I Es Ks. cbn [perform]. rewrite (skip_use false N t (i_nodes _ _ _ _ _ I)). now apply (total_ok (Inv false N ks (Some m))). }
  apply safe_same; [solve [apply ends0|apply ends1|intros ? _; discriminate]| |]. { apply step1s. intros t m s O Nd Es Ks. apply (some_ok (shr false _ t)). exact (plain_default false N _ _ t O). }
  apply safe_same; [solve [apply ends0|apply ends1|intros ? _; discriminate]| |]. { apply step1s. intros t m s O Nd Es Ks. apply (some_ok (shr false _ t)). exact (plain_text false N _ t s O Es Ks). }
  apply safe_same; [solve [apply ends0|apply ends1|intros ? _; discriminate]| |]. { apply step1s. intros t m s O Nd Es Ks. apply (total_ok (shr false _ t)). exact (plain_needless false N _ t O). }
  apply safe_same; [solve [apply ends0|apply ends1|intros ? _; discriminate]| |]. { apply step1. intros t m s F I Es Ks. cbn [perform]. rewrite (skip_grad_attrs false N t (i_nodes _ _ _ _ _ I)). now apply (total_ok (Inv false N ks (Some m))). }
  apply safe_same; [solve [apply ends0|apply ends1|intros ? _; discriminate]| |]. { apply step1s. intros t m s O Nd Es Ks. apply (some_ok (shr false _ t)). exact (plain_coords false N _ t Nd O). }
  apply safe_same; [solve [apply ends0|apply ends1|intros ? _; discriminate]| |]. { apply step1. intros t m s F I Es Ks. exact (plain_ungroup _ _ _ _ _ _ t F I). }
  apply (safe_cons _ _ _ S2); [apply ends1| |right; intros t (F & m & I); split; [exact F|exact (Inv_J _ _ _ _ _ I)]|].
  { intros t (F & m & I). destruct (plain_group_style N t F (Inv_J _ _ _ _ _ I)) as (t1 & E1 & J1). split; [cbn; congruence|]. intros t' E. split; [exact (fine_perform x o _ t t' F (Inv_calm _ _ _ t I) E)|]. cbn in E. congruence. }
  apply safe_same; [solve [apply ends0|apply ends1|intros ? _; discriminate]| |]. { intros t (F & Jt). split; [discriminate|]. intros t' E. split; [exact (fine_perform x o PIds t t' F Logic.I E)|]. injection E as <-. now apply plain_ids. }
  apply (safe_cons _ _ _ S3); [intros ? _; discriminate| |right; intros t (F & Jt); split; [exact F|apply Jt]|].
  { intros t (F & Jt). destruct (plain_trim N t (fine_nodup t F) Jt small) as [A B]. split; [cbn; congruence|]. intros t' E. split; [exact (fine_perform x o PTrimIds t t' F Logic.I E)|]. injection E as E. auto. }
  apply safe_same; [solve [apply ends0|apply ends1|intros ? _; discriminate]| |]. { intros t (F & S). destruct (end_version t S) as (t1 & E1 & J1). split; [cbn; congruence|]. intros t' E. split; [exact (fine_perform x o PVersion t t' F Logic.I E)|]. injection E as E. congruence. }
  apply safe_same; [solve [apply ends0|apply ends1|intros ? _; discriminate]| |]. { intros t (F & S). split; [discriminate|]. intros t' E. split; [exact (fine_perform x o PUngroupDefs t t' F Logic.I E)|]. injection E as <-. now apply end_ungroup_defs. }
  apply safe_same; [solve [apply ends0|apply ends1|intros ? _; discriminate]| |]. { intros t (F & S). destruct (end_empty_defs t (fine_nodup t F) S) as (t1 & E1 & J1). split; [cbn; congruence|]. intros t' E. split; [exact (fine_perform x o PEmptyDefs t t' F Logic.I E)|]. injection E as E. congruence. }
  apply safe_same; [solve [apply ends0|apply ends1|intros ? _; discriminate]| |]. { intros t (F & S). destruct (end_xmlns (o_remove_xmlns_xlink_attribute o) t S) as (t1 & E1 & J1). split; [cbn; congruence|]. intros t' E. split; [exact (fine_perform x o PXmlns t t' F Logic.I E)|]. injection E as E. congruence. }
  apply safe_same; [solve [apply ends0|apply ends1|intros ? _; discriminate]| |]. { intros t (F & S). split; [discriminate|]. intros t' E. split; [exact (fine_perform x o PDefaultTransform t t' F Logic.I E)|]. injection E as <-. now apply end_default_transform. }
  apply safe_same; [solve [apply ends0|apply ends1|intros ? _; discriminate]| |]. { intros t (F & S). split; [discriminate|]. intros t' E. split; [exact (fine_perform x o PJoinStyle t t' F Logic.I E)|]. injection E as <-. now apply end_join. }
  apply safe_nil.
Qed.
End All.
(** The start. *)
Lemma plain_okn t d : plain_document t -> In d (flat t) -> okn true (keys t) d.
Proof.
  intros P Hd. destruct (pd_nodes _ P d Hd) as [A B C D]. split.
  - intros y Hy. split; [|pose proof (B y Hy) as X; unfold typed, well_typed in *; destruct (a_name y) as [a|]; [destruct a; auto|exact I]]. destruct (link_of (a_val y)) as [k|] eqn:E; [|reflexivity]. exfalso. apply (A k). exists y. auto.
  - exact C.
  - intros H. destruct (D H) as (e & E). unfold is_svg_el. now rewrite E.
  - intros _. unfold keys. now apply in_map.
Qed.
Theorem plain_safe x o t : fine t -> plain_document t -> clean_doc x o t <> Some Panic /\ clean_doc x o t <> None.
Proof.
  intros F P. destruct (preclean_checks t) as [[]|e|] eqn:E.
  - destruct (pd_svg _ P) as (s & Es & Ds). pose proof (proj2 (C45_pipeline x o t E _) eq_refl) as R. refine (all_safe x o (keys t) (root_key s) _ t _ _ R).
    + pose proof (pd_size _ P). unfold keys. rewrite map_length. lia.
    + split; [exact F|]. split; [|intros d Hd Td; apply (pd_defs _ P d Hd); unfold is_tag in Td; destruct (tag d) as [|a| | | |]; try discriminate; destruct (eid_eqb_spec a EDefs); [now subst|discriminate]]. split.
      * now apply fine_nodup.
      * intros d. now apply plain_okn.
      * intros u c Hu Tu Hc. assert (Tg : tag (data u) = TEl EG) by (unfold is_tag in Tu; destruct (tag (data u)) as [|a| | | |]; try discriminate; destruct (eid_eqb_spec a EG); [now subst|discriminate]). destruct (pd_groups _ P u c Hu Tg Hc) as (e & E'). unfold is_svg_el. now rewrite E'.
      * exists s. split; [exact Es|]. split; [reflexivity|]. split; [exact Ds|]. discriminate.
  - rewrite (C45_checks_first x o t e E). split; discriminate.
  - exfalso. exact (proj1 (Props_simple.C07_errors_have_a_cause t) E).
Qed.
