(** C08 and C47 with conditions on the given document only. *)
From Coq Require Import List Bool NArith Arith ZArith String Lia.
From Verif Require Import Names Num Value Dom DomFacts DomOps Outcome Cli SpecDom SpecText SpecGradients SpecWritten SpecGradUnits GroupDefs SpecGroupDefs APass MoveFacts WfAll WfUse SpecWf SpecEnds Clean SpecClean Props_wf Props_ends PlainMove SpecTidy Mild MildPasses MildDefs MildAll.
Import ListNotations.
Local Open Scope nat_scope.
Local Open Scope list_scope.

Lemma key_ctx t d : In d (flat t) -> exists a, In (a, d) (ctx [] t).
Proof. intros H. rewrite <- (map_snd_ctx [] t) in H. apply in_map_iff in H. destruct H as ([a y] & E & H). cbn in E. subst y. eauto. Qed.
Lemma resolves_content p : resolves p = true -> content_kind p.
Proof. unfold resolves. intros H. destruct (tag p) as [|e| | | |] eqn:E; try discriminate. exists e. split; [exact E|]. destruct e; try discriminate; cbn; tauto. Qed.
Lemma tidy_state (Q : Prop) t : fine t -> tidy t -> (Q -> href_acyclic t) -> stateA Q t.
Proof.
  intros F [TG TP TU (rank & TR) TGr] HQ. pose proof (fine_nodup t F) as ND. split; [exact F|]. split.
  - exists (shown t), rank, (GKof t). split; [split|split].
    + intros d Hd. split.
      * intros G y Hy. destruct (TG d y Hd G Hy) as [(A & g & Hg & Gg & V)|(A & B)]; [left|right; split; [exact A|exact B]]. split; [exact A|]. exists (key g). split; [exact V|]. exists g. auto.
      * intros (g & Hg & Gg & K). assert (g = d) by (apply (data_unique t); auto). now subst g.
    + intros d y Hd Td Hy Hn. destruct (TU d y Hd Td Hy Hn) as (l & a & p & q & Hl & V & _). exists (key l). split; [exact V|]. split; [exists d, y; auto|]. intros b Hb Ub. destruct (inside_ctx t (key d) b d ND Hd eq_refl Hb) as [<-|(anc & p' & Ha & Hp & <-)].
      * destruct (key_ctx t d Hd) as (anc & Ha). exact (TR anc d y (key l) d Ha Td Hy Hn V (or_introl eq_refl) Ub).
      * exact (TR anc d y (key l) p' Ha Td Hy Hn V (or_intror Hp) Ub).
    + intros d Hd (u & y & Hu & Tu & Hy & Hn & V). destruct (TU u y Hu Tu Hy Hn) as (l & a & p & q & Hl & V' & A & B & C). rewrite V in V'. injection V' as K. assert (d = l) by (apply (data_unique t); auto; exact (snd_flat _ _ _ _ Hl)). subst d. auto.
    + exact TGr.
    + intros a g p Hg Gg. destruct (resolves p) eqn:E; [|reflexivity]. exfalso. exact (TP a p g Hg Gg (resolves_content p E)).
    + intros a d Hd (u & y & Hu & Tu & Hy & Hn & V). destruct (TU u y Hu Tu Hy Hn) as (l & a' & p & q & Hl & V' & A & B & C & D). rewrite V in V'. injection V' as K. pose proof (ctx_unique t [] _ _ ND Hd Hl K) as X. injection X as -> ->. split; [exact C|]. split; [exact D|]. cbn. lia.
  - intros q. destruct (HQ q) as (r & Hr). exists r. intros d y k Hd G Hy V. apply (Hr d k Hd G). unfold d_get, get_value. destruct (TG d y Hd G Hy) as [(A & _)|(L & _)]; [|rewrite V in L; discriminate]. rewrite (get_attr_in (attrs d) y AXlinkHref); [cbn; congruence| |exact Hy|exact A]. exact (proj1 (Forall_forall _ _) (fine_wfa t F) d Hd).
Qed.
(** A tidy document has no dangling links after cleaning, whatever the options are. *)
Theorem C08_tidy_partial x o t t' : well_formed t -> tidy t -> clean_doc x o t = Some (Ok t') -> well_formed t'.
Proof.
  intros W T E. apply (C08_clean_partial x o t t' W); [|exact E]. apply well_formed_fine in W. intros pre p post t1 Ep R.
  assert (H : False -> o_remove_dupl_linear_gradients o = false /\ o_remove_dupl_radial_gradients o = false) by tauto.
  apply (all_needs x o False H t (tidy_state False t W T ltac:(tauto)) pre p post t1 Ep R).
Qed.
(** Cleaning a tidy document comes to an end if its gradients do not refer to each other in a circle and either duplicate
    gradients are not removed, or the two later passes that follow references are not run. *)
Theorem C47_tidy_partial x o t : well_formed t -> tidy t -> href_acyclic t ->
  (o_remove_dupl_linear_gradients o = false /\ o_remove_dupl_radial_gradients o = false) \/
  (o_regroup_gradient_stops o = false /\ o_remove_gradient_attributes o = false) -> clean_doc x o t <> None.
Proof.
  intros W T A D. pose proof (proj1 (well_formed_fine t) W) as F. pose proof (tidy_state True t F T (fun _ => A)) as S.
  assert (Ac : acyclic_kind ELinearGradient t /\ acyclic_kind ERadialGradient t). { destruct S as (_ & (U & ur & GK & Tm & _) & R). split; apply (ranked_acyclic GK); auto; exact (tm_nodes _ _ _ _ Tm). }
  destruct Ac as [AL AR].
  assert (C : calm_run x o t). { intros pre p post t1 Ep R. assert (H : False -> o_remove_dupl_linear_gradients o = false /\ o_remove_dupl_radial_gradients o = false) by tauto. apply (all_needs x o False H t (tidy_state False t F T ltac:(tauto)) pre p post t1 Ep R). }
  destruct D as [D|[D1 D2]]; [|now apply C47_without_later_passes].
  apply C47_clean_partial; auto. intros pre p post t1 _ Ep R. apply (all_needs x o True (fun _ => D) t S pre p post t1 Ep R). exact I.
Qed.
(** ** Instances *)
Definition tidy_b (rank : nat -> nat) (t : tree) : bool :=
  let hrefb y := has_name (AN AXlinkHref) y in
  let usesb u := match tag u with TEl EUse => true | _ => false end in
  let shownb k := existsb (fun u => usesb u && existsb (fun y => hrefb y && match a_val y with VLink j => Nat.eqb j k | _ => false end) (attrs u)) (flat t) in
  forallb (fun d => negb (grad_b d) || forallb (fun y => match a_val y with
      | VLink k => hrefb y && existsb (fun e => grad_b e && Nat.eqb (key e) k) (flat t)
      | VFunc _ => false | VPre _ => false | _ => true end) (attrs d)) (flat t) &&
  forallb (fun c => negb (grad_b (snd c)) || match fst c with p :: _ => negb (resolves p) | [] => true end) (ctx [] t) &&
  forallb (fun d => negb (usesb d) || forallb (fun y => negb (hrefb y) || match a_val y with
      | VLink k => existsb (fun c => Nat.eqb (key (snd c)) k && (2 <=? List.length (fst c)) && match tag (snd c) with
          | TEl ELinearGradient | TEl ERadialGradient | TEl EFilter | TEl EDefs | TRoot => false | _ => true end) (ctx [] t)
      | _ => false end) (attrs d)) (flat t) &&
  forallb (fun c => negb (usesb (snd c)) || forallb (fun y => negb (hrefb y) || match a_val y with
      | VLink k => forallb (fun p => negb (shownb (key p)) || (rank k <? rank (key p))) (snd c :: fst c)
      | _ => true end) (attrs (snd c))) (ctx [] t) &&
  forallb (fun d => match tag d with TEl EG => forallb (fun y => negb (hrefb y)) (attrs d) | _ => true end) (flat t).
Lemma or_imp a b : negb a || b = true -> a = true -> b = true. Proof. destruct a, b; auto. Qed.
Lemma tidy_b_spec rank t : tidy_b rank t = true -> tidy t.
Proof.
  unfold tidy_b. intros H. apply andb_true_iff in H. destruct H as [H H5]. apply andb_true_iff in H. destruct H as [H H4]. apply andb_true_iff in H. destruct H as [H H3]. apply andb_true_iff in H. destruct H as [H1 H2].
  rewrite forallb_forall in H1, H2, H3, H4, H5. split.
  - intros d y Hd G Hy. pose proof (or_imp _ _ (H1 d Hd) (proj2 (grad_b_spec d) G)) as X. rewrite forallb_forall in X. specialize (X y Hy). destruct (a_val y) eqn:V; try discriminate X; try (right; split; [reflexivity|split; discriminate]).
    apply andb_true_iff in X. destruct X as [X1 X2]. apply has_name_true in X1. left. split; [exact X1|]. apply existsb_exists in X2. destruct X2 as (g & Hg & X2). apply andb_true_iff in X2. destruct X2 as [X2 X3]. apply Nat.eqb_eq in X3. exists g. split; [exact Hg|]. split; [now apply grad_b_spec|congruence].
  - intros a p g Hg G (e & E & He). pose proof (or_imp _ _ (H2 _ Hg) (proj2 (grad_b_spec g) G)) as X. cbn in X. unfold resolves in X. rewrite E in X. cbn in He. destruct He as [<-|[<-|[<-|[<-|[<-|[]]]]]]; discriminate.
  - intros u y Hu Tu Hy Ny. pose proof (H3 u Hu) as X. rewrite Tu in X. cbn in X. rewrite forallb_forall in X. specialize (X y Hy). rewrite (proj2 (has_name_true _ _) Ny) in X. cbn in X. destruct (a_val y) eqn:V; try discriminate X. apply existsb_exists in X. destruct X as ([anc l] & Hl & X). cbn [fst snd] in X. apply andb_true_iff in X. destruct X as [X X3]. apply andb_true_iff in X. destruct X as [X1 X2]. apply Nat.eqb_eq in X1. destruct anc as [|p [|q a]]; try discriminate X2. exists l, a, p, q. split; [exact Hl|]. split; [congruence|]. unfold gradient_node. repeat split; try (intros Z; rewrite Z in X3; discriminate). intros [Z|Z]; rewrite Z in X3; discriminate.
  - exists rank. intros a u y k p Hu Tu Hy Ny V Hp Sp. pose proof (H4 _ Hu) as X. cbn [fst snd] in X. rewrite Tu in X. cbn [negb orb] in X. rewrite forallb_forall in X. specialize (X y Hy). rewrite (proj2 (has_name_true _ _) Ny) in X. cbn [negb orb] in X. rewrite V in X. rewrite forallb_forall in X. specialize (X p Hp). apply Nat.ltb_lt. apply (or_imp _ _ X). destruct Sp as (v & z & Hv & Tv & Hz & Nz & Vz). apply existsb_exists. exists v. split; [exact Hv|]. rewrite Tv. cbn [andb]. apply existsb_exists. exists z. split; [exact Hz|]. rewrite (proj2 (has_name_true _ _) Nz), Vz. cbn. apply Nat.eqb_refl.
  - intros d y Hd Td Hy Ny. specialize (H5 d Hd). rewrite Td in H5. rewrite forallb_forall in H5. specialize (H5 y Hy). rewrite (proj2 (has_name_true _ _) Ny) in H5. discriminate.
Qed.
Example C08_tidy_instance : well_formed link_doc /\ tidy link_doc /\ href_acyclic link_doc.
Proof.
  split; [apply C08_instance|]. split; [apply (tidy_b_spec (fun _ => 0)); vm_compute; reflexivity|]. apply (grads_ok_spec (fun k => if Nat.eqb k 3 then 1 else 0) _ PGradAttrs). vm_compute. reflexivity.
Qed.
(** A use element inside an element that is shown by another one. *)
Definition nested_use_doc : tree := doc [el 1 ESvg [] [
  el 2 EDefs [] [eli 3 EG "a" [] [el 4 EUse [at_ AXlinkHref (VLink 5); at_ AX (px 6)] []]; eli 5 ERect "b" [at_ AWidth (px 7); at_ AHeight (px 5)] []];
  el 6 EUse [at_ AXlinkHref (VLink 3)] []]].
Example C08_nested_use_instance : well_formed nested_use_doc /\ tidy nested_use_doc /\ href_acyclic nested_use_doc /\ summary (clean_doc lib all_on nested_use_doc) = Some [(0, []); (1, []); (5, [])].
Proof.
  assert (F : fine nested_use_doc) by (apply fine_b_spec; [vm_compute; reflexivity|wfa]). split; [now apply well_formed_fine|]. split; [apply (tidy_b_spec (fun k => if Nat.eqb k 3 then 1 else 0)); vm_compute; reflexivity|].
  split; [apply (grads_ok_spec (fun k => 0) _ PGradAttrs); vm_compute; reflexivity|vm_compute; reflexivity].
Qed.
(** With both the removal of duplicates and the later passes, a tidy document without circles may keep the cleaner busy for ever. *)
Theorem C47_tidy_duplicates_refuted : exists t, well_formed t /\ tidy t /\ href_acyclic t /\ clean_doc lib all_on t = None.
Proof.
  exists duplicate_doc. assert (F : fine duplicate_doc) by (apply fine_b_spec; [vm_compute; reflexivity|wfa]). split; [now apply well_formed_fine|]. split; [apply (tidy_b_spec (fun _ => 0)); vm_compute; reflexivity|].
  split; [apply (grads_ok_spec (fun k => 5 - k) _ PGradAttrs); vm_compute; reflexivity|vm_compute; reflexivity].
Qed.
Print Assumptions C08_tidy_partial.
Print Assumptions C47_tidy_partial.
