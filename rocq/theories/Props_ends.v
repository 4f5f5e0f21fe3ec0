(** C47: cleaning comes to an end. *)
From Coq Require Import List Bool NArith Arith ZArith String Lia QArith Qcanon.
From Verif Require Import Names Num Value Dom DomFacts Outcome Cli TasksSimple SpecDom SpecGradients SpecGradUnits Clean SpecClean Props_clean SpecWf SpecWritten WfAll Props_simple Props_wf SpecEnds Ends.
Import ListNotations.
Local Open Scope nat_scope.

(** Every pass ends, on every document (of which three of the passes need more, see C08); only the passes over gradients
    need gradients that are not linked in a circle. *)
Theorem C47_pass x o p t : well_formed t -> calm p t -> in_order p t -> perform x o p t <> None.
Proof.
  rewrite well_formed_fine. intros F C O. destruct p; cbn [perform calm in_order] in *; try discriminate.
  - now apply linear_ends; [apply F|].
  - now apply radial_ends; [apply F|].
  - apply unused_defs_ends, F.
  - apply merge_all_ends, F.
  - now apply ungroup_ends.
  - now apply invisible_ends.
  - apply regroup_ends; [exact F|now apply nonest_spec|exact O].
  - destruct O as (A & B). apply gradient_attrs_end; auto; apply F.
Qed.
(** The two passes at the start do not end if there is a circle. *)
Theorem C47_circle x o t : well_formed t ->
  (acyclic_kind ELinearGradient t <-> perform x o PLinear t <> None) /\ (acyclic_kind ERadialGradient t <-> perform x o PRadial t <> None).
Proof. rewrite well_formed_fine. intros F. split; [apply linear_ends, F|apply radial_ends, F]. Qed.

Lemma runs_end x o : forall l t r, runs x o l t r -> fine t ->
  (forall pre p post t1, l = pre ++ p :: post -> runs x o pre t (Some (Ok t1)) -> fine t1 -> calm p t1 /\ in_order p t1) -> r <> None.
Proof.
  intros l t r H. induction H as [t|p l t t1 r E H IH| | |p l t E]; intros F C; try discriminate.
  - destruct (C [] p l t eq_refl (runs_done _ _ _) F) as [Cp _]. apply IH; [exact (fine_perform x o p t t1 F Cp E)|]. intros pre q post t2 -> R. apply (C (p :: pre) q post t2 eq_refl). now apply (runs_next x o p pre t t1).
  - exfalso. destruct (C [] p l t eq_refl (runs_done _ _ _) F) as [Cp Op]. revert E. apply C47_pass; auto. now apply well_formed_fine.
Qed.
Lemma filter_two {A} (f : A -> bool) a b l : f a = true -> f b = true -> filter f (a :: b :: l) = a :: b :: filter f l.
Proof. intros Ha Hb. cbn [filter]. now rewrite Ha, Hb. Qed.
Lemma first_two o : exists l, filter (enabled o) pipeline = PLinear :: PRadial :: l /\ ~ In PLinear l /\ ~ In PRadial l.
Proof.
  exists (filter (enabled o) (tl (tl pipeline))). split; [unfold pipeline; cbn [tl]; apply filter_two; reflexivity|]. split; intros X; apply filter_In in X; destruct X as [X _]; revert X; generalize o; clear; intros _ X; cbn [pipeline tl In] in X; repeat (destruct X as [X|X]; [discriminate|]); destruct X.
Qed.
Lemma first_linear o pre post : filter (enabled o) pipeline = pre ++ PLinear :: post -> pre = [].
Proof.
  destruct (first_two o) as (l & -> & A & _). intros E. destruct pre as [|q [|q' pre]]; [reflexivity|discriminate|]. exfalso. injection E as _ _ ->. apply A. apply in_elt.
Qed.
Lemma second_radial o pre post : filter (enabled o) pipeline = pre ++ PRadial :: post -> pre = [PLinear].
Proof.
  destruct (first_two o) as (l & -> & _ & A). intros E. destruct pre as [|q [|q' pre]]; [discriminate|injection E as <- _; reflexivity|]. exfalso. injection E as _ _ ->. apply A. apply in_elt.
Qed.
(** C47: the whole program. *)
Theorem C47_clean_partial x o t : well_formed t -> calm_run x o t -> in_order_later x o t ->
  acyclic_kind ELinearGradient t -> acyclic_kind ERadialGradient t -> clean_doc x o t <> None.
Proof.
  rewrite well_formed_fine. intros F C L AL AR. destruct (preclean_checks t) as [[]|e|] eqn:P.
  - apply (runs_end x o (filter (enabled o) pipeline) t); [now apply C45_pipeline|exact F|]. intros pre p post t1 E R F1. split; [exact (C pre p post t1 E R)|].
    assert (H : In p [PRegroupStops; PGradAttrs] \/ p = PLinear \/ p = PRadial \/ in_order p t1) by (destruct p; cbn; auto). destruct H as [H|[->|[->|H]]]; [exact (L pre p post t1 H E R)| | |exact H].
    + apply first_linear in E. subst pre. inversion R; subst. exact AL.
    + apply second_radial in E. subst pre. inversion R as [|? ? ? t2 ? E2 R2| | |]; subst. inversion R2; subst. cbn [perform] in E2. cbn [in_order]. apply (linear_radial t t1); [apply F|exact E2|exact AR].
  - rewrite (C45_checks_first x o t e P). discriminate.
  - exfalso. exact (proj1 (Props_simple.C07_errors_have_a_cause t) P).
Qed.
(** Without the two later passes over gradients, the links of the gradients decide. *)
Theorem C47_without_later_passes x o t : well_formed t -> calm_run x o t -> o_regroup_gradient_stops o = false -> o_remove_gradient_attributes o = false ->
  acyclic_kind ELinearGradient t -> acyclic_kind ERadialGradient t -> clean_doc x o t <> None.
Proof.
  intros W C R G. apply C47_clean_partial; auto. intros pre p post t1 Hp E _. exfalso. assert (X : In p (filter (enabled o) pipeline)) by (rewrite E; apply in_elt). apply filter_In in X. destruct X as [_ X]. destruct Hp as [<-|[<-|[]]]; cbn in X; congruence.
Qed.
Theorem C47_linear_circle_hangs x o t : well_formed t -> preclean_checks t = Ok tt -> ~ acyclic_kind ELinearGradient t -> clean_doc x o t = None.
Proof.
  intros W P A. pose proof (proj2 (C45_pipeline x o t P _) eq_refl) as R. destruct (first_two o) as (l & El & _). rewrite El in R.
  assert (E : perform x o PLinear t = None). { destruct (perform x o PLinear t) as [r|] eqn:E; [|reflexivity]. exfalso. apply A. apply (C47_circle x o t W). rewrite E. discriminate. }
  inversion R as [|? ? ? t1 ? E1 R1|? ? ? e E1|? ? ? E1|? ? ? E1 E2]; subst; congruence.
Qed.
(** ** Checks for instances *)
Definition grads_ok (r : nat -> nat) (t : tree) : bool :=
  forallb (fun d => negb (grad_b d) || forallb (fun y => match a_val y with
     | VLink k => has_name (AN AXlinkHref) y && a_vis y && (r k <? r (key d)) && existsb (fun e => grad_b e && Nat.eqb (key e) k) (flat t)
     | VFunc _ => false | _ => negb (has_name (AN AXlinkHref) y) end) (attrs d)) (flat t).
Lemma grads_ok_spec r t p : grads_ok r t = true -> in_order p t.
Proof.
  intros H. unfold grads_ok in H. rewrite forallb_forall in H.
  assert (G : forall d y, In d (flat t) -> gradient_node d -> In y (attrs d) -> (has_name (AN AXlinkHref) y = true -> exists k, a_val y = VLink k) /\
     forall k, link_of (a_val y) = Some k -> has_name (AN AXlinkHref) y = true /\ a_vis y = true /\ r k < r (key d) /\ exists e, In e (flat t) /\ gradient_node e /\ key e = k).
  { intros d y Hd Gd Hy. specialize (H d Hd). apply grad_b_spec in Gd. rewrite Gd in H. cbn [negb orb] in H. rewrite forallb_forall in H. specialize (H y Hy). split.
    - intros Hn. destruct (a_val y); try discriminate; try (rewrite Hn in H; discriminate); eauto.
    - intros k Ek. destruct (a_val y); cbn [link_of] in Ek; try discriminate. injection Ek as ->. apply andb_prop in H. destruct H as [H H4]. apply andb_prop in H. destruct H as [H H3]. apply andb_prop in H. destruct H as [H1 H2]. apply Nat.ltb_lt in H3. apply existsb_exists in H4. destruct H4 as (e & He & H4). apply andb_prop in H4. destruct H4 as [H4 H5]. apply Nat.eqb_eq in H5. apply grad_b_spec in H4. eauto 10. }
  assert (A : forall e, e = ELinearGradient \/ e = ERadialGradient -> acyclic_kind e t). { intros e He. exists r. intros d z Hd Hz Td Tz (y & Hy & Ey). apply (G d y Hd) in Ey; [apply Ey| |exact Hy]. unfold gradient_node. destruct He; subst e; auto. }
  destruct p; cbn [in_order]; auto. split.
  - exists r. intros d k Hd Gd Ek. unfold d_get, get_value, get_attr in Ek. destruct (find _ (attrs d)) as [y|] eqn:E; [|discriminate]. apply find_some in E. destruct E as [Hy _]. injection Ek as Ek. apply (G d y Hd Gd Hy). now rewrite Ek.
  - intros d y k e Hd Gd Hy Ek _ _ _. destruct (G d y Hd Gd Hy) as [G1 G2]. destruct (G2 k Ek) as (Hn & _). destruct (G1 Hn) as (j & Ej). rewrite Ej in Ek. injection Ek as ->. apply has_name_true in Hn. auto.
Qed.
Definition later_b (r : nat -> nat) (p : pass) (t : tree) : bool := match p with PRegroupStops | PGradAttrs => grads_ok r t | _ => true end.
Fixpoint later_steps (r : nat -> nat) (x : svgdom) (o : cleaning_options) (l : list pass) (t : tree) : bool :=
  match l with [] => true | p :: l => later_b r p t && match perform x o p t with Some (Ok t1) => later_steps r x o l t1 | _ => true end end.
Lemma later_steps_spec r x o t : later_steps r x o (filter (enabled o) pipeline) t = true -> in_order_later x o t.
Proof.
  unfold in_order_later. generalize (filter (enabled o) pipeline) as l. intros l. revert t. induction l as [|q l IH]; intros t H pre p post t1 Hp E R; [destruct pre; discriminate|]. cbn [later_steps] in H. apply andb_true_iff in H. destruct H as [C H].
  destruct pre as [|q' pre]; injection E as <- E.
  - inversion R; subst. apply (grads_ok_spec r). destruct Hp as [<-|[<-|[]]]; exact C.
  - inversion R as [|? ? ? t2 ? P R'| | |]; subst. rewrite P in H. apply (IH t2 H pre p post t1 Hp eq_refl R').
Qed.
(** The document of C08, which has a template that other gradients refer to, with all options. *)
Example C47_instance : well_formed link_doc /\ calm_run lib all_on link_doc /\ in_order_later lib all_on link_doc /\
  acyclic_kind ELinearGradient link_doc /\ acyclic_kind ERadialGradient link_doc.
Proof.
  destruct C08_instance as (W & C & _). split; [exact W|]. split; [exact C|]. split; [apply (later_steps_spec (fun k => if (Nat.eqb k 3 || Nat.eqb k 7)%bool then 1 else 0)); vm_compute; reflexivity|].
  split; [apply (grads_ok_spec (fun k => if Nat.eqb k 3 then 1 else 0) _ PLinear)|apply (grads_ok_spec (fun k => if Nat.eqb k 3 then 1 else 0) _ PRadial)]; vm_compute; reflexivity.
Qed.
Open Scope string_scope.
Local Open Scope nat_scope.
(** Two gradients that refer to each other: cleaning does not end. *)
Definition circle_doc : tree := doc [el 1 ESvg [] [
  eli 2 ELinearGradient "a" [at_ AXlinkHref (VLink 3)] []; eli 3 ELinearGradient "b" [at_ AXlinkHref (VLink 2)] [];
  el 4 ERect [at_ AWidth (px 5); at_ AHeight (px 5); at_ AFill (VFunc 3)] []]].
Theorem C47_circle_refuted : exists t, well_formed t /\ preclean_checks t = Ok tt /\ clean_doc lib only_use t = None /\ clean_doc lib all_on t = None.
Proof. exists circle_doc. split; [apply well_formed_fine, fine_b_spec; [vm_compute; reflexivity|wfa]|]. repeat split; vm_compute; reflexivity. Qed.
(** A circle that is made by the cleaner: a use element that shows a gradient, and that is filled with another one. *)
Definition stop3 (k : nat) (z : Z) : tree := el k EStop [at_ AOffset (px z); at_ AStopColor (VColor 0 0 (Z.to_N z))] [].
Definition use_gradient_doc : tree := doc [el 1 ESvg [] [
  el 20 EDefs [] [eli 2 ELinearGradient "p" [at_ AXlinkHref (VLink 3); at_ AX1 (px 3)] [stop3 21 0; stop3 22 1];
    eli 3 ELinearGradient "q" [] [stop3 6 0; stop3 7 1]; eli 4 ELinearGradient "g" [at_ AX1 (px 2)] [stop3 8 0; stop3 9 1]];
  el 5 EUse [at_ AXlinkHref (VLink 4); at_ AFill (VFunc 2)] [];
  el 10 ERect [at_ AFill (VFunc 2)] [];
  el 11 ERect [at_ AFill (VFunc 3); at_ AStroke (VFunc 3); at_ AWidth (px 5); at_ AHeight (px 5)] []]].
Theorem C47_use_of_gradient_refuted : exists t, well_formed t /\ acyclic_kind ELinearGradient t /\ acyclic_kind ERadialGradient t /\
  calm_run lib all_on t /\ clean_doc lib all_on t = None.
Proof.
  exists use_gradient_doc. assert (F : fine use_gradient_doc) by (apply fine_b_spec; [vm_compute; reflexivity|wfa]). split; [now apply well_formed_fine|].
  split; [apply (grads_ok_spec (fun k => if Nat.eqb k 2 then 1 else 0) _ PLinear); vm_compute; reflexivity|]. split; [apply (grads_ok_spec (fun k => if Nat.eqb k 2 then 1 else 0) _ PRadial); vm_compute; reflexivity|].
  split; [apply calm_steps_spec; [exact F|vm_compute; reflexivity]|]. vm_compute. reflexivity.
Qed.
(** A circle that is made by the removal of duplicates: the gradients [a] and [b] paint the same, [a] refers to [d], [d] to
    [c], [c] to [b]. [b] is removed, and [c] is made to refer to [a]. *)
Definition duplicate_doc : tree := doc [el 1 ESvg [] [
  el 20 EDefs [] [
    eli 2 ELinearGradient "a" [at_ AXlinkHref (VLink 3); at_ AX1 (px 0)] [stop3 21 0; stop3 22 1];
    eli 3 ELinearGradient "d" [at_ AXlinkHref (VLink 4); at_ AX1 (px 7)] [];
    eli 4 ELinearGradient "c" [at_ AXlinkHref (VLink 5); at_ AX1 (px 8)] [];
    eli 5 ELinearGradient "b" [at_ AX1 (px 0)] [stop3 23 0; stop3 24 1]];
  el 10 ERect [at_ AFill (VFunc 2)] []; el 11 ERect [at_ AFill (VFunc 3)] []; el 12 ERect [at_ AFill (VFunc 4)] []; el 13 ERect [at_ AFill (VFunc 5)] []]].
Theorem C47_duplicates_refuted : exists t, well_formed t /\ href_acyclic t /\ gradient_hrefs t /\ gradient_links t /\ calm_run lib all_on t /\ clean_doc lib all_on t = None.
Proof.
  exists duplicate_doc. assert (F : fine duplicate_doc) by (apply fine_b_spec; [vm_compute; reflexivity|wfa]). split; [now apply well_formed_fine|].
  destruct (grads_ok_spec (fun k => 5 - k) duplicate_doc PGradAttrs) as [A L]; [vm_compute; reflexivity|]. split; [exact A|]. split; [|split; [|split]].
  - intros d v Hd Gd Ev. assert (V : exists k, v = VLink k /\ In k [3; 4; 5]).
    { cbn in Hd. repeat (destruct Hd as [<-|Hd]; [cbn in Ev; try discriminate Ev; try (injection Ev as <-; eexists; split; [reflexivity|cbn; tauto]); destruct Gd; discriminate|]). destruct Hd. }
    destruct V as (k & -> & Hk). exists k. assert (X : forall d', In d' (flat duplicate_doc) -> key d' = k -> tag d' = TEl ELinearGradient -> exists x, VLink k = VLink k /\ In x (flat duplicate_doc) /\ key x = k /\ gradient_node x) by (intros d' A1 A2 A3; exists d'; unfold gradient_node; auto).
    destruct Hk as [<-|[<-|[<-|[]]]]; [apply (X (ND 3 (TEl ELinearGradient) "d" [at_ AXlinkHref (VLink 4); at_ AX1 (px 7)]))|apply (X (ND 4 (TEl ELinearGradient) "c" [at_ AXlinkHref (VLink 5); at_ AX1 (px 8)]))|apply (X (ND 5 (TEl ELinearGradient) "b" [at_ AX1 (px 0)]))]; cbn; auto 20.
  - intros d a k y Hd Gd Ha Lk Hy Ky Gy. exact (proj1 (L d a k y Hd Gd Ha Lk Hy Ky Gy)).
  - apply calm_steps_spec; [exact F|vm_compute; reflexivity].
  - vm_compute. reflexivity.
Qed.
Print Assumptions C47_clean_partial.
Print Assumptions C47_duplicates_refuted.
