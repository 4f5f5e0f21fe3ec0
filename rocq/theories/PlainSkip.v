(** Documents without references: the passes that have nothing to do. *)
From Coq Require Import List Bool NArith Arith ZArith String Lia QArith Qcanon.
From Verif Require Import Names Num Value Dom DomFacts DomOps Outcome DomRemove SpecDom SpecPath Stops Shapes NPass APass VLoop Transforms Gradients Dupl GradUnits MergeGradients Regroup ResolveUse Clean SpecClean WfAll PlainTree PlainPasses.
Import ListNotations.
Local Open Scope nat_scope.

Section P.
Variables (b : bool) (N : list nat) (K : list nat) (t : tree).
Hypothesis O : okt b N t.
Lemma no_tag e : e = ELinearGradient \/ e = ERadialGradient \/ e = EFilter -> forall d, In d (flat t) -> is_tag e d = false.
Proof.
  intros He d Hd. pose proof (ok_quiet _ _ _ (O d Hd)) as (Q1 & Q2 & Q3). unfold is_tag. destruct (tag d) as [|x| | | |]; try reflexivity. destruct (eid_eqb_spec x e) as [->|]; [|reflexivity]. destruct He as [-> | [-> | ->] ]; congruence.
Qed.
Lemma no_grad d : In d (flat t) -> is_grad d = false.
Proof. intros Hd. pose proof (ok_quiet _ _ _ (O d Hd)) as (Q1 & Q2 & _). unfold is_grad, tag_sat. destruct (tag d) as [|x| | | |]; try reflexivity. destruct x; try reflexivity; congruence. Qed.
Lemma no_gradient d : In d (flat t) -> is_gradient d = false.
Proof. intros Hd. unfold is_gradient. rewrite !no_tag; auto. Qed.
Lemma filter_none {A} (p : A -> bool) l : (forall x, In x l -> p x = false) -> filter p l = [].
Proof. induction l as [|x l IH]; intros H; [reflexivity|]. cbn. rewrite (H x (or_introl eq_refl)). apply IH. intros y Hy. apply H. now right. Qed.
Lemma flat_map_nil {A B} (f : A -> list B) l : (forall x, In x l -> f x = []) -> flat_map f l = [].
Proof. induction l as [|x l IH]; intros H; [reflexivity|]. cbn. rewrite (H x (or_introl eq_refl)). apply IH. intros y Hy. apply H. now right. Qed.
Lemma skip_linear : resolve_linear_gradient_attributes t = Some (Ok t).
Proof. unfold resolve_linear_gradient_attributes, gen_order, kind_nodes. rewrite filter_none; [reflexivity|]. apply no_tag. auto. Qed.
Lemma skip_radial : resolve_radial_gradient_attributes t = Some (Ok t).
Proof. unfold resolve_radial_gradient_attributes, gen_order, kind_nodes. rewrite filter_none; [reflexivity|]. apply no_tag. auto. Qed.
Lemma skip_stops : remove_invalid_stops t = t.
Proof.
  unfold remove_invalid_stops. replace (flat_map repeated_stops (subs t)) with (@nil nat); [reflexivity|]. symmetry. apply flat_map_nil. intros s Hs. unfold repeated_stops. now rewrite (no_grad (data s) (data_of_sub _ _ Hs)).
Qed.
Lemma skip_dupl_linear : remove_dupl_linear_gradients t = Ok t.
Proof. unfold remove_dupl_linear_gradients, of_kind. rewrite filter_none; [reflexivity|]. apply no_tag. auto. Qed.
Lemma skip_dupl_radial : remove_dupl_radial_gradients t = Ok t.
Proof. unfold remove_dupl_radial_gradients, of_kind. rewrite filter_none; [reflexivity|]. apply no_tag. auto. Qed.
Lemma skip_dupl_blur : remove_dupl_fe_gaussian_blur t = Ok t.
Proof. unfold remove_dupl_fe_gaussian_blur. rewrite filter_none; [reflexivity|]. intros s Hs. unfold single_blur. rewrite no_tag; auto. now apply data_of_sub. Qed.
Lemma skip_merge : merge_all t = Some (Ok t).
Proof. unfold merge_all. cbn [MergeGradients.merge_gradients]. unfold merge_round. rewrite filter_none; [reflexivity|]. apply no_gradient. Qed.
Lemma skip_regroup : regroup_gradient_stops t = Some (Ok t).
Proof.
  unfold regroup_gradient_stops. assert (E : stop_owners t = []). { unfold stop_owners. rewrite filter_none; [reflexivity|]. intros s Hs. now rewrite (no_gradient (data s) (data_of_sub _ _ Hs)). } rewrite E. reflexivity.
Qed.
Lemma no_link_get d a k : In d (flat t) -> d_get d a <> Some (VLink k).
Proof. intros Hd E. destruct (ok_get _ _ _ _ _ (O d Hd) E) as [L _]. discriminate. Qed.
Lemma skip_use : resolve_use t = Ok t.
Proof.
  unfold resolve_use. replace (use_pairs t) with (@nil (nat * nat)); [reflexivity|]. symmetry. apply flat_map_nil. intros d Hd. unfold use_target. destruct (_ && _); [|reflexivity]. destruct (d_get d AXlinkHref) as [[]|] eqn:E; try reflexivity. now apply no_link_get in E.
Qed.
Lemma skip_grad_attrs : remove_gradient_attributes t = Some (Ok t).
Proof.
  unfold remove_gradient_attributes, rm_equal. assert (E : units_order t = []). { unfold units_order. rewrite filter_none; [reflexivity|]. intros d Hd. now rewrite (no_gradient d Hd). } rewrite E. cbn. unfold group_to_parent, unit_parents. rewrite filter_none; [reflexivity|]. intros d Hd. now rewrite (no_gradient d Hd).
Qed.
Lemma plain_stops : resolve_stop_attributes t <> Panic /\ forall t', resolve_stop_attributes t = Ok t' -> shr b K t t'.
Proof.
  assert (V : forall d l, okn b N d -> resolve_stop_visit d l = Ok (d, l)). { intros d l Od. unfold resolve_stop_visit, is_grad, tag_sat. pose proof (ok_quiet _ _ _ Od) as (Q1 & Q2 & _). destruct (tag d) as [|x| | | |]; try reflexivity. destruct x; try reflexivity; congruence. }
  assert (H : forall d l r, okn b N d -> Forall (okn b N) l -> resolve_stop_visit d l = Ok r -> R b d (fst r) /\ Forall2 (R b) l (snd r)). { intros d l r Od Ol. rewrite (V d l Od). intros X. injection X as <-. split; [exact (R_refl _ Od)|now apply (F2_refl b N)]. }
  split; [|intros t'; apply (shr_kpass (K := K) _ t t' H O)]. apply (kpass_no_panic b N); [|exact H|exact O]. intros d l Od _. rewrite (V d l Od). discriminate.
Qed.
Lemma plain_grad_transforms : NoDup (keys t) -> apply_transform_to_gradients t <> Panic /\ forall t', apply_transform_to_gradients t = Ok t' -> shr b K t t'.
Proof.
  intros Nd. assert (V : forall u d, okn b N d -> apply_gradient u d = Ok d). { intros u d Od. unfold apply_gradient, is_grad, tag_sat. pose proof (ok_quiet _ _ _ Od) as (Q1 & Q2 & _). destruct (tag d) as [|x| | | |]; try reflexivity. destruct x; try reflexivity; congruence. }
  unfold apply_transform_to_gradients. split.
  - apply (vloop_no_panic b N K); auto; intros u d; [|intros d'']; intros _ Od; rewrite (V u d Od); [discriminate|]. intros X. injection X as <-. exact (R_refl _ Od).
  - intros t'. apply (shr_vloop (b := b) (N := N) (K := K)); auto. intros u d d' _ Od. rewrite (V u d Od). intros X. injection X as <-. exact (R_refl _ Od).
Qed.
End P.
