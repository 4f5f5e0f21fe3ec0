(** C19: every number is rounded to the precision that the documentation gives for it. Specification: SpecDigits.v. *)
From Coq Require Import List Bool ZArith QArith Qcanon Lia String.
From Verif Require Import Names Num Value Dom DomFacts Outcome Cli Round SpecRound RoundProofs SpecDom SpecDigits Clean SpecClean Props_clean Props_wf.
Import ListNotations.
Local Open Scope nat_scope.

Lemma in_b a l : existsb (aid_eqb a) l = true <-> In a l.
Proof. rewrite existsb_exists. split; [intros (b & Hb & E); destruct (aid_eqb_spec a b); [now subst|discriminate]|intros H; exists a; split; [exact H|destruct (aid_eqb_spec a a); congruence]]. Qed.
Lemma apart a : (In a coordinate_attrs -> ~ In a property_attrs /\ ~ In a transform_attrs /\ a <> AD /\ ~ In a [AViewBox; APoints]) /\
  (In a property_attrs -> ~ In a transform_attrs /\ a <> AD /\ ~ In a [AViewBox; APoints]) /\ (In a transform_attrs -> a <> AD /\ ~ In a [AViewBox; APoints]) /\ (a = AD -> ~ In a [AViewBox; APoints]).
Proof.
  repeat split; intro; try intro; cbn in *; intuition (subst; discriminate).
Qed.
Section Rounding.
Variable o : cleaning_options.
Hypothesis ok : precisions_ok o.
Lemma near_z (p : Z) n : In p [o_coordinates_precision o; o_properties_precision o; o_paths_coordinates_precision o; o_transforms_precision o] -> rounded (Z.to_nat p) n (round_number (Z.to_nat p) n).
Proof. intros H. apply round_number_rounded. destruct ok as (A & B & C & D). cbn in H. lia. Qed.
Lemma each (p : Z) (f : Qc -> Qc) l : (forall n, rounded (Z.to_nat p) n (f n)) ->
  Forall2 (fun pn n' => rounded (Z.to_nat (fst pn)) (snd pn) n') (combine (map (fun _ => p) l) l) (map f l).
Proof. intros H. induction l; cbn [map combine]; constructor; auto. Qed.
Lemma value_rounded a v : (forall ps, digits o a v ps -> rounded_to ps v (round_value (round_opts o) a v)) /\ ((forall ps, ~ digits o a v ps) -> round_value (round_opts o) a v = v).
Proof.
  destruct (apart a) as (A1 & A2 & A3 & A4).
  assert (R : forall p n, In p [o_coordinates_precision o; o_properties_precision o; o_paths_coordinates_precision o; o_transforms_precision o] -> rounded (Z.to_nat p) n (round_number (Z.to_nat p) n)) by exact near_z.
  unfold round_value, is_coord_attr, is_prop_attr, is_ts_attr.
  fold coordinate_attrs property_attrs transform_attrs.
  destruct (existsb (aid_eqb a) coordinate_attrs) eqn:C.
  { apply in_b in C. destruct (A1 C) as (N1 & N2 & N3 & N4). split.
    - intros ps D. destruct D; try tauto; cbn [round_opts pr_coord].
      + split; [reflexivity|]. split; [reflexivity|]. cbn. constructor; [|constructor]. apply R. cbn. auto.
      + split; [cbn; f_equal; rewrite map_map; reflexivity|]. split; [cbn; now rewrite !map_length|]. cbn [nums]. rewrite map_map. cbn. assert (G := each (o_coordinates_precision o) (round_number (Z.to_nat (o_coordinates_precision o))) (map num l) (fun n => R _ n (or_introl eq_refl))). rewrite !map_map in G. exact G.
    - intros N. destruct v; try reflexivity; exfalso; [exact (N _ (dg_length o a l C))|exact (N _ (dg_lengths o a l C))]. }
  rewrite <- not_true_iff_false, in_b in C.
  destruct (existsb (aid_eqb a) property_attrs) eqn:P.
  { apply in_b in P. destruct (A2 P) as (N2 & N3 & N4). split.
    - intros ps D. destruct D; try tauto; cbn [round_opts pr_prop]; (split; [reflexivity|]; split; [reflexivity|]; cbn; constructor; [|constructor]; apply R; cbn; auto).
    - intros N. destruct v; try reflexivity; exfalso; [exact (N _ (dg_property o a l P))|exact (N _ (dg_number o a n P))]. }
  rewrite <- not_true_iff_false, in_b in P.
  destruct (existsb (aid_eqb a) transform_attrs) eqn:T.
  { apply in_b in T. destruct (A3 T) as (N3 & N4). split.
    - intros ps D. destruct D; try tauto. split; [reflexivity|]. split; [reflexivity|]. cbn. repeat (apply Forall2_cons || apply Forall2_nil); apply R; cbn; auto.
    - intros N. destruct v; try reflexivity; exfalso. exact (N _ (dg_transform o a t T)). }
  rewrite <- not_true_iff_false, in_b in T.
  destruct (aid_eqb_spec a AD) as [E|E].
  { pose proof (A4 E) as N4. split.
    - intros ps D. destruct D; try tauto. cbn [round_opts pr_paths]. unfold round_path. set (p := o_paths_coordinates_precision o). assert (Rp : forall n, rounded (Z.to_nat p) n (round_number (Z.to_nat p) n)) by (intros n; apply R; cbn; auto).
      assert (Es : forall s, erase_seg (round_seg (Z.to_nat p) s) = erase_seg s /\ seg_nums (round_seg (Z.to_nat p) s) = map (round_number (Z.to_nat p)) (seg_nums s)) by (intros []; split; reflexivity).
      split; [cbn; f_equal; rewrite map_map; apply map_ext; intros s; cbn; now rewrite (proj1 (Es _))|]. split; [now rewrite map_length|].
      replace (nums (VPath (map (fun s => Seg (absolute s) (round_seg (Z.to_nat p) (sdata s))) l))) with (map (round_number (Z.to_nat p)) (nums (VPath l))); [apply each; exact Rp|].
      cbn. induction l as [|s l IH]; [reflexivity|]. cbn. rewrite map_app, IH, (proj2 (Es _)). reflexivity.
    - intros N. destruct v; try reflexivity; exfalso. exact (N _ (dg_path o a p E)). }
  assert (V : aid_eqb a AViewBox || aid_eqb a APoints = true <-> In a [AViewBox; APoints]) by (rewrite <- in_b; cbn; rewrite orb_false_r; reflexivity).
  destruct (aid_eqb a AViewBox || aid_eqb a APoints).
  { pose proof (proj1 V eq_refl) as V'. split.
    - intros ps D. destruct D; try tauto. cbn [round_opts pr_paths]. split; [cbn; f_equal; rewrite map_map; reflexivity|]. split; [cbn; now rewrite map_length|]. cbn [nums]. apply each. intros n. apply R. cbn. auto.
    - intros N. destruct v; try reflexivity; exfalso. exact (N _ (dg_points o a l V')). }
  assert (V' : ~ In a [AViewBox; APoints]) by (intros Q; apply V in Q; discriminate). split; [|reflexivity]. intros ps D. destruct D; tauto.
Qed.
End Rounding.
(** Every attribute of an SVG element is rounded to the digits that its options say; all else stays. *)
Theorem C19_documented_precision x o t t' : precisions_ok o -> perform x o PRound t = Some (Ok t') ->
  Forall2 (fun d d' => key d' = key d /\ tag d' = tag d /\ nid d' = nid d /\
    ((exists e, tag d = TEl e) -> Forall2 (rounded_by o) (attrs d) (attrs d')) /\ ((forall e, tag d <> TEl e) -> d' = d)) (flat t) (flat t').
Proof.
  intros Ok E. cbn in E. injection E as <-. unfold round_numbers. rewrite flat_tmap. induction (flat t) as [|d l IH]; constructor; [|exact IH]. clear IH. unfold is_svg_el. destruct (tag d) as [|e| | | |] eqn:Td; cbn; rewrite ?Td; (split; [reflexivity|]; split; [reflexivity|]; split; [reflexivity|]; split); try (intros (e' & Q); discriminate Q); try reflexivity.
  - intros _. induction (attrs d) as [|y m IH]; constructor; [|exact IH]. destruct y as [[a|s] v b]; cbn; split; try reflexivity; (split; [reflexivity|]); cbn; [exact (value_rounded o Ok a v)|reflexivity].
  - intros N. exfalso. exact (N e eq_refl).
Qed.
Print Assumptions C19_documented_precision.
(** The options of the instances of C08 and C53 are usable. *)
Example C19_documented_instance : precisions_ok all_on /\
  digits all_on AStrokeWidth (px 1) [6%Z] /\ digits all_on ATransform (VTransform (Tr q1 q0 q0 q1 q0 q0)) [8; 8; 8; 8; 6; 6]%Z /\
  digits all_on AViewBox (VNumList [q0; q1]) [8; 8]%Z /\ (forall ps, ~ digits all_on AFill (VColor 1 2 3) ps).
Proof.
  split; [unfold precisions_ok, all_on; cbn; lia|]. split; [apply (dg_property all_on); cbn; auto 10|]. split; [apply (dg_transform all_on); cbn; auto|]. split; [apply (dg_points all_on AViewBox [q0; q1]); cbn; auto|]. intros ps D. inversion D.
Qed.
