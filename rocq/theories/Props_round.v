(** Property C19 (rounding). Specification: SpecRound.v. *)
From Coq Require Import List Bool ZArith QArith Qcanon Qabs Lia String.
From Verif Require Import Names Num Value Dom DomFacts Round SpecRound SpecDom RoundProofs SpecPath.
Import ListNotations.

(** The result is the nearest multiple of 10^-p, and the only number with this property. *)
Theorem C19_round_number : forall p n, (1 <= p <= 12)%nat ->
  rounded p n (round_number p n) /\ (forall r, rounded p n r -> r = round_number p n).
Proof. intros p n H. split; [now apply round_number_rounded|]. intros r. now apply rounded_unique. Qed.
Print Assumptions C19_round_number.
Theorem C19_idempotent : forall p n, (1 <= p <= 12)%nat -> round_number p (round_number p n) = round_number p n.
Proof. intros. now apply round_idem. Qed.
Theorem C19_monotone : forall p x y, (1 <= p <= 12)%nat -> (x <= y)%Qc -> (round_number p x <= round_number p y)%Qc.
Proof. intros. now apply round_mono. Qed.
Theorem C19_odd : forall p x, (1 <= p <= 12)%nat -> round_number p (- x)%Qc = (- round_number p x)%Qc.
Proof. intros. now apply round_opp. Qed.
Print Assumptions C19_odd.
Example C19_instances : 
  qeqb (round_number 1 (fq 125 100)) (fq 13 10) && qeqb (round_number 1 (fq (-125) 100)) (fq (-13) 10) &&
  qeqb (round_number 2 (fq 123449 100000)) (fq 123 100) && qeqb (round_number 12 (fq 1 3)) (fq 333333333333 1000000000000) = true.
Proof. vm_compute. reflexivity. Qed.
Example C19_rounded_instance : rounded 1 (fq 125 100) (fq 13 10).
Proof.
  assert (E : fq 13 10 = round_number 1 (fq 125 100)) by (apply Qc_is_canon; vm_compute; reflexivity).
  rewrite E. apply round_number_rounded. lia.
Qed.

(** The pass: no node, name, unit, flag or visibility changes, and every number is kept or rounded to
    one of the four precisions. *)
Definition usable (o : precisions) : Prop :=
  forall p, In p [pr_coord o; pr_prop o; pr_paths o; pr_ts o] -> (1 <= p <= 12)%nat.
Definition near (o : precisions) (n n' : Qc) : Prop :=
  n' = n \/ exists p, In p [pr_coord o; pr_prop o; pr_paths o; pr_ts o] /\ rounded p n n'.
Definition rounded_attr (o : precisions) (a a' : attr) : Prop :=
  a_name a' = a_name a /\ a_vis a' = a_vis a /\ erase_nums (a_val a') = erase_nums (a_val a) /\
  Forall2 (near o) (nums (a_val a)) (nums (a_val a')).
Lemma near_refl o n : near o n n. Proof. now left. Qed.
Lemma near_list o l : Forall2 (near o) l l. Proof. induction l; constructor; auto using near_refl. Qed.
Lemma near_round o p n : usable o -> In p [pr_coord o; pr_prop o; pr_paths o; pr_ts o] -> near o n (round_number p n).
Proof. intros U I. right. exists p. split; [exact I|]. apply round_number_rounded. now apply U. Qed.
Lemma round_seg_near o p s : usable o -> In p [pr_coord o; pr_prop o; pr_paths o; pr_ts o] ->
  erase_seg (round_seg p s) = erase_seg s /\ Forall2 (near o) (seg_nums s) (seg_nums (round_seg p s)).
Proof. intros U I. destruct s; cbn; split; try reflexivity; repeat (apply Forall2_cons || apply Forall2_nil); now apply near_round. Qed.
Lemma round_value_ok o a v : usable o ->
  erase_nums (round_value o a v) = erase_nums v /\ Forall2 (near o) (nums v) (nums (round_value o a v)).
Proof.
  intros U. assert (Same : erase_nums v = erase_nums v /\ Forall2 (near o) (nums v) (nums v)) by (split; [reflexivity|apply near_list]).
  unfold round_value. destruct (is_coord_attr a).
  { destruct v; try exact Same; cbn.
    - split; [reflexivity|]. apply Forall2_cons; [|apply Forall2_nil]. apply near_round; [exact U|now left].
    - rewrite map_map. cbn. split; [reflexivity|]. rewrite map_map. cbn. clear Same; induction l; [apply Forall2_nil|apply Forall2_cons]; [|exact IHl].
      apply near_round; [exact U|now left]. }
  destruct (is_prop_attr a).
  { destruct v; try exact Same; cbn; (split; [reflexivity|]); (apply Forall2_cons; [|apply Forall2_nil]); apply near_round; cbn; auto. }
  destruct (is_ts_attr a).
  { destruct v; try exact Same; cbn. split; [reflexivity|]. repeat (apply Forall2_cons || apply Forall2_nil); apply near_round; cbn; auto. }
  destruct (aid_eqb a AD).
  { destruct v; try exact Same; cbn. unfold round_path. split.
    - f_equal. rewrite map_map. apply map_ext. intros s. cbn. f_equal. apply (round_seg_near o (pr_paths o)); cbn; auto.
    - clear Same. induction p as [|s p IH]; [apply Forall2_nil|]. cbn. apply Forall2_app; [|exact IH].
      apply (round_seg_near o (pr_paths o)); cbn; auto. }
  destruct (aid_eqb a AViewBox || aid_eqb a APoints); [|exact Same].
  destruct v; try exact Same; cbn. rewrite map_map. split; [reflexivity|].
  clear Same; induction l; [apply Forall2_nil|apply Forall2_cons]; [|exact IHl]. apply near_round; cbn; auto.
Qed.
Theorem C19_pass : forall o t, usable o ->
  erase_attrs (round_numbers o t) = erase_attrs t /\
  Forall2 (fun d d' => Forall2 (rounded_attr o) (attrs d) (attrs d')) (flat t) (flat (round_numbers o t)).
Proof.
  intros o t U. unfold round_numbers, erase_attrs. split.
  - rewrite tmap_tmap. apply tmap_ext. intros d _. now destruct (is_svg_el d).
  - rewrite flat_tmap. induction (flat t) as [|d l IH]; constructor; [|exact IH]. clear IH.
    assert (R : forall a, rounded_attr o a a) by (intros a; repeat split; apply near_list).
    destruct (is_svg_el d); cbn.
    + induction (attrs d) as [|a l' IH]; constructor; [|exact IH].
      unfold round_attr. destruct a as [[n|s] v b]; cbn; [|apply R].
      destruct (round_value_ok o n v U). repeat split; assumption.
    + induction (attrs d); constructor; auto.
Qed.
Print Assumptions C19_pass.
(** Attributes that are no coordinates, lengths, transforms or path data are not touched. *)
Theorem C19_other_attributes : forall o a v,
  ~ In a [AX; AY; ADx; ADy; AX1; AY1; AX2; AY2; AR; ARx; ARy; ACx; ACy; AFx; AFy; AWidth; AHeight; AStrokeDasharray;
          AStrokeDashoffset; AStrokeMiterlimit; AStrokeWidth; AOpacity; AFillOpacity; AFloodOpacity; AStrokeOpacity;
          AStopOpacity; AFontSize; ATransform; AGradientTransform; APatternTransform; AD; AViewBox; APoints] ->
  round_value o a v = v.
Proof.
  intros o a v H. unfold round_value.
  assert (N : forall l, (forall x, In x l -> In x [AX; AY; ADx; ADy; AX1; AY1; AX2; AY2; AR; ARx; ARy; ACx; ACy; AFx; AFy; AWidth; AHeight; AStrokeDasharray;
          AStrokeDashoffset; AStrokeMiterlimit; AStrokeWidth; AOpacity; AFillOpacity; AFloodOpacity; AStrokeOpacity;
          AStopOpacity; AFontSize; ATransform; AGradientTransform; APatternTransform; AD; AViewBox; APoints]) -> existsb (aid_eqb a) l = false).
  { intros l Hl. destruct (existsb (aid_eqb a) l) eqn:E; [|reflexivity]. apply existsb_exists in E. destruct E as (x & Hx & E).
    destruct (aid_eqb_spec a x); [|discriminate]. subst x. exfalso. apply H, Hl, Hx. }
  unfold is_coord_attr, is_prop_attr, is_ts_attr. rewrite !N by (intros x Hx; repeat (destruct Hx as [<-|Hx]; [cbn; tauto|]); contradiction).
  pose proof (N [AD]) as N1. pose proof (N [AViewBox]) as N2. pose proof (N [APoints]) as N3. cbn in N1, N2, N3.
  rewrite orb_false_r in N1, N2, N3. rewrite N1, N2, N3 by (intros x [<-|[]]; tauto). reflexivity.
Qed.
Theorem C19_pass_idempotent : forall o t, usable o -> round_numbers o (round_numbers o t) = round_numbers o t.
Proof.
  intros o t U. unfold round_numbers. rewrite tmap_tmap. apply tmap_ext. intros d _.
  destruct (is_svg_el d) eqn:E; [|now rewrite E].
  change (is_svg_el (with_attrs d (map (round_attr o) (attrs d)))) with (is_svg_el d). rewrite E.
  unfold with_attrs. cbn. f_equal. rewrite map_map. apply map_ext. intros [[a|s] v b]; cbn; [|reflexivity]. f_equal.
  assert (I : forall p n, In p [pr_coord o; pr_prop o; pr_paths o; pr_ts o] -> round_number p (round_number p n) = round_number p n).
  { intros p n Hp. apply round_idem. now apply U. }
  unfold round_value. destruct (is_coord_attr a).
  { destruct v; try reflexivity; cbn; unfold round_len; cbn.
    - rewrite I by (cbn; auto). reflexivity.
    - f_equal. rewrite map_map. apply map_ext. intros l0. cbn. rewrite I by (cbn; auto). reflexivity. }
  destruct (is_prop_attr a).
  { destruct v; try reflexivity; cbn; unfold round_len; cbn; rewrite I by (cbn; auto); reflexivity. }
  destruct (is_ts_attr a).
  { destruct v; try reflexivity; cbn. rewrite !I by (cbn; auto). reflexivity. }
  destruct (aid_eqb a AD).
  { destruct v; try reflexivity; cbn. unfold round_path. f_equal. rewrite map_map. apply map_ext. intros s0. cbn. f_equal.
    destruct (sdata s0); cbn; rewrite ?I by (cbn; auto); reflexivity. }
  destruct (aid_eqb a AViewBox || aid_eqb a APoints); [|reflexivity].
  destruct v; try reflexivity; cbn. f_equal. rewrite map_map. apply map_ext. intros n. apply I. cbn; auto.
Qed.
Print Assumptions C19_pass_idempotent.
Example C19_pass_instance : usable (PR 6 6 8 8) /\
  round_numbers (PR 1 1 1 1) (doc [el 1 ESvg [] [el 2 ERect [at_ AX (VLen (Len (fq 1 100) UMm)); at_ AClass (VStr "0.01"%string)] []]]) =
  doc [el 1 ESvg [] [el 2 ERect [at_ AX (VLen (Len (round_number 1 (fq 1 100)) UMm)); at_ AClass (VStr "0.01"%string)] []]].
Proof. split; [|reflexivity]. intros p H. cbn in H. lia. Qed.

(** The stronger reading, that drawn points move by at most half a unit, fails for relative path
    data: the errors add up. *)
Theorem C19_relative_paths_drift_refuted : exists l : list segment,
  let p1 := cur (run pen0 l) in let p2 := cur (run pen0 (round_path 1 l)) in
  qltb (fq 5 100) (fst p1 - fst p2)%Qc = true.
Proof.
  exists [Seg false (MoveTo q0 q0); Seg false (LineTo (fq 4 100) q0); Seg false (LineTo (fq 4 100) q0)].
  vm_compute. reflexivity.
Qed.
