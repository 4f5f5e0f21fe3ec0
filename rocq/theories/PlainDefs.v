(** Documents without references: the definitions are collected in a main defs element. *)
From Coq Require Import List Bool NArith Arith ZArith String Lia QArith Qcanon Permutation.
From Verif Require Import Names Num Value Dom DomFacts DomOps Outcome DomRemove SpecDom Stops Shapes NPass APass VLoop Transforms Links TasksSimple Visit Move MoveFacts RmUnusedDefs GroupDefs GroupDefsProofs GroupDefsEnd SpecGroupDefs Props_groupdefs SpecText WfAll WfStruct WfGrad PlainTree PlainPasses PlainMove.
Import ListNotations.
Local Open Scope nat_scope.

Definition gq (t : tree) : Prop := forall a x p, In (p :: a, x) (ctx [] t) -> is_tag EG p = true -> is_svg_el x = true.
Lemma place_parent t : forall a0 a p c, In (p :: a, c) (places a0 t) -> (p :: a = a0 /\ c = t) \/ exists s, In s (subs t) /\ data s = p /\ In c (kids s).
Proof.
  induction t as [d ch IH] using tree_ind'. rewrite Forall_forall in IH. intros a0 a p c H. cbn [places] in H. destruct H as [H|H].
  - injection H as -> <-. now left.
  - right. apply in_flat_map in H. destruct H as (x & Hx & H). destruct (IH x Hx _ _ _ _ H) as [[E ->]|(s & Hs & Ds & Hc)].
    + injection E as -> ->. exists (T d ch). split; [now left|]. split; [reflexivity|exact Hx].
    + exists s. split; [right; apply in_flat_map; eauto|auto].
Qed.
Lemma gq_groups t : gq t <-> forall s c, In s (subs t) -> is_tag EG (data s) = true -> In c (kids s) -> is_svg_el (data c) = true.
Proof.
  split.
  - intros G s c Hs Ts Hc. destruct (sub_place s t [] Hs) as (a & Ha). apply (G a (data c) (data s)); [|exact Ts]. apply ctx_place. exists c. split; [now apply (place_kid t)|reflexivity].
  - intros H a x p Hx Tp. apply ctx_place in Hx. destruct Hx as (c & Hc & <-). destruct (place_parent t [] a p c Hc) as [[E _]|(s & Hs & <- & Hk)]; [discriminate|]. exact (H s c Hs Tp Hk).
Qed.
Lemma anc_flat t p a x : In (p :: a, x) (ctx [] t) -> In p (flat t).
Proof. intros H. destruct (ctx_anc_in t [] _ p H (or_introl eq_refl)) as [[]|X]; exact X. Qed.
Lemma gq_step m sv t t' : ok m sv t' -> (forall d, In d (flat t) -> exists d', In d' (flat t') /\ sig d' = sig d) ->
  (forall p, In p (ctx [] t') -> child_of m p = true \/ exists q, In q (ctx [] t) /\ sig (snd q) = sig (snd p) /\ forall j, child_of j q = child_of j p) -> gq t -> gq t'.
Proof.
  intros O Fw Bw G a x p Hx Tp. destruct (Bw _ Hx) as [C|(q & Hq & Sq & Cq)].
  - exfalso. apply child_of_parent in C. destruct C as (d & l & E & Kd). cbn in E. injection E as <- <-. destruct (front_ctx _ _ _ (ok_front _ _ _ O)) as (ds & dm & H1 & _ & K1 & D1 & _).
    assert (p = dm) by (apply (data_unique t'); [apply O|exact (anc_flat _ _ _ _ Hx)|exact (ctx_in_flat _ _ _ H1)|congruence]). subst dm. unfold is_defs in D1. apply is_tag_tag in D1, Tp. congruence.
  - specialize (Cq (key p)). unfold child_of at 2 in Cq. cbn in Cq. rewrite Nat.eqb_refl in Cq. apply child_of_parent in Cq. destruct Cq as (d & l & E & Kd). destruct q as [qa qx]. cbn in E, Sq. subst qa. destruct (Fw d (anc_flat _ _ _ _ Hq)) as (d' & Hd' & Sd).
    assert (d' = p) by (apply (data_unique t'); [apply O|exact Hd'|exact (anc_flat _ _ _ _ Hx)|rewrite (sig_key _ _ Sd); exact Kd]). subst d'.
    assert (Td : is_tag EG d = true) by (apply is_tag_tag; rewrite <- (sig_tag _ _ Sd); now apply is_tag_tag). pose proof (G _ _ _ Hq Td) as X. rewrite (svg_el_sig x qx Sq) in X. exact X.
Qed.
Lemma gq_second m sv : forall rem t, ok m sv t -> is_svg_el (data t) = false -> (forall k, In k rem -> exists d, In d (flat t) /\ key d = k /\ is_ref d = true) -> gq t -> gq (fold_left (move_step m) rem t).
Proof.
  induction rem as [|k rem IH]; intros t O Rt Hk G; cbn [fold_left]; [exact G|].
  pose proof (ref_node_ok m sv t k O Rt (Hk k (or_introl eq_refl))) as Kn. destruct (move_step_grows m sv t k O Kn) as (O' & [G1 G2] & Sd & C). apply IH; [exact O'|rewrite (svg_el_sig _ _ Sd); exact Rt| |].
  - intros j Hj. destruct (Hk j (or_intror Hj)) as (d & Hd & Kd & Rd). destruct (G1 d Hd) as (d' & Hd' & (S1 & _)). exists d'. split; [exact Hd'|]. split; [rewrite (sig_key _ _ S1); exact Kd|rewrite (is_ref_sig _ _ S1); exact Rd].
  - apply (gq_step m sv t); [exact O'| | |exact G].
    + intros d Hd. destruct (G1 d Hd) as (d' & Hd' & (S1 & _)). eauto.
    + intros p Hp. destruct (C p Hp) as [[_ H]|[_ H]]; auto.
Qed.
Lemma gq_third m sv : forall rem t, ok m sv t -> (forall k, In k rem -> node_ok m sv t k) -> gq t -> gq (fold_left (fun t k => move k m t) rem t).
Proof.
  induction rem as [|k rem IH]; intros t O Hk G; cbn [fold_left]; [exact G|].
  pose proof (Hk k (or_introl eq_refl)) as Kn. destruct (move_spec m sv t k O Kn) as (s & a & rest & dm & ds & _ & _ & _ & _ & _ & _ & _ & _ & O2 & Rk & Dt). pose proof (move_perm m sv t k O Kn) as P. apply IH; [exact O2| |].
  - intros j Hj. destruct (Hk j (or_intror Hj)) as (d & Hd & Kd & N1 & N2 & N3). exists d. split; [apply (Permutation_in d (Permutation_sym P)); exact Hd|]. rewrite Rk. auto.
  - apply (gq_step m sv t); [exact O2| | |exact G].
    + intros d Hd. exists d. split; [apply (Permutation_in d (Permutation_sym P)); exact Hd|reflexivity].
    + intros p Hp. destruct (move_ctx m sv t k p O Kn Hp) as [[_ H]|[_ (q & Hq & Sq & Cq)]]; [auto|]. right. exists q. split; [exact Hq|]. split; [now rewrite Sq|exact Cq].
Qed.
Lemma gq_first t svg m t1 : NoDup (keys t) -> tag (data t) = TRoot -> svg_element t = Some svg -> main_defs svg t = (m, t1) -> gq t -> gq t1.
Proof.
  intros Nd Rt Es Em G. destruct (first_step t svg m t1 Nd Rt Es Em) as (_ & _ & [(s & a & rest & _ & _ & Hs & P1 & P2 & _)|(_ & P & _)]); intros b x p Hx Tp; destruct (svg_kid _ _ Es) as [_ Ts]; apply is_tag_tag in Ts.
  - apply (Permutation_in _ P2) in Hx. apply in_app_or in Hx. destruct Hx as [Hx|Hx].
    + apply ctx_rebase in Hx. destruct Hx as [E|(d0 & l & y & E & HB)]; injection E as -> ->.
      * apply is_tag_tag in Tp. congruence.
      * subst x. apply (G (l ++ a) y d0); [|exact Tp]. apply (Permutation_in _ (Permutation_sym P1)). apply in_or_app. left. apply HB.
    + apply (G b x p); [|exact Tp]. apply (Permutation_in _ (Permutation_sym P1)). apply in_or_app. now right.
  - apply (Permutation_in _ P) in Hx. destruct Hx as [E|Hx]; [|exact (G b x p Hx Tp)]. injection E as <- <- <-. apply is_tag_tag in Tp. congruence.
Qed.
Lemma inheritable_not_special x : inheritable_attr x = true -> ~ special (a_name x).
Proof. unfold inheritable_attr. intros H [E|E]; rewrite E in H; discriminate. Qed.
Lemma plain_group_defs b N ks t : fine t -> Inv b N ks None t -> (forall d, In d (flat t) -> is_tag EDefs d = true -> d_has d ADisplay = false) ->
  group_defs t <> Panic /\ forall t', group_defs t = Ok t' -> exists m, Inv b N ks (Some m) t'.
Proof.
  intros F I Df. destruct (i_svg _ _ _ _ _ I) as (svg & Es & Ks & Ds & _). pose proof (fine_nodup t F) as Nd. pose proof (fine_root t F) as Rt.
  assert (NL : forall d, In d (flat t) -> ~ carries_link d).
  { intros d Hd (x & a & Hx & _ & _ & X). destruct (ok_attrs _ _ _ (i_nodes _ _ _ _ _ I d Hd) x Hx) as [L _]. contradiction. }
  assert (Hok : group_defs t <> Panic). { destruct (C13_succeeds t svg Nd Rt Es) as (t' & E); [|congruence]. split; [|split].
    - intros d (pre & post & E & _). apply NL. rewrite E. apply in_or_app. right. now left.
    - apply NL, data_of_sub, kid_in. now destruct (svg_kid _ _ Es).
    - intros anc c p Hc _ Hp. apply NL. destruct Hp as [<-|Hp]; [exact (ctx_in_flat _ _ _ Hc)|]. destruct (ctx_anc_in t [] _ p Hc Hp) as [[]|X]; exact X. }
  split; [exact Hok|]. intros t' E. destruct (C13_structure t svg (fine_wf t F) Rt Es Hok) as (t0 & svg' & main & rest & E1 & W & Es' & Ks' & Kd' & Tm & _ & _ & _ & Fw & Bw). rewrite E1 in E. injection E as ->.
  assert (Rr : forall d d', In d (flat t) -> SpecGroupDefs.same_node d d' -> (forall x, In x (attrs d') -> In x (attrs d) \/ (inheritable_attr x = true /\ exists y, In y (flat t) /\ In x (attrs y))) -> R b d d').
  { intros d d' Hd (S1 & S2 & S3) Ha. split; [exact S1|exact S3|left; exact S2|]. intros x Hx. destruct (Ha x Hx) as [X|[Hi (y & Hy & Hxy)]].
    - split; [exact (ok_attrs _ _ _ (i_nodes _ _ _ _ _ I d Hd) x X)|left; now apply in_map].
    - split; [exact (ok_attrs _ _ _ (i_nodes _ _ _ _ _ I y Hy) x Hxy)|right; now apply inheritable_not_special]. }
  assert (Ok' : forall d', In d' (flat t') -> okn b N d').
  { intros d' Hd'. destruct (Bw d' Hd') as [(d & Hd & Sn & Ha)|(Em & A0 & I0 & _)].
    - exact (R_okn _ _ _ _ (Rr d d' Hd Sn Ha) (i_nodes _ _ _ _ _ I d Hd)).
    - split.
      + rewrite A0. intros x [].
      + subst d'. unfold is_defs_el in Tm. unfold quiet. rewrite Tm. repeat split; discriminate.
      + unfold d_has, has_attr. rewrite A0. discriminate.
      + unfold has_id. rewrite I0. discriminate. }
  assert (Has : forall d', In d' (flat t') -> (forall d, In d (flat t) -> key d = key d' -> tag d = tag d' -> d_has d ADisplay = false) -> d_has d' ADisplay = false).
  { intros d' Hd' H. destruct (Bw d' Hd') as [(d & Hd & Sn & Ha)|(Em & A0 & I0 & _)].
    - destruct Sn as (S1 & S2 & S3). apply (R_has _ _ _ ADisplay (Rr d d' Hd (conj S1 (conj S2 S3)) Ha)); [now left|]. apply H; [exact Hd|now symmetry|now symmetry].
    - unfold d_has, has_attr. now rewrite A0. }
  destruct (svg_kid _ _ Es') as [Hs' _]. exists (root_key main). split; [apply W|exact Ok'| |].
  - apply gq_groups. destruct (main_defs svg t) as [m t1] eqn:Em. rewrite (group_ok t svg m t1 Es Em Hok) in E1. injection E1 as E1. rewrite <- E1. clear Fw Bw Rr Ok' Has W Es' Ks' Kd' Tm E1 Hs'.
    pose proof (gq_first t svg m t1 Nd Rt Es Em (proj2 (gq_groups t) (i_groups _ _ _ _ _ I))) as G1. destruct (pipeline t svg m t1 Nd Rt Es Em) as (O1 & O2 & O3 & O4 & G2 & P3 & F2 & F3 & R2 & D3 & S2 & C4).
    destruct (first_step t svg m t1 Nd Rt Es Em) as (_ & D1 & _). assert (R1 : is_svg_el (data t1) = false) by (rewrite D1; unfold is_svg_el; now rewrite Rt).
    assert (Q2 : gq (step2 m t1)) by (exact (gq_second m (root_key svg) (to_move m t1) t1 O1 R1 (to_move_ok m t1) G1)).
    assert (Q3 : gq (step3 m (step2 m t1))) by (apply (gq_third m (root_key svg)); [exact O2|intros k Hk; apply in_other_ok; auto|exact Q2]).
    intros a x p Hx Tp. apply C4 in Hx. destruct Hx as ([qa qx] & Hq & _ & E2). cbn in E2. injection E2 as E2 ->. destruct qa as [|q0 qa]; [discriminate|]. injection E2 as -> _. exact (Q3 _ _ _ Hq Tp).
  - exists svg'. split; [exact Es'|]. split; [congruence|]. split.
    + apply Has; [apply data_of_sub, kid_in; exact Hs'|]. intros d Hd Kd Td. assert (d = data svg); [|now subst d]. apply (data_unique t); [exact Nd|exact Hd|apply data_of_sub, kid_in; now destruct (svg_kid _ _ Es)|]. unfold root_key in *. congruence.
    + intros k Ek. injection Ek as <-. exists main. rewrite Kd'. split; [now left|]. split; [reflexivity|]. split; [now apply is_tag_tag|]. apply Has.
      * apply data_of_sub, (subs_trans t' svg'); apply kid_in; [exact Hs'|rewrite Kd'; now left].
      * intros d Hd _ Td. apply Df; [exact Hd|]. apply is_tag_tag. rewrite Td. exact Tm.
Qed.
