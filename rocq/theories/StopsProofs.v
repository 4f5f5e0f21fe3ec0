(** Proofs about the stop passes and attribute fixing. *)
From Coq Require Import List Bool NArith Arith ZArith String Lia QArith Qcanon Lqa.
From Verif Require Import Names Num Value Dom DomFacts DomOps Outcome DomRemove Stops SpecStops AttrFacts.
Import ListNotations.
Local Open Scope nat_scope.

Lemma is_grad_iff s : is_grad (data s) = true <-> gradient s.
Proof.
  unfold is_grad, tag_sat, gradient. destruct (tag (data s)) as [|e| | | |]; split; try discriminate; try (intros [|]; discriminate).
  - destruct e; try discriminate; auto.
  - intros [H|H]; injection H as ->; reflexivity.
Qed.
Lemma is_grad_tag d d' : tag d' = tag d -> is_grad d' = is_grad d.
Proof. unfold is_grad, tag_sat. now intros ->. Qed.

(** * Resolution *)
Lemma resolve_stop_err idx d e : resolve_stop idx d = Err e <->
  e = MissingAttribute EStop AOffset /\ idx <> 0 /\ ~ has_length_offset d.
Proof.
  unfold resolve_stop, has_length_offset. destruct (d_get d AOffset) as [v|].
  2:{ destruct (Nat.eqb_spec idx 0); cbn; split; try discriminate.
      - intros (_ & H & _). contradiction.
      - intros [= <-]. repeat split; auto. intros (l & [=]).
      - intros (-> & _). reflexivity. }
  assert (NL : forall l, v = VLen l \/ v <> VLen l) by (intros l; destruct (value_eqb_spec v (VLen l)); auto).
  destruct v; cbn; try (destruct (Nat.eqb_spec idx 0); cbn; split; try discriminate;
    [intros (_ & H & _); contradiction|intros [= <-]; repeat split; auto; intros (l0 & [=])|intros (-> & _); reflexivity]).
  split; [discriminate|]. intros (_ & _ & H). exfalso. apply H. eauto.
Qed.
Lemma resolve_stop_panic idx d : resolve_stop idx d <> Panic.
Proof.
  unfold resolve_stop. destruct (d_get d AOffset) as [[]|]; cbn; try discriminate; destruct (Nat.eqb idx 0); cbn; discriminate.
Qed.
Lemma fill_color d :
  let d1 := if d_has d AStopColor then d else d_set_hidden d AStopColor black in
  let d2 := if d_has d1 AStopOpacity then d1 else d_set_hidden d1 AStopOpacity (VNum q1) in
  same_node d d2 /\ same_except [AStopColor; AStopOpacity] d d2 /\
  get_attr (attrs d2) AOffset = get_attr (attrs d) AOffset /\
  filled AStopColor (VColor 0 0 0) d d2 /\ filled AStopOpacity (VNum q1) d d2.
Proof.
  intros d1 d2. unfold filled.
  assert (H1 : same_node d d1 /\ same_except [AStopColor; AStopOpacity] d d1 /\ (forall b, b <> AStopColor -> get_attr (attrs d1) b = get_attr (attrs d) b) /\
    match get_attr (attrs d) AStopColor with Some x => get_attr (attrs d1) AStopColor = Some x
      | None => get_attr (attrs d1) AStopColor = Some (At (AN AStopColor) (VColor 0 0 0) false) end).
  { unfold d1. destruct (d_has d AStopColor) eqn:E.
    - repeat split; auto; try apply same_except_refl; unfold same_except; try tauto. unfold d_has, has_attr in E. now destruct (get_attr _ AStopColor).
    - apply d_has_false in E. rewrite E. split; [apply sn_with|]. split.
      + eapply same_except_weaken; [|apply se_hidden]. intros x [<-|[]]. left. reflexivity.
      + split; [|apply get_hidden_same]. intros b Hb. apply get_hidden_other. congruence. }
  destruct H1 as (N1 & S1 & G1 & F1).
  assert (H2 : same_node d1 d2 /\ same_except [AStopColor; AStopOpacity] d1 d2 /\ (forall b, b <> AStopOpacity -> get_attr (attrs d2) b = get_attr (attrs d1) b) /\
    match get_attr (attrs d1) AStopOpacity with Some x => get_attr (attrs d2) AStopOpacity = Some x
      | None => get_attr (attrs d2) AStopOpacity = Some (At (AN AStopOpacity) (VNum q1) false) end).
  { unfold d2. destruct (d_has d1 AStopOpacity) eqn:E.
    - repeat split; auto; try apply same_except_refl; unfold same_except; try tauto. unfold d_has, has_attr in E. now destruct (get_attr _ AStopOpacity).
    - apply d_has_false in E. rewrite E. split; [apply sn_with|]. split.
      + eapply same_except_weaken; [|apply se_hidden]. intros x [<-|[]]. right. left. reflexivity.
      + split; [|apply get_hidden_same]. intros b Hb. apply get_hidden_other. congruence. }
  destruct H2 as (N2 & S2 & G2 & F2).
  split; [eapply same_node_trans; eassumption|]. split; [eapply same_except_trans; eassumption|].
  split; [rewrite G2, G1 by discriminate; reflexivity|]. split.
  - rewrite (G2 AStopColor) by discriminate. exact F1.
  - rewrite (G1 AStopOpacity) in F2 by discriminate. exact F2.
Qed.
Lemma resolve_stop_ok idx d d' : resolve_stop idx d = Ok d' -> resolved_stop (Nat.eqb idx 0) d d'.
Proof.
  unfold resolve_stop. intros H. apply bind_ok in H. destruct H as (d0 & H0 & H). cbv zeta in H.
  pose proof (fill_color d0) as F. cbv zeta in F.
  set (d2 := if d_has (if d_has d0 AStopColor then d0 else d_set_hidden d0 AStopColor black) AStopOpacity
             then (if d_has d0 AStopColor then d0 else d_set_hidden d0 AStopColor black)
             else d_set_hidden (if d_has d0 AStopColor then d0 else d_set_hidden d0 AStopColor black) AStopOpacity (VNum q1)) in *.
  injection H as <-. destruct F as (F1 & F2 & F3 & F4 & F5).
  assert (K : same_node d d0 /\ same_except [AOffset] d d0 /\ (forall b, b <> AOffset -> get_attr (attrs d0) b = get_attr (attrs d) b)).
  { assert (K0 : forall v, same_node d (d_set d AOffset v) /\ same_except [AOffset] d (d_set d AOffset v) /\ (forall b, b <> AOffset -> get_attr (attrs (d_set d AOffset v)) b = get_attr (attrs d) b)).
    { intros v. split; [apply sn_with|]. split; [apply se_set|]. intros b Hb. apply get_set_other. congruence. }
    assert (K1 : same_node d d /\ same_except [AOffset] d d /\ (forall b, b <> AOffset -> get_attr (attrs d) b = get_attr (attrs d) b)).
    { split; [apply same_node_refl|]. split; [apply same_except_refl|reflexivity]. }
    destruct (d_get d AOffset) as [[]|]; try (destruct (Nat.eqb idx 0); [injection H0 as <-; apply K0|discriminate]).
    injection H0 as <-. destruct (unit_eqb (unit l) UPercent); [apply K0|exact K1]. }
  destruct K as (K1 & K2 & K3).
  split; [eapply same_node_trans; eassumption|]. split; [|split].
  - eapply same_except_trans; [eapply same_except_weaken; [|exact K2]|eapply same_except_weaken; [|exact F2]];
      intros x; cbn; tauto.
  - unfold resolved_offset, offset_number, d_get, get_value. rewrite F3.
    fold (get_value (attrs d0) AOffset) (get_value (attrs d) AOffset). fold (d_get d AOffset) (d_get d0 AOffset).
    destruct (d_get d AOffset) as [v|] eqn:E.
    + destruct v; try (right; right; destruct (Nat.eqb idx 0); [|discriminate]; injection H0 as <-; split; [reflexivity|];
        split; [intros (l0 & X); rewrite E in X; discriminate|apply d_get_set_same]).
      destruct l as [n u]. cbn [unit num] in *. destruct (unit_eqb_spec u UPercent).
      * subst u. injection H0 as <-. left. exists n. split; [reflexivity|apply d_get_set_same].
      * injection H0 as <-. right. left. exists n, u. auto.
    + right. right. destruct (Nat.eqb idx 0); [|discriminate]. injection H0 as <-. split; [reflexivity|].
      split; [intros (l0 & X); rewrite E in X; discriminate|apply d_get_set_same].
  - unfold filled in *. rewrite !K3 in F4, F5 by discriminate. auto.
Qed.
Lemma resolve_list_ok l : forall idx l', resolve_stop_list (S idx) l = Ok l' -> Forall2 (resolved_stop false) l l'.
Proof.
  induction l as [|d l IH]; intros idx l' H; cbn in H.
  - injection H as <-. constructor.
  - apply bind_ok in H. destruct H as (d' & H1 & H). apply bind_ok in H. destruct H as (r & H2 & H). injection H as <-.
    apply resolve_stop_ok in H1. constructor; [exact H1|eapply IH; exact H2].
Qed.
Lemma resolve_list0_ok l l' : resolve_stop_list 0 l = Ok l' -> resolved_stops l l'.
Proof.
  destruct l as [|d l]; intros H; cbn in H.
  - injection H as <-. constructor.
  - apply bind_ok in H. destruct H as (d' & H1 & H). apply bind_ok in H. destruct H as (r & H2 & H). injection H as <-.
    apply resolve_stop_ok in H1. constructor; [exact H1|eapply resolve_list_ok; exact H2].
Qed.
Lemma resolve_list_err l : forall idx e, resolve_stop_list idx l = Err e <->
  e = MissingAttribute EStop AOffset /\ exists i d, nth_error l i = Some d /\ idx + i <> 0 /\ ~ has_length_offset d.
Proof.
  induction l as [|d l IH]; intros idx e; cbn.
  - split; [discriminate|]. intros (_ & i & d & H & _). now destruct i.
  - split.
    + intros H. apply bind_err in H. destruct H as [H|(d' & _ & H)].
      * apply resolve_stop_err in H. destruct H as (-> & H1 & H2). split; [reflexivity|]. exists 0, d. rewrite Nat.add_0_r. auto.
      * apply bind_err in H. destruct H as [H|(r & _ & H)]; [|discriminate]. apply IH in H.
        destruct H as (-> & i & x & H1 & H2 & H3). split; [reflexivity|]. exists (S i), x. cbn. repeat split; auto. lia.
    + intros (-> & i & x & H1 & H2 & H3). destruct i as [|i]; cbn in H1.
      * injection H1 as ->. rewrite Nat.add_0_r in H2.
        destruct (resolve_stop idx x) eqn:E; [|now apply resolve_stop_err in E as (-> & _)|now apply resolve_stop_panic in E].
        exfalso. assert (X : resolve_stop idx x = Err (MissingAttribute EStop AOffset)) by (apply resolve_stop_err; auto). congruence.
      * destruct (resolve_stop idx d) eqn:E; [|cbn; now apply resolve_stop_err in E as (-> & _)|now apply resolve_stop_panic in E].
        cbn. assert (X : resolve_stop_list (S idx) l = Err (MissingAttribute EStop AOffset)).
        { apply IH. split; [reflexivity|]. exists i, x. split; [exact H1|]. split; [lia|exact H3]. }
        now rewrite X.
Qed.
Lemma resolve_list_panic l : forall idx, resolve_stop_list idx l <> Panic.
Proof.
  induction l as [|d l IH]; intros idx H; cbn in H; [discriminate|].
  apply bind_panic in H. destruct H as [H|(d' & _ & H)]; [now apply resolve_stop_panic in H|].
  apply bind_panic in H. destruct H as [H|(r & _ & H)]; [now apply IH in H|discriminate].
Qed.
Lemma resolve_list_length l : forall idx l', resolve_stop_list idx l = Ok l' -> List.length l' = List.length l.
Proof.
  induction l as [|d l IH]; intros idx l' H; cbn in H; [now injection H as <-|].
  apply bind_ok in H. destruct H as (d' & H1 & H). apply bind_ok in H. destruct H as (r & H2 & H). injection H as <-.
  cbn. f_equal. eapply IH. exact H2.
Qed.
Lemma resolve_visit_len : keeps_length resolve_stop_visit.
Proof.
  intros d l d' l' H. unfold resolve_stop_visit in H. destruct (is_grad d); [|now injection H as <- <-].
  apply bind_ok in H. destruct H as (r & H1 & H). injection H as <- <-. eapply resolve_list_length. exact H1.
Qed.
Lemma resolved_same b d d' : resolved_stop b d d' -> same_node d d'.
Proof. intros H. apply H. Qed.
Lemma resolved_stops_same l l' : resolved_stops l l' -> Forall2 same_node l l'.
Proof. intros [|d d' k k' H F]; constructor; [apply H|]. eapply Forall2_impl; [|exact F]. intros x y X. apply X. Qed.
Lemma Forall2_same_refl l : Forall2 same_node l l.
Proof. induction l; constructor; auto using same_node_refl. Qed.
Lemma resolve_visit_Q : forall d l d' l', resolve_stop_visit d l = Ok (d', l') -> Forall2 same_node l l'.
Proof.
  intros d l d' l' H. unfold resolve_stop_visit in H. destruct (is_grad d).
  - apply bind_ok in H. destruct H as (r & H1 & H). injection H as <- <-. apply resolved_stops_same, resolve_list0_ok, H1.
  - injection H as <- <-. apply Forall2_same_refl.
Qed.

(** * Fixing *)
Lemma fix_stops_length l : forall p l', fix_stops p l = Ok l' -> List.length l' = List.length l.
Proof.
  induction l as [|d l IH]; intros p l' H; cbn in H; [now injection H as <-|].
  destruct (d_get d AOffset) as [[]|]; try discriminate. destruct l0 as [n []]; try discriminate.
  apply bind_ok in H. destruct H as (r & H1 & H). injection H as <-. cbn. f_equal. eapply IH. exact H1.
Qed.
Lemma fix_stops_fail l : forall p, (forall e, fix_stops p l <> Err e) /\
  (fix_stops p l = Panic <-> exists d, In d l /\ forall n, ~ offset_number d n).
Proof.
  induction l as [|d l IH]; intros p; cbn.
  - split; [discriminate|]. split; [discriminate|]. intros (d & [] & _).
  - assert (Bad : (forall n, ~ offset_number d n) -> exists x, (d = x \/ In x l) /\ forall n, ~ offset_number x n) by eauto.
    unfold offset_number in *.
    assert (C : (exists n, d_get d AOffset = Some (VLen (Len n UNone))) \/ (forall n, d_get d AOffset <> Some (VLen (Len n UNone)))).
    { destruct (d_get d AOffset) as [v|]; [|right; discriminate].
      destruct v as [| | |[n []]| | | | | | |]; try (right; intros; discriminate). left. eauto. }
    destruct C as [(n & E)|C].
    + rewrite E. set (o := if qltb (if qltb n q0 then q0 else if qltb q1 n then q1 else n) p then p else if qltb n q0 then q0 else if qltb q1 n then q1 else n).
      destruct (IH o) as [I1 I2]. split.
      * intros e H. apply bind_err in H. destruct H as [H|(r & _ & H)]; [now apply I1 in H|discriminate].
      * split.
        -- intros H. apply bind_panic in H. destruct H as [H|(r & _ & H)]; [|discriminate]. apply I2 in H.
           destruct H as (x & Hx & H). exists x. auto.
        -- intros (x & [<-|Hx] & H); [now apply H in E|]. assert (X : fix_stops o l = Panic) by (apply I2; eauto). now rewrite X.
    + assert (X : match d_get d AOffset with
        | Some (VLen (Len n UNone)) => bind (fix_stops (if qltb (if qltb n q0 then q0 else if qltb q1 n then q1 else n) p then p else if qltb n q0 then q0 else if qltb q1 n then q1 else n) l)
            (fun r => Ok (d_set d AOffset (number (if qltb (if qltb n q0 then q0 else if qltb q1 n then q1 else n) p then p else if qltb n q0 then q0 else if qltb q1 n then q1 else n)) :: r))
        | _ => Panic end = Panic).
      { destruct (d_get d AOffset) as [v|]; [|reflexivity]. destruct v as [| | |[n []]| | | | | | |]; try reflexivity. now specialize (C n). }
      rewrite X. split; [discriminate|]. split; [|reflexivity]. intros _. exists d. auto.
Qed.
(** Clamped and running maximum. *)
Definition clamp (n : Qc) : Qc := if qltb n q0 then q0 else if qltb q1 n then q1 else n.
Definition qmax (p o : Qc) : Qc := if qltb o p then p else o.
Lemma clamp_spec n : clamped n (clamp n).
Proof.
  unfold clamped, clamp. destruct (qltbP n q0); [auto|]. destruct (qltbP q1 n); [auto|].
  right. left. unfold q0, q1 in *. repeat split; qlra.
Qed.
Lemma clamp_range n : (q0 <= clamp n)%Qc /\ (clamp n <= q1)%Qc.
Proof.
  unfold clamp. destruct (qltbP n q0); [unfold q0, q1; split; qlra|]. destruct (qltbP q1 n); unfold q0, q1 in *; split; qlra.
Qed.
Lemma qmax_l p o : (p <= qmax p o)%Qc. Proof. unfold qmax. destruct (qltbP o p); qlra. Qed.
Lemma qmax_r p o : (o <= qmax p o)%Qc. Proof. unfold qmax. destruct (qltbP o p); qlra. Qed.
Fixpoint maxes (p : Qc) (l : list Qc) : list Qc :=
  match l with [] => [] | n :: l' => let o := qmax p (clamp n) in o :: maxes o l' end.
Lemma fix_stops_ok l : forall p l', fix_stops p l = Ok l' ->
  exists ns, Forall2 offset_number l ns /\
    Forall2 (fun d r => snd r = d_set d AOffset (number (fst r))) l (combine (maxes p ns) l') /\ List.length (maxes p ns) = List.length l'.
Proof.
  induction l as [|d l IH]; intros p l' H; cbn in H.
  - injection H as <-. exists []. repeat split; constructor.
  - destruct (d_get d AOffset) as [v|] eqn:E; [|discriminate]. destruct v as [| | |[n []]| | | | | | |]; try discriminate.
    apply bind_ok in H. destruct H as (r & H1 & H).
    fold (clamp n) in H1, H. fold (qmax p (clamp n)) in H1, H. injection H as <-.
    destruct (IH _ _ H1) as (ns & N1 & N2 & N3). exists (n :: ns). split; [constructor; [exact E|exact N1]|]. cbn. split; [|now f_equal].
    constructor; [reflexivity|exact N2].
Qed.
Lemma maxes_spec p l : ascending p (maxes p l) /\ ((p <= q1)%Qc -> Forall (fun o => (o <= q1)%Qc) (maxes p l)).
Proof.
  revert p. induction l as [|n l IH]; intros p; cbn; [split; [constructor|constructor]|].
  destruct (IH (qmax p (clamp n))) as [I1 I2]. split; [constructor; [apply qmax_l|exact I1]|].
  intros Hp. assert (X : (qmax p (clamp n) <= q1)%Qc) by (unfold qmax; destruct (qltb (clamp n) p); [exact Hp|apply clamp_range]).
  constructor; auto.
Qed.
Lemma maxes_running l : forall p i o, nth_error (maxes p l) i = Some o ->
  (o = p \/ exists j, j <= i /\ nth_error (map clamp l) j = Some o) /\ (p <= o)%Qc /\
  (forall j c, j <= i -> nth_error (map clamp l) j = Some c -> (c <= o)%Qc).
Proof.
  induction l as [|n l IH]; intros p i o H; [now destruct i|]. cbn in *. destruct i as [|i]; cbn in H.
  - injection H as <-. split; [|split; [apply qmax_l|]].
    + unfold qmax. destruct (qltb (clamp n) p); [now left|right]. exists 0. auto.
    + intros j c Hj Hc. assert (j = 0) by lia. subst j. injection Hc as <-. apply qmax_r.
  - destruct (IH _ _ _ H) as (I1 & I2 & I3). split; [|split].
    + destruct I1 as [->|(j & Hj & E)].
      * unfold qmax. destruct (qltb (clamp n) p); [now left|right]. exists 0. split; [lia|reflexivity].
      * right. exists (S j). split; [lia|exact E].
    + pose proof (qmax_l p (clamp n)). qlra.
    + intros j c Hj Hc. destruct j as [|j]; cbn in Hc.
      * injection Hc as <-. pose proof (qmax_r p (clamp n)). qlra.
      * apply (I3 j); [lia|exact Hc].
Qed.
Lemma maxes_length p l : List.length (maxes p l) = List.length l.
Proof. revert p. induction l; intros p; cbn; auto. Qed.
Lemma maxes_running_max l : running_max (map clamp l) (maxes q0 l).
Proof.
  split; [now rewrite maxes_length, map_length|]. intros i o H. destruct (maxes_running l q0 i o H) as (I1 & I2 & I3). split; [|exact I3].
  destruct I1 as [->|I1]; [|exact I1]. exists 0. split; [lia|]. destruct l as [|n l]; [now destruct i|]. cbn. f_equal.
  assert (X : (clamp n <= q0)%Qc) by (apply (I3 0); [lia|reflexivity]). pose proof (clamp_range n) as [Y _]. apply Qc_is_canon. unfold Qcle in *. lra.
Qed.
Lemma maxes_id p l : ascending p l -> Forall (fun o => (o <= q1)%Qc) l -> (q0 <= p)%Qc -> maxes p l = l.
Proof.
  intros A F Hp. induction A as [x|x y l Hxy A IH]; [reflexivity|]. inversion F as [|? ? F1 F2]; subst. cbn.
  assert (E : clamp y = y).
  { unfold clamp. destruct (qltbP y q0); [exfalso; unfold q0 in *; qlra|]. destruct (qltbP q1 y); [exfalso; unfold q1 in *; qlra|reflexivity]. }
  rewrite E. assert (M : qmax x y = y) by (unfold qmax; destruct (qltbP y x); [exfalso; qlra|reflexivity]).
  rewrite M. f_equal. apply IH; [exact F2|]. unfold q0 in *. qlra.
Qed.

(** Rectangles *)
Lemma fix_len_get d a b : a <> b -> get_attr (attrs (fix_len d a)) b = get_attr (attrs d) b.
Proof. intros H. unfold fix_len. destruct (d_has d a); [destruct (negative _)|]; try reflexivity; now apply get_set_other. Qed.
Lemma rm_neg_get d a b : a <> b -> get_attr (attrs (rm_negative_len d a)) b = get_attr (attrs d) b.
Proof. intros H. unfold rm_negative_len. destruct (negative _); [now apply get_rm_other|reflexivity]. Qed.
Lemma negative_false v : negative v = false <-> not_negative v.
Proof.
  unfold negative, not_negative. destruct v as [[]|]; try (split; [intros _ l0 X; discriminate|reflexivity]).
  destruct (qltbP (num l) q0); split; try discriminate.
  - intros X. exfalso. specialize (X l eq_refl). unfold q0 in *. qlra.
  - intros _ l0 [= <-]. unfold q0 in *. qlra.
  - reflexivity.
Qed.
Lemma not_neg_zero : not_negative (Some (number q0)).
Proof. intros l [= <-]. cbn. unfold q0. qlra. Qed.
Lemma get_ext d d' a : get_attr (attrs d') a = get_attr (attrs d) a -> d_get d' a = d_get d a.
Proof. unfold d_get, get_value. now intros ->. Qed.
Lemma fix_len_same d a : d_has (fix_len d a) a = true /\ not_negative (d_get (fix_len d a) a).
Proof.
  unfold fix_len. destruct (d_has d a) eqn:E; [destruct (negative (d_get d a)) eqn:F|].
  - rewrite d_has_set_same, d_get_set_same. split; [reflexivity|apply not_neg_zero].
  - split; [exact E|now apply negative_false].
  - rewrite d_has_set_same, d_get_set_same. split; [reflexivity|apply not_neg_zero].
Qed.
Lemma rm_neg_same d a : not_negative (d_get (rm_negative_len d a) a).
Proof.
  unfold rm_negative_len. destruct (negative (d_get d a)) eqn:F; [rewrite d_get_rm_same; intros l; discriminate|now apply negative_false].
Qed.
Lemma fix_rect_get d b : ~ In b [AWidth; AHeight; ARx; ARy] -> get_attr (attrs (fix_rect_attributes d)) b = get_attr (attrs d) b.
Proof.
  intros H. unfold fix_rect_attributes. cbn in H.
  rewrite !rm_neg_get, !fix_len_get; try reflexivity; intros <-; apply H; auto 6.
Qed.
Lemma fix_rect_at d :
  get_attr (attrs (fix_rect_attributes d)) AWidth = get_attr (attrs (fix_len d AWidth)) AWidth /\
  get_attr (attrs (fix_rect_attributes d)) AHeight = get_attr (attrs (fix_len d AHeight)) AHeight /\
  get_attr (attrs (fix_rect_attributes d)) ARx = get_attr (attrs (rm_negative_len d ARx)) ARx /\
  get_attr (attrs (fix_rect_attributes d)) ARy = get_attr (attrs (rm_negative_len d ARy)) ARy.
Proof.
  assert (FL : forall d1 d2 a, get_attr (attrs d1) a = get_attr (attrs d2) a -> get_attr (attrs (fix_len d1 a)) a = get_attr (attrs (fix_len d2 a)) a).
  { intros d1 d2 a E. unfold fix_len, d_has, has_attr. rewrite E, (get_ext d2 d1 a E).
    destruct (get_attr (attrs d2) a) eqn:X; [|unfold d_set; cbn [attrs with_attrs]; now rewrite !get_set_same].
    destruct (negative _); [unfold d_set; cbn [attrs with_attrs]; now rewrite !get_set_same|congruence]. }
  assert (RL : forall d1 d2 a, get_attr (attrs d1) a = get_attr (attrs d2) a -> get_attr (attrs (rm_negative_len d1 a)) a = get_attr (attrs (rm_negative_len d2 a)) a).
  { intros d1 d2 a E. unfold rm_negative_len. rewrite (get_ext d2 d1 a E). destruct (negative _); [unfold d_rm; cbn [attrs with_attrs]; now rewrite !get_rm_same|exact E]. }
  unfold fix_rect_attributes. repeat split.
  - rewrite !rm_neg_get, fix_len_get by discriminate. reflexivity.
  - rewrite !rm_neg_get by discriminate. apply FL. now rewrite fix_len_get by discriminate.
  - rewrite rm_neg_get by discriminate. apply RL. now rewrite !fix_len_get by discriminate.
  - apply RL. now rewrite rm_neg_get, !fix_len_get by discriminate.
Qed.
Lemma has_ext d d' a : get_attr (attrs d') a = get_attr (attrs d) a -> d_has d' a = d_has d a.
Proof. unfold d_has, has_attr. now intros ->. Qed.
Lemma valid_rect_ext d d' : (forall a, In a [AWidth; AHeight; ARx; ARy] -> get_attr (attrs d') a = get_attr (attrs d) a) -> valid_rect d -> valid_rect d'.
Proof.
  intros H (V1 & V2 & V3). split; [|split].
  - rewrite (has_ext d) by (apply H; cbn; auto). exact V1.
  - rewrite (has_ext d) by (apply H; cbn; auto). exact V2.
  - intros a Ha. rewrite (get_ext d) by (apply H; exact Ha). auto.
Qed.
Lemma fix_rect_valid d : valid_rect (fix_rect_attributes d).
Proof.
  destruct (fix_rect_at d) as (E1 & E2 & E3 & E4).
  split; [|split]; [rewrite (has_ext _ _ _ E1); apply fix_len_same|rewrite (has_ext _ _ _ E2); apply fix_len_same|].
  intros a Ha. cbn in Ha. destruct Ha as [<-|[<-|[<-|[<-|[]]]]].
  - rewrite (get_ext _ _ _ E1). apply fix_len_same.
  - rewrite (get_ext _ _ _ E2). apply fix_len_same.
  - rewrite (get_ext _ _ _ E3). apply rm_neg_same.
  - rewrite (get_ext _ _ _ E4). apply rm_neg_same.
Qed.
Lemma fix_rect_noop d : valid_rect d -> fix_rect_attributes d = d.
Proof.
  intros (V1 & V2 & V3). unfold fix_rect_attributes.
  assert (F1 : fix_len d AWidth = d) by (unfold fix_len; rewrite V1, (proj2 (negative_false _) (V3 AWidth ltac:(cbn; auto))); reflexivity).
  assert (F2 : fix_len d AHeight = d) by (unfold fix_len; rewrite V2, (proj2 (negative_false _) (V3 AHeight ltac:(cbn; auto))); reflexivity).
  rewrite F1, F2. unfold rm_negative_len.
  rewrite (proj2 (negative_false _) (V3 ARx ltac:(cbn; auto))), (proj2 (negative_false _) (V3 ARy ltac:(cbn; auto))). reflexivity.
Qed.

(** Polylines *)
Lemma map_value_get_same d a v x : get_attr (attrs d) a = Some x -> get_attr (attrs (map_value d a v)) a = Some (At (a_name x) v (a_vis x)).
Proof.
  unfold map_value, get_attr. cbn. induction (attrs d) as [|y l IH]; cbn; [discriminate|].
  destruct (has_name (AN a) y) eqn:E.
  - intros [= ->]. assert (X : has_name (AN a) (At (a_name x) v (a_vis x)) = true).
    { apply has_name_true. cbn. now apply has_name_true in E. }
    now rewrite X.
  - rewrite E. exact IH.
Qed.
Lemma map_value_get_other d a b v : a <> b -> get_attr (attrs (map_value d a v)) b = get_attr (attrs d) b.
Proof.
  intros H. unfold map_value, get_attr. cbn. induction (attrs d) as [|y l IH]; cbn; [reflexivity|].
  destruct (has_name (AN a) y) eqn:E.
  - apply has_name_true in E. rewrite !(proj2 (has_name_false (AN b) _)) by (cbn; congruence). exact IH.
  - destruct (has_name (AN b) y); [reflexivity|exact IH].
Qed.
Lemma removelast_length {A} (l : list A) : List.length (removelast l) = Nat.pred (List.length l).
Proof. induction l as [|x [|y l] IH]; [reflexivity|reflexivity|]. cbn in *. now rewrite IH. Qed.
(** The new value of [points]. *)
Definition paired (l : list Qc) : list Qc := if Nat.odd (List.length l) then removelast l else l.
Lemma paired_even l : Nat.even (List.length (paired l)) = true.
Proof.
  unfold paired. destruct (Nat.odd (List.length l)) eqn:E; [|rewrite <- Nat.negb_odd, E; reflexivity].
  rewrite removelast_length. destruct (List.length l) as [|n]; [discriminate|]. cbn. now rewrite <- Nat.odd_succ.
Qed.
Lemma fix_poly_get d : d_get (fix_poly_attributes d) APoints =
  match d_get d APoints with
  | Some (VNumList l) => match paired l with [] => None | l' => Some (VNumList l') end
  | v => v
  end.
Proof.
  unfold fix_poly_attributes. destruct (d_get d APoints) as [v|] eqn:E; [|exact E]. destruct v; try exact E.
  fold (paired l). destruct (paired l) as [|x l'] eqn:P; [apply d_get_rm_same|].
  destruct (Nat.odd (List.length l)) eqn:O.
  - unfold d_get, get_value in *. destruct (get_attr (attrs d) APoints) as [y|] eqn:G; [|discriminate].
    rewrite (map_value_get_same _ _ _ _ G). reflexivity.
  - rewrite E. unfold paired in P. rewrite O in P. now rewrite P.
Qed.
Lemma fix_poly_other d b : b <> APoints -> get_attr (attrs (fix_poly_attributes d)) b = get_attr (attrs d) b.
Proof.
  intros H. unfold fix_poly_attributes. destruct (d_get d APoints) as [v|]; [|reflexivity]. destruct v; try reflexivity.
  fold (paired l).
  assert (G : get_attr (attrs (if Nat.odd (List.length l) then map_value d APoints (VNumList (paired l)) else d)) b = get_attr (attrs d) b).
  { destruct (Nat.odd (List.length l)); [|reflexivity]. apply map_value_get_other. congruence. }
  destruct (paired l); [|exact G]. rewrite <- G. apply get_rm_other. congruence.
Qed.
Lemma fix_poly_valid d : valid_poly (fix_poly_attributes d).
Proof.
  intros l. rewrite fix_poly_get. destruct (d_get d APoints) as [v|]; [|discriminate]. destruct v; try discriminate.
  destruct (paired l0) as [|x l'] eqn:P; [discriminate|]. intros [= <-]. split; [discriminate|]. rewrite <- P. apply paired_even.
Qed.
Lemma fix_poly_noop d : valid_poly d -> fix_poly_attributes d = d.
Proof.
  intros V. unfold fix_poly_attributes. destruct (d_get d APoints) as [v|] eqn:E; [|reflexivity]. destruct v; try reflexivity.
  destruct (V l E) as [V1 V2]. rewrite <- Nat.negb_even, V2. cbn. destruct l; [contradiction|reflexivity].
Qed.

(** * The fixing pass on documents *)
Definition same_but (l : list aid) (d d' : ndata) : Prop :=
  same_node d d' /\ forall b, ~ In b l -> get_attr (attrs d') b = get_attr (attrs d) b.
Lemma same_but_refl l d : same_but l d d. Proof. split; [apply same_node_refl|reflexivity]. Qed.
Lemma fix_visit_len : keeps_length fix_visit.
Proof.
  intros d l d' l' H. unfold fix_visit in H. destruct (tag d) as [|e| | | |]; try (injection H as <- <-; reflexivity).
  destruct e; try (injection H as <- <-; reflexivity);
    (apply bind_ok in H; destruct H as (r & H1 & H); injection H as <- <-; eapply fix_stops_length; exact H1).
Qed.
Lemma fix_stops_but l : forall p l', fix_stops p l = Ok l' -> Forall2 (same_but [AOffset]) l l'.
Proof.
  induction l as [|d l IH]; intros p l' H; cbn in H; [injection H as <-; constructor|].
  destruct (d_get d AOffset) as [v|]; [|discriminate]. destruct v as [| | |[n []]| | | | | | |]; try discriminate.
  apply bind_ok in H. destruct H as (r & H1 & H). injection H as <-. constructor; [|eapply IH; exact H1].
  split; [apply sn_with|]. intros b Hb. apply get_set_other. intros <-. apply Hb. left. reflexivity.
Qed.
Lemma Forall2_refl {A} (P : A -> A -> Prop) l : (forall x, P x x) -> Forall2 P l l.
Proof. intros H. induction l; constructor; auto. Qed.
Lemma fix_visit_Q : forall d l d' l', fix_visit d l = Ok (d', l') -> Forall2 (same_but [AOffset]) l l'.
Proof.
  intros d l d' l' H. unfold fix_visit in H.
  assert (R : Forall2 (same_but [AOffset]) l l) by (apply Forall2_refl, same_but_refl).
  destruct (tag d) as [|e| | | |]; try (injection H as <- <-; exact R).
  destruct e; try (injection H as <- <-; exact R);
    (apply bind_ok in H; destruct H as (r & H1 & H); injection H as <- <-; eapply fix_stops_but; exact H1).
Qed.
Lemma fix_rect_node d : same_node d (fix_rect_attributes d).
Proof.
  unfold fix_rect_attributes, rm_negative_len, fix_len.
  repeat match goal with |- context [if ?b then _ else _] => destruct b end; repeat split.
Qed.
Lemma fix_poly_node d : same_node d (fix_poly_attributes d).
Proof.
  unfold fix_poly_attributes. destruct (d_get d APoints) as [[]|]; try apply same_node_refl.
  destruct (Nat.odd (List.length l)); [destruct (removelast l)|destruct l]; repeat split.
Qed.
(** The visit of a node itself: no attribute but those of rectangles and polylines. *)
Lemma fix_visit_self d l d' l' : fix_visit d l = Ok (d', l') ->
  same_node d d' /\
  (forall b, ~ In b [AWidth; AHeight; ARx; ARy; APoints] -> get_attr (attrs d') b = get_attr (attrs d) b) /\
  (tag d <> TEl ERect -> forall b, b <> APoints -> get_attr (attrs d') b = get_attr (attrs d) b) /\
  (tag d <> TEl EPolyline -> tag d <> TEl EPolygon -> get_attr (attrs d') APoints = get_attr (attrs d) APoints) /\
  (tag d = TEl ERect -> d' = fix_rect_attributes d) /\
  (tag d = TEl EPolyline \/ tag d = TEl EPolygon -> d' = fix_poly_attributes d) /\
  (tag d <> TEl ELinearGradient -> tag d <> TEl ERadialGradient -> l' = l) /\
  (tag d = TEl ELinearGradient \/ tag d = TEl ERadialGradient -> fix_stops q0 l = Ok l' /\ d' = d).
Proof.
  intros H. unfold fix_visit in H.
  assert (Same : d' = d /\ l' = l /\ tag d <> TEl ERect /\ tag d <> TEl EPolyline /\ tag d <> TEl EPolygon /\ tag d <> TEl ELinearGradient /\ tag d <> TEl ERadialGradient \/
    tag d = TEl ERect /\ d' = fix_rect_attributes d /\ l' = l \/
    (tag d = TEl EPolyline \/ tag d = TEl EPolygon) /\ d' = fix_poly_attributes d /\ l' = l \/
    (tag d = TEl ELinearGradient \/ tag d = TEl ERadialGradient) /\ d' = d /\ fix_stops q0 l = Ok l').
  { destruct (tag d) as [|e| | | |]; try (injection H as <- <-; left; repeat split; discriminate).
    destruct e; try (injection H as <- <-; left; repeat split; discriminate).
    - apply bind_ok in H. destruct H as (r & H1 & H). injection H as <- <-. auto 8.
    - injection H as <- <-. auto 8.
    - injection H as <- <-. auto 8.
    - apply bind_ok in H. destruct H as (r & H1 & H). injection H as <- <-. auto 8.
    - injection H as <- <-. auto 8. }
  clear H. destruct Same as [(-> & -> & N1 & N2 & N3 & N4 & N5)|[(T1 & -> & ->)|[(T1 & -> & ->)|(T1 & -> & E)]]].
  - repeat split; try tauto.
  - split; [apply fix_rect_node|]. rewrite T1. repeat split; try tauto; try (intros [|]; discriminate); try congruence.
    + intros b Hb. apply fix_rect_get. cbn in *. tauto.
    + intros _ _. apply fix_rect_get. cbn. intuition discriminate.
    + destruct H; discriminate.
    + destruct H; discriminate.
  - split; [apply fix_poly_node|].
    assert (NR : tag d <> TEl ERect) by (destruct T1 as [-> | ->]; discriminate).
    assert (NG : tag d <> TEl ELinearGradient /\ tag d <> TEl ERadialGradient) by (destruct T1 as [-> | ->]; split; discriminate).
    repeat split; try tauto.
    + intros b Hb. apply fix_poly_other. intros ->. apply Hb. cbn. tauto.
    + intros _ b Hb. now apply fix_poly_other.
  - assert (N : tag d <> TEl ERect /\ tag d <> TEl EPolyline /\ tag d <> TEl EPolygon) by (destruct T1 as [-> | ->]; repeat split; discriminate).
    repeat split; try tauto.
Qed.
Lemma fix_marker_get d b : b <> AMarker -> get_attr (attrs (if d_has d AMarker then d_rm d AMarker else d)) b = get_attr (attrs d) b.
Proof. intros H. destruct (d_has d AMarker); [apply get_rm_other; congruence|reflexivity]. Qed.
Lemma fix_marker_none d : get_attr (attrs (if d_has d AMarker then d_rm d AMarker else d)) AMarker = None.
Proof. destruct (d_has d AMarker) eqn:E; [apply get_rm_same|now apply d_has_false]. Qed.
