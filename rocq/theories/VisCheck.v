(** A check for the conditions of C28, for instances. *)
From Coq Require Import List Bool NArith Arith ZArith String Lia QArith Qcanon.
From Verif Require Import Names Num Value Dom DomFacts DomOps AttrFacts SpecDom SpecText SpecWritten MoveFacts UseStep Push SpecVisible VisKeep WfAll Props_wf.
Import ListNotations.
Local Open Scope nat_scope.

Definition imp (a b : bool) : bool := negb a || b.
Lemma imp_true a b : imp a b = true -> a = true -> b = true. Proof. now destruct a, b. Qed.
Definition grad_b (d : ndata) : bool := tagged ELinearGradient d || tagged ERadialGradient d.
Lemma grad_b_iff d : grad_b d = true <-> gradient_node d.
Proof. unfold grad_b, gradient_node. now rewrite orb_true_iff, !tagged_iff. Qed.
Definition links_to (k : nat) (x : attr) : bool := match link_of (a_val x) with Some j => j =? k | None => false end.
Lemma links_to_iff k x : links_to k x = true <-> link_of (a_val x) = Some k.
Proof. unfold links_to. destruct (link_of (a_val x)) as [j|]; [rewrite Nat.eqb_eq|]; split; congruence. Qed.
Definition refers_b (d : ndata) (k : nat) : bool := existsb (links_to k) (attrs d).
Lemma refers_b_iff d k : refers_b d k = true <-> refers_to d k.
Proof. unfold refers_b, refers_to. rewrite existsb_exists. split; intros (x & Hx & E); exists x; (split; [exact Hx|]); now apply links_to_iff. Qed.
Definition is_func (v : value) (k : nat) : bool := match v with VFunc j => j =? k | _ => false end.
Definition is_vlink (v : value) (k : nat) : bool := match v with VLink j => j =? k | _ => false end.
Lemma is_func_iff v k : is_func v k = true -> v = VFunc k. Proof. destruct v; cbn; try discriminate. now intros ->%Nat.eqb_eq. Qed.
Lemma is_vlink_iff v k : is_vlink v k = true -> v = VLink k. Proof. destruct v; cbn; try discriminate. now intros ->%Nat.eqb_eq. Qed.
Definition kind_b (d : ndata) (k : kind) : bool := match kind_of d, k with KLeaf, KLeaf | KBox, KBox | KUse, KUse | KSymbol, KSymbol | KOther, KOther => true | _, _ => false end.
Lemma kind_b_iff d k : kind_b d k = true <-> kind_of d = k. Proof. unfold kind_b. destruct (kind_of d), k; split; congruence. Qed.
Definition link_ok_b (d : ndata) (x : attr) (n : ndata) : bool :=
  match a_name x with
  | AN AClipPath => is_func (a_val x) (key n) && tagged EClipPath n
  | AN AFilter => is_func (a_val x) (key n) && tagged EFilter n
  | AN AMask => tagged EMask n
  | AN AMarkerStart | AN AMarkerMid | AN AMarkerEnd => tagged EMarker n
  | AN AFill | AN AStroke => is_func (a_val x) (key n) && (grad_b n || tagged EPattern n)
  | AN AXlinkHref => is_vlink (a_val x) (key n) && negb (tagged EClipPath n) && negb (tagged EFilter n) &&
      (grad_b d && grad_b n || tagged EPattern d && tagged EPattern n ||
       negb (grad_b n) && (kind_b d KUse || tagged ETextPath d ||
         kind_b d KOther && negb (inner d) && negb (tagged EClipPath d) && negb (tagged EFilter d) && negb (grad_b d)))
  | _ => false
  end.
Lemma tagged_not e d : tagged e d = false -> tag d <> TEl e. Proof. intros E X. apply tagged_iff in X. congruence. Qed.
Lemma grad_not d : grad_b d = false -> ~ gradient_node d. Proof. intros E X. apply grad_b_iff in X. congruence. Qed.
Lemma link_ok_b_spec d x n : link_ok_b d x n = true -> link_ok d x n.
Proof.
  unfold link_ok_b, link_ok. destruct (a_name x) as [[]|]; try discriminate; try (rewrite !tagged_iff; auto; fail);
    try (rewrite andb_true_iff, tagged_iff; intros [H1 H2]; apply is_func_iff in H1; auto; fail);
    try (rewrite andb_true_iff, orb_true_iff, tagged_iff, grad_b_iff; intros [H1 H2]; apply is_func_iff in H1; auto; fail).
  rewrite !andb_true_iff, !negb_true_iff. intros (((H1 & H2) & H3) & H). apply is_vlink_iff in H1. split; [assumption|]. split; [now apply tagged_not|]. split; [now apply tagged_not|].
  apply orb_true_iff in H. destruct H as [H|H]; [apply orb_true_iff in H; destruct H as [H|H]; [left|right; left]; apply andb_true_iff in H; rewrite ?grad_b_iff, ?tagged_iff in H; exact H|right; right].
  apply andb_true_iff in H. destruct H as [H4 H]. apply negb_true_iff in H4. split; [now apply grad_not|]. apply orb_true_iff in H. destruct H as [H|H]; [apply orb_true_iff in H; destruct H as [H|H]; [left; now apply kind_b_iff|right; left; now apply tagged_iff]|right; right].
  rewrite !andb_true_iff, !negb_true_iff in H. destruct H as ((((H & I1) & I2) & I3) & I4). split; [now apply kind_b_iff|]. auto using tagged_not, grad_not.
Qed.
Definition closed_b (t s : tree) : bool := forallb (fun d => forallb (fun e => imp (refers_b e (key d)) (existsb (Nat.eqb (key e)) (keys s))) (flat t)) (flat s).
Lemma closed_b_spec t s : NoDup (keys t) -> In s (subs t) -> closed_b t s = true -> closed t s.
Proof.
  intros N Hs H d e Hd He R. unfold closed_b in H. rewrite forallb_forall in H. specialize (H d Hd). cbn beta in H. rewrite forallb_forall in H. specialize (H e He). cbn beta in H. apply refers_b_iff in R. apply (imp_true _ _ H) in R. apply existsb_exists in R. destruct R as (j & Hj & E). apply Nat.eqb_eq in E. subst j.
  unfold keys in Hj. apply in_map_iff in Hj. destruct Hj as (e' & E & He'). assert (e' = e); [|now subst]. apply (data_unique t); auto. rewrite <- map_data_subs in He' |- *. apply in_map_iff in He'. destruct He' as (z & <- & Hz). apply in_map. exact (subs_trans t s z Hs Hz).
Qed.
Definition is_funcv (o : option value) : bool := match o with Some (VFunc _) => true | _ => false end.
Lemma is_funcv_not o : is_funcv o = false -> forall k, o <> Some (VFunc k). Proof. intros E k ->. discriminate. Qed.
Definition none_b (o : option value) : bool := match o with None => true | _ => false end.
Lemma none_b_iff o : none_b o = true -> o = None. Proof. now destruct o. Qed.
Definition ready_b (t : tree) : bool :=
  match tag (data t) with TRoot => true | _ => false end &&
  match attrs (data t) with [] => true | _ => false end &&
  forallb (fun d => negb (tagged ESwitch d) && negb (tagged ETref d)) (flat t) &&
  forallb (fun d => forallb (fun x => forallb (fun n => imp (links_to (key n) x) (link_ok_b d x n)) (flat t)) (attrs d)) (flat t) &&
  forallb (fun s => imp (tagged EPath (data s) || tagged ERect (data s) || tagged EUse (data s) || tagged EFilter (data s) || grad_b (data s))
    (forallb (fun c => forallb (fun d => forallb (fun e => negb (refers_b e (key d))) (flat t)) (flat c)) (kids s))) (subs t) &&
  forallb (fun s => imp (tagged EFilter (data s) || grad_b (data s)) (forallb (fun c =>
    kind_b (data c) KOther && displays (data c) && negb (tagged EClipPath (data c)) && negb (tagged EFilter (data c)) && negb (tagged EDefs (data c)) && negb (grad_b (data c)) &&
    negb (is_funcv (d_get (data c) AClipPath)) && negb (is_funcv (d_get (data c) AFilter))) (kids s))) (subs t) &&
  forallb (fun s => imp (tagged EClipPath (data s)) (forallb (fun c => negb (is_funcv (d_get (data c) AClipPath)) && negb (is_funcv (d_get (data c) AFilter))) (kids s))) (subs t) &&
  forallb (fun s => imp (dead t (data s)) (closed_b t s)) (subs t) &&
  forallb (fun s => imp (tagged EClipPath (data s)) (forallb (fun c => imp (negb (clip_shape_el (data c))) (closed_b t c)) (kids s))) (subs t) &&
  forallb (fun s => imp (tagged EFilter (data s)) (negb (d_has (data s) AXlinkHref))) (subs t) &&
  forallb (fun s => imp (tagged EFilter (data s)) (match kids s with [c] => imp (tagged EFeColorMatrix (data c)) (forallb (fun a => none_b (d_get (data c) a)) [AIn; AX; AY; AWidth; AHeight]) | _ => true end)) (subs t) &&
  forallb (fun s => imp (grad_b (data s) && (List.length (kids s) <=? 1) && negb (d_has (data s) AXlinkHref)) (forallb (fun d => imp (grad_b d) (negb (refers_b d (root_key s)))) (flat t))) (subs t) &&
  forallb (fun s => match kids s with [c] =>
    imp (grad_b (data s) && negb (d_has (data s) AXlinkHref)) match d_get (data c) AStopOpacity with Some (VNum o) =>
      imp (negb (qeqb o q1)) (forallb (fun d => forallb (fun a => imp (match d_get d a with Some v => is_func v (root_key s) | None => false end)
        (kind_b d KLeaf && none_b (d_get d (opacity_attr a)) && forallb (fun e => imp (negb (kind_b e KLeaf)) (none_b (d_get e (opacity_attr a)))) (flat t))) [AFill; AStroke]) (flat t)) | _ => true end
    | _ => true end) (subs t).
Ltac fa H := let Q := fresh "Q" in pose proof (proj1 (forallb_forall _ _) H) as Q; cbn beta in Q; clear H; rename Q into H.
Lemma ready_b_spec t : fine t -> ready_b t = true -> iready t.
Proof.
  intros F H. unfold ready_b in H. rewrite !andb_true_iff in H. destruct H as ((((((((((((H1 & H2) & H3) & H4) & H5) & H6) & H7) & H8) & H9) & H10) & H11) & H12) & H13).
  pose proof (wf_keys _ (fine_wf t F)) as N. fa H3. fa H4. fa H5. fa H6. fa H7. fa H8. fa H9. fa H10. fa H11. fa H12. fa H13.
  split.
  - apply F.
  - apply F.
  - destruct (tag (data t)), (attrs (data t)); try discriminate; auto.
  - intros d Hd. specialize (H3 d Hd). rewrite andb_true_iff, !negb_true_iff in H3. destruct H3; auto using tagged_not.
  - intros d x n Hd Hx Hn L. specialize (H4 d Hd). fa H4. specialize (H4 x Hx). fa H4. specialize (H4 n Hn). apply link_ok_b_spec. apply (imp_true _ _ H4). now apply links_to_iff.
  - intros s c d Hs Hc Hd K (e & He & R). specialize (H5 s Hs). assert (X : tagged EPath (data s) || tagged ERect (data s) || tagged EUse (data s) || tagged EFilter (data s) || grad_b (data s) = true) by (rewrite !orb_true_iff, !tagged_iff, grad_b_iff; tauto).
    apply (imp_true _ _ H5) in X. fa X. specialize (X c Hc). fa X. specialize (X d Hd). fa X. specialize (X e He). apply negb_true_iff in X. apply refers_b_iff in R. congruence.
  - intros s c Hs Hc K. specialize (H6 s Hs). assert (X : tagged EFilter (data s) || grad_b (data s) = true) by (rewrite !orb_true_iff, !tagged_iff, grad_b_iff; tauto).
    apply (imp_true _ _ H6) in X. fa X. specialize (X c Hc). rewrite !andb_true_iff, !negb_true_iff in X. destruct X as (((((((X1 & X2) & X3) & X4) & X5) & X6) & X7) & X8). apply kind_b_iff in X1. repeat split; auto using tagged_not, grad_not, is_funcv_not.
  - intros s c Hs Hc K. specialize (H7 s Hs). apply tagged_iff in K. apply (imp_true _ _ H7) in K. fa K. specialize (K c Hc). rewrite andb_true_iff, !negb_true_iff in K. destruct K; auto using is_funcv_not.
  - intros s Hs D. specialize (H8 s Hs). apply (imp_true _ _ H8) in D. now apply closed_b_spec.
  - intros s c Hs Hc K D. specialize (H9 s Hs). apply tagged_iff in K. apply (imp_true _ _ H9) in K. fa K. specialize (K c Hc). rewrite D in K. apply closed_b_spec; auto. exact (kid_sub s c t Hs Hc).
  - intros s Hs K. specialize (H10 s Hs). apply tagged_iff in K. apply (imp_true _ _ H10) in K. now apply negb_true_iff in K.
  - intros s c a Hs K Kd Tc Ha. specialize (H11 s Hs). apply tagged_iff in K. apply (imp_true _ _ H11) in K. rewrite Kd in K. apply tagged_iff in Tc. apply (imp_true _ _ K) in Tc. fa Tc. apply none_b_iff. now apply Tc.
  - intros s d Hs G L Nh Hd Gd R. specialize (H12 s Hs). assert (X : grad_b (data s) && (List.length (kids s) <=? 1) && negb (d_has (data s) AXlinkHref) = true) by (rewrite Nh, (proj2 (grad_b_iff _) G), (proj2 (Nat.leb_le _ _) L); reflexivity).
    apply (imp_true _ _ H12) in X. fa X. specialize (X d Hd). apply grad_b_iff in Gd. apply (imp_true _ _ X) in Gd. apply negb_true_iff in Gd. apply refers_b_iff in R. congruence.
  - intros s c o d a Hs G Kd Nh So No Hd Ha E. specialize (H13 s Hs). cbv beta in H13. rewrite Kd, Nh, (proj2 (grad_b_iff _) G), So in H13. cbn [negb andb] in H13. apply (fun X => imp_true _ _ X eq_refl) in H13.
    assert (Q : qeqb o q1 = false) by (destruct (qeqb_spec o q1) as [Q|Q]; [contradiction|reflexivity]). rewrite Q in H13. cbn [negb] in H13. apply (fun X => imp_true _ _ X eq_refl) in H13. fa H13. specialize (H13 d Hd). fa H13. specialize (H13 a Ha). rewrite E in H13. cbn [is_func] in H13. rewrite Nat.eqb_refl in H13.
    apply (fun X => imp_true _ _ X eq_refl) in H13. rewrite !andb_true_iff in H13. destruct H13 as ((A1 & A2) & A3). split; [now apply kind_b_iff|]. split; [now apply none_b_iff|]. intros e He Ne. fa A3. specialize (A3 e He). apply none_b_iff. apply (imp_true _ _ A3). apply negb_true_iff. destruct (kind_b e KLeaf) eqn:Ek; [|reflexivity]. apply kind_b_iff in Ek. contradiction.
Qed.
