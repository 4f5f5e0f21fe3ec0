(** Gradients without stops and with one stop. *)
From Coq Require Import List Bool NArith Arith ZArith String Lia QArith Qcanon.
From Verif Require Import Names Num Value Dom DomFacts DomOps DomRemove AttrFacts VLoop SpecDom SpecText SpecWritten Visit MoveFacts UseStep Push Stops GroupDefsEnd Props_stops GradTransProofs SpecVisible VisStep VisKeep VisInv Outcome RmUnusedDefs Props_defs RmInvisible VisPass VisPass2.
From Verif Require TransformsProofs.
Import ListNotations.
Local Open Scope nat_scope.

Lemma shown_tmap t f : iready t -> (forall d, key (f d) = key d) -> (forall d, tag (f d) = tag d) -> (forall d, In d (flat t) -> chg t [] d (f d)) -> attrs (f (data t)) = [] ->
  iready (tmap f t) /\ Shown t (tmap f t).
Proof.
  intros I Hk Ht Hc Ha. assert (E : tmap f t = sv (fresh t) f t). { unfold sv. rewrite detach_out; [reflexivity|]. rewrite keys_tmap by exact Hk. apply fresh_not. }
  rewrite E. apply (shown_sv t (fresh t) [] f); auto.
  - right. split; [apply fresh_not|reflexivity].
  - intros u c Hu _ Hk' Ek. exfalso. apply (fresh_not t). rewrite <- Ek. apply key_in_sub. exact (kid_sub u c t Hu Hk').
Qed.

(** ** The attributes that refer to a gradient *)
Lemma link_attrs_in k d a : In a (link_attrs k d) <-> exists x, In x (attrs d) /\ a_name x = AN a /\ link_of (a_val x) = Some k.
Proof.
  unfold link_attrs. rewrite in_flat_map. split.
  - intros (x & Hx & H). destruct (a_name x) as [b|] eqn:Nx; [|destruct H]. destruct (refers k x) eqn:R; [|destruct H]. destruct H as [<-|[]]. apply refers_iff in R. eauto.
  - intros (x & Hx & Nx & L). exists x. split; [exact Hx|]. rewrite Nx. apply refers_iff in L. rewrite L. now left.
Qed.
Definition grad_at (n : nat) (t : tree) (k : nat) : Prop := forall s, In s (subs t) -> root_key s = k -> gradient_node (data s) /\ List.length (kids s) = n /\ d_has (data s) AXlinkHref = false.
Lemma link_paint t n k d a : iready t -> n <= 1 -> grad_at n t k -> In d (flat t) -> In a (link_attrs k d) -> In a [AFill; AStroke] /\ d_get d a = Some (VFunc k) /\ exists s, In s (subs t) /\ root_key s = k.
Proof.
  intros I Ln Ga Hd H. apply link_attrs_in in H. destruct H as (x & Hx & Nx & L).
  assert (Hk : In k (keys t)). { apply (wf_links _ (i_wf _ I)). unfold targets. apply in_flat_map. exists d. split; [exact Hd|]. apply in_flat_map. exists x. split; [exact Hx|]. rewrite L. now left. }
  apply sub_of_key in Hk. destruct Hk as (s & Hs & <-). destruct (Ga s Hs eq_refl) as (G1 & G2 & G3). pose proof (i_links _ I d x (data s) Hd Hx (data_of_sub _ _ Hs) L) as Q. unfold link_ok in Q. rewrite Nx in Q.
  assert (B : In a [AFill; AStroke] /\ a_val x = VFunc (root_key s)).
  { destruct (aid_eqb_spec a AXlinkHref) as [->|Nh].
    - exfalso. destruct Q as (_ & _ & _ & [[Gd _]|[[_ Q]|[Q _]]]); [|unfold gradient_node in G1; destruct G1; congruence|contradiction]. apply (i_templates _ I s d); auto; [lia|]. exists x. auto.
    - unfold gradient_node in G1. change (key (data s)) with (root_key s) in Q. destruct a; try contradiction; try (exfalso; destruct G1 as [E|E]; rewrite E in Q; intuition discriminate); split; try tauto; cbn; tauto. }
  destruct B as [B1 B2]. split; [exact B1|]. split; [|exists s; auto]. unfold d_get, get_value. rewrite (get_attr_in (attrs d) x a); auto; [now rewrite B2|]. now apply (iready_attrs t).
Qed.

(** ** Two changes of nodes *)
Section Painted.
  Variables (t : tree) (k : nat) (f : ndata -> ndata).
  Hypothesis I : iready t.
  Hypothesis Hkey : forall d, key (f d) = key d.
  Hypothesis Htag : forall d, tag (f d) = tag d.
  Hypothesis Hnone : forall d, attrs d = [] -> attrs (f d) = [].
  Hypothesis Hc : forall d, In d (flat t) -> chg t [] d (f d).
  Hypothesis Hh : forall d, In d (flat t) -> d_get (f d) AXlinkHref = d_get d AXlinkHref.
  Hypothesis Hr : forall d, In d (flat t) -> ~ refers_to (f d) k.
  Lemma painted : iready (tmap f t) /\ Shown t (tmap f t).
  Proof. apply shown_tmap; auto. apply Hnone. apply (i_root _ I). Qed.
  Lemma painted_grad n j : grad_at n t j -> grad_at n (tmap f t) j.
  Proof.
    intros Ga s' Hs' Ks. rewrite subs_tmap in Hs'. apply in_map_iff in Hs'. destruct Hs' as (s & <- & Hs). rewrite root_key_tmap in Ks by exact Hkey. destruct (Ga s Hs Ks) as (G1 & G2 & G3). rewrite data_tmap, kids_tmap, map_length. unfold gradient_node in *. rewrite Htag. split; [exact G1|]. split; [exact G2|]. rewrite d_has_get in *. rewrite Hh; [exact G3|]. now apply data_of_sub.
  Qed.
  Lemma painted_ref j : referenced (tmap f t) j -> referenced t j /\ j <> k.
  Proof.
    intros (e & He & R). rewrite flat_tmap in He. apply in_map_iff in He. destruct He as (d & <- & Hd). split; [|intros ->; exact (Hr d Hd R)]. destruct R as (x & Hx & L). destruct (ch_links _ _ _ _ (Hc d Hd) x j Hx L) as [Hx' _]. exists d. split; [exact Hd|]. exists x. auto.
  Qed.
End Painted.
Lemma not_refers d d' k (P : aid -> Prop) : attrs_nodup d' -> (forall x j, In x (attrs d') -> link_of (a_val x) = Some j -> In x (attrs d)) ->
  (forall a, In a (link_attrs k d) -> P a) -> (forall a, In a (link_attrs k d) -> exists v, d_get d' a = Some v /\ link_of v = None) -> (forall x, In x (attrs d) -> link_of (a_val x) = Some k -> exists a, a_name x = AN a) -> ~ refers_to d' k.
Proof.
  intros W Lk _ Pv Hn (x & Hx & L). pose proof (Lk x k Hx L) as Hx'. destruct (Hn x Hx' L) as (a & Na). assert (Ha : In a (link_attrs k d)) by (apply link_attrs_in; eauto). destruct (Pv a Ha) as (v & Ev & Lv).
  unfold d_get, get_value in Ev. rewrite (get_attr_in (attrs d') x a W Hx Na) in Ev. injection Ev as <-. congruence.
Qed.

Lemma no_paint_get l : forall d b, d_get (fold_left (fun d a => d_set d a (VPre Vid_none)) l d) b = if in_dec (fun x y => reflect_dec _ _ (aid_eqb_spec x y)) b l then Some (VPre Vid_none) else d_get d b.
Proof.
  induction l as [|a l IH]; intros d b; [reflexivity|]. cbn [fold_left]. rewrite IH. destruct (in_dec _ b l) as [H|H], (in_dec _ b (a :: l)) as [H'|H']; try reflexivity.
  - exfalso. apply H'. now right.
  - destruct H' as [->|X]; [now rewrite d_get_set_same|contradiction].
  - rewrite d_get_set_other; [reflexivity|]. intros ->. apply H'. now left.
Qed.
Lemma no_paint_attrs l : forall d, let d' := fold_left (fun d a => d_set d a (VPre Vid_none)) l d in key d' = key d /\ tag d' = tag d /\ nid d' = nid d /\ (attrs_nodup d -> attrs_nodup d') /\ forall x j, In x (attrs d') -> link_of (a_val x) = Some j -> In x (attrs d).
Proof.
  induction l as [|a l IH]; intros d; cbn [fold_left]; [auto 6|]. destruct (IH (d_set d a (VPre Vid_none))) as (h1 & h2 & h3 & h4 & h5). split; [exact h1|]. split; [exact h2|]. split; [exact h3|]. split; [intros W; apply h4; now apply nodup_set|]. intros x j Hx L. apply (h5 x j) in Hx; auto. cbn in Hx. apply set_attr_in in Hx. destruct Hx as [Hx| ->]; [exact Hx|discriminate].
Qed.
Lemma step_no_paint t k : iready t -> grad_at 0 t k -> (iready (tmap (no_paint k) t) /\ Shown t (tmap (no_paint k) t)) /\ (forall n j, grad_at n t j -> grad_at n (tmap (no_paint k) t) j) /\ (forall j, referenced (tmap (no_paint k) t) j -> referenced t j /\ j <> k).
Proof.
  intros I Ga. assert (P : forall d, let d' := no_paint k d in key d' = key d /\ tag d' = tag d /\ nid d' = nid d /\ (attrs_nodup d -> attrs_nodup d') /\ forall x j, In x (attrs d') -> link_of (a_val x) = Some j -> In x (attrs d)) by (intros d; apply no_paint_attrs).
  assert (Hkey : forall d, key (no_paint k d) = key d) by (intros d; apply (P d)). assert (Htag : forall d, tag (no_paint k d) = tag d) by (intros d; apply (P d)).
  assert (Hnone : forall d, attrs d = [] -> attrs (no_paint k d) = []). { intros d E. unfold no_paint, link_attrs. now rewrite E. }
  assert (Get : forall d b, d_get (no_paint k d) b = if in_dec (fun x y => reflect_dec _ _ (aid_eqb_spec x y)) b (link_attrs k d) then Some (VPre Vid_none) else d_get d b) by (intros; apply no_paint_get).
  assert (LP : forall d a, In d (flat t) -> In a (link_attrs k d) -> In a [AFill; AStroke] /\ d_get d a = Some (VFunc k) /\ exists s, In s (subs t) /\ root_key s = k) by (intros d a; apply (link_paint t 0); auto).
  assert (Same : forall d b, In d (flat t) -> ~ In b [AFill; AStroke] -> d_get (no_paint k d) b = d_get d b). { intros d b Hd Nb. rewrite Get. destruct (in_dec _ b _) as [X|X]; [|reflexivity]. exfalso. apply Nb, (LP d b Hd X). }
  assert (Sp : forall d a, In d (flat t) -> In a [AFill; AStroke] -> same_paint t a d (no_paint k d)).
  { intros d a Hd Ha. assert (Eo : d_get (no_paint k d) (opacity_attr a) = d_get d (opacity_attr a)) by (apply Same; [exact Hd|]; destruct Ha as [<-|[<-|[]]]; cbn; intuition discriminate). destruct (in_dec (fun x y => reflect_dec _ _ (aid_eqb_spec x y)) a (link_attrs k d)) as [X|X].
    - destruct (LP d a Hd X) as (_ & E & s & Hs & Ks). apply (sp_none t a d _ k); [exact E| |rewrite Get; destruct (in_dec _ a _); [reflexivity|contradiction]|exact Eo]. destruct (Ga s Hs Ks) as (G1 & G2 & G3). exists s. split; [exact Hs|]. split; [exact Ks|]. split; [exact G1|]. split; [destruct (kids s); [reflexivity|discriminate]|exact G3].
    - apply sp_same; [|exact Eo]. rewrite Get. destruct (in_dec _ a _); [contradiction|reflexivity]. }
  assert (Hc : forall d, In d (flat t) -> chg t [] d (no_paint k d)).
  { intros d Hd. destruct (P d) as (h1 & h2 & h3 & h4 & h5). split; auto.
    - left. apply Same; [exact Hd|cbn; intuition discriminate].
    - apply Sp; [exact Hd|now left].
    - apply Sp; [exact Hd|right; now left].
    - left. apply Same; [exact Hd|cbn; intuition discriminate].
    - intros a Na. apply Same; [exact Hd|]. cbn in *. tauto.
    - intros x j Hx L. split; [exact (h5 x j Hx L)|tauto]. }
  assert (Hr : forall d, In d (flat t) -> ~ refers_to (no_paint k d) k).
  { intros d Hd. destruct (P d) as (_ & _ & _ & h4 & h5). apply (not_refers d _ k (fun _ => True)); auto.
    - apply h4. now apply (iready_attrs t).
    - intros a Ha. exists (VPre Vid_none). split; [|reflexivity]. rewrite Get. destruct (in_dec _ a _); [reflexivity|contradiction].
    - intros x Hx L. assert (Hk : In k (keys t)). { apply (wf_links _ (i_wf _ I)). unfold targets. apply in_flat_map. exists d. split; [exact Hd|]. apply in_flat_map. exists x. split; [exact Hx|]. rewrite L. now left. }
      apply sub_of_key in Hk. destruct Hk as (s & Hs & <-). pose proof (i_links _ I d x (data s) Hd Hx (data_of_sub _ _ Hs) L) as Q. unfold link_ok in Q. destruct (a_name x) as [a|]; [eauto|contradiction]. }
  split; [now apply painted|]. split.
  - intros n j. apply painted_grad; auto. intros d Hd. apply Same; [exact Hd|cbn; intuition discriminate].
  - intros j. now apply painted_ref.
Qed.

(** ** One stop *)
Lemma solid_get color o l : incl l [AFill; AStroke] -> forall d,
  (forall a, In a [AFill; AStroke] -> d_get (fold_left (one_color color o) l d) a = if in_dec (fun x y => reflect_dec _ _ (aid_eqb_spec x y)) a l then Some color else d_get d a) /\
  (forall a, In a [AFill; AStroke] -> d_get (fold_left (one_color color o) l d) (opacity_attr a) = if in_dec (fun x y => reflect_dec _ _ (aid_eqb_spec x y)) a l then if qeqb o q1 then d_get d (opacity_attr a) else Some (VNum o) else d_get d (opacity_attr a)) /\
  (forall b, ~ In b [AFill; AStroke; AFillOpacity; AStrokeOpacity] -> d_get (fold_left (one_color color o) l d) b = d_get d b).
Proof.
  induction l as [|c l IH]; intros Il d; [repeat split; auto|]. destruct (IH (fun x Hx => Il x (or_intror Hx)) (one_color color o d c)) as (h1 & h2 & h3). cbn [fold_left].
  assert (Hc : c = AFill \/ c = AStroke) by (destruct (Il c (or_introl eq_refl)) as [<-|[<-|[]]]; auto).
  assert (O1 : forall a, In a [AFill; AStroke] -> d_get (one_color color o d c) a = if aid_eqb a c then Some color else d_get d a).
  { intros a Ha. unfold one_color. destruct (qeqb o q1), Hc as [-> | ->], Ha as [<-|[<-|[]]]; cbn [aid_eqb]; rewrite ?TransformsProofs.d_get_set; reflexivity. }
  assert (O2 : forall a, In a [AFill; AStroke] -> d_get (one_color color o d c) (opacity_attr a) = if aid_eqb a c then if qeqb o q1 then d_get d (opacity_attr a) else Some (VNum o) else d_get d (opacity_attr a)).
  { intros a Ha. unfold one_color. destruct (qeqb o q1), Hc as [-> | ->], Ha as [<-|[<-|[]]]; rewrite ?TransformsProofs.d_get_set; reflexivity. }
  split; [|split].
  - intros a Ha. rewrite h1, O1 by exact Ha. destruct (in_dec _ a l) as [H|H], (in_dec _ a (c :: l)) as [H'|H']; try reflexivity.
    + exfalso. apply H'. now right.
    + destruct H' as [->|X]; [|contradiction]. destruct (aid_eqb_spec a a); [reflexivity|contradiction].
    + destruct (aid_eqb_spec a c) as [->|]; [exfalso; apply H'; now left|reflexivity].
  - intros a Ha. rewrite h2, O2 by exact Ha. destruct (in_dec _ a l) as [H|H], (in_dec _ a (c :: l)) as [H'|H']; try reflexivity.
    + destruct (aid_eqb a c), (qeqb o q1); reflexivity.
    + exfalso. apply H'. now right.
    + destruct H' as [->|X]; [|contradiction]. destruct (aid_eqb_spec a a); [reflexivity|contradiction].
    + destruct (aid_eqb_spec a c) as [->|]; [exfalso; apply H'; now left|reflexivity].
  - intros b Nb. rewrite h3 by exact Nb. unfold one_color. destruct (qeqb o q1), Hc as [-> | ->]; rewrite ?TransformsProofs.d_get_set; repeat match goal with |- context [aid_eqb ?x b] => destruct (aid_eqb_spec x b) as [<-|]; [exfalso; apply Nb; cbn; tauto|] end; reflexivity.
Qed.
Lemma solid_attrs color o l : link_of color = None -> forall d, let d' := fold_left (one_color color o) l d in key d' = key d /\ tag d' = tag d /\ nid d' = nid d /\ (attrs_nodup d -> attrs_nodup d') /\ forall x j, In x (attrs d') -> link_of (a_val x) = Some j -> In x (attrs d).
Proof.
  intros Lc. induction l as [|a l IH]; intros d; cbn [fold_left]; [auto 6|]. destruct (IH (one_color color o d a)) as (h1 & h2 & h3 & h4 & h5).
  assert (O : key (one_color color o d a) = key d /\ tag (one_color color o d a) = tag d /\ nid (one_color color o d a) = nid d /\ (attrs_nodup d -> attrs_nodup (one_color color o d a)) /\ forall x j, In x (attrs (one_color color o d a)) -> link_of (a_val x) = Some j -> In x (attrs d)).
  { assert (B : forall e c v, link_of v = None -> forall x j, In x (attrs (d_set e c v)) -> link_of (a_val x) = Some j -> In x (attrs e)). { intros e c v Lv x j Hx L. cbn in Hx. apply set_attr_in in Hx. destruct Hx as [Hx| ->]; [exact Hx|]. cbn in L. congruence. }
    unfold one_color. destruct (qeqb o q1).
    - split; [reflexivity|]. split; [reflexivity|]. split; [reflexivity|]. split; [apply nodup_set|now apply B].
    - destruct a; (split; [reflexivity|]; split; [reflexivity|]; split; [reflexivity|]; split; [intros W; repeat apply nodup_set; exact W|]); intros x j Hx L; repeat (apply (B _ _ _) with (j := j) in Hx; [|first [exact Lc|reflexivity]|exact L]); exact Hx. }
  destruct O as (o1 & o2 & o3 & o4 & o5). cbn zeta in *. split; [congruence|]. split; [congruence|]. split; [congruence|]. split; [auto|]. intros x j Hx L. eapply o5; [|exact L]. eapply h5; eassumption.
Qed.
Lemma chg_self t d : chg t [] d d.
Proof. split; auto; try (now apply sp_same). Qed.
Lemma step_solid t k t' : iready t -> grad_at 1 t k -> paint_solid t k = Ok t' -> (iready t' /\ Shown t t') /\ (forall n j, grad_at n t j -> grad_at n t' j) /\ (forall j, referenced t' j -> referenced t j /\ j <> k).
Proof.
  intros I Ga E. unfold paint_solid in E. destruct (find_sub k t) as [[ds ch]|] eqn:F.
  2:{ injection E as <-. split; [split; [exact I|apply shown_self]|]. split; [auto|]. intros j R. split; [exact R|]. intros ->. apply find_sub_none in F. apply F. apply (wf_links _ (i_wf _ I)). apply used_iff, is_used_iff in R. exact R. }
  apply find_sub_some in F. destruct F as [Hs Ks]. destruct (Ga _ Hs Ks) as (G1 & G2 & G3). destruct ch as [|c [|]]; try discriminate. cbn [kids] in *. clear G2.
  destruct (d_get (data c) AStopColor) as [[| |r g bl| | | | | | | |]|] eqn:Ec; try discriminate. destruct (d_get (data c) AStopOpacity) as [[| | | | |o| | | | |]|] eqn:Eo; try discriminate.
  injection E as <-. set (color := VColor r g bl). set (f := fun d => if is_grad d then d else solid k color o d).
  assert (OS : one_stop t k color o). { exists (T ds [c]), c. split; [exact Hs|]. split; [exact Ks|]. split; [exact G1|]. split; [reflexivity|]. split; [exact G3|]. split; [exact Ec|]. split; [eexists _, _, _; reflexivity|exact Eo]. }
  assert (P : forall d, let d' := f d in key d' = key d /\ tag d' = tag d /\ nid d' = nid d /\ (attrs_nodup d -> attrs_nodup d') /\ forall x j, In x (attrs d') -> link_of (a_val x) = Some j -> In x (attrs d)). { intros d. unfold f. destruct (is_grad d); [cbn; auto 6|]. apply solid_attrs. reflexivity. }
  assert (Hkey : forall d, key (f d) = key d) by (intros d; apply (P d)). assert (Htag : forall d, tag (f d) = tag d) by (intros d; apply (P d)).
  assert (Hnone : forall d, attrs d = [] -> attrs (f d) = []). { intros d E. unfold f. destruct (is_grad d); [exact E|]. unfold solid, link_attrs. now rewrite E. }
  assert (LP : forall d a, In d (flat t) -> In a (link_attrs k d) -> In a [AFill; AStroke] /\ d_get d a = Some (VFunc k) /\ exists s, In s (subs t) /\ root_key s = k) by (intros d a; apply (link_paint t 1); auto).
  assert (Il : forall d, In d (flat t) -> incl (link_attrs k d) [AFill; AStroke]) by (intros d Hd a Ha; apply (LP d a Hd Ha)).
  assert (Gn : forall d a, In d (flat t) -> In a (link_attrs k d) -> is_grad d = false -> same_paint t a d (f d)).
  { intros d a Hd Ha Gd. destruct (LP d a Hd Ha) as (Ia & E & _). destruct (solid_get color o (link_attrs k d) (Il d Hd) d) as (h1 & h2 & _). unfold f. rewrite Gd. specialize (h1 a Ia). specialize (h2 a Ia). fold (solid k color o d) in h1, h2. destruct (in_dec _ a (link_attrs k d)); [|contradiction].
    destruct (qeqb_spec o q1) as [Q|No].
    - subst o. apply (sp_color t a d _ k color); auto.
    - assert (E' : d_get d a = Some (VFunc (root_key (T ds [c])))) by (now rewrite Ks). destruct (i_opacity _ I (T ds [c]) c o d a Hs G1 eq_refl G3 Eo No Hd Ia E') as (K1 & K2 & _). apply (sp_opacity t a d _ k color o); auto. }
  assert (Sp : forall d a, In d (flat t) -> In a [AFill; AStroke] -> same_paint t a d (f d)).
  { intros d a Hd Ia. destruct (is_grad d) eqn:Gd; [unfold f; rewrite Gd; now apply sp_same|]. destruct (in_dec (fun x y => reflect_dec _ _ (aid_eqb_spec x y)) a (link_attrs k d)) as [X|X]; [now apply Gn|].
    destruct (solid_get color o (link_attrs k d) (Il d Hd) d) as (h1 & h2 & _). unfold f. rewrite Gd. apply sp_same; unfold solid; [rewrite h1 by exact Ia|rewrite h2 by exact Ia]; destruct (in_dec _ a (link_attrs k d)); [contradiction|reflexivity|contradiction|reflexivity]. }
  assert (Same : forall d b, In d (flat t) -> ~ In b [AFill; AStroke; AFillOpacity; AStrokeOpacity] -> d_get (f d) b = d_get d b).
  { intros d b Hd Nb. unfold f. destruct (is_grad d); [reflexivity|]. now apply (solid_get color o (link_attrs k d) (Il d Hd) d). }
  assert (Hc : forall d, In d (flat t) -> chg t [] d (f d)).
  { intros d Hd. destruct (P d) as (p1 & p2 & p3 & p4 & p5). split; auto.
    - left. apply Same; [exact Hd|cbn; intuition discriminate].
    - apply Sp; [exact Hd|now left].
    - apply Sp; [exact Hd|right; now left].
    - left. apply Same; [exact Hd|cbn; intuition discriminate].
    - intros a Na. apply Same; [exact Hd|]. cbn in *. tauto.
    - intros x j Hx L. split; [exact (p5 x j Hx L)|tauto]. }
  assert (Hr : forall d, In d (flat t) -> ~ refers_to (f d) k).
  { intros d Hd. destruct (is_grad d) eqn:Gd.
    - unfold f. rewrite Gd. apply is_grad_iff in Gd. rewrite <- Ks. apply (i_templates _ I (T ds [c]) d); auto.
    - destruct (P d) as (_ & _ & _ & p4 & p5). apply (not_refers d _ k (fun _ => True)); auto.
      + apply p4. now apply (iready_attrs t).
      + intros a Ha. exists color. split; [|reflexivity]. unfold f. rewrite Gd. destruct (solid_get color o (link_attrs k d) (Il d Hd) d) as (h1 & _). unfold solid. rewrite h1 by (apply (Il d Hd a Ha)). destruct (in_dec _ a _); [reflexivity|contradiction].
      + intros x Hx L. assert (L' : link_of (a_val x) = Some (key ds)) by (rewrite L, <- Ks; reflexivity). pose proof (i_links _ I d x ds Hd Hx (data_of_sub _ _ Hs) L') as Q. unfold link_ok in Q. destruct (a_name x) as [a|]; [eauto|contradiction]. }
  split; [now apply painted|]. split.
  - intros n j. apply painted_grad; auto. intros d Hd. apply Same; [exact Hd|cbn; intuition discriminate].
  - intros j. now apply painted_ref.
Qed.

(** ** All gradients *)
Definition idle_at (t : tree) (k : nat) : Prop := (exists n, grad_at n t k) /\ ~ referenced t k.
Lemma step_idle t s : iready t -> In s (subs t) -> root_key s <> root_key t -> idle_at t (root_key s) -> iready (remove (root_key s) t) /\ Shown t (remove (root_key s) t).
Proof.
  intros I Hs Nr [(n & Ga) NR]. destruct (Ga s Hs eq_refl) as (G1 & _). apply shown_remove; auto.
  - intros d x m Hd Nd Hx Hn L. exfalso. rewrite (flat_cons s) in Hn. destruct Hn as [<-|Hn]; [apply NR; exists d; split; [exact Hd|exists x; auto]|]. apply in_flat_map in Hn. destruct Hn as (c & Hc & Hn). apply (i_inside _ I s c m Hs Hc Hn); [tauto|]. exists d. split; [exact Hd|]. exists x. auto.
  - intros u Hu Hc. split; [intros _; apply blank_other; unfold kind_of; destruct G1 as [-> | ->]; reflexivity|]. split; [intros _; destruct G1 as [G1|G1]; apply (counts_other t _ _ G1); cbn; intuition discriminate|]. intros Hh. destruct (i_parts _ I u s Hu Hc Hh) as (_ & _ & _ & _ & _ & X & _). contradiction.
Qed.
Lemma idle_keep t s j : iready t -> In s (subs t) -> root_key s <> root_key t -> idle_at t (root_key s) -> idle_at t j -> idle_at (remove (root_key s) t) j.
Proof.
  intros I Hs Nr _ [(n & Ga) NR]. pose proof (iready_nodup _ I) as N. split; [|intros R; apply rm_referenced in R; auto]. destruct (in_dec Nat.eq_dec j (keys (remove (root_key s) t))) as [Hj|Hj]; [|exists 0; intros x Hx Kx; exfalso; apply Hj; rewrite <- Kx; now apply key_in_sub].
  apply sub_of_key in Hj. destruct Hj as (u' & Hu' & Ku). exists (List.length (kids u')). intros x' Hx' Kx. assert (x' = u') by (apply (sub_unique (remove (root_key s) t)); auto; [apply nodup_sv with (k := root_key s) (f := unlink_data (sub_keys (root_key s) t)); auto|congruence]). subst x'. destruct (rm_sub t _ N Nr u' Hu') as (u & Hu & Nu & ->). rewrite root_sv in Ku by reflexivity. destruct (Ga u Hu Ku) as (G1 & G2 & G3).
  rewrite data_sv. split; [exact G1|]. split; [reflexivity|]. rewrite d_has_get in *. destruct (unlink_d_get (sub_keys (root_key s) t) (data u) AXlinkHref (iready_attrs _ _ I (data_of_sub _ _ Hu))) as [-> |[-> _]]; auto.
Qed.
Lemma gradient_keys_at n t k : NoDup (keys t) -> In k (gradient_keys n t) -> grad_at n t k.
Proof.
  intros N H s Hs Ks. unfold gradient_keys in H. apply in_map_iff in H. destruct H as (s0 & Ks0 & H). apply filter_In in H. destruct H as [Hs0 H]. rewrite !andb_true_iff, Nat.eqb_eq, negb_true_iff in H. assert (s0 = s) by (apply (sub_unique t); auto; congruence). subst s0. destruct H as [[H1 H2] H3]. split; [now apply is_grad_iff|]. auto.
Qed.
Lemma good_gradients t0 x x' : good t0 (fst x) -> process_gradients x = Ok x' -> good t0 (fst x').
Proof.
  destruct x as [t b]. cbn [fst]. intros Gt E. cbn [process_gradients] in E. apply bind_ok in E. destruct E as (t1 & E1 & E2). injection E2 as <-. cbn [fst]. pose proof (iready_nodup _ (proj1 Gt)) as N.
  set (k0 := gradient_keys 0 t) in *. set (k1 := gradient_keys 1 t) in *.
  assert (Q0 : forall l u, good t0 u -> (forall j, In j l -> grad_at 0 u j) -> good t0 (unpaint l u) /\ (forall n j, grad_at n u j -> grad_at n (unpaint l u) j) /\ (forall j, referenced (unpaint l u) j -> referenced u j /\ ~ In j l)).
  { induction l as [|k l IH]; intros u Gu Ga; [split; [exact Gu|]; split; [auto|]; intros j R; split; [exact R|tauto]|]. change (unpaint (k :: l) u) with (unpaint l (tmap (no_paint k) u)). destruct (step_no_paint u k (proj1 Gu) (Ga k (or_introl eq_refl))) as (A & B & C).
    destruct (IH (tmap (no_paint k) u)) as (A' & B' & C'); [exact (good_trans _ _ _ Gu A)|intros j Hj; apply B, Ga; now right|]. split; [exact A'|]. split; [auto|]. intros j R. destruct (C' j R) as [R1 Nj]. destruct (C j R1) as [R2 Nk]. split; [exact R2|]. intros [X|X]; [now apply Nk|contradiction]. }
  assert (Q1 : forall l u u', good t0 u -> (forall j, In j l -> grad_at 1 u j) -> fold_left (fun r k => bind r (fun t => paint_solid t k)) l (Ok u) = Ok u' -> good t0 u' /\ (forall n j, grad_at n u j -> grad_at n u' j) /\ (forall j, referenced u' j -> referenced u j /\ ~ In j l)).
  { induction l as [|k l IH]; intros u u' Gu Ga E; cbn [fold_left] in E; [injection E as <-; split; [exact Gu|]; split; [auto|]; intros j R; split; [exact R|tauto]|]. cbn [bind] in E. destruct (paint_solid u k) as [u1|e|] eqn:P.
    - destruct (step_solid u k u1 (proj1 Gu) (Ga k (or_introl eq_refl)) P) as (A & B & C). destruct (IH u1 u') as (A' & B' & C'); [exact (good_trans _ _ _ Gu A)|intros j Hj; apply B, Ga; now right|exact E|]. split; [exact A'|]. split; [auto|]. intros j R. destruct (C' j R) as [R1 Nj]. destruct (C j R1) as [R2 Nk]. split; [exact R2|]. intros [X|X]; [now apply Nk|contradiction].
    - exfalso. clear - E. induction l; cbn in E; [discriminate|auto].
    - exfalso. clear - E. induction l; cbn in E; [discriminate|auto]. }
  destruct (Q0 k0 t Gt) as (A0 & B0 & C0); [intros j Hj; now apply gradient_keys_at|]. destruct (Q1 k1 (unpaint k0 t) t1 A0) as (A1 & B1 & C1); [intros j Hj; apply B0; now apply gradient_keys_at|exact E1|].
  assert (Id : forall k, In k (k0 ++ k1)%list -> idle_at t1 k).
  { intros k Hk. apply in_app_or in Hk. split; [destruct Hk as [Hk|Hk]; [exists 0|exists 1]; apply B1, B0; now apply gradient_keys_at|]. intros R. destruct (C1 k R) as [R1 N1]. destruct (C0 k R1) as [_ N0]. tauto. }
  apply (good_nodes idle_at); auto using step_idle, idle_keep. intros X. destruct (Id _ X) as [(n & Ga) _]. destruct (Ga t1 (subs_self t1) eq_refl) as (G1 & _). unfold gradient_node in G1. rewrite (proj1 (i_root _ (proj1 A1))) in G1. destruct G1; discriminate.
Qed.
