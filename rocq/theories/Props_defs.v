(** C14: removal of unused definitions. *)
From Coq Require Import List Bool NArith Arith ZArith String Lia.
From Verif Require Import Names Num Value Dom DomFacts DomOps Outcome DomRemove SpecDom Move RmUnusedDefs SpecDefaults.
Import ListNotations.
Local Open Scope nat_scope.

Lemma list_sum_app_map {A} (f : A -> nat) l m : list_sum (map f (l ++ m)) = list_sum (map f l) + list_sum (map f m).
Proof. rewrite map_app. apply list_sum_app. Qed.
Lemma lsum_cons x l : list_sum (x :: l) = x + list_sum l. Proof. reflexivity. Qed.
Lemma weight_T d ch : weight (T d ch) = 1 + list_sum (map (fun c => 1 + weight c) ch). Proof. reflexivity. Qed.
Lemma sum_S {A} (f : A -> nat) l : list_sum (map (fun c => 1 + f c) l) = List.length l + list_sum (map f l).
Proof. induction l as [|x l IH]; [reflexivity|]. cbn [map List.length]. rewrite !lsum_cons, IH. lia. Qed.
Lemma round_weight t ch ch' : defs_round t ch = Some ch' -> list_sum (map weight ch') < list_sum (map weight ch).
Proof.
  unfold defs_round. destruct (existsb (unused t) ch) eqn:E; [|discriminate]. intros H. injection H as <-. rewrite list_sum_app_map.
  assert (Z : forall l, list_sum (map weight (flat_map (left_over t) l)) + list_sum (map weight (flat_map (moved t) l)) + (if existsb (unused t) l then 1 else 0) <= list_sum (map weight l)).
  { induction l as [|c l IH]; [cbn; lia|]. cbn [flat_map map existsb]. rewrite !list_sum_app_map, lsum_cons. unfold left_over at 1, moved at 1. destruct (unused t c); cbn [orb].
    - destruct c as [d cs]. cbn [kids data]. rewrite weight_T, sum_S. destruct cs as [|x cs]; cbn [map List.length]; rewrite ?lsum_cons; change (list_sum []) with 0; cbn [weight map]; change (list_sum []) with 0; destruct (existsb (unused t) l); lia.
    - cbn [map]. rewrite !lsum_cons. change (list_sum []) with 0. destruct (existsb (unused t) l); lia. }
  specialize (Z ch). rewrite E in Z. lia.
Qed.
(** ** What stays true in every round. [t0] is the document before the pass, [s] its defs. *)
Section rounds.
Variables (t0 s : tree).
Hypothesis W : WF t0.
Hypothesis Hs : In s (subs t0).
Let k := root_key s.
Definition with_ch (ch : list tree) : tree := set_kids k (fun _ => ch) t0.
Record inv (ch : list tree) : Prop := {
  i_sub : forall c, In c ch -> In c (flat_map subs (kids s)) \/ (exists x, In x (flat_map subs (kids s)) /\ c = T (data x) []) /\ unused (with_ch ch) c = true;
  i_nodup : NoDup (flat_map keys ch);
  i_in : forall x, In x (flat_map flat ch) -> In x (flat_map flat (kids s));
  i_gone : forall x, In x (flat_map flat (kids s)) -> In x (flat_map flat ch) \/ ~ referenced (with_ch ch) (key x)
}.
Lemma k_in : In k (keys t0). Proof. apply in_map_iff. exists (data s). split; [reflexivity|now apply data_of_sub]. Qed.
Lemma kids_of_with ch : inv ch -> NoDup (keys (with_ch ch)) /\ kids_of k (with_ch ch) = ch.
Proof.
  intros I. assert (N : NoDup (keys (with_ch ch))).
  { destruct (flat_split t0 s (wf_keys _ W) Hs) as (pre & post & E1 & E2). unfold with_ch, k. unfold keys. rewrite E2, !map_app. cbn [map].
    pose proof (wf_keys _ W) as N. unfold keys in N. rewrite E1, (flat_cons s), !map_app in N. cbn [map] in N.
    assert (K : forall l : list tree, map key (flat_map flat l) = flat_map keys l) by (induction l as [|c l IH]; [reflexivity|]; cbn; now rewrite map_app, IH).
    rewrite K in *. apply NoDup_app_inv in N. destruct N as (Np & N & Dp). apply NoDup_app_inv in N. destruct N as (Ns & Nq & Dq). cbn [app] in *.
    assert (Inc : incl (flat_map keys ch) (flat_map keys (kids s))). { intros j Hj. rewrite <- K in Hj |- *. apply in_map_iff in Hj. destruct Hj as (x & <- & Hx). apply in_map, (i_in _ I). exact Hx. }
    inversion Ns as [|? ? N1 N2]; subst. apply NoDup_app_intro; [exact Np| |].
    - change (NoDup ((key (data s) :: flat_map keys ch) ++ map key post)). apply NoDup_app_intro; [constructor; [intros X; apply N1, Inc, X|apply I]|exact Nq|].
      intros x [<-|Hx] Hy; apply (Dq _ (or_introl eq_refl) Hy) || apply (Dq x); auto. right. now apply Inc.
    - intros x Hx Hy. apply (Dp x Hx). destruct Hy as [<-|Hy]; [now left|]. apply in_app_or in Hy. right. apply in_or_app. destruct Hy as [Hy|Hy]; auto. }
  split; [exact N|]. unfold kids_of. pose proof (find_set_kids t0 s (fun _ => ch) (wf_keys _ W) Hs) as F. change (set_kids (root_key s) (fun _ => ch) t0) with (with_ch ch) in F.
  rewrite (find_sub_iff (with_ch ch) (T (data s) ch) N F : find_sub k (with_ch ch) = _). reflexivity.
Qed.
Lemma with_flat : exists pre post, flat t0 = pre ++ (data s :: flat_map flat (kids s)) ++ post /\ forall ch, flat (with_ch ch) = pre ++ (data s :: flat_map flat ch) ++ post.
Proof. destruct (flat_split t0 s (wf_keys _ W) Hs) as (pre & post & E1 & E2). exists pre, post. rewrite (flat_cons s) in E1. split; [exact E1|]. intros ch. apply E2. Qed.
Lemma referenced_with ch ch' j : (forall x, In x (flat_map flat ch') -> In x (flat_map flat ch)) -> referenced (with_ch ch') j -> referenced (with_ch ch) j.
Proof.
  intros I (d & Hd & R). exists d. split; [|exact R]. destruct with_flat as (pre & post & _ & E). rewrite E in Hd |- *. cbn [app] in *. apply in_app_or in Hd. apply in_or_app. destruct Hd as [Hd|[Hd|Hd]]; [auto|right; now left|]. right. right. apply in_app_or in Hd. apply in_or_app. destruct Hd; auto.
Qed.
Lemma used_iff t j : is_used j t = true <-> referenced t j.
Proof. rewrite is_used_iff, targets_in. unfold referenced, refers_to. split; [intros (d & a & Hd & Ha & E)|intros (d & Hd & a & Ha & E)]; eauto 6. Qed.
Lemma unused_iff t c : unused t c = true <-> ~ referenced t (root_key c) /\ is_font_node (data c) = false.
Proof. unfold unused. rewrite andb_true_iff, !negb_true_iff, <- used_iff. destruct (is_used (root_key c) t); split; intuition congruence. Qed.
Lemma in_left t ch x : In x (flat_map (left_over t) ch) <-> exists c, In c ch /\ ((unused t c = false /\ x = c) \/ (unused t c = true /\ kids c <> [] /\ x = T (data c) [])).
Proof.
  rewrite in_flat_map. split; intros (c & Hc & H); exists c; (split; [exact Hc|]); unfold left_over in *.
  - destruct (unused t c); [|destruct H as [<-|[]]; auto]. destruct (kids c); [contradiction|]. destruct H as [<-|[]]. right. repeat split; auto. discriminate.
  - destruct H as [[-> ->]|(-> & Ne & ->)]; [now left|]. destruct (kids c); [contradiction|now left].
Qed.
Lemma in_moved t ch x : In x (flat_map (moved t) ch) <-> exists c, In c ch /\ unused t c = true /\ In x (kids c).
Proof.
  rewrite in_flat_map. unfold moved. split.
  - intros (c & Hc & H). exists c. destruct (unused t c); [auto|contradiction].
  - intros (c & Hc & U & H). exists c. rewrite U. auto.
Qed.
Lemma round_count t ch j : count_occ Nat.eq_dec (flat_map keys (flat_map (left_over t) ch)) j + count_occ Nat.eq_dec (flat_map keys (flat_map (moved t) ch)) j <= count_occ Nat.eq_dec (flat_map keys ch) j.
Proof.
  induction ch as [|c l IH]; [cbn; lia|]. cbn [flat_map]. rewrite !flat_map_app, !count_occ_app.
  assert (Z : count_occ Nat.eq_dec (flat_map keys (left_over t c)) j + count_occ Nat.eq_dec (flat_map keys (moved t c)) j <= count_occ Nat.eq_dec (keys c) j); [|lia].
  unfold left_over, moved. destruct (unused t c); [|cbn [flat_map]; rewrite app_nil_r; cbn; lia]. rewrite (keys_kids c). change (root_key c :: flat_map keys (kids c)) with ([root_key c] ++ flat_map keys (kids c)). rewrite count_occ_app. destruct (kids c); cbn [flat_map app keys flat map data]; unfold root_key; [cbn [count_occ]; lia|]. lia.
Qed.
Lemma round_inv ch ch' : inv ch -> defs_round (with_ch ch) ch = Some ch' -> inv ch'.
Proof.
  intros I E. set (t := with_ch ch) in *. assert (E' : ch' = flat_map (left_over t) ch ++ flat_map (moved t) ch) by (unfold defs_round in E; destruct (existsb (unused t) ch); [injection E as <-; reflexivity|discriminate]). clear E.
  assert (Inc : forall x, In x (flat_map flat ch') -> In x (flat_map flat ch)).
  { intros x Hx. apply in_flat_map in Hx. destruct Hx as (c & Hc & Hx). apply in_flat_map. rewrite E' in Hc. apply in_app_or in Hc. destruct Hc as [Hc|Hc].
    - apply in_left in Hc. destruct Hc as (c0 & Hc0 & [[_ ->]|(_ & _ & ->)]); [eauto|]. cbn in Hx. destruct Hx as [<-|[]]. exists c0. split; [exact Hc0|apply flat_self].
    - apply in_moved in Hc. destruct Hc as (c0 & Hc0 & _ & Hc). exists c0. split; [exact Hc0|]. rewrite (flat_cons c0). right. apply in_flat_map. eauto. }
  assert (Ref : forall j, referenced (with_ch ch') j -> referenced t j) by (intros j; apply referenced_with; exact Inc).
  assert (Un : forall c, unused t c = true -> unused (with_ch ch') c = true) by (intros c; rewrite !unused_iff; intuition).
  assert (Orig : forall c, In c ch -> unused t c = false \/ kids c <> [] -> In c (flat_map subs (kids s))).
  { intros c Hc D. destruct (i_sub _ I c Hc) as [H|[(x & _ & ->) H]]; [exact H|]. fold t in H. destruct D as [D|D]; [congruence|contradiction D; reflexivity]. }
  split.
  - intros c Hc. rewrite E' in Hc. apply in_app_or in Hc. destruct Hc as [Hc|Hc].
    + apply in_left in Hc. destruct Hc as (c0 & Hc0 & [[Uc ->]|(Uc & Nk & ->)]); [left; apply Orig; auto|]. right. split; [exists c0; split; [apply Orig; auto|reflexivity]|]. apply Un. exact Uc.
    + apply in_moved in Hc. destruct Hc as (c0 & Hc0 & Uc & Hc). left. assert (H : In c0 (flat_map subs (kids s))) by (apply Orig; [exact Hc0|right; intros X; rewrite X in Hc; contradiction]).
      apply in_flat_map in H. destruct H as (y & Hy & H). apply in_flat_map. exists y. split; [exact Hy|]. apply (subs_trans y c0); [exact H|]. destruct c0. right. apply in_flat_map. exists c. split; [exact Hc|apply subs_self].
  - rewrite E', flat_map_app. apply (NoDup_count_occ Nat.eq_dec). intros j. rewrite count_occ_app. pose proof (round_count t ch j). pose proof (proj1 (NoDup_count_occ Nat.eq_dec _) (i_nodup _ I) j). lia.
  - intros x Hx. apply (i_in _ I). auto.
  - intros x Hx. destruct (i_gone _ I x Hx) as [H|H]; [|right; intros R; apply H; now apply Ref]. apply in_flat_map in H. destruct H as (c & Hc & H). destruct (unused t c) eqn:Uc.
    + rewrite (flat_cons c) in H. destruct H as [<-|H].
      * destruct (kids c) as [|y l] eqn:Ek; [right; apply unused_iff in Uc; intros R; apply (proj1 Uc); now apply Ref|]. left. apply in_flat_map. exists (T (data c) []). split; [|now left]. rewrite E'. apply in_or_app. left. apply in_left. exists c. split; [exact Hc|]. right. repeat split; auto. congruence.
      * left. apply in_flat_map in H. destruct H as (y & Hy & H). apply in_flat_map. exists y. split; [|exact H]. rewrite E'. apply in_or_app. right. apply in_moved. eauto.
    + left. apply in_flat_map. exists c. split; [|exact H]. rewrite E'. apply in_or_app. left. apply in_left. exists c. auto.
Qed.
Lemma loop_ok : forall fuel ch, inv ch -> list_sum (map weight ch) <= fuel -> exists ch', defs_loop fuel k (with_ch ch) = Some (with_ch ch') /\ inv ch' /\ defs_round (with_ch ch') ch' = None.
Proof.
  induction fuel as [|n IH]; intros ch I L; destruct (kids_of_with ch I) as [_ K]; cbn [defs_loop]; rewrite K; destruct (defs_round (with_ch ch) ch) as [ch'|] eqn:R; eauto.
  - pose proof (round_weight _ _ _ R). lia.
  - pose proof (round_weight _ _ _ R). destruct (IH ch' (round_inv ch ch' I R)) as (r & E & Ir & Rr); [lia|]. exists r. split; [|auto]. rewrite <- E. unfold with_ch at 1. rewrite set_kids_set. reflexivity.
Qed.
Lemma inv_start : inv (kids s).
Proof.
  split.
  - intros c Hc. left. apply in_flat_map. exists c. split; [exact Hc|apply subs_self].
  - pose proof (sub_NoDup s t0 (wf_keys _ W) Hs) as N. rewrite (keys_kids s) in N. now inversion N.
  - auto.
  - auto.
Qed.
Lemma with_start : with_ch (kids s) = t0.
Proof.
  unfold with_ch. transitivity (set_kids k (fun l => l) t0); [|apply set_kids_id]. apply set_kids_ext; [apply W|]. unfold kids_of, k. now rewrite (find_sub_iff t0 s (wf_keys _ W) Hs).
Qed.
End rounds.

Definition font_resource (d : ndata) : Prop := tag d = TEl EFont \/ tag d = TEl EFontFace.
Lemma font_iff d : is_font_node d = true <-> font_resource d.
Proof.
  unfold is_font_node, font_resource, is_tag. rewrite orb_true_iff. destruct (tag d) as [|e| | | |]; try (split; intros [H|H]; discriminate).
  destruct (eid_eqb_spec e EFontFace), (eid_eqb_spec e EFont); subst; split; intuition congruence.
Qed.
Lemma defs_fixpoint t : WF t -> (exists d, In d (flat t) /\ tag d = TEl EDefs) ->
  exists t' s ch, remove_unused_defs t = Some (Ok t') /\ t' = set_kids (root_key s) (fun _ => ch) t /\ WF t' /\
    In s (subs t) /\ first_defs t = Some (data s) /\ tag (data s) = TEl EDefs /\ In (T (data s) ch) (subs t') /\
    (exists pre post, flat t = pre ++ (data s :: flat_map flat (kids s)) ++ post /\ flat t' = pre ++ (data s :: flat_map flat ch) ++ post) /\
    (forall c, In c ch -> (referenced t' (root_key c) \/ font_resource (data c)) /\ In c (flat_map subs (kids s))) /\
    (forall x, In x (flat t) -> In x (flat t') \/ ~ referenced t' (key x)).
Proof.
  intros W (d0 & Hd0 & T0). destruct (first_defs t) as [d|] eqn:F.
  2:{ unfold first_defs in F. pose proof (find_none _ _ F d0 Hd0) as X. unfold is_tag in X. rewrite T0 in X. discriminate. }
  unfold remove_unused_defs. rewrite F. unfold first_defs in F. apply find_some in F. destruct F as [Hd Td].
  assert (X : exists s, find_sub (key d) t = Some s) by (apply find_sub_in, in_map; exact Hd). destruct X as (s & Es). pose proof Es as Es'. apply find_sub_some in Es. destruct Es as [Hs Ks].
  assert (Ds : data s = d) by (apply (data_unique t); [apply W|now apply data_of_sub|exact Hd|exact Ks]). subst d.
  assert (Tg : tag (data s) = TEl EDefs) by (unfold is_tag in Td; destruct (tag (data s)) as [|e| | | |]; try discriminate; destruct (eid_eqb_spec e EDefs); congruence).
  assert (Kd : kids_of (key (data s)) t = kids s) by (unfold kids_of; now rewrite Es').
  rewrite Kd. destruct (loop_ok t s W Hs (list_sum (map weight (kids s))) (kids s) (inv_start t s W Hs) (le_n _)) as (ch & E & I & R). rewrite (with_start t s W Hs) in E.
  change (root_key s) with (key (data s)) in E. rewrite E. cbn [option_map]. destruct (kids_of_with t s W Hs ch I) as [N Kc]. destruct (with_flat t s W Hs) as (pre & post & E1 & E2).
  assert (Gone : forall x, In x (flat t) -> In x (flat (with_ch t s ch)) \/ ~ referenced (with_ch t s ch) (key x)).
  { intros x Hx. rewrite E1 in Hx. rewrite E2. cbn [app] in *. apply in_app_or in Hx. destruct Hx as [Hx|[Hx|Hx]]; [left; apply in_or_app; auto|left; apply in_or_app; right; now left|]. apply in_app_or in Hx. destruct Hx as [Hx|Hx]; [|left; apply in_or_app; right; right; apply in_or_app; auto].
    destruct (i_gone _ _ _ I x Hx) as [H|H]; [left; apply in_or_app; right; right; apply in_or_app; auto|right; exact H]. }
  assert (Sub : forall x, In x (flat (with_ch t s ch)) -> In x (flat t)).
  { intros x Hx. rewrite E1. rewrite E2 in Hx. cbn [app] in *. apply in_app_or in Hx. apply in_or_app. destruct Hx as [Hx|[Hx|Hx]]; [auto|right; now left|]. right. right. apply in_app_or in Hx. apply in_or_app. destruct Hx as [Hx|Hx]; [left; now apply (i_in _ _ _ I)|auto]. }
  exists (with_ch t s ch), s, ch. split; [reflexivity|]. split; [reflexivity|]. split; [split; [exact N|]|].
  - intros j Hj. assert (Rj : referenced (with_ch t s ch) j) by (apply used_iff, is_used_iff; exact Hj). assert (Ht : In j (keys t)).
    { apply W. apply is_used_iff, used_iff. destruct Rj as (x & Hx & Rx). exists x. auto. }
    apply in_map_iff in Ht. destruct Ht as (x & <- & Hx). destruct (Gone x Hx) as [H|H]; [now apply in_map|contradiction].
  - split; [exact Hs|]. split; [reflexivity|]. split; [exact Tg|]. split; [apply (find_set_kids t s (fun _ => ch) (wf_keys _ W) Hs)|]. split; [eauto|]. split; [|exact Gone].
    intros c Hc. unfold defs_round in R. destruct (existsb (unused (with_ch t s ch)) ch) eqn:Eu; [discriminate|].
    assert (Uc : unused (with_ch t s ch) c = false). { destruct (unused _ c) eqn:Uc; [|reflexivity]. assert (existsb (unused (with_ch t s ch)) ch = true) by (apply existsb_exists; eauto). congruence. }
    split; [|destruct (i_sub _ _ _ I c Hc) as [H|[_ H]]; [exact H|congruence]].
    unfold unused in Uc. apply andb_false_iff in Uc. rewrite !negb_false_iff in Uc. destruct Uc as [Uc|Uc]; [left; now apply used_iff|right; now apply font_iff].
Qed.
(** The first defs [s] is the only place that changes; the pass ends; afterwards all children of defs are
    referenced or font resources, they are subtrees of the old defs, and a node that is not in the result
    is not referenced in the result. *)
Theorem C14_fixpoint t : WF t -> (exists d, In d (flat t) /\ tag d = TEl EDefs) ->
  exists t' s ch, remove_unused_defs t = Some (Ok t') /\ WF t' /\
    In s (subs t) /\ first_defs t = Some (data s) /\ tag (data s) = TEl EDefs /\ In (T (data s) ch) (subs t') /\
    (exists pre post, flat t = pre ++ (data s :: flat_map flat (kids s)) ++ post /\ flat t' = pre ++ (data s :: flat_map flat ch) ++ post) /\
    (forall c, In c ch -> (referenced t' (root_key c) \/ font_resource (data c)) /\ In c (flat_map subs (kids s))) /\
    (forall x, In x (flat t) -> In x (flat t') \/ ~ referenced t' (key x)).
Proof. intros W H. destruct (defs_fixpoint t W H) as (t' & s & ch & E & _ & R). exists t', s, ch. split; [exact E|exact R]. Qed.
Theorem C14_no_defs t : (forall d, In d (flat t) -> tag d <> TEl EDefs) -> remove_unused_defs t = Some Panic.
Proof.
  intros H. unfold remove_unused_defs. destruct (first_defs t) as [d|] eqn:F; [|reflexivity]. unfold first_defs in F. apply find_some in F. destruct F as [Hd Td]. exfalso. apply (H d Hd). unfold is_tag in Td. destruct (tag d) as [|e| | | |]; try discriminate. destruct (eid_eqb_spec e EDefs); congruence.
Qed.

(** Instance: an unused chain of gradients is removed, and a used path is moved out of an unused clipPath. *)
Definition defs_doc : tree :=
  doc [el 1 ESvg []
    [el 2 EDefs []
       [eli 3 ELinearGradient "a" [] [el 4 EStop [] []]; eli 5 ERadialGradient "b" [at_ AXlinkHref (VLink 3)] [];
        eli 6 EClipPath "c" [] [eli 7 EPath "p" [] []]; el 8 EFont [] []];
     el 9 EUse [at_ AXlinkHref (VLink 7)] []]].
Example C14_instance : WF defs_doc /\ (exists d, In d (flat defs_doc) /\ tag d = TEl EDefs) /\
  remove_unused_defs defs_doc = Some (Ok (doc [el 1 ESvg [] [el 2 EDefs [] [el 8 EFont [] []; eli 7 EPath "p" [] []]; el 9 EUse [at_ AXlinkHref (VLink 7)] []]])).
Proof.
  split; [split; [cbn; repeat constructor; cbn; intuition discriminate|intros k Hk; cbn in Hk |- *; intuition (subst; auto 12)]|].
  split; [exists (ND 2 (TEl EDefs) "" []); split; [cbn; auto|reflexivity]|]. vm_compute. reflexivity.
Qed.
Print Assumptions C14_fixpoint.
