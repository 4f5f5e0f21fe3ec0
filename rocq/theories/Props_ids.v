(** C55: the references of a cleaned document can be written as ids and read again. *)
From Coq Require Import List Bool NArith Arith ZArith String Lia QArith Qcanon.
From Verif Require Import Names Num IdNum SpecId IdNumProofs Value Dom DomFacts DomOps Outcome DomRemove VLoop SpecDom SpecWritten Links Gradients Cli TasksSimple TasksSimpleProofs GroupDefs Dupl Regroup RegroupProofs UseStep GroupStyle StyleTable GroupDefsProofs GroupDefsEnd MoveFacts Clean SpecClean Props_clean WfAll WfPasses WfStruct WfUse WfGrad SpecWf Props_wf SpecIds StillIds.
Import ListNotations.
Local Open Scope nat_scope.

(** * Documents and their ids *)
Section passes.
Variable so gen : bool.
Definition came : tree -> tree -> Prop := ids_kept (fun s => gen = true /\ generated_id s).
Lemma came_refl t : came t t. Proof. intros d Hd _. left. exists d. auto. Qed.
Lemma came_trans a b c : came a b -> came b c -> came a c.
Proof.
  intros H1 H2 d Hd N. destruct (H2 d Hd N) as [(e & He & K & I)|G]; [|now right]. destruct (H1 e He) as [(f & Hf & K' & I')|G]; [congruence|left; exists f; split; [exact Hf|split; congruence]|right; rewrite <- I; exact G].
Qed.
Definition IDS (t : tree) : Prop := ids_work t /\ (so = true -> only_svg_ids t).
Definition injective (C : nat -> string) : Prop := forall j k, C j = C k -> C j <> ""%string -> j = k.
Lemma svg_iff d : (nid d <> ""%string -> exists e, tag d = TEl e) <-> (is_svg_el d = false -> nid d = ""%string).
Proof.
  unfold is_svg_el. split.
  - intros H S. destruct (String.eqb_spec (nid d) "") as [E|N]; [exact E|]. destruct (H N) as (e & T). rewrite T in S. discriminate.
  - intros H N. destruct (tag d) as [|e| | | |]; try (contradiction N; now apply H). eauto.
Qed.
Lemma link_target t d y k : fine t -> In d (flat t) -> In y (attrs d) -> link_of (a_val y) = Some k -> exists n, In n (flat t) /\ key n = k.
Proof.
  intros F Hd Hy E. assert (H : In k (keys t)) by (apply (wf_links t (fine_wf t F)); apply (node_links_in t d); [exact Hd|exact (link_in _ _ _ Hy E)]). apply in_map_iff in H. destruct H as (n & A & B). eauto.
Qed.
Lemma ids_names t : fine t -> IDS t -> exists C, alln C so t /\ injective C /\ forall k, ~ In k (keys t) -> C k = ""%string.
Proof.
  intros F [[D Nm] S]. exists (fun k => match find_data k t with Some d => nid d | None => ""%string end).
  assert (V : forall d, In d (flat t) -> find_data (key d) t = Some d).
  { intros d Hd. destruct (find_data (key d) t) as [e|] eqn:E; [apply find_data_some in E; destruct E as [He Ke]; f_equal; apply (data_unique t); [apply F|assumption..]|]. exfalso. apply find_data_none in E. apply E. now apply in_map. }
  split; [|split].
  - intros d Hd. split; [split; [now rewrite (V d Hd)|intros Z; apply svg_iff; exact (S Z d Hd)]|]. intros y Hy k E. destruct (link_target t d y k F Hd Hy E) as (n & Hn & <-). rewrite (V n Hn). apply (Nm n Hn). exists d. split; [exact Hd|]. exists y. auto.
  - intros j k. destruct (find_data j t) as [d|] eqn:Ej; [|intros _ N; contradiction N; reflexivity]. destruct (find_data k t) as [e|] eqn:Ek; [|intros Q N; contradiction]. apply find_data_some in Ej, Ek. destruct Ej as [Hd <-], Ek as [He <-]. now apply D.
  - intros k N. destruct (find_data k t) as [d|] eqn:E; [|reflexivity]. apply find_data_some in E. destruct E as [Hd <-]. contradiction N. now apply in_map.
Qed.
Lemma names_ids C t : alln C so t -> injective C -> IDS t.
Proof.
  intros A J. split; [split|].
  - intros d e Hd He E N. destruct (A d Hd) as [[Ed _] _], (A e He) as [[Ee _] _]. apply J; congruence.
  - intros d Hd (n & Hn & y & Hy & E). destruct (A d Hd) as [[Ed _] _], (A n Hn) as [_ L]. rewrite Ed. exact (L y Hy (key d) E).
  - intros Z d Hd. apply svg_iff. exact (proj2 (proj1 (A d Hd)) Z).
Qed.
Definition outside (C : nat -> string) (t : tree) : Prop := forall k, ~ In k (keys t) -> C k = ""%string.
Lemma names_came C t t' : alln C so t -> outside C t -> alln C so t' -> came t t'.
Proof.
  intros A Z A' d' Hd N. left. destruct (A' d' Hd) as [[E _] _]. destruct (in_dec Nat.eq_dec (key d') (keys t)) as [H|H]; [|exfalso; apply N; rewrite E; now apply Z]. apply in_map_iff in H. destruct H as (d & K & Hd0). exists d. split; [exact Hd0|]. split; [exact K|]. destruct (A d Hd0) as [[E0 _] _]. congruence.
Qed.
(** * Passes *)
Lemma ids_same x o p t t' : ~ naming p -> fine t -> perform x o p t = Some (Ok t') -> IDS t -> IDS t' /\ came t t'.
Proof. intros N F E H. destruct (ids_names t F H) as (C & A & J & Z). assert (A' : alln C so t') by exact (n_perform C so x o p t t' N E A). split; [exact (names_ids C t' A' J)|exact (names_came C t t' A Z A')]. Qed.
Lemma ids_groupdefs t t' : fine t -> group_defs t = Ok t' -> IDS t -> IDS t' /\ came t t'.
Proof. intros F E H. destruct (ids_names t F H) as (C & A & J & Z). assert (A' : alln C so t') by exact (n_groupdefs C so t t' (Z _ (fresh_not t)) E A). split; [exact (names_ids C t' A' J)|exact (names_came C t t' A Z A')]. Qed.
Lemma gen_id_generated t : generated_id (gen_id "lg" t).
Proof. unfold gen_id. generalize (List.length (flat t)) as f. generalize 1 as n. intros n f. revert n. induction f as [|f IH]; intros n; cbn [gen_id_from]; [exists n; reflexivity|]. destruct (has_node_id _ _); [apply IH|exists n; reflexivity]. Qed.
Lemma ids_share k1 js t t' : fine t -> gen = true -> share k1 js t = Ok t' -> IDS t -> IDS t' /\ came t t'.
Proof.
  intros F Gn E H. destruct (ids_names t F H) as (C & A & J & Z). set (C' := fun k => if Nat.eqb k (fresh t) then gen_id "lg" t else C k).
  assert (Old : forall k, In k (keys t) -> C' k = C k). { intros k Hk. unfold C'. destruct (Nat.eqb_spec k (fresh t)) as [->|]; [contradiction (fresh_not t)|reflexivity]. }
  assert (New : forall k, C k <> gen_id "lg" t).
  { intros k Q. destruct (in_dec Nat.eq_dec k (keys t)) as [Hk|Hk]; [|rewrite (Z k Hk) in Q; exact (gen_id_nonempty t (eq_sym Q))]. apply in_map_iff in Hk. destruct Hk as (d & <- & Hd). apply (gen_id_free "lg" t). rewrite <- Q. destruct (A d Hd) as [[Ed _] _]. rewrite <- Ed. now apply in_map. }
  assert (A' : alln C' so t').
  { apply (n_share C' so k1 js t t'); [unfold C'; now rewrite Nat.eqb_refl|exact E|]. intros d Hd. destruct (A d Hd) as [[Ed Sd] L]. split; [split; [rewrite (Old (key d)); [exact Ed|now apply in_map]|exact Sd]|]. intros y Hy k Q. destruct (link_target t d y k F Hd Hy Q) as (n & Hn & <-). rewrite (Old (key n)); [exact (L y Hy _ Q)|now apply in_map]. }
  split; [apply (names_ids C' t' A')|].
  2: { intros d' Hd N. destruct (A' d' Hd) as [[E' _] _]. unfold C' in E'. destruct (Nat.eqb_spec (key d') (fresh t)) as [_|_]; [right; split; [exact Gn|]; rewrite E'; apply gen_id_generated|]. left. destruct (in_dec Nat.eq_dec (key d') (keys t)) as [Hk|Hk]; [|exfalso; apply N; rewrite E'; now apply Z]. apply in_map_iff in Hk. destruct Hk as (d & K & Hd0). exists d. split; [exact Hd0|]. split; [exact K|]. destruct (A d Hd0) as [[E0 _] _]. congruence. }
  - intros j k. unfold C'. destruct (Nat.eqb_spec j (fresh t)) as [->|]; destruct (Nat.eqb_spec k (fresh t)) as [->|]; auto.
    + intros Q. exfalso. exact (New k (eq_sym Q)).
    + intros Q. exfalso. exact (New j Q).
Qed.
Lemma ids_regroup_loop m : forall l t p, fine t -> nonest t -> ready_for l t -> gen = true -> regroup_loop m l t = Ok p -> IDS t -> fine (snd p) /\ IDS (snd p) /\ came t (snd p).
Proof.
  induction m as [|m IH]; intros l t p F U R Gn E H; [cbn in E; injection E as <-; auto using came_refl|]. destruct l as [|k1 rest]; cbn [regroup_loop] in E; [injection E as <-; auto using came_refl|]. cbv zeta in E.
  assert (Rr : ready_for (filter (fun k => negb (equal_stops t k1 k)) rest) t) by (intros k d Hk; apply filter_In in Hk; apply R; right; apply Hk).
  destruct (filter (equal_stops t k1) rest) as [|j js] eqn:Ej; [exact (IH _ _ _ F U Rr Gn E H)|]. apply bind_ok in E. destruct E as (t1 & E1 & E). apply bind_ok in E. destruct E as (q & E2 & E). injection E as <-. cbn [snd].
  assert (Eq : forall i, In i (j :: js) -> In i rest /\ In k1 (keys t) /\ In i (keys t)).
  { intros i Hi. rewrite <- Ej in Hi. apply filter_In in Hi. destruct Hi as [Hi Q]. split; [exact Hi|]. unfold equal_stops in Q. destruct (find_sub k1 t) as [s1|] eqn:Q1; [|discriminate]. destruct (find_sub i t) as [s2|] eqn:Q2; [|discriminate]. apply find_sub_some in Q1, Q2. destruct Q1 as [X1 <-], Q2 as [X2 <-]. split; now apply key_in_sub. }
  destruct (fine_share k1 (j :: js) t t1 F U) as (F1 & U1 & S1); [|apply (Eq j); now left|intros i Hi; now apply Eq|exact E1|].
  - intros k d [<-|Hk]; [apply R; now left|]. apply R. right. now apply Eq.
  - destruct (ids_share _ _ _ _ F Gn E1 H) as [H1 G1]. assert (X : fine (snd q) /\ IDS (snd q) /\ came t1 (snd q)); [|destruct X as (X1 & X2 & X3); exact (conj X1 (conj X2 (came_trans _ _ _ G1 X3)))]. refine (IH _ _ _ F1 U1 _ Gn E2 H1). intros k d Hk Hd Kd. destruct (S1 d Hd) as [Q|(d0 & Hd0 & A & B)]; [exact Q|]. unfold gradient_node. rewrite B. apply (Rr k d0); [exact Hk|exact Hd0|congruence].
Qed.
Lemma ids_regroup t t' : fine t -> nonest t -> gen = true -> regroup_gradient_stops t = Some (Ok t') -> IDS t -> IDS t' /\ came t t'.
Proof.
  intros F U Gn E H. unfold regroup_gradient_stops in E. destruct (regroup_loop _ _ t) as [[b t1]| |] eqn:E1; try discriminate. assert (Rf : ready_for (stop_owners t) t).
  { intros k d Hk Hd Kd. unfold stop_owners in Hk. apply in_map_iff in Hk. destruct Hk as (s & Ks & Hs). apply filter_In in Hs. destruct Hs as [Hs Q]. apply andb_true_iff in Q. destruct Q as [Q _]. apply andb_true_iff in Q. destruct Q as [Q _]. assert (d = data s) by (apply (data_unique t); [apply F|exact Hd|now apply data_of_sub|unfold root_key in Ks; congruence]). subst d. now apply is_gradient_iff. }
  destruct (ids_regroup_loop _ _ _ _ F U Rf Gn E1 H) as (F1 & H1 & G1). cbn [snd] in *. destruct b; [|injection E as <-; auto]. destruct (ids_names t1 F1 H1) as (C & A & J & Z). assert (A' : alln C so t') by exact (n_linear C so t1 t' E A). split; [exact (names_ids C t' A' J)|]. exact (came_trans _ _ _ G1 (names_came C t1 t' A Z A')).
Qed.
Lemma outside_incl C t t' : incl (keys t) (keys t') -> outside C t -> outside C t'.
Proof. intros I Z k N. apply Z. intros H. apply N. now apply I. Qed.
Lemma ids_style_one C t k ks all t' : fine t -> alln C so t -> outside C t -> style_one t k ks all = Ok t' -> alln C so t' /\ outside C t'.
Proof.
  intros F A Z E. unfold style_one in E. destruct (find_sub k t) as [s|] eqn:Es; [|injection E as <-; auto]. destruct (ancestors k [] t) as [anc|]; [|injection E as <-; auto]. destruct (_ && _); [|injection E as <-; auto].
  apply find_sub_some in Es. destruct Es as [Hs <-]. set (cs := filter (picked ks) (kids s)) in E.
  assert (O : forall r x, In r (table anc (data s) (map data cs)) -> In x (r_attrs r) -> exists c, In c (flat t) /\ In x (attrs c)).
  { intros r x Hr Hx. destruct (table_ok anc (data s) (map data cs)) as ((Q & _) & _). destruct (ro_cand _ _ _ (Q r Hr) x Hx) as (c & Hc & Hxc & _). apply in_map_iff in Hc. destruct Hc as (c0 & <- & Hc). apply filter_In in Hc. exists (data c0). split; [|exact Hxc]. apply data_of_sub. exact (Push.kid_sub s c0 t Hs (proj1 Hc)). }
  assert (L : forall r x k, In r (table anc (data s) (map data cs)) -> In x (r_attrs r) -> link_of (a_val x) = Some k -> In k (keys t)).
  { intros r x k Hr Hx X. destruct (O r x Hr Hx) as (c & Hc & Hxc). destruct (link_target t c x k F Hc Hxc X) as (n & Hn & <-). now apply in_map. }
  assert (D : forall r x, In r (table anc (data s) (map data cs)) -> In x (r_attrs r) -> P C (a_name x) (a_val x)).
  { intros r x Hr Hx. destruct (O r x Hr Hx) as (c & Hc & Hxc). exact (proj2 (A c Hc) x Hxc). }
  destruct (table anc (data s) (map data cs)) as [|r rs]; [injection E as <-; auto|]. cbv zeta in E. apply bind_ok in E. destruct E as ([[t1 p] rest] & E1 & E).
  assert (Q : fine t1 /\ incl (keys t) (keys t1) /\ incl rest (r :: rs) /\ alln C so t1).
  { destruct (_ =? _); [|injection E1 as <- _ <-; repeat split; auto using incl_refl; try apply F; apply A; assumption]. destruct all; apply bind_ok in E1; destruct E1 as (t2 & H2 & E1); injection E1 as <- _ <-.
    - destruct (fine_hoist _ _ _ _ _ (fine_to_end (root_key s) ks t F) (fun x k Hx X => keys_to_end (root_key s) ks t F k (L r x k (or_introl eq_refl) Hx X)) H2) as [B1 B2]. split; [exact B1|]. split; [rewrite B2; exact (keys_to_end _ _ t F)|]. split; [apply incl_tl, incl_refl|]. exact (n_hoist C so _ _ _ _ _ (fun x Hx => D r x (or_introl eq_refl) Hx) H2 (n_to_end C so _ _ _ A)).
    - destruct (fine_hoist _ _ _ _ _ (fine_gather (root_key s) ks t F) (fun x k Hx X => keys_gather (root_key s) ks t F k (L r x k (or_introl eq_refl) Hx X)) H2) as [B1 B2]. split; [exact B1|]. split; [rewrite B2; exact (keys_gather _ _ t F)|]. split; [apply incl_tl, incl_refl|]. exact (n_hoist C so _ _ _ _ _ (fun x Hx => D r x (or_introl eq_refl) Hx) H2 (n_gather C so _ _ _ _ (Z _ (fresh_not t)) A)). }
  destruct Q as (F1 & I1 & I2 & A1). pose proof (outside_incl C t t1 I1 Z) as Z1. destruct rest as [|r2 rest]; [injection E as <-; auto|]. destruct (longest_range (r_flags r2)) as [[i n]|]; [|discriminate].
  split; [exact (n_hoist C so _ _ _ _ _ (fun x Hx => D r2 x (I2 r2 (or_introl eq_refl)) Hx) E (n_gather C so _ _ _ _ (Z1 _ (fresh_not t1)) A1))|].
  assert (Hk : fine t' /\ keys t' = keys (gather p (firstn n (skipn i ks)) (fresh t1) t1)) by exact (fine_hoist _ _ _ _ _ (fine_gather p (firstn n (skipn i ks)) t1 F1) (fun x j Hx X => keys_gather p _ t1 F1 j (I1 j (L r2 x j (I2 r2 (or_introl eq_refl)) Hx X))) E).
  apply (outside_incl C t1); [|exact Z1]. rewrite (proj2 Hk). exact (keys_gather p _ t1 F1).
Qed.
Lemma ids_visit_style C : forall s t t', fine t -> alln C so t -> outside C t -> visit_style s t = Ok t' -> alln C so t' /\ outside C t'.
Proof.
  induction s as [d ch IH] using tree_ind'. intros t t' F A Z E. cbn [visit_style] in E. apply bind_ok in E. destruct E as ([[t1 ks] all] & E1 & E).
  assert (Q : fine t1 /\ alln C so t1 /\ outside C t1); [|destruct Q as (F1 & A1 & Z1); exact (ids_style_one C _ _ _ _ _ F1 A1 Z1 E)]. clear E. revert F A Z E1. generalize (@nil nat) at 3. generalize true. revert t. induction IH as [|c l Hc _ IHl]; intros t b l0 F A Z E; [injection E as <- _ _; auto|].
  destruct (negb _); [exact (IHl _ _ _ F A Z E)|]. destruct (_ || _); [exact (IHl _ _ _ F A Z E)|]. apply bind_ok in E. destruct E as (t2 & E2 & E). destruct (kids c); [injection E2 as <-; exact (IHl _ _ _ F A Z E)|]. destruct (Hc _ _ F A Z E2) as [A2 Z2]. exact (IHl _ _ _ (fine_visit_style _ _ _ F E2) A2 Z2 E).
Qed.
Lemma ids_style t t' : fine t -> group_by_style t = Ok t' -> IDS t -> IDS t' /\ came t t'.
Proof.
  intros F E H. destruct (ids_names t F H) as (C & A & J & Z). unfold group_by_style in E. destruct (svg_element t); [|discriminate]. pose proof (proj1 (ids_visit_style C _ t t' F A Z E)) as A'. split; [exact (names_ids C t' A' J)|exact (names_came C t t' A Z A')].
Qed.
(** Ids are removed and changed. *)
Lemma ids_removed t : IDS t -> IDS (remove_unreferenced_ids t) /\ came t (remove_unreferenced_ids t).
Proof.
  intros [[D Nm] S]. set (f := fun d => if has_id d && negb (is_used (key d) t) then with_id d "" else d).
  assert (O : forall d', In d' (flat (remove_unreferenced_ids t)) -> exists d, In d (flat t) /\ d' = f d). { intros d' H. unfold remove_unreferenced_ids in H. rewrite flat_tmap in H. apply in_map_iff in H. destruct H as (d & <- & Hd). exists d. auto. }
  assert (Ff : forall d, key (f d) = key d /\ tag (f d) = tag d /\ attrs (f d) = attrs d /\ (nid (f d) <> ""%string -> nid (f d) = nid d)). { intros d. unfold f. destruct (_ && _); repeat split; auto. intros N. now contradiction N. }
  split; [|intros d' Hd N; left; destruct (O d' Hd) as (d & Hd0 & ->); destruct (Ff d) as (K & _ & _ & I); exists d; split; [exact Hd0|split; [now symmetry|symmetry; now apply I]]].
  split; [split|].
  - intros d' e' Hd He E N. destruct (O d' Hd) as (d & Hd0 & ->), (O e' He) as (e & He0 & ->). destruct (Ff d) as (K1 & _ & _ & I1), (Ff e) as (K2 & _ & _ & I2). rewrite K1, K2. pose proof (I1 N) as Q1. assert (Q2 : nid (f e) = nid e) by (apply I2; congruence). apply D; congruence.
  - intros d' Hd (n' & Hn & y & Hy & E). destruct (O d' Hd) as (d & Hd0 & ->), (O n' Hn) as (n & Hn0 & ->). destruct (Ff d) as (K1 & _ & _ & _), (Ff n) as (_ & _ & A2 & _). rewrite A2 in Hy. rewrite K1 in E.
    assert (R : referenced t (key d)) by (exists n; split; [exact Hn0|exists y; auto]). pose proof (Nm d Hd0 R) as Q. apply referenced_iff in R. unfold f. rewrite R. cbn. rewrite andb_false_r. exact Q.
  - intros Z d' Hd N. destruct (O d' Hd) as (d & Hd0 & ->). destruct (Ff d) as (_ & T & _ & I). rewrite T. apply (S Z d Hd0). now rewrite <- (I N).
Qed.
Lemma forall2_ex {A B} (R : A -> B -> Prop) l l' : Forall2 R l l' -> forall y, In y l' -> exists x, In x l /\ R x y.
Proof. induction 1 as [|x y l l' Hxy _ IH]; intros z; [intros []|]. intros [<-|Hz]; [exists x; split; [now left|exact Hxy]|]. destruct (IH z Hz) as (w & A1 & A2). exists w. split; [now right|exact A2]. Qed.
Lemma inj_in {A B} (f : A -> B) l : NoDup (map f l) -> forall x y, In x l -> In y l -> f x = f y -> x = y.
Proof.
  induction l as [|a l IH]; intros N x y Hx Hy E; [destruct Hx|]. cbn in N. inversion N as [|? ? Na Nl]; subst. destruct Hx as [<-|Hx], Hy as [<-|Hy]; auto.
  - exfalso. apply Na. rewrite E. now apply in_map.
  - exfalso. apply Na. rewrite <- E. now apply in_map.
Qed.
Lemma trim_list_named l n : (Z.of_nat (n + id_count l) <= capacity)%Z ->
  Forall2 (fun d d' => d' = (if svg_with_id d then with_id d (nid d') else d) /\ (svg_with_id d = true -> nid d' <> ""%string)) l (trim_list n l).
Proof.
  revert n. induction l as [|d l IH]; intros n Hn; [constructor|].
  unfold id_count in *. cbn [trim_list filter] in *. fold (svg_with_id d) in *. destruct (svg_with_id d) eqn:P.
  - cbn [List.length] in *. destruct (nth_id n) as [s|] eqn:E.
    + constructor; [rewrite P; split; [reflexivity|intros _; exact (nth_id_nonempty _ _ E)]|]. apply IH. lia.
    + exfalso. assert (nth_id n <> None); [|congruence]. apply nth_id_total. lia.
  - constructor; [rewrite P; split; [reflexivity|discriminate]|]. apply IH. lia.
Qed.
Lemma ids_trimmed t t' : so = true -> trim_ids t = Ok t' -> IDS t -> IDS t'.
Proof.
  intros So E [[D Nm] S]. specialize (S So). assert (R : Forall2 (fun d d' => d' = (if svg_with_id d then with_id d (nid d') else d) /\ (svg_with_id d = true -> nid d' <> ""%string)) (flat t) (flat t')) by (pose proof (trim_count t t' E); rewrite (trim_ids_flat t t' E); apply trim_list_named; lia). pose proof (trim_distinct t t' E) as Nd.
  assert (O : forall d', In d' (flat t') -> exists d, In d (flat t) /\ d' = (if svg_with_id d then with_id d (nid d') else d) /\ (svg_with_id d = true -> nid d' <> ""%string)) by (intros d' H; exact (forall2_ex _ _ _ R d' H)).
  assert (Ff : forall d d', d' = (if svg_with_id d then with_id d (nid d') else d) -> key d' = key d /\ tag d' = tag d /\ attrs d' = attrs d). { intros d d' ->. destruct (svg_with_id d); auto. }
  assert (Sw : forall d d', In d (flat t) -> d' = (if svg_with_id d then with_id d (nid d') else d) -> nid d' <> ""%string -> svg_with_id d' = true).
  { intros d d' Hd Q N. destruct (Ff d d' Q) as (_ & T & _). unfold svg_with_id, has_id in *. apply andb_true_intro. split; [|apply negb_true_iff; now apply String.eqb_neq].
    destruct (is_svg_el d) eqn:Sv; [unfold is_svg_el in *; now rewrite T|]. exfalso. cbn in Q. rewrite Q in N. destruct (S d Hd N) as (e & Te). unfold is_svg_el in Sv. rewrite Te in Sv. discriminate. }
  split; [split|].
  - intros d' e' Hd He Eq N. destruct (O d' Hd) as (d & Hd0 & Qd & _), (O e' He) as (e & He0 & Qe & _). pose proof (Sw d d' Hd0 Qd N) as S1. assert (S2 : svg_with_id e' = true) by (apply (Sw e e' He0 Qe); congruence).
    f_equal. apply (inj_in nid (filter svg_with_id (flat t')) Nd); [apply filter_In; auto|apply filter_In; auto|exact Eq].
  - intros d' Hd (n' & Hn & y & Hy & El). destruct (O d' Hd) as (d & Hd0 & Qd & Nz), (O n' Hn) as (n & Hn0 & Qn & _). destruct (Ff n n' Qn) as (_ & _ & An). destruct (Ff d d' Qd) as (Kd & Td & _). rewrite An in Hy. rewrite Kd in El.
    assert (Nn : nid d <> ""%string) by (apply (Nm d Hd0); exists n; split; [exact Hn0|exists y; auto]). assert (Sd : svg_with_id d = true). { unfold svg_with_id. apply andb_true_intro. split; [destruct (S d Hd0 Nn) as (e & Te); unfold is_svg_el; now rewrite Te|]. unfold has_id. apply negb_true_iff. now apply String.eqb_neq. }
    exact (Nz Sd).
  - intros _ d' Hd N. destruct (O d' Hd) as (d & Hd0 & Qd & _). destruct (Ff d d' Qd) as (_ & T & _). rewrite T. pose proof (Sw d d' Hd0 Qd N) as X. unfold svg_with_id in X. apply andb_prop in X. destruct X as [X _]. unfold is_svg_el in X. rewrite <- T. destruct (tag d') as [|e| | | |]; try discriminate. eauto.
Qed.
(** * Every pass, and cleaning *)
Lemma ids_perform x o p t t' : (p = PTrimIds -> so = true) -> (p = PRegroupStops -> gen = true) -> fine t -> calm p t -> perform x o p t = Some (Ok t') -> IDS t -> IDS t' /\ (p <> PTrimIds -> came t t').
Proof.
  intros Tr Gn F C E H. assert (D : naming p \/ ~ naming p) by (destruct p; try (left; unfold naming; cbn; tauto); right; unfold naming; cbn; intuition discriminate).
  destruct D as [D|D]; [|destruct (ids_same x o p t t' D F E H) as [A1 A2]; auto]. unfold naming in D. cbn in D. destruct D as [<-|[<-|[<-|[<-|[<-|[]]]]]]; cbn [perform] in E.
  - injection E as E. destruct (ids_groupdefs t t' F E H); auto.
  - destruct (ids_regroup t t' F (nonest_spec t F C) (Gn eq_refl) E H); auto.
  - injection E as E. destruct (ids_style t t' F E H); auto.
  - injection E as E. rewrite <- E. destruct (ids_removed t H); auto.
  - injection E as E. split; [exact (ids_trimmed t t' (Tr eq_refl) E H)|intros Q; now contradiction Q].
Qed.
Lemma ids_runs x o : forall l t r, runs x o l t r -> forall t', r = Some (Ok t') -> (In PTrimIds l -> so = true) -> (In PRegroupStops l -> gen = true) -> fine t ->
  (forall pre p post t1, l = pre ++ p :: post -> runs x o pre t (Some (Ok t1)) -> calm p t1) -> IDS t -> IDS t' /\ (~ In PTrimIds l -> came t t').
Proof.
  intros l t r R. induction R as [t|p l t t1 r E R IH| | |]; intros t' Q Tr Gn F C HI; try discriminate; [injection Q as <-; auto using came_refl|].
  pose proof (C [] p l t eq_refl (runs_done _ _ _)) as Cp. destruct (ids_perform x o p t t1) as [I1 G1]; [intros ->; apply Tr; now left|intros ->; apply Gn; now left|exact F|exact Cp|exact E|exact HI|].
  destruct (IH t' Q) as [I2 G2]; [intros X; apply Tr; now right|intros X; apply Gn; now right|exact (fine_perform x o p t t1 F Cp E)| |exact I1|].
  - intros pre q post t2 -> R2. apply (C (p :: pre) q post t2 eq_refl). now apply (runs_next x o p pre t t1).
  - split; [exact I2|]. intros N. apply (came_trans _ t1); [apply G1; intros ->; apply N; now left|apply G2; intros X; apply N; now right].
Qed.
Lemma ids_clean x o t t' : (o_trim_ids o = true -> so = true) -> (o_regroup_gradient_stops o = true -> gen = true) -> well_formed t -> calm_run x o t -> clean_doc x o t = Some (Ok t') -> IDS t -> IDS t' /\ (o_trim_ids o = false -> came t t').
Proof.
  rewrite well_formed_fine. intros Tr Gn F C E H. destruct (preclean_checks t) as [[]|e|] eqn:P; [|unfold clean_doc in E; rewrite P in E; discriminate..].
  destruct (ids_runs x o (filter (enabled o) pipeline) t (Some (Ok t'))) with (t' := t') as [A1 A2]; auto; [now apply C45_pipeline|intros X; apply Tr; apply filter_In in X; exact (proj2 X)|intros X; apply Gn; apply filter_In in X; exact (proj2 X)|].
  split; [exact A1|]. intros Q. apply A2. intros X. apply filter_In in X. destruct X as [_ X]. cbn [enabled] in X. congruence.
Qed.
End passes.
(** Every pass keeps the ids in order. Trimming the ids needs that only SVG elements have them. *)
Theorem C55_pass_partial x o p t t' : well_formed t -> calm p t -> ids_work t -> (p = PTrimIds -> only_svg_ids t) -> perform x o p t = Some (Ok t') ->
  ids_work t' /\ (only_svg_ids t -> only_svg_ids t').
Proof.
  rewrite well_formed_fine. intros F C W S E. split.
  - destruct (Bool.bool_dec (match p with PTrimIds => true | _ => false end) true) as [B|B].
    + assert (S' : only_svg_ids t) by (apply S; destruct p; discriminate || reflexivity). exact (proj1 (proj1 (ids_perform true true x o p t t' (fun _ => eq_refl) (fun _ => eq_refl) F C E (conj W (fun _ => S'))))).
    + refine (proj1 (proj1 (ids_perform false true x o p t t' _ (fun _ => eq_refl) F C E (conj W (fun Q => False_ind _ (diff_false_true Q)))))). intros ->. contradiction B; reflexivity.
  - intros S'. exact (proj2 (proj1 (ids_perform true true x o p t t' (fun _ => eq_refl) (fun _ => eq_refl) F C E (conj W (fun _ => S')))) eq_refl).
Qed.
Theorem C55_ids_work_partial x o t t' : well_formed t -> calm_run x o t -> ids_work t -> (o_trim_ids o = true -> only_svg_ids t) -> clean_doc x o t = Some (Ok t') -> ids_work t'.
Proof.
  intros W C I S E. exact (proj1 (proj1 (ids_clean (o_trim_ids o) true x o t t' (fun Q => Q) (fun _ => eq_refl) W C E (conj I S)))).
Qed.
(** What is read in the saved document for a reference is what is meant. *)
Lemma resolves t d : ids_work t -> In d (flat t) -> nid d <> ""%string -> resolves_to t (nid d) = Some (key d).
Proof.
  intros [D _] Hd N. unfold resolves_to. destruct (find _ (flat t)) as [e|] eqn:E.
  - apply find_some in E. destruct E as [He Q]. apply String.eqb_eq in Q. cbn. f_equal. apply D; congruence.
  - exfalso. apply (find_none _ _ E) in Hd. rewrite String.eqb_refl in Hd. discriminate.
Qed.
Theorem C55_references_read_again_partial x o t t' : well_formed t -> calm_run x o t -> ids_work t -> (o_trim_ids o = true -> only_svg_ids t) -> clean_doc x o t = Some (Ok t') ->
  forall n k, In n (flat t') -> refers_to n k -> exists d, In d (flat t') /\ key d = k /\ nid d <> ""%string /\ resolves_to t' (nid d) = Some k.
Proof.
  intros W C I S E n k Hn R. pose proof (C55_ids_work_partial x o t t' W C I S E) as I'. destruct (C08_clean_partial x o t t' W C E) as [_ Dl _ _]. assert (Rf : referenced t' k) by (exists n; auto). destruct (Dl k Rf) as (d & Hd & <-). exists d. split; [exact Hd|]. split; [reflexivity|]. pose proof (iw_named t' I' d Hd Rf) as N. split; [exact N|]. now apply resolves.
Qed.
(** Without the three passes that need calm documents, for every document. *)
Theorem C55_references_read_again x o t t' : o_merge_gradients o = false -> o_regroup_gradient_stops o = false -> o_resolve_use o = false -> o_trim_ids o = false ->
  well_formed t -> ids_work t -> clean_doc x o t = Some (Ok t') ->
  forall n k, In n (flat t') -> refers_to n k -> exists d, In d (flat t') /\ key d = k /\ nid d <> ""%string /\ resolves_to t' (nid d) = Some k.
Proof.
  intros H1 H2 H3 H4 W I E. apply (C55_references_read_again_partial x o t t' W); [|exact I|intros Q; congruence|exact E]. intros pre p post t1 Q _. assert (H : In p (filter (enabled o) pipeline)) by (rewrite Q; apply in_or_app; right; now left).
  apply filter_In in H. destruct H as [_ H]. destruct p; cbn in H; try exact Logic.I; congruence.
Qed.
(** If ids are not to be trimmed, elements keep their ids, and only regroup_gradient_stops makes new ones. *)
Theorem C55_ids_kept_partial x o t t' : well_formed t -> calm_run x o t -> ids_work t -> o_trim_ids o = false -> clean_doc x o t = Some (Ok t') ->
  ids_kept (fun s => o_regroup_gradient_stops o = true /\ generated_id s) t t'.
Proof.
  intros W C I Tr E. exact (proj2 (ids_clean false (o_regroup_gradient_stops o) x o t t' (fun Q => False_ind _ (diff_false_true (eq_trans (eq_sym Tr) Q))) (fun Q => Q) W C E (conj I (fun Q => False_ind _ (diff_false_true Q)))) Tr).
Qed.
(** [only_svg_ids] is needed: trim_ids does not look at the ids of other elements, and gives one of them a second time. *)
Definition foreign_id_doc : tree := doc [el 1 ESvg [] [
  el 2 EDefs [] [T (ND 6 (TOtherEl "meta") "a" []) []; eli 3 EClipPath "clip" [] [el 4 ERect [at_ AWidth (px 2); at_ AHeight (px 3)] []]];
  el 5 ERect [at_ AClipPath (VFunc 3); at_ AWidth (px 2); at_ AHeight (px 3)] []]].
Definition few : cleaning_options := {|
  o_remove_unused_defs := false; o_convert_shapes := false; o_remove_title := false; o_remove_desc := false; o_remove_metadata := false;
  o_remove_dupl_linear_gradients := false; o_remove_dupl_radial_gradients := false; o_remove_dupl_fe_gaussian_blur := false;
  o_ungroup_groups := false; o_ungroup_defs := false; o_group_by_style := false; o_merge_gradients := false; o_regroup_gradient_stops := false;
  o_remove_invalid_stops := false; o_remove_invisible_elements := false; o_resolve_use := false; o_remove_version := false;
  o_remove_unreferenced_ids := false; o_trim_ids := true; o_remove_text_attributes := false; o_remove_unused_coordinates := false;
  o_remove_default_attributes := false; o_remove_xmlns_xlink_attribute := false; o_remove_needless_attributes := false;
  o_remove_gradient_attributes := false; o_apply_transform_to_gradients := false; o_apply_transform_to_shapes := false;
  o_paths_to_relative := false; o_remove_unused_segments := false; o_convert_segments := false; o_append_newline := false; o_apply_transform_to_paths := false;
  o_join_style_attributes := JoinNone; o_coordinates_precision := 6; o_properties_precision := 6;
  o_paths_coordinates_precision := 8; o_transforms_precision := 8 |}.
Lemma few_calm t : calm_run lib few t.
Proof. intros pre p post t1 Q _. assert (H : In p (filter (enabled few) pipeline)) by (rewrite Q; apply in_or_app; right; now left). apply filter_In in H. destruct H as [_ H]. destruct p; try exact Logic.I; discriminate H. Qed.
Ltac ids_here := split; [split;
  [intros d d' Hd Hd'; cbn in Hd, Hd'; repeat (destruct Hd as [<-|Hd]; [repeat (destruct Hd' as [<-|Hd']; [now cbn|]); destruct Hd'|]); destruct Hd
  |intros d Hd (n & Hn & y & Hy & L); cbn in Hn; repeat (destruct Hn as [<-|Hn]; [cbn in Hy; repeat (destruct Hy as [<-|Hy]; [cbn in L; try discriminate L; injection L as L; cbn in Hd; repeat (destruct Hd as [<-|Hd]; [now cbn in *|]); destruct Hd|]); destruct Hy|]); destruct Hn]|].
Theorem C55_foreign_ids_refuted : exists t t', well_formed t /\ calm_run lib few t /\ ids_work t /\ clean_doc lib few t = Some (Ok t') /\
  exists n k d, In n (flat t') /\ refers_to n k /\ In d (flat t') /\ key d = k /\ resolves_to t' (nid d) <> Some k.
Proof.
  assert (W : ids_work foreign_id_doc /\ True) by (ids_here; exact Logic.I).
  exists foreign_id_doc. eexists. split; [apply well_formed_fine, fine_b_spec; [vm_compute; reflexivity|wfa]|]. split; [apply few_calm|]. split; [exact (proj1 W)|]. split; [vm_compute; reflexivity|].
  eexists _, 3, _. split; [right; right; right; right; right; right; left; reflexivity|]. split; [eexists; split; [left; reflexivity|reflexivity]|]. split; [right; right; right; right; left; reflexivity|]. split; [reflexivity|]. vm_compute. discriminate.
Qed.

(** An instance: gradients that are merged, a new gradient for equal stops, a use element that is resolved, and all ids trimmed. *)
Example C55_instance : well_formed link_doc /\ calm_run lib all_on link_doc /\ ids_work link_doc /\ only_svg_ids link_doc /\
  match clean_doc lib all_on link_doc with
  | Some (Ok t') => map (fun d => (key d, nid d)) (filter (fun d => negb (String.eqb (nid d) "")) (flat t')) = [(24, "a"); (3, "b"); (7, "c")]%string /\
      resolves_to t' "a" = Some 24 /\ existsb (fun d => existsb (Nat.eqb 24) (node_links d)) (flat t') = true
  | _ => False end.
Proof.
  assert (F : fine link_doc) by (apply fine_b_spec; [vm_compute; reflexivity|wfa]). split; [now apply well_formed_fine|]. split; [apply calm_steps_spec; [exact F|vm_compute; reflexivity]|].
  assert (W : ids_work link_doc /\ True) by (ids_here; exact Logic.I). split; [exact (proj1 W)|]. split.
  - intros d Hd N. cbn in Hd. repeat (destruct Hd as [<-|Hd]; [first [now contradiction N|eexists; reflexivity]|]). destruct Hd.
  - vm_compute. repeat split.
Qed.
Print Assumptions C55_pass_partial.
Print Assumptions C55_ids_work_partial.
Print Assumptions C55_references_read_again_partial.
Print Assumptions C55_references_read_again.
Print Assumptions C55_ids_kept_partial.
Print Assumptions C55_foreign_ids_refuted.
