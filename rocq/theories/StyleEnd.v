(** Proofs about group_by_style: the whole pass. *)
From Coq Require Import List Bool NArith Arith ZArith String Lia QArith Qcanon Permutation.
From Verif Require Import Names Num Value Dom DomFacts DomOps Outcome Stops Shapes Move MoveFacts SpecDom SpecStyle SpecText Visit Transforms Regroup ResolveUse SpecPaint PaintFacts Img UseProofs UseStep UseEnd Push Melt SpecUse SpecUngroup UngroupProofs UngroupKeep UngroupEnd TasksSimpleProofs Props_shapes GroupDefsEnd GroupStyle StyleTable SpecGroupStyle StyleMove StyleHoist.
Import ListNotations.
Local Open Scope nat_scope.

(** ** Slices *)
Lemma filter_app_inv {A} (f : A -> bool) l : forall u v, filter f l = u ++ v -> exists l1 l2, l = l1 ++ l2 /\ filter f l1 = u /\ filter f l2 = v.
Proof.
  induction l as [|x l IH]; intros u v; cbn.
  - intros E. symmetry in E. apply app_eq_nil in E. destruct E as [-> ->]. exists [], []. auto.
  - destruct (f x) eqn:F.
    + destruct u as [|y u]; cbn.
      * intros <-. exists [], (x :: l). cbn. rewrite F. auto.
      * intros E. inversion E; subst. match goal with X : filter f l = _ |- _ => destruct (IH _ _ X) as (l1 & l2 & -> & E1 & E2) end. exists (y :: l1), l2. cbn. rewrite F, E1. auto.
    + intros E. destruct (IH _ _ E) as (l1 & l2 & -> & E1 & E2). exists (x :: l1), l2. cbn. rewrite F. auto.
Qed.
Lemma slice_part ks ch i n : slice ks ch -> slice (firstn n (skipn i ks)) ch.
Proof.
  intros (B1 & A & B2 & -> & ->). rewrite skipn_map, firstn_map. set (l := filter svg A).
  assert (E : l = firstn i l ++ firstn n (skipn i l) ++ skipn n (skipn i l)) by now rewrite !firstn_skipn.
  destruct (filter_app_inv svg A _ _ E) as (A1 & A' & -> & E1 & E2). destruct (filter_app_inv svg A' _ _ E2) as (A2 & A3 & -> & E3 & E4).
  exists (B1 ++ A1), A2, (A3 ++ B2). split; [now rewrite <- ?app_assoc|]. f_equal. symmetry. exact E3.
Qed.
Lemma slice_filter ks ch : NoDup (map root_key ch) -> slice ks ch -> map root_key (filter (picked ks) ch) = ks /\ forall c, In c ch -> picked ks c = true -> svg c = true.
Proof.
  intros N (B1 & A & B2 & E & En). pose proof (fun c => picked_iff ks ch B1 A B2 c N E En) as PI. split; [|intros c Hc P; now apply (PI c Hc)].
  assert (F : filter (picked ks) ch = filter svg A); [|now rewrite F, <- En].
  rewrite E at 1. rewrite !filter_app. rewrite (filter_none (picked ks) B1), (filter_none (picked ks) B2), app_nil_r.
  - cbn. apply filter_ext_in'. intros x Hx. assert (Hc : In x ch) by (rewrite E, !in_app_iff; tauto). pose proof (PI x Hc) as Z. destruct (svg x); [apply Z; auto|]. destruct (picked ks x); [|reflexivity]. destruct (proj1 Z eq_refl). congruence.
  - intros x Hx. destruct (picked ks x) eqn:Q; [exfalso|reflexivity]. assert (Hc : In x ch) by (rewrite E, !in_app_iff; tauto). apply (PI x Hc) in Q. destruct Q as [Q _]. rewrite E, app_assoc, map_app in N. apply NoDup_app_inv in N. destruct N as (_ & _ & D). apply (D (root_key x)); apply in_map; [apply in_or_app; now right|exact Hx].
  - intros x Hx. destruct (picked ks x) eqn:Q; [exfalso|reflexivity]. assert (Hc : In x ch) by (rewrite E, !in_app_iff; tauto). apply (PI x Hc) in Q. destruct Q as [Q _]. rewrite E, map_app in N. apply NoDup_app_inv in N. destruct N as (_ & _ & D). apply (D (root_key x)); apply in_map; [exact Hx|apply in_or_app; now left].
Qed.
(** Slices depend on keys and tags only. *)
Lemma slice_skel ks ch ch' : map (fun c => (root_key c, tag (data c))) ch = map (fun c => (root_key c, tag (data c))) ch' -> slice ks ch -> slice ks ch'.
Proof.
  intros E (B1 & A & B2 & -> & ->). rewrite !map_app in E. symmetry in E. apply map_eq_app in E. destruct E as (C1 & r & -> & _ & E). apply map_eq_app in E. destruct E as (C2 & C3 & -> & E & _). exists C1, C2, C3. split; [reflexivity|].
  revert C2 E. clear. induction A as [|x A IH]; intros [|y C] E; try discriminate; [reflexivity|]. cbn in *. inversion E as [[E1 E2 E3]]. assert (Es : svg y = svg x) by (unfold svg, is_svg_el; now rewrite E2). rewrite Es. destruct (svg x); cbn; rewrite (IH _ E3); congruence.
Qed.

(** ** How many children new groups have *)
Definition crowd (t t' : tree) : Prop := forall s', In s' (subs t') -> In (root_key s') (keys t) \/ 2 <= List.length (kids s').
Lemma crowd_refl t : crowd t t. Proof. intros s Hs. left. exact (key_in_sub _ _ Hs). Qed.
Lemma crowd_trans D t t1 t2 : NoDup (keys t2) -> crowd t t1 -> crowd t1 t2 -> frame D t1 t2 -> (forall k, D k -> In k (keys t)) -> crowd t t2.
Proof.
  intros N C1 C2 F H s2 H2. destruct (C2 s2 H2) as [K|K]; [|now right]. unfold keys in K. rewrite <- map_data_subs, map_map in K. apply in_map_iff in K. destruct K as (s1 & E & H1). destruct (C1 s1 H1) as [Q|Q]; [left; unfold root_key in *; now rewrite <- E|].
  destruct (in_dec Nat.eq_dec (root_key s1) (keys t)) as [I|I]; [left; unfold root_key in *; now rewrite <- E|]. destruct (F s1 H1) as (s3 & H3 & K3 & _ & S3); [intros X; apply I, H, X|]. assert (s3 = s2) by (apply (sub_unique t2); auto; unfold root_key in *; congruence). subst s3. right.
  unfold skel in S3. apply (f_equal (@List.length _)) in S3. rewrite !map_length in S3. lia.
Qed.
Lemma crowd_keys t t' : (forall k, In k (keys t') -> In k (keys t)) -> crowd t t'.
Proof. intros H s Hs. left. apply H. exact (key_in_sub _ _ Hs). Qed.
Lemma two_in {A} (x y : A) l : In x l -> In y l -> x <> y -> 2 <= List.length l.
Proof. destruct l as [|a [|b l]]; cbn; intros Hx Hy Ne; [contradiction| |lia]. exfalso. destruct Hx as [<-|[]], Hy as [<-|[]]. now apply Ne. Qed.
Lemma pull_keep ns g ch c : In c ch -> picked ns c = false -> In c (pull ns g ch).
Proof.
  intros Hc P. induction ch as [|x l IH]; [contradiction|]. cbn [pull]. destruct (picked ns x) eqn:Q; [right; apply filter_In; destruct Hc as [->|Hc]; [congruence|]; now rewrite P|]. destruct Hc as [->|Hc]; [now left|right; auto].
Qed.
Lemma join_next l : forall r a b rest, join_from r l = a :: b :: rest -> r_flags a = r_flags r /\ r_flags b <> r_flags r.
Proof.
  assert (H0 : forall l r a rest, join_from r l = a :: rest -> r_flags a = r_flags r).
  { induction l0 as [|x l0 IH]; cbn [join_from]; intros r a rest E; [now injection E as <- _|]. destruct (flags_eqb (r_flags r) (r_flags x)); [apply IH in E; exact E|now injection E as <- _]. }
  induction l as [|x l IH]; cbn [join_from]; intros r a b rest E; [discriminate|]. destruct (flags_eqb (r_flags r) (r_flags x)) eqn:Q; [exact (IH _ _ _ _ E)|]. injection E as <- E. split; [reflexivity|]. apply H0 in E. rewrite E. intros X. rewrite X in Q. assert (Y : forall f, flags_eqb f f = true) by (induction f as [|[|] f IHf]; cbn; auto). rewrite Y in Q. discriminate.
Qed.
Lemma full_flags f : count_flags f = List.length f -> f = repeat true (List.length f).
Proof.
  assert (L : forall f, count_flags f <= List.length f) by (intros g; unfold count_flags; induction g as [|b g IH]; cbn; [lia|destruct b; cbn; lia]).
  induction f as [|b f IH]; cbn; intros H; [reflexivity|]. specialize (L f). unfold count_flags in *. cbn in H. destruct b; cbn in H; [f_equal; apply IH; lia|lia].
Qed.
Lemma join_not_full l a b rest n : join_rows l = a :: b :: rest -> count_flags (r_flags a) = n -> List.length (r_flags a) = n -> List.length (r_flags b) = n -> count_flags (r_flags b) <> n.
Proof.
  destruct l as [|r l]; [discriminate|]. cbn [join_rows]. intros E C L1 L2 X. destruct (join_next _ _ _ _ _ E) as [A B]. apply B. rewrite <- A. rewrite (full_flags (r_flags b)), (full_flags (r_flags a)) by congruence. now rewrite L1, L2.
Qed.
Lemma count_full f : (forall j, j < List.length f -> nth_error f j = Some true) -> count_flags f = List.length f.
Proof.
  induction f as [|b f IH]; intros H; [reflexivity|]. pose proof (H 0 ltac:(cbn; lia)) as H0. cbn in H0. injection H0 as ->. unfold count_flags in *. cbn. f_equal. apply IH. intros j Hj. apply (H (S j)). cbn. lia.
Qed.

Lemma pull_group ns g ch : map root_key (filter (picked ns) ch) <> [] -> In (T (new_group g) (filter (picked ns) ch)) (pull ns g ch).
Proof.
  assert (H : forall all l, (forall c, In c all -> picked ns c = false) -> filter (picked ns) l <> [] -> In (T (new_group g) (filter (picked ns) l)) (pull ns g l)).
  { intros _ l _. induction l as [|x l IH]; intros Ne; [now destruct Ne|]. cbn [pull]. destruct (picked ns x) eqn:Q; [now left|]. right. cbn [filter] in *. rewrite Q in *. now apply IH. }
  intros Ne. apply (H [] ch); [intros c []|]. intros X. now rewrite X in Ne.
Qed.
Lemma nodup_map_filter {A B} (f : A -> B) g l : NoDup (map f l) -> NoDup (map f (filter g l)).
Proof.
  induction l as [|x l IH]; [auto|]. cbn [map filter]. intros H. inversion H as [|? ? H1 H2]; subst. destruct (g x); [|auto]. cbn [map]. constructor; [|auto]. intros X. apply H1. apply in_map_iff in X. destruct X as (y & <- & Hy). apply in_map. now apply filter_In in Hy.
Qed.

(** ** A new group *)
Lemma sub_group uu t P ns l : sready t -> In P (subs t) -> holder (data P) -> slice ns (kids P) -> ns <> [] ->
  (forall c, In c (kids P) -> picked ns c = true -> tag (data c) <> TEl EDefs /\ incl l (attrs (data c)) /\ ~ referenced t (root_key c)) ->
  NoDup (map a_name l) -> (forall x, In x l -> movable x) ->
  exists t' f G, hoist (fresh t) ns l (gather (root_key P) ns (fresh t) t) = Ok t' /\ step uu t t' /\ frame (eq (root_key P)) t t' /\
    In G (subs t') /\ root_key G = fresh t /\ tag (data G) = TEl EG /\ kids G = map (tmap f) (filter (picked ns) (kids P)) /\ (forall d, key (f d) = key d) /\ (forall d, tag (f d) = tag d) /\
    (forall c, In c (kids P) -> picked ns c = true -> f (data c) = d_rm_list (data c) (attr_ids l)) /\
    (forall s', In s' (subs t') -> In (root_key s') (keys t) \/ root_key s' = fresh t) /\ exists P', In P' (subs t') /\ root_key P' = root_key P /\ kids P' = map (tmap f) (pull ns (fresh t) (kids P)).
Proof.
  intros R HP TP Sl Ne Kid Nl Mv. pose proof (wf_keys t (s_wf t R)) as N. pose proof (kids_nodup t P N HP) as Nk. destruct (slice_filter ns (kids P) Nk Sl) as (F1 & F2).
  destruct (gather_ok uu t P ns R HP TP Sl Ne (fun c Hc Pc => proj1 (Kid c Hc Pc))) as (St & HP1 & HG & Fr & Nw). set (t1 := gather (root_key P) ns (fresh t) t) in *. set (G := T (new_group (fresh t)) (filter (picked ns) (kids P))) in *.
  pose proof (kid_sub _ G t1 HP1 HG) as HG1. assert (Kg : forall c, In c (kids G) -> In c (kids P) /\ picked ns c = true) by (intros c Hc; now apply filter_In in Hc).
  destruct (hoist_ok uu t1 G ns l (st_ready _ _ _ St) HG1) as (f & E & St2 & Kf & Tf & Kid2); auto.
  - now left.
  - intros c Hc. destruct (Kg c Hc) as [A B]. unfold picked in B. rewrite B. symmetry. now apply F2.
  - intros k Hk. rewrite <- F1 in Hk. apply in_map_iff in Hk. destruct Hk as (c & <- & Hc). exists c. auto.
  - destruct ns as [|k ns']; [congruence|]. assert (Hk : In k (map root_key (filter (picked (k :: ns')) (kids P)))) by (rewrite F1; now left). apply in_map_iff in Hk. destruct Hk as (c & _ & Hc). exists c. split; [exact Hc|]. apply filter_In in Hc. now apply F2.
  - intros c Hc _. destruct (Kg c Hc) as [A B]. destruct (Kid c A B) as (_ & I & U). split; [exact I|]. intros X. apply U. now apply (st_ref _ _ _ St).
  - intros X. apply (st_ref _ _ _ St) in X. destruct X as (d & Hd & x & Hx & Ex). apply (fresh_not t). apply (wf_links t (s_wf t R)). apply targets_in. eauto.
  - intros _. split; [reflexivity|]. intros a v [].
  - exists (tmap f t1), f, (tmap f G). split; [exact E|]. split; [exact (step_trans _ _ _ _ St St2)|]. split; [apply (frame_trans _ _ _ _ Fr); now apply frame_tmap|]. split; [rewrite subs_tmap; now apply in_map|]. split; [unfold root_key; rewrite data_tmap, Kf; reflexivity|]. split; [rewrite data_tmap, Tf; reflexivity|]. split; [now rewrite kids_tmap|]. split; [exact Kf|]. split; [exact Tf|].
    split; [intros c Hc Pc; apply Kid2; [apply filter_In; auto|now apply F2]|]. split.
    + intros s' Hs'. rewrite subs_tmap in Hs'. apply in_map_iff in Hs'. destruct Hs' as (x & <- & Hx). unfold root_key. rewrite data_tmap, Kf. exact (Nw x Hx).
    + eexists. split; [rewrite subs_tmap; apply in_map; exact HP1|]. split; [unfold root_key; rewrite data_tmap, Kf; reflexivity|]. now rewrite kids_tmap.
Qed.

(** ** One node *)
Lemma count_all f : count_flags f = List.length f -> forall i, i < List.length f -> nth_error f i = Some true.
Proof.
  induction f as [|b f IH]; intros E i Hi; [cbn in Hi; lia|]. unfold count_flags in *. cbn in E. assert (List.length (filter (fun b => b) f) <= List.length f) by (clear; induction f as [|[|] f IH]; cbn; lia). destruct b; cbn in *; [|lia]. destruct i as [|i]; [reflexivity|]. cbn. apply IH; lia.
Qed.
Lemma name_inj m x y : NoDup (map a_name m) -> In x m -> In y m -> a_name x = a_name y -> x = y.
Proof.
  induction m as [|z m IH]; [intros _ []|]. cbn. intros M. apply NoDup_cons_iff in M. destruct M as [M1 M2]. intros [->|A] [->|B] E; auto.
  - exfalso. apply M1. rewrite E. now apply in_map.
  - exfalso. apply M1. rewrite <- E. now apply in_map.
Qed.
Lemma nodup_names l m : NoDup l -> incl l m -> NoDup (map a_name m) -> NoDup (map a_name l).
Proof.
  induction l as [|x l IH]; intros N I M; [constructor|]. inversion N; subst. cbn. constructor; [|apply IH; auto; intros y Hy; apply I; now right]. intros X. apply in_map_iff in X. destruct X as (y & E & Hy). assert (y = x); [|now subst].
  apply (name_inj m); auto; apply I; [now right|now left].
Qed.
Lemma attr_ids_in a l : In a (attr_ids l) <-> In (AN a) (map a_name l).
Proof.
  unfold attr_ids. rewrite in_flat_map, in_map_iff. split.
  - intros (x & Hx & H). exists x. destruct (a_name x) as [b|]; [|destruct H]. destruct H as [->|[]]. auto.
  - intros (x & E & Hx). exists x. split; [exact Hx|]. rewrite E. now left.
Qed.
Lemma nth_part {A} (l : list A) : forall i n x, In x (firstn n (skipn i l)) -> exists j, i <= j < i + n /\ nth_error l j = Some x.
Proof.
  induction l as [|y l IH]; intros i n x; [rewrite skipn_nil, firstn_nil; intros []|]. destruct i as [|i]; cbn [skipn].
  - destruct n as [|n]; cbn [firstn]; [intros []|]. intros [-> |H]; [exists 0; split; [lia|reflexivity]|]. destruct (IH 0 n x H) as (j & Hj & E). exists (S j). split; [lia|exact E].
  - intros H. destruct (IH i n x H) as (j & Hj & E). exists (S j). split; [lia|exact E].
Qed.
Section One.
  Variable uu : aid -> len -> Qc.
  Variables t s : tree.
  Variable ks : list nat.
  Hypothesis R : sready t.
  Hypothesis Hs : In s (subs t).
  Hypothesis Us : ~ referenced t (root_key s).
  Hypothesis Sl : slice ks (kids s).
  Hypothesis Kid : forall c, In c (kids s) -> picked ks c = true -> tag (data c) <> TEl EDefs /\ ~ referenced t (root_key c).
  Let N := wf_keys t (s_wf t R).
  Let Nk := kids_nodup t s N Hs.
  Let cs := filter (picked ks) (kids s).
  Variable anc : list ndata.
  Let tb := table anc (data s) (map data cs).
  Lemma kid_flat c : In c (kids s) -> In (data c) (flat t). Proof. intros Hc. apply data_of_sub. exact (kid_sub s c t Hs Hc). Qed.
  Lemma cs_in c : In c cs -> In c (kids s) /\ picked ks c = true. Proof. apply filter_In. Qed.
  Lemma cand_movable x : cand_of anc (data s) (map data cs) x -> movable x.
  Proof.
    intros (d & Hd & Hx & Cd). apply in_map_iff in Hd. destruct Hd as (c & <- & Hc). apply cs_in in Hc. destruct Hc as [Hc _]. unfold candidate in Cd. destruct (a_name x) as [a|] eqn:Ea; [|discriminate]. exists a. split; [exact Ea|]. apply andb_prop in Cd. destruct Cd as [_ Cd].
    destruct (aid_eqb_spec a ATransform) as [->|Na]; [left|now right]. split; [reflexivity|]. apply (s_trans t R (data c)); [now apply kid_flat|]. rewrite get_lk, <- Ea. apply lk_in; [|exact Hx]. exact (proj1 (Forall_forall _ _) (s_wfa t R) _ (kid_flat c Hc)).
  Qed.
  Lemma cs_keys : map root_key cs = ks. Proof. exact (proj1 (slice_filter ks (kids s) Nk Sl)). Qed.
  Lemma cs_len : List.length cs = List.length ks. Proof. rewrite <- cs_keys. symmetry. apply map_length. Qed.
  Lemma row_set r j c : In r tb -> nth_error cs j = Some c -> nth_error (r_flags r) j = Some true -> incl (r_attrs r) (attrs (data c)).
  Proof. intros Hr Hj Hf. destruct (table_ok anc (data s) (map data cs)) as ((A & _) & _). apply (ro_set _ _ _ (A r Hr) j (data c)); [now apply map_nth_error|exact Hf]. Qed.
  Lemma row_movable r : In r tb -> forall x, In x (r_attrs r) -> movable x.
  Proof. intros Hr x Hx. destruct (table_ok anc (data s) (map data cs)) as ((A & _) & _). apply cand_movable. exact (ro_cand _ _ _ (A r Hr) x Hx). Qed.
  Lemma row_nodup r : In r tb -> NoDup (r_attrs r).
  Proof. intros Hr. destruct (table_ok anc (data s) (map data cs)) as ((A & _) & _). exact (ro_nodup _ _ _ (A r Hr)). Qed.
  Lemma row_len r : In r tb -> List.length (r_flags r) = List.length ks.
  Proof. intros Hr. destruct (table_ok anc (data s) (map data cs)) as ((A & _) & _). rewrite (ro_len _ _ _ (A r Hr)), map_length. apply cs_len. Qed.
  Lemma kid_names c : In c (kids s) -> NoDup (map a_name (attrs (data c))).
  Proof. intros Hc. exact (proj1 (Forall_forall _ _) (s_wfa t R) _ (kid_flat c Hc)). Qed.
  (** The row [r] on the node [P], which has the selected nodes as children. *)
  Lemma second t2 P2 r (before : list attr) : In r tb -> step uu t t2 -> In P2 (subs t2) -> holder (data P2) -> slice ks (kids P2) ->
    (forall c2, In c2 (kids P2) -> picked ks c2 = true -> exists c, In c cs /\ root_key c2 = root_key c /\ tag (data c2) = tag (data c) /\
      (data c2 = data c \/ data c2 = d_rm_list (data c) (attr_ids before) /\ incl before (attrs (data c)) /\ forall x, In x before -> ~ In x (r_attrs r))) ->
    exists i n t', longest_range (r_flags r) = Some (i, n) /\ hoist (fresh t2) (firstn n (skipn i ks)) (r_attrs r) (gather (root_key P2) (firstn n (skipn i ks)) (fresh t2) t2) = Ok t' /\ step uu t2 t' /\ frame (eq (root_key P2)) t2 t' /\
      crowd t2 t' /\ (count_flags (r_flags r) <> List.length ks -> exists P3, In P3 (subs t') /\ root_key P3 = root_key P2 /\ 2 <= List.length (kids P3)).
  Proof.
    intros Hr St HP TP Sl2 Old. pose proof (st_ready _ _ _ St) as R2. destruct (table_ok anc (data s) (map data cs)) as (_ & B). destruct (B r Hr) as (En & f & Ef). destruct (longest_range_ok r f En Ef) as (i & n & E & L2 & Le & Fl). rewrite (row_len r Hr) in Le. exists i, n.
    set (ns := firstn n (skipn i ks)). assert (Lns : List.length ns = n) by (unfold ns; rewrite firstn_length, skipn_length; lia).
    assert (Pk : forall k, In k ns -> exists j c, i <= j < i + n /\ nth_error cs j = Some c /\ root_key c = k).
    { intros k Hk. destruct (nth_part ks i n k Hk) as (j & Hj & Ej). exists j. rewrite <- cs_keys in Ej. rewrite nth_error_map in Ej. destruct (nth_error cs j) as [c|]; [|discriminate]. injection Ej as <-. eauto. }
    assert (Nr : NoDup (map a_name (r_attrs r))).
    { destruct ns as [|k ns'] eqn:En2; [cbn in Lns; lia|]. destruct (Pk k (or_introl eq_refl)) as (j & c & Hj & Ej & _). apply (nodup_names _ (attrs (data c))); [now apply row_nodup|apply (row_set r j c Hr Ej); now apply Fl|]. apply kid_names. apply nth_error_In in Ej. now apply cs_in in Ej. }
    destruct (sub_group uu t2 P2 ns (r_attrs r) R2 HP TP) as (t' & f' & G & E' & St' & Fr' & HG & KG & _ & EG' & Kf' & _ & _ & Nw & P3 & HP3 & KP3 & EP3).
    - now apply slice_part.
    - intros X. rewrite X in Lns. cbn in Lns. lia.
    - intros c2 Hc2 Pc2. apply among_in in Pc2. assert (Pk2 : picked ks c2 = true). { apply among_in. destruct (nth_part ks i n _ Pc2) as (j & _ & Ej). now apply nth_error_In in Ej. }
      destruct (Old c2 Hc2 Pk2) as (c & Hc & Kc & Tc & Dc). destruct (Pk _ Pc2) as (j & c' & Hj & Ej & Kc'). assert (c' = c). { apply nth_error_In in Ej. apply cs_in in Ej. pose proof (proj1 (cs_in c Hc)) as Hck. apply (key_inj (kids s)); [exact Nk|tauto|exact Hck|congruence]. } subst c'.
      pose proof (row_set r j c Hr Ej (Fl j Hj)) as Ic. destruct (cs_in c Hc) as [Hck Pck]. destruct (Kid c Hck Pck) as [Nd Un]. split; [congruence|]. split; [|intros X; apply Un; rewrite <- Kc; now apply (st_ref _ _ _ St)].
      destruct Dc as [->|(-> & Ib & Db)]; [exact Ic|]. intros x Hx. pose proof (Ic x Hx) as Hxc. apply rm_list_in; [|exact Hxc]. intros X. apply in_map_iff in X. destruct X as (a & Ea & Ha). apply attr_ids_in in Ha. apply in_map_iff in Ha. destruct Ha as (y & Ey & Hy).
      apply (Db y Hy). assert (Eyx : y = x); [|now rewrite Eyx]. apply (name_inj (attrs (data c))); [now apply kid_names|now apply Ib|exact Hxc|congruence].
    - exact Nr.
    - now apply row_movable.
    - pose proof (wf_keys t2 (s_wf t2 R2)) as N2. pose proof (wf_keys t' (s_wf t' (st_ready _ _ _ St'))) as N'. pose proof (kids_nodup t2 P2 N2 HP) as Nk2. destruct (slice_filter ns (kids P2) Nk2 (slice_part ks (kids P2) i n Sl2)) as (F1 & _).
      exists t'. split; [exact E|]. split; [exact E'|]. split; [exact St'|]. split; [exact Fr'|]. split.
      + intros s' Hs'. destruct (Nw s' Hs') as [K|K]; [now left|right]. assert (s' = G) by (apply (sub_unique t'); auto; congruence). subst s'. rewrite EG', map_length. apply (f_equal (@List.length _)) in F1. rewrite map_length in F1. lia.
      + intros Nf. exists P3. split; [exact HP3|]. split; [exact KP3|]. rewrite EP3, map_length. assert (Ln : n < List.length ks).
        { destruct (Nat.eq_dec n (List.length ks)) as [X|X]; [exfalso|lia]. apply Nf. rewrite <- (row_len r Hr). apply count_full. intros j Hj. apply Fl. rewrite (row_len r Hr) in Hj. lia. }
        destruct (slice_filter ks (kids P2) Nk2 Sl2) as (G1 & _). assert (Nks : NoDup ks) by (rewrite <- G1; apply nodup_map_filter, Nk2).
        assert (Q : exists c, In c (kids P2) /\ picked ks c = true /\ picked ns c = false).
        { destruct (existsb (fun c => negb (picked ns c)) (filter (picked ks) (kids P2))) eqn:Ex; [apply existsb_exists in Ex; destruct Ex as (c & Hc & Ec); apply filter_In in Hc; exists c; split; [tauto|]; split; [tauto|]; now destruct (picked ns c)|exfalso].
          assert (I : incl ks ns). { intros k Hk. rewrite <- G1 in Hk. apply in_map_iff in Hk. destruct Hk as (c & <- & Hc). apply among_in. destruct (picked ns c) eqn:Pn; [exact Pn|exfalso]. assert (X : existsb (fun c => negb (picked ns c)) (filter (picked ks) (kids P2)) = true) by (apply existsb_exists; exists c; rewrite Pn; auto). congruence. }
          apply (NoDup_incl_length Nks) in I. lia. }
        destruct Q as (c & Hc & _ & Pn). destruct ns as [|k0 ns'] eqn:En2; [cbn in Lns; lia|]. rewrite <- En2 in *.
        apply (two_in c (T (new_group (fresh t2)) (filter (picked ns) (kids P2)))); [now apply pull_keep|apply pull_group; rewrite F1, En2; discriminate|]. intros X. subst c. apply (fresh_not t2). exact (key_in_sub _ _ (kid_sub _ _ _ HP Hc)).
  Qed.
End One.
Lemma frame_new (D D2 : nat -> Prop) t t1 t2 : frame D t t1 -> frame D2 t1 t2 -> (forall k, In k (keys t) -> D2 k -> D k) -> frame D t t2.
Proof. intros F1 F2 H s Hs Nd. destruct (F1 s Hs Nd) as (s1 & H1 & K1 & T1 & S1). destruct (F2 s1 H1) as (s2 & H2 & K2 & T2 & S2); [rewrite K1; intros X; apply Nd; apply H; [exact (key_in_sub _ _ Hs)|exact X]|]. exists s2. repeat split; congruence. Qed.
Lemma svg_tmap f c : (forall d, tag (f d) = tag d) -> svg (tmap f c) = svg c.
Proof. intros H. unfold svg, is_svg_el. now rewrite data_tmap, H. Qed.
Lemma root_tmap f c : (forall d, key (f d) = key d) -> root_key (tmap f c) = root_key c.
Proof. intros H. unfold root_key. now rewrite data_tmap, H. Qed.
Lemma picked_tmap f ks c : (forall d, key (f d) = key d) -> picked ks (tmap f c) = picked ks c.
Proof. intros H. unfold picked. now rewrite root_tmap. Qed.
Lemma filter_map_comm {A B} (f : B -> bool) (g : A -> B) (h : A -> bool) l : (forall x, f (g x) = h x) -> filter f (map g l) = map g (filter h l).
Proof. intros H. induction l as [|x l IH]; [reflexivity|]. cbn. rewrite H. destruct (h x); cbn; now rewrite IH. Qed.
Lemma style_one_ok uu t s ks all : sready t -> In s (subs t) -> ~ referenced t (root_key s) -> slice ks (kids s) ->
  (forall c, In c (kids s) -> picked ks c = true -> tag (data c) <> TEl EDefs /\ ~ referenced t (root_key c)) ->
  (all = true -> forall c, In c (kids s) -> svg c = true -> picked ks c = true) ->
  exists t', style_one t (root_key s) ks all = Ok t' /\ step uu t t' /\ frame (eq (root_key s)) t t' /\ crowd t t'.
Proof.
  intros R Hs Us Sl Kid All. pose proof (wf_keys t (s_wf t R)) as N. pose proof (kids_nodup t s N Hs) as Nk. destruct (slice_filter ks (kids s) Nk Sl) as (F1 & F2).
  assert (Stay : exists t', Ok t = Ok t' /\ step uu t t' /\ frame (eq (root_key s)) t t' /\ crowd t t') by (exists t; split; [reflexivity|split; [now apply step_refl|split; [apply frame_refl|apply crowd_refl]]]).
  unfold style_one. rewrite (find_sub_iff t s N Hs). destruct (sub_place s t [] Hs) as (anc & Pl). rewrite (anc_place t anc s N Pl).
  destruct (is_tag ESvg (data s) || is_tag EG (data s)) eqn:Tg; [|exact Stay]. destruct (Nat.leb_spec 2 (List.length ks)) as [Lk|Lk]; [|exact Stay]. cbn [andb].
  assert (Hh : holder (data s)) by (apply orb_prop in Tg; destruct Tg as [Q|Q]; apply tag_true in Q; [now right|now left]).
  destruct (table_ok anc (data s) (map data (filter (picked ks) (kids s)))) as ((TA & TN) & TE).
  destruct (table anc (data s) (map data (filter (picked ks) (kids s)))) as [|r rs] eqn:Tb; [exact Stay|].
  assert (Hr : In r (table anc (data s) (map data (filter (picked ks) (kids s))))) by (rewrite Tb; now left).
  assert (Hrs : forall r2, In r2 rs -> In r2 (table anc (data s) (map data (filter (picked ks) (kids s))))) by (intros r2 H; rewrite Tb; now right).
  assert (Dis : forall r2, In r2 rs -> forall x, In x (r_attrs r) -> ~ In x (r_attrs r2)).
  { intros r2 H2 x Hx X. cbn [flat_map] in TN. apply NoDup_app_inv in TN. destruct TN as (_ & _ & D). apply (D x Hx). apply in_flat_map. eauto. }
  set (ok := fun (x : tree * nat * list row) => let '(t1, p, rest) := x in
     match rest with
     | [] => Ok t1
     | r2 :: _ => match longest_range (r_flags r2) with
        | Some (i, n) => hoist (fresh t1) (firstn n (skipn i ks)) (r_attrs r2) (gather p (firstn n (skipn i ks)) (fresh t1) t1)
        | None => Panic end end).
  (* the second part *)
  assert (Snd : forall t1 P1 rest before, step uu t t1 -> frame (eq (root_key s)) t t1 -> In P1 (subs t1) -> holder (data P1) -> slice ks (kids P1) -> crowd t t1 -> (root_key P1 = root_key s \/ ~ In (root_key P1) (keys t) /\ 2 <= List.length (kids P1) /\ match rest with [] => True | r2 :: _ => count_flags (r_flags r2) <> List.length ks end) ->
     (forall r2, In r2 rest -> In r2 (table anc (data s) (map data (filter (picked ks) (kids s))))) ->
     (forall c2, In c2 (kids P1) -> picked ks c2 = true -> exists c, In c (filter (picked ks) (kids s)) /\ root_key c2 = root_key c /\ tag (data c2) = tag (data c) /\
        (data c2 = data c \/ data c2 = d_rm_list (data c) (attr_ids before) /\ incl before (attrs (data c)) /\ forall r2 x, In r2 rest -> In x before -> ~ In x (r_attrs r2))) ->
     exists t', ok (t1, root_key P1, rest) = Ok t' /\ step uu t t' /\ frame (eq (root_key s)) t t' /\ crowd t t').
  { intros t1 P1 rest before St Fr HP TP Sl1 Cr KP Hrest Old. unfold ok. destruct rest as [|r2 rest]; [exists t1; auto|].
    destruct (second uu t s ks R Hs Sl Kid anc t1 P1 r2 before) as (i & n & t' & E1 & E2 & St2 & Fr2 & Cr2 & P3); auto.
    - apply Hrest. now left.
    - intros c2 Hc2 Pc2. destruct (Old c2 Hc2 Pc2) as (c & A & B & C & [D|(D1 & D2 & D3)]); exists c; [auto|]. split; [exact A|split; [exact B|split; [exact C|right]]]. split; [exact D1|split; [exact D2|]]. intros x Hx. apply (D3 r2); [now left|exact Hx].
    - rewrite E1. exists t'. split; [exact E2|]. split; [exact (step_trans _ _ _ _ St St2)|]. split; [apply (frame_new _ _ _ _ _ Fr Fr2); intros k Hk <-; destruct KP as [KP|KP]; [now symmetry|tauto]|].
      pose proof (wf_keys t' (s_wf t' (st_ready _ _ _ St2))) as N'. destruct KP as [KP|(KP & _ & KF)].
      + apply (crowd_trans _ t t1 t' N' Cr Cr2 Fr2). intros k <-. rewrite KP. exact (key_in_sub _ _ Hs).
      + intros s2 H2. destruct (P3 KF) as (p3 & H3 & K3 & L3). destruct (Nat.eq_dec (root_key s2) (root_key P1)) as [Q|Q]; [right; assert (s2 = p3) by (apply (sub_unique t'); auto; congruence); now subst s2|].
        destruct (Cr2 s2 H2) as [K|K]; [|now right]. unfold keys in K. rewrite <- map_data_subs, map_map in K. apply in_map_iff in K. destruct K as (s1 & Es & H1). assert (Es' : root_key s1 = root_key s2) by exact Es. destruct (Cr s1 H1) as [I|I]; [left; congruence|right]. destruct (Fr2 s1 H1) as (s3 & H4 & K4 & _ & S4); [congruence|]. assert (s3 = s2) by (apply (sub_unique t'); auto; congruence). subst s3. unfold skel in S4. apply (f_equal (@List.length _)) in S4. rewrite !map_length in S4. lia. }
  fold ok. destruct (Nat.eqb_spec (count_flags (r_flags r)) (List.length ks)) as [Fu|Fu].
  2:{ cbn [bind]. apply (Snd t s (r :: rs) []); auto using step_refl, frame_refl, crowd_refl.
      - intros r2 [<-|H]; auto.
      - intros c Hc Pc. exists c. split; [apply filter_In; auto|]. auto. }
  (* all selected children have the attributes *)
  assert (Full : forall c, In c (kids s) -> picked ks c = true -> incl (r_attrs r) (attrs (data c))).
  { intros c Hc Pc. assert (Hc' : In c (filter (picked ks) (kids s))) by (apply filter_In; auto). apply In_nth_error in Hc'. destruct Hc' as (j & Ej). apply (row_set s ks anc r j c Hr Ej). apply count_all; [rewrite (row_len t s ks R Hs Sl anc r Hr); exact Fu|]. rewrite (row_len t s ks R Hs Sl anc r Hr), <- F1, map_length. apply nth_error_Some. congruence. }
  assert (Some1 : exists c, In c (kids s) /\ picked ks c = true).
  { destruct ks as [|k ks']; [cbn in Lk; lia|]. assert (Hk : In k (map root_key (filter (picked (k :: ks')) (kids s)))) by (rewrite F1; now left). apply in_map_iff in Hk. destruct Hk as (c & _ & Hc). exists c. now apply filter_In in Hc. }
  assert (Nr : NoDup (map a_name (r_attrs r))).
  { destruct Some1 as (c & Hc & Pc). apply (nodup_names _ (attrs (data c))); [exact (row_nodup s ks anc r Hr)|now apply Full|]. exact (proj1 (Forall_forall _ _) (s_wfa t R) _ (kid_flat t s Hs c Hc)). }
  pose proof (row_movable t s ks R Hs anc r Hr) as Mv.
  destruct all.
  - (* the parent is the group *)
    assert (Pk : forall c, In c (kids s) -> picked ks c = svg c). { intros c Hc. destruct (svg c) eqn:E; [now apply All|]. destruct (picked ks c) eqn:Q; [|reflexivity]. rewrite (F2 c Hc Q) in E. discriminate. }
    destruct (to_end_ok uu t s ks R Hs Hh Pk) as (St & HG & Fr & Ky). set (t1 := to_end (root_key s) ks t) in *. set (ch := filter (fun c => negb (svg c)) (kids s) ++ filter svg (kids s)) in *. set (G := T (data s) ch) in *.
    assert (Kg : forall c, In c (kids G) <-> In c (kids s)). { intros c. unfold G, ch. cbn [kids]. rewrite in_app_iff, !filter_In. destruct (svg c); cbn; intuition discriminate. }
    destruct (hoist_ok uu t1 G ks (r_attrs r) (st_ready _ _ _ St) HG Hh) as (f & E & St2 & Kf & Tf & Kid2); auto.
    + intros c Hc. apply Kg in Hc. now apply Pk.
    + intros k Hk. rewrite <- F1 in Hk. apply in_map_iff in Hk. destruct Hk as (c & <- & Hc). apply filter_In in Hc. exists c. split; [apply Kg; tauto|reflexivity].
    + destruct Some1 as (c & Hc & Pc). exists c. split; [now apply Kg|now apply F2].
    + intros c Hc Sc. apply Kg in Hc. split; [apply Full; [exact Hc|now apply All]|]. intros X. apply (st_ref _ _ _ St) in X. destruct (Kid c Hc (All eq_refl c Hc Sc)) as [_ U]. contradiction.
    + intros X. apply (st_ref _ _ _ St) in X. exact (Us X).
    + intros X. change (data G) with (data s). destruct (lk (AN ATransform) (r_attrs r)) as [v|] eqn:L; [clear X|congruence]. pose proof L as L'. apply lk_some in L'. destruct L' as (x & Hx & Nx & Vx).
      assert (Ts : tag (data s) = TEl EG).
      { destruct Hh as [Q|Q]; [exact Q|exfalso]. destruct (s_views t R s Hs Q) as [(c & Hc & Tc)|Z].
        - assert (Sc : svg c = true) by (unfold svg, is_svg_el; now rewrite Tc). destruct (Kid c Hc (All eq_refl c Hc Sc)) as [Nd _]. contradiction.
        - destruct Some1 as (c & Hc & Pc). assert (K : d_get (data c) ATransform = Some v). { rewrite get_lk, <- Nx, <- Vx. apply lk_in; [exact (proj1 (Forall_forall _ _) (s_wfa t R) _ (kid_flat t s Hs c Hc))|now apply (Full c Hc Pc)]. } rewrite (Z (data c)) in K; [discriminate|]. now apply kid_inside. }
      split; [exact Ts|]. destruct (ro_cand _ _ _ (TA r (or_introl eq_refl)) x Hx) as (d & _ & _ & Cd). unfold candidate in Cd. rewrite Nx in Cd. apply andb_prop in Cd. destruct Cd as [_ Cd]. change (aid_eqb ATransform ATransform) with true in Cd. cbv iota in Cd. apply andb_prop in Cd. destruct Cd as [_ Va].
      intros a w Ha. unfold effects, given in Ha. apply in_flat_map in Ha. destruct Ha as (b & Hb & Ha). destruct (d_get (data s) b) as [u|] eqn:Eu; [|destruct Ha]. destruct Ha as [Ha|[]]. inversion Ha; subst b u. unfold effect_attrs in Hb. apply in_app_or in Hb. destruct Hb as [Hb|Hb]; [right|now left].
      destruct (s_effects t R (data s) a w (data_of_sub _ _ Hs) Ts Hb Eu) as [->|(k & ->)]; [reflexivity|exfalso]. unfold valid_attrs in Va. rewrite forallb_forall in Va. assert (I : In a [AFill; AStroke; AFilter; AMask; AClipPath]) by (cbn in Hb |- *; tauto). specialize (Va a I). cbn [valid_attr] in Va. rewrite Eu in Va. discriminate.
    + change (root_key G) with (root_key s) in E. rewrite E. cbn [bind]. assert (Kg0 : root_key (tmap f G) = root_key s) by (rewrite root_tmap by exact Kf; reflexivity). enough (Q : exists t', ok (tmap f t1, root_key (tmap f G), rs) = Ok t' /\ step uu t t' /\ frame (eq (root_key s)) t t' /\ crowd t t') by (rewrite Kg0 in Q; exact Q).
      apply (Snd _ (tmap f G) rs (r_attrs r)); auto.
      * exact (step_trans _ _ _ _ St St2).
      * apply (frame_trans _ _ _ _ Fr). now apply frame_tmap.
      * rewrite subs_tmap. now apply in_map.
      * unfold holder. rewrite data_tmap, Tf. exact Hh.
      * exists (map (tmap f) (filter (fun c => negb (svg c)) (kids s))), (map (tmap f) (filter svg (kids s))), []. rewrite app_nil_r, kids_tmap. split; [unfold G, ch; cbn [kids]; now rewrite map_app|]. rewrite (filter_map_comm svg (tmap f) svg) by (intros x; now apply svg_tmap). rewrite (filter_all_id svg (filter svg (kids s))) by (intros x Hx; now apply filter_In in Hx). rewrite map_map. rewrite <- F1 at 1. rewrite (filter_ext_in' _ svg _ Pk). apply map_ext. intros x. now rewrite root_tmap.
      * apply crowd_keys. intros k Hk. apply Ky. rewrite keys_tmap in Hk by exact Kf. exact Hk.
      * intros c2 Hc2 Pc2. rewrite kids_tmap in Hc2. apply in_map_iff in Hc2. destruct Hc2 as (c & <- & Hc). rewrite picked_tmap in Pc2 by exact Kf. pose proof (proj1 (Kg c) Hc) as Hck. exists c. rewrite root_tmap by exact Kf. rewrite data_tmap, Tf. split; [apply filter_In; auto|]. split; [reflexivity|]. split; [reflexivity|]. right. split; [apply Kid2; [exact Hc|now apply F2]|]. split; [now apply Full|]. intros r2 x H2 Hx. now apply Dis.
  - (* a new group *)
    destruct (sub_group uu t s ks (r_attrs r) R Hs Hh Sl) as (t1 & f & G & E & St & Fr & HG & KG & TG & EG' & Kf & Tf & Kid2 & Nw & _); auto.
    + intros X. rewrite X in Lk. cbn in Lk. lia.
    + intros c Hc Pc. destruct (Kid c Hc Pc) as [A B]. auto.
    + rewrite E. cbn [bind]. rewrite <- KG. apply (Snd t1 G rs (r_attrs r)); auto.
      * now left.
      * exists [], (kids G), []. split; [now rewrite app_nil_r|]. rewrite EG'. rewrite (filter_map_comm svg (tmap f) svg) by (intros x; now apply svg_tmap). rewrite (filter_all_id svg) by (intros x Hx; apply filter_In in Hx; now apply F2). rewrite map_map. rewrite <- F1 at 1. apply map_ext. intros x. now rewrite root_tmap.
      * intros s' Hs'. destruct (Nw s' Hs') as [K|K]; [now left|right]. assert (s' = G) by (apply (sub_unique t1); auto; [exact (wf_keys t1 (s_wf t1 (st_ready _ _ _ St)))|congruence]). subst s'. rewrite EG', map_length, <- (map_length root_key), F1. exact Lk.
      * right. rewrite KG. split; [apply fresh_not|]. split; [rewrite EG', map_length, <- (map_length root_key), F1; exact Lk|]. destruct rs as [|r2 rs]; [exact Logic.I|]. unfold table in Tb. apply (join_not_full _ _ _ _ _ Tb Fu).
        -- exact (row_len t s ks R Hs Sl anc r Hr).
        -- apply (row_len t s ks R Hs Sl anc r2). apply Hrs. now left.
      * intros c2 Hc2 Pc2. rewrite EG' in Hc2. apply in_map_iff in Hc2. destruct Hc2 as (c & <- & Hc). exists c. rewrite root_tmap by exact Kf. rewrite data_tmap, Tf. split; [exact Hc|]. apply filter_In in Hc. destruct Hc as [Hc Pc]. split; [reflexivity|]. split; [reflexivity|]. right. split; [now apply Kid2|]. split; [now apply Full|]. intros r2 x H2 Hx. now apply Dis.
Qed.
(** ** The whole pass *)
Definition snap (c t : tree) : Prop := forall x, In x (subs c) -> exists x', In x' (subs t) /\ root_key x' = root_key x /\ tag (data x') = tag (data x) /\ skel x' = skel x.
Lemma snap_frame c t t' (D : nat -> Prop) : snap c t -> frame D t t' -> (forall k, In k (keys c) -> ~ D k) -> snap c t'.
Proof.
  intros S F H x Hx. destruct (S x Hx) as (x1 & H1 & K1 & T1 & S1). destruct (F x1 H1) as (x2 & H2 & K2 & T2 & S2); [rewrite K1; apply H; exact (key_in_sub _ _ Hx)|]. exists x2. repeat split; congruence.
Qed.
Lemma snap_kid s c t : snap s t -> In c (kids s) -> snap c t.
Proof. intros S Hc x Hx. apply S. exact (subs_trans _ _ _ (kid_sub s c s (subs_self _) Hc) Hx). Qed.
Lemma step_keys uu t t' k : step uu t t' -> In k (keys t) -> In k (keys t').
Proof.
  intros St Hk. unfold keys in Hk. apply in_map_iff in Hk. destruct Hk as (d & <- & Hd). destruct (st_kept _ _ _ St) as (A & _). destruct (A d Hd) as (d' & Hd' & K & _). rewrite <- K. unfold keys. now apply in_map.
Qed.
Lemma visit_style_ok uu : forall s t, sready t -> NoDup (keys s) -> snap s t -> ~ referenced t (root_key s) ->
  exists t', visit_style s t = Ok t' /\ step uu t t' /\ frame (fun k => In k (keys s)) t t' /\ crowd t t'.
Proof.
  induction s as [d ch IH] using tree_ind'. intros t R N S U. cbn [visit_style].
  assert (Sk0 : forall k, In k (keys (T d ch)) -> In k (keys t)).
  { intros k Hk. unfold keys in Hk. rewrite <- map_data_subs, map_map in Hk. apply in_map_iff in Hk. destruct Hk as (x & <- & Hx). destruct (S x Hx) as (x1 & H1 & K1 & _). change (In (root_key x) (keys t)). rewrite <- K1. exact (key_in_sub _ _ H1). }
  set (go := fix go (l : list tree) (t : tree) (ks : list nat) (all : bool) {struct l} : result (tree * list nat * bool) :=
               match l with
               | [] => Ok (t, ks, all)
               | c :: l' =>
                   if negb (is_svg_el (data c)) then go l' t ks all
                   else if is_tag EDefs (data c) || is_used (root_key c) t then go l' t [] false
                   else bind (match kids c with [] => Ok t | _ => visit_style c t end) (fun t' => go l' t' (ks ++ [root_key c]) all)
               end).
  assert (Kk : forall c k, In c ch -> In k (keys c) -> In k (keys (T d ch)) /\ k <> key d).
  { intros c k Hc Hk. rewrite keys_cons in N |- *. inversion N as [|? ? N1 N2]; subst. assert (X : In k (flat_map keys ch)) by (apply in_flat_map; eauto). split; [now right|]. intros ->. contradiction. }
  assert (Kd : forall l1 c l2 c2 k, ch = l1 ++ c :: l2 -> In c2 l2 -> In k (keys c2) -> ~ In k (keys c)).
  { intros l1 c l2 c2 k E Hc2 Hk X. rewrite keys_cons in N. inversion N as [|? ? N1 N2]; subst. rewrite flat_map_app in N2. apply NoDup_app_inv in N2. destruct N2 as (_ & N2 & _). cbn in N2. apply NoDup_app_inv in N2. destruct N2 as (_ & _ & Q). apply (Q k X). apply in_flat_map. eauto. }
  assert (G : forall l B1 B t ks all, sready t -> ch = (B1 ++ B) ++ l -> (forall c, In c l -> snap c t) -> ks = map root_key (filter svg B) ->
     (forall c, In c B -> svg c = true -> tag (data c) <> TEl EDefs /\ ~ referenced t (root_key c)) -> (all = true -> filter svg B1 = []) -> (forall k, In k (flat_map keys ch) -> In k (keys t)) ->
     exists t' ks' all' B1' B', go l t ks all = Ok (t', ks', all') /\ step uu t t' /\ frame (fun k => In k (flat_map keys ch)) t t' /\ crowd t t' /\ ch = B1' ++ B' /\ ks' = map root_key (filter svg B') /\
       (forall c, In c B' -> svg c = true -> tag (data c) <> TEl EDefs /\ ~ referenced t' (root_key c)) /\ (all' = true -> filter svg B1' = [])).
  { induction l as [|c l IHl]; intros B1 B t0 ks all R0 E Sn Ek Hb Ha Hk0; cbn [go].
    - exists t0, ks, all, B1, B. split; [reflexivity|]. split; [now apply step_refl|]. split; [apply frame_refl|]. split; [apply crowd_refl|]. split; [now rewrite E, app_nil_r|]. auto.
    - assert (Hc : In c ch) by (rewrite E; apply in_or_app; right; now left). destruct (is_svg_el (data c)) eqn:Sc; cbn [negb].
      2:{ apply (IHl B1 (B ++ [c])); auto.
          - rewrite E, <- !app_assoc. reflexivity.
          - intros x Hx. apply Sn. now right.
          - rewrite filter_app. cbn. unfold svg at 2. rewrite Sc, app_nil_r. exact Ek.
          - intros x Hx Sx. apply in_app_or in Hx. destruct Hx as [Hx|[<-|[]]]; [now apply Hb|]. unfold svg in Sx. congruence. }
      destruct (is_tag EDefs (data c) || is_used (root_key c) t0) eqn:Sk.
      { apply (IHl ((B1 ++ B) ++ [c]) []); auto.
        - rewrite E, <- !app_assoc. reflexivity.
        - intros x Hx. apply Sn. now right.
        - discriminate. }
      apply orb_false_iff in Sk. destruct Sk as [Sk1 Sk2]. apply tag_false in Sk1. apply unused_referenced in Sk2.
      assert (V : exists t1, (match kids c with [] => Ok t0 | _ => visit_style c t0 end) = Ok t1 /\ step uu t0 t1 /\ frame (fun k => In k (keys c)) t0 t1 /\ crowd t0 t1).
      { destruct (kids c) as [|c0 cl] eqn:Kc; [exists t0; split; [reflexivity|split; [now apply step_refl|split; [apply frame_refl|apply crowd_refl]]]|]. rewrite Forall_forall in IH. apply (IH c Hc); auto.
        - apply (sub_NoDup c (T d ch) N); exact (kid_sub (T d ch) c (T d ch) (subs_self _) Hc).
        - apply Sn. now left. }
      destruct V as (t1 & V & St & Fr & Cr). rewrite V. cbn [bind].
      destruct (IHl B1 (B ++ [c]) t1 (ks ++ [root_key c]) all) as (t' & ks' & all' & B1' & B' & A1 & A2 & A3 & A3c & A4 & A5 & A6 & A7); auto.
      + exact (st_ready _ _ _ St).
      + rewrite E, <- !app_assoc. reflexivity.
      + intros x Hx. apply (snap_frame x t0 t1 _ (Sn x (or_intror Hx)) Fr). intros k Hk. exact (Kd _ _ _ x k E Hx Hk).
      + rewrite filter_app, map_app. cbn. unfold svg at 2. rewrite Sc, Ek. reflexivity.
      + intros x Hx Sx. apply in_app_or in Hx. destruct Hx as [Hx|[<-|[]]].
        * destruct (Hb x Hx Sx) as [Q1 Q2]. split; [exact Q1|]. intros X. apply Q2. now apply (st_ref _ _ _ St).
        * split; [exact Sk1|]. intros X. apply Sk2. now apply (st_ref _ _ _ St).
      + intros k Hk. exact (step_keys _ _ _ _ St (Hk0 k Hk)).
      + exists t', ks', all', B1', B'. split; [exact A1|]. split; [exact (step_trans _ _ _ _ St A2)|]. split; [|split; [apply (crowd_trans _ t0 t1 t' (wf_keys t' (s_wf t' (st_ready _ _ _ A2))) Cr A3c A3 Hk0)|auto]]. apply (frame_trans _ _ t1); [|exact A3]. apply (frame_weaken _ _ _ _ Fr). intros k _ Hk. apply in_flat_map. eauto. }
  destruct (G ch [] [] t [] true) as (t1 & ks & all & B1 & B & E1 & St & Fr & Cr & E2 & E3 & Hb & Ha); auto.
  { intros c Hc. apply (snap_kid (T d ch)); [exact S|exact Hc]. }
  { intros k Hk. apply Sk0. rewrite keys_cons. now right. }
  rewrite E1. cbn [bind].
  destruct (S (T d ch) (subs_self _)) as (s0 & H0 & K0 & T0 & S0). destruct (Fr s0 H0) as (s1 & H1 & K1 & T1 & S1).
  { rewrite K0. intros X. apply in_flat_map in X. destruct X as (c & Hc & X). exact (proj2 (Kk c _ Hc X) eq_refl). }
  rewrite K0 in K1. rewrite S0 in S1. change (key d) with (root_key (T d ch)). rewrite <- K1.
  assert (Nr : NoDup (map root_key ch)) by exact (kids_nodup (T d ch) (T d ch) N (subs_self _)).
  assert (Old : forall c', In c' (kids s1) -> exists c, In c ch /\ root_key c' = root_key c /\ tag (data c') = tag (data c)).
  { intros c' Hc'. assert (X : In (root_key c', tag (data c')) (skel s1)) by exact (in_map (fun c => (root_key c, tag (data c))) _ _ Hc'). rewrite S1 in X. unfold skel in X. cbn [kids] in X. apply in_map_iff in X. destruct X as (c & Ec & Hc). inversion Ec. exists c. auto. }
  destruct (style_one_ok uu t1 s1 ks all (st_ready _ _ _ St) H1) as (t' & E & St' & Fr' & Cr').
  - rewrite K1. intros X. apply U. now apply (st_ref _ _ _ St).
  - apply (slice_skel ks ch (kids s1)); [symmetry; exact S1|]. exists B1, B, []. split; [now rewrite app_nil_r|exact E3].
  - intros c' Hc' Pc. destruct (Old c' Hc') as (c & Hc & Ec & Tc). rewrite Tc, Ec. assert (Pc' : picked ks c = true) by (unfold picked in *; now rewrite <- Ec).
    apply (picked_iff ks ch B1 B [] c Nr) in Pc'; [|now rewrite app_nil_r|exact E3|exact Hc]. now apply Hb.
  - intros Al c' Hc' Sc. destruct (Old c' Hc') as (c & Hc & Ec & Tc). assert (Sc' : svg c = true) by (unfold svg, is_svg_el in *; now rewrite <- Tc). unfold picked. rewrite Ec. change (picked ks c = true). apply (picked_iff ks ch B1 B [] c Nr); [now rewrite app_nil_r|exact E3|exact Hc|]. split; [|exact Sc'].
    rewrite E2 in Hc. apply in_app_or in Hc. destruct Hc as [Hc|Hc]; [|exact Hc]. rewrite (filter_nil_false svg B1 c (Ha Al) Hc) in Sc'. discriminate.
  - rewrite E. exists t'. split; [reflexivity|]. split; [exact (step_trans _ _ _ _ St St')|]. split; [|apply (crowd_trans _ t t1 t' (wf_keys t' (s_wf t' (st_ready _ _ _ St'))) Cr Cr' Fr'); intros k <-; rewrite K1; apply Sk0; exact (key_in_sub _ _ (subs_self _))].
    apply (frame_trans _ _ t1).
    + apply (frame_weaken _ _ _ _ Fr). intros k _ Hk. rewrite keys_cons. now right.
    + apply (frame_weaken _ _ _ _ Fr'). intros k _ <-. rewrite K1, keys_cons. now left.
Qed.
Lemma group_by_style_ends uu t : sready t -> exists t', group_by_style t = Ok t' /\ step uu t t' /\ crowd t t'.
Proof.
  intros R. unfold group_by_style. destruct (s_svg t R) as (s & E & U). rewrite E. unfold svg_element in E. apply find_some in E. destruct E as [Hs _].
  assert (Hss : In s (subs t)) by exact (kid_sub t s t (subs_self _) Hs).
  destruct (visit_style_ok uu s t R) as (t' & A & B & _ & C); auto.
  - apply (sub_NoDup s t); [exact (wf_keys t (s_wf t R))|exact Hss].
  - intros x Hx. exists x. split; [exact (subs_trans _ _ _ Hss Hx)|auto].
  - exists t'. auto.
Qed.
Lemma group_by_style_ok uu t : sready t -> exists t', group_by_style t = Ok t' /\ step uu t t'.
Proof. intros R. destruct (group_by_style_ends uu t R) as (t' & A & B & _). exists t'. auto. Qed.
