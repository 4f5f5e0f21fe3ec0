(** A step that removes one subtree that is not seen, and changes nodes as [looks] allows: what stays true. *)
From Coq Require Import List Bool NArith Arith ZArith String Lia QArith Qcanon.
From Verif Require Import Names Num Value Dom DomFacts DomOps DomRemove AttrFacts VLoop SpecDom SpecText SpecWritten Visit MoveFacts UseStep Push SpecVisible VisStep.
Import ListNotations.
Local Open Scope nat_scope.

Definition vanishing (d : ndata) : bool := degenerate d || tagged EUse d && negb (d_has d AXlinkHref).
Definition holder (d : ndata) : Prop := tag d = TEl EFilter \/ gradient_node d.
(** One node before and after a step that removes the nodes [G]. *)
Record chg (t : tree) (G : list nat) (d d' : ndata) : Prop := {
  ch_key : key d' = key d;
  ch_tag : tag d' = tag d;
  ch_id : nid d' = nid d;
  ch_filter : d_get d' AFilter = d_get d AFilter \/ exists k, d_get d AFilter = Some (VFunc k) /\ identity_filter t k /\ d_get d' AFilter = None;
  ch_fill : same_paint t AFill d d';
  ch_stroke : same_paint t AStroke d d';
  ch_href : d_get d' AXlinkHref = d_get d AXlinkHref \/ exists n, In n (flat t) /\ vanishing n = true /\ d_get d AXlinkHref = Some (VLink (key n)) /\ d_get d' AXlinkHref = None;
  ch_other : forall a, ~ In a [AFilter; AFill; AStroke; AFillOpacity; AStrokeOpacity; AXlinkHref] -> d_get d' a = d_get d a;
  ch_links : forall x j, In x (attrs d') -> link_of (a_val x) = Some j -> In x (attrs d) /\ ~ In j G;
  ch_nodup : attrs_nodup d -> attrs_nodup d'
}.
Lemma looks_of t G d d' : chg t G d d' -> d_get d' AXlinkHref = d_get d AXlinkHref -> looks t d d'.
Proof.
  intros C E. split; try apply C. intros a Na. destruct (aid_eqb_spec a AXlinkHref) as [->|Nh]; [exact E|]. apply (ch_other _ _ _ _ C). cbn in *. intuition congruence.
Qed.
Lemma get_some_in d a v : d_get d a = Some v -> exists x, In x (attrs d) /\ a_name x = AN a /\ a_val x = v.
Proof. unfold d_get, get_value. destruct (get_attr (attrs d) a) as [x|] eqn:E; [|discriminate]. intros [= <-]. apply get_attr_some in E. exists x. tauto. Qed.
Lemma tagged_iff e d : tagged e d = true <-> tag d = TEl e.
Proof. unfold tagged. destruct (tag d) as [|e'| | | |]; try (split; discriminate). destruct (eid_eqb_spec e' e) as [->|N]; split; congruence. Qed.
Lemma tagged_same e d d' : tag d' = tag d -> tagged e d' = tagged e d. Proof. unfold tagged. now intros ->. Qed.
Lemma kind_same d d' : tag d' = tag d -> kind_of d' = kind_of d. Proof. unfold kind_of. now intros ->. Qed.
Lemma get_gone d d' a : (d_get d' a = d_get d a \/ d_get d' a = None) -> d_get d a = None -> d_get d' a = None.
Proof. intros [E|E] X; congruence. Qed.
Lemma vanishing_kind d : vanishing d = true -> tag d = TEl EPath \/ tag d = TEl ERect \/ tag d = TEl EUse.
Proof. unfold vanishing, degenerate. rewrite !orb_true_iff, !andb_true_iff, !tagged_iff. tauto. Qed.
Lemma vanishing_blank t s : vanishing (data s) = true -> blank t s.
Proof.
  unfold vanishing. intros V. destruct (degenerate (data s)) eqn:D.
  - apply blank_not. unfold drawn. rewrite D. destruct (kind_of (data s)); auto; cbn; now rewrite !andb_false_r.
  - cbn in V. apply andb_true_iff in V. destruct V as [U H]. apply negb_true_iff in H. rewrite d_has_get in H. apply tagged_iff in U. intros anc l X. unfold kind_of in X.
    inversion X; subst; auto; cbn [data] in *; try (unfold kind_of in *; rewrite U in *; discriminate); match goal with E : d_get _ _ = Some _ |- _ => rewrite E in H; discriminate end.
Qed.

Lemma href_link t d v : iready t -> In d (flat t) -> d_get d AXlinkHref = Some v -> forall j, link_of v = Some j -> exists n, In n (flat t) /\ key n = j /\ v = VLink j /\ tag n <> TEl EClipPath /\ tag n <> TEl EFilter /\
      (gradient_node d /\ gradient_node n \/ tag d = TEl EPattern /\ tag n = TEl EPattern \/
       ~ gradient_node n /\ (kind_of d = KUse \/ tag d = TEl ETextPath \/
         kind_of d = KOther /\ inner d = false /\ tag d <> TEl EClipPath /\ tag d <> TEl EFilter /\ ~ gradient_node d)).
Proof.
  intros I Hd E j L. destruct (get_some_in _ _ _ E) as (x & Hx & Nx & <-).
  assert (Kj : In j (keys t)). { apply (wf_links _ (i_wf _ I)). unfold targets. apply in_flat_map. exists d. split; [exact Hd|]. apply in_flat_map. exists x. split; [exact Hx|]. rewrite L. now left. }
  unfold keys in Kj. apply in_map_iff in Kj. destruct Kj as (n & <- & Hn). exists n. pose proof (i_links _ I d x n Hd Hx Hn L) as Q. unfold link_ok in Q. rewrite Nx in Q. tauto.
Qed.

Section Keep.
  Variables (t : tree) (k : nat) (G : list nat) (f : ndata -> ndata).
  Hypothesis I : iready t.
  Hypothesis HG : (exists s, In s (subs t) /\ root_key s = k /\ G = keys s) \/ (~ In k (keys t) /\ G = []).
  Hypothesis Hkey : forall d, key (f d) = key d.
  Hypothesis Htag : forall d, tag (f d) = tag d.
  Hypothesis Hroot : ~ In (root_key t) G.
  Hypothesis Hchg : forall d, In d (flat t) -> ~ In (key d) G -> chg t G d (f d).
  Hypothesis Hseen : forall u c, In u (subs t) -> ~ In (root_key u) G -> In c (kids u) -> root_key c = k ->
    (opens (data u) = true -> blank t c) /\ (tag (data u) = TEl EClipPath -> clip_counts t (data c) = false) /\ ~ holder (data u).
  Hypothesis Hnew : forall x, ~ In x (attrs (f (data t))).
  Let N : NoDup (keys t) := wf_keys _ (i_wf _ I).
  Notation t' := (sv k f t).
  Notation sv := (sv k f).

  Lemma kf d : kind_of (f d) = kind_of d. Proof. apply kind_same, Htag. Qed.
  Lemma tf e d : tagged e (f d) = tagged e d. Proof. apply tagged_same, Htag. Qed.
  Lemma hf d : holder (f d) <-> holder d. Proof. unfold holder, gradient_node. now rewrite Htag. Qed.
  Lemma gf d : gradient_node (f d) <-> gradient_node d. Proof. unfold gradient_node. now rewrite Htag. Qed.
  Lemma other d a : In d (flat t) -> ~ In (key d) G -> ~ In a [AFilter; AFill; AStroke; AFillOpacity; AStrokeOpacity; AXlinkHref] -> d_get (f d) a = d_get d a.
  Proof. intros Hd Nd. apply (ch_other _ _ _ _ (Hchg d Hd Nd)). Qed.
  Ltac oth := rewrite other by (auto; cbn; intuition discriminate).
  Lemma displays_f d : In d (flat t) -> ~ In (key d) G -> displays (f d) = displays d.
  Proof. intros Hd Nd. unfold displays. now oth. Qed.
  Lemma segments_f d : In d (flat t) -> ~ In (key d) G -> segments (f d) = segments d.
  Proof. intros Hd Nd. unfold segments. now oth. Qed.
  Lemma degenerate_f d : In d (flat t) -> ~ In (key d) G -> degenerate (f d) = degenerate d.
  Proof. intros Hd Nd. unfold degenerate. rewrite !tf, segments_f by auto. unfold zero. do 2 oth. reflexivity. Qed.
  Lemma shape_f d : clip_shape_el (f d) = clip_shape_el d. Proof. unfold clip_shape_el. now rewrite Htag. Qed.
  (** An attribute that links is kept links to a node that is kept. *)
  Lemma linked d a v j : In d (flat t) -> ~ In (key d) G -> d_get (f d) a = Some v -> link_of v = Some j -> ~ In j G /\ d_get d a = Some v.
  Proof.
    intros Hd Nd E L. destruct (get_some_in _ _ _ E) as (x & Hx & Nx & <-). destruct (ch_links _ _ _ _ (Hchg d Hd Nd) x j Hx L) as [Hx' Nj]. split; [exact Nj|].
    unfold d_get, get_value. rewrite (get_attr_in (attrs d) x a); auto. apply (proj1 (Forall_forall _ _) (i_wfa _ I) d Hd).
  Qed.
  Lemma target_f d : In d (flat t) -> ~ In (key d) G ->
    (exists n, In n (flat t) /\ ~ In (key n) G /\ target t d = Some n /\ target t' (f d) = Some (f n)) \/
    (target t' (f d) = None /\ (target t d = None \/ exists n, vanishing n = true /\ target t d = Some n)).
  Proof.
    intros Hd Nd. unfold target. destruct (ch_href _ _ _ _ (Hchg d Hd Nd)) as [E|(n & Hn & V & E1 & E2)].
    - rewrite E. destruct (d_get d AXlinkHref) as [[]|] eqn:Eh; try (right; split; [reflexivity|now left]). destruct (linked d AXlinkHref _ _ Hd Nd E eq_refl) as [Nj _].
      rewrite (find_data_sv t k G f N HG Hkey Hroot). destruct (in_dec Nat.eq_dec _ G); [contradiction|]. destruct (find_data _ t) as [n'|] eqn:F; cbn; [|right; split; [reflexivity|now left]].
      left. apply find_data_some in F. destruct F as [Fn Fk]. exists n'. rewrite Fk. auto.
    - rewrite E2, E1. right. split; [reflexivity|]. right. exists n. split; [exact V|]. now apply find_data_in.
  Qed.
  Lemma counts_f d : In d (flat t) -> ~ In (key d) G -> clip_counts t' (f d) = clip_counts t d.
  Proof.
    intros Hd Nd. unfold clip_counts. rewrite displays_f, shape_f, degenerate_f, tf by auto. f_equal. f_equal. f_equal.
    destruct (target_f d Hd Nd) as [(n & Hn & Nn & -> & ->)|(-> & [-> |(n & V & ->)])]; [|reflexivity|].
    - now rewrite shape_f, degenerate_f, displays_f.
    - unfold vanishing in V. apply orb_true_iff in V. destruct V as [-> |V]; [now rewrite andb_false_r|]. apply andb_true_iff in V. destruct V as [V _]. apply tagged_iff in V. unfold clip_shape_el. now rewrite V.
  Qed.
  Lemma on_path_f d : In d (flat t) -> ~ In (key d) G -> on_path t' (f d) = on_path t d.
  Proof.
    intros Hd Nd. unfold on_path. rewrite tf. f_equal. destruct (target_f d Hd Nd) as [(n & Hn & Nn & -> & ->)|(-> & [-> |(n & V & ->)])]; [|reflexivity|].
    - now rewrite tf, segments_f.
    - symmetry. apply andb_false_iff. destruct (tagged EPath n) eqn:P; [right|now left]. unfold vanishing, degenerate in V. rewrite P in V. apply tagged_iff in P. unfold tagged in V. rewrite P in V. cbn in V. rewrite !orb_false_r in V. now apply negb_true_iff.
  Qed.
  Lemma kids_holder u : In u (subs t) -> ~ In (root_key u) G -> holder (data u) -> kids (sv u) = map sv (kids u) /\ forall c, In c (kids u) -> ~ In (root_key c) G.
  Proof.
    intros Hu Nu Hh. assert (Q : forall c, In c (kids u) -> root_key c <> k). { intros c Hc E. now apply (Hseen u c Hu Nu Hc E). }
    split; [|intros c Hc; apply (kid_stays t k G N HG Hroot u c Hu Nu Hc (Q c Hc))]. rewrite kids_sv by exact Hkey. revert Q. induction (kids u) as [|c l IH]; intros Q; [reflexivity|]. cbn. destruct (Nat.eqb_spec (root_key c) k) as [E|E]; [now apply Q in E; [|left]|]. cbn. rewrite IH; auto. intros; apply Q. now right.
  Qed.
  Lemma empty_clip_f j : ~ In j G -> empty_clip t' j = empty_clip t j.
  Proof.
    intros Nj. unfold empty_clip. rewrite (find_sv t k G f N HG Hkey Hroot). destruct (in_dec Nat.eq_dec j G); [contradiction|]. destruct (find_sub j t) as [u|] eqn:F; [|reflexivity]. cbn [option_map]. apply find_sub_some in F. destruct F as [Hu Ku].
    rewrite data_sv, tf. destruct (tagged EClipPath (data u)) eqn:C; [|reflexivity]. apply tagged_iff in C. cbn [andb]. rewrite kids_sv by exact Hkey.
    assert (Q : forall c, In c (kids u) -> (root_key c = k /\ clip_counts t (data c) = false) \/ (root_key c <> k /\ clip_counts t' (f (data c)) = clip_counts t (data c))).
    { intros c Hc. destruct (Nat.eq_dec (root_key c) k) as [E|E]; [left; split; [exact E|]|right; split; [exact E|]].
      - apply (Hseen u c); auto. now rewrite Ku.
      - apply counts_f; [apply data_of_sub; exact (kid_sub u c t Hu Hc)|]. apply (kid_stays t k G N HG Hroot u c Hu); auto. now rewrite Ku. }
    revert Q. induction (kids u) as [|c l IH]; intros Q; [reflexivity|]. cbn [flat_map forallb]. destruct (Q c (or_introl eq_refl)) as [[E1 E2]|[E1 E2]].
    - rewrite E1, Nat.eqb_refl, E2. cbn. apply IH. intros; apply Q; now right.
    - destruct (Nat.eqb_spec (root_key c) k); [contradiction|]. cbn [app forallb]. rewrite data_sv, E2. f_equal. apply IH. intros; apply Q; now right.
  Qed.
  Lemma has_href_f d : In d (flat t) -> ~ In (key d) G -> d_has d AXlinkHref = false -> d_has (f d) AXlinkHref = false.
  Proof. intros Hd Nd. rewrite !d_has_get. destruct (ch_href _ _ _ _ (Hchg d Hd Nd)) as [-> |(n & _ & _ & _ & ->)]; auto. Qed.
  Lemma href_same d : In d (flat t) -> ~ In (key d) G -> kind_of d <> KUse -> (kind_of d <> KOther \/ inner d = true \/ tag d = TEl EClipPath \/ gradient_node d) -> drawn t d = true \/ tag d <> TEl ETextPath -> d_get (f d) AXlinkHref = d_get d AXlinkHref.
  Proof.
    intros Hd Nd K1 K2 K3. destruct (ch_href _ _ _ _ (Hchg d Hd Nd)) as [E|(n & Hn & V & E & _)]; [exact E|]. exfalso. destruct (href_link t d _ I Hd E _ eq_refl) as (n' & Hn' & Kn & _ & _ & _ & Q).
    assert (n' = n) by (apply (data_unique t); auto). subst n'. pose proof (vanishing_kind _ V) as Vk. assert (Nt : tag d <> TEl ETextPath).
    { destruct K3 as [D|X]; [|exact X]. intros X. unfold drawn in D. unfold kind_of in D. rewrite X in D. apply andb_true_iff in D. destruct D as [_ D]. unfold on_path, target in D. rewrite (proj2 (tagged_iff _ _) X), E, (find_data_in t n N Hn) in D. cbn in D. apply andb_true_iff in D. destruct D as [P S]. unfold vanishing, degenerate in V. apply tagged_iff in P. unfold tagged in V. rewrite P in V. cbn in V. rewrite S in V. discriminate. }
    unfold gradient_node in *. destruct Q as [[_ Q]|[[_ Q]|[_ [Q|[Q|Q]]]]].
    - destruct Vk as [Vk|[Vk|Vk]], Q; congruence.
    - destruct Vk as [Vk|[Vk|Vk]]; congruence.
    - contradiction.
    - contradiction.
    - destruct Q as (q1 & q2 & q3 & _ & q5). destruct K2 as [K|[K|[K|K]]]; try congruence; contradiction.
  Qed.
  Lemma empty_filter_f j : ~ In j G -> empty_filter t' j = empty_filter t j.
  Proof.
    intros Nj. unfold empty_filter. rewrite (find_sv t k G f N HG Hkey Hroot). destruct (in_dec Nat.eq_dec j G); [contradiction|]. destruct (find_sub j t) as [u|] eqn:F; [|reflexivity]. cbn [option_map]. apply find_sub_some in F. destruct F as [Hu Ku].
    rewrite data_sv, tf. destruct (tagged EFilter (data u)) eqn:C; [|reflexivity]. apply tagged_iff in C. assert (Hh : holder (data u)) by (now left). assert (Nu : ~ In (root_key u) G) by (now rewrite Ku).
    pose proof (data_of_sub _ _ Hu) as Hd. rewrite (i_filters _ I u Hu C), (has_href_f _ Hd Nu (i_filters _ I u Hu C)). destruct (kids_holder u Hu Nu Hh) as [-> _]. now destruct (kids u).
  Qed.
  Lemma dead_f d : In d (flat t) -> ~ In (key d) G -> dead t' (f d) = dead t d.
  Proof.
    intros Hd Nd. unfold dead. assert (E : d_get (f d) AClipPath = d_get d AClipPath) by (oth; reflexivity). f_equal.
    - destruct (d_get (f d) AClipPath) as [v|] eqn:Ev; rewrite <- E; [|reflexivity]. destruct v; try reflexivity. destruct (linked d AClipPath _ _ Hd Nd Ev eq_refl) as [Nj _]. now apply empty_clip_f.
    - destruct (ch_filter _ _ _ _ (Hchg d Hd Nd)) as [Ef|(j & E1 & (s & c & Hs & Ks & Ts & Kd & _) & E2)].
      + destruct (d_get (f d) AFilter) as [v|] eqn:Ev; rewrite <- Ef; [|reflexivity]. destruct v; try reflexivity. destruct (linked d AFilter _ _ Hd Nd Ev eq_refl) as [Nj _]. now apply empty_filter_f.
      + rewrite E2, E1. unfold empty_filter. rewrite <- Ks, (find_sub_iff t s N Hs), Kd, andb_false_r. reflexivity.
  Qed.
  Lemma drawn_f d : In d (flat t) -> ~ In (key d) G -> drawn t' (f d) = drawn t d.
  Proof. intros Hd Nd. unfold drawn. now rewrite kf, displays_f, dead_f, degenerate_f, on_path_f. Qed.
  Lemma looks_drawn d : In d (flat t) -> ~ In (key d) G -> drawn t d = true -> (kind_of d = KUse -> d_get (f d) AXlinkHref = d_get d AXlinkHref) -> looks t d (f d).
  Proof.
    intros Hd Nd D U. apply (looks_of t G); [now apply Hchg|]. assert (X : kind_of d = KUse \/ kind_of d <> KUse) by (destruct (kind_of d); auto; right; discriminate). destruct X as [K|K]; [now apply U|]. apply href_same; auto. left. unfold drawn in D. destruct (kind_of d); discriminate.
  Qed.
  Lemma looks_inner d : In d (flat t) -> ~ In (key d) G -> inner d = true \/ tag d = TEl EClipPath \/ kind_of d = KSymbol -> looks t d (f d).
  Proof.
    intros Hd Nd H. apply (looks_of t G); [now apply Hchg|]. unfold inner in H. rewrite !orb_true_iff, !tagged_iff in H. unfold kind_of in H.
    apply href_same; auto; unfold kind_of, inner; rewrite ?orb_true_iff, ?tagged_iff.
    - destruct H as [[[H|H]|H]|[H|H]]; rewrite H; discriminate.
    - destruct H as [H|[H|H]]; auto. left. rewrite H. discriminate.
    - right. destruct H as [[[H|H]|H]|[H|H]]; try (rewrite H; discriminate). destruct (tag d) as [|e| | | |]; try discriminate. destruct e; discriminate.
  Qed.
  Lemma href_f d : In d (flat t) -> ~ In (key d) G -> kind_of d = KUse ->
    (d_get (f d) AXlinkHref = d_get d AXlinkHref /\ forall j, d_get d AXlinkHref = Some (VLink j) -> ~ In j G) \/
    (exists s, In s (subs t) /\ d_get d AXlinkHref = Some (VLink (root_key s)) /\ blank t s /\ kind_of (data s) <> KSymbol /\ d_get (f d) AXlinkHref = None).
  Proof.
    intros Hd Nd K. destruct (ch_href _ _ _ _ (Hchg d Hd Nd)) as [E|(n & Hn & V & E1 & E2)].
    - left. split; [exact E|]. intros j Ej. rewrite Ej in E. apply (linked d _ _ j Hd Nd E eq_refl).
    - right. rewrite <- map_data_subs in Hn. apply in_map_iff in Hn. destruct Hn as (s & <- & Hs). exists s. split; [exact Hs|]. split; [exact E1|]. split; [now apply vanishing_blank|]. split; [|exact E2]. unfold kind_of. destruct (vanishing_kind _ V) as [-> |[-> | ->]]; discriminate.
  Qed.

  (** ** Pictures *)
  Lemma looks_root : looks t (data t) (f (data t)).
  Proof.
    assert (Hd : In (data t) (flat t)) by (apply data_of_sub, subs_self). apply (looks_of t G); [now apply Hchg|]. destruct (ch_href _ _ _ _ (Hchg _ Hd Hroot)) as [E|(n & Hn & V & E & _)]; [exact E|]. exfalso.
    unfold d_get, get_value in E. rewrite (proj2 (i_root _ I)) in E. discriminate.
  Qed.
  Lemma looks_sym d : In d (flat t) -> ~ In (key d) G -> kind_of d = KSymbol -> looks t d (f d) /\ dead t' (f d) = dead t d.
  Proof. intros Hd Nd K. split; [now apply looks_inner; auto|now apply dead_f]. Qed.
  Lemma open_blank u c : In u (subs t) -> ~ In (root_key u) G -> opens (data u) = true -> In c (kids u) -> root_key c = k -> blank t c.
  Proof. intros Hu Nu O Hc E. now apply (Hseen u c). Qed.
  Lemma keep_drawing l : drawing t l -> exists l', drawing t' l' /\ Forall2 (Forall2 (looks t)) l l'.
  Proof.
    intros H. apply (opens_step t k G f (looks t) N HG Hkey Hroot Htag drawn_f looks_drawn looks_sym href_f open_blank t (subs_self t) Hroot); [|apply looks_root|exact H].
    unfold opens, kind_of. rewrite (proj1 (i_root _ I)). apply orb_true_r.
  Qed.
  Lemma keep_inside j l : ~ In j G -> inside_of t j l -> exists l', inside_of t' j l' /\ Forall2 (Forall2 (looks t)) l l'.
  Proof.
    intros Nj (u & Hu & <- & Iu & H). pose proof (data_of_sub _ _ Hu) as Hd.
    destruct (opens_step t k G f (looks t) N HG Hkey Hroot Htag drawn_f looks_drawn looks_sym href_f open_blank u Hu Nj) with (l := l) as (l' & H' & F); [unfold opens; rewrite Iu; now destruct (kind_of (data u))|now apply looks_inner; auto|exact H|].
    exists l'. split; [|exact F]. exists (sv u). split; [now apply (sv_sub t k G f N HG Hkey Hroot)|]. split; [apply root_sv, Hkey|]. split; [rewrite data_sv; unfold inner; now rewrite !tf|exact H'].
  Qed.
  Lemma keep_clip j l : ~ In j G -> clip_of t j l -> exists l', clip_of t' j l' /\ Forall2 (Forall2 (looks t)) l l'.
  Proof.
    intros Nj (u & Hu & <- & Iu & H). pose proof (data_of_sub _ _ Hu) as Hd.
    assert (Hcount : forall u c, In u (subs t) -> ~ In (root_key u) G -> tagged EClipPath (data u) = true -> In c (kids u) -> root_key c = k -> clip_counts t (data c) = false).
    { intros v c Hv Nv Tv Hc E. apply tagged_iff in Tv. now apply (Hseen v c). }
    destruct (clip_step t k G f (looks t) N HG Hkey Hroot Htag drawn_f looks_drawn looks_sym href_f open_blank Hcount counts_f u Hu Nj Iu) with (l := l) as (l' & H' & F); [apply looks_inner; auto; right; left; now apply tagged_iff|exact H|].
    exists l'. split; [|exact F]. exists (sv u). split; [now apply (sv_sub t k G f N HG Hkey Hroot)|]. split; [apply root_sv, Hkey|]. split; [rewrite data_sv; now rewrite tf|exact H'].
  Qed.

  (** ** The conditions *)
  Lemma f_flat d' : In d' (flat t') -> exists d, In d (flat t) /\ ~ In (key d) G /\ d' = f d.
  Proof. apply (flat_sv t k G f N HG Hkey Hroot). Qed.
  Lemma f_sub u' : In u' (subs t') -> exists u, In u (subs t) /\ u' = sv u /\ ~ In (root_key u) G.
  Proof. apply (sub_sv t k G f N HG Hkey Hroot). Qed.
  Lemma f_kid u c' : In u (subs t) -> ~ In (root_key u) G -> In c' (kids (sv u)) -> exists c, In c (kids u) /\ c' = sv c /\ ~ In (root_key c) G.
  Proof.
    intros Hu Nu H. rewrite kids_sv in H by exact Hkey. apply in_flat_map in H. destruct H as (c & Hc & H). destruct (Nat.eqb_spec (root_key c) k) as [E|E]; [destruct H|]. destruct H as [<-|[]]. exists c. split; [exact Hc|]. split; [reflexivity|]. now apply (kid_stays t k G N HG Hroot u c).
  Qed.
  Lemma f_refers d j : In d (flat t) -> ~ In (key d) G -> refers_to (f d) j -> refers_to d j /\ ~ In j G.
  Proof. intros Hd Nd (x & Hx & L). destruct (ch_links _ _ _ _ (Hchg d Hd Nd) x j Hx L) as [Hx' Nj]. split; [exists x; auto|exact Nj]. Qed.
  Lemma f_referenced j : referenced t' j -> referenced t j.
  Proof. intros (e & He & R). apply f_flat in He. destruct He as (e0 & He & Ne & ->). apply f_refers in R; auto. exists e0. tauto. Qed.
  Lemma f_closed s : In s (subs t) -> ~ In (root_key s) G -> closed t s -> closed t' (sv s).
  Proof.
    intros Hs Ns C d e Hd He R. apply (flat_sv_in t k G f N HG Hkey Hroot s) in Hd; auto. destruct Hd as (d0 & Hd & Nd & ->). apply f_flat in He. destruct He as (e0 & He & Ne & ->). apply f_refers in R; auto. rewrite Hkey in R.
    apply (flat_sv_in t k G f N HG Hkey Hroot s); auto. exists e0. split; [|auto]. apply (C d0); tauto.
  Qed.
  Lemma f_func d a j : In d (flat t) -> ~ In (key d) G -> d_get (f d) a = Some (VFunc j) -> d_get d a = Some (VFunc j) /\ ~ In j G.
  Proof. intros Hd Nd E. destruct (linked d a _ j Hd Nd E eq_refl). auto. Qed.
  Lemma opacity_leaf d a : In d (flat t) -> ~ In (key d) G -> In a [AFill; AStroke] -> kind_of d <> KLeaf -> d_get (f d) (opacity_attr a) = d_get d (opacity_attr a).
  Proof.
    intros Hd Nd Ha K. assert (S : same_paint t a d (f d)) by (destruct Ha as [<-|[<-|[]]]; [apply (ch_fill _ _ _ _ (Hchg d Hd Nd))|apply (ch_stroke _ _ _ _ (Hchg d Hd Nd))]). inversion S; auto; contradiction.
  Qed.
  Lemma opacity_func d a j : In d (flat t) -> ~ In (key d) G -> In a [AFill; AStroke] -> d_get (f d) a = Some (VFunc j) -> d_get (f d) (opacity_attr a) = d_get d (opacity_attr a).
  Proof.
    intros Hd Nd Ha E. assert (S : same_paint t a d (f d)) by (destruct Ha as [<-|[<-|[]]]; [apply (ch_fill _ _ _ _ (Hchg d Hd Nd))|apply (ch_stroke _ _ _ _ (Hchg d Hd Nd))]).
    assert (Q : forall c color o, one_stop t c color o -> d_get (f d) a = Some color -> False). { intros c color o (s & c0 & _ & _ & _ & _ & _ & _ & (r & g & b & ->) & _) X. congruence. }
    inversion S as [| |c color E1 O E2|c color o E1 O E2]; auto; try congruence; exfalso; eapply Q; eassumption.
  Qed.
  Lemma has_href_iff d : In d (flat t) -> ~ In (key d) G -> gradient_node d -> d_has (f d) AXlinkHref = d_has d AXlinkHref.
  Proof.
    intros Hd Nd Gd. rewrite !d_has_get. rewrite href_same; auto; unfold kind_of; destruct Gd as [E|E]; rewrite E; auto; try discriminate; try (right; discriminate).
  Qed.

  Theorem keep_ready : iready t'.
  Proof.
    assert (D : forall u, In u (subs t) -> In (data u) (flat t)) by (intros; now apply data_of_sub).
    assert (Ks : forall u c, In u (subs t) -> In c (kids u) -> In c (subs t)) by (intros u c Hu Hc; exact (kid_sub u c t Hu Hc)).
    constructor.
    - split; [now apply nodup_sv|]. intros j Hj. apply (keys_sv t k G f N HG Hkey Hroot). unfold targets in Hj. apply in_flat_map in Hj. destruct Hj as (d' & Hd' & Hj). apply f_flat in Hd'. destruct Hd' as (d & Hd & Nd & ->). apply in_flat_map in Hj. destruct Hj as (x & Hx & Hj). destruct (link_of (a_val x)) as [i|] eqn:L; [|destruct Hj]. destruct Hj as [<-|[]].
      destruct (ch_links _ _ _ _ (Hchg d Hd Nd) x i Hx L) as [Hx' Ni]. split; [|exact Ni]. apply (wf_links _ (i_wf _ I)). unfold targets. apply in_flat_map. exists d. split; [exact Hd|]. apply in_flat_map. exists x. split; [exact Hx'|]. rewrite L. now left.
    - apply Forall_forall. intros d' Hd'. apply f_flat in Hd'. destruct Hd' as (d & Hd & Nd & ->). apply (ch_nodup _ _ _ _ (Hchg d Hd Nd)). exact (proj1 (Forall_forall _ _) (i_wfa _ I) d Hd).
    - rewrite data_sv. rewrite Htag. split; [apply (i_root _ I)|]. assert (Hd : In (data t) (flat t)) by (apply data_of_sub, subs_self). pose proof (Hchg (data t) Hd Hroot) as C.
      (* no attribute can appear on the root *)
      destruct (attrs (f (data t))) as [|x l] eqn:E; [reflexivity|]. exfalso. exact (Hnew x (or_introl eq_refl)).
    - intros d' Hd'. apply f_flat in Hd'. destruct Hd' as (d & Hd & Nd & ->). rewrite Htag. now apply (i_switch _ I).
    - intros d' x n' Hd' Hx Hn' L. apply f_flat in Hd'. destruct Hd' as (d & Hd & Nd & ->). apply f_flat in Hn'. destruct Hn' as (n & Hn & Nn & ->). destruct (ch_links _ _ _ _ (Hchg d Hd Nd) x _ Hx L) as [Hx' _]. rewrite Hkey in L.
      pose proof (i_links _ I d x n Hd Hx' Hn L) as Q. unfold link_ok, gradient_node, inner in *. rewrite !Htag, !Hkey, !kf, !tf. exact Q.
    - intros s' c' d' Hs Hc Hd Tg R. apply f_sub in Hs. destruct Hs as (s & Hs & -> & Ns). apply f_kid in Hc; auto. destruct Hc as (c & Hc & -> & Nc). apply (flat_sv_in t k G f N HG Hkey Hroot c) in Hd; eauto. destruct Hd as (d & Hd & Nd & ->). rewrite data_sv in Tg. unfold gradient_node in Tg. rewrite Htag in Tg. apply f_referenced in R. rewrite Hkey in R. exact (i_inside _ I s c d Hs Hc Hd Tg R).
    - intros s' c' Hs Hc Tg. apply f_sub in Hs. destruct Hs as (s & Hs & -> & Ns). apply f_kid in Hc; auto. destruct Hc as (c & Hc & -> & Nc). rewrite data_sv in Tg. unfold gradient_node in Tg |- *. rewrite Htag in Tg. rewrite !data_sv, !Htag. pose proof (D c (Ks s c Hs Hc)) as Hd. destruct (i_parts _ I s c Hs Hc Tg) as (p1 & p2 & p3 & p4 & p5 & p6 & p7 & p8). rewrite kf, displays_f by auto.
      repeat (split; [assumption|]). split; intros j E; apply f_func in E; auto; [apply (p7 j)|apply (p8 j)]; tauto.
    - intros s' c' Hs Hc Tg. apply f_sub in Hs. destruct Hs as (s & Hs & -> & Ns). apply f_kid in Hc; auto. destruct Hc as (c & Hc & -> & Nc). rewrite data_sv, Htag in Tg. rewrite data_sv. pose proof (D c (Ks s c Hs Hc)) as Hd. destruct (i_clips _ I s c Hs Hc Tg) as (p7 & p8). split; intros j E; apply f_func in E; auto; [apply (p7 j)|apply (p8 j)]; tauto.
    - intros s' Hs E. apply f_sub in Hs. destruct Hs as (s & Hs & -> & Ns). rewrite data_sv, dead_f in E by auto. apply f_closed; auto. now apply (i_dead _ I).
    - intros s' c' Hs Hc Tg E. apply f_sub in Hs. destruct Hs as (s & Hs & -> & Ns). apply f_kid in Hc; auto. destruct Hc as (c & Hc & -> & Nc). rewrite data_sv, Htag in Tg. rewrite data_sv, shape_f in E. apply f_closed; eauto. exact (i_invalid _ I s c Hs Hc Tg E).
    - intros s' Hs Tg. apply f_sub in Hs. destruct Hs as (s & Hs & -> & Ns). rewrite data_sv, Htag in Tg. rewrite data_sv. apply has_href_f; auto. now apply (i_filters _ I).
    - intros s' c' a Hs Tg Ek Tc Ha. apply f_sub in Hs. destruct Hs as (s & Hs & -> & Ns). rewrite data_sv, Htag in Tg. destruct (kids_holder s Hs Ns (or_introl Tg)) as [E1 E2]. rewrite E1 in Ek. destruct (kids s) as [|c [|]] eqn:Ek0; try discriminate. injection Ek as <-. rewrite data_sv in Tc |- *. rewrite Htag in Tc.
      assert (Hc : In c (kids s)) by (rewrite Ek0; now left). pose proof (D c (Ks s c Hs Hc)) as Hd. rewrite other; auto; [apply (i_matrix _ I s c); auto|apply E2; rewrite <- Ek0; exact Hc|]. cbn in *. intuition (subst; discriminate).
    - intros s' d' Hs Gs Ln Hh Hd Gd R. apply f_sub in Hs. destruct Hs as (s & Hs & -> & Ns). rewrite data_sv in Gs, Hh. apply (proj1 (gf _)) in Gs. apply f_flat in Hd. destruct Hd as (d & Hd & Nd & ->). apply (proj1 (gf _)) in Gd. apply f_refers in R; auto. rewrite root_sv in R by exact Hkey. destruct (kids_holder s Hs Ns (or_intror Gs)) as [E1 E2]. rewrite E1, map_length in Ln. rewrite has_href_iff in Hh by auto. apply (i_templates _ I s d); tauto.
    - intros s' c' o d' a Hs Gs Ek Hh Eo No Hd Ha E. apply f_sub in Hs. destruct Hs as (s & Hs & -> & Ns). rewrite data_sv in Gs, Hh. apply (proj1 (gf _)) in Gs. apply f_flat in Hd. destruct Hd as (d & Hd & Nd & ->). destruct (kids_holder s Hs Ns (or_intror Gs)) as [E1 E2]. rewrite E1 in Ek. destruct (kids s) as [|c [|]] eqn:Ek0; try discriminate. injection Ek as <-. rewrite has_href_iff in Hh by auto. rewrite data_sv in Eo.
      assert (Hc : In c (kids s)) by (rewrite Ek0; now left). pose proof (D c (Ks s c Hs Hc)) as Hdc. rewrite other in Eo; [|exact Hdc|apply E2; rewrite <- Ek0; exact Hc|cbn; intuition discriminate]. rewrite root_sv in E by exact Hkey. pose proof (opacity_func d a _ Hd Nd Ha E) as Eop. apply f_func in E; auto.
      destruct (i_opacity _ I s c o d a Hs Gs Ek0 Hh Eo No Hd Ha (proj1 E)) as (q1' & q2 & q3). rewrite kf, Eop. split; [exact q1'|]. split; [exact q2|]. intros e' He K. apply f_flat in He. destruct He as (e & He & Ne & ->). rewrite kf in K. rewrite opacity_leaf by auto. now apply q3.
  Qed.
End Keep.
