(** Documents without references stay as they are while they are cleaned: tools. *)
From Coq Require Import List Bool NArith Arith ZArith String Lia QArith Qcanon.
From Verif Require Import Names Num Value Dom DomFacts DomOps Outcome DomRemove SpecDom SpecPath Stops Shapes NPass APass VLoop Transforms.
Import ListNotations.
Local Open Scope nat_scope.

(** [b]: path data have not been processed yet. *)
Definition typed (b : bool) (n : aname) (v : value) : Prop :=
  match n with
  | AN ATransform => exists m, v = VTransform m
  | AN AOpacity => exists q, v = VNum q
  | AN APoints => exists l, v = VNumList l /\ l <> [] /\ Nat.even (List.length l) = true
  | AN AD => b = true -> exists p, v = VPath p /\ starts_with_move p
  | _ => True
  end.
Definition good (b : bool) (x : attr) : Prop := link_of (a_val x) = None /\ typed b (a_name x) (a_val x).
Definition special (n : aname) : Prop := n = AN ADisplay \/ n = AN ATransform.
Definition quiet (d : ndata) : Prop := tag d <> TEl ELinearGradient /\ tag d <> TEl ERadialGradient /\ tag d <> TEl EFilter.
Section Nodes.
Variables (b : bool) (N : list nat).
Record okn (d : ndata) : Prop := {
  ok_attrs : forall x, In x (attrs d) -> good b x;
  ok_quiet : quiet d;
  ok_trans : d_has d ATransform = true -> is_svg_el d = true;
  ok_ids : has_id d = true -> In (key d) N
}.
Definition tag_rel (d d' : ndata) : Prop :=
  tag d' = tag d \/ (tag d' = TEl EPath /\ exists e, tag d = TEl e /\ e <> EG /\ e <> ESvg /\ e <> EDefs).
(** [d] may become [d']. *)
Record R (d d' : ndata) : Prop := {
  R_key : key d' = key d;
  R_nid : nid d' = nid d;
  R_tag : tag_rel d d';
  R_attrs : forall x, In x (attrs d') -> good b x /\ (In (a_name x) (map a_name (attrs d)) \/ ~ special (a_name x))
}.
Lemma tag_rel_refl d : tag_rel d d. Proof. now left. Qed.
Lemma tag_rel_trans d1 d2 d3 : tag_rel d1 d2 -> tag_rel d2 d3 -> tag_rel d1 d3.
Proof.
  intros [A|(A & e & B & C)] [A'|(A' & e' & B' & C')].
  - left. congruence.
  - right. split; [exact A'|]. exists e'. split; [congruence|exact C'].
  - right. split; [congruence|]. exists e. auto.
  - right. split; [exact A'|]. exists e. auto.
Qed.
Lemma R_refl d : okn d -> R d d.
Proof. intros H. split; auto; [apply tag_rel_refl|]. intros x Hx. split; [now apply H|]. left. now apply in_map. Qed.
Lemma R_trans d1 d2 d3 : R d1 d2 -> R d2 d3 -> R d1 d3.
Proof.
  intros [K1 N1 T1 A1] [K2 N2 T2 A2]. split; [congruence|congruence|exact (tag_rel_trans _ _ _ T1 T2)|].
  intros x Hx. destruct (A2 x Hx) as [G [H|H]]; (split; [exact G|]); [|now right].
  apply in_map_iff in H. destruct H as (y & <- & Hy). apply (A1 y Hy).
Qed.
Lemma in_has d a : In (AN a) (map a_name (attrs d)) <-> d_has d a = true.
Proof.
  unfold d_has, has_attr, get_attr. split.
  - intros H. apply in_map_iff in H. destruct H as (x & E & Hx). destruct (find _ _) eqn:F; [reflexivity|]. apply (find_none _ _ F) in Hx. unfold has_name in Hx. rewrite E in Hx. now destruct (aname_eqb_spec (AN a) (AN a)).
  - destruct (find _ _) as [x|] eqn:F; [|discriminate]. intros _. apply find_some in F. destruct F as [Hx E]. unfold has_name in E. destruct (aname_eqb_spec (a_name x) (AN a)) as [<-|]; [|discriminate]. now apply in_map.
Qed.
Lemma not_has d a : d_has d a = false <-> ~ In (AN a) (map a_name (attrs d)).
Proof. rewrite in_has. destruct (d_has d a); split; intuition congruence. Qed.
Lemma R_has d d' a : R d d' -> special (AN a) -> d_has d a = false -> d_has d' a = false.
Proof.
  intros H S F. apply not_has. intros X. apply in_map_iff in X. destruct X as (x & E & Hx). destruct (R_attrs _ _ H x Hx) as [_ [Y|Y]]; rewrite E in Y; [|now apply Y].
  apply not_has in F. now apply F.
Qed.
Lemma tag_rel_el d d' : tag_rel d d' -> is_svg_el d' = is_svg_el d.
Proof. intros [E|(E & e & E' & _)]; unfold is_svg_el; rewrite E; [reflexivity|now rewrite E']. Qed.
Lemma tag_rel_is e d d' : (e = EG \/ e = ESvg \/ e = EDefs) -> tag_rel d d' -> is_tag e d' = is_tag e d.
Proof.
  intros He [E|(E & e' & E' & A & B & C)]; unfold is_tag; rewrite E; [reflexivity|]. rewrite E'. destruct He as [-> | [-> | ->] ]; match goal with |- _ = eid_eqb ?x ?y => destruct (eid_eqb_spec x y) end; try congruence; reflexivity.
Qed.
Lemma R_okn d d' : R d d' -> okn d -> okn d'.
Proof.
  intros H [A Q T I]. split.
  - intros x Hx. apply (R_attrs _ _ H x Hx).
  - destruct (R_tag _ _ H) as [E|(E & _)]; unfold quiet; rewrite E; [exact Q|repeat split; discriminate].
  - intros D. rewrite (tag_rel_el _ _ (R_tag _ _ H)). apply T. destruct (d_has d ATransform) eqn:F; [reflexivity|]. rewrite (R_has _ _ ATransform H) in D; [discriminate|now right|exact F].
  - unfold has_id. rewrite (R_nid _ _ H), (R_key _ _ H). exact I.
Qed.
(** Changes of one node. *)
Lemma R_with d x l : R d x -> (forall y, In y l -> good b y /\ (In (a_name y) (map a_name (attrs x)) \/ ~ special (a_name y))) -> R d (with_attrs x l).
Proof.
  intros [K0 N0 T0 A0] H. split; auto. cbn. intros y Hy. destruct (H y Hy) as [G [X|X]]; (split; [exact G|]); [|now right].
  apply in_map_iff in X. destruct X as (z & <- & Hz). apply (A0 z Hz).
Qed.
Lemma R_good d x y : R d x -> In y (attrs x) -> good b y. Proof. intros H Hy. apply (R_attrs _ _ H y Hy). Qed.
Lemma R_filter d x p : R d x -> R d (with_attrs x (filter p (attrs x))).
Proof. intros H. apply R_with; [exact H|]. intros y Hy. apply filter_In in Hy. destruct Hy as [Hy _]. split; [exact (R_good _ _ _ H Hy)|left; now apply in_map]. Qed.
Lemma R_rm d x a : R d x -> R d (d_rm x a). Proof. apply R_filter. Qed.
Lemma R_map d x f : R d x -> (forall y, In y (attrs x) -> a_name (f y) = a_name y) -> (forall y, In y (attrs x) -> good b y -> good b (f y)) -> R d (with_attrs x (map f (attrs x))).
Proof.
  intros H F G. apply R_with; [exact H|]. intros y Hy. apply in_map_iff in Hy. destruct Hy as (z & <- & Hz). split; [apply G; [exact Hz|exact (R_good _ _ _ H Hz)]|]. left. rewrite (F z Hz). now apply in_map.
Qed.
Lemma R_put d x a v (vis : bool) l : R d x -> (forall y, In y l -> In y (attrs x) \/ y = At (AN a) v vis) -> link_of v = None -> typed b (AN a) v -> (special (AN a) -> d_has x a = true) -> R d (with_attrs x l).
Proof.
  intros H L V T S. apply R_with; [exact H|]. intros y Hy. destruct (L y Hy) as [Hy'| ->]; [split; [exact (R_good _ _ _ H Hy')|left; now apply in_map]|]. split; [now split|]. cbn.
  destruct (d_has x a) eqn:D; [left; now apply in_has|]. right. intros X. now specialize (S X).
Qed.
Lemma set_attr_from l a v : forall y, In y (set_attr l a v) -> In y l \/ y = At (AN a) v true.
Proof. induction l as [|x l IH]; cbn; intros y; [intros [<-|[]]; auto|]. destruct (has_name _ _); cbn; intros [<-|H]; auto. apply IH in H. tauto. Qed.
Lemma set_hidden_from l a v : forall y, In y (set_hidden l a v) -> In y l \/ y = At (AN a) v false.
Proof. induction l as [|x l IH]; cbn; intros y; [intros [<-|[]]; auto|]. destruct (has_name _ _); cbn; intros [<-|H]; auto. apply IH in H. tauto. Qed.
Lemma R_set d x a v : R d x -> link_of v = None -> typed b (AN a) v -> (special (AN a) -> d_has x a = true) -> R d (d_set x a v).
Proof. intros H V T S. apply (R_put d x a v true); auto. apply set_attr_from. Qed.
Lemma R_set_hidden d x a v : R d x -> link_of v = None -> typed b (AN a) v -> (special (AN a) -> d_has x a = true) -> R d (d_set_hidden x a v).
Proof. intros H V T S. apply (R_put d x a v false); auto. apply set_hidden_from. Qed.
Lemma R_map_value d x a v : R d x -> link_of v = None -> typed b (AN a) v -> R d (map_value x a v).
Proof.
  intros H V T. apply R_map; [exact H| |]; intros y _; destruct (has_name (AN a) y) eqn:E; cbn; auto.
  intros _. split; [exact V|]. unfold has_name in E. cbn. destruct (aname_eqb_spec (a_name y) (AN a)) as [->|]; [exact T|discriminate].
Qed.
Lemma R_hide d x a : R d x -> R d (with_attrs x (hide_attr (attrs x) a)).
Proof. intros H. unfold hide_attr. apply R_map; [exact H| |]; intros y _; destruct (has_name _ y); auto. Qed.
Lemma R_retag d x : R d x -> (exists e, tag x = TEl e /\ e <> EG /\ e <> ESvg /\ e <> EDefs) -> R d (with_tag x (TEl EPath)).
Proof.
  intros [K0 N0 T0 A0] H. split; auto. apply (tag_rel_trans _ x); [exact T0|]. right. split; [reflexivity|exact H].
Qed.
Lemma R_fold {A} d (f : ndata -> A -> ndata) l : (forall x y, R d x -> R d (f x y)) -> forall x, R d x -> R d (fold_left f l x).
Proof. intros H. induction l as [|y l IH]; intros x Hx; cbn; auto. Qed.
Lemma R_rm_list d l : forall x, R d x -> R d (d_rm_list x l).
Proof. apply R_fold. intros. now apply R_rm. Qed.

(** Trees: nodes are changed, and some subtrees may vanish, but not those in [K]. *)
Section Shrink.
Variable K : list nat.
Inductive shr : tree -> tree -> Prop := shr_T d d' ch ch' : R d d' -> shrl ch ch' -> shr (T d ch) (T d' ch')
with shrl : list tree -> list tree -> Prop :=
| shr_nil : shrl [] []
| shr_skip c ch ch' : ~ In (root_key c) K -> shrl ch ch' -> shrl (c :: ch) ch'
| shr_keep c c' ch ch' : shr c c' -> shrl ch ch' -> shrl (c :: ch) (c' :: ch').
Lemma shrl_map f ch : (forall c, In c ch -> shr c (f c)) -> shrl ch (map f ch).
Proof. induction ch as [|c ch IH]; intros H; cbn; constructor; [apply H; now left|]. apply IH. intros. apply H. now right. Qed.
Lemma shr_data s s' : shr s s' -> R (data s) (data s'). Proof. intros H. now destruct H. Qed.
Lemma shr_root s s' : shr s s' -> root_key s' = root_key s. Proof. intros H. exact (R_key _ _ (shr_data _ _ H)). Qed.
Lemma shrl_in ch ch' c' : shrl ch ch' -> In c' ch' -> exists c, In c ch /\ shr c c'.
Proof.
  intros H. induction H as [|c ch ch' _ H IH|c c1 ch ch' Hc H IH]; [intros []| |].
  - intros Hi. destruct (IH Hi) as (x & A & B). exists x. split; [now right|exact B].
  - intros [-> |Hi]; [exists c; split; [now left|exact Hc]|]. destruct (IH Hi) as (x & A & B). exists x. split; [now right|exact B].
Qed.
Lemma shrl_keep ch ch' c : shrl ch ch' -> In c ch -> In (root_key c) K -> exists c', In c' ch' /\ shr c c'.
Proof.
  intros H. induction H as [|x ch ch' Hx H IH|x x' ch ch' Hx H IH]; [intros []| |].
  - intros [-> |Hi] Hk; [contradiction|]. auto.
  - intros [-> |Hi] Hk; [exists x'; split; [now left|exact Hx]|]. destruct (IH Hi Hk) as (y & A & B). exists y. split; [now right|exact B].
Qed.
Lemma shr_subs : forall t t' s', shr t t' -> In s' (subs t') -> exists s, In s (subs t) /\ shr s s'.
Proof.
  intros t. induction t as [d ch IH] using tree_ind'. intros t' s' H Hs. inversion H as [? d' ? ch' Hd Hc]; subst. cbn in Hs. destruct Hs as [<-|Hs]; [exists (T d ch); split; [now left|exact H]|].
  apply in_flat_map in Hs. destruct Hs as (c' & Hc' & Hs). destruct (shrl_in _ _ _ Hc Hc') as (c & Hin & Hcc). rewrite Forall_forall in IH. destruct (IH c Hin c' s' Hcc Hs) as (s & A & B). exists s. split; [|exact B]. cbn. right. apply in_flat_map. eauto.
Qed.
Lemma shr_refl t : (forall d, In d (flat t) -> okn d) -> shr t t.
Proof.
  induction t as [d ch IH] using tree_ind'. intros H. constructor; [apply R_refl, H; now left|]. rewrite <- (map_id ch) at 2. apply shrl_map. intros c Hc. rewrite Forall_forall in IH. apply IH; [exact Hc|]. intros x Hx. apply H. right. apply in_flat_map. eauto.
Qed.
Lemma shr_trans : forall t t1 t2, shr t t1 -> shr t1 t2 -> shr t t2.
Proof.
  intros t. induction t as [d ch IH] using tree_ind'. intros t1 t2 H1 H2. inversion H1 as [? d1 ? ch1 Hd1 Hc1]; subst. inversion H2 as [? d2 ? ch2 Hd2 Hc2]; subst. constructor; [exact (R_trans _ _ _ Hd1 Hd2)|].
  clear H1 H2 Hd1 Hd2 d d1 d2. revert ch2 Hc2. induction Hc1 as [|c ch ch1 Hk Hc1 IH1|c c1 ch ch1 Hc Hc1 IH1]; intros ch2 Hc2.
  - inversion Hc2. constructor.
  - inversion IH; subst. constructor; [exact Hk|]. auto.
  - inversion IH as [|? ? IHc IHl]; subst. inversion Hc2 as [|? ? ? Hk Hl|? c2 ? l2 Hcc Hl]; subst.
    + constructor; [rewrite <- (shr_root _ _ Hc); exact Hk|]. auto.
    + constructor; [exact (IHc _ _ Hc Hcc)|]. auto.
Qed.
Lemma shr_tmap f t : (forall d, In d (flat t) -> R d (f d)) -> shr t (tmap f t).
Proof.
  induction t as [d ch IH] using tree_ind'. intros H. cbn. constructor; [apply H; now left|]. apply shrl_map. intros c Hc. rewrite Forall_forall in IH. apply IH; [exact Hc|]. intros x Hx. apply H. right. apply in_flat_map. eauto.
Qed.
Lemma shr_prune p t : (forall d, In d (flat t) -> okn d) -> (forall s, In s (subs t) -> p s = true -> ~ In (root_key s) K) -> shr t (prune p t).
Proof.
  induction t as [d ch IH] using tree_ind'. intros H HK. cbn. constructor; [apply R_refl, H; now left|]. assert (H' : forall c, In c ch -> shr c (prune p c)).
  { intros c Hc. rewrite Forall_forall in IH. apply IH; [exact Hc| |]; [intros x Hx; apply H; right; apply in_flat_map; eauto|]. intros s Hs. apply HK. right. apply in_flat_map. eauto. }
  assert (HK' : forall c, In c ch -> p c = true -> ~ In (root_key c) K). { intros c Hc. apply HK. right. apply in_flat_map. exists c. split; [exact Hc|apply subs_self]. }
  clear IH H HK. induction ch as [|c ch IH]; cbn; [constructor|]. destruct (p c) eqn:Pc; cbn.
  - constructor; [apply HK'; [now left|exact Pc]|]. apply IH; intros; [apply H'|apply HK']; auto; now right.
  - constructor; [apply H'; now left|]. apply IH; intros; [apply H'|apply HK']; auto; now right.
Qed.
Lemma okn_shr t t' : (forall d, In d (flat t) -> okn d) -> shr t t' -> forall d, In d (flat t') -> okn d.
Proof.
  intros H S d Hd. rewrite <- map_data_subs in Hd. apply in_map_iff in Hd. destruct Hd as (s' & <- & Hs). destruct (shr_subs _ _ _ S Hs) as (s & A & B). apply (R_okn _ _ (shr_data _ _ B)). apply H. now apply data_of_sub.
Qed.
Lemma shr_keys : forall t t', shr t t' -> incl (keys t') (keys t).
Proof.
  intros t t' S k Hk. unfold keys in *. rewrite <- map_data_subs in Hk. apply in_map_iff in Hk. destruct Hk as (d & <- & Hd). apply in_map_iff in Hd. destruct Hd as (s' & <- & Hs). destruct (shr_subs _ _ _ S Hs) as (s & A & B). pose proof (R_key _ _ (shr_data _ _ B)) as E. rewrite E. now apply in_map, data_of_sub.
Qed.
Lemma shr_nodup : forall t t', shr t t' -> NoDup (keys t) -> NoDup (keys t').
Proof.
  intros t. induction t as [d ch IH] using tree_ind'. intros t' H ND. inversion H as [? d' ? ch' Hd Hc]; subst. rewrite keys_cons in *. inversion ND as [|? ? N1 N2]; subst. clear ND.
  assert (G : NoDup (flat_map keys ch') /\ incl (flat_map keys ch') (flat_map keys ch)).
  { clear H Hd N1 d d'. revert N2. induction Hc as [|c ch ch' Hk Hc IHc|c c' ch ch' Hcc Hc IHc]; intros N2; [split; [constructor|intros x []]| |]; inversion IH as [|? ? Ic Il]; subst; cbn [flat_map] in *; apply NoDup_app_inv in N2; destruct N2 as (Na & Nb & Nc); destruct (IHc Il Nb) as [A B].
    - split; [exact A|]. intros x Hx. apply in_or_app. right. auto.
    - pose proof (shr_keys _ _ Hcc) as I1. split.
      + apply NoDup_app_intro; [exact (Ic _ Hcc Na)|exact A|]. intros x Hx Hx'. exact (Nc x (I1 x Hx) (B x Hx')).
      + intros x Hx. apply in_app_or in Hx. apply in_or_app. destruct Hx; auto. }
  destruct G as [G1 G2]. constructor; [|exact G1]. rewrite (R_key _ _ Hd). intros X. apply N1. now apply G2.
Qed.
(** Passes over the nodes. *)
Lemma shr_apass f : (forall a d d', Forall okn a -> okn d -> f a d = Ok d' -> R d d') ->
  forall t anc t', Forall okn anc -> (forall d, In d (flat t) -> okn d) -> apass f anc t = Ok t' -> shr t t'.
Proof.
  intros H. induction t as [d ch IH] using tree_ind'. intros anc t' Ha O E. rewrite apass_T in E. apply bind_ok in E. destruct E as (d' & E1 & E). apply bind_ok in E. destruct E as (ch' & E2 & E). injection E as <-.
  assert (Od : okn d) by (apply O; now left). pose proof (H _ _ _ Ha Od E1) as Rd. constructor; [exact Rd|].
  assert (Ha' : Forall okn (d' :: anc)) by (constructor; [exact (R_okn _ _ Rd Od)|exact Ha]). assert (O' : forall x, In x (flat_map flat ch) -> okn x) by (intros x Hx; apply O; now right). clear O E1 Rd Od.
  revert ch' E2 O'. induction IH as [|c ch Hc _ IH2]; intros ch' E2 O'; [cbn in E2; injection E2 as <-; constructor|]. rewrite aforest_cons in E2. apply bind_ok in E2. destruct E2 as (c' & C1 & E2). apply bind_ok in E2. destruct E2 as (r' & C2 & E2). injection E2 as <-.
  constructor; [apply (Hc _ _ Ha'); [intros x Hx; apply O'; cbn; apply in_or_app; auto|exact C1]|]. apply IH2; [exact C2|]. intros x Hx. apply O'. cbn. apply in_or_app. auto.
Qed.
Lemma shr_kpass f t t' : (forall d l r, okn d -> Forall okn l -> f d l = Ok r -> R d (fst r) /\ Forall2 R l (snd r)) -> (forall d, In d (flat t) -> okn d) -> kpass f t = Ok t' -> shr t t'.
Proof.
  intros H O E. unfold kpass in E.
  assert (G : forall s d s', R (data s) d -> (forall x, In x (flat s) -> okn x) -> kmap f d s = Ok s' -> shr s s').
  { clear - H. induction s as [d0 ch IH] using tree_ind'. intros d s' X O E. rewrite kmap_T in E. apply bind_ok in E. destruct E as (r & Er & E). apply bind_ok in E. destruct E as (ch' & Ec & E). injection E as <-. cbn [data] in X.
    assert (Od : okn d) by (apply (R_okn _ _ X), O; now left). assert (Ol : forall c, In c ch -> okn (data c)) by (intros c Hc; apply O; right; apply in_flat_map; exists c; split; [exact Hc|destruct c; now left]).
    destruct (H _ _ _ Od (proj2 (Forall_forall _ _) (fun x Hx => match proj1 (in_map_iff _ _ _) Hx with ex_intro _ c (conj e h) => eq_ind _ okn (Ol c h) _ e end)) Er) as [H1 H2]. constructor; [exact (R_trans _ _ _ X H1)|].
    assert (O' : forall x, In x (flat_map flat ch) -> okn x) by (intros x Hx; apply O; now right). clear Er H1 X O Od Ol. revert H2 Ec O'. generalize (snd r). clear r. revert ch'. induction IH as [|c ch Hc F IH2]; intros ch' ds H2 Ec O'.
    - inversion H2; subst. cbn in Ec. injection Ec as <-. constructor.
    - inversion H2 as [|? d1 ? ds' E1 E2]; subst. cbn in Ec. apply bind_ok in Ec. destruct Ec as (c' & C1 & Ec). apply bind_ok in Ec. destruct Ec as (r' & C2 & Ec). injection Ec as <-.
      constructor; [apply (Hc _ _ E1); [intros x Hx; apply O'; cbn; apply in_or_app; auto|exact C1]|]. apply (IH2 _ _ E2 C2). intros x Hx. apply O'. cbn. apply in_or_app. auto. }
  apply (G t (data t) t'); [|exact O|exact E]. apply R_refl, O. destruct t. now left.
Qed.
Lemma shr_upd k f t : (forall d, In d (flat t) -> okn d) -> (forall d, In d (flat t) -> key d = k -> R d (f d)) -> shr t (upd k f t).
Proof. intros O H. apply shr_tmap. intros d Hd. destruct (Nat.eqb_spec (key d) k); [now apply H|apply R_refl; auto]. Qed.
Lemma shr_vloop f ks : (forall t d d', (forall x, In x (flat t) -> okn x) -> okn d -> f t d = Ok d' -> R d d') -> forall t t', NoDup (keys t) -> (forall d, In d (flat t) -> okn d) -> vloop f ks t = Ok t' -> shr t t'.
Proof.
  intros H. induction ks as [|k ks IH]; intros t t' ND O E; cbn in E; [injection E as <-; now apply shr_refl|]. destruct (find_data k t) as [d|] eqn:D; [|exact (IH t t' ND O E)]. apply bind_ok in E. destruct E as (d' & E1 & E2). destruct (find_data_some _ _ _ D) as [Hd Ed].
  assert (Rd : R d d') by (apply (H t); auto). assert (S : shr t (upd k (fun _ => d') t)). { apply shr_upd; [exact O|]. intros x Hx Ex. assert (x = d) by (apply (data_unique t); auto; congruence). now subst. }
  apply (shr_trans _ _ _ S). apply IH; [|exact (okn_shr _ _ O S)|exact E2]. unfold upd. rewrite keys_tmap; [exact ND|]. intros x. destruct (Nat.eqb_spec (key x) k) as [->|]; [|reflexivity]. rewrite (R_key _ _ Rd). congruence.
Qed.
(** What is protected stays. *)
Lemma shr_svg t t' s : shr t t' -> svg_element t = Some s -> In (root_key s) K -> exists s', svg_element t' = Some s' /\ shr s s'.
Proof.
  intros H. destruct H as [d d' ch ch' _ H]. unfold svg_element. cbn [kids]. induction H as [|c ch ch' Hk H IH|c c' ch ch' Hc H IH]; cbn [find]; [discriminate| |].
  - destruct (is_tag ESvg (data c)) eqn:E; [intros X; injection X as ->; contradiction|exact IH].
  - rewrite (tag_rel_is ESvg _ _ (or_intror (or_introl eq_refl)) (R_tag _ _ (shr_data _ _ Hc))). destruct (is_tag ESvg (data c)); [|exact IH]. intros X _. injection X as ->. eauto.
Qed.
Lemma shr_kid s s' c : shr s s' -> In c (kids s) -> In (root_key c) K -> exists c', In c' (kids s') /\ shr c c'.
Proof. intros H. destruct H as [d d' ch ch' _ H]. cbn [kids]. now apply shrl_keep. Qed.
Lemma shr_kids s s' c' : shr s s' -> In c' (kids s') -> exists c, In c (kids s) /\ shr c c'.
Proof. intros H. destruct H as [d d' ch ch' _ H]. cbn [kids]. now apply shrl_in. Qed.
End Shrink.
End Nodes.
Arguments R_trans {b d1 d2 d3}. Arguments R_with {b d x l}.
Arguments R_refl {b N}. Arguments shr_apass {b N K}. Arguments shr_kpass {b N K}. Arguments shr_vloop {b N K}. Arguments shr_prune {b N K}. Arguments shr_upd {b N K}.
