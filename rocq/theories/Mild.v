(** Documents with references whose gradients and use elements are in order stay that way: tools. *)
From Coq Require Import List Bool NArith Arith ZArith String Lia QArith Qcanon.
From Verif Require Import Names Num Value Dom DomFacts DomOps Outcome DomRemove SpecDom SpecGradients SpecWritten Stops Shapes NPass APass VLoop Transforms MoveFacts GroupDefsProofs WfUse.
Import ListNotations.
Local Open Scope nat_scope.

(** Trees of which nodes are changed, and some subtrees vanish. *)
Section Shrink.
Variables (R : ndata -> ndata -> Prop) (okn : ndata -> Prop).
Hypothesis R_refl : forall d, okn d -> R d d.
Hypothesis R_trans : forall d1 d2 d3, R d1 d2 -> R d2 d3 -> R d1 d3.
Hypothesis R_okn : forall d d', R d d' -> okn d -> okn d'.
Hypothesis R_key : forall d d', R d d' -> key d' = key d.
Inductive shr : tree -> tree -> Prop := shr_T d d' ch ch' : R d d' -> shrl ch ch' -> shr (T d ch) (T d' ch')
with shrl : list tree -> list tree -> Prop :=
| shr_nil : shrl [] []
| shr_skip c ch ch' : shrl ch ch' -> shrl (c :: ch) ch'
| shr_keep c c' ch ch' : shr c c' -> shrl ch ch' -> shrl (c :: ch) (c' :: ch').
Lemma shrl_map f ch : (forall c, In c ch -> shr c (f c)) -> shrl ch (map f ch).
Proof. induction ch as [|c ch IH]; intros H; cbn; constructor; [apply H; now left|]. apply IH. intros. apply H. now right. Qed.
Lemma shr_data s s' : shr s s' -> R (data s) (data s'). Proof. intros H. now destruct H. Qed.
Lemma shr_root s s' : shr s s' -> root_key s' = root_key s. Proof. intros H. exact (R_key _ _ (shr_data _ _ H)). Qed.
Lemma shrl_in ch ch' c' : shrl ch ch' -> In c' ch' -> exists c, In c ch /\ shr c c'.
Proof.
  intros H. induction H as [|c ch ch' H IH|c c1 ch ch' Hc H IH]; [intros []| |].
  - intros Hi. destruct (IH Hi) as (x & A & B). exists x. split; [now right|exact B].
  - intros [-> |Hi]; [exists c; split; [now left|exact Hc]|]. destruct (IH Hi) as (x & A & B). exists x. split; [now right|exact B].
Qed.
Lemma shr_subs : forall t t' s', shr t t' -> In s' (subs t') -> exists s, In s (subs t) /\ shr s s'.
Proof.
  intros t. induction t as [d ch IH] using tree_ind'. intros t' s' H Hs. inversion H as [? d' ? ch' Hd Hc]; subst. cbn in Hs. destruct Hs as [<-|Hs]; [exists (T d ch); split; [now left|exact H]|].
  apply in_flat_map in Hs. destruct Hs as (c' & Hc' & Hs). destruct (shrl_in _ _ _ Hc Hc') as (c & Hin & Hcc). rewrite Forall_forall in IH. destruct (IH c Hin c' s' Hcc Hs) as (s & A & B). exists s. split; [|exact B]. cbn. right. apply in_flat_map. eauto.
Qed.
Lemma shr_refl t : (forall d, In d (flat t) -> okn d) -> shr t t.
Proof.
  induction t as [d ch IH] using tree_ind'. intros H. constructor; [apply R_refl, H; now left|]. rewrite <- (map_id ch) at 2. apply shrl_map. intros c Hc. rewrite Forall_forall in IH. apply IH; [exact Hc|]. intros x Hx. apply H. right. apply in_flat_map. eauto.
Qed.
Lemma shr_trans : forall t t1 t2, shr t t1 -> shr t1 t2 -> shr t t2.
Proof.
  intros t. induction t as [d ch IH] using tree_ind'. intros t1 t2 H1 H2. inversion H1 as [? d1 ? ch1 Hd1 Hc1]; subst. inversion H2 as [? d2 ? ch2 Hd2 Hc2]; subst. constructor; [exact (R_trans _ _ _ Hd1 Hd2)|].
  clear H1 H2 Hd1 Hd2 d d1 d2. revert ch2 Hc2. induction Hc1 as [|c ch ch1 Hc1 IH1|c c1 ch ch1 Hc Hc1 IH1]; intros ch2 Hc2.
  - inversion Hc2. constructor.
  - inversion IH; subst. constructor. auto.
  - inversion IH as [|? ? IHc IHl]; subst. inversion Hc2 as [|? ? ? Hl|? c2 ? l2 Hcc Hl]; subst.
    + constructor. auto.
    + constructor; [exact (IHc _ _ Hc Hcc)|]. auto.
Qed.
Lemma shr_tmap f t : (forall d, In d (flat t) -> R d (f d)) -> shr t (tmap f t).
Proof.
  induction t as [d ch IH] using tree_ind'. intros H. cbn. constructor; [apply H; now left|]. apply shrl_map. intros c Hc. rewrite Forall_forall in IH. apply IH; [exact Hc|]. intros x Hx. apply H. right. apply in_flat_map. eauto.
Qed.
Lemma shr_prune p t : (forall d, In d (flat t) -> okn d) -> shr t (prune p t).
Proof.
  induction t as [d ch IH] using tree_ind'. intros H. cbn. constructor; [apply R_refl, H; now left|]. assert (H' : forall c, In c ch -> shr c (prune p c)).
  { intros c Hc. rewrite Forall_forall in IH. apply IH; [exact Hc|]. intros x Hx. apply H. right. apply in_flat_map. eauto. }
  clear IH H. induction ch as [|c ch IH]; cbn; [constructor|]. destruct (p c) eqn:Pc; cbn.
  - constructor. apply IH; intros; apply H'; now right.
  - constructor; [apply H'; now left|]. apply IH; intros; apply H'; now right.
Qed.
Lemma okn_shr t t' : (forall d, In d (flat t) -> okn d) -> shr t t' -> forall d, In d (flat t') -> okn d.
Proof.
  intros H S d Hd. rewrite <- map_data_subs in Hd. apply in_map_iff in Hd. destruct Hd as (s' & <- & Hs). destruct (shr_subs _ _ _ S Hs) as (s & A & B). apply (R_okn _ _ (shr_data _ _ B)). apply H. now apply data_of_sub.
Qed.
Lemma shr_keys : forall t t', shr t t' -> incl (keys t') (keys t).
Proof.
  intros t t' S k Hk. unfold keys in *. rewrite <- map_data_subs in Hk. apply in_map_iff in Hk. destruct Hk as (d & <- & Hd). apply in_map_iff in Hd. destruct Hd as (s' & <- & Hs). destruct (shr_subs _ _ _ S Hs) as (s & A & B). pose proof (R_key _ _ (shr_data _ _ B)) as E. rewrite E. now apply in_map, data_of_sub.
Qed.
Lemma shr_nodup : forall t t', shr t t' -> NoDup (keys t) -> NoDup (keys t').
Proof.
  intros t. induction t as [d ch IH] using tree_ind'. intros t' H ND. inversion H as [? d' ? ch' Hd Hc]; subst. rewrite keys_cons in *. inversion ND as [|? ? N1 N2]; subst. clear ND.
  assert (G : NoDup (flat_map keys ch') /\ incl (flat_map keys ch') (flat_map keys ch)).
  { clear H Hd N1 d d'. revert N2. induction Hc as [|c ch ch' Hc IHc|c c' ch ch' Hcc Hc IHc]; intros N2; [split; [constructor|intros x []]| |]; inversion IH as [|? ? Ic Il]; subst; cbn [flat_map] in *; apply NoDup_app_inv in N2; destruct N2 as (Na & Nb & Nc); destruct (IHc Il Nb) as [A B].
    - split; [exact A|]. intros x Hx. apply in_or_app. right. auto.
    - pose proof (shr_keys _ _ Hcc) as I1. split.
      + apply NoDup_app_intro; [exact (Ic _ Hcc Na)|exact A|]. intros x Hx Hx'. exact (Nc x (I1 x Hx) (B x Hx')).
      + intros x Hx. apply in_app_or in Hx. apply in_or_app. destruct Hx; auto. }
  destruct G as [G1 G2]. constructor; [|exact G1]. rewrite (R_key _ _ Hd). intros X. apply N1. now apply G2.
Qed.
(** Passes over the nodes. *)
Lemma shr_apass f : (forall a d d', Forall okn a -> okn d -> f a d = Ok d' -> R d d') ->
  forall t anc t', Forall okn anc -> (forall d, In d (flat t) -> okn d) -> apass f anc t = Ok t' -> shr t t'.
Proof.
  intros H. induction t as [d ch IH] using tree_ind'. intros anc t' Ha O E. rewrite apass_T in E. apply bind_ok in E. destruct E as (d' & E1 & E). apply bind_ok in E. destruct E as (ch' & E2 & E). injection E as <-.
  assert (Od : okn d) by (apply O; now left). pose proof (H _ _ _ Ha Od E1) as Rd. constructor; [exact Rd|].
  assert (Ha' : Forall okn (d' :: anc)) by (constructor; [exact (R_okn _ _ Rd Od)|exact Ha]). assert (O' : forall x, In x (flat_map flat ch) -> okn x) by (intros x Hx; apply O; now right). clear O E1 Rd Od.
  revert ch' E2 O'. induction IH as [|c ch Hc _ IH2]; intros ch' E2 O'; [cbn in E2; injection E2 as <-; constructor|]. rewrite aforest_cons in E2. apply bind_ok in E2. destruct E2 as (c' & C1 & E2). apply bind_ok in E2. destruct E2 as (r' & C2 & E2). injection E2 as <-.
  constructor; [apply (Hc _ _ Ha'); [intros x Hx; apply O'; cbn; apply in_or_app; auto|exact C1]|]. apply IH2; [exact C2|]. intros x Hx. apply O'. cbn. apply in_or_app. auto.
Qed.
Lemma shr_kpass f t t' : (forall d l r, okn d -> Forall okn l -> f d l = Ok r -> R d (fst r) /\ Forall2 R l (snd r)) -> (forall d, In d (flat t) -> okn d) -> kpass f t = Ok t' -> shr t t'.
Proof.
  intros H O E. unfold kpass in E.
  assert (G : forall s d s', R (data s) d -> (forall x, In x (flat s) -> okn x) -> kmap f d s = Ok s' -> shr s s').
  { clear - H R_okn R_trans R_refl R_key. induction s as [d0 ch IH] using tree_ind'. intros d s' X O E. rewrite kmap_T in E. apply bind_ok in E. destruct E as (r & Er & E). apply bind_ok in E. destruct E as (ch' & Ec & E). injection E as <-. cbn [data] in X.
    assert (Od : okn d) by (apply (R_okn _ _ X), O; now left). assert (Ol : forall c, In c ch -> okn (data c)) by (intros c Hc; apply O; right; apply in_flat_map; exists c; split; [exact Hc|destruct c; now left]).
    destruct (H _ _ _ Od (proj2 (Forall_forall _ _) (fun x Hx => match proj1 (in_map_iff _ _ _) Hx with ex_intro _ c (conj e h) => eq_ind _ okn (Ol c h) _ e end)) Er) as [H1 H2]. constructor; [exact (R_trans _ _ _ X H1)|].
    assert (O' : forall x, In x (flat_map flat ch) -> okn x) by (intros x Hx; apply O; now right). clear Er H1 X O Od Ol. revert H2 Ec O'. generalize (snd r). clear r. revert ch'. induction IH as [|c ch Hc F IH2]; intros ch' ds H2 Ec O'.
    - inversion H2; subst. cbn in Ec. injection Ec as <-. constructor.
    - inversion H2 as [|? d1 ? ds' E1 E2]; subst. cbn in Ec. apply bind_ok in Ec. destruct Ec as (c' & C1 & Ec). apply bind_ok in Ec. destruct Ec as (r' & C2 & Ec). injection Ec as <-.
      constructor; [apply (Hc _ _ E1); [intros x Hx; apply O'; cbn; apply in_or_app; auto|exact C1]|]. apply (IH2 _ _ E2 C2). intros x Hx. apply O'. cbn. apply in_or_app. auto. }
  apply (G t (data t) t'); [|exact O|exact E]. apply R_refl, O. destruct t. now left.
Qed.
Lemma shr_upd k f t : (forall d, In d (flat t) -> okn d) -> (forall d, In d (flat t) -> key d = k -> R d (f d)) -> shr t (upd k f t).
Proof. intros O H. apply shr_tmap. intros d Hd. destruct (Nat.eqb_spec (key d) k); [now apply H|apply R_refl; auto]. Qed.
Lemma shr_vloop f ks : (forall t d d', (forall x, In x (flat t) -> okn x) -> okn d -> f t d = Ok d' -> R d d') -> forall t t', NoDup (keys t) -> (forall d, In d (flat t) -> okn d) -> vloop f ks t = Ok t' -> shr t t'.
Proof.
  intros H. induction ks as [|k ks IH]; intros t t' ND O E; cbn in E; [injection E as <-; now apply shr_refl|]. destruct (find_data k t) as [d|] eqn:D; [|exact (IH t t' ND O E)]. apply bind_ok in E. destruct E as (d' & E1 & E2). destruct (find_data_some _ _ _ D) as [Hd Ed].
  assert (Rd : R d d') by (apply (H t); auto). assert (S : shr t (upd k (fun _ => d') t)). { apply shr_upd; [exact O|]. intros x Hx Ex. assert (x = d) by (apply (data_unique t); auto; congruence). now subst. }
  apply (shr_trans _ _ _ S). apply IH; [|exact (okn_shr _ _ O S)|exact E2]. unfold upd. rewrite keys_tmap; [exact ND|]. intros x. destruct (Nat.eqb_spec (key x) k) as [->|]; [|reflexivity]. rewrite (R_key _ _ Rd). congruence.
Qed.
(** The nodes with their ancestors. *)
Lemma shr_ctx : forall t t' a a' q', shr t t' -> Forall2 R a a' -> In q' (ctx a' t') -> exists q, In q (ctx a t) /\ R (snd q) (snd q') /\ Forall2 R (fst q) (fst q').
Proof.
  intros t. induction t as [d ch IH] using tree_ind'. intros t' a a' q' H Ha Hq. inversion H as [? d' ? ch' Hd Hc]; subst. cbn in Hq. destruct Hq as [<-|Hq]; [exists (a, d); split; [now left|auto]|].
  apply in_flat_map in Hq. destruct Hq as (c' & Hc' & Hq). destruct (shrl_in _ _ _ Hc Hc') as (c & Hin & Hcc). rewrite Forall_forall in IH. destruct (IH c Hin c' (d :: a) (d' :: a') q' Hcc (Forall2_cons _ _ Hd Ha) Hq) as (q & A & B). exists q. split; [|exact B]. cbn. right. apply in_flat_map. eauto.
Qed.
End Shrink.

Arguments shr_apass {R okn}. Arguments shr_kpass {R okn}. Arguments shr_vloop {R okn}. Arguments shr_prune {R okn}. Arguments shr_upd {R okn}. Arguments shr_refl {R okn}.
(** ** Nodes *)
Definition nokw (v : value) : Prop := v <> VPre Vid_inherit /\ v <> VPre Vid_currentColor.
Definition flatv (v : value) : Prop := link_of v = None /\ nokw v.
Definition hname (x : attr) : Prop := a_name x = AN AXlinkHref.
Definition use_or_g (d : ndata) : Prop := tag d = TEl EUse \/ tag d = TEl EG.
Definition shape_el (d : ndata) : Prop := exists e, tag d = TEl e /\ In e [ELine; ERect; EPolyline; EPolygon; ECircle; EEllipse].
(** What may be put on a node. *)
Definition mok (d : ndata) (y : attr) : Prop := (gradient_node d -> flatv (a_val y)) /\ (use_or_g d -> ~ hname y).
Record M (d d' : ndata) : Prop := {
  M_key : key d' = key d;
  M_tag : tag d' = tag d \/ (tag d' = TEl EPath /\ shape_el d);
  M_attrs : forall y, In y (attrs d') -> In y (attrs d) \/ mok d y
}.
Lemma shape_not d : shape_el d -> ~ gradient_node d /\ ~ use_or_g d /\ tag d <> TEl EFilter.
Proof. intros (e & E & H). unfold gradient_node, use_or_g. rewrite E. cbn in H. repeat split; intuition (subst; discriminate). Qed.
Lemma M_grad d d' : M d d' -> gradient_node d' <-> gradient_node d.
Proof.
  intros H. destruct (M_tag _ _ H) as [E|[E S]]; unfold gradient_node; rewrite E; [tauto|]. split; [intuition discriminate|]. intros X. exfalso. exact (proj1 (shape_not _ S) X).
Qed.
Lemma M_uog d d' : M d d' -> use_or_g d' <-> use_or_g d.
Proof.
  intros H. destruct (M_tag _ _ H) as [E|[E S]]; unfold use_or_g; rewrite E; [tauto|]. split; [intuition discriminate|]. intros X. exfalso. exact (proj1 (proj2 (shape_not _ S)) X).
Qed.
Lemma M_tag_back d d' e : M d d' -> tag d' = TEl e -> e <> EPath -> tag d = TEl e.
Proof. intros H E N. destruct (M_tag _ _ H) as [X|[X S]]; congruence. Qed.
Lemma M_refl d : M d d. Proof. split; auto. Qed.
Lemma mok_same d d' y : M d d' -> mok d' y -> mok d y.
Proof. intros H [A B]. split; [intros G; apply A; now apply (M_grad _ _ H)|intros G; apply B; now apply (M_uog _ _ H)]. Qed.
Lemma M_trans d1 d2 d3 : M d1 d2 -> M d2 d3 -> M d1 d3.
Proof.
  intros H1 H2. pose proof H1 as [K1 T1 A1]. destruct H2 as [K2 T2 A2]. split; [congruence| |].
  - destruct T2 as [E|[E (e & S & I)]]; [destruct T1 as [E'|[E' S']]; [left; congruence|right; split; [congruence|exact S']]|]. destruct T1 as [E'|[E' S']]; [right; split; [exact E|exists e; split; [congruence|exact I]]|right; auto].
  - intros y Hy. destruct (A2 y Hy) as [H|H]; [apply A1, H|right; exact (mok_same _ _ _ H1 H)].
Qed.
Section Ok.
Variable GK : nat -> Prop.
Definition ginv (x : attr) : Prop := (hname x /\ exists k, a_val x = VLink k /\ GK k) \/ flatv (a_val x).
Record okg (d : ndata) : Prop := { og_attrs : gradient_node d -> forall x, In x (attrs d) -> ginv x; og_key : GK (key d) -> gradient_node d }.
Lemma M_okg d d' : M d d' -> okg d -> okg d'.
Proof.
  intros H [A B]. split.
  - intros G x Hx. apply (M_grad _ _ H) in G. destruct (M_attrs _ _ H x Hx) as [X|[X _]]; [auto|right; now apply X].
  - rewrite (M_key _ _ H). intros X. apply (M_grad _ _ H). auto.
Qed.
End Ok.
(** Changes of one node. *)
Lemma M_with d x l : M d x -> (forall y, In y l -> In y (attrs x) \/ mok d y) -> M d (with_attrs x l).
Proof. intros [K0 T0 A0] H. split; auto. cbn. intros y Hy. destruct (H y Hy) as [X|X]; auto. Qed.
Lemma M_filter d x p : M d x -> M d (with_attrs x (filter p (attrs x))).
Proof. intros H. apply M_with; [exact H|]. intros y Hy. apply filter_In in Hy. tauto. Qed.
Lemma M_rm d x a : M d x -> M d (d_rm x a). Proof. apply M_filter. Qed.
Lemma M_put d x a v (vis : bool) l : M d x -> (forall y, In y l -> In y (attrs x) \/ y = At (AN a) v vis) -> a <> AXlinkHref -> (gradient_node d -> flatv v) -> M d (with_attrs x l).
Proof.
  intros H L N V. apply M_with; [exact H|]. intros y Hy. destruct (L y Hy) as [Hy'| ->]; [now left|]. right. assert (~ hname (At (AN a) v vis)) by (unfold hname; cbn; congruence). split; auto.
Qed.
Lemma set_attr_from l a v : forall y, In y (set_attr l a v) -> In y l \/ y = At (AN a) v true.
Proof. induction l as [|x l IH]; cbn; intros y; [intros [<-|[]]; auto|]. destruct (has_name _ _); cbn; intros [<-|H]; auto. apply IH in H. tauto. Qed.
Lemma set_hidden_from l a v : forall y, In y (set_hidden l a v) -> In y l \/ y = At (AN a) v false.
Proof. induction l as [|x l IH]; cbn; intros y; [intros [<-|[]]; auto|]. destruct (has_name _ _); cbn; intros [<-|H]; auto. apply IH in H. tauto. Qed.
Lemma M_set d x a v : M d x -> a <> AXlinkHref -> (gradient_node d -> flatv v) -> M d (d_set x a v).
Proof. intros H N V. apply (M_put d x a v true); auto. apply set_attr_from. Qed.
Lemma M_set_hidden d x a v : M d x -> a <> AXlinkHref -> (gradient_node d -> flatv v) -> M d (d_set_hidden x a v).
Proof. intros H N V. apply (M_put d x a v false); auto. apply set_hidden_from. Qed.
Lemma M_map d x f : M d x -> (forall y, In y (attrs x) -> In (f y) (attrs x) \/ mok d (f y)) -> M d (with_attrs x (map f (attrs x))).
Proof. intros H F. apply M_with; [exact H|]. intros y Hy. apply in_map_iff in Hy. destruct Hy as (z & <- & Hz). auto. Qed.
Lemma has_name_eq n y : has_name n y = true -> a_name y = n.
Proof. unfold has_name. destruct (aname_eqb_spec (a_name y) n); congruence. Qed.
Lemma M_map_value d x a v : M d x -> a <> AXlinkHref -> (gradient_node d -> flatv v) -> M d (map_value x a v).
Proof.
  intros H N V. apply M_map; [exact H|]. intros y Hy. destruct (has_name (AN a) y) eqn:E; [|now left]. right. apply has_name_eq in E. assert (~ hname (At (a_name y) v (a_vis y))) by (unfold hname; cbn; congruence). split; auto.
Qed.
Lemma M_retag d x : M d x -> shape_el x -> M d (with_tag x (TEl EPath)).
Proof. intros H S. apply (M_trans d x); [exact H|]. split; auto. Qed.
Lemma M_fold {A} d (f : ndata -> A -> ndata) l : (forall x y, M d x -> M d (f x y)) -> forall x, M d x -> M d (fold_left f l x).
Proof. intros H. induction l as [|y l IH]; intros x Hx; cbn; auto. Qed.
Lemma M_rm_list d l : forall x, M d x -> M d (d_rm_list x l).
Proof. apply M_fold. intros. now apply M_rm. Qed.
(** A node that is neither a gradient, nor use, nor g. *)
Definition free_node (d : ndata) : Prop := ~ gradient_node d /\ ~ use_or_g d.
Lemma free_mok d y : free_node d -> mok d y. Proof. intros [A B]. split; intros X; contradiction. Qed.

(** ** Documents *)
Definition desc (t t' : tree) : Prop := (forall d', In d' (flat t') -> exists d, In d (flat t) /\ M d d') /\ (forall a b, inside t' a b -> inside t a b).
Lemma desc_refl t : desc t t. Proof. split; [|auto]. intros d Hd. exists d. split; [exact Hd|apply M_refl]. Qed.
Lemma desc_trans t1 t2 t3 : desc t1 t2 -> desc t2 t3 -> desc t1 t3.
Proof. intros [A1 B1] [A2 B2]. split; [|auto]. intros d Hd. destruct (A2 d Hd) as (d2 & H2 & M2). destruct (A1 d2 H2) as (d1 & H1 & M1). exists d1. split; [exact H1|exact (M_trans _ _ _ M1 M2)]. Qed.
Lemma desc_shr t t' : shr M t t' -> desc t t'.
Proof.
  intros S. split.
  - intros d' Hd. rewrite <- map_data_subs in Hd. apply in_map_iff in Hd. destruct Hd as (s' & <- & Hs). destruct (shr_subs M _ _ _ S Hs) as (s & A & B). exists (data s). split; [now apply data_of_sub|exact (shr_data M _ _ B)].
  - intros a b (s' & Hs & K & I). destruct (shr_subs M _ _ _ S Hs) as (s & A & B). exists s. split; [exact A|]. split; [rewrite <- K; symmetry; exact (shr_root M M_key _ _ B)|exact (shr_keys M M_key _ _ B _ I)].
Qed.
(** The same, with links of gradients to other gradients. *)
Section Gen.
Variable GK : nat -> Prop.
Definition glink (d : ndata) (y : attr) : Prop := gradient_node d /\ hname y /\ exists k, a_val y = VLink k /\ GK k.
Record MG (d d' : ndata) : Prop := {
  MG_key : key d' = key d;
  MG_tag : tag d' = tag d \/ (tag d' = TEl EPath /\ shape_el d);
  MG_attrs : forall y, In y (attrs d') -> In y (attrs d) \/ mok d y \/ glink d y
}.
Lemma M_MG d d' : M d d' -> MG d d'. Proof. intros [A B C]. split; auto. intros y Hy. destruct (C y Hy); auto. Qed.
Lemma MG_refl d : MG d d. Proof. split; auto. Qed.
Lemma MG_grad d d' : MG d d' -> gradient_node d' <-> gradient_node d.
Proof.
  intros H. destruct (MG_tag _ _ H) as [E|[E S]]; unfold gradient_node; rewrite E; [tauto|]. split; [intuition discriminate|]. intros X. exfalso. exact (proj1 (shape_not _ S) X).
Qed.
Lemma MG_uog d d' : MG d d' -> use_or_g d' <-> use_or_g d.
Proof.
  intros H. destruct (MG_tag _ _ H) as [E|[E S]]; unfold use_or_g; rewrite E; [tauto|]. split; [intuition discriminate|]. intros X. exfalso. exact (proj1 (proj2 (shape_not _ S)) X).
Qed.
Lemma MG_tag_back d d' e : MG d d' -> tag d' = TEl e -> e <> EPath -> tag d = TEl e.
Proof. intros H E N. destruct (MG_tag _ _ H) as [X|[X S]]; congruence. Qed.
Lemma grad_uog d : gradient_node d -> ~ use_or_g d. Proof. intros [A|A] [B|B]; congruence. Qed.
Lemma MG_trans d1 d2 d3 : MG d1 d2 -> MG d2 d3 -> MG d1 d3.
Proof.
  intros H1 H2. pose proof H1 as [K1 T1 A1]. destruct H2 as [K2 T2 A2]. split; [congruence| |].
  - destruct T2 as [E|[E (e & S & I)]]; [destruct T1 as [E'|[E' S']]; [left; congruence|right; split; [congruence|exact S']]|]. destruct T1 as [E'|[E' S']]; [right; split; [exact E|exists e; split; [congruence|exact I]]|right; auto].
  - intros y Hy. destruct (A2 y Hy) as [H|[[H H']|[H H']]]; [apply A1, H| |].
    + right. left. split; [intros G; apply H; now apply (MG_grad _ _ H1)|intros G; apply H'; now apply (MG_uog _ _ H1)].
    + right. right. split; [now apply (MG_grad _ _ H1)|exact H'].
Qed.
Lemma MG_okg d d' : MG d d' -> okg GK d -> okg GK d'.
Proof.
  intros H [A B]. split.
  - intros G x Hx. apply (MG_grad _ _ H) in G. destruct (MG_attrs _ _ H x Hx) as [X|[[X _]|X]]; [auto|right; now apply X|left; apply X].
  - rewrite (MG_key _ _ H). intros X. apply (MG_grad _ _ H). auto.
Qed.
Definition descg (t t' : tree) : Prop := (forall d', In d' (flat t') -> exists d, In d (flat t) /\ MG d d') /\ (forall a b, inside t' a b -> inside t a b).
Lemma desc_g t t' : desc t t' -> descg t t'.
Proof. intros [A B]. split; [|exact B]. intros d Hd. destruct (A d Hd) as (x & Hx & Mx). exists x. split; [exact Hx|now apply M_MG]. Qed.
Lemma descg_refl t : descg t t. Proof. split; [|auto]. intros d Hd. exists d. split; [exact Hd|apply MG_refl]. Qed.
Lemma descg_trans t1 t2 t3 : descg t1 t2 -> descg t2 t3 -> descg t1 t3.
Proof. intros [A1 B1] [A2 B2]. split; [|auto]. intros d Hd. destruct (A2 d Hd) as (d2 & H2 & M2). destruct (A1 d2 H2) as (d1 & H1 & M1). exists d1. split; [exact H1|exact (MG_trans _ _ _ M1 M2)]. Qed.
End Gen.
Lemma descg_mono (G1 G2 : nat -> Prop) t t' : (forall k, G1 k -> G2 k) -> descg G1 t t' -> descg G2 t t'.
Proof.
  intros H [A B]. split; [|exact B]. intros d Hd. destruct (A d Hd) as (x & Hx & [K0 T0 A0]). exists x. split; [exact Hx|]. split; auto. intros y Hy. destruct (A0 y Hy) as [X|[X|(X & Y & k & Z & Gk)]]; auto. right. right. split; [exact X|]. split; [exact Y|]. exists k. auto.
Qed.
Lemma descg_none t t' : descg (fun _ => False) t t' -> desc t t'.
Proof. intros [A B]. split; [|exact B]. intros d Hd. destruct (A d Hd) as (x & Hx & [K0 T0 A0]). exists x. split; [exact Hx|]. split; auto. intros y Hy. destruct (A0 y Hy) as [X|[X|(X & Y & k & Z & [])]]; auto. Qed.
Section Tame.
Variables (U : nat -> Prop) (ur : nat -> nat).
Record tame (GK : nat -> Prop) (t : tree) : Prop := {
  tm_nodes : forall d, In d (flat t) -> okg GK d;
  tm_use : forall d x, In d (flat t) -> tag d = TEl EUse -> In x (attrs d) -> hname x -> exists k, a_val x = VLink k /\ U k /\ forall b, inside t (key d) b -> U b -> ur k < ur b;
  tm_kind : forall d, In d (flat t) -> U (key d) -> ~ gradient_node d /\ tag d <> TEl EFilter;
  tm_g : forall d x, In d (flat t) -> tag d = TEl EG -> In x (attrs d) -> ~ hname x
}.
(** As [descg]; but nodes other than gradients may get into elements that are not shown by use elements. *)
Definition descm (GK : nat -> Prop) (t t' : tree) : Prop := (forall d', In d' (flat t') -> exists d, In d (flat t) /\ MG GK d d') /\
  (forall a b, inside t' a b -> inside t a b \/ (~ U b /\ forall d, In d (flat t) -> key d = a -> ~ gradient_node d)).
Lemma descg_m GK t t' : descg GK t t' -> descm GK t t'. Proof. intros [A B]. split; [exact A|]. intros a b H. left. auto. Qed.
Lemma descm_refl GK t : descm GK t t. Proof. apply descg_m, descg_refl. Qed.
Lemma tame_descm GK t t' : tame GK t -> descm GK t t' -> tame GK t'.
Proof.
  intros [N Us Ki G] [D I]. split.
  - intros d Hd. destruct (D d Hd) as (d0 & H0 & M0). exact (MG_okg GK _ _ M0 (N _ H0)).
  - intros d x Hd Td Hx Hn. destruct (D d Hd) as (d0 & H0 & M0). assert (T0 : tag d0 = TEl EUse) by (apply (MG_tag_back _ _ _ _ M0 Td); discriminate).
    destruct (MG_attrs _ _ _ M0 x Hx) as [X|[[_ X]|[X _]]]; [|exfalso; apply X; [now left|exact Hn]|exfalso; apply (grad_uog _ X); now left]. destruct (Us d0 x H0 T0 X Hn) as (k & A & B & C). exists k. split; [exact A|]. split; [exact B|]. intros b Hb Ub. destruct (I _ _ Hb) as [Y|[Y _]]; [|contradiction]. apply C; [|exact Ub]. now rewrite <- (MG_key _ _ _ M0).
  - intros d Hd Ud. destruct (D d Hd) as (d0 & H0 & M0). rewrite (MG_key _ _ _ M0) in Ud. destruct (Ki d0 H0 Ud) as [A B]. split; [now rewrite (MG_grad _ _ _ M0)|]. intros X. apply B. apply (MG_tag_back _ _ _ _ M0 X). discriminate.
  - intros d x Hd Td Hx Hn. destruct (D d Hd) as (d0 & H0 & M0). assert (T0 : tag d0 = TEl EG) by (apply (MG_tag_back _ _ _ _ M0 Td); discriminate). destruct (MG_attrs _ _ _ M0 x Hx) as [X|[[_ X]|[X _]]]; [exact (G d0 x H0 T0 X Hn)| |apply (grad_uog _ X); now right]. apply X; [now right|exact Hn].
Qed.
Lemma tame_descg GK t t' : tame GK t -> descg GK t t' -> tame GK t'. Proof. intros T D. exact (tame_descm GK t t' T (descg_m GK _ _ D)). Qed.
Lemma tame_desc GK t t' : tame GK t -> desc t t' -> tame GK t'. Proof. intros T D. exact (tame_descg GK t t' T (desc_g GK _ _ D)). Qed.
(** A gradient is neither inside of a gradient, nor inside of a group, nor inside of an element that is shown by a use element. *)
Definition nest (t : tree) : Prop := forall x p, In x (flat t) -> In p (flat t) -> gradient_node x -> inside t (key x) (key p) -> key p = key x \/ (~ gradient_node p /\ tag p <> TEl EG /\ ~ U (key p)).
Lemma nest_descm GK t t' : nest t -> descm GK t t' -> nest t'.
Proof.
  intros H [D I] x p Hx Hp Gx Ip. destruct (D x Hx) as (x0 & Hx0 & Mx). destruct (D p Hp) as (p0 & Hp0 & Mp). pose proof (proj1 (MG_grad _ _ _ Mx) Gx) as G0. apply I in Ip. rewrite (MG_key _ _ _ Mx), (MG_key _ _ _ Mp) in *. destruct Ip as [Ip|[_ Ip]]; [|exfalso; exact (Ip x0 Hx0 eq_refl G0)].
  destruct (H x0 p0 Hx0 Hp0 G0 Ip) as [E|(A & B & C)]; [now left|right].
  split; [now rewrite (MG_grad _ _ _ Mp)|]. split; [|exact C]. intros X. apply B. apply (MG_tag_back _ _ _ _ Mp X). discriminate.
Qed.
Lemma nest_descg GK t t' : nest t -> descg GK t t' -> nest t'. Proof. intros N D. exact (nest_descm GK t t' N (descg_m _ _ _ D)). Qed.
Lemma nest_desc t t' : nest t -> desc t t' -> nest t'. Proof. intros N D. exact (nest_descg (fun _ => True) t t' N (desc_g _ _ _ D)). Qed.
End Tame.
(** The gradients of a document are the keys that links of gradients may have. *)
Definition GKof (t : tree) (k : nat) : Prop := exists g, In g (flat t) /\ gradient_node g /\ key g = k.
Lemma tame_GKof U ur GK t : WF t -> tame U ur GK t -> tame U ur (GKof t) t.
Proof.
  intros W [N Us Ki G]. split; auto. intros d Hd. pose proof (N d Hd) as [A B]. split.
  - intros Gd x Hx. destruct (A Gd x Hx) as [(Hn & k & Ev & Gk)|X]; [left|now right]. split; [exact Hn|]. exists k. split; [exact Ev|].
    assert (K : In k (keys t)). { apply (wf_links t W). unfold targets. apply in_flat_map. exists d. split; [exact Hd|]. apply in_flat_map. exists x. split; [exact Hx|]. rewrite Ev. now left. }
    apply in_map_iff in K. destruct K as (g & <- & Hg). exists g. split; [exact Hg|]. split; [|reflexivity]. exact (og_key GK g (N g Hg) Gk).
  - intros (g & Hg & Gg & E). assert (g = d) by (apply (data_unique t); auto; apply W). now subst g.
Qed.
(** Links between gradients are not in a circle. *)
Definition ranked (t : tree) : Prop := exists rank : nat -> nat, forall d x k, In d (flat t) -> gradient_node d -> In x (attrs d) -> a_val x = VLink k -> rank k < rank (key d).
Lemma ranked_desc t t' : ranked t -> desc t t' -> ranked t'.
Proof.
  intros (rank & R) [D _]. exists rank. intros d x k Hd Gd Hx V. destruct (D d Hd) as (d0 & H0 & M0). pose proof (proj1 (M_grad _ _ M0) Gd) as G0. rewrite (M_key _ _ M0). destruct (M_attrs _ _ M0 x Hx) as [X|[X _]]; [exact (R d0 x k H0 G0 X V)|].
  destruct (X G0) as [L _]. rewrite V in L. discriminate.
Qed.
