(** Documents without references: groups are dissolved. *)
From Coq Require Import List Bool NArith Arith ZArith String Lia QArith Qcanon Permutation.
From Verif Require Import Names Num Value Dom DomFacts DomOps Outcome DomRemove SpecDom Stops Shapes NPass APass VLoop Transforms Links TasksSimple Move MoveFacts Img ResolveUse Ungroup WfAll WfStruct WfGrad PlainTree PlainPasses PlainMove.
Import ListNotations.
Local Open Scope nat_scope.

Section U.
Variables (b : bool) (N : list nat) (ks : nat) (kd : option nat).
Notation Inv := (Inv b N ks kd).
Notation guard := (guarded ks kd).
Definition mild (d d' : ndata) : Prop := key d' = key d /\ nid d' = nid d /\ tag d' = tag d /\ forall x, In x (attrs d') -> good b x.
Lemma mild_refl d : okn b N d -> mild d d. Proof. intros O. repeat split; auto; apply (ok_attrs _ _ _ O); auto. Qed.
Lemma mild_trans d1 d2 d3 : mild d1 d2 -> mild d2 d3 -> mild d1 d3.
Proof. intros (A & B & C & D) (A' & B' & C' & D'). repeat split; try congruence; now apply D'. Qed.
Lemma mild_okn d d' : mild d d' -> is_svg_el d = true -> okn b N d -> okn b N d'.
Proof.
  intros (A & B & C & D) El O. split; [exact D| | |].
  - unfold quiet. rewrite C. apply O.
  - intros _. unfold is_svg_el. now rewrite C.
  - unfold has_id. rewrite A, B. apply O.
Qed.
Lemma mild_with d x l : mild d x -> (forall y, In y l -> good b y) -> mild d (with_attrs x l).
Proof. intros (A & B & C & _) H. repeat split; auto; now apply H. Qed.
Lemma mild_set d x a v : mild d x -> good b (At (AN a) v true) -> mild d (d_set x a v).
Proof. intros M G. apply (mild_with _ _ _ M). intros y Hy. apply set_attr_from in Hy. destruct Hy as [Hy| ->]; [now apply M|exact G]. Qed.
Lemma mild_put d x y : mild d x -> good b y -> mild d (with_attrs x (put_attr (attrs x) y)).
Proof.
  intros M G. apply (mild_with _ _ _ M). unfold put_attr. destruct (existsb _ _).
  - intros z Hz. apply in_map_iff in Hz. destruct Hz as (w & <- & Hw). destruct (has_name _ _); [exact G|now apply M].
  - intros z Hz. apply in_app_or in Hz. destruct Hz as [Hz|[<-|[]]]; [now apply M|exact G].
Qed.
Lemma mild_map_value d x a v : mild d x -> good b (At (AN a) v true) -> mild d (map_value x a v).
Proof.
  intros M [G1 G2]. apply (mild_with _ _ _ M). intros z Hz. apply in_map_iff in Hz. destruct Hz as (w & <- & Hw). destruct (has_name (AN a) w) eqn:E; [|now apply M]. apply has_name_true in E. split; [exact G1|]. cbn. rewrite E. exact G2.
Qed.
Lemma mild_get d x a v : mild d x -> d_get x a = Some v -> good b (At (AN a) v true).
Proof.
  intros M E. unfold d_get, get_value in E. destruct (get_attr (attrs x) a) as [y|] eqn:X; [|discriminate]. injection E as <-. apply get_attr_some in X. destruct X as [Hy Ey]. destruct M as (_ & _ & _ & M). destruct (M y Hy) as [L Ty]. rewrite Ey in Ty. now split.
Qed.

(** The transform of a group is given to its children. *)
Lemma Inv_tmap f t : Inv t -> (forall d, In d (flat t) -> key (f d) = key d /\ tag (f d) = tag d /\ okn b N (f d)) -> (forall d, In d (flat t) -> In (key d) guard -> d_has (f d) ADisplay = false) -> Inv (tmap f t).
Proof.
  intros I H G. assert (Sb : forall s', In s' (subs (tmap f t)) -> exists s, In s (subs t) /\ s' = tmap f s) by (intros s' Hs'; rewrite subs_tmap in Hs'; apply in_map_iff in Hs'; destruct Hs' as (s & <- & Hs); eauto).
  assert (Ki : forall s, kids (tmap f s) = map (tmap f) (kids s)) by (intros []; reflexivity). pose proof I as [Nd O Gr (s & Es & Ks & Ds & C)]. split.
  - unfold keys. rewrite flat_tmap, map_map. erewrite map_ext_in; [exact Nd|]. intros d Hd. now apply H.
  - intros d Hd. rewrite flat_tmap in Hd. apply in_map_iff in Hd. destruct Hd as (x & <- & Hx). now apply H.
  - intros u c Hu Tu Hc. destruct (Sb u Hu) as (u0 & Hu0 & ->). rewrite data_tmap in Tu. rewrite Ki in Hc. apply in_map_iff in Hc. destruct Hc as (c0 & <- & Hc0). rewrite data_tmap.
    destruct (H (data u0) (data_of_sub _ _ Hu0)) as (_ & T1 & _). assert (Hc1 : In c0 (subs t)) by (apply (subs_trans t u0); [exact Hu0|now apply kid_in]). destruct (H (data c0) (data_of_sub _ _ Hc1)) as (_ & T2 & _).
    unfold is_svg_el. rewrite T2. apply (Gr u0 c0 Hu0); [|exact Hc0]. unfold is_tag in *. now rewrite <- T1.
  - destruct (svg_kid _ _ Es) as [Hs Ts]. exists (tmap f s). split.
    + unfold svg_element. rewrite Ki. unfold svg_element in Es. revert Es. assert (Hk : forall c, In c (kids t) -> tag (f (data c)) = tag (data c)) by (intros c Hc; apply H, data_of_sub, kid_in, Hc). revert Hk. generalize (kids t). induction l as [|c l IH]; intros Hk E; [discriminate|]. cbn in E |- *. rewrite data_tmap.
      assert (X : is_tag ESvg (f (data c)) = is_tag ESvg (data c)) by (unfold is_tag; rewrite Hk by (now left); reflexivity). rewrite X. destruct (is_tag ESvg (data c)); [injection E as <-; reflexivity|]. apply IH; [intros; apply Hk; now right|exact E].
    + assert (Hs1 : In s (subs t)) by (now apply kid_in). split; [unfold root_key; rewrite data_tmap; destruct (H _ (data_of_sub _ _ Hs1)) as (E & _); unfold root_key in Ks; congruence|]. split; [rewrite data_tmap; apply G; [now apply data_of_sub|left; now symmetry]|].
      intros k Ek. destruct (C k Ek) as (c & Hc & Kc & Tc & Dc). assert (Hc1 : In c (subs t)) by (apply (subs_trans t s); [exact Hs1|now apply kid_in]). exists (tmap f c). rewrite Ki. split; [now apply in_map|]. destruct (H _ (data_of_sub _ _ Hc1)) as (E & T1 & _).
      split; [unfold root_key in *; rewrite data_tmap; congruence|]. rewrite data_tmap. split; [unfold is_tag in *; now rewrite T1|]. apply G; [now apply data_of_sub|]. right. rewrite Ek. left. now symmetry.
Qed.
Lemma Inv_push m s t : Inv t -> In s (subs t) -> Inv (push_ts m s t).
Proof.
  intros I Hs. apply Inv_tmap; [exact I| |].
  - intros d Hd. pose proof (i_nodes _ _ _ _ _ I d Hd) as O. destruct (Nat.eqb _ _); [split; [reflexivity|]; split; [reflexivity|]; apply (R_okn b N d); [apply R_rm, (R_refl _ O)|exact O]|].
    destruct (existsb _ _) eqn:E; [|auto]. apply existsb_exists in E. destruct E as (c & Hc & E). apply Nat.eqb_eq in E. apply filter_In in Hc. destruct Hc as [Hc El].
    assert (d = data c). { apply (data_unique t); [apply I|exact Hd| |exact E]. apply data_of_sub, (subs_trans t s); [exact Hs|now apply kid_in]. } subst d.
    split; [reflexivity|]. split; [reflexivity|]. apply (mild_okn (data c)); [|exact El|exact O]. apply mild_set; [now apply mild_refl|]. split; [reflexivity|]. cbn. eauto.
  - intros d Hd G. destruct (guard_tag _ _ _ _ _ _ I Hd G) as [_ D]. pose proof (i_nodes _ _ _ _ _ I d Hd) as O. destruct (Nat.eqb _ _); [apply (R_has b d); [apply R_rm, (R_refl _ O)|now left|exact D]|]. destruct (existsb _ _); [|exact D].
    apply not_has in D. apply not_has. intros X. apply D. apply in_map_iff in X. destruct X as (x & Ex & Hx). apply set_attr_from in Hx. destruct Hx as [Hx| ->]; [|discriminate]. rewrite <- Ex. now apply in_map.
Qed.
Lemma valid_total d : okn b N d -> exists r, valid_transform d = Ok r.
Proof.
  intros O. unfold valid_transform. destruct (d_has d ATransform) eqn:H; [|eauto]. destruct (d_get d ATransform) as [v|] eqn:E; [|rewrite d_has_get, E in H; discriminate]. destruct (ok_get _ _ _ _ _ O E) as [_ (m & X)]. cbn in X. subst v. eauto.
Qed.
Lemma all_total o anc l : (forall c, In c l -> okn b N (data c)) -> exists r, all_ok (fun c => child_ok o anc (data c)) l = Ok r.
Proof.
  induction l as [|c l IH]; intros H; [cbn; eauto|]. cbn [all_ok]. assert (X : exists r, child_ok o anc (data c) = Ok r). { unfold child_ok. destruct (tag (data c)); eauto. destruct (existsb _ _); eauto. destruct (valid_total _ (H c (or_introl eq_refl))) as (r & ->). cbn. eauto. }
  destruct X as (r & ->). cbn. destruct r; [|eauto]. apply IH. intros; apply H; now right.
Qed.
Lemma prep_one_ok o t k : Inv t -> exists r, prep_one o t k = Ok r /\ Inv (fst r).
Proof.
  intros I. unfold prep_one. destruct (find_sub k t) as [s|] eqn:Es; [|eauto]. destruct (ancestors k [] t) as [anc|]; [|eauto]. apply find_sub_some in Es. destruct Es as [Hs _]. pose proof (i_nodes _ _ _ _ _ I _ (data_of_sub _ _ Hs)) as O.
  cbv zeta. destruct (is_tag EG (data s) && d_has (data s) ATransform) eqn:E; [|eauto]. apply andb_prop in E. destruct E as [_ Ht]. destruct (valid_total _ O) as (r & ->). cbn [bind]. destruct (_ || _); [eauto|].
  destruct (all_total o (data s :: anc) (svg_kids s)) as (r2 & ->). { intros c Hc. apply filter_In in Hc. destruct Hc as [Hc _]. apply (i_nodes _ _ _ _ _ I), data_of_sub, (subs_trans t s); [exact Hs|now apply kid_in]. }
  cbn [bind]. destruct r2; [|eauto]. rewrite d_has_get in Ht. destruct (d_get (data s) ATransform) as [v|] eqn:Hg; [|discriminate]. destruct (ok_get _ _ _ _ _ O Hg) as [_ (m & X)]. cbn in X. subst v. exists (push_ts m s t, true). split; [reflexivity|]. now apply Inv_push.
Qed.
Lemma prepare_ok o self rec p t : Inv t -> exists t', prepare o self rec p t = Ok t' /\ Inv t'.
Proof.
  intros I. unfold prepare. destruct (valid_elems o); [eauto|]. destruct (find_sub p t) as [s|]; [|eauto]. generalize (if self then keys s else tl (keys s)). intros l0. revert t I. induction l0 as [|k l0 IH]; intros t I; cbn [prep_loop]; [eauto|].
  destruct (prep_one_ok o t k I) as (r & -> & I1). cbn [bind]. destruct (_ && _); eauto.
Qed.

(** The attributes of a group are given to its children. *)
Lemma give_ok t d0 x c : mild d0 c -> good b x -> exists c', give_attr t x c = Ok c' /\ mild d0 c'.
Proof.
  intros M G. unfold give_attr. destruct (a_name x) as [a|n] eqn:En; [|eauto]. pose proof G as [L Ty]. rewrite put_ok_plain by exact L. cbv zeta.
  assert (P : exists c', Ok (with_attrs c (put_attr (attrs c) x)) = Ok c' /\ mild d0 c') by (eexists; split; [reflexivity|now apply mild_put]).
  destruct (aid_eqb a AOpacity && d_has c a) eqn:E1.
  - apply andb_prop in E1. destruct E1 as [Ea Hc]. destruct (aid_eqb_spec a AOpacity) as [->|]; [|discriminate]. rewrite En in Ty. destruct Ty as (q & ->). rewrite d_has_get in Hc. destruct (d_get c AOpacity) as [v|] eqn:Hg; [|discriminate]. destruct (mild_get _ _ _ _ M Hg) as [_ (q2 & X)]. cbn in X. subst v.
    eexists. split; [reflexivity|]. apply mild_set; [exact M|]. split; [reflexivity|]. cbn. eauto.
  - destruct (aid_eqb a ATransform && d_has c a) eqn:E2.
    + eexists. split; [reflexivity|]. apply andb_prop in E2. destruct E2 as [Ea _]. destruct (aid_eqb_spec a ATransform) as [->|]; [|discriminate]. destruct (a_val x); auto. destruct (d_get c ATransform) as [[]|]; auto. apply mild_map_value; [exact M|]. split; [reflexivity|]. cbn. eauto.
    + destruct (aid_eqb a ADisplay); [exact P|]. destruct (d_has c a); [eauto|exact P].
Qed.
Lemma gives_ok t d0 l : forall c, mild d0 c -> (forall x, In x l -> good b x) -> exists c', give_attrs t l c = Ok c' /\ mild d0 c'.
Proof.
  unfold give_attrs. induction l as [|x l IH]; intros c M G; [cbn; eauto|]. cbn [fold_left bind]. destruct (give_ok t d0 x c M (G x (or_introl eq_refl))) as (c1 & -> & M1). apply IH; [exact M1|]. intros; apply G; now right.
Qed.
Lemma give_all_ok t l ch : (forall c, In c ch -> okn b N (data c)) -> (forall x, In x l -> good b x) -> exists ch', give_all t l ch = Ok ch' /\ Forall2 (fun c c' => mild (data c) (data c') /\ kids c' = kids c) ch ch'.
Proof.
  intros H G. induction ch as [|c ch IH]; [cbn; eauto|]. cbn [give_all]. destruct (gives_ok t (data c) l (data c) (mild_refl _ (H c (or_introl eq_refl))) G) as (d & -> & M). cbn [bind]. destruct IH as (ch' & -> & F2); [intros; apply H; now right|]. cbn [bind]. eexists. split; [reflexivity|]. constructor; auto.
Qed.
(** The children take the place of the group. *)
Lemma Inv_lift g ch t s : Inv t -> In s (subs t) -> root_key s = g -> is_tag EG (data s) = true -> (forall c, In c (kids t) -> root_key c <> g) -> NoDup (keys (lift g ch t)) ->
  (forall c, In c ch -> is_svg_el (data c) = true) -> (forall d, In d (flat_map flat ch) -> okn b N d) -> (forall u, In u (flat_map subs ch) -> gok u) -> Inv (lift g ch t).
Proof.
  intros I Hs Kg Ts Ng Nd' Sc Oc Gc. unfold lift in *. set (h := fun c : tree => if Nat.eqb (root_key c) g then Some (T (data c) [] :: ch) else None) in *.
  assert (Same : forall c, In c (subs t) -> root_key c = g -> c = s) by (intros c Hc E; apply (sub_unique t); auto; [apply I|congruence]).
  pose proof I as [Nd O Gr (v & Ev & Kv & Dv & C)]. destruct (svg_kid _ _ Ev) as [Hv Tv].
  assert (Rp : forall r l x, In r (reps h t) -> h r = Some l -> In x l -> x = T (data s) [] \/ In x ch).
  { intros r l x Hr El Hx. apply reps_spec in Hr. destruct Hr as [Hr _]. unfold h in El. destruct (Nat.eqb_spec (root_key r) g) as [E|]; [|discriminate]. injection El as <-. rewrite (Same r (in_sub_flat _ _ Hr) E) in Hx. destruct Hx as [<-|Hx]; auto. }
  split; [exact Nd'| | |].
  - intros d Hd. apply flat_img in Hd. destruct Hd as [Hd|(r & l & x & Hr & El & Hx & Hd)]; [auto|]. destruct (Rp r l x Hr El Hx) as [->|Hc].
    + destruct Hd as [<-|[]]. apply O. exact (data_of_sub _ _ Hs).
    + apply Oc. apply in_flat_map. eauto.
  - intros u c Hu Tu Hc. apply subs_img in Hu. destruct Hu as [(u0 & Hu0 & -> & _)|(r & l & x & Hr & El & Hx & Hu)].
    + rewrite data_img in Tu. rewrite kids_img in Hc. apply in_flat_map in Hc. destruct Hc as (c0 & Hc0 & Hc). unfold rpl in Hc. destruct (h c0) as [l|] eqn:El.
      * unfold h in El. destruct (Nat.eqb _ _); [|discriminate]. injection El as <-. destruct Hc as [<-|Hc]; [exact (Gr u0 c0 Hu0 Tu Hc0)|now apply Sc].
      * destruct Hc as [<-|[]]. rewrite data_img. exact (Gr u0 c0 Hu0 Tu Hc0).
    + destruct (Rp r l x Hr El Hx) as [->|Hx']; [destruct Hu as [<-|[]]; destruct Hc|]. apply (Gc u); [apply in_flat_map; eauto|exact Tu|exact Hc].
  - exists (img h v). split; [|split; [now rewrite root_img|split; [now rewrite data_img|]]].
    + unfold svg_element in *. rewrite kids_img. assert (E : flat_map (rpl h) (kids t) = map (img h) (kids t)).
      { revert Ng. generalize (kids t). induction l as [|c l IH]; intros Ng; [reflexivity|]. cbn. rewrite IH by (intros; apply Ng; now right). unfold rpl, h at 1. destruct (Nat.eqb_spec (root_key c) g) as [X|_]; [|reflexivity]. exfalso; exact (Ng c (or_introl eq_refl) X). }
      rewrite E, find_map_same by (intros x; now rewrite data_img). now rewrite Ev.
    + intros k Ek. destruct (C k Ek) as (c & Hc & Kc & Tc & Dc). exists (img h c). split; [|now rewrite root_img, data_img]. rewrite kids_img. apply in_flat_map. exists c. split; [exact Hc|]. assert (Hn : h c = None); [|unfold rpl; rewrite Hn; now left]. unfold h. destruct (Nat.eqb_spec (root_key c) g) as [X|_]; [|reflexivity].
      exfalso. rewrite (Same c) in Tc; [|apply (subs_trans t v); now apply kid_in|exact X]. apply is_tag_tag in Ts, Tc. congruence.
Qed.
Lemma find_group_spec t s p g : find_group t s = Some (p, g) -> exists u c, In u (subs s) /\ root_key u = p /\ In c (kids u) /\ root_key c = g /\ is_tag EG (data c) = true.
Proof.
  induction s as [d ch IH] using tree_ind'. cbn [find_group]. intros E. assert (X : exists c, In c ch /\ ((is_tag EG (data c) = true /\ p = key d /\ g = root_key c) \/ find_group t c = Some (p, g))).
  { clear IH. induction ch as [|c l IHl]; [discriminate|]. destruct (is_tag EG (data c) && can_ungroup t d c) eqn:Q; [apply andb_prop in Q; destruct Q; injection E as <- <-; exists c; split; [now left|left; auto]|].
    destruct (find_group t c) as [r|] eqn:Q2; [injection E as ->; exists c; split; [now left|now right]|]. destruct (IHl E) as (x & Hx & X). exists x. split; [now right|exact X]. }
  destruct X as (c & Hc & [(Tc & -> & ->)|X]).
  - exists (T d ch), c. split; [now left|]. auto.
  - rewrite Forall_forall in IH. destruct (IH c Hc X) as (u & y & Hu & Y). exists u, y. split; [right; apply in_flat_map; eauto|exact Y].
Qed.
Lemma ungroup_one_ok o self t v p g : fine t -> Inv t -> svg_element t = Some v -> find_group t v = Some (p, g) -> exists t', ungroup_one o self t p g = Ok t' /\ fine t' /\ Inv t'.
Proof.
  intros F I Ev Eg. destruct (find_group_spec _ _ _ _ Eg) as (u & c & Hu & _ & Hc & Kc & Tc). destruct (svg_kid _ _ Ev) as [Hv Tv]. assert (Hu1 : In u (subs t)) by (apply (subs_trans t v); [now apply kid_in|exact Hu]). assert (Hc1 : In c (subs t)) by (apply (subs_trans t u); [exact Hu1|now apply kid_in]).
  pose proof (fine_nodup t F) as Nd.
  assert (Ut : u <> t). { intros ->. pose proof Nd as X. rewrite keys_kids in X. inversion X as [|? ? Y _]; subst. apply Y. apply in_flat_map. exists v. split; [exact Hv|]. exact (in_subs_root t v Hu). }
  assert (Ng : forall x, In x (kids t) -> root_key x <> g). { intros x Hx E. apply Ut. apply (kid_parent t Nd u t c x); auto using subs_self. congruence. }
  assert (Ngr : g <> root_key t). { intros E. assert (c = t) by (apply (sub_unique t); auto using subs_self; congruence). subst c. unfold is_tag in Tc. rewrite (fine_root t F) in Tc. discriminate. }
  assert (Ef : find_sub g t = Some c) by (rewrite <- Kc; now apply find_sub_iff).
  assert (Sub : forall x, In x (kids c) -> In x (subs t)) by (intros x Hx; apply (subs_trans t c); [exact Hc1|now apply kid_in]).
  destruct (give_all_ok t (attrs (data c)) (kids c)) as (ch & Ech & F2). { intros x Hx. apply (i_nodes _ _ _ _ _ I), data_of_sub; auto. } { apply (ok_attrs _ _ _ (i_nodes _ _ _ _ _ I _ (data_of_sub _ _ Hc1))). }
  assert (Fl : fine (lift g ch t)).
  { destruct (flat_split t c Nd Hc1) as (pre & post & S1 & S2). rewrite Kc in S2. apply (fine_forall2 t); [exact F|]. rewrite flat_lift by exact Ngr. rewrite S1, S2. apply Forall2_app; [apply forall2_refl|]. apply Forall2_app; [|apply forall2_refl]. clear - Hc1 Ech F. destruct c as [d l]. cbn [flat data kids] in *. constructor; [apply ext_refl|]. refine (give_all_ext t _ _ _ _ _ Ech). intros x k Hx X. apply (wf_links t (fine_wf t F)).
    apply (node_links_in t d); [exact (data_of_sub _ _ Hc1)|exact (link_in d x k Hx X)]. }
  assert (Old : forall x', In x' ch -> exists x, In x (kids c) /\ mild (data x) (data x') /\ kids x' = kids x).
  { clear - F2. induction F2 as [|x x' l l' (M & K) _ IH]; intros y Hy; [destruct Hy|]. destruct Hy as [<-|Hy]; [exists x; split; [now left|auto]|]. destruct (IH y Hy) as (z & Hz & Z). exists z. split; [now right|exact Z]. }
  assert (El : forall x, In x (kids c) -> is_svg_el (data x) = true) by (intros x Hx; exact (i_groups _ _ _ _ _ I c x Hc1 Tc Hx)).
  assert (Il : Inv (lift g ch t)).
  { apply (Inv_lift g ch t c); auto.
    - now apply fine_nodup.
    - intros x' Hx'. destruct (Old x' Hx') as (x & Hx & (_ & _ & T1 & _) & _). unfold is_svg_el. rewrite T1. now apply El.
    - intros d Hd. apply in_flat_map in Hd. destruct Hd as (x' & Hx' & Hd). destruct (Old x' Hx') as (x & Hx & M & K). destruct x' as [d' l']. cbn in Hd, M, K. destruct Hd as [<-|Hd].
      + apply (mild_okn (data x)); auto. apply (i_nodes _ _ _ _ _ I), data_of_sub; auto.
      + apply (i_nodes _ _ _ _ _ I). apply in_flat_map in Hd. destruct Hd as (y & Hy & Hd). rewrite K in Hy. rewrite <- map_data_subs in Hd. apply in_map_iff in Hd. destruct Hd as (z & <- & Hz). apply data_of_sub. apply (subs_trans t y); [|exact Hz]. apply (subs_trans t x); [auto|now apply kid_in].
    - intros w Hw. apply in_flat_map in Hw. destruct Hw as (x' & Hx' & Hw). destruct (Old x' Hx') as (x & Hx & (_ & _ & T1 & _) & K). destruct x' as [d' l']. cbn in T1, K. destruct Hw as [<-|Hw].
      + intros Tw y Hy. cbn in Tw, Hy. rewrite K in Hy. apply (i_groups _ _ _ _ _ I x y); auto. unfold is_tag in *. now rewrite <- T1.
      + apply (gok_sub _ _ _ _ _ _ I). apply in_flat_map in Hw. destruct Hw as (y & Hy & Hw). rewrite K in Hy. apply (subs_trans t y); [|exact Hw]. apply (subs_trans t x); [auto|now apply kid_in]. }
  assert (Ir : Inv (remove g (lift g ch t))).
  { apply Inv_remove; [exact Il|]. rewrite <- Kc. apply (not_guard b N ks kd t (data c)); [exact I|now apply data_of_sub| |]; apply (tag_other EG); auto; discriminate. }
  unfold ungroup_one. rewrite Ef, Ech. cbn [bind]. destruct (prepare_ok o self false p _ Ir) as (t' & Et & It). exists t'. split; [exact Et|]. split; [|exact It]. exact (fine_prepare _ _ _ _ _ _ (fine_remove g _ Fl) Et).
Qed.
Lemma plain_ungroup o self t : fine t -> Inv t -> ungroup_groups o self t <> Some Panic /\ forall t', ungroup_groups o self t = Some (Ok t') -> Inv t'.
Proof.
  intros F I. unfold ungroup_groups. destruct (svg_some _ _ _ _ _ I) as (v & Ev). rewrite Ev. destruct (prepare_ok o self true (root_key v) t I) as (t1 & E1 & I1). rewrite E1. pose proof (fine_prepare _ _ _ _ _ _ F E1) as F1. generalize (List.length (keys t)). intros n. clear F I v Ev E1 t. revert t1 F1 I1.
  induction n as [|n IH]; intros t F I; cbn [ungroup_loop]; destruct (svg_some _ _ _ _ _ I) as (v & Ev); rewrite Ev; (destruct (find_group t v) as [[p g]|] eqn:Eg; [|split; [discriminate|intros t' E; injection E as <-; exact I]]); [split; [discriminate|intros t' E; discriminate E]|].
  destruct (ungroup_one_ok o self t v p g F I Ev Eg) as (t' & -> & F' & I'). exact (IH t' F' I').
Qed.
End U.
