(** Lemmas: the colours of gradients, pass by pass. *)
From Coq Require Import List Bool NArith Arith ZArith String QArith Qcanon Lia.
From Verif Require Import Names Num Value Dom DomFacts DomOps Outcome DomRemove Stops VLoop Transforms SpecStops StopsProofs Img Push Melt SpecUngroup UngroupKeep UngroupEnd SpecGroupStyle StyleMove StyleEnd SpecPrepared SpecShading Shading SpecRamps PictureTwin.
Import ListNotations.
Local Open Scope nat_scope.

(** ** The relation that is kept *)
Definition in_order (l : list stop) : Prop := ascending q0 (map so l) /\ Forall (fun o => (o <= q1)%Qc) (map so l).
Record shaded (s s' : tree) : Prop := {
  sh_key : root_key s' = root_key s;
  sh_tag : tag (data s') = tag (data s);
  sh_href : d_get (data s') AXlinkHref = d_get (data s) AXlinkHref;
  sh_only : stops_only s';
  sh_order : in_order (own_stops s');
  sh_ramp : forall x, ramp (own_stops s') x = ramp (own_stops s) x
}.
Definition ramps_kept (t t' : tree) : Prop := forall s, In s (subs t) -> gradient s -> stops_only s -> in_order (own_stops s) ->
  exists s', In s' (subs t') /\ shaded s s'.
Lemma ramps_refl t : ramps_kept t t. Proof. intros s Hs G O I. exists s. split; [exact Hs|]. split; auto. Qed.
Lemma ramps_trans a b c : ramps_kept a b -> ramps_kept b c -> ramps_kept a c.
Proof.
  intros H1 H2 s Hs G O I. destruct (H1 s Hs G O I) as (s1 & Hs1 & A). destruct (H2 s1 Hs1) as (s2 & Hs2 & B); [unfold gradient; now rewrite (sh_tag _ _ A)|apply A|apply A|].
  exists s2. split; [exact Hs2|]. split; [rewrite (sh_key _ _ B); apply A|rewrite (sh_tag _ _ B); apply A|rewrite (sh_href _ _ B); apply A|apply B|apply B|]. intros x. rewrite (sh_ramp _ _ B x). apply A.
Qed.
Lemma alike_stop d d' : alike_shade d d' -> stop_of d' = stop_of d.
Proof. intros H. unfold stop_of. rewrite !(alike_get d d' _ H); [reflexivity|cbn; tauto..]. Qed.
Lemma alike_stops l : forall l', Forall2 alike_shade l l' -> map stop_of (filter (is_tag EStop) l') = map stop_of (filter (is_tag EStop) l).
Proof.
  induction l as [|d l IH]; intros l' F; inversion F as [|? d' ? l2 A B]; subst; [reflexivity|]. cbn [filter]. assert (E : is_tag EStop d' = is_tag EStop d) by (unfold is_tag; now rewrite (proj1 (proj2 A))). rewrite E.
  destruct (is_tag EStop d); cbn [map]; rewrite (IH l2 B); [now rewrite (alike_stop d d' A)|reflexivity].
Qed.
Lemma shades_ramps t t' : shades_kept t t' -> ramps_kept t t'.
Proof.
  intros H s Hs G O I. destruct (H s Hs G O) as (s' & Hs' & A & F). exists s'. split; [exact Hs'|]. assert (E : own_stops s' = own_stops s) by (apply alike_stops, F).
  split; [apply A|apply A|apply (alike_get _ _ _ A); cbn; tauto|exact (shade_stops _ _ F O)|now rewrite E|now rewrite E].
Qed.

(** ** Twins *)
Section Twins.
  Variable R : ndata -> ndata -> Prop.
  Hypothesis Rr : forall d, R d d.
  Hypothesis Rt : forall a b c, R a b -> R b c -> R a c.
  Lemma tg_refl t : twin R t t.
  Proof. induction t as [d ch IH] using tree_ind'. constructor; [apply Rr|]. induction IH; constructor; auto. Qed.
  Lemma tg_trans a : forall b c, twin R a b -> twin R b c -> twin R a c.
  Proof.
    induction a as [d ch IH] using tree_ind'. intros b c A B. inversion A as [x1 d1 x2 ch1 R1 F1]; subst. inversion B as [y1 d2 y2 ch2 R2 F2]; subst. constructor; [exact (Rt _ _ _ R1 R2)|].
    clear A B R1 R2. revert ch2 F2. induction F1 as [|u u' l l' W F IH2]; intros ch2 F2; inversion F2; subst; constructor; [exact (Forall_inv IH _ _ W H1)|]. exact (IH2 (Forall_inv_tail IH) _ H3).
  Qed.
  Lemma tg_flat a : forall b, twin R a b -> Forall2 R (flat a) (flat b).
  Proof.
    induction a as [d ch IH] using tree_ind'. intros b A. inversion A as [x1 d1 x2 ch1 R1 F1]; subst. cbn [flat]. constructor; [exact R1|]. clear A R1. induction F1 as [|u u' l l' W F IH2]; [constructor|]. cbn [flat_map]. apply Forall2_app; [exact (Forall_inv IH _ W)|exact (IH2 (Forall_inv_tail IH))].
  Qed.
  Lemma tg_tmap f t : (forall d, In d (flat t) -> R d (f d)) -> twin R t (tmap f t).
  Proof. apply twin_tmap. Qed.
  Lemma tg_subs t : forall t', twin R t t' -> Forall2 (twin R) (subs t) (subs t').
  Proof.
    induction t as [d ch IH] using tree_ind'. intros b A. inversion A as [x1 d1 x2 ch1 R1 F1]; subst. cbn [subs]. constructor; [exact A|]. clear A R1. induction F1 as [|u u' l l' W F IH2]; [constructor|]. cbn [flat_map]. apply Forall2_app; [exact (Forall_inv IH _ W)|exact (IH2 (Forall_inv_tail IH))].
  Qed.
End Twins.
Lemma f2_both {A B} (P Q : A -> B -> Prop) l l' x : Forall2 P l l' -> Forall2 Q l l' -> In x l -> exists y, In y l' /\ P x y /\ Q x y.
Proof. intros F. induction F as [|a b l l' H F IH]; intros G Hx; [destruct Hx|]. inversion G as [|? ? ? ? H1 H2]; subst. destruct Hx as [<-|Hx]; [exists b; split; [now left|auto]|]. destruct (IH H2 Hx) as (y & Hy & X). exists y. split; [now right|exact X]. Qed.
Lemma f2_kids_data (R : ndata -> ndata -> Prop) s s' : twin R s s' -> Forall2 R (map data (kids s)) (map data (kids s')).
Proof. intros W. apply twin_kids in W. induction W as [|c c' l l' X F IH]; cbn; constructor; [exact (twin_data _ _ _ X)|exact IH]. Qed.
(** A twin keeps the colours if it keeps gradients and stops. *)
Lemma twin_shades (R : ndata -> ndata -> Prop) t t' : (forall d d', R d d' -> In d (flat t) -> alike_shade d d') -> twin R t t' -> shades_kept t t'.
Proof.
  intros H W s Hs G O. destruct (twin_subs R t t' s W Hs) as (s' & Hs' & X). exists s'. split; [exact Hs'|]. split; [apply H; [exact (twin_data _ _ _ X)|now apply data_of_sub]|].
  assert (Y : forall c, In c (kids s) -> In (data c) (flat t)) by (intros c Hc; apply data_of_sub; exact (Push.kid_sub s c t Hs Hc)). apply f2_kids_data in X. revert Y X. clear - H. generalize (kids s) (kids s'). induction l as [|c l IH]; intros l' Y F; cbn [map] in *.
  - inversion F. constructor.
  - inversion F as [|? d' ? r A B E1 E2]; subst. destruct l' as [|c' l']; [discriminate|]. cbn [map] in *. injection E2 as -> ->. constructor; [apply H; [exact A|apply Y; now left]|apply IH; [intros z Hz; apply Y; now right|exact B]].
Qed.

(** ** Changes of gradients that leave the stops alone *)
Record gside (d d' : ndata) : Prop := {
  gs_key : key d' = key d;
  gs_tag : tag d' = tag d;
  gs_href : d_get d' AXlinkHref = d_get d AXlinkHref;
  gs_same : ~ gradient_el d -> d' = d
}.
Lemma gside_refl d : gside d d. Proof. split; auto. Qed.
Lemma gside_trans a b c : gside a b -> gside b c -> gside a c.
Proof. intros A B. split; [rewrite (gs_key _ _ B); apply A|rewrite (gs_tag _ _ B); apply A|rewrite (gs_href _ _ B); apply A|]. intros H. rewrite <- (gs_same _ _ A H). apply B. rewrite (gs_same _ _ A H). exact H. Qed.
Lemma stop_not_gradient d : tag d = TEl EStop -> ~ gradient_el d. Proof. intros E [H|H]; congruence. Qed.
Lemma gside_own s s' : stops_only s -> twin gside s s' -> own_stops s' = own_stops s /\ stops_only s'.
Proof.
  intros O W. apply f2_kids_data in W. assert (E : map data (kids s') = map data (kids s)).
  { unfold stops_only in O. revert O W. generalize (kids s) (kids s'). induction l as [|c l IH]; intros l' O F; cbn [map] in *; [inversion F; reflexivity|]. inversion F as [|? d' ? r A B E1 E2]; subst. destruct l' as [|c' l']; [discriminate|]. cbn [map] in *. injection E2 as -> ->.
    f_equal; [apply (gs_same _ _ A), stop_not_gradient, O; now left|apply IH; [intros z Hz; apply O; now right|exact B]]. }
  split; [unfold own_stops; now rewrite E|]. intros c Hc. apply (in_map data) in Hc. rewrite E in Hc. apply in_map_iff in Hc. destruct Hc as (x & <- & Hx). now apply O.
Qed.
Lemma gside_ramps t t' : twin gside t t' -> ramps_kept t t'.
Proof.
  intros W s Hs G O I. destruct (twin_subs gside t t' s W Hs) as (s' & Hs' & X). exists s'. split; [exact Hs'|]. destruct (gside_own s s' O X) as [E O']. pose proof (twin_data _ _ _ X) as D.
  split; [apply D|apply D|apply D|exact O'|now rewrite E|now rewrite E].
Qed.
Lemma gv_loop (Q : ndata -> Prop) f ks : (forall d d', tag d' = tag d -> Q d -> Q d') -> (forall u d d', In d (flat u) -> Q d -> f u d = Ok d' -> gside d d') -> forall t t',
  NoDup (keys t) -> (forall d, In d (flat t) -> In (key d) ks -> Q d) -> vloop f ks t = Ok t' -> twin gside t t'.
Proof.
  intros Qt H. induction ks as [|k ks IH]; intros t t' N V; cbn [vloop]; [intros E; injection E as <-; apply tg_refl, gside_refl|]. destruct (find_data k t) as [d|] eqn:Fd.
  - intros E. apply bind_ok in E. destruct E as (d1 & E1 & E). destruct (find_data_some _ _ _ Fd) as [Hd K]. assert (S1 : gside d d1) by (apply (H t); auto; apply V; [exact Hd|left; now symmetry]).
    assert (W : twin gside t (upd k (fun _ => d1) t)). { apply twin_tmap. intros x Hx. destruct (Nat.eqb_spec (key x) k) as [Ex|Ex]; [|apply gside_refl]. assert (x = d) by (apply (data_unique t); auto; congruence). now subst x. }
    apply (tg_trans gside gside_trans _ _ _ W). apply IH in E; [exact E| |].
    + unfold upd, keys. rewrite flat_tmap, map_map. rewrite (map_ext_in _ key); [exact N|]. intros x Hx. destruct (Nat.eqb_spec (key x) k) as [Ex|Ex]; [|reflexivity]. rewrite (gs_key _ _ S1). congruence.
    + intros x Hx Hk. unfold upd in Hx. rewrite flat_tmap in Hx. apply in_map_iff in Hx. destruct Hx as (y & Ey & Hy). assert (Z : tag x = tag y /\ key x = key y). { destruct (Nat.eqb_spec (key y) k) as [Ex|Ex]; subst x; [|auto]. assert (y = d) by (apply (data_unique t); auto; congruence). subst y. split; [apply S1|apply S1]. }
      apply (Qt y x (proj1 Z)). apply V; [exact Hy|right; rewrite <- (proj2 Z); exact Hk].
  - apply IH; [exact N|]. intros x Hx Hk. apply V; [exact Hx|now right].
Qed.
