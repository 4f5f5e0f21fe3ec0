(** Lemmas: gradients that are left as they are. *)
From Coq Require Import List Bool NArith Arith ZArith String QArith Qcanon Lia.
From Verif Require Import Names Num Value Dom DomFacts DomOps Push SpecStops SpecShading.
Import ListNotations.
Local Open Scope nat_scope.

Lemma alike_get d d' a : alike_shade d d' -> In a shade_attrs -> d_get d' a = d_get d a.
Proof. intros (_ & _ & H) Ha. unfold d_get, get_value. now rewrite (H a Ha). Qed.
Lemma alike_shade_refl d : alike_shade d d. Proof. repeat split; auto. Qed.
Lemma alike_shade_trans a b c : alike_shade a b -> alike_shade b c -> alike_shade a c.
Proof. intros (A1 & A2 & A3) (B1 & B2 & B3). split; [congruence|split; [congruence|]]. intros x Hx. now rewrite (B3 x Hx), (A3 x Hx). Qed.
Lemma shade_gradient s s' : alike_shade (data s) (data s') -> gradient s -> gradient s'.
Proof. intros (_ & E & _). unfold gradient. now rewrite E. Qed.
Lemma shade_stops s s' : Forall2 alike_shade (map data (kids s)) (map data (kids s')) -> stops_only s -> stops_only s'.
Proof.
  unfold stops_only. generalize (kids s) (kids s'). induction l as [|c l IH]; intros l' F H x Hx.
  - destruct l'; [destruct Hx|inversion F].
  - destruct l' as [|c' l']; [destruct Hx|]. inversion F as [|? ? ? ? A B]; subst. destruct Hx as [<-|Hx].
    + destruct A as (_ & -> & _). apply H. now left.
    + apply (IH l' B); [intros z Hz; apply H; now right|exact Hx].
Qed.
Lemma f2_alike_refl l : Forall2 alike_shade l l. Proof. induction l; constructor; auto using alike_shade_refl. Qed.
Lemma f2_alike_trans a : forall b c, Forall2 alike_shade a b -> Forall2 alike_shade b c -> Forall2 alike_shade a c.
Proof. induction a as [|x a IH]; intros b c H1 H2; inversion H1; subst; inversion H2; subst; constructor; [eapply alike_shade_trans; eauto|eauto]. Qed.
Lemma shades_refl t : shades_kept t t. Proof. intros s Hs _ _. exists s. split; [exact Hs|]. split; [apply alike_shade_refl|apply f2_alike_refl]. Qed.
Lemma shades_trans a b c : shades_kept a b -> shades_kept b c -> shades_kept a c.
Proof.
  intros H1 H2 s Hs G O. destruct (H1 s Hs G O) as (s1 & Hs1 & A1 & F1). destruct (H2 s1 Hs1 (shade_gradient _ _ A1 G) (shade_stops _ _ F1 O)) as (s2 & Hs2 & A2 & F2).
  exists s2. split; [exact Hs2|]. split; [eapply alike_shade_trans; eauto|eapply f2_alike_trans; eauto].
Qed.
(** A change of the nodes that concerns neither gradients nor stops. *)
Lemma shades_tmap f t : (forall s, In s (subs t) -> gradient s -> alike_shade (data s) (f (data s))) ->
  (forall s c, In s (subs t) -> gradient s -> In c (kids s) -> tag (data c) = TEl EStop -> alike_shade (data c) (f (data c))) -> shades_kept t (tmap f t).
Proof.
  intros H1 H2 s Hs G O. exists (tmap f s). split; [rewrite subs_tmap; now apply in_map|]. rewrite data_tmap. split; [now apply H1|]. rewrite kids_tmap, map_map.
  assert (X : forall c, In c (kids s) -> alike_shade (data c) (f (data c))) by (intros c Hc; apply (H2 s c Hs G Hc); now apply O). revert X. clear. induction (kids s) as [|c l IH]; intros X; constructor; [rewrite data_tmap; apply X; now left|apply IH; intros z Hz; apply X; now right].
Qed.
Lemma shades_tmap_tag f t : (forall d, In d (flat t) -> is_tag ELinearGradient d = true \/ is_tag ERadialGradient d = true \/ is_tag EStop d = true -> alike_shade d (f d)) -> shades_kept t (tmap f t).
Proof.
  intros H. apply shades_tmap.
  - intros s Hs G. apply H; [now apply data_of_sub|]. destruct G as [E|E]; unfold is_tag; rewrite E; cbn; auto.
  - intros s c Hs G Hc E. apply H; [apply data_of_sub; exact (kid_sub s c t Hs Hc)|]. unfold is_tag; rewrite E; cbn; auto.
Qed.
