(** C42: equal stop lists are shared through a new gradient. *)
From Coq Require Import List Bool NArith Arith ZArith String Lia QArith Qcanon.
From Verif Require Import Names Num Value Dom DomFacts DomOps Outcome APass SpecDom SpecText GradUnits SpecGradients SpecWritten SpecGradUnits SpecStyle SpecDupl Dupl MergeGradients SpecMerge Props_coords Props_merge Regroup SpecRegroup RegroupEnd.
Import ListNotations.
Local Open Scope string_scope.
Local Open Scope nat_scope.

(** C42: the pass ends; it adds gradients with new ids that have only stops; gradients keep their place and
    attributes and get at most an xlink:href; every gradient has the same values and the same stops in effect in
    the saved document; everything else is untouched. Partial: [rready] documents (tidy gradients without cycles),
    and stops are compared by offset, stop-color and stop-opacity (see the refutation). *)
Theorem C42_regroup_partial t : rready t -> exists t', regroup_gradient_stops t = Some (Ok t') /\ regrouped t t'.
Proof. exact (regroup_regroups t). Qed.

(** An instance: the first and the third gradient have equal stops; the second one has other stops. *)
Definition stp (k : nat) (z : Z) : tree := el k EStop [at_ AOffset (VNum (zq z)); hid AStopOpacity (VNum q1)] [].
Definition three_doc : tree := doc [el 1 ESvg [] [el 2 EDefs [] [
  eli 3 ELinearGradient "a" [at_ AX1 (len 7)] [stp 4 0; stp 5 1];
  eli 6 ELinearGradient "lg1" [] [stp 7 0; stp 8 2];
  eli 9 ERadialGradient "c" [at_ AR (len 5)] [stp 10 0; stp 11 1];
  eli 12 ERadialGradient "d" [at_ AXlinkHref (VLink 9)] []]; el 13 ERect [at_ AFill (VFunc 12)] []]].
Definition shared (r : option (result tree)) : option (list (nat * string * option value * list nat)) :=
  match r with Some (Ok t) => Some (map (fun s => (root_key s, nid (data s), d_get (data s) AXlinkHref, map root_key (kids s))) (filter (fun s => is_gradient (data s)) (subs t))) | _ => None end.
Lemma three_flat P : Forall P (flat three_doc) -> forall d, In d (flat three_doc) -> P d.
Proof. intros H. exact (proj1 (Forall_forall _ _) H). Qed.
Example C42_instance : rready three_doc /\
  shared (regroup_gradient_stops three_doc) = Some [(14, "lg2", None, [4; 5]); (3, "a", Some (VLink 14), []); (6, "lg1", None, [7; 8]); (9, "c", Some (VLink 14), []); (12, "d", Some (VLink 9), [])].
Proof.
  split; [|vm_compute; reflexivity].
  assert (WFp : WF three_doc). { split; [cbn; repeat constructor; cbn; intuition discriminate|]. intros k Hk. cbn in *. intuition. }
  assert (Lk : forall d x k, In d (flat three_doc) -> In x (attrs d) -> link_of (a_val x) = Some k -> (k = 9 /\ key d = 12 /\ x = at_ AXlinkHref (VLink 9)) \/ (k = 12 /\ key d = 13 /\ x = at_ AFill (VFunc 12))).
  { intros d x k Hd Hx L. cbn in Hd. repeat (destruct Hd as [<-|Hd]; [cbn in Hx; repeat (destruct Hx as [<-|Hx]; [first [discriminate L|injection L as <-; auto]|]); destruct Hx|]). destruct Hd. }
  assert (Gk : forall d, In d (flat three_doc) -> gradient_node d -> In (key d) [3; 6; 9; 12]).
  { intros d Hd G. cbn in Hd. repeat (destruct Hd as [<-|Hd]; [first [destruct G; discriminate|cbn; auto 10]|]). destruct Hd. }
  constructor; [exact WFp|wfa| | | | | | |].
  - intros [H|H]; discriminate.
  - intros a d p Hc Hp Gp G. cbn in Hc. repeat (destruct Hc as [Hc|Hc]; [inversion Hc; subst a d; first [destruct G; discriminate|cbn in Hp; repeat (destruct Hp as [<-|Hp]; [destruct Gp; discriminate|]); destruct Hp]|]). destruct Hc.
  - intros a d p Hc Hp Gp. assert (K : In (key d) [4; 5; 7; 8; 10; 11] /\ forall x, In x (attrs d) -> link_of (a_val x) = None).
    { cbn in Hc. repeat (destruct Hc as [Hc|Hc]; [inversion Hc; subst a d; cbn in Hp; first [solve [repeat (destruct Hp as [<-|Hp]; [destruct Gp; discriminate|]); destruct Hp]|split; [cbn; auto 10|intros x Hx; cbn in Hx; repeat (destruct Hx as [<-|Hx]; [reflexivity|]); destruct Hx]]|]). destruct Hc. }
    destruct K as [K Q]. split; [intros k (x & Hx & L); rewrite (Q x Hx) in L; discriminate|]. intros x Hx (y & Hy & L). destruct (Lk _ _ _ Hx Hy L) as [[E _]|[E _]]; rewrite E in K; cbn in K; intuition discriminate.
  - intros d x Hd G Hx Nx. cbn in Hd. repeat (destruct Hd as [<-|Hd]; [first [destruct G; discriminate|cbn in Hx; repeat (destruct Hx as [<-|Hx]; [first [discriminate Nx|idtac]|]); try destruct Hx]|]); [|destruct Hd].
    split; [reflexivity|]. exists (ND 9 (TEl ERadialGradient) "c" [at_ AR (len 5)]). split; [cbn; auto 12|]. split; [reflexivity|right; reflexivity].
  - intros s c x a Hs G Hc Hx Na Ha. cbn in Hs. repeat (destruct Hs as [<-|Hs]; [first [destruct G; discriminate|cbn in Hc; repeat (destruct Hc as [<-|Hc]; [cbn in Hx; repeat (destruct Hx as [<-|Hx]; [injection Na as <-; cbn; auto|]); destruct Hx|]); destruct Hc]|]). destruct Hs.
  - exists (fun k => k). intros d k Hd G F. cbn in Hd. repeat (destruct Hd as [<-|Hd]; [first [discriminate F|injection F as <-; cbn; lia]|]). destruct Hd.
  - exists (fun k => k). intros d x Hd Hx Td Tx (y & Hy & L). destruct (Lk _ _ _ Hd Hy L) as [[E _]|[E _]]; exfalso; cbn in Hx; repeat (destruct Hx as [<-|Hx]; [first [discriminate Tx|discriminate E]|]); destruct Hx.
Qed.
(** Stops with [currentColor] are equal whatever the [color] of their gradients is; the shared stops lose it. *)
Definition cc_stop (k : nat) : tree := el k EStop [at_ AOffset (VNum (zq 0)); at_ AStopColor (VPre Vid_currentColor)] [].
Definition blue : value := VColor 0 0 255.
Definition color_doc : tree := doc [el 1 ESvg [] [el 2 EDefs [] [
  eli 3 ELinearGradient "a" [at_ AColor (VColor 255 0 0)] [cc_stop 5]; eli 4 ELinearGradient "b" [at_ AColor blue] [cc_stop 6]]]].
Definition pass_out (r : option (result tree)) (t : tree) : tree := match r with Some (Ok t') => t' | _ => t end.
Theorem C42_color_refuted : exists t t' a d, regroup_gradient_stops t = Some (Ok t') /\ In (a, d) (ctx [] t) /\ tag d = TEl EStop /\ d_get d AStopColor = Some (VPre Vid_currentColor) /\ nearest AColor (d :: a) = Some blue /\
  forall a' d', In (a', d') (ctx [] t') -> tag d' = TEl EStop -> nearest AColor (d' :: a') = None.
Proof.
  exists color_doc, (pass_out (regroup_gradient_stops color_doc) color_doc), [ND 4 (TEl ELinearGradient) "b" [at_ AColor blue]; ND 2 (TEl EDefs) "" []; ND 1 (TEl ESvg) "" []; ND 0 TRoot "" []], (data (cc_stop 6)).
  split; [vm_compute; reflexivity|]. split; [cbn; auto 12|]. do 3 (split; [reflexivity|]). intros a' d' H Td.
  assert (X : forallb (fun p => negb (is_tag EStop (snd p)) || match nearest AColor (snd p :: fst p) with None => true | _ => false end) (ctx [] (pass_out (regroup_gradient_stops color_doc) color_doc)) = true) by (vm_compute; reflexivity).
  rewrite forallb_forall in X. specialize (X _ H). cbn [fst snd] in X. unfold is_tag in X. rewrite Td in X. cbn in X. cbn. destruct (d_get d' AColor); [discriminate|]. destruct (nearest AColor a'); [discriminate|reflexivity].
Qed.
Print Assumptions C42_regroup_partial.
