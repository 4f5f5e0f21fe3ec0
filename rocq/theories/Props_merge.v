(** C23: inlining a gradient into its only user. *)
From Coq Require Import List Bool NArith Arith ZArith String Lia Permutation QArith Qcanon.
From Verif Require Import Names Num Value Dom DomFacts DomOps DomRemove Outcome APass SpecDom SpecText GradUnits SpecGradients SpecWritten SpecGradUnits SpecStyle GradProofs GradTransProofs GradUnitsProofs SpecDupl DuplProofs Graft MergeGradients SpecMerge MergeProofs MergeEnd Props_coords.
Import ListNotations.
Local Open Scope string_scope.
Local Open Scope nat_scope.

Lemma merge_more : forall n m t t', merge_gradients n t = Some t' -> n <= m -> merge_gradients m t = Some t'.
Proof.
  induction n as [|n IH]; intros m t t' H L; [discriminate|]. destruct m as [|m]; [lia|]. cbn in *. destruct (merge_round t) as [t1 [|k ks]]; [exact H|]. apply IH; [exact H|lia].
Qed.
Lemma gsubs_count t : List.length (gsubs t) <= List.length (flat t).
Proof.
  assert (W : forall l : list tree, List.length l <= List.length (flat_map flat l)) by (induction l as [|s l IH]; cbn; [lia|]; rewrite app_length; destruct s; cbn; lia).
  pose proof (Permutation_length (flat_parts t [])) as P. rewrite app_length in P. specialize (W (gsubs t)). lia.
Qed.
(** C23: the pass terminates; only gradients that are referenced exactly once, by xlink:href of another
    gradient, are removed; every gradient that is left has the same values and stops in effect in the saved
    document; attributes keep their values; elements other than gradients and their stops are untouched.
    Partial: [mready] documents; see the refutations for two of its conditions. *)
Theorem C23_merge_partial t : mready t ->
  exists t', (forall n, List.length (flat t) < n -> merge_gradients n t = Some t') /\ mready t' /\ merges_grads t t'.
Proof.
  intros M. destruct (merge_ends (S (List.length (gsubs t))) t M) as (t' & E & M' & R); [lia|]. exists t'. split; [|split; [exact M'|now apply rel_merges]].
  intros n L. apply (merge_more _ _ _ _ E). pose proof (gsubs_count t). lia.
Qed.
(** What the removal of duplicates leaves is such a document, if there are no references inside gradients. *)
Theorem C23_ready t : ready t -> ~ gradient_node (data t) -> (forall a d p k, In (a, d) (ctx [] t) -> In p a -> gradient_node p -> ~ refers_to d k) -> mready t.
Proof.
  intros R Rt Q. constructor; [exact (r_wf _ R)|exact (r_wfa _ R)|exact Rt|exact (r_nest _ R)| | | |].
  - intros a d p H Hp G. split; [intros k; exact (Q a d p k H Hp G)|]. intros x Hx. exact (r_noref _ R a d p x H Hp G Hx).
  - intros d x k Hd G Hx L. destruct (r_link _ R d x k Hd Hx L) as (a & Na & _ & _ & Ga). rewrite Na. now rewrite (Ga G).
  - intros d x Hd G Hx Nx. assert (E : d_get d AXlinkHref = Some (a_val x)) by (unfold d_get, get_value; rewrite (get_attr_in _ x) by (try exact Hx; try exact Nx; exact (proj1 (Forall_forall _ _) (r_wfa _ R) d Hd)); reflexivity).
    destruct (r_hrefs _ R d _ Hd G E) as (y & Hy & Ey & Ty). split; [|exists y; auto]. destruct (r_link _ R d x (key y) Hd Hx) as (_ & _ & _ & V & _); [rewrite Ey; reflexivity|exact V].
  - intros d a v Hd G Ha A. destruct (r_resolved _ R d a Hd G Ha) as (w & E & S). assert (X : w = Some v); [|now rewrite <- X].
    symmetry. apply (effective_fun (written t) (vis d)) with (a := a); [unfold written; rewrite keys_tmap; [exact (wf_keys _ (r_wf _ R))|reflexivity]| |exact E]. now apply eff_found.
Qed.
Definition hid (a : aid) (v : value) : attr := At (AN a) v false.
Definition stop_ (k : nat) : tree := el k EStop [at_ AOffset (VNum (zq 0))] [].
Definition len (z : Z) : value := VLen (Len (zq z) UNone).
(** A gradient that takes its stops and x1 from another one. *)
Definition pair_doc : tree := doc [el 1 ESvg [] [el 2 EDefs [] [
  eli 3 ELinearGradient "a" [at_ AX1 (len 7); at_ AY1 (len 5)] [stop_ 5];
  eli 4 ELinearGradient "b" [at_ AXlinkHref (VLink 3); hid AX1 (len 7); at_ AY1 (len 1)] []]; el 6 ERect [at_ AFill (VFunc 4)] []]].
Definition merged_doc : tree := doc [el 1 ESvg [] [el 2 EDefs [] [
  eli 4 ELinearGradient "b" [at_ AX1 (len 7); at_ AY1 (len 1)] [stop_ 5]]; el 6 ERect [at_ AFill (VFunc 4)] []]].
Example C23_instance : mready pair_doc /\ merge_gradients 7 pair_doc = Some merged_doc.
Proof.
  split; [|vm_compute; reflexivity]. assert (WFp : WF pair_doc). { split; [cbn; repeat constructor; cbn; intuition discriminate|]. intros k Hk. cbn in *. intuition. }
  assert (Lk : forall d x k, In d (flat pair_doc) -> In x (attrs d) -> link_of (a_val x) = Some k -> (k = 3 /\ key d = 4 /\ x = at_ AXlinkHref (VLink 3)) \/ (k = 4 /\ key d = 6 /\ x = at_ AFill (VFunc 4))).
  { intros d x k Hd Hx L. cbn in Hd. repeat (destruct Hd as [<-|Hd]; [cbn in Hx; repeat (destruct Hx as [<-|Hx]; [first [discriminate L|injection L as <-; auto]|]); destruct Hx|]). destruct Hd. }
  constructor; [exact WFp|wfa| | | | | |].
  - intros [H|H]; discriminate.
  - intros a d p Hc Hp Gp G. cbn in Hc. repeat (destruct Hc as [Hc|Hc]; [inversion Hc; subst a d; first [destruct G; discriminate|cbn in Hp; repeat (destruct Hp as [<-|Hp]; [destruct Gp; discriminate|]); destruct Hp]|]). destruct Hc.
  - intros a d p Hc Hp Gp. cbn in Hc. repeat (destruct Hc as [Hc|Hc]; [inversion Hc; subst a d; cbn in Hp; repeat (destruct Hp as [<-|Hp]; [first [destruct Gp; discriminate|idtac]|]); try destruct Hp|]); [|destruct Hc]. split.
    + intros k (x & [<-|[]] & L). discriminate.
    + intros x Hx (y & Hy & L). destruct (Lk _ _ _ Hx Hy L) as [[E _]|[E _]]; discriminate.
  - intros d x k Hd G Hx L. destruct (Lk _ _ _ Hd Hx L) as [(_ & _ & ->)|(_ & E & _)]; [reflexivity|]. assert (X : d = ND 6 (TEl ERect) "" [at_ AFill (VFunc 4)]) by (apply (data_unique pair_doc); [apply WFp|exact Hd|cbn; auto 10|exact E]). subst d. destruct G; discriminate.
  - intros d x Hd G Hx Nx. cbn in Hd. repeat (destruct Hd as [<-|Hd]; [first [destruct G; discriminate|cbn in Hx; repeat (destruct Hx as [<-|Hx]; [first [discriminate Nx|idtac]|]); try destruct Hx]|]); [|destruct Hd].
    split; [reflexivity|]. exists (ND 3 (TEl ELinearGradient) "a" [at_ AX1 (len 7); at_ AY1 (len 5)]). cbn. auto 10.
  - intros d a v Hd G Ha A. assert (D : d = ND 3 (TEl ELinearGradient) "a" [at_ AX1 (len 7); at_ AY1 (len 5)] \/ d = ND 4 (TEl ELinearGradient) "b" [at_ AXlinkHref (VLink 3); hid AX1 (len 7); at_ AY1 (len 1)]).
    { cbn in Hd. repeat (destruct Hd as [<-|Hd]; [first [destruct G; discriminate|auto]|]). destruct Hd. }
    assert (A3 : forall o, along_href (written pair_doc) a (vis (ND 3 (TEl ELinearGradient) "a" [at_ AX1 (len 7); at_ AY1 (len 5)])) o -> o = d_get (ND 3 (TEl ELinearGradient) "a" [at_ AX1 (len 7); at_ AY1 (len 5)]) a).
    { intros o H. inversion H as [? w E|? E F|? k x ? E F]; subst; [symmetry; exact E|symmetry; exact E|discriminate]. }
    destruct D as [-> | ->]; [left; exact (A3 _ A)|]. left. inversion A as [? w E|? E F|? k x ? E F Hx Kx B]; subst.
    + cbn in Ha. repeat (destruct Ha as [<-|Ha]; [first [discriminate E|exact (eq_sym E)]|]). destruct Ha.
    + injection F as Fk. assert (X : x = vis (ND 3 (TEl ELinearGradient) "a" [at_ AX1 (len 7); at_ AY1 (len 5)])) by (apply (data_unique (written pair_doc)); [unfold written; rewrite keys_tmap; [apply WFp|reflexivity]|exact Hx|cbn; auto 10|cbn; congruence]).
      subst x. apply A3 in B. rewrite B. cbn in Ha. repeat (destruct Ha as [<-|Ha]; [first [discriminate E|discriminate B|reflexivity]|]). destruct Ha.
Qed.
(** Mixed kinds: the linear gradient in the middle does not take cx, which the radial one had from it. *)
Definition mixed_doc : tree := doc [el 1 ESvg [] [el 2 EDefs [] [
  eli 3 ERadialGradient "a" [at_ ACx (len 7)] [stop_ 5];
  eli 4 ELinearGradient "b" [at_ AXlinkHref (VLink 3)] [];
  eli 7 ERadialGradient "c" [at_ AXlinkHref (VLink 4); hid ACx (len 7)] []]; el 6 ERect [at_ AFill (VFunc 7)] []]].
Definition mixed_out : tree := doc [el 1 ESvg [] [el 2 EDefs [] [
  eli 7 ERadialGradient "c" [hid ACx (len 7)] [stop_ 5]]; el 6 ERect [at_ AFill (VFunc 7)] []]].
Definition rad7 : ndata := ND 7 (TEl ERadialGradient) "c" [at_ AXlinkHref (VLink 4); hid ACx (len 7)].
Definition rad7' : ndata := ND 7 (TEl ERadialGradient) "c" [hid ACx (len 7)].
Theorem C23_mixed_refuted : exists t t' d d', merge_gradients 9 t = Some t' /\ In d (flat t) /\ In d' (flat t') /\ key d = 7 /\ key d' = 7 /\ tag d = TEl ERadialGradient /\ gradient_hrefs t /\
  effective (written t) (vis d) ACx (Some (len 7)) /\ effective (written t') (vis d') ACx (Some (VLen (Len (zq 50) UPercent))) /\ len 7 <> VLen (Len (zq 50) UPercent).
Proof.
  exists mixed_doc, mixed_out, rad7, rad7'. split; [vm_compute; reflexivity|]. split; [cbn; auto 10|]. split; [cbn; auto 10|]. do 3 (split; [reflexivity|]). split; [|split; [|split; [|discriminate]]].
  - intros d v Hd G E. cbn in Hd. repeat (destruct Hd as [<-|Hd]; [first [destruct G; discriminate|discriminate E|idtac]|]); [| |destruct Hd]; injection E as <-.
    + exists 3, (ND 3 (TEl ERadialGradient) "a" [at_ ACx (len 7)]). split; [reflexivity|]. split; [cbn; auto 10|]. split; [reflexivity|right; reflexivity].
    + exists 4, (ND 4 (TEl ELinearGradient) "b" [at_ AXlinkHref (VLink 3)]). split; [reflexivity|]. split; [cbn; auto 10|]. split; [reflexivity|left; reflexivity].
  - apply eff_found. apply ah_next with (k := 4) (x := vis (ND 4 (TEl ELinearGradient) "b" [at_ AXlinkHref (VLink 3)])); [reflexivity|reflexivity|apply in_w; cbn; auto 10|reflexivity|].
    apply ah_next with (k := 3) (x := vis (ND 3 (TEl ERadialGradient) "a" [at_ ACx (len 7)])); [reflexivity|reflexivity|apply in_w; cbn; auto 10|reflexivity|]. apply ah_own. reflexivity.
  - apply (eff_default (written mixed_out) (vis rad7') ACx); [|cbn; intuition discriminate]. apply ah_end; reflexivity.
Qed.
(** The kind of the target is not checked: a painted rect that a gradient refers to is removed. *)
Definition target_doc : tree := doc [el 1 ESvg [] [el 2 EDefs [] [eli 4 ELinearGradient "b" [at_ AXlinkHref (VLink 6)] [stop_ 5]]; eli 6 ERect "r" [at_ AWidth (len 9); at_ AHeight (len 9)] []]].
Theorem C23_target_refuted : exists t t' d, merge_gradients 7 t = Some t' /\ WF t /\ WFA t /\ In d (flat t) /\ tag d = TEl ERect /\ ~ In (key d) (keys t').
Proof.
  exists target_doc, (doc [el 1 ESvg [] [el 2 EDefs [] [eli 4 ELinearGradient "b" [] [stop_ 5]]]]), (ND 6 (TEl ERect) "r" [at_ AWidth (len 9); at_ AHeight (len 9)]).
  split; [vm_compute; reflexivity|]. split; [split; [cbn; repeat constructor; cbn; intuition discriminate|intros k Hk; cbn in *; intuition]|]. split; [wfa|]. split; [cbn; auto 10|]. split; [reflexivity|]. cbn. intuition discriminate.
Qed.
(** The stops move to a gradient with another [color], which [currentColor] refers to. *)
Definition color_pair : tree := doc [el 1 ESvg [] [el 2 EDefs [] [
  eli 3 ELinearGradient "a" [at_ AColor (VColor 255 0 0)] [el 5 EStop [at_ AOffset (VNum (zq 0)); at_ AStopColor (VPre Vid_currentColor)] []];
  eli 4 ELinearGradient "b" [at_ AXlinkHref (VLink 3); at_ AColor (VColor 0 0 255)] []]; el 6 ERect [at_ AFill (VFunc 4)] []]].
Definition color_stop : ndata := ND 5 (TEl EStop) "" [at_ AOffset (VNum (zq 0)); at_ AStopColor (VPre Vid_currentColor)].
Theorem C23_color_refuted : exists t t' a a', merge_gradients 7 t = Some t' /\ In (a, color_stop) (ctx [] t) /\ In (a', color_stop) (ctx [] t') /\ d_get color_stop AStopColor = Some (VPre Vid_currentColor) /\
  nearest AColor (color_stop :: a) = Some (VColor 255 0 0) /\ nearest AColor (color_stop :: a') = Some (VColor 0 0 255).
Proof.
  exists color_pair, (doc [el 1 ESvg [] [el 2 EDefs [] [eli 4 ELinearGradient "b" [at_ AColor (VColor 0 0 255)] [T color_stop []]]; el 6 ERect [at_ AFill (VFunc 4)] []]]),
    [ND 3 (TEl ELinearGradient) "a" [at_ AColor (VColor 255 0 0)]; ND 2 (TEl EDefs) "" []; ND 1 (TEl ESvg) "" []; ND 0 TRoot "" []],
    [ND 4 (TEl ELinearGradient) "b" [at_ AColor (VColor 0 0 255)]; ND 2 (TEl EDefs) "" []; ND 1 (TEl ESvg) "" []; ND 0 TRoot "" []].
  split; [vm_compute; reflexivity|]. split; [cbn; auto 12|]. split; [cbn; auto 12|]. repeat split.
Qed.
Print Assumptions C23_merge_partial.
