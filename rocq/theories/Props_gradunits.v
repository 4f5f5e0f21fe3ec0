(** C34: the removal of redundant gradientUnits keeps every gradient. *)
From Coq Require Import List Bool NArith Arith ZArith String Lia QArith Qcanon.
From Verif Require Import Names Num Value Dom DomFacts DomOps Outcome DomRemove Stops SpecDom SpecWritten Transforms VLoop Gradients SpecGradients UnusedCoords GradUnits SpecGradUnits GradUnitsProofs Props_coords TextProofs.
Import ListNotations.
Local Open Scope nat_scope.

(** On a document without cycles of gradients whose gradients refer to each other by xlink:href and carry
    the units in effect, the pass ends, changes nothing but gradientUnits of gradients, and in the saved
    document every attribute other than gradientUnits is in effect as before, for every gradient;
    gradientUnits too, for every gradient that is more than a template of other gradients. *)
Theorem C34_units_partial t : NoDup (keys t) -> WFA t -> href_acyclic t -> gradient_hrefs t -> hrefs_written t -> gradient_links t -> units_carried t ->
  exists t', remove_gradient_attributes t = Some (Ok t') /\ Forall2 units_only (flat t) (flat t') /\
    forall d d', In d (flat t) -> In d' (flat t') -> key d' = key d -> gradient_node d ->
      (forall a v, a <> AGradientUnits -> effective (written t) (vis d) a v -> effective (written t') (vis d') a v) /\
      (forall v, matters t d -> effective (written t) (vis d) AGradientUnits v -> effective (written t') (vis d') AGradientUnits v).
Proof.
  intros N A (rank & R) GH HW GL UC. assert (B : base rank t) by (split; auto). destruct (pass_all rank t B UC) as (g & E & S & UU). exists (tmap g t). split; [exact E|]. split.
  - rewrite flat_tmap. apply Forall2_map_self. apply Forall_forall. intros d Hd. destruct (S d Hd) as [(S1 & S2 & S3 & S4 & S5 & _) S6]. unfold units_only. auto.
  - intros d d' Hd Hd' K G. assert (S1 : forall d, In d (flat t) -> same_but d (g d)) by (intros x Hx; apply (S x Hx)). assert (d' = g d).
    { rewrite flat_tmap in Hd'. apply in_map_iff in Hd'. destruct Hd' as (x & <- & Hx). assert (x = d) by (apply (data_unique t); auto; destruct (S1 x Hx) as (Kx & _); congruence). now subst. }
    subst d'. split.
    + intros a v Na. apply effective_sb; auto.
    + intros v M H. assert (X : exists w, v = Some w) by (inversion H as [w H' E1|H' Na E1|w E1 H' X E2|w E1 H' X E2]; subst; try discriminate; cbn; eauto). destruct X as (w & ->). apply U_effective. apply UU; auto. now apply U_effective.
Qed.
(** What the resolving passes establish is enough. *)
Theorem C34_after_resolve t : resolved t -> (forall d v, In d (flat t) -> gradient_node d -> d_get d AGradientUnits = Some v -> In v [VPre Vid_objectBoundingBox; VPre Vid_userSpaceOnUse]) -> units_carried t.
Proof.
  intros R V d Hd G. assert (Ha : In AGradientUnits (gradient_attrs d)) by (unfold gradient_attrs; destruct G as [-> | ->]; cbn; auto). pose proof (R d AGradientUnits Hd G Ha) as H. split.
  - intros _. destruct (d_get d AGradientUnits) as [v|] eqn:E.
    + destruct (V d v Hd G E) as [<-|[<-|[]]]; cbn; auto.
    + inversion H as [w H' E1|H' Na E1|w E1 H' X E2|w E1 H' X E2]; subst; discriminate.
  - intros v E. rewrite E in H. exact H.
Qed.

(** Instance: [d] takes the units of its template [b]; [a] gets the units of [c]. *)
Definition hid (a : aid) (v : value) : attr := At (AN a) v false.
Definition bb := VPre Vid_objectBoundingBox.
Definition us := VPre Vid_userSpaceOnUse.
Definition units_doc (before : bool) : tree :=
  doc [el 1 ESvg []
    [eli 2 ELinearGradient "a" [hid AGradientUnits bb] [];
     eli 3 ELinearGradient "b" [at_ AXlinkHref (VLink 2); at_ AGradientUnits us] [];
     eli 4 ERadialGradient "c" [at_ AXlinkHref (VLink 2); At (AN AGradientUnits) bb before] [];
     eli 5 ELinearGradient "d" [at_ AXlinkHref (VLink 3); At (AN AGradientUnits) us before] [];
     el 6 ERect [at_ AFill (VFunc 5)] []]].
Definition u_a := ND 2 (TEl ELinearGradient) "a" [hid AGradientUnits bb].
Definition u_b := ND 3 (TEl ELinearGradient) "b" [at_ AXlinkHref (VLink 2); at_ AGradientUnits us].
Definition u_c := ND 4 (TEl ERadialGradient) "c" [at_ AXlinkHref (VLink 2); at_ AGradientUnits bb].
Definition u_d := ND 5 (TEl ELinearGradient) "d" [at_ AXlinkHref (VLink 3); at_ AGradientUnits us].
Lemma units_doc_gradient x : In x (flat (units_doc true)) -> gradient_node x -> x = u_a \/ x = u_b \/ x = u_c \/ x = u_d.
Proof. intros Hx G. cbn in Hx. repeat (destruct Hx as [<-|Hx]; [first [solve [auto]|exfalso; destruct G; discriminate]|]). destruct Hx. Qed.
Example C34_instance : let t := units_doc true in
  NoDup (keys t) /\ WFA t /\ href_acyclic t /\ gradient_hrefs t /\ hrefs_written t /\ gradient_links t /\ units_carried t /\
  remove_gradient_attributes t = Some (Ok (units_doc false)) /\ matters t u_d /\ units_doc false <> t.
Proof.
  cbv zeta. split; [cbn; repeat constructor; cbn; intuition discriminate|]. split; [unfold units_doc; wfa|].
  assert (Ia : In u_a (flat (units_doc true))) by (cbn; auto 10). assert (Ib : In u_b (flat (units_doc true))) by (cbn; auto 10).
  split; [exists (fun k => k); intros d k Hd G E; destruct (units_doc_gradient d Hd G) as [->|[->|[->| ->]]]; cbn in E; inversion E; subst; cbn; lia|].
  split; [|split; [|split; [|split; [|split; [|split]]]]].
  - intros d v Hd G E. destruct (units_doc_gradient d Hd G) as [->|[->|[->| ->]]]; cbn in E; inversion E; subst.
    + exists 2, u_a. split; [reflexivity|]. split; [exact Ia|]. split; [reflexivity|now left].
    + exists 2, u_a. split; [reflexivity|]. split; [exact Ia|]. split; [reflexivity|now left].
    + exists 3, u_b. split; [reflexivity|]. split; [exact Ib|]. split; [reflexivity|now left].
  - intros d x Hd G Hx En. destruct (units_doc_gradient d Hd G) as [->|[->|[->| ->]]]; cbn in Hx; intuition (subst; try reflexivity; discriminate).
  - intros d x k y Hd G Hx L _ _ _. destruct (units_doc_gradient d Hd G) as [->|[->|[->| ->]]]; cbn in Hx; intuition (subst; try reflexivity; discriminate).
  - intros d Hd G. split.
    + intros H. destruct (units_doc_gradient d Hd G) as [->|[->|[->| ->]]]; cbn; auto.
    + intros v E. destruct (units_doc_gradient d Hd G) as [->|[->|[->| ->]]]; cbn in E; inversion E; subst.
      * change (Some bb) with (gradient_default AGradientUnits). apply eff_default; [apply ah_end; reflexivity|cbn; intuition discriminate].
      * apply eff_found, ah_own. reflexivity.
      * apply eff_found, ah_own. reflexivity.
      * apply eff_found, ah_own. reflexivity.
  - vm_compute. reflexivity.
  - left. cbn. discriminate.
  - discriminate.
Qed.

(** A gradient that refers to another one by an attribute other than xlink:href (here fill) keeps the
    counter of the other one above 0: the loop does not end. *)
Definition hang_doc : tree :=
  doc [el 1 ESvg []
    [eli 2 ELinearGradient "a" [at_ AGradientUnits us] [];
     eli 3 ELinearGradient "b" [at_ AXlinkHref (VLink 2); at_ AGradientUnits us] [];
     eli 4 ELinearGradient "c" [at_ AFill (VFunc 3); at_ AGradientUnits us] []]].
Theorem C34_hang_refuted : WF hang_doc /\ WFA hang_doc /\ acyclic hang_doc /\ forall fuel, units_sequence fuel hang_doc (units_order hang_doc) = None.
Proof.
  split; [split; [cbn; repeat constructor; cbn; intuition discriminate|intros k Hk; cbn in Hk |- *; intuition (subst; auto 10)]|].
  split; [unfold hang_doc; wfa|]. split.
  - exists (fun k => k). intros d k Hd (x & Hx & L). cbn in Hd. repeat (destruct Hd as [<-|Hd]; [cbn in Hx; repeat (destruct Hx as [<-|Hx]; [cbn in L; inversion L; subst; cbn; lia|]); destruct Hx|]). destruct Hd.
  - change (units_order hang_doc) with [(3, 1)]. induction fuel as [|n IH]; [reflexivity|]. cbn [units_sequence]. change (units_round hang_doc [(3, 1)]) with [(3, 1)]. rewrite IH. reflexivity.
Qed.
Print Assumptions C34_units_partial. Print Assumptions C34_hang_refuted.
