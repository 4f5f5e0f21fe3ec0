(** Property C24: applying gradientTransform to the vector of a gradient. Specification: SpecTransforms.v
    (positions, sizes, uniform) and SpecWritten.v (the saved document, same_gradient). *)
From Coq Require Import List Bool NArith Arith ZArith String Lia QArith Qcanon.
From Verif Require Import Names Num Value Dom DomFacts DomOps Outcome DomRemove Stops SpecStops AttrFacts StopsProofs Shapes SpecShapes NPass SpecDom Transforms SpecStyle SpecTransforms TransformsProofs.
From Verif Require Import Props_shapes Props_transforms VLoop Gradients SpecGradients GradProofs SpecWritten GradTransProofs.
Import ListNotations.
Local Open Scope nat_scope.

Lemma skeleton_tmap g t : (forall d, In d (flat t) -> key (g d) = key d) -> skeleton (tmap g t) = skeleton t.
Proof. intros H. unfold skeleton. rewrite tmap_tmap. apply tmap_ext. intros d Hd. now rewrite H. Qed.
Lemma Forall2_map_r {A} (P : A -> A -> Prop) (g : A -> A) l : (forall x, In x l -> P x (g x)) -> Forall2 P l (map g l).
Proof. induction l as [|x l IH]; intros H; cbn; constructor; [apply H; now left|]. apply IH. intros y Hy. apply H. now right. Qed.

(** C24. A gradient with a uniform transform, plain coordinates, no gradient that refers to it and no
    transform in the gradient it refers to: its transform is removed, its points and its radius are
    mapped by it, and nothing else changes. Every other node of the document is unchanged. *)
Theorem C24_apply : forall t, WF t -> WFA t -> complete_gradients t ->
  exists t', apply_transform_to_gradients t = Ok t' /\ skeleton t' = skeleton t /\
    Forall2 (fun d d' => (forall k e f, gradient_applicable t d k e f -> gradient_applied k e f d d') /\
                         ((forall k e f, ~ gradient_applicable t d k e f) -> d' = d)) (flat t) (flat t').
Proof.
  intros t W A C. exists (tmap (grad_change t) t). split; [now apply gradients_pass|]. split.
  { apply skeleton_tmap. intros d _. apply grad_change_key, W. }
  rewrite flat_tmap. apply Forall2_map_r. intros d Hd. destruct (change_cases t W A C d Hd) as (_ & _ & [(k & e & f & Ap & Ad & _)|[N E]]).
  - split; [|intros X; exfalso; exact (X _ _ _ Ap)]. intros k' e' f' Ap'. destruct Ap as (_ & (_ & U) & _), Ap' as (_ & (_ & U') & _). rewrite U in U'.
    assert (E1 : k' = k /\ e' = e /\ f' = f) by (split; [|split]; congruence). destruct E1 as (-> & -> & ->). exact Ad.
  - split; [|auto]. intros k e f Ap. exfalso. exact (N _ _ _ Ap).
Qed.
Print Assumptions C24_apply.

(** The radius of a gradient whose transform scales is written, not taken from xlink:href. *)
Definition written_radii (t : tree) : Prop := forall d, In d (flat t) -> tag d = TEl ERadialGradient -> radius_written d.
(** C24, what is painted. In the saved document every gradient has the same values in effect, or its
    transform has been applied to them. Missing: radial gradients that take r over xlink:href and scale
    (see [C24_hidden_radius_refuted]). *)
Theorem C24_same_gradient_partial : forall t, WF t -> WFA t -> complete_gradients t -> resolved t -> gradient_hrefs t -> written_radii t ->
  exists t', apply_transform_to_gradients t = Ok t' /\
    Forall2 (fun d d' => gradient_node d -> same_gradient (written t) (vis d) (written t') (vis d')) (flat t) (flat t').
Proof.
  intros t W A C R GH WR. exists (tmap (grad_change t) t). split; [now apply gradients_pass|].
  rewrite flat_tmap. apply Forall2_map_r. intros d Hd G. destruct (change_cases t W A C d Hd) as (_ & _ & [(k & e & f & Ap & Ad & Eq)|[_ E]]).
  - right. eapply changed_paint; eauto.
  - left. intros a v Ha Hv. rewrite E. eapply effective_unchanged; eauto.
Qed.
Print Assumptions C24_same_gradient_partial.

(** Instance: a linear gradient that refers to another one; its transform is applied. *)
Definition scale2 : value := VTransform (Tr (zq 2) q0 q0 (zq 2) (zq 1) (zq 3)).
Definition hid (a : aid) (v : value) : attr := At (AN a) v false.
Definition ends_l (f : aid -> value -> attr) (a b c d : Z) : list attr := [f AX1 (px a); f AY1 (px b); f AX2 (px c); f AY2 (px d)].
Definition common_h : list attr := [hid AGradientUnits (VPre Vid_objectBoundingBox); hid ASpreadMethod (VPre Vid_pad)].
Definition grad_doc : tree :=
  doc [el 1 ESvg []
    [eli 2 ELinearGradient "a" (ends_l at_ 1 2 3 4 ++ common_h) [];
     eli 3 ELinearGradient "b" (at_ AXlinkHref (VLink 2) :: ends_l hid 1 2 3 4 ++ common_h ++ [at_ AGradientTransform scale2]) []]].
Example C24_instance :
  (WF grad_doc /\ WFA grad_doc /\ complete_gradients grad_doc /\ gradient_hrefs grad_doc /\ written_radii grad_doc) /\
  resolved grad_doc /\ (exists d, In d (flat grad_doc) /\ gradient_applicable grad_doc d (zq 2) (zq 1) (zq 3)) /\
  match apply_transform_to_gradients grad_doc with
  | Ok t' => map (fun d => (d_get d AX1, d_get d AY2, d_has d AGradientTransform)) (flat t')
  | _ => [] end = [(None, None, false); (None, None, false); (Some (px 1), Some (px 4), false); (Some (px 3), Some (px 11), false)].
Proof.
  split; [|split; [|split]].
  - split; [|split; [|split; [|split]]].
    + split; [vm_compute; repeat constructor; cbn; intuition discriminate|]. intros k Hk. vm_compute in Hk. vm_compute. intuition.
    + repeat (constructor; [unfold attrs_nodup; vm_compute; repeat constructor; cbn; intuition discriminate|]). constructor.
    + intros d Hd G. cbn in Hd. repeat (destruct Hd as [<-|Hd]; [try (destruct G as [G|G]; discriminate)|]); [| |contradiction].
      all: split; [intros ax ay Hp; cbn in Hp; repeat (destruct Hp as [E|Hp]; [injection E as <- <-; split; eexists; reflexivity|]); contradiction|].
      all: split; [intros a []|]; split; [intros v Hv; cbn in Hv; try discriminate; injection Hv as <-; eexists; reflexivity|].
      all: intros x Hx E; cbn in Hx; repeat (destruct Hx as [<-|Hx]; [cbn in E; try discriminate; reflexivity|]); contradiction.
    + intros d v Hd G Hv. cbn in Hd. repeat (destruct Hd as [<-|Hd]; [try (destruct G as [G|G]; discriminate)|]); [|contradiction]. change (Some (VLink 2) = Some v) in Hv.
      injection Hv as <-. eexists. eexists. split; [reflexivity|]. split; [cbn; right; right; left; reflexivity|]. split; [reflexivity|]. left. reflexivity.
    + intros d Hd T. cbn in Hd. repeat (destruct Hd as [<-|Hd]; [discriminate|]). contradiction.
  - intros d a Hd G Ha. cbn in Hd. repeat (destruct Hd as [<-|Hd]; [try (destruct G as [G|G]; discriminate)|]); [| |contradiction].
    + cbn in Ha. destruct Ha as [<-|[<-|[<-|[<-|[<-|[<-|[<-|[]]]]]]]]; try (apply eff_found, ah_own; reflexivity).
      all: refine (eff_default _ _ _ _ _); [apply ah_end; reflexivity|cbn; intuition discriminate].
    + cbn in Ha. destruct Ha as [<-|[<-|[<-|[<-|[<-|[<-|[<-|[]]]]]]]]; try (apply eff_found, ah_own; reflexivity).
      1,2: refine (eff_default _ _ _ _ _); [|cbn; intuition discriminate]; eapply ah_next; [reflexivity|reflexivity|cbn; right; right; left; reflexivity|reflexivity|apply ah_end; reflexivity].
      all: apply eff_found; eapply ah_next; [reflexivity|reflexivity|cbn; right; right; left; reflexivity|reflexivity|apply ah_own; reflexivity].
  - eexists. split; [cbn; right; right; right; left; reflexivity|]. split; [left; reflexivity|]. split; [split; [reflexivity|reflexivity]|]. split; [|split].
    + intros (x & Hx & G & (a & Ha & L)). cbn in Hx. repeat (destruct Hx as [<-|Hx]; [cbn in Ha; repeat (destruct Ha as [<-|Ha]; [cbn in L; discriminate|]); contradiction|]). contradiction.
    + intros (k & x & E & Hx & Kx & H). cbn in E. injection E as <-. cbn in Hx. repeat (destruct Hx as [<-|Hx]; [cbn in Kx; try discriminate; cbn in H; discriminate|]). contradiction.
    + split; [|intros a []]. intros ax ay Hp. cbn in Hp. repeat (destruct Hp as [E|Hp]; [injection E as <- <-; split; eexists; reflexivity|]). contradiction.
  - vm_compute. reflexivity.
Qed.

(** A radial gradient that takes its radius over xlink:href: the scaled radius stays hidden, so that the
    saved gradient has the radius 5 instead of 10, and the transform is gone. *)
Definition radius_doc : tree :=
  doc [el 1 ESvg []
    [eli 2 ERadialGradient "b" [at_ ACx (px 1); at_ ACy (px 1); at_ AFx (px 1); at_ AFy (px 1); at_ AR (px 5)] [];
     eli 3 ERadialGradient "a" [at_ AXlinkHref (VLink 2); at_ AGradientTransform (VTransform (Tr (zq 2) q0 q0 (zq 2) q0 q0))] []]].
Theorem C24_hidden_radius_refuted : exists t t' d d', WF t /\
  match resolve_radial_gradient_attributes t with Some (Ok t1) => apply_transform_to_gradients t1 | _ => Panic end = Ok t' /\
  In d (flat t) /\ In d' (flat t') /\ key d' = key d /\ tag d = TEl ERadialGradient /\ effective t d AR (Some (px 5)) /\
  effective t d AGradientTransform (Some (VTransform (Tr (zq 2) q0 q0 (zq 2) q0 q0))) /\
  effective (written t') (vis d') AR (Some (px 5)) /\ effective (written t') (vis d') AGradientTransform None.
Proof.
  destruct (match resolve_radial_gradient_attributes radius_doc with Some (Ok t1) => apply_transform_to_gradients t1 | _ => Panic end) as [t'|e|] eqn:E;
    try (vm_compute in E; discriminate).
  exists radius_doc, t'. assert (E' := E). vm_compute in E'. injection E' as E'.
  destruct (find_data 3 radius_doc) as [d|] eqn:Ed; [|vm_compute in Ed; discriminate]. destruct (find_data 3 t') as [d'|] eqn:Ed'; [|subst t'; vm_compute in Ed'; discriminate].
  exists d, d'. split; [|split; [exact E|]].
  { split; [vm_compute; repeat constructor; cbn; intuition discriminate|]. intros k Hk. vm_compute in Hk. vm_compute. intuition. }
  pose proof (find_data_some _ _ _ Ed) as [Hd Kd]. pose proof (find_data_some _ _ _ Ed') as [Hd' Kd'].
  split; [exact Hd|]. split; [exact Hd'|]. split; [congruence|]. vm_compute in Ed. injection Ed as <-. split; [reflexivity|]. split; [|split; [|split]].
  - apply eff_found. eapply ah_next; [reflexivity|reflexivity|cbn; right; right; left; reflexivity|reflexivity|apply ah_own; reflexivity].
  - apply eff_found, ah_own. reflexivity.
  - subst t'. vm_compute in Ed'. injection Ed' as <-. apply eff_found.
    eapply ah_next; [reflexivity|reflexivity|cbn; right; right; left; reflexivity|reflexivity|apply ah_own; vm_compute; reflexivity].
  - subst t'. vm_compute in Ed'. injection Ed' as <-. refine (eff_default _ _ _ _ _); [|cbn; intuition discriminate].
    eapply ah_next; [reflexivity|reflexivity|cbn; right; right; left; reflexivity|reflexivity|apply ah_end; vm_compute; reflexivity].
Qed.
Print Assumptions C24_hidden_radius_refuted.
