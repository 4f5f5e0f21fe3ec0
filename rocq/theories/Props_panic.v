(** C44: when cleaning aborts. *)
From Coq Require Import List Bool NArith Arith ZArith String Lia QArith Qcanon.
From Verif Require Import Names Num Value Dom DomFacts Outcome Cli TasksSimple SpecDom Clean SpecClean Props_clean SpecWf SpecWritten WfAll Props_wf SpecPath SpecPanic PlainAll.
Import ListNotations.
Local Open Scope nat_scope.

(** Only the mandatory passes. *)
Definition bare : cleaning_options := Build_cleaning_options
  false false false false false false false false false false false false false false false false false false false false
  false false false false false false false false false false false false JoinNone 6 6 8 8.
Definition dupl_only : cleaning_options := Build_cleaning_options
  false false false false false true false false false false false false false false false false false false false false
  false false false false false false false false false false false false JoinNone 6 6 8 8.
(** The claim does not hold: there is a document with an svg element, whose links are in order, that is accepted by the
    checks, and the program aborts. *)
Definition aborts (o : cleaning_options) : Prop :=
  exists t, well_formed t /\ svg_element t <> None /\ preclean_checks t = Ok tt /\ clean_doc lib o t = Some Panic.
Ltac wfp := unfold WFA, doc, el, eli, at_; cbn [flat flat_map app]; repeat (apply Forall_cons || apply Forall_nil); unfold attrs_nodup; cbn; repeat constructor; cbn; intuition discriminate.
Ltac abort_by d := exists d; split; [apply well_formed_fine, fine_b_spec; [vm_compute; reflexivity|wfp]|]; split; [vm_compute; discriminate|]; split; vm_compute; reflexivity.
Definition stop3 (k : nat) (z : Z) : tree := el k EStop [at_ AOffset (px z); at_ AStopColor (VColor 0 0 (Z.to_N z))] [].

(** With every option off. The offset of a stop in millimetres: *)
Definition mm_stop : tree := doc [el 1 ESvg [] [eli 2 ELinearGradient "a" [] [el 3 EStop [at_ AOffset (VLen (Len (zq 5) UMm))] []]]].
Theorem C44_stop_unit_refuted : aborts bare.
Proof. abort_by mm_stop. Qed.
(** A linear and a radial gradient that refer to each other (the stack overflows): *)
Definition href_cycle : tree := doc [el 1 ESvg [] [eli 2 ELinearGradient "a" [at_ AXlinkHref (VLink 3)] []; eli 3 ERadialGradient "b" [at_ AXlinkHref (VLink 2)] []]].
Theorem C44_href_cycle_refuted : exists t, well_formed t /\ svg_element t <> None /\ preclean_checks t = Ok tt /\
  (forall d, In d (flat t) -> tag d <> TEl EStop) /\ clean_doc lib bare t = Some Panic.
Proof.
  exists href_cycle. split; [apply well_formed_fine, fine_b_spec; [vm_compute; reflexivity|wfp]|]. split; [vm_compute; discriminate|]. split; [vm_compute; reflexivity|]. split; [|vm_compute; reflexivity].
  intros d Hd. cbn in Hd. repeat (destruct Hd as [<-|Hd]; [discriminate|]). destruct Hd.
Qed.
(** A pattern that inherits a fill that is the pattern itself, without any gradient: *)
Definition self_paint : tree := doc [el 1 ESvg [] [el 2 EG [at_ AFill (VFunc 3)] [eli 3 EPattern "p" [at_ AFill (VPre Vid_inherit)] []]]].
Theorem C44_self_paint_refuted : exists t, well_formed t /\ svg_element t <> None /\ preclean_checks t = Ok tt /\
  (forall d, In d (flat t) -> ~ gradient_node d) /\ clean_doc lib bare t = Some Panic.
Proof.
  exists self_paint. split; [apply well_formed_fine, fine_b_spec; [vm_compute; reflexivity|wfp]|]. split; [vm_compute; discriminate|]. split; [vm_compute; reflexivity|]. split; [|vm_compute; reflexivity].
  intros d Hd. cbn in Hd. repeat (destruct Hd as [<-|Hd]; [intros [X|X]; discriminate|]). destruct Hd.
Qed.
(** With the options on: an svg element that is not displayed is removed, *)
Definition hidden_svg : tree := doc [el 1 ESvg [at_ ADisplay (VPre Vid_none)] []].
Theorem C44_hidden_svg_refuted : exists t, well_formed t /\ svg_element t <> None /\ preclean_checks t = Ok tt /\
  (forall d k, In d (flat t) -> ~ refers_to d k) /\ clean_doc lib all_on t = Some Panic.
Proof.
  exists hidden_svg. split; [apply well_formed_fine, fine_b_spec; [vm_compute; reflexivity|wfp]|]. split; [vm_compute; discriminate|]. split; [vm_compute; reflexivity|]. split; [|vm_compute; reflexivity].
  intros d k Hd (x & Hx & L). cbn in Hd. repeat (destruct Hd as [<-|Hd]; [cbn in Hx; repeat (destruct Hx as [<-|Hx]; [discriminate|]); destruct Hx|]). destruct Hd.
Qed.
(** a transform on an element of another language, *)
Definition foreign_transform : tree := doc [el 1 ESvg [] [T (ND 2 (TOtherEl "sodipodi:x") "" [at_ ATransform (VTransform t_id)]) []]].
Theorem C44_foreign_transform_refuted : exists t, well_formed t /\ svg_element t <> None /\ preclean_checks t = Ok tt /\
  (forall d, In d (flat t) -> d_has d ADisplay = false) /\ clean_doc lib all_on t = Some Panic.
Proof.
  exists foreign_transform. split; [apply well_formed_fine, fine_b_spec; [vm_compute; reflexivity|wfp]|]. split; [vm_compute; discriminate|]. split; [vm_compute; reflexivity|]. split; [|vm_compute; reflexivity].
  intros d Hd. cbn in Hd. repeat (destruct Hd as [<-|Hd]; [reflexivity|]). destruct Hd.
Qed.
(** a comment in a rotated group (the group is ungrouped, and the comment gets the transform), *)
Definition comment_group : tree := doc [el 1 ESvg [] [el 2 EG [at_ ATransform (VTransform (Tr 0%Qc (zq 1) (zq (-1)) 0%Qc 0%Qc 0%Qc))] [T (ND 3 (TComment "note") "" []) []]]].
Theorem C44_comment_refuted : exists t, well_formed t /\ svg_element t <> None /\ preclean_checks t = Ok tt /\
  (forall d, In d (flat t) -> d_has d ATransform = true -> tag d = TEl EG) /\ clean_doc lib all_on t = Some Panic.
Proof.
  exists comment_group. split; [apply well_formed_fine, fine_b_spec; [vm_compute; reflexivity|wfp]|]. split; [vm_compute; discriminate|]. split; [vm_compute; reflexivity|]. split; [|vm_compute; reflexivity].
  intros d Hd. cbn in Hd. repeat (destruct Hd as [<-|Hd]; [try reflexivity; discriminate|]). destruct Hd.
Qed.
(** a gradient without an id that is equal to a gradient that is used, *)
Definition nameless_gradient : tree := doc [el 1 ESvg [] [el 2 ELinearGradient [] [stop3 3 0; stop3 4 1]; eli 5 ELinearGradient "a" [] [stop3 6 0; stop3 7 1]; eli 8 ERect "r" [at_ AFill (VFunc 5)] []]].
Theorem C44_nameless_duplicate_refuted : aborts dupl_only.
Proof. abort_by nameless_gradient. Qed.
(** two gradients of which one refers to the other, after the removal of a duplicate. *)
Definition crosslink : tree := doc [el 1 ESvg [] [eli 2 ELinearGradient "a" [at_ AXlinkHref (VLink 5)] [stop3 3 0; stop3 4 1]; eli 5 ELinearGradient "b" [at_ AX1 (px 1); at_ AXlinkHref (VLink 6)] []; eli 6 ELinearGradient "c" [at_ AX1 (px 1)] [stop3 7 0; stop3 8 1]; el 9 ERect [at_ AFill (VFunc 2)] []]].
Theorem C44_crosslink_refuted : exists t, well_formed t /\ svg_element t <> None /\ preclean_checks t = Ok tt /\
  (forall d, In d (flat t) -> gradient_node d -> nid d <> EmptyString) /\ clean_doc lib all_on t = Some Panic.
Proof.
  exists crosslink. split; [apply well_formed_fine, fine_b_spec; [vm_compute; reflexivity|wfp]|]. split; [vm_compute; discriminate|]. split; [vm_compute; reflexivity|]. split; [|vm_compute; reflexivity].
  intros d Hd G. cbn in Hd. repeat (destruct Hd as [<-|Hd]; [try discriminate; destruct G as [G|G]; discriminate|]). destruct Hd.
Qed.
(** C44, for documents without references: cleaning ends, with a document or with an error message, whatever the options. *)
Theorem C44_plain_partial x o t : well_formed t -> plain_document t ->
  exists r, clean_doc x o t = Some r /\ r <> Panic.
Proof.
  rewrite well_formed_fine. intros F P. destruct (plain_safe x o t F P) as [A B]. destruct (clean_doc x o t) as [r|]; [|congruence]. exists r. split; [reflexivity|congruence].
Qed.
(** Nested groups with a transform and an opacity, a polygon, a path, shapes that are not visible, a text. *)
Definition plain_doc : tree := doc [el 1 ESvg [] [
  el 2 ETitle [] [];
  el 3 EG [at_ ATransform (VTransform (Tr (zq 2) 0%Qc 0%Qc (zq 2) (zq 1) (zq 1))); at_ AFill (VColor 1 2 3)] [
    el 4 EG [at_ AOpacity (VNum (zq 1))] [el 5 EPolygon [at_ APoints (VNumList [zq 1; zq 2; zq 3; zq 5])] []];
    eli 6 EPath "p" [at_ AD (VPath [Seg true (MoveTo (zq 1) (zq 1)); Seg false (LineTo (zq 3) (zq 4))])] []];
  el 7 ERect [at_ AWidth (px 0); at_ AHeight (px 3)] [];
  el 8 EText [at_ AX (px 2)] [T (ND 9 (TText "note") "" []) []]]].
Ltac all_nodes H := cbn in H; repeat (destruct H as [<-|H]); [..|destruct H].
Example C44_instance : well_formed plain_doc /\ plain_document plain_doc /\
  exists t, clean_doc lib all_on plain_doc = Some (Ok t) /\ flat t <> flat plain_doc.
Proof.
  split; [apply well_formed_fine, fine_b_spec; [vm_compute; reflexivity|wfp]|]. split.
  - split.
    + intros d Hd. all_nodes Hd; (split; [intros k (y & Hy & Ey); all_nodes Hy; discriminate| |cbn; intuition discriminate|cbn; eauto; discriminate]);
      intros y Hy; all_nodes Hy; cbn; try exact I; try (eexists; reflexivity); eexists; (split; [reflexivity|]); cbn; eauto; split; [discriminate|reflexivity].
    + intros s c Hs T Hc. all_nodes Hs; try discriminate T; all_nodes Hc; cbn; eauto.
    + eexists. split; reflexivity.
    + intros d Hd T. all_nodes Hd; try discriminate T.
    + vm_compute. reflexivity.
  - eexists. split; [vm_compute; reflexivity|]. vm_compute. discriminate.
Qed.
Print Assumptions C44_plain_partial.
