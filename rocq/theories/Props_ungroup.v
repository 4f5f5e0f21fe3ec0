(** C26: groups are replaced with their children. *)
From Coq Require Import List Bool NArith Arith ZArith String Lia QArith Qcanon.
From Verif Require Import Names Num Value Dom DomFacts DomOps Outcome SpecDom SpecStyle SpecText SpecPaint PaintFacts PaintRun SpecUse Ungroup SpecUngroup UngroupEnd Props_use.
Import ListNotations.
Local Open Scope string_scope.
Local Open Scope nat_scope.

(** C26: the pass ends, does not panic, removes only groups, and the picture and the contents of all masks, patterns,
    markers and clip paths look the same, whatever the lengths with units mean and whatever the options are. A group
    that is left is there for a reason. The result satisfies the same conditions.
    Partial: [gready] documents; the cases it excludes are refuted below. *)
Theorem C26_ungroup_partial uu o self t : gready t ->
  exists t', ungroup_groups o self t = Some (Ok t') /\ gready t' /\ same_drawing uu t t' /\ others t' = others t /\
    forall s p g, svg_element t' = Some s -> In p (subs s) -> In g (kids p) -> group g -> needed t' (data p) g.
Proof. exact (ungroup_groups_ok uu o self t). Qed.

(** An instance: two nested groups with transforms, opacities and a color are dissolved, an empty group is removed,
    a group that is used stays, and a transform is moved onto two rectangles. *)
Definition half : value := VNum (Q2Qc (1 # 2)).
Definition all_opts : gopts := GO true true true.
Definition ung_doc : tree := doc [el 1 ESvg [] [
  el 2 EG [at_ ATransform (tr 10 20); at_ AOpacity half] [el 3 EG [at_ AFill (VColor 0 0 255); at_ AOpacity half] [el 4 ERect [at_ ATransform (tr 1 2)] []]];
  el 5 EG [at_ ADisplay (VPre Vid_none)] [];
  el 6 EG [] [el 7 EPath [] []; el 8 ERect [at_ AOpacity half] []];
  eli 9 EG "u" [at_ AFill (VColor 255 0 0)] [el 10 ERect [] []];
  el 11 EUse [at_ AXlinkHref (VLink 9)] [];
  el 12 EG [at_ ATransform (tr 5 6)] [el 13 ERect [] []; el 14 ERect [at_ ATransform (tr 1 2)] []]]].
Lemma ung_refs k : referenced ung_doc k -> k = 9.
Proof. intros (d & Hd & x & Hx & E). cbn in Hd. repeat (destruct Hd as [<-|Hd]; [cbn in Hx; repeat (destruct Hx as [<-|Hx]; [first [discriminate E|cbn in E; now inversion E]|]); destruct Hx|]). destruct Hd. Qed.
Lemma only_attrs d a v : d_get d a = Some v -> fold_right (fun x P => (AN a = a_name x /\ v = a_val x) \/ P) False (attrs d).
Proof.
  unfold d_get, get_value, get_attr. induction (attrs d) as [|x l IH]; [discriminate|]. cbn [find fold_right]. destruct (has_name (AN a) x) eqn:E; [|intros H; right; now apply IH]. apply has_name_true in E. cbn. intros H. left. inversion H. auto.
Qed.
Example C26_instance : gready ung_doc /\
  match ungroup_groups all_opts true ung_doc with
  | Some (Ok t') => map (fun s => (root_key s, map root_key (kids s))) (subs t') = [(0, [1]); (1, [4; 7; 8; 9; 11; 13; 14]); (4, []); (7, []); (8, []); (9, [10]); (10, []); (11, []); (13, []); (14, [])]
  | _ => False
  end.
Proof.
  split; [|vm_compute; reflexivity]. split.
  - split; [cbn; repeat constructor; cbn; intuition discriminate|]. intros k Hk. cbn in *. intuition.
  - apply Forall_forall. intros d Hd. cbn in Hd. repeat (destruct Hd as [<-|Hd]; [unfold attrs_nodup; cbn; repeat constructor; cbn; intuition discriminate|]). destruct Hd.
  - reflexivity.
  - eexists. reflexivity.
  - intros c [<-|[]]. discriminate.
  - intros d n Hd Hn R. assert (K : key n = 9) by (apply ung_refs; exists d; auto). cbn in Hn. repeat (destruct Hn as [<-|Hn]; [first [discriminate K|split; [discriminate|intros y Hy; cbn in Hy; repeat (destruct Hy as [<-|Hy]; [first [discriminate|reflexivity]|]); destruct Hy]]|]). destruct Hn.
  - intros a s p P G Hp (e & E & I). cbn in P. repeat (destruct P as [P|P]; [first [inversion P; subst; discriminate G|inversion P; subst; cbn in Hp; repeat (destruct Hp as [<-|Hp]; [inversion E; subst; cbn in I; intuition discriminate|]); destruct Hp]|]). destruct P.
  - intros a s p P G Hp E. exfalso. cbn in P. repeat (destruct P as [P|P]; [first [inversion P; subst; discriminate G|inversion P; subst; cbn in Hp; repeat (destruct Hp as [<-|Hp]; [discriminate E|]); destruct Hp]|]). destruct P.
  - intros s Hs G R. apply ung_refs in R. cbn in Hs. repeat (destruct Hs as [<-|Hs]; [first [discriminate R|eexists; split; [left; reflexivity|discriminate]]|]). destruct Hs.
  - intros d a v Hd G E. cbn in Hd. repeat (destruct Hd as [<-|Hd]; [first [discriminate G|apply only_attrs in E; cbn in E; repeat (destruct E as [[E1 E2]|E]; [inversion E1; inversion E2; subst; split; [reflexivity|split; [cbn; intuition discriminate|split; [intros; first [discriminate|reflexivity]|cbn; intuition discriminate]]]|]); destruct E]|]). destruct Hd.
  - intros d v Hd E. cbn in Hd. repeat (destruct Hd as [<-|Hd]; [first [discriminate E|injection E as <-; eexists; split; [reflexivity|split; vm_compute; discriminate]]|]). destruct Hd.
  - intros d v Hd E. cbn in Hd. repeat (destruct Hd as [<-|Hd]; [first [discriminate E|injection E as <-; eexists; reflexivity]|]). destruct Hd.
  - intros s d Hs G Hd (e & E & I). cbn in Hs. repeat (destruct Hs as [<-|Hs]; [first [discriminate G|cbn in Hd; repeat (destruct Hd as [<-|Hd]; [inversion E; subst; cbn in I; intuition discriminate|]); destruct Hd]|]). destruct Hs.
  - intros s d Hs G Ht Hd. cbn in Hs. repeat (destruct Hs as [<-|Hs]; [first [discriminate G|destruct (Ht eq_refl)|cbn in Hd; repeat (destruct Hd as [<-|Hd]; [split; [discriminate|intros R; apply ung_refs in R; discriminate R]|]); destruct Hd]|]). destruct Hs.
Qed.

(** What the conditions exclude. *)
Definition ung_wrong (t : tree) : Prop :=
  forall self, exists t', ungroup_groups all_opts self t = Some (Ok t') /\ drawn_otherwise no_units t t'.
Ltac is_wrong' a probe := intros [|];
  eexists; (split; [vm_compute; reflexivity|]);
  (eapply (otherwise _ _ _ 19 a AWidth); [nodup_b|nodup_b|vm_compute; reflexivity|vm_compute; reflexivity|reflexivity|reflexivity|]);
  let H := fresh in intros H; apply (f_equal probe) in H; vm_compute in H; discriminate H.
Ltac is_framed probe := intros [|];
  eexists; (split; [vm_compute; reflexivity|]);
  (eapply (otherwise_framed _ _ _ 19); [nodup_b|nodup_b|vm_compute; reflexivity|vm_compute; reflexivity|]);
  let H := fresh in intros H; apply (f_equal probe) in H; vm_compute in H; discriminate H.
(** The display of a group replaces the one of its child: a hidden rectangle is shown. *)
Definition display_doc : tree := doc [el 1 ESvg [] [el 2 EG [at_ ADisplay (VPre Vid_inline)] [el 3 ERect [at_ ADisplay (VPre Vid_none)] []]]].
Theorem C26_display_refuted : ung_wrong display_doc.
Proof. is_wrong' AFill (map s_key). Qed.
(** Attributes that mean nothing for a group are copied: the rectangle gets a width. *)
Definition width_doc : tree := doc [el 1 ESvg [] [el 2 EG [at_ AWidth (px 50)] [el 3 ERect [at_ AHeight (px 10)] []]]].
Theorem C26_width_refuted : ung_wrong width_doc.
Proof. is_wrong' AFill (map (fun s => match s_own s with Some _ => true | None => false end)). Qed.
(** The transform of a group is moved onto a child that is used elsewhere: the use element moves. *)
Definition used_doc : tree := doc [el 1 ESvg [] [
  el 2 EG [at_ ATransform (tr 10 20)] [eli 3 ERect "r" [at_ ATransform (tr 0 0)] []; el 4 ERect [at_ ATransform (tr 0 0)] []];
  el 5 EUse [at_ AXlinkHref (VLink 3)] []]].
Theorem C26_used_refuted : ung_wrong used_doc.
Proof. is_wrong' AFill (map (fun s => this (te (s_ts s)))). Qed.
(** Opacities are multiplied without being clamped. *)
Definition clamp_doc : tree := doc [el 1 ESvg [] [el 2 EG [at_ AOpacity (VNum (zq 2))] [el 3 ERect [at_ AOpacity half] []]]].
Theorem C26_opacity_refuted : ung_wrong clamp_doc.
Proof. is_wrong' AFill (map (fun s => this (s_opacity s))). Qed.
(** An empty group that is an alternative of a switch is removed, the next alternative is shown instead of nothing. *)
Definition switch_doc : tree := doc [el 1 ESvg [] [el 2 ESwitch [] [el 3 EG [] []; el 4 ERect [] []]]].
Theorem C26_switch_refuted : ung_wrong switch_doc.
Proof. is_framed (@List.length frame). Qed.
(** The condition of an element inside of an alternative becomes a condition of the alternative. *)
Definition condition_doc : tree := doc [el 1 ESvg [] [el 2 ESwitch [] [el 3 EG [] [el 4 ERect [at_ ASystemLanguage (VStr "en")] []]; el 5 EPath [] []]]].
Theorem C26_condition_refuted : ung_wrong condition_doc.
Proof. is_framed (map (fun f => match f with FAlt [] => 0 | _ => 1 end)). Qed.
(** A transform is moved to a viewport, where it means nothing (SVG 1.1). *)
Definition view_doc : tree := doc [el 1 ESvg [] [el 2 EG [at_ ATransform (tr 10 20)] [el 3 ESvg [] [el 4 ERect [] []]]]].
Theorem C26_viewport_refuted : ung_wrong view_doc.
Proof. is_framed (map (fun f => match f with FView m => Some (this (te m)) | _ => None end)). Qed.
