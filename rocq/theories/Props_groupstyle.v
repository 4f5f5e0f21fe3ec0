(** C27: elements are grouped by style. *)
From Coq Require Import List Bool NArith Arith ZArith String Lia QArith Qcanon.
From Verif Require Import Names Num Value Dom DomFacts DomOps Outcome SpecDom SpecStyle SpecText SpecPaint PaintFacts PaintRun SpecUse SpecUngroup Props_use Props_ungroup GroupStyle SpecGroupStyle StyleMove StyleEnd.
Import ListNotations.
Local Open Scope string_scope.
Local Open Scope nat_scope.

(** C27: the pass ends and does not panic, the picture and the contents of all masks, patterns, markers and clip paths
    look the same (the same shapes in the same order, with the same transforms, styles and effects), whatever the
    lengths with units mean. All nodes stay; what is new are groups without an id. The result satisfies the same
    conditions, so that the pass can be repeated.
    Partial: [sready] documents; what it excludes on svg elements is refuted below. *)
Theorem C27_group_by_style_partial uu t : sready t ->
  exists t', group_by_style t = Ok t' /\ sready t' /\ same_drawing uu t t' /\ only_groups_added t t'.
Proof. intros R. destruct (group_by_style_ok uu t R) as (t' & E & St). exists t'. split; [exact E|]. split; [exact (st_ready _ _ _ St)|]. split; [exact (st_drawing _ _ _ St)|exact (st_kept _ _ _ St)]. Qed.

(** C27: the groups that the pass adds hold at least two elements each, also when a group is built around another one
    and takes some of its children: a node of the result that was not in the document has two or more children.
    Partial: [sready] documents, as above. *)
Theorem C27_new_groups_partial t t' s : sready t -> group_by_style t = Ok t' -> In s (subs t') -> ~ In (root_key s) (keys t) ->
  2 <= List.length (kids s).
Proof.
  intros R E Hs Nk. destruct (group_by_style_ends (fun _ _ => 0%Qc) t R) as (t2 & E2 & _ & C). rewrite E2 in E. injection E as ->. destruct (C s Hs) as [K|K]; [contradiction|exact K].
Qed.

(** An instance: three neighbours with the same color get a group (13); the children of a group (7) give their color
    to that group, and the two of them that have the same transform get a new one (12). *)
Definition red := at_ AFill (VColor 255 0 0).
Definition green := at_ AFill (VColor 0 255 0).
Definition gbs_doc : tree := doc [el 1 ESvg [] [
  el 2 EDefs [] []; eli 6 ERect "u" [red] [];
  el 3 ERect [red] []; el 4 ERect [red] []; el 5 ERect [red] [];
  el 7 EG [at_ AFill (VColor 0 0 255)] [el 10 EPath [green] []; el 8 EPath [green; at_ ATransform (tr 10 20)] []; el 9 EPath [green; at_ ATransform (tr 10 20)] []];
  el 11 EUse [at_ AXlinkHref (VLink 6)] []]].
Lemma gbs_refs k : referenced gbs_doc k -> k = 6.
Proof. intros (d & Hd & x & Hx & E). cbn in Hd. repeat (destruct Hd as [<-|Hd]; [cbn in Hx; repeat (destruct Hx as [<-|Hx]; [first [discriminate E|cbn in E; now inversion E]|]); destruct Hx|]). destruct Hd. Qed.
Example C27_instance : sready gbs_doc /\
  match group_by_style gbs_doc with
  | Ok t' => map (fun s => (root_key s, map root_key (kids s))) (subs t') =
      [(0, [1]); (1, [2; 6; 13; 7; 11]); (2, []); (6, []); (13, [3; 4; 5]); (3, []); (4, []); (5, []); (7, [10; 12]); (10, []); (12, [8; 9]); (8, []); (9, []); (11, [])]
  | _ => False
  end.
Proof.
  split; [|vm_compute; reflexivity]. split.
  - split; [cbn; repeat constructor; cbn; intuition discriminate|]. intros k Hk. cbn in *. intuition.
  - apply Forall_forall. intros d Hd. cbn in Hd. repeat (destruct Hd as [<-|Hd]; [unfold attrs_nodup; cbn; repeat constructor; cbn; intuition discriminate|]). destruct Hd.
  - reflexivity.
  - eexists. split; [reflexivity|]. intros R. apply gbs_refs in R. discriminate R.
  - intros d n Hd Hn R. assert (K : key n = 6) by (apply gbs_refs; exists d; auto). cbn in Hn. repeat (destruct Hn as [<-|Hn]; [first [discriminate K|split; [discriminate|intros y Hy; cbn in Hy; repeat (destruct Hy as [<-|Hy]; [first [discriminate|reflexivity]|]); destruct Hy]]|]). destruct Hn.
  - intros a s p P G Hp (e & E & I). cbn in P. repeat (destruct P as [P|P]; [first [inversion P; subst; destruct G; discriminate|inversion P; subst; cbn in Hp; repeat (destruct Hp as [<-|Hp]; [inversion E; subst; cbn in I; intuition discriminate|]); destruct Hp]|]). destruct P.
  - intros d v Hd E. cbn in Hd. repeat (destruct Hd as [<-|Hd]; [first [discriminate E|injection E as <-; eexists; reflexivity]|]). destruct Hd.
  - intros d a v Hd G I E. cbn in Hd. repeat (destruct Hd as [<-|Hd]; [first [discriminate G|exfalso; cbn in I; repeat (destruct I as [<-|I]; [discriminate E|]); destruct I]|]). destruct Hd.
  - intros a s P (e & E & I). exfalso. cbn in P. repeat (destruct P as [P|P]; [inversion P; subst; inversion E; subst; cbn in I; intuition discriminate|]). destruct P.
  - intros d Hd G. cbn in Hd. repeat (destruct Hd as [<-|Hd]; [first [discriminate G|reflexivity]|]). destruct Hd.
  - intros s Hs G. cbn in Hs. repeat (destruct Hs as [<-|Hs]; [first [discriminate G|left; eexists; split; [left; reflexivity|reflexivity]]|]). destruct Hs.
Qed.

(** ** What the conditions exclude *)
Definition gbs_wrong (t : tree) : Prop := exists t', group_by_style t = Ok t' /\ drawn_otherwise no_units t t'.
Ltac is_framed' probe :=
  eexists; (split; [vm_compute; reflexivity|]);
  (eapply (otherwise_framed _ _ _ 19); [nodup_b|nodup_b|vm_compute; reflexivity|vm_compute; reflexivity|]);
  let H := fresh in intros H; apply (f_equal probe) in H; vm_compute in H; discriminate H.
(** The transform of all children of the document element is moved to it, where it means nothing (SVG 1.1). *)
Definition moved_doc : tree := doc [el 1 ESvg [] [el 2 ERect [at_ ATransform (tr 10 20)] []; el 3 ERect [at_ ATransform (tr 10 20)] []]].
Theorem C27_viewport_refuted : gbs_wrong moved_doc.
Proof. is_wrong AFill (map (fun s => this (te (s_ts s)))). Qed.
(** A transform that means nothing on nested svg elements is moved to a group, where it is not ignored. *)
Definition ignored_doc : tree := doc [el 1 ESvg [] [el 2 EG [] [el 3 ESvg [at_ ATransform (tr 10 20)] [el 4 ERect [] []]; el 5 ESvg [at_ ATransform (tr 10 20)] [el 6 ERect [] []]]]].
Theorem C27_ignored_refuted : gbs_wrong ignored_doc.
Proof. is_framed' (map (fun f => match f with FView m => Some (this (te m)) | _ => None end)). Qed.
