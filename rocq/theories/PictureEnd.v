(** The passes one after the other. *)
From Coq Require Import List Bool NArith Arith ZArith String QArith Qcanon Lia.
From Verif Require Import Names Num Value Dom DomFacts DomOps IdNum Outcome SpecDom SpecStyle SpecText SpecPaint PaintFacts Visit TasksSimple TasksSimpleProofs Img Push SpecUse SpecUngroup SpecGroupStyle UngroupProofs UngroupKeep UngroupEnd StyleMove StyleEnd SteppedReady Ungroup GroupStyle Cli Clean SpecClean WfAll SpecWf Props_wf SpecPicture PictureSim PictureTwin PictureTail PictureRemarks SpecPrepared.
From Verif Require Stops Transforms PictureServers PicturePrep PictureGrad.
From Verif Require MergeProofs DomRemove MoveFacts Props_accept.
From Verif Require Import Props_simple.
Import ListNotations.
Local Open Scope nat_scope.

(** ** From drawings to pictures *)
Lemma drawing_picture uu t t' : NoDup (keys t') -> same_drawing uu t t' ->
  (forall d', In d' (flat t') -> resource d' -> exists d, In d (flat t) /\ key d = key d' /\ tag d = tag d') -> same_picture uu t t'.
Proof.
  intros N' [P C] B. split.
  - intros l H. destruct (P l H) as (l' & A & S). exists l'. split; [exact A|now apply same_bare].
  - intros d' Hd' R. destruct (B d' Hd' R) as (d & Hd & K & Tg). exists d. split; [exact Hd|]. split; [exact K|]. split; [exact Tg|]. intros l H. destruct (C d l Hd (resource_tag d d' Tg R) H) as (Hd2 & l' & A & S). assert (d = d') by (apply (data_unique t'); auto). subst d'. split; [reflexivity|]. exists l'. split; [exact A|now apply same_bare].
Qed.
Lemma resource_not_group d : resource d -> is_tag EG d = false.
Proof. intros (e & E & I). destruct (is_tag EG d) eqn:Q; [|reflexivity]. apply is_tag_iff in Q. rewrite E in Q. inversion Q; subst. cbn in I. intuition discriminate. Qed.
Lemma others_back t t' d' : others t' = others t -> In d' (flat t') -> is_tag EG d' = false -> exists d, In d (flat t) /\ key d = key d' /\ tag d = tag d'.
Proof.
  intros E H Q. assert (I : In (key d', tag d', nid d') (others t')) by (unfold others; apply in_map_iff; exists d'; split; [reflexivity|]; apply filter_In; rewrite Q; auto). rewrite E in I. unfold others in I. apply in_map_iff in I. destruct I as (d & X & Hd). apply filter_In in Hd. inversion X. exists d. tauto.
Qed.
Lemma steps_ref t t' : steps t t' -> forall k, referenced t' k -> referenced t k.
Proof.
  intros H. induction H as [|t G f t' R HG TG M _ IH|t G t' R HG TG Fr _ IH]; [tauto| |]; intros k X.
  - exact (mv_referenced t G f R HG M k (IH k X)).
  - exact (ml_ref t G R HG TG k (IH k X)).
Qed.
Lemma is_tag_other d e : tag d = TEl e -> e <> EG -> is_tag EG d = false.
Proof. intros E N. destruct (is_tag EG d) eqn:Q; [|reflexivity]. apply is_tag_iff in Q. congruence. Qed.

(** ** The removal of the empty defs *)
Lemma root_not_inside t s : NoDup (keys t) -> In s (subs t) -> ~ In (data t) (inside s).
Proof.
  intros N Hs H. assert (X : In (data t) (flat_map flat (kids t))).
  { destruct t as [d ch]. cbn [subs] in Hs. destruct Hs as [<-|Hs]; [exact H|]. apply flat_below in H. cbn [kids]. apply in_flat_map in Hs. destruct Hs as (c & Hc & Hs). apply in_flat_map. exists c. split; [exact Hc|]. rewrite <- map_data_subs in H |- *. apply in_map_iff in H. destruct H as (y & Ey & Hy). apply in_map_iff. exists y. split; [exact Ey|exact (subs_trans c s y Hs Hy)]. }
  rewrite keys_kids in N. inversion N as [|? ? A _]; subst. apply A. apply in_flat_map in X. destruct X as (c & Hc & X). apply in_flat_map. exists c. split; [exact Hc|]. unfold keys. exact (in_map key _ _ X).
Qed.
Lemma pruned_none p s : (forall d, In d (inside s) -> p d = false) -> flat_map (keep p) (kids s) = kids s.
Proof.
  intros H. rewrite <- pruned_kids. f_equal. unfold pruned. apply prune_false. intros x Hx. apply H. apply in_flat_map in Hx. destruct Hx as (c & Hc & Hx). apply in_flat_map. exists c. split; [exact Hc|now apply data_of_sub].
Qed.
Lemma svg_kid t s : svg_element t = Some s -> In s (kids t) /\ tag (data s) = TEl ESvg.
Proof. unfold svg_element. intros E. apply find_some in E. destruct E as [A B]. apply is_tag_iff in B. auto. Qed.
Lemma no_defs_painted d : tag d = TEl EDefs -> ~ painted_el d.
Proof. intros E. unfold painted_el, shape_el, group_el. rewrite E. intros [(e & X & I)|[[X|X]|[X|[X|X]]]]; try discriminate. inversion X; subst. cbn in I. intuition discriminate. Qed.
Lemma empty_defs_same uu t t' : fine t -> defs_apart t -> remove_empty_defs t = Ok t' -> same_picture uu t t' /\ forall k, referenced t' k -> referenced t k.
Proof.
  intros F D E. pose proof (wf_keys t (fine_wf t F)) as N. unfold remove_empty_defs, on_svg in E. destruct (svg_element t) as [s|] eqn:Es; [|discriminate]. apply svg_kid in Es. destruct Es as [Hs Ts]. destruct (find _ (kids s)) as [c|] eqn:Ec; injection E as <-; [|split; [apply same_picture_refl|auto]]. apply find_some in Ec. destruct Ec as [Hc Ec]. apply andb_true_iff in Ec. destruct Ec as [Tc Kc]. apply is_tag_iff in Tc.
  assert (K : kids c = []) by (destruct (kids c); [reflexivity|discriminate]). pose proof (kid_sub t s t (subs_self t) Hs) as Hs'. pose proof (kid_sub s c t Hs' Hc) as Hc'.
  assert (Sk : sub_keys (root_key c) t = [root_key c]). { unfold sub_keys. rewrite (find_sub_iff t c N Hc'). destruct c as [dc cc]. cbn in K. subst cc. reflexivity. }
  assert (Er : remove (root_key c) t = pruned (fun d => Nat.eqb (key d) (root_key c)) t).
  { unfold remove. rewrite Sk, MergeProofs.unlink_none; [reflexivity|]. intros d k Hd [<-|[]] R. apply (D (data c)); [now apply data_of_sub|exact Tc|]. exists d. auto. }
  rewrite Er. split.
  - assert (Only : forall x, In x (flat t) -> Nat.eqb (key x) (root_key c) = true -> x = data c) by (intros x Hx Q; apply Nat.eqb_eq in Q; apply (data_unique t); auto; now apply data_of_sub).
    apply pruned_looks; [exact N| | | |].
    + intros x k Hx Q Hk. assert (x = c) by (apply (sub_unique t); auto; now apply Nat.eqb_eq in Q). subst x. destruct c as [dc cc]. cbn in K. subst cc. destruct Hk as [<-|[]]. apply (D dc); [exact (data_of_sub _ _ Hc')|exact Tc].
    + intros x Hx Sx. rewrite pruned_none; [reflexivity|]. intros d Hd. destruct (Nat.eqb (key d) (root_key c)) eqn:Q; [|reflexivity]. exfalso. pose proof (Only d (inside_sub x d t Hx Hd) Q) as ->.
      assert (X1 : In (data s) (inside x)). { apply (parent_inside t s x (data c) N Hs' Hx); [|now apply in_map|exact Hd]. intros ->. destruct Sx as (e & E & I). rewrite Ts in E. inversion E; subst. cbn in I. intuition discriminate. }
      apply (root_not_inside t x N Hx). apply (parent_inside t t x (data s) N (subs_self t) Hx); [|now apply in_map|exact X1]. intros ->. destruct Sx as (e & E & _). rewrite (fine_root t F) in E. discriminate.
    + intros x y Hx Tx Hy. destruct (Nat.eqb (key (data y)) (root_key c)) eqn:Q; [|reflexivity]. exfalso. assert (y = c) by (apply (sub_unique t); auto; [exact (kid_sub x y t Hx Hy)|now apply Nat.eqb_eq in Q]). subst y.
      destruct (MoveFacts.sub_place x t [] Hx) as (a & P). pose proof (place_kid t [] a x c P Hy) as P'. pose proof (parent_place t s c a (data x) N Hs' Hc P') as E1. rewrite E1, Ts in Tx. discriminate.
    + intros d Hd Q. rewrite (Only d Hd Q). now apply no_defs_painted.
  - intros k (d & Hd & R). exists d. split; [exact (pr_flat _ t d Hd)|exact R].
Qed.

(** ** One pass after the other *)
Section Phase.
  Variable uu : aid -> len -> Qc.
  Variable x : svgdom.
  Variable o : cleaning_options.
  Variable I : tree -> Prop.
  Lemma phase l : (forall p t t', In p l -> enabled o p = true -> I t -> perform x o p t = Some (Ok t') -> I t' /\ same_picture uu t t') ->
    forall t t', I t -> runs x o (filter (enabled o) l) t (Some (Ok t')) -> I t' /\ same_picture uu t t'.
  Proof.
    induction l as [|p l IH]; intros H t t' It R; [inversion R; subst; split; [exact It|apply same_picture_refl]|]. cbn [filter] in R. destruct (enabled o p) eqn:E; [|apply IH; auto; intros q; intros; apply (H q); auto; now right].
    inversion R as [|? ? ? t1 ? P R1| | |]; subst. destruct (H p t t1 (or_introl eq_refl) E It P) as [I1 S1]. destruct (IH (fun q a b Hq => H q a b (or_intror Hq)) t1 t' I1 R1) as [I2 S2]. split; [exact I2|exact (same_picture_trans uu _ _ _ S1 S2)].
  Qed.
End Phase.
Record ready1 (t : tree) : Prop := { r1_g : gready t; r1_s : sready t; r1_remarks : remarks_apart t; r1_defs : defs_apart t; r1_servers : servers_apart t }.
Record readyS (t : tree) : Prop := { rS_g : gready t; rS_s : sready t; rS_defs : defs_apart t; rS_servers : servers_apart t }.
Record ready2 (t : tree) : Prop := { r2_g : gready t; r2_s : sready t; r2_defs : defs_apart t }.
Record ready3 (t : tree) : Prop := { r3_fine : fine t; r3_defs : defs_apart t }.
Lemma defs_sub t t' : (forall k, referenced t' k -> referenced t k) -> (forall d', In d' (flat t') -> tag d' = TEl EDefs -> exists d, In d (flat t) /\ key d = key d' /\ tag d = tag d') -> defs_apart t -> defs_apart t'.
Proof. intros R B D d' Hd' E X. destruct (B d' Hd' E) as (d & Hd & K & Tg). apply (D d Hd); [congruence|]. rewrite K. now apply R. Qed.
Lemma gready_fine t : gready t -> fine t. Proof. intros R. split; apply R. Qed.
Lemma remark_step uu e t : In e [ETitle; EDesc; EMetadata] -> ready1 t -> ready1 (remove_element e t) /\ same_picture uu t (remove_element e t).
Proof.
  intros He [G S A D V]. pose proof (wf_keys t (g_wf t G)) as N. assert (PR : forall d, is_tag e d = true -> remark d = true). { intros d Hd. unfold remark. cbn in He. destruct He as [<-|[<-|[<-|[]]]]; rewrite Hd, ?orb_true_r; reflexivity. }
  assert (W : WF (remove_element e t)) by (apply fine_drain, gready_fine, G). rewrite (remove_remark e t He N A) in *. split.
  - assert (P1 : forall d, In d (flat t) -> is_tag e d = true -> ~ painted_el d) by (intros d _ Q; apply (remark_dull d (PR d Q))).
    assert (P2 : forall d, In d (flat t) -> is_tag e d = true -> tag d <> TEl EDefs) by (intros d _ Q; apply (remark_dull d (PR d Q))).
    assert (P3 : forall s c, In s (subs t) -> In c (kids s) -> is_tag e (data c) = true -> tag (data s) <> TEl EG) by (intros s c Hs Hc Q; apply (ra_place t A s c Hs Hc (PR _ Q))).
    split; [exact (pr_gready (is_tag e) t P1 P3 W G)|exact (pr_sready (is_tag e) t P1 P2 W S)|exact (pr_apart (is_tag e) t A)| |exact (PictureGrad.pruned_servers (is_tag e) t V)]. apply (defs_sub t); auto; [intros k; apply pr_referenced|]. intros d' Hd' _. exists d'. split; [exact (pr_flat _ t d' Hd')|auto].
  - exact (pruned_same _ PR t A uu N).
Qed.
Lemma stops_step uu t : readyS t -> readyS (Stops.remove_invalid_stops t) /\ same_picture uu t (Stops.remove_invalid_stops t).
Proof.
  intros [G S D V]. pose proof (wf_keys t (g_wf t G)) as N. split; [|exact (PictureGrad.stops_same t N V uu)]. assert (W : WF (Stops.remove_invalid_stops t)) by (apply (fine_remove_nodes _ t), gready_fine, G). rewrite (PictureGrad.invalid_stops_pruned t N V) in *.
  split; [exact (pr_gready _ t (PictureGrad.gone_dull t N V) (PictureGrad.gone_group t N) W G)|exact (pr_sready _ t (PictureGrad.gone_dull t N V) (PictureGrad.gone_defs t N V) W S)| |exact (PictureGrad.pruned_servers _ t V)]. apply (defs_sub t); auto; [intros k; apply pr_referenced|]. intros d' Hd' _. exists d'. split; [exact (pr_flat _ t d' Hd')|auto].
Qed.
Lemma trans_step uu t t' : readyS t -> fine t' -> Transforms.apply_transform_to_gradients t = Ok t' -> readyS t' /\ same_picture uu t t'.
Proof.
  intros [G S D V] F E. pose proof (wf_keys t (g_wf t G)) as N. pose proof (PictureGrad.tw_grad_transforms t t t' N (PicturePrep.stale_self t) E) as W. split; [|exact (PictureServers.side_same t uu t t' N V W)]. split; [exact (PicturePrep.st_gready t t' W F G)|exact (PicturePrep.st_sready t t' W F S)|exact (PicturePrep.st_defs t t' W D)|exact (PicturePrep.st_servers t t' W V)].
Qed.
Lemma ungroup_ready uu o self t t' : ready2 t -> ungroup_groups o self t = Some (Ok t') -> ready2 t' /\ same_picture uu t t'.
Proof.
  intros [G S D] E. destruct (ungroup_groups_steps uu o self t G) as (t2 & E2 & G2 & Dr & St & _). rewrite E in E2. injection E2 as <-. pose proof (steps_others _ _ St) as O. split.
  - split; [exact G2|exact (steps_sready _ _ St S)|]. apply (defs_sub t); auto; [exact (steps_ref _ _ St)|]. intros d' Hd' Td. apply (others_back t t'); auto. apply (is_tag_other d' EDefs Td). discriminate.
  - apply drawing_picture; [exact (wf_keys _ (g_wf _ G2))|exact Dr|]. intros d' Hd' R. apply (others_back t t'); auto. now apply resource_not_group.
Qed.
Lemma kept_back t t' d' : NoDup (keys t') -> only_groups_added t t' -> In d' (flat t') -> is_tag EG d' = false -> exists d, In d (flat t) /\ key d = key d' /\ tag d = tag d'.
Proof.
  intros N [A B] Hd' Q. destruct (B d' Hd') as [K|[K _]]; [|apply is_tag_iff in K; congruence]. unfold keys in K. apply in_map_iff in K. destruct K as (d & K & Hd). destruct (A d Hd) as (d2 & Hd2 & K2 & T2 & _). assert (d2 = d') by (apply (data_unique t'); auto; congruence). subst d2. exists d. auto.
Qed.
Lemma style_ready uu t t' : ready2 t -> group_by_style t = Ok t' -> ready3 t' /\ same_picture uu t t'.
Proof.
  intros [G S D] E. destruct (group_by_style_ok uu t S) as (t2 & E2 & St). rewrite E in E2. injection E2 as <-. pose proof (st_ready _ _ _ St) as S2. pose proof (wf_keys _ (s_wf _ S2)) as N. pose proof (st_kept _ _ _ St) as K. split.
  - split; [split; apply S2|]. apply (defs_sub t); auto; [exact (st_ref _ _ _ St)|]. intros d' Hd' Td. apply (kept_back t t'); auto. apply (is_tag_other d' EDefs Td). discriminate.
  - apply drawing_picture; [exact N|exact (st_drawing _ _ _ St)|]. intros d' Hd' R. apply (kept_back t t'); auto. now apply resource_not_group.
Qed.
(** The last passes. *)
Lemma erase_back t t' d' : erase_ids t' = erase_ids t -> In d' (flat t') -> exists d, In d (flat t) /\ key d = key d' /\ tag d = tag d' /\ attrs d = attrs d'.
Proof.
  intros E H. apply (f_equal flat) in E. unfold erase_ids in E. rewrite !flat_tmap in E. apply (in_map (fun d => with_id d "")) in H. rewrite E in H. apply in_map_iff in H. destruct H as (d & X & Hd). exists d. split; [exact Hd|]. destruct d, d'. cbn in X. now inversion X.
Qed.
Lemma fewer_refs t t' : (forall d', In d' (flat t') -> exists d, In d (flat t) /\ key d = key d' /\ tag d = tag d' /\ incl (attrs d') (attrs d)) -> defs_apart t -> defs_apart t'.
Proof.
  intros H. apply defs_sub.
  - intros k (d' & Hd' & y & Hy & E). destruct (H d' Hd') as (d & Hd & _ & _ & I). exists d. split; [exact Hd|]. exists y. auto.
  - intros d' Hd' _. destruct (H d' Hd') as (d & Hd & K & Tg & _). eauto.
Qed.
Lemma erase_ready t t' : erase_ids t' = erase_ids t -> defs_apart t -> defs_apart t'.
Proof. intros E. apply fewer_refs. intros d' Hd'. destruct (erase_back t t' d' E Hd') as (d & Hd & K & Tg & A). exists d. repeat (split; [assumption|]). rewrite A. apply incl_refl. Qed.
Definition silent (p : pass) : Prop := match p with PMerge | PRegroupStops | PResolveUse => False | _ => True end.
Lemma fine_silent x o p t t' : silent p -> fine t -> perform x o p t = Some (Ok t') -> fine t'.
Proof. intros S F. apply fine_perform; [exact F|]. destruct p; try exact I; destruct S. Qed.
Lemma tail1 uu x o p t t' : In p [PIds; PTrimIds; PVersion] -> ready3 t -> perform x o p t = Some (Ok t') -> ready3 t' /\ same_picture uu t t'.
Proof.
  intros Hp [F D] E. pose proof (wf_keys t (fine_wf t F)) as N. assert (F' : fine t') by (apply (fine_silent x o p t t'); auto; cbn in Hp; destruct Hp as [<-|[<-|[<-|[]]]]; exact I).
  destruct Hp as [<-|[<-|[<-|[]]]]; cbn [perform] in E; injection E as E.
  - subst t'. split; [split; [exact F'|]|apply cosmetic_same; [exact N|apply twin_ids]]. apply (erase_ready t); [|exact D]. apply C11_unreferenced_ids.
  - split; [split; [exact F'|]|apply cosmetic_same; [exact N|now apply twin_trim]]. apply (erase_ready t); [|exact D]. now apply C10_trim_ids.
  - split; [split; [exact F'|]|apply cosmetic_same; [exact N|now apply twin_version]]. apply (fewer_refs t); [|exact D]. unfold remove_version, on_svg in E. destruct (svg_element t); [|discriminate]. injection E as <-. intros d' Hd'. unfold upd in Hd'. rewrite flat_tmap in Hd'. apply in_map_iff in Hd'. destruct Hd' as (d & <- & Hd). exists d. split; [exact Hd|].
    destruct (Nat.eqb _ _); [|repeat split; apply incl_refl]. repeat split. intros y Hy. unfold d_rm, rm_attr in Hy. cbn [attrs with_attrs] in Hy. apply filter_In in Hy. destruct Hy as [Hy _]. apply filter_In in Hy. apply Hy.
Qed.
Lemma tail3 uu x o p t t' : In p [PXmlns; PDefaultTransform] -> fine t -> perform x o p t = Some (Ok t') -> fine t' /\ same_picture uu t t'.
Proof.
  intros Hp F E. pose proof (wf_keys t (fine_wf t F)) as N. assert (F' : fine t') by (apply (fine_silent x o p t t'); auto; cbn in Hp; destruct Hp as [<-|[<-|[]]]; exact I). split; [exact F'|]. destruct Hp as [<-|[<-|[]]]; cbn [perform] in E; injection E as E.
  - apply cosmetic_same; [exact N|]. exact (twin_xmlns _ _ _ N E).
  - subst t'. apply cosmetic_same; [exact N|]. apply twin_default, F.
Qed.
(** Everything after the preparation, but for the joining of the style attributes. *)
Definition quiet : list pass := [PTitle; PDesc; PMetadata; PInvalidStops; PGradTransforms; PUngroup; PGroupStyle; PIds; PTrimIds; PVersion; PEmptyDefs; PXmlns; PDefaultTransform].
Definition first_passes : list pass := [PTitle; PDesc; PMetadata].
Definition server_passes : list pass := [PUnusedDefs; PInvalidStops; PGradTransforms; PDuplLinear; PDuplRadial; PDuplBlur; PMerge; PGradTransforms].
Definition middle_passes : list pass :=
  [PUngroup; PShapeTransforms; PConvertShapes; PPaths; PInvisible; PRegroupStops; PUngroup; PResolveUse;
   PDefaultAttrs; PTextAttrs; PNeedlessAttrs; PGradAttrs; PUnusedCoords; PUngroup].
Definition work : list pass := first_passes ++ server_passes ++ middle_passes ++ [PGroupStyle] ++ [PIds; PTrimIds; PVersion] ++ [PUngroupDefs] ++ [PEmptyDefs] ++ [PXmlns; PDefaultTransform].
Lemma runs_parts x o l1 l2 t t' : runs x o (filter (enabled o) (l1 ++ l2)) t (Some (Ok t')) -> exists t1, runs x o (filter (enabled o) l1) t (Some (Ok t1)) /\ runs x o (filter (enabled o) l2) t1 (Some (Ok t')).
Proof. intros R. rewrite filter_app in R. exact (Props_accept.runs_app _ _ _ _ _ _ R t' eq_refl). Qed.
Lemma work_same uu x o t t' : (forall p, In p work -> enabled o p = true -> In p quiet) -> ready1 t -> runs x o (filter (enabled o) work) t (Some (Ok t')) -> fine t' /\ same_picture uu t t'.
Proof.
  intros Q R1 R. unfold work in R. assert (Q1 : forall p l, In p l -> incl l work -> enabled o p = true -> In p quiet) by (intros p l Hp Il; apply Q; auto).
  destruct (runs_parts _ _ _ _ _ _ R) as (t1 & Ra & R0). clear R. destruct (runs_parts _ _ _ _ _ _ R0) as (t1' & Rs & R'). clear R0. destruct (runs_parts _ _ _ _ _ _ R') as (t2 & Rb & R''). clear R'. destruct (runs_parts _ _ _ _ _ _ R'') as (t3 & Rc & R'). clear R''. destruct (runs_parts _ _ _ _ _ _ R') as (t4 & Rd & R''). clear R'. destruct (runs_parts _ _ _ _ _ _ R'') as (t5 & Re & R'). clear R''. destruct (runs_parts _ _ _ _ _ _ R') as (t6 & Rf & Rg). clear R'.
  destruct (phase uu x o ready1 first_passes) with (t := t) (t' := t1) as [A1 S1]; [|exact R1|exact Ra|].
  { intros p u u' Hp _ Iu E. destruct Hp as [<-|[<-|[<-|[]]]]; cbn [perform] in E; injection E as <-; apply remark_step; cbn; auto. }
  assert (B1 : readyS t1) by (destruct A1; split; assumption).
  destruct (phase uu x o readyS server_passes) with (t := t1) (t' := t1') as [As Ss]; [|exact B1|exact Rs|].
  { intros p u u' Hp En Iu E. assert (Hq : In p quiet) by (apply (Q1 p server_passes); auto; intros q Hq; unfold work; rewrite !in_app_iff; tauto). assert (C : p = PInvalidStops \/ p = PGradTransforms) by (clear - Hp Hq; cbn in Hp, Hq; intuition congruence).
    destruct C as [-> | ->].
    - cbn [perform] in E. injection E as <-. exact (stops_step uu u Iu).
    - assert (F' : fine u') by (exact (fine_silent x o PGradTransforms u u' I (gready_fine _ (rS_g _ Iu)) E)). cbn [perform] in E. injection E as E. exact (trans_step uu u u' Iu F' E). }
  assert (A1' : ready2 t1') by (destruct As; split; assumption).
  destruct (phase uu x o ready2 middle_passes) with (t := t1') (t' := t2) as [A2 S2]; [|exact A1'|exact Rb|].
  { intros p u u' Hp En Iu E. assert (p = PUngroup) as ->. { assert (Hq : In p quiet) by (apply (Q1 p middle_passes); auto; intros q Hq; unfold work; rewrite !in_app_iff; tauto). clear - Hp Hq. cbn in Hp, Hq. intuition congruence. } exact (ungroup_ready uu _ _ u u' Iu E). }
  assert (A3 : ready3 t3 /\ same_picture uu t2 t3).
  { cbn [filter] in Rc. destruct (enabled o PGroupStyle); [|inversion Rc; subst; split; [|apply same_picture_refl]; split; [apply gready_fine, A2|apply A2]]. inversion Rc as [|? ? ? u ? E Ru| | |]; subst. inversion Ru; subst. cbn [perform] in E. injection E as E. exact (style_ready uu t2 t3 A2 E). }
  destruct A3 as [A3 S3]. destruct (phase uu x o ready3 [PIds; PTrimIds; PVersion]) with (t := t3) (t' := t4) as [A4 S4]; [intros p u u' Hp _; now apply tail1|exact A3|exact Rd|].
  assert (t5 = t4). { assert (En : enabled o PUngroupDefs = false). { destruct (enabled o PUngroupDefs) eqn:En; [|reflexivity]. exfalso. assert (X : In PUngroupDefs quiet) by (apply Q; [unfold work; rewrite !in_app_iff; do 5 right; left; now left|exact En]). cbn in X. intuition discriminate. } cbn [filter] in Re. rewrite En in Re. now inversion Re. } subst t5.
  assert (A6 : fine t6 /\ same_picture uu t4 t6). { cbn [filter enabled] in Rf. inversion Rf as [|? ? ? u ? E Ru| | |]; subst. inversion Ru; subst. destruct A4 as [F4 D4]. split; [exact (fine_silent x o PEmptyDefs _ _ I F4 E)|]. cbn [perform] in E. injection E as E. exact (proj1 (empty_defs_same uu _ _ F4 D4 E)). }
  destruct A6 as [A6 S6]. destruct (phase uu x o fine [PXmlns; PDefaultTransform]) with (t := t6) (t' := t') as [A7 S7]; [intros p u u' Hp _; now apply tail3|exact A6|exact Rg|].
  split; [exact A7|]. pose proof (same_picture_trans uu) as Tr. exact (Tr _ _ _ S1 (Tr _ _ _ Ss (Tr _ _ _ S2 (Tr _ _ _ S3 (Tr _ _ _ S4 (Tr _ _ _ S6 S7)))))).
Qed.
