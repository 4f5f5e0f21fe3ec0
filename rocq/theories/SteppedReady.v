(** Ungrouping keeps the conditions of [sready] too. *)
From Coq Require Import List Bool NArith Arith ZArith String Lia QArith Qcanon.
From Verif Require Import Names Num Value Dom DomFacts DomOps Outcome MoveFacts SpecDom SpecStyle SpecText Visit SpecPaint PaintFacts SpecUse Img UseProofs UseStep Push Melt SpecUngroup SpecGroupStyle UngroupProofs UngroupKeep UngroupEnd.
Import ListNotations.
Local Open Scope nat_scope.

Lemma parent_inside t G s d : NoDup (keys t) -> In G (subs t) -> In s (subs t) -> s <> G -> In d (map data (kids G)) -> In d (inside s) -> In (data G) (inside s).
Proof.
  intros N HG. induction s as [d0 ch IH] using tree_ind'. intros Hs Ne Hd Hi. rewrite Forall_forall in IH. unfold inside in Hi. cbn [kids] in Hi. apply in_flat_map in Hi. destruct Hi as (c & Hc & Hi). pose proof (kid_sub (T d0 ch) c t Hs Hc) as Hc'. rewrite (tree_split c) in Hi. destruct Hi as [<-|Hi].
  - exfalso. apply in_map_iff in Hd. destruct Hd as (c2 & E & Hc2). assert (c2 = c) by (apply (sub_unique t); auto; [exact (kid_sub G c2 t HG Hc2)|unfold root_key; now rewrite E]). subst c2.
    apply Ne. destruct (sub_place (T d0 ch) t [] Hs) as (a & P). pose proof (place_kid t [] a (T d0 ch) c P Hc) as P'.
    pose proof (parent_place t G c a (data (T d0 ch)) N HG Hc2 P') as E1. apply (sub_unique t); auto. unfold root_key. now rewrite E1.
  - unfold inside. cbn [kids]. apply in_flat_map. exists c. split; [exact Hc|]. destruct (Nat.eq_dec (root_key c) (root_key G)) as [E|E].
    + assert (c = G) by (apply (sub_unique t); auto). subst c. apply flat_self.
    + apply flat_below. apply IH; auto. congruence.
Qed.
Section Moved.
  Variables t G : tree.
  Variable f : ndata -> ndata.
  Hypothesis R : gready t.
  Hypothesis S : sready t.
  Hypothesis HG : In G (subs t).
  Hypothesis TG : group G.
  Hypothesis M : moves t G f.
  Let Kf := mv_key _ _ _ M. Let Tf := mv_tag _ _ _ M.
  Lemma moved_ts d : In d (flat t) -> d_get d ATransform = None -> d_get (f d) ATransform <> None -> d_get (data G) ATransform <> None /\ (d = data G \/ In d (map data (kids G))).
  Proof.
    intros Hd E L. destruct (d_get (f d) ATransform) as [v|] eqn:Q; [|congruence]. destruct (mv_get t G f M d ATransform v Hd Q) as [A|(D & [A|[(A & _)|(_ & _ & A)]])]; [congruence|split; [congruence|exact D]|discriminate|split; [|exact D]]. destruct A as [A|A]; [contradiction|exact A].
  Qed.
  Lemma sready_moved : sready (tmap f t).
  Proof.
    pose proof (gready_moved t G f R HG TG M) as R'. split.
    - exact (g_wf _ R').
    - exact (g_wfa _ R').
    - exact (g_root _ R').
    - destruct (s_svg t S) as (s & E & U). exists (tmap f s). split.
      + revert E. unfold svg_element. rewrite kids_tmap. generalize (kids t) as l. induction l as [|c l IH]; [discriminate|]. cbn [find map]. rewrite data_tm. assert (X : is_tag ESvg (f (data c)) = is_tag ESvg (data c)) by (unfold is_tag; now rewrite Tf). rewrite X. destruct (is_tag ESvg (data c)); [intros Z; now inversion Z|exact IH].
      + intros X. apply U. apply (mv_referenced t G f R HG M). unfold root_key in *. rewrite data_tm, Kf in X. exact X.
    - exact (g_ids _ R').
    - intros a' s' p' P H Hp Sh. destruct (places_tmap_inv f t Kf [] a' s' P) as (a & s & P0 & -> & ->). apply in_map_iff in Hp. destruct Hp as (p & <- & Hp). apply (s_shape t S a s p P0); [|exact Hp|exact (shape_tag t G f M p Sh)]. unfold holder in *. now rewrite data_tm, Tf in H.
    - exact (g_trans _ R').
    - intros d a v Hd Td Ha Q. destruct (g_attrs _ R' d a v Hd Td Q) as (_ & _ & _ & X). now apply X.
    - intros a' s' P H. destruct (places_tmap_inv f t Kf [] a' s' P) as (a & s & P0 & -> & ->). assert (Rs : resource (data s)) by (destruct H as (e & A & B); exists e; rewrite data_tm, Tf in A; auto). destruct (s_res t S a s P0 Rs) as [A B]. split.
      + intros p b E. destruct a as [|p0 a]; [discriminate|]. cbn in E. inversion E; subst. unfold holder. rewrite Tf. exact (A p0 a eq_refl).
      + intros p' Hp. apply in_map_iff in Hp. destruct Hp as (p & <- & Hp). rewrite data_tm, Tf. destruct (B p Hp) as [->|Q]; [now left|now right].
    - intros d' Hd' Td. rewrite flat_tmap in Hd'. apply in_map_iff in Hd'. destruct Hd' as (d & <- & Hd). rewrite Tf in Td. destruct (d_get (f d) ATransform) as [v|] eqn:E; [|reflexivity]. exfalso. destruct (moved_ts d Hd (s_viewts t S d Hd Td)) as [A B]; [congruence|]. destruct (kid_of_G G d B) as [Q|Q]; [subst d; rewrite TG in Td; discriminate|]. destruct (g_moved t R G d HG TG A Q) as [X _]. contradiction.
    - intros s' Hs' Ts. rewrite subs_tmap in Hs'. apply in_map_iff in Hs'. destruct Hs' as (s & <- & Hs). rewrite data_tm, Tf in Ts. destruct (s_views t S s Hs Ts) as [(c & Hc & Tc)|No].
      + left. exists (tmap f c). rewrite kids_tmap, data_tm, Tf. split; [now apply in_map|exact Tc].
      + right. intros d' Hd'. rewrite inside_tmap in Hd'. apply in_map_iff in Hd'. destruct Hd' as (d & <- & Hd). destruct (d_get (f d) ATransform) as [v|] eqn:E; [|reflexivity]. exfalso. destruct (moved_ts d (inside_sub s d t Hs Hd) (No d Hd)) as [A B]; [congruence|]. apply A. apply No. destruct B as [<-|B]; [exact Hd|]. apply (parent_inside t G s d (wf_keys t (g_wf t R)) HG Hs); [|exact B|exact Hd]. intros ->. rewrite TG in Ts. discriminate.
  Qed.
End Moved.
Section Melted.
  Variables t G : tree.
  Hypothesis R : gready t.
  Hypothesis S : sready t.
  Hypothesis HG : In G (subs t).
  Hypothesis TG : group G.
  Hypothesis Free : ~ referenced t (root_key G).
  Lemma sready_melted : sready (melted t G).
  Proof.
    pose proof (gready_melted t G R HG TG Free) as R'. pose proof (wf_keys t (g_wf t R)) as N. pose proof (g_root t R) as Rt. split.
    - exact (g_wf _ R').
    - exact (g_wfa _ R').
    - exact (g_root _ R').
    - destruct (s_svg t S) as (s & E & U). exists (img (melt (root_key G)) s). split; [exact (m_svg t G (G_no_top t G R HG TG) s E)|]. rewrite root_img. intros X. apply U. exact (ml_ref t G R HG TG _ X).
    - exact (g_ids _ R').
    - intros a s' p P H Hp. destruct (ml_back t G R HG TG a s' P) as (a0 & s & P0 & Q & -> & I). rewrite data_img in H. exact (s_shape t S a0 s p P0 H (I p Hp)).
    - exact (g_trans _ R').
    - intros d a v Hd Td Ha Q. destruct (g_attrs _ R' d a v Hd Td Q) as (_ & _ & _ & X). now apply X.
    - intros a s' P H. destruct (m_back t G N HG TG Rt a s' P) as (a0 & s & P0 & Q & -> & C). rewrite data_img in H. destruct (s_res t S a0 s P0 H) as [A B]. unfold melted. rewrite data_img. destruct C as [->|(b & aG & -> & -> & _)]; [split; [exact A|exact B]|]. split.
      + intros p c E. destruct b as [|p0 b]; [|cbn in E; inversion E; subst; now apply (A p (b ++ data G :: aG))]. exfalso. cbn [app] in *. apply (A (data G) aG eq_refl). left. exact TG.
      + intros p Hp. apply B. apply in_app_or in Hp. apply in_or_app. destruct Hp; [now left|right; now right].
    - intros d Hd. apply (ml_flat t G R HG TG) in Hd. now apply (s_viewts t S).
    - intros s' Hs' Ts. destruct (ml_sub t G R HG TG s' Hs') as (s & Hs & Q & ->). rewrite data_img in Ts. destruct (s_views t S s Hs Ts) as [(c & Hc & Tc)|No].
      + left. exists (img (melt (root_key G)) c). rewrite kids_img, data_img. split; [|exact Tc]. apply in_flat_map. exists c. split; [exact Hc|]. rewrite rpl_melt. destruct (Nat.eqb_spec (root_key c) (root_key G)) as [E|E]; [|now left]. exfalso. assert (c = G) by (apply (sub_unique t); auto; exact (kid_sub s c t Hs Hc)). subst c. rewrite TG in Tc. discriminate.
      + right. intros d Hd. apply inside_melt in Hd. now apply No.
  Qed.
End Melted.
Theorem steps_sready t t' : steps t t' -> sready t -> sready t'.
Proof.
  intros H. induction H as [|t G f t' R HG TG M _ IH|t G t' R HG TG Fr _ IH]; [tauto| |]; intros S; apply IH; [exact (sready_moved t G f R S HG TG M)|exact (sready_melted t G R S HG TG Fr)].
Qed.
