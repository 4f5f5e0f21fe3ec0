(** Lemmas: the colours of gradients in the passes after the preparation. *)
From Coq Require Import List Bool NArith Arith ZArith String QArith Qcanon Lia.
From Verif Require Import Names Num Value Dom DomFacts DomOps Outcome DomRemove Stops VLoop Transforms SpecStops StopsProofs Props_stops SpecDom SpecPaint PaintFacts SpecUngroup SpecGroupStyle Melt SpecPrepared SpecShading Shading SpecRamps SpecPicture SpecClean Cli Clean WfAll Props_wf PictureTwin PictureShades.
From Verif Require Push Img UngroupKeep UngroupEnd StyleMove StyleEnd PictureRemarks PictureTail PictureGrad PictureEnd PicturePrep PictureServers TasksSimple UseEnd MergeProofs.
Import ListNotations.
Local Open Scope nat_scope.

(** ** Groups *)
Lemma gradient_not e s : gradient s -> e <> ELinearGradient -> e <> ERadialGradient -> tag (data s) <> TEl e.
Proof. intros [G|G] A B; rewrite G; congruence. Qed.
Lemma steps_shades t t' : UngroupEnd.steps t t' -> shades_kept t t'.
Proof.
  intros H. induction H as [t|t G f t' R HG TG M _ IH|t G t' R HG TG Fr _ IH]; [apply shades_refl| |].
  - apply (shades_trans _ (tmap f t)); [|exact IH]. apply shades_tmap_tag. intros d Hd Q. split; [apply (UngroupKeep.mv_key _ _ _ M)|]. split; [apply (UngroupKeep.mv_tag _ _ _ M)|]. intros a Ha. apply (UngroupKeep.mv_shade _ _ _ M); auto.
    intros E. destruct Q as [Q|[Q|Q]]; apply UseEnd.tag_true in Q; congruence.
  - apply (shades_trans _ (melted t G)); [|exact IH]. intros s Hs Gs O. pose proof (wf_keys t (g_wf t R)) as N.
    assert (Ne : forall x, In x (subs t) -> tag (data x) <> TEl EG -> root_key x <> root_key G). { intros x Hx Tx E. assert (x = G) by (apply (sub_unique t); auto). subst x. apply Tx. exact TG. }
    exists (Img.img (melt (root_key G)) s). split; [apply m_kept; auto; [apply (g_root t R)|]; apply Ne; [exact Hs|]; apply gradient_not; auto; discriminate|]. rewrite Img.data_img. split; [apply alike_shade_refl|].
    rewrite Img.kids_img. assert (K : forall c, In c (kids s) -> root_key c <> root_key G). { intros c Hc. apply Ne; [exact (Push.kid_sub s c t Hs Hc)|]. rewrite (O c Hc). discriminate. }
    revert K. clear. induction (kids s) as [|c l IH]; intros K; [constructor|]. cbn [flat_map]. rewrite UngroupKeep.rpl_melt. destruct (Nat.eqb_spec (root_key c) (root_key G)) as [E|_]; [destruct (K c (or_introl eq_refl) E)|]. cbn [app map]. constructor; [rewrite Img.data_img; apply alike_shade_refl|apply IH; intros z Hz; apply K; now right].
Qed.
(** ** Attributes without a meaning, and ids *)
Lemma find_filter {A} (p q : A -> bool) l : (forall x, In x l -> p x = true -> q x = true) -> find p (filter q l) = find p l.
Proof. induction l as [|x l IH]; [auto|]. intros H. cbn [filter find]. destruct (p x) eqn:P; [rewrite (H x (or_introl eq_refl) P); cbn [find]; now rewrite P|]. destruct (q x); cbn [find]; rewrite ?P; apply IH; intros y Hy; apply H; now right. Qed.
Lemma bare_get d a : In a shade_attrs -> get_attr (attrs (bare_data d)) a = get_attr (attrs d) a.
Proof.
  intros Ha. unfold get_attr, bare_data. cbn [attrs]. apply find_filter. intros x _ Hx. apply PictureTail.hn_iff in Hx. unfold void_attr, has_name. rewrite Hx. cbn [shade_attrs In] in Ha.
  repeat (destruct Ha as [<-|Ha]; [cbn; rewrite ?andb_false_r; reflexivity|]). destruct Ha.
Qed.
Lemma cosmetic_shade d d' : cosmetic d d' -> alike_shade d d'.
Proof.
  intros [_ B]. split; [exact (f_equal key B)|]. split; [exact (f_equal tag B)|]. intros a Ha. rewrite <- (bare_get d' a Ha), <- (bare_get d a Ha). now rewrite B.
Qed.
Lemma cosmetic_ramps t t' : twin cosmetic t t' -> ramps_kept t t'.
Proof. intros W. apply shades_ramps. apply (twin_shades _ t t' (fun d d' H _ => cosmetic_shade d d' H) W). Qed.
Lemma cosmetic_shades t t' : twin cosmetic t t' -> shades_kept t t'.
Proof. intros W. exact (twin_shades _ t t' (fun d d' H _ => cosmetic_shade d d' H) W). Qed.
(** ** What is removed *)
(** Gradients are neither in remarks nor in stops. *)
Definition gradients_seen (t : tree) : Prop := forall a d, In a (subs t) -> remark (data a) = true \/ tag (data a) = TEl EStop -> In d (flat a) -> ~ gradient_el d.
Lemma seen_pruned p t : gradients_seen t -> gradients_seen (pruned p t).
Proof.
  intros H a d Ha Q Hd. apply subs_pruned_incl in Ha. destruct Ha as (b & Hb & ->). rewrite data_pruned in Q. apply (H b d Hb Q). exact (PictureRemarks.pr_flat p b d Hd).
Qed.
Lemma pruned_kept p t s : gradient s -> In s (subs t) -> (forall a, In a (subs t) -> p (data a) = true -> forall d, In d (flat a) -> ~ gradient_el d) -> In (pruned p s) (subs (pruned p t)).
Proof.
  intros G Hs H. apply subs_pruned_keep; [exact Hs|]. intros a Ha Pa Hsa. apply (H a) with (d := data s); [|exact Pa|now apply data_of_sub|exact G]. destruct t as [d ch]. right. exact Ha.
Qed.
Lemma remark_not_stop d : remark d = true -> tag d <> TEl EStop.
Proof. unfold remark, is_tag. intros H E. rewrite E in H. discriminate H. Qed.
Lemma remarks_shades e t : In e [ETitle; EDesc; EMetadata] -> gradients_seen t -> shades_kept t (pruned (is_tag e) t).
Proof.
  intros He V s Hs G O. assert (PR : forall d, is_tag e d = true -> remark d = true) by (intros d Hd; unfold remark; cbn in He; destruct He as [<-|[<-|[<-|[]]]]; rewrite Hd, ?orb_true_r; reflexivity).
  exists (pruned (is_tag e) s). split; [apply pruned_kept; auto; intros a Ha Pa d Hd; apply (V a d Ha); [left; now apply PR|exact Hd]|]. rewrite data_pruned. split; [apply alike_shade_refl|]. rewrite kids_pruned.
  assert (Z : forall c, In c (kids s) -> is_tag e (data c) = false). { intros c Hc. destruct (is_tag e (data c)) eqn:Q; [|reflexivity]. exfalso. exact (remark_not_stop _ (PR _ Q) (O c Hc)). }
  revert Z. clear. induction (kids s) as [|c l IH]; intros Z; [constructor|]. cbn [filter]. rewrite (Z c (or_introl eq_refl)). cbn [negb map]. constructor; [rewrite data_pruned; apply alike_shade_refl|apply IH; intros z Hz; apply Z; now right].
Qed.
Lemma empty_defs_shades t t' : fine t -> defs_apart t -> TasksSimple.remove_empty_defs t = Ok t' -> shades_kept t t'.
Proof.
  intros F D E. pose proof (wf_keys t (fine_wf t F)) as N. unfold TasksSimple.remove_empty_defs, TasksSimple.on_svg in E. destruct (svg_element t) as [s|] eqn:Es; [|discriminate]. apply PictureEnd.svg_kid in Es. destruct Es as [Hs Ts].
  destruct (find _ (kids s)) as [c|] eqn:Ec; injection E as <-; [|apply shades_refl]. apply find_some in Ec. destruct Ec as [Hc Ec]. apply andb_true_iff in Ec. destruct Ec as [Tc Kc]. apply UseEnd.tag_true in Tc.
  assert (K : kids c = []) by (destruct (kids c); [reflexivity|discriminate]). pose proof (Push.kid_sub t s t (subs_self t) Hs) as Hs'. pose proof (Push.kid_sub s c t Hs' Hc) as Hc'.
  assert (Sk : sub_keys (root_key c) t = [root_key c]). { unfold sub_keys. rewrite (find_sub_iff t c N Hc'). destruct c as [dc cc]. cbn in K. subst cc. reflexivity. }
  assert (Er : remove (root_key c) t = pruned (fun d => Nat.eqb (key d) (root_key c)) t).
  { unfold remove. rewrite Sk, MergeProofs.unlink_none; [reflexivity|]. intros d k Hd [<-|[]] R. apply (D (data c)); [now apply data_of_sub|exact Tc|]. exists d. auto. }
  rewrite Er. assert (Only : forall x, In x (subs t) -> Nat.eqb (key (data x)) (root_key c) = true -> x = c) by (intros x Hx Q; apply Nat.eqb_eq in Q; apply (sub_unique t); auto).
  intros g Hg G O. exists (pruned (fun d => Nat.eqb (key d) (root_key c)) g). split; [apply pruned_kept; auto|].
  - intros a Ha Pa d Hd. rewrite (Only a Ha Pa) in Hd. destruct c as [dc cc]. cbn in K. subst cc. destruct Hd as [<-|[]]. cbn in Tc. intros [X|X]; congruence.
  - rewrite data_pruned. split; [apply alike_shade_refl|]. rewrite kids_pruned. assert (Z : forall x, In x (kids g) -> Nat.eqb (key (data x)) (root_key c) = false).
    { intros x Hx. destruct (Nat.eqb _ _) eqn:Q; [|reflexivity]. exfalso. pose proof (Only x (Push.kid_sub g x t Hg Hx) Q) as ->. rewrite (O c Hx) in Tc. discriminate. }
    revert Z. clear. induction (kids g) as [|x l IH]; intros Z; [constructor|]. cbn [filter]. rewrite (Z x (or_introl eq_refl)). cbn [negb map]. constructor; [rewrite data_pruned; apply alike_shade_refl|apply IH; intros z Hz; apply Z; now right].
Qed.
Lemma empty_defs_ramps t t' : fine t -> defs_apart t -> TasksSimple.remove_empty_defs t = Ok t' -> ramps_kept t t'.
Proof. intros F D E. apply shades_ramps. exact (empty_defs_shades t t' F D E). Qed.
(** ** Repeated stops *)
Lemma ascending_weaker l : forall p q, (p <= q)%Qc -> ascending q l -> ascending p l.
Proof. intros p q L A. destruct A as [|x y l H A]; constructor; [eapply Qcle_trans; eauto|exact A]. Qed.
Lemma ascending_filter {A} (f : A -> Qc) (p : A -> bool) l : forall q, ascending q (map f l) -> ascending q (map f (filter p l)).
Proof.
  induction l as [|x l IH]; intros q H; [constructor|]. cbn [map] in H. inversion H as [|? ? ? L A0]; subst. cbn [filter]. destruct (p x); cbn [map].
  - constructor; [exact L|now apply IH].
  - apply (ascending_weaker _ _ _ L). now apply IH.
Qed.
Lemma in_order_filter (p : ndata -> bool) l : in_order (map stop_of l) -> in_order (map stop_of (filter p l)).
Proof.
  unfold in_order. rewrite !map_map. intros [A B]. split; [now apply ascending_filter|]. rewrite Forall_map in *. rewrite Forall_forall in *. intros d Hd. apply filter_In in Hd. now apply B.
Qed.
Lemma own_all s : stops_only s -> own_stops s = map stop_of (map data (kids s)).
Proof. intros O. unfold own_stops. f_equal. apply filter_all. intros d Hd. apply in_map_iff in Hd. destruct Hd as (c & <- & Hc). unfold is_tag. now rewrite (O c Hc). Qed.
Lemma stops_ramps t : NoDup (keys t) -> servers_apart t -> gradients_seen t -> ramps_kept t (remove_invalid_stops t).
Proof.
  intros N V Sn s Hs G O I. rewrite (PictureGrad.invalid_stops_pruned t N V). set (K := stop_keys t). exists (pruned (mem_key K) s). assert (E1 : own_stops (pruned (mem_key K) s) = map stop_of (filter (fun d => negb (mem_key K d)) (map data (kids s)))).
  { rewrite own_all; [|intros c' Hc'; rewrite kids_pruned in Hc'; apply in_map_iff in Hc'; destruct Hc' as (c & <- & Hc); apply filter_In in Hc; rewrite data_pruned; now apply O].
    f_equal. rewrite kids_pruned. rewrite filter_kids_data, !map_map. apply map_ext. intros c. apply data_pruned. }
  split; [|split].
  - apply pruned_kept; auto. intros a Ha Pa d Hd. apply (Sn a d Ha); [right|exact Hd]. exact (PictureGrad.gone_stop t N V a Ha Pa).
  - apply PictureRemarks.pruned_root.
  - now rewrite data_pruned.
  - now rewrite data_pruned.
  - intros c' Hc'. rewrite kids_pruned in Hc'. apply in_map_iff in Hc'. destruct Hc' as (c & <- & Hc). apply filter_In in Hc. rewrite data_pruned. now apply O.
  - rewrite E1. apply in_order_filter. rewrite <- own_all; auto.
  - intros x. rewrite E1, (own_all s O). destruct (map data (kids s)) as [|d0 l] eqn:EK; [reflexivity|].
    assert (NK : NoDup (map key (d0 :: l))). { rewrite <- EK, map_map. exact (StyleMove.kids_nodup t s N Hs). }
    assert (MK : forall d, In d (d0 :: l) -> mem_key K d = mem_key (repeated d0 l) d).
    { intros d Hd. unfold mem_key. apply eq_true_iff_eq. rewrite !mem_in. split.
      - intros H. apply in_flat_map in H. destruct H as (s2 & Hs2 & H). assert (H' := H). apply repeated_stops_in in H'. destruct H' as (G2 & c0 & cs & Ek & H').
        assert (C2 : exists c2, In c2 (kids s2) /\ root_key c2 = key d).
        { apply repeated_in in H'. rewrite map_map in H'. apply in_map_iff in H'. destruct H' as (c2 & E2' & Hc2). exists c2. split; [rewrite Ek; now right|exact E2']. }
        destruct C2 as (c2 & Hc2 & Ec2). rewrite <- EK in Hd. apply in_map_iff in Hd. destruct Hd as (c1 & Ed & Hc1).
        assert (s = s2) by (apply (kid_parent t N s s2 c1 c2); auto; unfold root_key in *; congruence). subst s2.
        rewrite Ek in EK. cbn in EK. injection EK as <- <-. exact H'.
      - intros H. apply in_flat_map. exists s. split; [exact Hs|]. unfold repeated_stops. rewrite (proj2 (is_grad_iff s) G), EK. exact H. }
    inversion NK as [|? ? Nd0 Nl]; subst. cbn [filter]. assert (M0 : mem_key K d0 = false).
    { rewrite MK by (left; reflexivity). unfold mem_key. destruct (existsb _ _) eqn:X; [|reflexivity]. apply mem_in in X. apply repeated_in in X. contradiction. }
    rewrite M0. cbn [negb]. rewrite (repeated_filter l d0 K Nl) by (intros d Hd; apply MK; right; exact Hd).
    cbn [map ramp]. destruct (qltbP x (so (stop_of d0))) as [L|L]; [reflexivity|]. f_equal. now apply dedup_ramp.
Qed.
(** ** Transforms of gradients *)
Lemma apply_gside u d d' : apply_gradient u d = Ok d' -> gside d d'.
Proof.
  intros E. pose proof (PictureGrad.gradient_side u u d d' E) as S. split; [apply S|apply S|apply (PictureServers.sd_get _ _ _ S); cbn; intuition discriminate|].
  intros Ng. unfold apply_gradient in E. destruct (is_grad d) eqn:Gd; [apply PicturePrep.is_grad_iff in Gd; contradiction|]. cbn in E. now injection E as <-.
Qed.
Lemma trans_gside t t' : NoDup (keys t) -> apply_transform_to_gradients t = Ok t' -> twin gside t t'.
Proof. intros N E. unfold apply_transform_to_gradients in E. apply (gv_loop (fun _ => True) apply_gradient (keys t)); auto. intros u d d' _ _. apply apply_gside. Qed.
(** Nothing becomes a gradient, a stop or a remark. *)
Lemma seen_gside t t' : twin gside t t' -> gradients_seen t -> gradients_seen t'.
Proof.
  intros W H a' d' Ha Q Hd. destruct (twin_subs' gside t t' a' W Ha) as (a & Ha0 & X). pose proof (twin_data _ _ _ X) as D. unfold remark, is_tag in Q. rewrite (gs_tag _ _ D) in Q. fold (is_tag ETitle (data a)) (is_tag EDesc (data a)) (is_tag EMetadata (data a)) in Q.
  apply tg_flat in X. clear - X Hd H Ha0 Q. destruct (PicturePrep.f2_back _ _ _ _ X Hd) as (d & Hd0 & Y). intros Z. apply (H a d Ha0 Q Hd0). unfold gradient_el in *. now rewrite <- (gs_tag _ _ Y).
Qed.
