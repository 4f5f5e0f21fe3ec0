(** Ungrouping keeps the conditions of [gready]. *)
From Coq Require Import List Bool NArith Arith ZArith String Lia QArith Qcanon Permutation.
From Verif Require Import Names Num Value Dom DomFacts DomOps Outcome MoveFacts SpecDom SpecStyle SpecText Visit SpecPaint PaintFacts SpecUse Img UseProofs UseStep Push Melt SpecUngroup UngroupProofs SpecShading.
Import ListNotations.
Local Open Scope nat_scope.

Lemma refers_lk d k : attrs_nodup d -> (refers_to d k <-> exists n v, lk n (attrs d) = Some v /\ link_of v = Some k).
Proof.
  intros N. split.
  - intros (x & Hx & E). exists (a_name x), (a_val x). split; [now apply lk_in|exact E].
  - intros (n & v & L & E). apply lk_some in L. destruct L as (x & Hx & _ & <-). exists x. auto.
Qed.
Lemma flat_below s d : In d (inside s) -> In d (flat s).
Proof. intros H. rewrite (tree_split s). right. exact H. Qed.
Lemma inside_sub s x t : In s (subs t) -> In x (inside s) -> In x (flat t).
Proof. intros Hs H. apply flat_below in H. rewrite <- map_data_subs in H. apply in_map_iff in H. destruct H as (y & <- & Hy). apply data_of_sub. exact (subs_trans t s y Hs Hy). Qed.
Lemma inside_tmap f s : inside (tmap f s) = map f (inside s).
Proof. unfold inside. destruct s as [d ch]. cbn [tmap kids]. induction ch as [|c ch IH]; [reflexivity|]. cbn [map flat_map]. now rewrite flat_tmap, IH, map_app. Qed.
Lemma place_flat a0 t a s : In (a, s) (places a0 t) -> forall p, In p a -> In p a0 \/ In p (flat t).
Proof.
  revert a0. induction t as [d ch IH] using tree_ind'. intros a0 [H|H] p Hp; [inversion H; subst; now left|]. apply in_flat_map in H. destruct H as (c & Hc & H). rewrite Forall_forall in IH. destruct (IH c Hc _ H p Hp) as [[<-|Q]|Q]; [right; now left|now left|right]. right. apply in_flat_map. eauto.
Qed.

Lemma places_tmap_inv f t : (forall d, key (f d) = key d) -> forall a0 a s', In (a, s') (places (map f a0) (tmap f t)) -> exists b s, In (b, s) (places a0 t) /\ a = map f b /\ s' = tmap f s.
Proof.
  intros K. induction t as [d ch IH] using tree_ind'. intros a0 a s' [H|H].
  - inversion H; subst. exists a0, (T d ch). split; [now left|auto].
  - apply in_flat_map in H. destruct H as (c' & Hc & H). apply in_map_iff in Hc. destruct Hc as (c & <- & Hc). rewrite Forall_forall in IH. destruct (IH c Hc (d :: a0) a s' H) as (b & s & A & B & C). exists b, s. split; [|auto]. right. apply in_flat_map. eauto.
Qed.

(** ** Moving attributes *)
Record moves (t G : tree) (f : ndata -> ndata) : Prop := {
  mv_key : forall d, key (f d) = key d;
  mv_tag : forall d, tag (f d) = tag d;
  mv_id : forall d, nid (f d) = nid d;
  mv_nodup : forall d, In d (flat t) -> attrs_nodup (f d);
  mv_val : forall d n v, In d (flat t) -> lk n (attrs (f d)) = Some v ->
    lk n (attrs d) = Some v \/
    ((d = data G \/ In d (map data (kids G))) /\ exists a, n = AN a /\
      (d_get (data G) a = Some v \/
       (a = AOpacity /\ exists x, v = VNum x /\ (0 <= x)%Qc /\ (x <= 1)%Qc) \/
       (a = ATransform /\ (exists m, v = VTransform m) /\ (d_get d ATransform <> None \/ d_get (data G) ATransform <> None))));
  mv_shade : forall d a, In d (flat t) -> tag d <> TEl EG -> In a shade_attrs -> get_attr (attrs (f d)) a = get_attr (attrs d) a
}.
Lemma num_no_link x : link_of (VNum x) = None. Proof. reflexivity. Qed.

Section Moves.
  Variables t G : tree.
  Variable f : ndata -> ndata.
  Hypothesis R : gready t.
  Hypothesis HG : In G (subs t).
  Hypothesis TG : group G.
  Hypothesis M : moves t G f.
  Let t' := tmap f t.
  Let Kf := mv_key _ _ _ M. Let Tf := mv_tag _ _ _ M.
  Lemma N0 : NoDup (keys t). Proof. exact (wf_keys t (g_wf t R)). Qed.
  Lemma nd d : In d (flat t) -> attrs_nodup d. Proof. exact (proj1 (Forall_forall _ _) (g_wfa t R) d). Qed.
  Lemma mv_refs d k : In d (flat t) -> refers_to (f d) k -> refers_to d k \/ refers_to (data G) k.
  Proof.
    intros Hd H. apply refers_lk in H; [|now apply (mv_nodup _ _ _ M)]. destruct H as (n & v & L & E). destruct (mv_val _ _ _ M d n v Hd L) as [A|(_ & a & -> & [A|[(_ & x & -> & _)|(_ & (m & ->) & _)]])]; [left|right|discriminate|discriminate]; (apply refers_lk; [apply nd; auto; now apply data_of_sub|]). { eauto. } exists (AN a), v. rewrite <- get_lk. auto.
  Qed.
  Lemma mv_referenced k : referenced t' k -> referenced t k.
  Proof.
    intros (d' & Hd' & Rk). unfold t' in Hd'. rewrite flat_tmap in Hd'. apply in_map_iff in Hd'. destruct Hd' as (d & <- & Hd). destruct (mv_refs d k Hd Rk) as [A|A]; [exists d; auto|exists (data G); split; [now apply data_of_sub|exact A]].
  Qed.
  Lemma shape_tag d : shape_el (f d) -> shape_el d. Proof. intros (e & A & B). exists e. rewrite Tf in A. auto. Qed.
  Lemma hollow_tmap s : not_hollow s -> not_hollow (tmap f s).
  Proof. intros (d & A & B). exists (f d). rewrite inside_tmap, Tf. split; [now apply in_map|exact B]. Qed.
  Lemma mv_get d a v : In d (flat t) -> d_get (f d) a = Some v -> d_get d a = Some v \/
    ((d = data G \/ In d (map data (kids G))) /\ (d_get (data G) a = Some v \/ (a = AOpacity /\ exists x, v = VNum x /\ (0 <= x)%Qc /\ (x <= 1)%Qc) \/ (a = ATransform /\ (exists m, v = VTransform m) /\ (d_get d ATransform <> None \/ d_get (data G) ATransform <> None)))).
  Proof.
    intros Hd L. rewrite get_lk in L. destruct (mv_val _ _ _ M d (AN a) v Hd L) as [A|(D & b & E & A)]; [left; now rewrite get_lk|]. inversion E; subst b. auto.
  Qed.
  Lemma data_tm s : data (tmap f s) = f (data s). Proof. destruct s; reflexivity. Qed.
  Lemma group_tm s : group (tmap f s) <-> group s. Proof. unfold group. now rewrite data_tm, Tf. Qed.
  Lemma sub_tm s' : In s' (subs t') -> exists s, In s (subs t) /\ s' = tmap f s.
  Proof. unfold t'. rewrite subs_tmap. intros H. apply in_map_iff in H. destruct H as (s & <- & Hs). eauto. Qed.
  Lemma flat_tm d' : In d' (flat t') -> exists d, In d (flat t) /\ d' = f d.
  Proof. unfold t'. rewrite flat_tmap. intros H. apply in_map_iff in H. destruct H as (s & <- & Hs). eauto. Qed.
  Lemma cond_not_moved a : In a condition_attrs -> a <> AOpacity /\ a <> ATransform.
  Proof. cbn. intuition (subst; discriminate). Qed.
  Lemma given_of d l : (forall a, In a l -> d_get d a = None) -> given d l = [].
  Proof. intros H. unfold given. induction l as [|a l IH]; [reflexivity|]. cbn. rewrite H by now left. cbn. apply IH. intros b Hb. apply H. now right. Qed.
  Lemma kid_of_G d : d = data G \/ In d (map data (kids G)) -> d = data G \/ In d (inside G).
  Proof. intros [A|A]; [now left|right]. apply in_map_iff in A. destruct A as (c & <- & Hc). apply in_flat_map. exists c. split; [exact Hc|apply flat_self]. Qed.
  Lemma gready_moved : gready t'.
  Proof.
    assert (HdG : In (data G) (flat t)) by now apply data_of_sub. split.
    - split; [unfold t'; rewrite keys_tmap; [exact N0|exact Kf]|]. intros k Hk. apply targets_in in Hk. destruct Hk as (d' & x & Hd' & Hx & E). assert (Rk : referenced t' k) by (exists d'; split; [exact Hd'|exists x; auto]). apply mv_referenced in Rk. destruct Rk as (d & Hd & y & Hy & Ey). unfold t'. rewrite keys_tmap by exact Kf. apply (wf_links t (g_wf t R)). apply targets_in. eauto.
    - apply Forall_forall. intros d' Hd'. destruct (flat_tm d' Hd') as (d & Hd & ->). now apply (mv_nodup _ _ _ M).
    - unfold t'. rewrite data_tm, Tf. apply (g_root t R).
    - destruct (g_svg t R) as (s & E). exists (tmap f s). revert E. unfold svg_element, t'. rewrite kids_tmap. generalize (kids t) as l. induction l as [|c l IH]; [discriminate|]. cbn [find map]. rewrite data_tm. assert (X : is_tag ESvg (f (data c)) = is_tag ESvg (data c)) by (unfold is_tag; now rewrite Tf). rewrite X. destruct (is_tag ESvg (data c)); [intros Z; now inversion Z|exact IH].
    - intros c' Hc'. unfold t' in Hc'. rewrite kids_tmap in Hc'. apply in_map_iff in Hc'. destruct Hc' as (c & <- & Hc). rewrite group_tm. now apply (g_top t R).
    - intros d' n' Hd' Hn' Rk. destruct (flat_tm n' Hn') as (n & Hn & ->). rewrite Kf in Rk. assert (Rk' : referenced t (key n)) by (apply mv_referenced; exists d'; auto). destruct Rk' as (d & Hd & Rd). destruct (g_ids t R d n Hd Hn Rd) as [A B]. rewrite (mv_id _ _ _ M). split; [exact A|]. intros x' Hx' E. destruct (flat_tm x' Hx') as (x & Hx & ->). rewrite (mv_id _ _ _ M) in E. now rewrite (B x Hx E).
    - intros a' s' p' P G' Hp S. destruct (places_tmap_inv f t Kf [] a' s' P) as (a & s & P0 & -> & ->). apply in_map_iff in Hp. destruct Hp as (p & <- & Hp). apply (g_shape t R a s p P0); [now apply group_tm|exact Hp|now apply shape_tag].
    - intros a' s' p' P G' Hp Tp. destruct (places_tmap_inv f t Kf [] a' s' P) as (a & s & P0 & -> & ->). apply in_map_iff in Hp. destruct Hp as (p & <- & Hp). rewrite Tf in Tp. apply (proj1 (group_tm _)) in G'. destruct (g_switch t R a s p P0 G' Hp Tp) as [A B]. split; [now apply hollow_tmap|]. intros c' Hc'. rewrite kids_tmap in Hc'. apply in_map_iff in Hc'. destruct Hc' as (c & <- & Hc). destruct (B c Hc) as [B1 B2]. rewrite data_tm. split; [unfold element; now rewrite Tf|].
      apply given_of. intros b Hb. destruct (d_get (f (data c)) b) as [v|] eqn:L; [|reflexivity]. exfalso. assert (Hc' : In (data c) (flat t)) by (apply data_of_sub; apply (kid_sub s); [exact (place_sub _ _ _ _ P0)|exact Hc]).
      destruct (cond_not_moved b Hb) as [C1 C2]. destruct (mv_get (data c) b v Hc' L) as [A1|(_ & [A1|[(A1 & _)|(A1 & _)]])]; try contradiction.
      + rewrite (given_nil _ _ B2 b Hb) in A1. discriminate.
      + destruct (g_attrs t R (data G) b v HdG TG A1) as (_ & Q & _). contradiction.
    - intros s' Hs' G' Rk. destruct (sub_tm s' Hs') as (s & Hs & ->). apply hollow_tmap. apply (g_used t R s Hs); [now apply group_tm|]. apply mv_referenced. unfold root_key in *. rewrite data_tm, Kf in Rk. exact Rk.
    - intros d' a v Hd' Tg L. destruct (flat_tm d' Hd') as (d & Hd & ->). rewrite Tf in Tg. destruct (mv_get d a v Hd L) as [A|(_ & [A|[(-> & x & -> & _)|(-> & (m & ->) & _)]])]; [exact (g_attrs t R d a v Hd Tg A)|exact (g_attrs t R (data G) a v HdG TG A)| |]; (split; [reflexivity|split; [cbn; intuition discriminate|split; [discriminate|cbn; intuition discriminate]]]).
    - intros d' v Hd' L. destruct (flat_tm d' Hd') as (d & Hd & ->). destruct (mv_get d AOpacity v Hd L) as [A|(_ & [A|[(_ & A)|(A & _)]])]; [exact (g_opacity t R d v Hd A)|exact (g_opacity t R _ v HdG A)|exact A|discriminate].
    - intros d' v Hd' L. destruct (flat_tm d' Hd') as (d & Hd & ->). destruct (mv_get d ATransform v Hd L) as [A|(_ & [A|[(A & _)|(_ & A & _)]])]; [exact (g_trans t R d v Hd A)|exact (g_trans t R _ v HdG A)|discriminate|exact A].
    - intros s' d' Hs' G' Hd' Rd. destruct (sub_tm s' Hs') as (s & Hs & ->). rewrite inside_tmap in Hd'. apply in_map_iff in Hd'. destruct Hd' as (d & <- & Hd). apply (g_below t R s d Hs); [now apply group_tm|exact Hd|]. destruct Rd as (e & A & B). exists e. rewrite Tf in A. auto.
    - intros s' d' Hs' G' Ht Hd'. destruct (sub_tm s' Hs') as (s & Hs & ->). rewrite inside_tmap in Hd'. apply in_map_iff in Hd'. destruct Hd' as (d & <- & Hd). apply (proj1 (group_tm _)) in G'. rewrite Tf, Kf. rewrite data_tm in Ht. destruct (d_get (f (data s)) ATransform) as [v|] eqn:L; [|congruence].
      assert (Z : tag d <> TEl ESvg /\ ~ referenced t (key d)); [|split; [apply Z|intros X; apply Z; now apply mv_referenced]].
      assert (Own : d_get (data s) ATransform <> None -> tag d <> TEl ESvg /\ ~ referenced t (key d)) by (intros Q; exact (g_moved t R s d Hs G' Q Hd)).
      destruct (mv_get (data s) ATransform v (data_of_sub s t Hs) L) as [A|(D & A)]; [apply Own; congruence|].
      assert (TGs : d_get (data s) ATransform <> None \/ d_get (data G) ATransform <> None) by (destruct A as [A|[(A & _)|(_ & _ & A)]]; [right; congruence|discriminate|exact A]). destruct TGs as [Q|Q]; [now apply Own|].
      apply (g_moved t R G d HG TG Q). apply kid_of_G in D. destruct D as [D|D].
      + assert (s = G) by (apply (sub_unique t); auto; [exact N0|unfold root_key; now rewrite D]). now subst s.
      + unfold inside in D. apply in_flat_map in D. destruct D as (c & Hc & D). rewrite <- map_data_subs in D. apply in_map_iff in D. destruct D as (y & Ey & Hy). assert (y = s). { apply (sub_unique t); auto; [exact N0| |unfold root_key; now rewrite Ey]. apply (subs_trans t G y HG). apply in_kids_subs. apply in_flat_map. eauto. } subst y.
        apply in_flat_map. exists c. split; [exact Hc|]. apply flat_below in Hd. rewrite <- map_data_subs in Hd. apply in_map_iff in Hd. destruct Hd as (z & <- & Hz). apply data_of_sub. exact (subs_trans c s z Hy Hz).
  Qed.
End Moves.

(** ** Removing a group *)
Lemma rpl_melt k c : rpl (melt k) c = if Nat.eqb (root_key c) k then kids c else [img (melt k) c].
Proof. unfold rpl, melt at 1. now destruct (Nat.eqb (root_key c) k). Qed.
Lemma inside_melt k s d : In d (inside (img (melt k) s)) -> In d (inside s).
Proof.
  induction s as [d0 ch IH] using tree_ind'. unfold inside. rewrite kids_img. cbn [kids]. intros H. apply in_flat_map in H. destruct H as (x & Hx & H). apply in_flat_map in Hx. destruct Hx as (c & Hc & Hx). apply in_flat_map. exists c. split; [exact Hc|]. rewrite rpl_melt in Hx. destruct (Nat.eqb (root_key c) k).
  - apply flat_below. apply in_flat_map. eauto.
  - destruct Hx as [<-|[]]. rewrite Forall_forall in IH. rewrite (tree_split (img (melt k) c)) in H. destruct H as [<-|H]; [rewrite data_img; apply flat_self|]. apply flat_below. now apply IH.
Qed.
Lemma inside_melt_in k s d : In d (inside s) -> key d <> k -> In d (inside (img (melt k) s)).
Proof.
  induction s as [d0 ch IH] using tree_ind'. intros H Q. unfold inside in *. rewrite kids_img. cbn [kids] in *. apply in_flat_map in H. destruct H as (c & Hc & H). rewrite flat_map_flat_map. apply in_flat_map. exists c. split; [exact Hc|]. rewrite rpl_melt. rewrite Forall_forall in IH. rewrite (tree_split c) in H. destruct (Nat.eqb_spec (root_key c) k) as [E|E].
  - destruct H as [<-|H]; [destruct (Q E)|exact H].
  - cbn [flat_map]. rewrite app_nil_r. destruct H as [<-|H]; [rewrite <- (data_img (melt k) c); apply flat_self|]. apply flat_below. now apply IH.
Qed.

Section Melts.
  Variables t G : tree.
  Hypothesis R : gready t.
  Hypothesis HG : In G (subs t).
  Hypothesis TG : group G.
  Hypothesis Free : ~ referenced t (root_key G).
  Let t' := melted t G.
  Let g := melt (root_key G).
  Let N := wf_keys t (g_wf t R).
  Let Rt := g_root t R.
  Lemma ml_flat d : In d (flat t') <-> In d (flat t) /\ key d <> root_key G.
  Proof. exact (m_flat t G N HG TG Rt d). Qed.
  Lemma ml_sub s' : In s' (subs t') -> exists s, In s (subs t) /\ root_key s <> root_key G /\ s' = img g s.
  Proof. exact (m_sub t G N HG TG Rt s'). Qed.
  Lemma ml_back a s' : In (a, s') (places [] t') -> exists a0 s, In (a0, s) (places [] t) /\ root_key s <> root_key G /\ s' = img g s /\ forall p, In p a -> In p a0.
  Proof.
    intros P. destruct (m_back t G N HG TG Rt a s' P) as (a0 & s & P0 & Q & E & C). exists a0, s. repeat (split; [assumption|]). intros p Hp. destruct C as [->|(b & aG & -> & -> & _)]; [exact Hp|]. apply in_app_or in Hp. apply in_or_app. destruct Hp; [now left|right; now right].
  Qed.
  Lemma ml_ref k : referenced t' k -> referenced t k.
  Proof. intros (d & Hd & Q). apply ml_flat in Hd. exists d. tauto. Qed.
  Lemma ml_hollow s : not_hollow s -> In s (subs t) -> not_hollow (img g s).
  Proof.
    intros (d & A & B) Hs. exists d. split; [|exact B]. apply inside_melt_in; [exact A|]. intros E. apply B. assert (d = data G); [|subst d; exact TG]. apply (data_unique t); auto; [exact (inside_sub s d t Hs A)|now apply data_of_sub].
  Qed.
  Lemma group_img s : group (img g s) <-> group s. Proof. unfold group. now rewrite data_img. Qed.
  Lemma G_no_top c : In c (kids t) -> root_key c <> root_key G.
  Proof. intros Hc E. apply (g_top t R c Hc). assert (c = G); [|subst c; exact TG]. apply (sub_unique t); auto. apply (kid_sub t c t); [apply subs_self|exact Hc]. Qed.
  Lemma rpl_not c : root_key c <> root_key G -> rpl g c = [img g c].
  Proof. intros E. unfold g. rewrite rpl_melt. destruct (Nat.eqb_spec (root_key c) (root_key G)); [contradiction|reflexivity]. Qed.
  Lemma gready_melted : gready t'.
  Proof.
    split.
    - split; [exact (m_nodup t G N HG TG Rt)|]. intros k Hk. apply targets_in in Hk. destruct Hk as (d & x & Hd & Hx & E). assert (Rk : referenced t k) by (apply ml_ref; exists d; split; [exact Hd|exists x; auto]). apply (m_key t G N HG TG Rt). split; [|intros ->; contradiction]. apply ml_flat in Hd. apply (wf_links t (g_wf t R)). apply targets_in. exists d, x. tauto.
    - apply Forall_forall. intros d Hd. apply ml_flat in Hd. apply (proj1 (Forall_forall _ _) (g_wfa t R) d). tauto.
    - unfold t', melted. rewrite data_img. exact Rt.
    - destruct (g_svg t R) as (s & E). exists (img g s). exact (m_svg t G G_no_top s E).
    - intros c' Hc'. unfold t', melted in Hc'. rewrite kids_img in Hc'. apply in_flat_map in Hc'. destruct Hc' as (c & Hc & Hc'). pose proof (rpl_not c (G_no_top c Hc)) as Er. unfold g in Er. rewrite Er in Hc'. destruct Hc' as [<-|[]]. intros X. apply (g_top t R c Hc). now apply group_img.
    - intros d n Hd Hn Rk. apply ml_flat in Hd, Hn. destruct (g_ids t R d n (proj1 Hd) (proj1 Hn) Rk) as [A B]. split; [exact A|]. intros x Hx E. apply ml_flat in Hx. now apply B.
    - intros a s' p P G' Hp S. destruct (ml_back a s' P) as (a0 & s & P0 & _ & -> & I). apply (g_shape t R a0 s p P0); auto. now apply group_img.
    - intros a s' p P G' Hp Tp. destruct (ml_back a s' P) as (a0 & s & P0 & Q & -> & I). apply (proj1 (group_img _)) in G'. pose proof (place_sub _ _ _ _ P0) as Hs. destruct (g_switch t R a0 s p P0 G' (I p Hp) Tp) as [A B]. split; [now apply ml_hollow|]. intros c' Hc'. rewrite kids_img in Hc'. apply in_flat_map in Hc'. destruct Hc' as (c & Hc & Hc').
      destruct (Nat.eq_dec (root_key c) (root_key G)) as [E|E]; [|rewrite (rpl_not c E) in Hc'; destruct Hc' as [<-|[]]; rewrite data_img; now apply B].
      assert (c = G) by (apply (sub_unique t); auto; exact (kid_sub s c t Hs Hc)). subst c. unfold g in Hc'. rewrite rpl_melt, Nat.eqb_refl in Hc'. pose proof (place_kid t [] a0 s G P0 Hc) as PG. destruct (g_switch t R (data s :: a0) G p PG TG (or_intror (I p Hp)) Tp) as [_ B2]. now apply B2.
    - intros s' Hs' G' Rk. destruct (ml_sub s' Hs') as (s & Hs & Q & ->). apply ml_hollow; [|exact Hs]. apply (g_used t R s Hs); [now apply group_img|]. apply ml_ref. now rewrite root_img in Rk.
    - intros d a v Hd Tg L. apply ml_flat in Hd. apply (g_attrs t R d); tauto.
    - intros d v Hd L. apply ml_flat in Hd. apply (g_opacity t R d); tauto.
    - intros d v Hd L. apply ml_flat in Hd. apply (g_trans t R d); tauto.
    - intros s' d Hs' G' Hd. destruct (ml_sub s' Hs') as (s & Hs & Q & ->). apply (g_below t R s d Hs); [now apply group_img|]. now apply inside_melt in Hd.
    - intros s' d Hs' G' Ht Hd. destruct (ml_sub s' Hs') as (s & Hs & Q & ->). apply inside_melt in Hd. rewrite data_img in Ht. destruct (g_moved t R s d Hs (proj1 (group_img s) G') Ht Hd) as [A B]. split; [exact A|]. intros X. apply B. now apply ml_ref.
  Qed.
  Lemma melted_length : List.length (keys t') < List.length (keys t).
  Proof.
    assert (I : incl (root_key G :: keys t') (keys t)). { intros k [<-|K]; [now apply key_in_sub|]. apply (m_key t G N HG TG Rt) in K. tauto. }
    assert (ND : NoDup (root_key G :: keys t')) by (constructor; [intros K; apply (m_key t G N HG TG Rt) in K; tauto|exact (m_nodup t G N HG TG Rt)]). apply NoDup_incl_length in I; [|exact ND]. cbn in I. lia.
  Qed.
End Melts.
