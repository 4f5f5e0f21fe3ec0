(** Sharing equal stop lists: the rounds together and the last step. *)
From Coq Require Import List Bool NArith Arith ZArith String Lia Permutation.
From Verif Require Import Names Num Value Dom DomFacts DomOps DomRemove Outcome APass SpecDom SpecText Visit Move MoveFacts GroupDefsProofs GroupDefsEnd GradUnits SpecGradients SpecWritten SpecGradUnits GradProofs GradTransProofs GradUnitsProofs SpecDupl Dupl DuplProofs Graft SpecMerge MergeProofs Stops Transforms VLoop Gradients Props_gradients Regroup SpecRegroup RegroupProofs.
Import ListNotations.
Local Open Scope nat_scope.

Record rrel (t t' : tree) : Prop := {
  q_outs : outs [] t' = outs [] t;
  q_old : forall a s, In (a, s) (gpl [] t) -> exists s', In (a, s') (gpl [] t') /\ extended (data s) (data s');
  q_grads : forall a s', In (a, s') (gpl [] t') -> (exists s, In (a, s) (gpl [] t) /\ extended (data s) (data s')) \/
    (tag (data s') = TEl ELinearGradient /\ nid (data s') <> ""%string /\ forall x, In x (attrs (data s')) -> a_name x = AN AXlinkHref \/ a_vis x = false);
  q_inner : forall s' d, In s' (gsubs t') -> In d (flat_map flat (kids s')) -> exists s, In s (gsubs t) /\ In d (flat_map flat (kids s));
  q_ids : unique_ids t -> unique_ids t';
  q_paint : forall d, In d (flat t) -> gradient_node d -> same_paint (written t) (key d) (written t') (key d)
}.
Lemma extended_refl d : extended d d.
Proof. split; [reflexivity|]. split; [reflexivity|]. split; [reflexivity|]. split; [apply incl_refl|auto]. Qed.
Lemma extended_trans a b c : extended a b -> extended b c -> extended a c.
Proof.
  intros (A1 & A2 & A3 & A4 & A5) (B1 & B2 & B3 & B4 & B5). split; [congruence|]. split; [congruence|]. split; [congruence|]. split; [exact (incl_tran A4 B4)|]. intros x Hx. destruct (B5 x Hx) as [H|[[H H']|H]]; [exact (A5 x H)| |auto]. right. left. split; [exact H|].
  rewrite dget_attr in *. destruct (get_attr (attrs a) AXlinkHref) as [y|] eqn:E; [|reflexivity]. exfalso. destruct (get_attr_some _ _ _ E) as [P Q]. apply A4 in P. destruct (get_attr (attrs b) AXlinkHref) as [z|] eqn:F; [discriminate|]. exact (proj1 (get_attr_none _ _) F y P Q).
Qed.
Lemma rrel_refl t : rrel t t.
Proof.
  constructor; auto.
  - intros a s H. exists s. split; [exact H|apply extended_refl].
  - intros a s H. left. exists s. split; [exact H|apply extended_refl].
  - intros s d Hs Hd. eauto.
  - intros d H _. exact (same_paint_refl (written t) (vis d) (in_w t d H)).
Qed.
Lemma grad_place t d : unnested t -> In d (flat t) -> gradient_node d -> exists a s, In (a, s) (gpl [] t) /\ data s = d.
Proof.
  intros U H G. rewrite <- map_data_subs in H. apply in_map_iff in H. destruct H as (s & <- & Hs). assert (Gs : In s (gsubs t)) by (apply grad_sub; [exact U|exact Hs|now apply gradient_iff]). apply gpl_gsubs in Gs. destruct Gs as (a & Gs). eauto.
Qed.
Lemma rrel_grad t t' d : unnested t -> rrel t t' -> In d (flat t) -> gradient_node d -> exists d', In d' (flat t') /\ extended d d'.
Proof.
  intros U Q H G. destruct (grad_place t d U H G) as (a & s & Hs & <-). destruct (q_old _ _ Q a s Hs) as (s' & Hs' & E). exists (data s'). split; [|exact E]. apply gsub_flat. apply gpl_gsubs. eauto.
Qed.
Lemma rrel_trans t t1 t2 : rready t -> rready t1 -> rrel t t1 -> rrel t1 t2 -> rrel t t2.
Proof.
  intros R R1 A B. pose proof (wf_keys _ (rr_wf _ R1)) as N1. constructor.
  - rewrite (q_outs _ _ B). apply (q_outs _ _ A).
  - intros a s H. destruct (q_old _ _ A _ _ H) as (s1 & H1 & X1). destruct (q_old _ _ B _ _ H1) as (s2 & H2 & X2). exists s2. split; [exact H2|]. exact (extended_trans _ _ _ X1 X2).
  - intros a s2 H. destruct (q_grads _ _ B _ _ H) as [(s1 & H1 & X1)|X]; [|now right]. destruct (q_grads _ _ A _ _ H1) as [(s & Hs & X)|(X & Y & Z)]; [left; exists s; split; [exact Hs|exact (extended_trans _ _ _ X X1)]|right].
    destruct X1 as (_ & B2 & B3 & _ & B5). rewrite B2, B3. split; [exact X|]. split; [exact Y|]. intros x Hx. destruct (B5 x Hx) as [P|[[P _]|P]]; auto.
  - intros s2 d H2 Hd. destruct (q_inner _ _ B _ _ H2 Hd) as (s1 & H1 & Hd1). exact (q_inner _ _ A _ _ H1 Hd1).
  - intros H. apply (q_ids _ _ B), (q_ids _ _ A), H.
  - intros d Hd G. apply (same_paint_trans (written t) (key d) (written t1) (key d)); [unfold written; rewrite keys_tmap; [exact N1|reflexivity]|exact (q_paint _ _ A d Hd G)|].
    destruct (rrel_grad t t1 d (rready_unnested t R) A Hd G) as (d1 & H1 & E1 & T1 & _). rewrite <- E1. apply (q_paint _ _ B d1 H1). exact (tag_grad _ _ T1 G).
Qed.
Lemma rrel_regrouped t t' : unnested t -> unnested t' -> rrel t t' -> regrouped t t'.
Proof.
  intros U U' Q. constructor.
  - intros a d H. assert (X : forall T, In (a, d) (ctx [] T) <-> In (a, d) (outs [] T)).
    { intros T. rewrite outs_ctx0. split; [|now intros [X _]]. intros X. split; [exact X|]. intros q Hq. apply not_true_is_false. intros E. apply H. exists q. split; [exact Hq|now apply gradient_iff]. }
    rewrite !X, (q_outs _ _ Q). reflexivity.
  - intros a d G H. apply (gpl_ctx t a d U) in H; [|now apply gradient_iff]. destruct H as (s & Hs & <-). destruct (q_old _ _ Q _ _ Hs) as (s' & Hs' & X). exists (data s'). split; [|exact X]. apply (gpl_ctx t' a (data s') U'); [|eauto]. apply gradient_iff. destruct X as (_ & X & _). exact (tag_grad _ _ X G).
  - intros a d' G H. apply (gpl_ctx t' a d' U') in H; [|now apply gradient_iff]. destruct H as (s' & Hs' & <-). destruct (q_grads _ _ Q _ _ Hs') as [(s & Hs & X)|X]; [left|now right]. exists (data s). split; [|exact X]. apply (gpl_ctx t a (data s) U); [|eauto]. apply gradient_iff. destruct X as (_ & X & _). exact (tag_grad _ _ (eq_sym X) G).
  - exact (q_ids _ _ Q).
  - intros a d' (q & Hq & G) H. destruct (proj1 (inner_ctx t' d' U')) as (s' & Hs' & Hd'); [exists a, q; split; [exact H|]; split; [exact Hq|now apply gradient_iff]|]. destruct (q_inner _ _ Q _ _ Hs' Hd') as (s & Hs & Hd). destruct (proj2 (inner_ctx t d' U)) as (a0 & q0 & H0 & Hq0 & G0); [eauto|]. exists a0. split; [exact H0|]. exists q0. split; [exact Hq0|now apply gradient_iff].
  - exact (q_paint _ _ Q).
Qed.
(** ** One round *)
Lemma lkc_extended t s1 js d : extended d (lkc t s1 js d) \/ ~ d_get d AXlinkHref = None.
Proof.
  destruct (d_get d AXlinkHref) eqn:F; [right; discriminate|left]. split; [apply lkc_key|]. split; [apply lkc_tag|]. split; [apply lkc_nid|]. unfold lkc. destruct (_ || _); [|split; [apply incl_refl|auto]]. rewrite lk_attrs by exact F. split; [intros x Hx; apply in_app_iff; now left|]. intros x Hx. apply in_app_iff in Hx. destruct Hx as [Hx|[<-|[]]]; auto.
Qed.
Section Round.
Variables (t s1 : tree) (js : list nat).
Hypothesis R : rready t.
Hypothesis H1 : In s1 (gsubs t).
Hypothesis F1 : d_get (data s1) AXlinkHref = None.
Hypothesis C1 : kids s1 <> [].
Hypothesis HJ : forall j, In j js -> j <> root_key s1 /\ exists s, In s (gsubs t) /\ root_key s = j /\ d_get (data s) AXlinkHref = None /\ kids s <> [] /\ is_equal_stops s1 s = true.
Variable t1 : tree.
Hypothesis E1 : [t1] = rgf (GG t s1 js) t.
Let N : NoDup (keys t) := wf_keys t (rr_wf _ R).
Let U : unnested t := rready_unnested t R.
Lemma ext_sub s : In s (gsubs t) -> extended (data s) (lkc t s1 js (data s)).
Proof.
  intros Hs. destruct (lkc_extended t s1 js (data s)) as [H|H]; [exact H|]. destruct (linked_dec s1 js (root_key s)) as [L|L].
  - exfalso. apply H. exact (proj1 (linked_sub t s1 js R H1 F1 C1 HJ s Hs L)).
  - rewrite lkc_no by exact L. apply extended_refl.
Qed.
Lemma round_rel : rrel t t1.
Proof.
  constructor.
  - exact (outs1 t s1 js t1 E1 []).
  - intros a s H. assert (Hs : In s (gsubs t)) by (apply gpl_gsubs; eauto). destruct (GG_old t s1 js s Hs) as (u & Hu & E). exists u. split; [|rewrite E; now apply ext_sub]. rewrite (gpl1 t s1 js t1 E1). apply in_flat_map. exists (a, s). split; [exact H|]. apply in_map_iff. exists u. auto.
  - intros a s' H. rewrite (gpl1 t s1 js t1 E1) in H. apply in_flat_map in H. destruct H as ([b s] & H & H'). apply in_map_iff in H'. destruct H' as (u & E & Hu). cbn in E, Hu. inversion E; subst. assert (Hs : In s (gsubs t)) by (apply gpl_gsubs; eauto).
    destruct (GG_cases t s1 js s s' Hs Hu) as [[_ ->]|[[_ ->]|[L ->]]].
    + right. cbn. split; [reflexivity|]. split; [apply gen_id_nonempty|]. intros x [].
    + left. exists s. split; [exact H|]. cbn [data]. now apply ext_sub.
    + left. exists s. split; [exact H|apply extended_refl].
  - exact (inner_t1 t s1 js H1 t1 E1).
  - intros I d d' Hd Hd' E Ne. destruct (flat1_inv t s1 js R H1 F1 C1 HJ t1 E1 d Hd) as [->|(x & Hx & ->)], (flat1_inv t s1 js R H1 F1 C1 HJ t1 E1 d' Hd') as [->|(x' & Hx' & ->)]; [reflexivity| | |]; rewrite ?lkc_nid in *; cbn in E, Ne.
    + exfalso. apply (gen_id_free "lg" t). rewrite E. now apply in_map.
    + exfalso. apply (gen_id_free "lg" t). rewrite <- E. now apply in_map.
    + rewrite (I x x' Hx Hx' E Ne). reflexivity.
  - exact (share_paint t s1 js R H1 F1 C1 HJ t1 E1).
Qed.
End Round.
(** ** The loop *)
Definition owner (t : tree) (k : nat) : Prop := exists s, In s (gsubs t) /\ root_key s = k /\ d_get (data s) AXlinkHref = None /\ kids s <> [].
Lemma equal_stops_sub t k1 k2 s1 : NoDup (keys t) -> In s1 (gsubs t) -> root_key s1 = k1 -> equal_stops t k1 k2 = true -> forall s2, In s2 (gsubs t) -> root_key s2 = k2 -> is_equal_stops s1 s2 = true.
Proof.
  intros N H1 E1 E s2 H2 E2. unfold equal_stops in E. destruct (find_sub k1 t) as [u1|] eqn:F1; [|discriminate]. destruct (find_sub k2 t) as [u2|] eqn:F2; [|discriminate]. apply find_sub_some in F1, F2. destruct F1 as [A1 B1], F2 as [A2 B2].
  rewrite (sub_unique t s1 u1 N), (sub_unique t s2 u2 N); auto; try (now apply gsubs_subs); congruence.
Qed.
Lemma filter_len {A} (p : A -> bool) l : List.length (filter p l) <= List.length l.
Proof. induction l as [|x l IH]; cbn; [lia|]. destruct (p x); cbn; lia. Qed.
Lemma loop_ok : forall n l t, rready t -> NoDup l -> (forall k, In k l -> owner t k) -> List.length l <= n ->
  exists b t', regroup_loop n l t = Ok (b, t') /\ rready t' /\ rrel t t'.
Proof.
  induction n as [|n IH]; intros l t R ND O L.
  - exists false, t. cbn. split; [reflexivity|]. split; [exact R|apply rrel_refl].
  - destruct l as [|k1 rest]; [exists false, t; cbn; split; [reflexivity|]; split; [exact R|apply rrel_refl]|]. cbn [regroup_loop].
    inversion ND as [|? ? N1 N2]; subst. cbn in L. pose proof (wf_keys _ (rr_wf _ R)) as N.
    assert (NR : NoDup (filter (fun k => negb (equal_stops t k1 k)) rest)) by (now apply NoDup_filter).
    assert (LR : List.length (filter (fun k => negb (equal_stops t k1 k)) rest) <= n) by (pose proof (filter_len (fun k => negb (equal_stops t k1 k)) rest); lia).
    destruct (filter (equal_stops t k1) rest) as [|j js'] eqn:EJ.
    + apply IH; [exact R|exact NR| |exact LR]. intros k Hk. apply filter_In in Hk. apply O. right. apply Hk.
    + set (js := j :: js') in *. destruct (O k1 (or_introl eq_refl)) as (s1 & H1 & K1 & F1 & C1).
      assert (HJ : forall j, In j js -> j <> root_key s1 /\ exists s, In s (gsubs t) /\ root_key s = j /\ d_get (data s) AXlinkHref = None /\ kids s <> [] /\ is_equal_stops s1 s = true).
      { intros i Hi. rewrite <- EJ in Hi. apply filter_In in Hi. destruct Hi as [Hi Ei]. split; [intros ->; rewrite K1 in Hi; contradiction|]. destruct (O i (or_intror Hi)) as (s & Hs & Ks & Fs & Cs). exists s. repeat split; auto. exact (equal_stops_sub t k1 i s1 N H1 K1 Ei s Hs Ks). }
      rewrite <- K1. destruct (share_closed t s1 js R H1 HJ) as (t1 & Es & E1). rewrite Es. cbn [bind].
      pose proof (share_ready t s1 js R H1 F1 C1 HJ t1 E1) as R1. pose proof (round_rel t s1 js R H1 F1 C1 HJ t1 E1) as Q1. rewrite K1.
      destruct (IH (filter (fun k => negb (equal_stops t k1 k)) rest) t1 R1 NR) as (b & t' & E' & R' & Q'); [|exact LR|].
      * intros k Hk. apply filter_In in Hk. destruct Hk as [Hk Ek]. destruct (O k (or_intror Hk)) as (s & Hs & Ks & Fs & Cs). exists s. split; [|auto]. apply (GG_no t s1 js t1 E1 s Hs). rewrite Ks. intros [X|X]; [apply N1; rewrite <- K1, <- X; exact Hk|]. rewrite <- EJ in X. apply filter_In in X. destruct X as [_ X]. rewrite X in Ek. discriminate.
      * rewrite E'. cbn. exists true, t'. split; [reflexivity|]. split; [exact R'|exact (rrel_trans t t1 t' R R1 Q1 Q')].
Qed.
Lemma owners_ok t : rready t -> NoDup (stop_owners t) /\ forall k, In k (stop_owners t) -> owner t k.
Proof.
  intros R. pose proof (wf_keys _ (rr_wf _ R)) as N. split.
  - unfold stop_owners. apply (sublist_NoDup _ (map root_key (subs t))); [apply sublist_map, sublist_filter|]. replace (map root_key (subs t)) with (keys t); [exact N|]. unfold keys, root_key. rewrite <- map_data_subs. now rewrite map_map.
  - intros k Hk. apply in_map_iff in Hk. destruct Hk as (s & <- & H). apply filter_In in H. destruct H as [Hs C]. apply andb_prop in C. destruct C as [C C3]. apply andb_prop in C. destruct C as [C1 C2]. exists s. split; [apply grad_sub; [now apply rready_unnested|exact Hs|exact C1]|]. split; [reflexivity|]. split.
    + apply negb_true_iff in C3. unfold d_has, has_attr in C3. rewrite dget_attr. destruct (get_attr (attrs (data s)) AXlinkHref); [discriminate|reflexivity].
    + destruct (kids s); [discriminate|discriminate].
Qed.
(** ** The last step *)
Lemma fill_ext a o d : a <> AXlinkHref -> extended d (fill a o d) /\ vis (fill a o d) = vis d.
Proof.
  intros Na. unfold fill. destruct (d_has d a) eqn:H; [split; [apply extended_refl|reflexivity]|]. destruct o as [v|]; [|split; [apply extended_refl|reflexivity]].
  assert (E : attrs (d_set_hidden d a v) = attrs d ++ [At (AN a) v false]).
  { unfold d_set_hidden. cbn. unfold d_has, has_attr, get_attr in H. induction (attrs d) as [|x l IH]; cbn in *; [reflexivity|]. destruct (has_name (AN a) x); [discriminate|]. now rewrite IH. }
  split.
  - split; [reflexivity|]. split; [reflexivity|]. split; [reflexivity|]. rewrite E. split; [intros x Hx; apply in_app_iff; now left|]. intros x Hx. apply in_app_iff in Hx. destruct Hx as [Hx|[<-|[]]]; auto.
  - unfold vis. rewrite E, filter_app. cbn. rewrite app_nil_r. unfold d_set_hidden. destruct d. reflexivity.
Qed.
Lemma fills_ext l : ~ In AXlinkHref (map fst l) -> forall d, extended d (fills l d) /\ vis (fills l d) = vis d.
Proof.
  induction l as [|[a o] l IH]; intros H d; [split; [apply extended_refl|reflexivity]|]. cbn in H. unfold fills. cbn [fold_left fst snd]. fold (fills l (fill a o d)). destruct (fill_ext a o d) as [A B]; [tauto|]. destruct (IH (fun X => H (or_intror X)) (fill a o d)) as [C D]. split; [exact (extended_trans _ _ _ A C)|congruence].
Qed.
Lemma tmap_rg h t : unnested t -> (forall d, In d (flat t) -> is_gradient d = false -> h d = d) -> tmap h t = rg (fun s => T (h (data s)) (kids s)) t.
Proof.
  induction t as [d ch IH] using tree_ind'. intros U H. rewrite Forall_forall in IH. cbn [tmap rg]. destruct (is_gradient d) eqn:G.
  - cbn [data kids]. f_equal. rewrite <- (map_id ch) at 2. apply map_ext_in. intros c Hc. apply tmap_id. intros x Hx. apply H; [right; apply in_flat_map; eauto|]. apply (U (T d ch) x); [cbn; rewrite G; now left|cbn; apply in_flat_map; eauto].
  - rewrite H; [|now left|exact G]. f_equal. apply map_ext_in. intros c Hc. apply IH; [exact Hc| |].
    + intros s x Hs. apply U. cbn. rewrite G. apply in_flat_map. eauto.
    + intros x Hx. apply H. right. apply in_flat_map. eauto.
Qed.
Section Last.
Variable t : tree.
Hypothesis R : rready t.
Let N : NoDup (keys t) := wf_keys t (rr_wf _ R).
Let U : unnested t := rready_unnested t R.
Lemma chains d : In d (flat t) -> gradient_node d -> chain_ends t d.
Proof.
  destruct (rr_acyclic _ R) as (rank & HR). assert (G : forall n d, rank (key d) < n -> In d (flat t) -> gradient_node d -> chain_ends t d); [|intros; eapply G; eauto].
  induction n as [|n IH]; intros x Ln Hx Gx; [lia|]. destruct (d_get x AXlinkHref) as [v|] eqn:E; [|now apply ce_end]. pose proof E as E0. rewrite dget_attr in E. destruct (get_attr (attrs x) AXlinkHref) as [y|] eqn:F; [|discriminate]. destruct (get_attr_some _ _ _ F) as [A B]. destruct (rr_hrefs _ R x y Hx Gx A B) as (_ & z & Hz & Ez & Gz). cbn in E. assert (Ev : v = VLink (key z)) by congruence. subst v.
  apply ce_next with (k := key z) (x := z); [exact E0|exact Hz|reflexivity|]. apply IH; [|exact Hz|exact Gz]. specialize (HR x (key z) Hx Gx E0). lia.
Qed.
Lemma linear_closed : exists ks, resolve_linear_gradient_attributes t = Some (Ok (visited (lin_fill t) ks t)) /\ forall d, In d (flat t) -> In (key d) ks <-> tag d = TEl ELinearGradient.
Proof.
  destruct (proj2 (gen_order_iff _ t N) (rr_kinds _ R)) as (ks & Hks). unfold resolve_linear_gradient_attributes. rewrite Hks.
  destruct (order_loop_some _ t _ _ _ (ordered_nil _ t) Hks) as [O L]. pose proof (ordered_all _ t ks N O L) as All.
  assert (Tk : forall d, In d (flat t) -> In (key d) ks <-> tag d = TEl ELinearGradient).
  { intros d Hd. rewrite All, kind_nodes_in. split; [|eauto]. intros (x & Hx & Tx & Ex). assert (x = d) by (apply (data_unique t); congruence). now subst x. }
  assert (C : forall d, In d (flat t) -> tag d = TEl ELinearGradient -> chain_ends t d) by (intros d Hd Td; apply chains; [exact Hd|now left]).
  exists ks. split; [|exact Tk]. f_equal. apply vloop_closed; [exact N|intros d; apply fills_node|apply O| |].
  - intros k Hk. apply All, kind_nodes_in in Hk. destruct Hk as (d & Hd & _ & <-). now apply in_map.
  - intros done k rest d Ek Hd Kd. apply lin_step; auto.
    + intros x Hx Ix. apply C; [exact Hx|]. apply (Tk x Hx). rewrite Ek. apply in_or_app. now left.
    + apply C; [exact Hd|]. apply (Tk d Hd). rewrite Ek, Kd. apply in_or_app. right. now left.
Qed.
Variable ks : list nat.
Hypothesis Tk : forall d, In d (flat t) -> In (key d) ks <-> tag d = TEl ELinearGradient.
Let h (d : ndata) : ndata := if mem (key d) ks then lin_fill t d else d.
Lemma h_ext d : extended d (h d) /\ vis (h d) = vis d.
Proof. unfold h. destruct (mem _ _); [|split; [apply extended_refl|reflexivity]]. apply fills_ext. rewrite map_fst_pair. cbn. intuition discriminate. Qed.
Lemma h_key d : key (h d) = key d. Proof. apply h_ext. Qed.
Lemma h_tag d : tag (h d) = tag d. Proof. apply h_ext. Qed.
Lemma h_nid d : nid (h d) = nid d. Proof. apply h_ext. Qed.
Lemma h_out d : In d (flat t) -> is_gradient d = false -> h d = d.
Proof.
  intros H G. unfold h. destruct (mem (key d) ks) eqn:E; [|reflexivity]. apply mem_in in E. apply (Tk d H) in E. assert (X : is_gradient d = true) by (apply gradient_iff; now left). congruence.
Qed.
Notation t' := (tmap h t).
Lemma h_rg : t' = rg (fun s => T (h (data s)) (kids s)) t.
Proof. apply tmap_rg; [exact U|exact h_out]. Qed.
Lemma h_grads s : In s (gsubs t) -> is_gradient (data (T (h (data s)) (kids s))) = true.
Proof. intros H. apply gradient_iff. cbn [data]. apply (tag_grad (data s)); [apply h_tag|]. apply gradient_iff. now apply gsubs_subs in H. Qed.
Lemma h_written : written t' = written t.
Proof. unfold written. rewrite tmap_tmap. apply tmap_ext. intros d _. apply h_ext. Qed.
Lemma last_rel : rrel t t'.
Proof.
  constructor.
  - rewrite h_rg. apply outs_rg. exact h_grads.
  - intros a s H. exists (T (h (data s)) (kids s)). split; [|apply h_ext]. rewrite h_rg, gpl_rg by exact h_grads. apply in_map_iff. exists (a, s). auto.
  - intros a s' H. rewrite h_rg, gpl_rg in H by exact h_grads. apply in_map_iff in H. destruct H as ([b s] & E & H). cbn in E. inversion E; subst. left. exists s. split; [exact H|apply h_ext].
  - intros s' d H Hd. rewrite h_rg, gsubs_rg in H by exact h_grads. apply in_map_iff in H. destruct H as (s & <- & H). exists s. auto.
  - intros I d d' Hd Hd' E Ne. rewrite flat_tmap in Hd, Hd'. apply in_map_iff in Hd, Hd'. destruct Hd as (x & <- & Hx), Hd' as (x' & <- & Hx'). rewrite !h_nid in *. now rewrite (I x x' Hx Hx' E Ne).
  - intros d Hd G. rewrite h_written. exact (same_paint_refl (written t) (vis d) (in_w t d Hd)).
Qed.
Lemma last_unnested : unnested t'.
Proof. intros s' d H Hd. rewrite h_rg, gsubs_rg in H by exact h_grads. apply in_map_iff in H. destruct H as (s & <- & H). exact (U s d H Hd). Qed.
End Last.
Theorem regroup_regroups t : rready t -> exists t', regroup_gradient_stops t = Some (Ok t') /\ regrouped t t'.
Proof.
  intros R. unfold regroup_gradient_stops. destruct (owners_ok t R) as [ND O]. destruct (loop_ok (List.length (stop_owners t)) (stop_owners t) t R ND O (le_n _)) as (b & t1 & E & R1 & Q1). rewrite E. destruct b.
  - destruct (linear_closed t1 R1) as (ks & E2 & Tk). rewrite E2. eexists. split; [reflexivity|]. apply rrel_regrouped; [now apply rready_unnested|exact (last_unnested t1 R1 ks Tk)|]. exact (rrel_trans t t1 _ R R1 Q1 (last_rel t1 R1 ks Tk)).
  - exists t1. split; [reflexivity|]. apply rrel_regrouped; [now apply rready_unnested|now apply rready_unnested|exact Q1].
Qed.
