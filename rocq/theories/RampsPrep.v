(** Lemmas: the colours of gradients in the passes that are always run first. *)
From Coq Require Import List Bool NArith Arith ZArith String QArith Qcanon Lia.
From Verif Require Import Names Num Value Dom DomFacts DomOps Outcome DomRemove Stops SpecStops StopsProofs Props_stops Gradients VLoop GradProofs SpecRound SpecPrepared SpecShading Shading SpecRamps SpecClean Cli Clean WfAll Props_wf PictureTwin PictureShades RampsRun.
From Verif Require Import Transforms SpecDom PaintFacts TasksSimpleProofs.
From Verif Require PicturePrep PictureServers Props_picture Round RoundProofs PictureEnd.
Import ListNotations.
Local Open Scope nat_scope.

Definition changes (F : list stop -> list stop) (s s' : tree) : Prop := gradient s -> stops_only s -> tag (data s') = tag (data s) /\ stops_only s' /\ own_stops s' = F (own_stops s).
Definition stops_by (F : list stop -> list stop) (t t' : tree) : Prop := Forall2 (changes F) (subs t) (subs t').
Lemma by_trans F G t1 t2 t3 : stops_by F t1 t2 -> stops_by G t2 t3 -> stops_by (fun l => G (F l)) t1 t3.
Proof.
  unfold stops_by. intros A B. eapply Forall2_trans'; [|exact A|exact B]. intros s1 s2 s3 C D Gs O. destruct (C Gs O) as (T1 & O1 & E1). destruct D as (T2 & O2 & E2); [unfold gradient; now rewrite T1|exact O1|]. split; [congruence|]. split; [exact O2|]. now rewrite E2, E1.
Qed.
Lemma f2_zip {A B} (P Q R : A -> B -> Prop) l l' : (forall x y, In x l -> P x y -> Q x y -> R x y) -> Forall2 P l l' -> Forall2 Q l l' -> Forall2 R l l'.
Proof. intros H F. induction F as [|a b l l' X F IH]; intros G; inversion G; subst; constructor; [apply H; auto; now left|apply IH; auto; intros x y Hx; apply H; now right]. Qed.
Lemma by_gside t t' : twin gside t t' -> stops_by (fun l => l) t t'.
Proof.
  intros W. apply tg_subs in W. eapply Forall2_impl; [|exact W]. intros s s' X Gs O. destruct (gside_own s s' O X) as [E O']. split; [apply (twin_data _ _ _ X)|auto].
Qed.
Lemma by_refl t : stops_by (fun l => l) t t. Proof. apply by_gside, tg_refl, gside_refl. Qed.
(** ** The attributes of gradients *)
Lemma is_gradient_el d e : In e [ELinearGradient; ERadialGradient] -> tag d = TEl e -> gradient_el d.
Proof. intros [<-|[<-|[]]] E; [now left|now right]. Qed.
Lemma gen_gside e f t ks t' : In e [ELinearGradient; ERadialGradient] -> (forall u d d', In d (flat u) -> server d -> f u d = Ok d' -> PictureServers.side u d d') ->
  NoDup (keys t) -> gen_order e t = Some ks -> vloop f ks t = Ok t' -> twin gside t t'.
Proof.
  intros He H N G. apply (gv_loop gradient_el f ks).
  - intros d d' E X. unfold gradient_el in *. now rewrite E.
  - intros u d d' Hd Gd E. pose proof (H u d d' Hd (or_introl Gd) E) as S. split; [apply S|apply S|apply (PictureServers.sd_get _ _ _ S); cbn; intuition discriminate|]. intros X. contradiction.
  - exact N.
  - intros d Hd Hk. apply PicturePrep.order_incl in G; [|intros x []]. apply G in Hk. unfold kind_nodes in Hk. apply in_map_iff in Hk. destruct Hk as (x & K & Hx). apply filter_In in Hx. destruct Hx as [Hx Tx]. assert (x = d) by (apply (data_unique t); auto). subst x. apply is_tag_iff in Tx. exact (is_gradient_el d e He Tx).
Qed.
Lemma linear_by t t' : NoDup (keys t) -> resolve_linear_gradient_attributes t = Some (Ok t') -> stops_by (fun l => l) t t'.
Proof.
  intros N. unfold resolve_linear_gradient_attributes. destruct (gen_order _ t) as [ks|] eqn:G; [|discriminate]. intros E. injection E as E. apply by_gside. apply (gen_gside ELinearGradient resolve_linear_node t ks t'); auto; [cbn; auto|]. intros u d d' Hd V. exact (PicturePrep.linear_side u u d d' (PicturePrep.stale_self u) Hd V).
Qed.
Lemma radial_by t t' : NoDup (keys t) -> resolve_radial_gradient_attributes t = Some (Ok t') -> stops_by (fun l => l) t t'.
Proof.
  intros N. unfold resolve_radial_gradient_attributes. destruct (gen_order _ t) as [ks|] eqn:G; [|discriminate]. intros E. injection E as E. apply by_gside. apply (gen_gside ERadialGradient resolve_radial_node t ks t'); auto; [cbn; auto|]. intros u d d' Hd V. exact (PicturePrep.radial_side u u d d' (PicturePrep.stale_self u) Hd V).
Qed.
(** ** The stops *)
Lemma get_of d a x : get_attr (attrs d) a = Some x -> d_get d a = Some (a_val x). Proof. unfold d_get, get_value. intros ->. reflexivity. Qed.
Lemma get_none d a : get_attr (attrs d) a = None -> d_get d a = None. Proof. unfold d_get, get_value. intros ->. reflexivity. Qed.
Lemma filled_get a v d d' : filled a v d d' -> d_get d' a = match d_get d a with Some w => Some w | None => Some v end.
Proof.
  unfold filled. destruct (get_attr (attrs d) a) as [x|] eqn:E; intros H; rewrite (get_of d' a _ H).
  - now rewrite (get_of d a x E).
  - now rewrite (get_none d a E).
Qed.
Lemma resolved_same b d d' : resolved_stop b d d' -> stop_of d' = stop_of d.
Proof.
  intros (_ & _ & O & C & P). apply filled_get in C, P. unfold stop_of. rewrite C, P. f_equal.
  - destruct O as [(n & E & E')|[(n & u & Nu & E & E')|(_ & No & E')]].
    + unfold offset_number in E'. now rewrite E, E'.
    + assert (X : d_get d' AOffset = d_get d AOffset) by (unfold d_get, get_value; now rewrite E'). now rewrite X.
    + unfold offset_number in E'. rewrite E'. destruct (d_get d AOffset) as [v|] eqn:Q; [|reflexivity]. destruct v; try reflexivity. destruct No. exists l. exact Q.
  - destruct (d_get d AStopColor) as [v|]; destruct (d_get d AStopOpacity) as [w|]; reflexivity.
Qed.
Lemma resolved_all l l' : resolved_stops l l' -> map stop_of l' = map stop_of l /\ Forall2 same_node l l'.
Proof.
  intros H. destruct H as [|d d' l l' R F]; [split; [reflexivity|constructor]|]. split.
  - cbn. rewrite (resolved_same _ _ _ R). f_equal. clear - F. induction F as [|x y l l' X F IH]; [reflexivity|]. cbn. now rewrite (resolved_same _ _ _ X), IH.
  - constructor; [apply R|]. eapply Forall2_impl; [|exact F]. intros x y X. apply X.
Qed.
Lemma same_only s s' : stops_only s -> Forall2 same_node (map data (kids s)) (map data (kids s')) -> stops_only s'.
Proof.
  unfold stops_only. generalize (kids s) (kids s'). induction l as [|c l IH]; intros l' O F; cbn [map] in F.
  - inversion F as [E|]. destruct l'; [intros c []|discriminate].
  - inversion F as [|? y ? r A B E1 E2]. destruct l' as [|c' l']; [discriminate|]. cbn in E2. injection E2 as -> ->. intros z [<-|Hz]; [destruct A as (_ & A & _); rewrite A; apply O; now left|exact (IH l' (fun x Hx => O x (or_intror Hx)) B z Hz)].
Qed.
Lemma stops_by_resolve t t' : servers_apart t -> resolve_stop_attributes t = Ok t' -> stops_by (fun l => l) t t'.
Proof.
  intros A E. pose proof (PicturePrep.tw_stops t t t' (sa_stops t A) E) as W. destruct (C17_resolves t t' E) as (_ & _ & F). apply tg_subs in W. unfold stops_by. eapply f2_zip; [|exact W|exact F]. intros s s' _ X [Y _] Gs O. destruct (resolved_all _ _ (Y Gs)) as [M K].
  split; [apply (twin_data _ _ _ X)|]. assert (O' : stops_only s') by (exact (same_only s s' O K)). split; [exact O'|]. now rewrite !own_all.
Qed.
(** ** What is corrected *)
Lemma fix_settles l : forall p l', fix_stops p l = Ok l' -> map stop_of l' = settle p (map stop_of l) /\ Forall2 same_node l l'.
Proof.
  induction l as [|d l IH]; intros p l'; cbn [fix_stops]; [intros E; injection E as <-; split; [reflexivity|constructor]|]. destruct (d_get d AOffset) as [v|] eqn:Eo; [|discriminate]. destruct v; try discriminate. destruct l0 as [n u]. destruct u; try discriminate. cbv zeta.
  intros E. apply bind_ok in E. destruct E as (r & E & E2). injection E2 as <-. destruct (IH _ _ E) as [M K]. split.
  - cbn [map settle]. assert (So : so (stop_of d) = n) by (unfold stop_of; now rewrite Eo). rewrite So. fold (between01 n). unfold larger. rewrite M. fold (between01 n). f_equal. unfold stop_of. cbn [sc]. rewrite d_get_set_same. rewrite !d_get_set_other by discriminate. reflexivity.
  - constructor; [repeat split; apply sn_with || reflexivity|exact K].
Qed.
Lemma stops_by_fix t t' : servers_apart t -> PicturePrep.rects t -> PicturePrep.polys t -> (forall d, In d (flat t) -> d_get d AMarker = None) ->
  fix_invalid_attributes t = Ok t' -> stops_by (settle q0) t t'.
Proof.
  intros A Re Po Ma E. pose proof (PicturePrep.tw_fix t t t' (sa_stops t A) Re Po Ma E) as W. apply fix_split in E. destruct E as (t1 & E & ->). unfold kpass in E.
  assert (X : fix_marker t1 = tmap (fun d => if d_has d AMarker then d_rm d AMarker else d) t1) by reflexivity.
  destruct (kmap_subs _ _ fix_visit_len fix_visit_Q t (data t) t1 (same_but_refl _ _) E) as [_ F]. apply tg_subs in W.
  assert (M : stops_by (fun l => l) t1 (fix_marker t1)).
  { unfold stops_by. rewrite X, subs_tmap. generalize (subs t1). clear. induction l as [|s l IH]; cbn; constructor; [|exact IH]. intros G O. set (f := fun d => if d_has d AMarker then d_rm d AMarker else d).
    assert (P : forall d, tag (f d) = tag d /\ stop_of (f d) = stop_of d). { intros d. unfold f. destruct (d_has d AMarker); [|auto]. split; [reflexivity|]. unfold stop_of. rewrite !d_get_rm_other by discriminate. reflexivity. }
    assert (O' : stops_only (tmap f s)). { intros c Hc. rewrite kids_tmap in Hc. apply in_map_iff in Hc. destruct Hc as (y & <- & Hy). rewrite data_tmap. rewrite (proj1 (P _)). now apply O. }
    split; [rewrite data_tmap; apply P|]. split; [exact O'|]. rewrite !own_all by auto. rewrite kids_tmap, !map_map. apply map_ext. intros c. rewrite data_tmap. apply P. }
  assert (N : stops_by (settle q0) t t1).
  { unfold stops_by. eapply Forall2_impl; [|exact F]. intros s s1 (d0 & ks & Q & V & K) Gs O. assert (Tg : tag d0 = tag (data s)) by apply Q. assert (Gd : tag d0 = TEl ELinearGradient \/ tag d0 = TEl ERadialGradient) by (rewrite Tg; exact Gs).
    assert (V' : exists l', fix_stops q0 (map data (kids s)) = Ok l' /\ data s1 = d0 /\ ks = l').
    { unfold fix_visit in V. destruct Gd as [Gd|Gd]; rewrite Gd in V; apply bind_ok in V; destruct V as (l' & V & V2); injection V2 as <- <-; eauto. }
    destruct V' as (l' & V' & D & ->). destruct (fix_settles _ _ _ V') as [Ms Sn].
    assert (KE : map data (kids s1) = l').
    { assert (Tl : forall x, In x l' -> tag x = TEl EStop). { intros x Hx. clear - O Sn Hx. revert O Sn. unfold stops_only. generalize (kids s). intros l O F. assert (Y : forall y, In y (map data l) -> tag y = TEl EStop) by (intros y Hy; apply in_map_iff in Hy; destruct Hy as (c & <- & Hc); now apply O). clear O. induction F as [|a b r r' H F IH]; [destruct Hx|]. destruct Hx as [<-|Hx]; [destruct H as (_ & H & _); rewrite H; apply Y; now left|apply IH; [exact Hx|intros y Hy; apply Y; now right]]. }
      clear - K Tl. induction K as [|a b l l' (p & q & V) K IH]; [reflexivity|]. f_equal; [|apply IH; intros x Hx; apply Tl; now right]. unfold fix_visit in V. rewrite (Tl a (or_introl eq_refl)) in V. now injection V. }
    split; [now rewrite D|]. assert (O' : stops_only s1) by (apply (same_only s s1 O); rewrite KE; exact Sn). split; [exact O'|]. now rewrite !own_all, KE. }
  exact (by_trans _ _ _ _ _ N M).
Qed.
(** ** The digits *)
Definition round_alpha (p : nat) (s : stop) : stop := Stop (so s) (RGBA (cr (sc s)) (cg (sc s)) (cb (sc s)) (Round.round_number p (ca (sc s)))).
Lemma round_one p : (1 <= p <= 12)%nat -> Round.round_number p q1 = q1.
Proof. intros H. exact (Props_picture.round_int p 1 H). Qed.
Lemma stop_round o d : (1 <= Round.pr_prop o <= 12)%nat -> stop_of (with_attrs d (map (Round.round_attr o) (attrs d))) = round_alpha (Round.pr_prop o) (stop_of d).
Proof.
  intros H. unfold stop_of, round_alpha. rewrite !PicturePrep.round_get. cbn [so sc]. f_equal.
  - destruct (d_get d AOffset) as [v|]; reflexivity.
  - destruct (d_get d AStopColor) as [v|]; [destruct v|]; cbn [option_map]; try (change (Round.round_value o AStopColor ?w) with w); cbn [cr cg cb ca];
    (destruct (d_get d AStopOpacity) as [w|]; [destruct w|]; cbn; rewrite ?round_one by exact H; reflexivity).
Qed.
