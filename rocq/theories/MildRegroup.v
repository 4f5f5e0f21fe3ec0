(** Documents with references: equal lists of stops are shared by a new gradient. *)
From Coq Require Import List Bool NArith Arith ZArith String Lia QArith Qcanon Permutation.
From Verif Require Import Names Num Value Dom DomFacts DomOps Outcome DomRemove SpecDom SpecWritten Stops TasksSimple Links Move MoveFacts Gradients Graft MergeGradients Regroup GroupDefsProofs GroupDefsEnd WfAll WfStruct UseStep WfUse WfGrad SpecEnds Ends PlainMove Mild MildPasses MildMove MildMerge.
Import ListNotations.
Local Open Scope nat_scope.

Section Share.
Variables (t : tree) (k1 : nat).
Let f := fresh t.
Definition isnew (d : ndata) : Prop := key d = f /\ tag d = TEl ELinearGradient /\ attrs d = [].
Record sh (u : tree) : Prop := {
  sh_nodes : forall d', In d' (flat u) -> isnew d' \/ exists d, In d (flat t) /\ MG (eq f) d d';
  sh_in : forall a b, inside u a b -> inside t a b \/ (b = f /\ (a = f \/ (inside t a k1 /\ a <> k1))) \/ (a = f /\ inside t k1 b /\ b <> k1)
}.
Lemma MG_link d d' : gradient_node d -> MG (eq f) d d' -> MG (eq f) d (d_set d' AXlinkHref (VLink f)).
Proof.
  intros G [K T A]. split; auto. intros y Hy. destruct (set_attr_from _ _ _ _ Hy) as [X| ->]; [auto|]. right. right. split; [exact G|]. split; [reflexivity|]. exists f. auto.
Qed.
Lemma sh_link j u : (forall d, In d (flat t) -> key d = j -> gradient_node d) -> j <> f -> sh u -> sh (upd j (fun d => d_set d AXlinkHref (VLink f)) u).
Proof.
  intros G Nj [Sn Si]. split.
  - intros d' Hd. unfold upd in Hd. rewrite flat_tmap in Hd. apply in_map_iff in Hd. destruct Hd as (d & <- & Hd). destruct (Nat.eqb_spec (key d) j) as [E|E]; [|now apply Sn]. destruct (Sn d Hd) as [(K & _)|(d0 & H0 & M0)]; [congruence|]. right. exists d0. split; [exact H0|]. apply MG_link; [|exact M0]. apply G; [exact H0|]. now rewrite <- (MG_key _ _ _ M0).
  - intros a b H. unfold upd in H. apply inside_tmap in H; [now apply Si|]. intros d. now destruct (Nat.eqb _ _).
Qed.
Lemma sh_desc u u' : sh u -> (forall d', In d' (flat u') -> exists d p, In d (flat u) /\ d' = with_attrs d (filter p (attrs d))) -> (forall a b, inside u' a b -> inside u a b) -> sh u'.
Proof.
  intros [Sn Si] D I. split; [|auto]. intros d' Hd. destruct (D d' Hd) as (d & p & H & ->). destruct (Sn d H) as [(K & Tg & A)|(d0 & H0 & M0)].
  - left. unfold isnew. cbn. rewrite A. auto.
  - right. exists d0. split; [exact H0|]. destruct M0 as [K0 T0 A0]. split; auto. cbn. intros y Hy. apply filter_In in Hy. apply A0, Hy.
Qed.
Lemma filter_true d : d = with_attrs d (filter (fun _ => true) (attrs d)).
Proof. destruct d as [k tg i l]. cbn. unfold with_attrs. cbn. f_equal. induction l as [|x l IH]; [reflexivity|]. cbn. now rewrite <- IH. Qed.
Lemma sh_remove_kids j u : sh u -> sh (remove_kids j u).
Proof.
  intros S. apply (sh_desc u); [exact S| |].
  - intros d' Hd. unfold remove_kids in Hd. apply flat_cut in Hd. rewrite unlink_eq, flat_tmap in Hd. apply in_map_iff in Hd. destruct Hd as (d & <- & Hd). unfold unlink_data. eauto.
  - intros a b H. unfold remove_kids in H. apply inside_set_kids in H. destruct H as [H|[]]. rewrite unlink_eq in H. apply inside_tmap in H; [exact H|]. reflexivity.
Qed.
Lemma sh_first s : NoDup (keys t) -> In s (subs t) -> root_key s = k1 -> gradient_node (data s) ->
  sh (insert_before k1 (T (ND f (TEl ELinearGradient) (gen_id "lg" t) []) (kids s)) (upd k1 (fun d => d_set d AXlinkHref (VLink f)) (set_kids k1 (fun _ => []) t))).
Proof.
  intros N Hs Ks Gs. pose proof (fresh_not t) as Fr. fold f in Fr. set (u := upd k1 _ _).
  assert (Sub : forall d, In d (flat_map flat (kids s)) -> In d (flat t)). { intros d Hd. apply in_flat_map in Hd. destruct Hd as (c & Hc & Hd). apply (sub_flat_in c t); [exact (subs_trans t s c Hs (kid_in s c Hc))|exact Hd]. }
  assert (Su : sh u). { apply sh_link; [|intros X; apply Fr; rewrite <- X, <- Ks; now apply key_in_sub|].
    - intros d Hd Kd. assert (d = data s) by (apply (data_unique t); auto; [now apply data_of_sub|unfold root_key in Ks; congruence]). now subst d.
    - split.
      + intros d Hd. apply flat_cut in Hd. right. exists d. split; [exact Hd|apply MG_refl].
      + intros a b H. apply inside_set_kids in H. destruct H as [H|[]]. now left. }
  assert (Iu : forall a b, inside u a b -> inside t a b). { intros a b H. unfold u, upd in H. apply inside_tmap in H; [|intros d; now destruct (Nat.eqb _ _)]. apply inside_set_kids in H. now destruct H as [H|[]]. }
  split.
  - intros d Hd. apply flat_before, in_app_or in Hd. destruct Hd as [Hd|Hd]; [|exact (sh_nodes _ Su d Hd)]. cbn [flat] in Hd. destruct Hd as [<-|Hd]; [left; repeat split|right]. exists d. split; [now apply Sub|apply MG_refl].
  - intros a b H. destruct H as (x & Hx & Kx & Ha). apply before_subs in Hx. destruct Hx as [Hx|(x0 & Hx & ->)].
    + cbn [subs] in Hx. destruct Hx as [<-|Hx].
      * cbn [root_key data key] in Kx. rewrite keys_cons in Ha. destruct Ha as [<-|Ha]; right; left; (split; [now symmetry|]); [now left|right]. split; [|intros ->; exact (strict_ne t s k1 N Hs Ha (eq_sym Ks))]. exists s. split; [exact Hs|]. split; [exact Ks|]. rewrite keys_kids. now right.
      * left. exists x. split; [|auto]. apply in_flat_map in Hx. destruct Hx as (c & Hc & Hx). exact (subs_trans t s x Hs (subs_trans s c x (kid_in s c Hc) Hx)).
    + rewrite root_before in Kx. apply before_keys in Ha. destruct Ha as [Ha|[H1 H2]]; [left; apply Iu; exists x0; auto|].
      assert (Ib : inside t k1 b /\ b <> k1). { split; [apply Iu; exists x0; split; [exact Hx|]; split; [exact Kx|]; rewrite keys_kids; now right|]. intros ->. assert (Nu : NoDup (keys u)). { unfold u, upd. rewrite keys_tmap; [|intros d; now destruct (Nat.eqb _ _)]. destruct (flat_split t s N Hs) as (pre & post & E1 & E2). specialize (E2 (fun _ => [])). rewrite Ks in E2. unfold keys in *. rewrite E2. rewrite E1 in N. rewrite !map_app in *. cbn [flat_map map] in *. destruct s as [ds cs]. cbn [flat data map] in *. 
          apply NoDup_app_inv in N. destruct N as (N1 & N2 & N3). apply NoDup_app_intro; [exact N1| |].
          - cbn in N2 |- *. inversion N2 as [|? ? A B]; subst. constructor; [intros X; apply A, in_or_app; now right|]. apply NoDup_app_inv in B. apply B.
          - intros z Hz Hz'. apply (N3 z Hz). cbn in Hz' |- *. destruct Hz' as [Hz'|Hz']; [now left|right]. apply in_or_app. now right. }
        exact (strict_ne u x0 k1 Nu Hx H1 (eq_sym Kx)). }
      rewrite keys_cons in H2. cbn [key] in H2. destruct H2 as [<-|H2]; [right; right; split; [reflexivity|exact Ib]|left].
      destruct Ib as [(x1 & Hx1 & K1 & I1) _]. apply sub_of_key in I1. destruct I1 as (w & Hw & Kw). assert (w = s) by (apply (sub_unique t); auto; [exact (subs_trans t x1 w Hx1 Hw)|congruence]). subst w. exists x1. split; [exact Hx1|]. split; [exact K1|].
      assert (Q : In a (keys s)) by (rewrite keys_kids; now right). apply sub_of_key in Q. destruct Q as (z & Hz & <-). apply key_in_sub. exact (subs_trans x1 s z Hw Hz).
Qed.
Lemma sh_share js t' : NoDup (keys t) -> ready_for (k1 :: js) t -> In k1 (keys t) -> incl js (keys t) -> share k1 js t = Ok t' -> sh t'.
Proof.
  intros N R Hk Hj E. unfold share in E. destruct (forallb _ _); [|discriminate]. injection E as <-. cbn [key]. fold f. pose proof (fresh_not t) as Fr. fold f in Fr.
  destruct (find_sub k1 t) as [s|] eqn:Es; [|apply find_sub_none in Es; contradiction]. unfold kids_of. rewrite Es. apply find_sub_some in Es. destruct Es as [Hs Ks].
  assert (S1 := sh_first s N Hs Ks (R k1 (data s) (or_introl eq_refl) (data_of_sub _ _ Hs) Ks)). revert S1. generalize (insert_before k1 (T (ND f (TEl ELinearGradient) (gen_id "lg" t) []) (kids s)) (upd k1 (fun d => d_set d AXlinkHref (VLink f)) (set_kids k1 (fun _ => []) t))). intros u S1.
  assert (Rj : forall j, In j js -> forall d, In d (flat t) -> key d = j -> gradient_node d) by (intros j H d; apply (R j); now right). clear R. revert u S1. induction js as [|j js IH]; intros u S1; [exact S1|]. cbn [fold_left]. apply IH; [intros z Hz; apply Hj; now right|intros z Hz; apply Rj; now right|]. apply sh_link; [apply Rj; now left|intros ->; apply Fr, Hj; now left|]. now apply sh_remove_kids.
Qed.
Lemma sh_tame U ur GK u : fine t -> In k1 (keys t) -> (forall d, In d (flat t) -> key d = k1 -> gradient_node d) -> fine u -> tame U ur GK t -> nest U t -> sh u ->
  let U' := fun k => U k /\ In k (keys t) in tame U' ur (fun k => GKof t k \/ k = f) u /\ nest U' u /\ (ranked t -> ranked u).
Proof.
  intros F Hk G1 Fu Tm Ns [Sn Si] U'. pose proof (fine_nodup t F) as N. pose proof (fresh_not t) as Fr. fold f in Fr. pose proof (tame_GKof U ur GK t (fine_wf t F) Tm) as [No Us Ki Gr]. set (GK' := fun k => GKof t k \/ k = f).
  assert (Old : forall d' , In d' (flat u) -> ~ isnew d' -> exists d, In d (flat t) /\ MG (eq f) d d') by (intros d' Hd Nn; destruct (Sn d' Hd) as [X|X]; [contradiction|exact X]).
  assert (Kt : forall d, In d (flat t) -> In (key d) (keys t) /\ key d <> f) by (intros d Hd; pose proof (in_map key _ _ Hd) as X; split; [exact X|intros E; apply Fr; now rewrite <- E]).
  assert (ok' : forall d d', In d (flat t) -> MG (eq f) d d' -> okg GK' d').
  { intros d d' Hd [K Tg A]. destruct (No d Hd) as [A0 B0]. assert (Gd : gradient_node d' <-> gradient_node d) by (apply (MG_grad (eq f)); now split). split.
    - intros G' x Hx. apply Gd in G'. destruct (A x Hx) as [X|[[X _]|(X & Y & k & Z & <-)]].
      + destruct (A0 G' x X) as [(H1 & k & H2 & H3)|H1]; [left; split; [exact H1|]; exists k; split; [exact H2|now left]|now right].
      + right. now apply X.
      + left. split; [exact Y|]. exists f. split; [exact Z|now right].
    - rewrite K. intros [X|X]; [apply Gd, B0, X|]. now destruct (Kt d Hd). }
  split; [|split].
  - split.
    + intros d' Hd. destruct (Sn d' Hd) as [(K & Tg & A)|(d & H & Md)]; [|exact (ok' d d' H Md)]. split; [intros _ x Hx; rewrite A in Hx; destruct Hx|]. intros _. now left.
    + intros d' x Hd Td Hx Hn. destruct (Old d' Hd) as (d & H0 & M0); [intros (_ & Tg & _); congruence|]. assert (T0 : tag d = TEl EUse) by (apply (MG_tag_back _ _ _ _ M0 Td); discriminate). destruct (MG_attrs _ _ _ M0 x Hx) as [X|[[_ X]|[X _]]]; [|exfalso; apply X; [now left|exact Hn]|exfalso; apply (grad_uog _ X); now left].
      destruct (Us d x H0 T0 X Hn) as (k & Ev & Uk & Rk). exists k. split; [exact Ev|]. split; [split; [exact Uk|]|].
      * apply (wf_links t (fine_wf t F)). unfold targets. apply in_flat_map. exists d. split; [exact H0|]. apply in_flat_map. exists x. split; [exact X|]. rewrite Ev. now left.
      * intros b Hb [Ub Kb]. rewrite (MG_key _ _ _ M0) in Hb. destruct (Kt d H0) as [_ Nd]. destruct (Si _ _ Hb) as [Y|[[-> _]|[Y _]]]; [|contradiction|contradiction]. now apply Rk.
    + intros d' Hd [Ud Kd]. destruct (Sn d' Hd) as [(K & Tg & A)|(d & H & Md)]; [exfalso; apply Fr; now rewrite <- K|]. rewrite (MG_key _ _ _ Md) in Ud. destruct (Ki d H Ud) as [A B]. split; [now rewrite (MG_grad _ _ _ Md)|]. intros Q. apply B. apply (MG_tag_back _ _ _ _ Md Q). discriminate.
    + intros d' x Hd Td Hx Hn. destruct (Old d' Hd) as (d & H0 & M0); [intros (_ & Tg & _); congruence|]. assert (T0 : tag d = TEl EG) by (apply (MG_tag_back _ _ _ _ M0 Td); discriminate). destruct (MG_attrs _ _ _ M0 x Hx) as [X|[[_ X]|[X _]]]; [exact (Gr d x H0 T0 X Hn)| |apply (grad_uog _ X); now right]. apply X; [now right|exact Hn].
  - intros x p Hx Hp Gx Ip.
    assert (Nold : forall b0 y, In y (flat t) -> gradient_node y -> inside t (key y) b0 -> key p = b0 -> key p = key y \/ (~ gradient_node p /\ tag p <> TEl EG /\ ~ U' (key p))).
    { intros b0 y Hy Gy Iy Kp. pose proof (proj2 (inside_keys _ _ _ Iy)) as Kb. destruct (Old p Hp) as (q & Hq & Mq); [intros (X & _); apply Fr; congruence|]. rewrite (MG_key _ _ _ Mq) in *. subst b0. destruct (Ns y q Hy Hq Gy Iy) as [E|(A & B & C)]; [now left|right]. split; [now rewrite (MG_grad _ _ _ Mq)|]. split; [intros Q; apply B, (MG_tag_back _ _ _ _ Mq Q); discriminate|]. intros [Z _]. contradiction. }
    apply in_map_iff in Hk. destruct Hk as (g1 & Kg & Hg1). pose proof (G1 g1 Hg1 Kg) as Gg.
    destruct (Si _ _ Ip) as [Y|[[Kp [Kx|[Ix Nx]]]|(Kx & Iy & Np)]].
    + pose proof (proj1 (inside_keys _ _ _ Y)) as Kx. destruct (Old x Hx) as (y & Hy & My); [intros (X & _); apply Fr; congruence|]. rewrite (MG_key _ _ _ My) in *. apply (Nold (key p) y); auto. now apply (MG_grad _ _ _ My).
    + left. congruence.
    + exfalso. pose proof (proj1 (inside_keys _ _ _ Ix)) as Kx. destruct (Old x Hx) as (y & Hy & My); [intros (X & _); apply Fr; congruence|]. rewrite (MG_key _ _ _ My), <- Kg in *. destruct (Ns y g1 Hy Hg1 (proj1 (MG_grad _ _ _ My) Gx) Ix) as [E|[A _]]; [now destruct Nx|contradiction].
    + rewrite <- Kg in Iy, Np. destruct (Nold (key p) g1 Hg1 Gg Iy eq_refl) as [E|Z]; [contradiction|now right].
  - intros (rank & R). exists (fun k => if Nat.eqb k f then 0 else S (rank k)). intros d' x k Hd Gd Hx V. destruct (Sn d' Hd) as [(_ & _ & A)|(d & H & Md)]; [rewrite A in Hx; destruct Hx|]. rewrite (MG_key _ _ _ Md). destruct (Kt d H) as [_ Nd]. apply Nat.eqb_neq in Nd. rewrite Nd. pose proof (proj1 (MG_grad _ _ _ Md) Gd) as G0. destruct (Nat.eqb_spec k f) as [E|E]; [lia|]. apply -> Nat.succ_lt_mono. destruct (MG_attrs _ _ _ Md x Hx) as [X|[[X _]|(X & Y & j & Z & <-)]].
    + exact (R d x k H G0 X V).
    + destruct (X G0) as [L _]. rewrite V in L. discriminate.
    + rewrite V in Z. injection Z as Z. contradiction.
Qed.
End Share.
(** The state of the documents between the passes. *)
Definition state (t : tree) : Prop := fine t /\ exists U ur GK, tame U ur GK t /\ nest U t.
Lemma tame_nonest U ur GK t : tame U ur GK t -> nest U t -> nonest t.
Proof. intros Tm Ns g g' Hg Hg' G G' I. destruct (Ns g g' Hg Hg' G I) as [E|[A _]]; [now symmetry|contradiction]. Qed.
Lemma state_loop : forall n l t p, state t -> ready_for l t -> regroup_loop n l t = Ok p -> state (snd p) /\ (ranked t -> ranked (snd p)).
Proof.
  induction n as [|n IH]; intros l t p S R E; [cbn in E; injection E as <-; auto|]. destruct l as [|k1 rest]; cbn [regroup_loop] in E; [injection E as <-; auto|]. cbv zeta in E.
  assert (R' : ready_for (filter (fun k => negb (equal_stops t k1 k)) rest) t) by (intros k d Hk; apply filter_In in Hk; apply (R k); right; apply Hk).
  destruct (filter (equal_stops t k1) rest) as [|j js] eqn:Ej; [exact (IH _ _ _ S R' E)|]. apply bind_ok in E. destruct E as (t1 & E1 & E). apply bind_ok in E. destruct E as (q & E2 & E). injection E as <-. cbn [snd].
  assert (Eq : forall i, In i (j :: js) -> In k1 (keys t) /\ In i (keys t) /\ In i rest).
  { intros i Hi. rewrite <- Ej in Hi. apply filter_In in Hi. destruct Hi as [Hr Q]. unfold equal_stops in Q. destruct (find_sub k1 t) as [s1|] eqn:Q1; [|discriminate]. destruct (find_sub i t) as [s2|] eqn:Q2; [|discriminate]. apply find_sub_some in Q1, Q2. destruct Q1 as [Q1 <-], Q2 as [Q2 <-]. split; [now apply key_in_sub|split; [now apply key_in_sub|exact Hr]]. }
  destruct S as (F & U & ur & GK & Tm & Ns). destruct (Eq j (or_introl eq_refl)) as (Hk1 & _). assert (Rk : ready_for (k1 :: j :: js) t) by (intros k d [<-|Hk]; [apply R; now left|apply (R k); right; apply (Eq k Hk)]).
  assert (Ij : incl (j :: js) (keys t)) by (intros i Hi; apply (Eq i Hi)).
  destruct (fine_share k1 (j :: js) t t1 F (tame_nonest _ _ _ _ Tm Ns) Rk Hk1 Ij E1) as (F1 & _ & _). pose proof (sh_share t k1 (j :: js) t1 (fine_nodup t F) Rk Hk1 Ij E1) as S1.
  destruct (sh_tame t k1 U ur GK t1 F Hk1 (fun d => R k1 d (or_introl eq_refl)) F1 Tm Ns S1) as (T1 & N1 & Rk1).
  assert (R1 : ready_for (filter (fun k => negb (equal_stops t k1 k)) rest) t1).
  { intros k d Hk Hd Kd. destruct (sh_nodes _ _ _ S1 d Hd) as [(_ & Tg & _)|(d0 & H0 & M0)]; [now left|]. apply (MG_grad _ _ _ M0). apply (R' k); [exact Hk|exact H0|]. rewrite <- (MG_key _ _ _ M0). exact Kd. }
  destruct (IH _ t1 q (conj F1 (ex_intro _ _ (ex_intro _ _ (ex_intro _ _ (conj T1 N1))))) R1 E2) as [A B]. auto.
Qed.
