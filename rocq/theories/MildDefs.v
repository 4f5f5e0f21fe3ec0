(** Documents with references: the definitions are collected in a main defs element. *)
From Coq Require Import List Bool NArith Arith ZArith String Lia QArith Qcanon Permutation.
From Verif Require Import Names Num Value Dom DomFacts DomOps Outcome DomRemove SpecDom SpecWritten Stops Shapes NPass APass VLoop Transforms Links TasksSimple Visit Move MoveFacts RmUnusedDefs GroupDefs GroupDefsProofs GroupDefsEnd SpecGroupDefs Props_groupdefs SpecText WfAll WfStruct WfUse WfGrad Props_wf PlainMove PlainDefs Mild MildPasses MildMove.
Import ListNotations.
Local Open Scope nat_scope.

Lemma ctx_inside t : forall A anc x l1 p l2, In (anc, x) (ctx A t) -> anc = l1 ++ p :: l2 -> List.length A <= List.length l2 -> inside t (key x) (key p).
Proof.
  induction t as [d ch IH] using tree_ind'. rewrite Forall_forall in IH. intros A anc x l1 p l2 H E L. cbn [ctx] in H. destruct H as [H|H].
  - injection H as <- <-. exfalso. rewrite E, app_length in L. cbn in L. lia.
  - apply in_flat_map in H. destruct H as (c & Hc & H). destruct (Nat.eq_dec (List.length l2) (List.length A)) as [Q|Q].
    + pose proof H as H'. rewrite ctx_app in H. apply in_map_iff in H. destruct H as ([q y] & Eq & H). cbn in Eq. injection Eq as Eq <-. rewrite E in Eq.
      assert (X : p = d). { assert (Y : l2 = A /\ p = d); [|apply Y]. rewrite <- (app_nil_l (d :: A)) in Eq. change (q ++ [] ++ d :: A = l1 ++ p :: l2) in Eq. assert (Z : q ++ d :: A = l1 ++ p :: l2) by exact Eq.
        assert (Lq : List.length q = List.length l1) by (apply (f_equal (@List.length _)) in Z; rewrite !app_length in Z; cbn in Z; lia). clear -Z Lq. revert l1 Z Lq. induction q as [|a q IH]; intros [|b l1] Z Lq; try discriminate; cbn in Z; [now injection Z as <- <-|]. injection Z as _ Z. apply (IH l1 Z). now injection Lq. }
      subst p. exists (T d ch). split; [now left|]. split; [reflexivity|]. rewrite keys_cons. right. apply in_flat_map. exists c. split; [exact Hc|]. rewrite <- (ctx_keys c []). apply in_map_iff. exists (q, y). auto.
    + destruct (IH c Hc (d :: A) anc x l1 p l2 H E) as (s & Hs & K & I); [cbn; lia|]. exists s. split; [right; apply in_flat_map; eauto|auto].
Qed.
Lemma anc_inside t anc x p : In (anc, x) (ctx [] t) -> In p anc -> inside t (key x) (key p).
Proof. intros H Hp. apply in_split in Hp. destruct Hp as (l1 & l2 & ->). apply (ctx_inside t [] _ x l1 p l2 H eq_refl). cbn. lia. Qed.
Lemma inside_cases t a b : NoDup (keys t) -> inside t a b -> (a = b /\ In a (keys t)) \/ exists anc x p, In (anc, x) (ctx [] t) /\ In p anc /\ key x = a /\ key p = b.
Proof.
  intros N I. pose proof (inside_keys _ _ _ I) as [Ka _]. pose proof Ka as Ka'. apply in_map_iff in Ka. destruct Ka as (x & Kx & Hx). destruct (inside_ctx t a b x N Hx Kx I) as [E|(anc & p & H & Hp & Kp)]; [left; auto|right]. exists anc, x, p. auto.
Qed.
Lemma perm_inside T0 T1 s a B rest : NoDup (keys T1) -> Permutation (ctx [] T0) (ctx a s ++ rest) -> Permutation (ctx [] T1) (ctx B s ++ rest) ->
  forall i j, inside T1 i j -> inside T0 i j \/ exists p, In p B /\ key p = j.
Proof.
  intros N P0 P1 i j I. apply (inside_cases T1 i j N) in I. destruct I as [[<- Hi]|(anc & x & p & Hx & Hp & Kx & Kp)].
  - left. apply in_inside. rewrite <- (ctx_keys T1 []) in Hi. apply (Permutation_in _ (Permutation_map _ P1)) in Hi. rewrite <- (ctx_keys T0 []). apply (Permutation_in _ (Permutation_sym (Permutation_map _ P0))). rewrite map_app in *. rewrite !ctx_keys in *. exact Hi.
  - apply (Permutation_in _ P1), in_app_or in Hx. destruct Hx as [Hx|Hx].
    + apply ctx_rebase in Hx. destruct Hx as [E|(d0 & l & y & E & HB)].
      * injection E as -> ->. right. eauto.
      * injection E as -> ->. change (d0 :: l ++ B) with ((d0 :: l) ++ B) in Hp. apply in_app_or in Hp. destruct Hp as [Hp|Hp]; [left|right; eauto]. rewrite <- Kx, <- Kp. apply (anc_inside T0 (d0 :: l ++ a)); [|change (d0 :: l ++ a) with ((d0 :: l) ++ a); apply in_or_app; now left].
        apply (Permutation_in _ (Permutation_sym P0)), in_or_app. left. apply HB.
    + left. rewrite <- Kx, <- Kp. apply (anc_inside T0 anc); [|exact Hp]. apply (Permutation_in _ (Permutation_sym P0)), in_or_app. now right.
Qed.
(** The parents of the gradients. *)
Definition gp (t : tree) : Prop := forall a x p, In (p :: a, x) (ctx [] t) -> gradient_node x -> resolves p = false.
Lemma gp_shr t t' : gp t -> shr M t t' -> gp t'.
Proof.
  intros G S a x p Hx Gx. destruct (shr_ctx M t t' [] [] (p :: a, x) S (Forall2_nil _) Hx) as ([qa qx] & Hq & Mx & Ma). cbn in Mx, Ma. inversion Ma as [|q0 ? qa' ? M0 _]; subst. pose proof (G _ _ _ Hq (proj1 (M_grad _ _ Mx) Gx)) as E.
  unfold resolves in *. destruct (M_tag _ _ M0) as [T0|[T0 _]]; rewrite T0; [exact E|reflexivity].
Qed.
Lemma sig_resolves d d' : sig d' = sig d -> resolves d' = resolves d. Proof. intros E. unfold resolves. now rewrite (sig_tag _ _ E). Qed.
Lemma sig_grad d d' : sig d' = sig d -> gradient_node d' <-> gradient_node d. Proof. intros E. unfold gradient_node. now rewrite (sig_tag _ _ E). Qed.
Lemma defs_resolves d : is_defs d = true -> resolves d = false. Proof. unfold is_defs. intros E. apply is_tag_tag in E. unfold resolves. now rewrite E. Qed.
Lemma gp_step m sv t t' : ok m sv t' -> (forall d, In d (flat t) -> exists d', In d' (flat t') /\ sig d' = sig d) ->
  (forall p, In p (ctx [] t') -> child_of m p = true \/ exists q, In q (ctx [] t) /\ sig (snd q) = sig (snd p) /\ forall j, child_of j q = child_of j p) -> gp t -> gp t'.
Proof.
  intros O Fw Bw G a x p Hx Gx. destruct (Bw _ Hx) as [C|(q & Hq & Sq & Cq)].
  - apply child_of_parent in C. destruct C as (d & l & E & Kd). cbn in E. injection E as <- <-. destruct (front_ctx _ _ _ (ok_front _ _ _ O)) as (ds & dm & H1 & _ & K1 & D1 & _).
    assert (p = dm) by (apply (data_unique t'); [apply O|exact (anc_flat _ _ _ _ Hx)|exact (ctx_in_flat _ _ _ H1)|congruence]). subst dm. now apply defs_resolves.
  - specialize (Cq (key p)). unfold child_of at 2 in Cq. cbn in Cq. rewrite Nat.eqb_refl in Cq. apply child_of_parent in Cq. destruct Cq as (d & l & E & Kd). destruct q as [qa qx]. cbn in E, Sq. subst qa. destruct (Fw d (anc_flat _ _ _ _ Hq)) as (d' & Hd' & Sd).
    assert (d' = p) by (apply (data_unique t'); [apply O|exact Hd'|exact (anc_flat _ _ _ _ Hx)|rewrite (sig_key _ _ Sd); exact Kd]). subst d'. rewrite (sig_resolves d p Sd). apply (G _ _ _ Hq). now apply (sig_grad qx x (eq_sym Sq)).
Qed.
(** Documents on the way. *)
Section Mid.
Variables (m sv : nat) (t0 : tree).
Definition newdefs (d' : ndata) : Prop := tag d' = TEl EDefs /\ attrs d' = [] /\ key d' = m /\ ~ In m (keys t0).
Definition from (u : tree) : Prop := forall d', In d' (flat u) -> (exists d, In d (flat t0) /\ M d d') \/ newdefs d'.
Record mid (u : tree) : Prop := {
  md_ok : ok m sv u;
  md_root : is_svg_el (data u) = false;
  md_rk : root_key u = root_key t0;
  md_from : from u;
  md_in : forall a b, inside u a b -> inside t0 a b \/ b = m \/ b = sv \/ b = root_key t0;
  md_par : gp u
}.
Lemma from_tmap g u : from u -> (forall d, In d (flat u) -> M d (g d)) -> (forall d, In d (flat u) -> newdefs d -> g d = d) -> from (tmap g u).
Proof.
  intros F G H d' Hd. rewrite flat_tmap in Hd. apply in_map_iff in Hd. destruct Hd as (d & <- & Hd). destruct (F d Hd) as [(x & Hx & Mx)|N]; [left; exists x; split; [exact Hx|exact (M_trans _ _ _ Mx (G d Hd))]|right]. now rewrite (H d Hd N).
Qed.
Lemma child_parent u k d : NoDup (keys u) -> In d (flat u) -> existsb (Nat.eqb (key d)) (map (fun p => key (snd p)) (filter (child_of k) (ctx [] u))) = true ->
  exists p a, In (p :: a, d) (ctx [] u) /\ key p = k.
Proof.
  intros N Hd E. apply existsb_exists in E. destruct E as (j & Hj & E). apply Nat.eqb_eq in E. subst j. apply in_map_iff in Hj. destruct Hj as ([qa qx] & E & Hq). cbn in E. apply filter_In in Hq. destruct Hq as [Hq C]. assert (qx = d) by (apply (data_unique u); auto; exact (ctx_in_flat _ _ _ Hq)). subst qx.
  apply child_of_parent in C. destruct C as (p & l & El & Kp). cbn in El. subst qa. eauto.
Qed.
Lemma inheritable_name x : inheritable_attr x = true -> ~ hname x.
Proof. unfold inheritable_attr, hname. intros H E. rewrite E in H. discriminate. Qed.
Lemma M_resolver k u d : NoDup (keys u) -> gp u -> In d (flat u) -> M d (resolver k u d).
Proof.
  intros N G Hd. destruct (resolver_grown k u d) as (Sg & _ & _ & A). assert (D : gradient_node d -> resolver k u d = d).
  { intros Gd. unfold resolver. destruct (context k u) as [[anc n]|] eqn:C; [|reflexivity]. destruct (resolves n) eqn:Rn; [|reflexivity]. cbn [andb]. destruct (existsb _ _) eqn:E; [|reflexivity]. exfalso.
    apply (child_parent u k d N Hd) in E. destruct E as (p & a & Hp & Kp). apply context_some in C. destruct C as [C Kn]. assert (n = p) by (apply (data_unique u); auto; [exact (ctx_in_flat _ _ _ C)|exact (anc_flat _ _ _ _ Hp)|cbn in Kn; congruence]). subst n. rewrite (G _ _ _ Hp Gd) in Rn. discriminate. }
  split; [exact (sig_key _ _ Sg)|left; exact (sig_tag _ _ Sg)|]. intros y Hy. destruct (A y Hy) as [X|[X _]]; [now left|].
  destruct (tag d) as [|e| | | |] eqn:Td; try (right; split; intros Z; exfalso; unfold gradient_node, use_or_g in Z; rewrite Td in Z; intuition discriminate).
  destruct (eid_eqb_spec e ELinearGradient) as [->|N1]; [left; rewrite <- D; [exact Hy|now left]|]. destruct (eid_eqb_spec e ERadialGradient) as [->|N2]; [left; rewrite <- D; [exact Hy|now right]|].
  right. split; [intros [Z|Z]; congruence|]. intros _. now apply inheritable_name.
Qed.
Lemma defs_alone k u d : ok m sv u -> gp u -> from u -> key d = m -> In d (flat u) -> newdefs d -> resolver k u d = d.
Proof.
  intros O G F Km Hd Nd. unfold resolver. destruct (context k u) as [[anc n]|] eqn:C; [|reflexivity]. destruct (resolves n) eqn:Rn; [|reflexivity]. cbn [andb]. destruct (existsb _ _) eqn:E; [|reflexivity]. exfalso.
  apply (child_parent u k d (ok_nodup _ _ _ O) Hd) in E. destruct E as (p & a & Hp & Kp). apply context_some in C. destruct C as [C Kn]. assert (n = p) by (apply (data_unique u); [apply O|exact (ctx_in_flat _ _ _ C)|exact (anc_flat _ _ _ _ Hp)|cbn in Kn; congruence]). subst n.
  destruct (front_ctx _ _ _ (ok_front _ _ _ O)) as (ds & dm & H1 & _ & K1 & D1 & K2 & T2). assert (Q : (p :: a, d) = ([ds; data u], dm)) by (apply (ctx_unique u []); [apply O|exact Hp|exact H1|cbn; congruence]). injection Q as -> _ _. apply is_tag_tag in T2. unfold resolves in Rn. rewrite T2 in Rn. discriminate.
Qed.
Lemma mid_move u k : mid u -> node_ok m sv u k -> mid (move k m u).
Proof.
  intros [O Rt Rk F I G] K. destruct (move_spec m sv u k O K) as (s & a & rest & dm & ds & Hs & Ks & Km & Dm & Ksv & P1 & P2 & _ & O2 & Rk2 & Dt). pose proof (move_perm m sv u k O K) as P. split; [exact O2|now rewrite Dt|congruence| | |].
  - intros d Hd. apply F. exact (Permutation_in _ P Hd).
  - intros i j Hij. destruct (perm_inside u (move k m u) s a _ rest (ok_nodup _ _ _ O2) P1 P2 i j Hij) as [X|(p & Hp & <-)]; [now apply I|]. right. destruct Hp as [<-|[<-|[<-|[]]]]; auto.
  - apply (gp_step m sv u); [exact O2| | |exact G].
    + intros d Hd. exists d. split; [apply (Permutation_in d (Permutation_sym P)); exact Hd|reflexivity].
    + intros p Hp. destruct (move_ctx m sv u k p O K Hp) as [[_ H]|[_ (q & Hq & Sq & Cq)]]; [auto|]. right. exists q. split; [exact Hq|]. split; [now rewrite Sq|exact Cq].
Qed.
Lemma mid_resolve u k : mid u -> mid (resolve_attrs k u).
Proof.
  intros Md. pose proof Md as [O Rt Rk F I G]. rewrite resolve_tmap. assert (Sg : forall d, sig (resolver k u d) = sig d) by apply resolver_sig. assert (Kg : forall d, key (resolver k u d) = key d) by (intros d; apply (sig_key _ _ (Sg d))).
  split; [now apply ok_tmap|rewrite data_tmap; now rewrite (svg_el_sig _ _ (Sg (data u)))|unfold root_key in *; rewrite data_tmap, Kg; exact Rk| | |].
  - apply from_tmap; [exact F| |].
    + intros d Hd. apply M_resolver; [apply O|exact G|exact Hd].
    + intros d Hd Nd. apply defs_alone; auto. apply Nd.
  - intros a b H. apply I. exact (inside_tmap _ _ _ _ Kg H).
  - intros a x p Hx Gx. rewrite ctx_tmap0 in Hx. apply in_map_iff in Hx. destruct Hx as ([qa qx] & E & Hq). cbn in E. injection E as E <-. destruct qa as [|q0 qa]; [discriminate|]. cbn in E. injection E as <- _. rewrite (sig_resolves q0 _ (Sg q0)). apply (G _ _ _ Hq). now apply (sig_grad qx _ (Sg qx)).
Qed.
Lemma node_ok_resolve u k j : node_ok m sv u j -> node_ok m sv (resolve_attrs k u) j.
Proof. intros H. rewrite resolve_tmap. apply node_ok_tmap; [exact H|apply resolver_sig]. Qed.
Lemma mid_second : forall rem u, mid u -> (forall k, In k rem -> exists d, In d (flat u) /\ key d = k /\ is_ref d = true) -> mid (fold_left (move_step m) rem u).
Proof.
  induction rem as [|k rem IH]; intros u Md Hk; cbn [fold_left]; [exact Md|]. pose proof (ref_node_ok m sv u k (md_ok _ Md) (md_root _ Md) (Hk k (or_introl eq_refl))) as Kn. apply IH.
  - unfold move_step. apply mid_move; [now apply mid_resolve|now apply node_ok_resolve].
  - destruct (move_step_grows m sv u k (md_ok _ Md) Kn) as (_ & [G1 G2] & _). intros j Hj. destruct (Hk j (or_intror Hj)) as (d & Hd & Kd & Rd). destruct (G1 d Hd) as (d' & Hd' & (S1 & _)). exists d'. split; [exact Hd'|]. split; [rewrite (sig_key _ _ S1); exact Kd|rewrite (is_ref_sig _ _ S1); exact Rd].
Qed.
Lemma mid_third : forall rem u, mid u -> (forall k, In k rem -> node_ok m sv u k) -> mid (fold_left (fun t k => move k m t) rem u).
Proof.
  induction rem as [|k rem IH]; intros u Md Hk; cbn [fold_left]; [exact Md|]. pose proof (Hk k (or_introl eq_refl)) as Kn. apply IH; [now apply mid_move|].
  destruct (move_spec m sv u k (md_ok _ Md) Kn) as (s & a & rest & dm & ds & _ & _ & _ & _ & _ & _ & _ & _ & O2 & Rk & Dt). pose proof (move_perm m sv u k (md_ok _ Md) Kn) as P.
  intros j Hj. destruct (Hk j (or_intror Hj)) as (d & Hd & Kd & N1 & N2 & N3). exists d. split; [apply (Permutation_in d (Permutation_sym P)); exact Hd|]. rewrite Rk. auto.
Qed.
End Mid.
Lemma gradient_ref d : gradient_node d -> referenced_kind d.
Proof. intros [E|E]; [exists ELinearGradient|exists ERadialGradient]; split; auto. Qed.
Lemma mid_first t svg m t1 : NoDup (keys t) -> tag (data t) = TRoot -> gp t -> svg_element t = Some svg -> main_defs svg t = (m, t1) -> mid m (root_key svg) t t1.
Proof.
  intros N Rt G Es Em. destruct (first_step t svg m t1 N Rt Es Em) as (O1 & D1 & C). destruct (svg_kid _ _ Es) as [Hk Ts]. apply is_tag_tag in Ts. assert (Rs : resolves (data svg) = false) by (unfold resolves; now rewrite Ts).
  split; [exact O1|rewrite D1; unfold is_svg_el; now rewrite Rt|unfold root_key; now rewrite D1| | |]; destruct C as [(s & a & rest & _ & _ & Hs & P1 & P2 & _)|(_ & P & Nm)].
  - intros d Hd. left. exists d. split; [|apply M_refl]. apply flat_ctx_perm in P1, P2. apply (Permutation_in _ P2) in Hd. apply (Permutation_in _ (Permutation_sym P1)). rewrite map_app, !map_snd_ctx in *. exact Hd.
  - intros d Hd. apply flat_ctx_perm in P. apply (Permutation_in _ P) in Hd. cbn [map snd] in Hd. rewrite map_snd_ctx in Hd. destruct Hd as [<-|Hd]; [right; repeat split; auto|left]. exists d. split; [exact Hd|apply M_refl].
  - intros i j Hij. destruct (perm_inside t t1 s a _ rest (ok_nodup _ _ _ O1) P1 P2 i j Hij) as [X|(p & Hp & <-)]; [now left|right]. destruct Hp as [<-|[<-|[]]]; auto.
  - intros i j Hij. apply (inside_cases t1 i j (ok_nodup _ _ _ O1)) in Hij. destruct Hij as [[<- Hi]|(anc & x & p & Hx & Hp & Kx & Kp)].
    + rewrite <- (ctx_keys t1 []) in Hi. apply (Permutation_in _ (Permutation_map _ P)) in Hi. cbn [map snd key] in Hi. rewrite ctx_keys in Hi. destruct Hi as [<-|Hi]; [right; now left|left; now apply in_inside].
    + apply (Permutation_in _ P) in Hx. destruct Hx as [E|Hx]; [|left; rewrite <- Kx, <- Kp; exact (anc_inside t anc x p Hx Hp)]. injection E as <- <-. right. destruct Hp as [<-|[<-|[]]]; auto.
  - intros b x p Hx Gx. apply (Permutation_in _ P2) in Hx. apply in_app_or in Hx. destruct Hx as [Hx|Hx].
    + apply ctx_rebase in Hx. destruct Hx as [E|(d0 & l & y & E & HB)]; injection E as -> ->; [exact Rs|]. subst x. apply (G (l ++ a) y d0); [|exact Gx]. apply (Permutation_in _ (Permutation_sym P1)). apply in_or_app. left. apply HB.
    + apply (G b x p); [|exact Gx]. apply (Permutation_in _ (Permutation_sym P1)). apply in_or_app. now right.
  - intros b x p Hx Gx. apply (Permutation_in _ P) in Hx. destruct Hx as [E|Hx]; [|exact (G b x p Hx Gx)]. injection E as <- _ _. exact Rs.
Qed.
Lemma M_defs_tag d d' : M d d' -> tag d' = TRoot -> tag d = TRoot.
Proof. intros H E. destruct (M_tag _ _ H) as [X|[X _]]; congruence. Qed.
(** After the pass. *)
Lemma group_defs_mid t svg t' : fine t -> gp t -> svg_element t = Some svg -> group_defs t = Ok t' -> exists m,
  (forall d', In d' (flat t') -> (exists d, In d (flat t) /\ M d d') \/ (tag d' = TEl EDefs /\ ~ In (key d') (keys t))) /\
  (forall a b, inside t' a b -> inside t a b \/ b = m \/ b = root_key svg \/ b = root_key t) /\
  (In m (keys t) -> exists d, In d (flat t) /\ key d = m /\ tag d = TEl EDefs).
Proof.
  intros F G Es E. pose proof (fine_nodup t F) as N. pose proof (fine_root t F) as Rt. destruct (main_defs svg t) as [m t1] eqn:Em. rewrite (group_steps t svg m t1 Es Em) in E. destruct (moves_ok _ _ _); [|discriminate]. injection E as <-. exists m.
  pose proof (mid_first t svg m t1 N Rt G Es Em) as M1. assert (M2 : mid m (root_key svg) t (step2 m t1)) by (apply mid_second; [exact M1|apply to_move_ok]).
  assert (M3 : mid m (root_key svg) t (step3 m (step2 m t1))) by (apply mid_third; [exact M2|]; intros k Hk; apply in_other_ok; [apply M2|apply M2|exact Hk]).
  pose proof (below_desc _ _ (below_remove_nodes (others m (step3 m (step2 m t1))) (step3 m (step2 m t1)))) as [D I]. split; [|split].
  - intros d' Hd. destruct (D d' Hd) as (x & Hx & Mx). destruct (md_from _ _ _ _ M3 x Hx) as [(z & Hz & Mz)|(Tx & _ & Kx & Nx)]; [left; exists z; split; [exact Hz|exact (M_trans _ _ _ Mz Mx)]|right]. destruct (M_tag _ _ Mx) as [Te|[_ (e & Se & Ie)]]; [|exfalso; rewrite Tx in Se; injection Se as <-; cbn in Ie; intuition discriminate]. split; [congruence|]. rewrite (M_key _ _ Mx), Kx. exact Nx.
  - intros a b H. exact (md_in _ _ _ _ M3 a b (I a b H)).
  - intros Hm. destruct (first_step t svg m t1 N Rt Es Em) as (_ & _ & [(s & a & rest & Fd & Km & Hs & _)|(_ & _ & Nm)]); [|contradiction]. exists (data s). unfold first_defs in Fd. apply find_some in Fd. destruct Fd as [Hd Dd]. split; [exact Hd|]. split; [exact Km|now apply is_tag_tag].
Qed.
Lemma tame_defs U ur GK t svg t' : fine t -> tame U ur GK t -> gp t -> svg_element t = Some svg ->
  (forall d, In d (flat t) -> U (key d) -> tag d <> TEl EDefs /\ tag d <> TRoot /\ key d <> root_key svg) -> group_defs t = Ok t' ->
  tame (fun k => U k /\ In k (keys t)) ur (GKof t) t' /\ nest (fun k => U k /\ In k (keys t)) t' /\ (ranked t -> ranked t').
Proof.
  intros F Tm G Es Un E. destruct (group_defs_mid t svg t' F G Es E) as (m & D & I & Mm). pose proof (fine_nodup t F) as N. pose proof (fine_root t F) as Rt. pose proof (fine_group_defs t t' F E) as F'.
  pose proof (tame_GKof U ur GK t (fine_wf t F) Tm) as [No Us Ki Gr].
  assert (Ex : forall b, U b /\ In b (keys t) -> b <> m /\ b <> root_key svg /\ b <> root_key t).
  { intros b [Ub Kb]. pose proof Kb as Kb'. apply in_map_iff in Kb'. destruct Kb' as (d & <- & Hd). destruct (Un d Hd Ub) as (A1 & A2 & A3). split; [|split; [exact A3|]].
    - intros X. rewrite <- X in Mm. destruct (Mm Kb) as (y & Hy & Ky & Ty). assert (y = d) by (apply (data_unique t); auto). now subst y.
    - intros X. assert (d = data t) by (apply (data_unique t); auto; apply flat_self). now subst d. }
  split; [|split].
  - split.
    + intros d' Hd. destruct (D d' Hd) as [(d & H0 & Md)|[Td Nd]]; [exact (M_okg _ _ _ Md (No d H0))|]. split; [intros [Q|Q]; congruence|]. intros (g & Hg & _ & Kg). exfalso. apply Nd. rewrite <- Kg. now apply in_map.
    + intros d' x Hd Td Hx Hn. destruct (D d' Hd) as [(d & H0 & Md)|[Td' Nd]]; [|congruence]. assert (T0 : tag d = TEl EUse) by (apply (M_tag_back _ _ _ Md Td); discriminate). destruct (M_attrs _ _ Md x Hx) as [X|[_ X]]; [|exfalso; apply X; [now left|exact Hn]].
      destruct (Us d x H0 T0 X Hn) as (k & Ev & Uk & Rk). exists k. split; [exact Ev|]. split; [split; [exact Uk|]|].
      * apply (wf_links t (fine_wf t F)). unfold targets. apply in_flat_map. exists d. split; [exact H0|]. apply in_flat_map. exists x. split; [exact X|]. rewrite Ev. now left.
      * intros b Hb Ub. rewrite (M_key _ _ Md) in Hb. destruct (Ex b Ub) as (E1 & E2 & E3). destruct (I _ _ Hb) as [Y|[Y|[Y|Y]]]; try contradiction. apply Rk; [exact Y|apply Ub].
    + intros d' Hd [Ud Kd]. destruct (D d' Hd) as [(d & H0 & Md)|[Td Nd]]; [|contradiction]. rewrite (M_key _ _ Md) in Ud. destruct (Ki d H0 Ud) as [A B]. split; [now rewrite (M_grad _ _ Md)|]. intros Q. apply B. apply (M_tag_back _ _ _ Md Q). discriminate.
    + intros d' x Hd Td Hx Hn. destruct (D d' Hd) as [(d & H0 & Md)|[Td' Nd]]; [|congruence]. assert (T0 : tag d = TEl EG) by (apply (M_tag_back _ _ _ Md Td); discriminate). destruct (M_attrs _ _ Md x Hx) as [X|[_ X]]; [exact (Gr d x H0 T0 X Hn)|]. apply X; [now right|exact Hn].
  - intros x p Hx Hp Gx Ip. assert (Hok : group_defs t <> Panic) by congruence. destruct (C13_structure t svg (fine_wf t F) Rt Es Hok) as (t2 & svg' & main & rest & E1 & _ & Es' & Ks' & Kd' & Tm' & _ & Rf & _). rewrite E1 in E. injection E as ->.
    destruct (inside_ctx t' (key x) (key p) x (fine_nodup t' F') Hx eq_refl Ip) as [Q|(anc & q & Hc & Hq & Kq)]; [left; now symmetry|right]. assert (Hq' : In q (flat t')) by (destruct (ctx_anc_in t' [] _ q Hc Hq) as [[]|Z]; exact Z). assert (q = p) by (apply (data_unique t'); auto; apply (fine_nodup t' F')). subst q.
    destruct (Rf anc x Hc (gradient_ref x Gx)) as (a' & ->).
    destruct (svg_ctx t' svg' Es') as [_ Ps]. assert (Pm : In ([data svg'; data t'], main) (places [] t')) by (apply (place_kid t' [] [data t'] svg'); [exact Ps|rewrite Kd'; now left]).
    assert (A' : a' = [data svg'; data t']). { apply ctx_place in Hc. destruct Hc as (s & Hc & _). destruct (place_anc _ _ _ _ Hc) as (l & El & L). rewrite app_nil_r in El. subst l. destruct (L [] (data main) a' eq_refl) as (s' & Q & Ds & _). rewrite app_nil_r in Q.
      assert (X : (a', data main) = ([data svg'; data t'], data main)). { apply (ctx_unique t' []); [apply (fine_nodup t' F')| | |reflexivity]; apply ctx_place; eauto. } now injection X. }
    subst a'. destruct (svg_kid _ _ Es') as [_ Ts']. apply is_tag_tag in Ts'. unfold is_defs_el in Tm'.
    assert (Tg : tag p = TEl EDefs \/ (tag p = TEl ESvg /\ key p = root_key svg) \/ tag p = TRoot). { destruct Hq as [<-|[<-|[<-|[]]]]; [now left|right; left; split; [exact Ts'|exact Ks']|right; right; exact (fine_root t' F')]. }
    split; [unfold gradient_node; intuition congruence|]. split; [intuition congruence|]. intros [Up Kp]. destruct (D p Hp) as [(d & H0 & Md)|[_ Nd]]; [|contradiction]. rewrite (M_key _ _ Md) in *. destruct (Un d H0 Up) as (A1 & A2 & A3). destruct Tg as [Q|[[_ Q]|Q]]; [|contradiction|].
    + apply A1, (M_tag_back _ _ _ Md Q). discriminate.
    + exact (A2 (M_defs_tag _ _ Md Q)).
  - intros (rank & R). exists rank. intros d' x k Hd Gd Hx V. destruct (D d' Hd) as [(d & H0 & Md)|[Td _]]; [|destruct Gd; congruence]. pose proof (proj1 (M_grad _ _ Md) Gd) as G0. rewrite (M_key _ _ Md). destruct (M_attrs _ _ Md x Hx) as [X|[X _]]; [exact (R d x k H0 G0 X V)|]. destruct (X G0) as [L _]. rewrite V in L. discriminate.
Qed.
