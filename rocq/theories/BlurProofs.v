(** Merging duplicate blur filters. *)
From Coq Require Import List Bool NArith Arith ZArith String Lia Permutation.
From Verif Require Import Names Num Value Dom DomFacts DomOps DomRemove Outcome APass SpecDom SpecText TextProofs Visit Move MoveFacts GroupDefsProofs Dupl SpecGradients SpecWritten SpecGradUnits SpecDupl DuplFacts GradProofs TasksSimpleProofs DuplProofs.
Import ListNotations.
Local Open Scope nat_scope.

Notation K := (fun d => tag d = TEl EFilter).
Lemma has_none d a : d_has d a = false <-> d_get d a = None.
Proof. unfold d_has, has_attr, d_get, get_value. destruct (get_attr (attrs d) a); cbn; split; congruence. Qed.
Lemma single_blur_iff t s : single_blur t s = true -> blur_filter s.
Proof.
  unfold single_blur, blur_filter. intros H. apply andb_prop in H. destruct H as [H B]. apply andb_prop in H. destruct H as [A1 A2]. apply is_tag_iff in A1. apply negb_true_iff, has_none in A2. split; [exact A1|]. split; [exact A2|]. destruct (kids s) as [|c [|]]; try discriminate. exists c.
  apply andb_prop in B. destruct B as [B B3]. apply andb_prop in B. destruct B as [B B2]. apply andb_prop in B. destruct B as [B1 _]. apply is_tag_iff in B1. apply negb_true_iff, has_none in B2, B3. auto.
Qed.
Lemma same_attrs_true l d1 d2 : same_attrs l d1 d2 = true -> forall a, In a l -> d_get d1 a = d_get d2 a.
Proof. unfold same_attrs. rewrite forallb_forall. intros H a Ha. apply opt_eqb_true. now apply H. Qed.
Lemma same_blur_refl s : blur_filter s -> same_blur s s.
Proof. intros (_ & _ & c & E & _). split; [reflexivity|]. exists c, c. auto. Qed.
Lemma same_blur_trans s s1 s2 : same_blur s s1 -> same_blur s1 s2 -> same_blur s s2.
Proof. intros (A & c & c1 & E & E1 & V) (A' & d & d1 & F & F1 & V'). split; [intros a Ha; rewrite A', A; auto|]. exists c, d1. assert (d = c1) by congruence. subst. repeat split; auto. congruence. Qed.
Lemma rl_quiet k2 k1 d : (forall x, In x (attrs d) -> link_of (a_val x) = None) -> rl k2 k1 d = d.
Proof. intros H. unfold rl. rewrite relink_none; [destruct d; reflexivity|]. intros x Hx. destruct (refers k2 x) eqn:E; [|reflexivity]. apply refers_iff in E. rewrite H in E by exact Hx. discriminate. Qed.
Lemma tmap_quiet k2 k1 s : (forall d x, In d (flat s) -> In x (attrs d) -> link_of (a_val x) = None) -> tmap (rl k2 k1) s = s.
Proof.
  induction s as [d ch IH] using tree_ind'. intros H. cbn. f_equal.
  - apply rl_quiet. intros x. apply H. now left.
  - rewrite <- (map_id ch) at 2. apply map_ext_in. intros c Hc. rewrite Forall_forall in IH. apply IH; [exact Hc|]. intros d' x Hd. apply H. right. apply in_flat_map. eauto.
Qed.

Section bstep.
Variables (t s1 s2 : tree) (a1 a2 : list ndata).
Hypothesis R : ready_filters t.
Hypothesis P1 : In (a1, s1) (places [] t).
Hypothesis P2 : In (a2, s2) (places [] t).
Hypothesis B1 : blur_filter s1.
Hypothesis B2 : blur_filter s2.
Notation n1 := (data s1).
Notation k1 := (root_key s1).
Notation k2 := (root_key s2).
Hypothesis N12 : k1 <> k2.
Let W := rf_wf t R.
Notation f := (rl k2 k1).
Notation t1 := (merged t s2 n1).
Lemma b_below s a d : In (a, s) (places [] t) -> tag (data s) = TEl EFilter -> In d (flat t) -> tag d = TEl EFilter -> In (key d) (keys s) -> key d = root_key s.
Proof.
  intros P G Hd Gd Hk. destruct (Nat.eq_dec (key d) (root_key s)) as [E|N]; [exact E|]. exfalso. destruct (ctx_below t s a _ P Hk N) as (a' & d' & Hc & Kd & Ha). assert (d' = d) by (apply (data_unique t); [apply W|exact (ctx_in_flat _ _ _ Hc)|exact Hd|exact Kd]). subst. exact (rf_nest t R a' d (data s) Hc Ha G Gd).
Qed.
Lemma b_H1 : In n1 (flat t). Proof. exact (place_in _ _ _ _ P1). Qed.
Lemma b_H2 : In (data s2) (flat t). Proof. exact (place_in _ _ _ _ P2). Qed.
Lemma b_K1 : ~ In (key n1) (keys s2).
Proof. intros H. apply N12. exact (b_below s2 a2 n1 P2 (proj1 B2) b_H1 (proj1 B1) H). Qed.
Lemma b_N2 : k2 <> root_key t.
Proof. intros E. apply b_K1. assert (Q : s2 = t) by (apply (sub_unique t); [apply W|exact (place_sub _ _ _ _ P2)|apply subs_self|exact E]). rewrite Q. apply (in_map key), b_H1. Qed.
Lemma b_typed : forall d x k, In d (flat t) -> In x (attrs d) -> link_of (a_val x) = Some k -> exists a, a_name x = AN a /\ a_val x = link_value a k /\ a_vis x = true.
Proof. exact (rf_link t R). Qed.
Lemma b_n1_quiet j : ~ refers_to n1 j.
Proof. intros (x & Hx & L). rewrite (rf_quiet t R s1 n1 x (place_sub _ _ _ _ P1) B1) in L; [discriminate|apply flat_self|exact Hx]. Qed.
Lemma b_users : forall d, In d (flat t) -> refers_to d k2 -> nid d <> nid n1 /\ nid n1 <> ""%string /\ ~ refers_to n1 (key d).
Proof.
  intros d Hd Hr. pose proof (rf_gid t R n1 b_H1 (proj1 B1)) as I1. split; [|split; [exact I1|apply b_n1_quiet]]. intros E. assert (d = n1) by (apply (rf_ids t R d n1 Hd b_H1 E); congruence). subst. exact (b_n1_quiet _ Hr).
Qed.
Lemma b_inner : forall j d, In j (keys s2) -> j <> k2 -> In d (flat t) -> ~ refers_to d j.
Proof. intros j d Hj N Hd. destruct (ctx_below t s2 a2 j P2 Hj N) as (a & x & Hc & <- & Ha). exact (rf_noref t R a x (data s2) d Hc Ha (proj1 B2) Hd). Qed.
Lemma b_relink : relink k2 n1 t = Ok (tmap f t). Proof. exact (relink_ok t s2 n1 b_typed b_users). Qed.
Lemma b_remove : remove k2 (tmap f t) = t1. Proof. exact (remove_merged t s2 a2 n1 W P2 b_K1 b_typed b_inner). Qed.
Lemma b_kept d : In d (flat t) -> tag d = TEl EFilter -> key d <> k2 -> ~ In (key d) (keys s2).
Proof. intros Hd G N H. apply N. exact (b_below s2 a2 d P2 (proj1 B2) Hd G H). Qed.
Lemma b_redirects : redirects K (ren k2 k1) t t1.
Proof. apply (redirects_step t s2 a2 n1 W P2 b_N2 b_H1 b_K1 b_typed); [rewrite (proj1 B1); symmetry; apply B2|apply B2|]. exact b_kept. Qed.
Lemma b_flat d' : In d' (flat t1) <-> exists d, In d (flat t) /\ ~ In (key d) (keys s2) /\ d' = f d.
Proof. exact (flat_merged t s2 a2 n1 W P2 b_N2 d'). Qed.
Lemma b_ctx p : In p (ctx [] t1) <-> exists q, In q (ctx [] t) /\ ~ In (key (snd q)) (keys s2) /\ p = (map f (fst q), f (snd q)).
Proof. exact (ctx_merged t s2 a2 n1 W P2 b_N2 p). Qed.
Lemma b_subs s' : In s' (subs t1) <-> exists s, In s (subs t) /\ ~ In (root_key s) (keys s2) /\ s' = detach k2 (tmap f s).
Proof. exact (subs_merged t s2 a2 n1 W P2 b_N2 s'). Qed.
Lemma b_sub_same s : In s (subs t) -> tag (data s) = TEl EFilter -> root_key s <> k2 -> detach k2 (tmap f s) = tmap f s.
Proof.
  intros Hs G N. apply detach_out. rewrite keys_tmap by reflexivity. intros H. destruct (sub_place s t [] Hs) as (a & P). apply N. symmetry. exact (b_below s a (data s2) P G b_H2 (proj1 B2) H).
Qed.
Lemma b_stays s : In s (subs t) -> blur_filter s -> root_key s <> k2 -> In s (subs t1).
Proof.
  intros Hs B N. apply b_subs. exists s. split; [exact Hs|]. split; [apply b_kept; [now apply data_of_sub|apply B|exact N]|]. rewrite b_sub_same by (auto; apply B). symmetry. apply tmap_quiet. intros d x. exact (rf_quiet t R s d x Hs B).
Qed.
Lemma b_get d a : In d (flat t) -> d_get (f d) a = option_map (redirect_value (ren k2 k1)) (d_get d a).
Proof. exact (d_get_rl t s2 n1 b_typed d a). Qed.
Lemma b_old s' : In s' (subs t1) -> blur_filter s' -> In s' (subs t) /\ root_key s' <> k2.
Proof.
  intros Hs B. apply b_subs in Hs. destruct Hs as (s & Hs & Ns & ->). assert (Nk : root_key s <> k2) by (intros E; apply Ns; rewrite E, keys_kids; now left). assert (G : tag (data s) = TEl EFilter) by (pose proof (proj1 B) as X; rewrite data_detach, data_tmap in X; exact X).
  rewrite (b_sub_same s Hs G Nk) in *. assert (Bs : blur_filter s).
  { destruct B as (_ & A & c & E & X & Y & Z). rewrite data_tmap, b_get in A by now apply data_of_sub. rewrite kids_tmap in E. destruct (kids s) as [|c0 [|]] eqn:Ek; try discriminate. injection E as <-. assert (Hc : In (data c0) (flat t)) by (apply data_of_sub; apply (subs_trans t s c0 Hs), in_kids_subs, in_flat_map; exists c0; split; [rewrite Ek; now left|apply subs_self]).
    rewrite data_tmap in X, Y, Z. rewrite b_get in Y, Z by exact Hc. split; [exact G|]. split; [destruct (d_get (data s) AXlinkHref); [discriminate|reflexivity]|]. exists c0. split; [exact Ek|]. split; [exact X|]. split; [destruct (d_get (data c0) AIn); [discriminate|reflexivity]|destruct (d_get (data c0) AResult); [discriminate|reflexivity]]. }
  rewrite tmap_quiet by (intros d x; exact (rf_quiet t R s d x Hs Bs)). auto.
Qed.
Lemma b_ready : ready_filters t1.
Proof.
  split.
  - exact (WF_merged t s2 a2 n1 W P2 b_N2 b_H1 b_K1 b_typed b_inner).
  - intros d d' Hd Hd' E Ne. apply b_flat in Hd, Hd'. destruct Hd as (x & Hx & _ & ->), Hd' as (y & Hy & _ & ->). f_equal. exact (rf_ids t R x y Hx Hy E Ne).
  - intros d Hd G. apply b_flat in Hd. destruct Hd as (x & Hx & _ & ->). exact (rf_gid t R x Hx G).
  - intros a d p Hc Hp Gp G. apply b_ctx in Hc. destruct Hc as ([b x] & Hc & _ & E). inversion E; subst a d. apply in_map_iff in Hp. destruct Hp as (q & <- & Hq). exact (rf_nest t R b x q Hc Hq Gp G).
  - intros a d p x Hc Hp Gp Hx (y & Hy & L). apply b_ctx in Hc. destruct Hc as ([b d0] & Hc & _ & E). inversion E; subst a d. apply in_map_iff in Hp. destruct Hp as (q & <- & Hq). apply b_flat in Hx. destruct Hx as (x0 & Hx & _ & ->).
    destruct (rl_link t s2 n1 b_typed x0 y _ Hx Hy L) as (y0 & j & Hy0 & Lj & Ej & _). cbn in Ej. unfold ren in Ej. destruct (Nat.eqb_spec j k2) as [Ek|Nk].
    + assert (d0 = n1) by (apply (data_unique t); [apply W|exact (ctx_in_flat _ _ _ Hc)|exact b_H1|exact Ej]). subst d0. exact (rf_nest t R b n1 q Hc Hq Gp (proj1 B1)).
    + apply (rf_noref t R b d0 q x0 Hc Hq Gp Hx). exists y0. split; [exact Hy0|]. congruence.
  - intros d x k Hd Hx L. apply b_flat in Hd. destruct Hd as (d0 & Hd & _ & ->). destruct (rl_link t s2 n1 b_typed d0 x k Hd Hx L) as (y & j & Hy & Lj & -> & ->). destruct (rf_link t R d0 y j Hd Hy Lj) as (a & A & B & C). exists a. unfold relink_attr, ren. destruct (refers k2 y) eqn:Rf.
    + apply refers_iff in Rf. assert (j = k2) by congruence. subst j. rewrite A, Nat.eqb_refl. cbn. repeat split; auto.
    + destruct (Nat.eqb_spec j k2) as [->|Nj]; [|auto]. exfalso. assert (refers k2 y = true) by (apply refers_iff; exact Lj). congruence.
  - intros s d x Hs B. destruct (b_old s Hs B) as [Hs0 _]. exact (rf_quiet t R s d x Hs0 B).
Qed.
End bstep.

Definition blurs (r : nat -> nat) (t t' : tree) : Prop :=
  ready_filters t' /\ redirects K r t t' /\ (forall s', In s' (subs t') -> blur_filter s' -> In s' (subs t)) /\
  forall s, In s (subs t) -> blur_filter s -> exists s', In s' (subs t') /\ blur_filter s' /\ root_key s' = r (root_key s) /\ same_blur s s'.
Lemma b_Kt (d d' : ndata) : tag d = tag d' -> K d -> K d'. Proof. cbn. congruence. Qed.
Lemma blurs_id t : ready_filters t -> blurs (fun k => k) t t.
Proof. intros R. split; [exact R|]. split; [apply redirects_id|]. split; [auto|]. intros s Hs B. exists s. split; [exact Hs|]. split; [exact B|]. split; [reflexivity|]. now apply same_blur_refl. Qed.
Lemma blurs_comp r1 r2 t t1 t2 : ready_filters t -> blurs r1 t t1 -> blurs r2 t1 t2 -> blurs (fun k => r2 (r1 k)) t t2.
Proof.
  intros R (R1 & A1 & O1 & C1) (R2 & A2 & O2 & C2). split; [exact R2|]. split; [exact (redirects_comp _ _ _ _ _ _ (wf_keys _ (rf_wf t R)) b_Kt A1 A2)|]. split; [intros s' Hs' B'; apply O1; [now apply O2|exact B']|]. intros s Hs B. destruct (C1 s Hs B) as (s1 & Hs1 & B1 & K1 & S1). destruct (C2 s1 Hs1 B1) as (s2 & Hs2 & B2 & K2 & S2). exists s2. split; [exact Hs2|]. split; [exact B2|]. split; [congruence|exact (same_blur_trans _ _ _ S1 S2)].
Qed.
Definition bpresent (t : tree) (k : nat) : Prop := exists s, In s (subs t) /\ root_key s = k /\ blur_filter s.
Lemma blurs_equal_ok s1 s2 : blur_filter s1 -> blur_filter s2 -> exists b, blurs_equal s1 s2 = Ok b /\ (b = true -> same_blur s2 s1).
Proof.
  intros (_ & _ & c1 & E1 & _) (_ & _ & c2 & E2 & _). unfold blurs_equal. destruct (same_attrs _ (data s1) (data s2)) eqn:E; [|exists false; split; [reflexivity|discriminate]]. rewrite E1, E2. eexists. split; [reflexivity|]. intros E'. split; [exact (same_attrs_true _ _ _ E)|]. exists c2, c1. split; [exact E2|]. split; [exact E1|]. apply (same_attrs_true _ _ _ E'). now left.
Qed.
Lemma b_inner_ok rest : forall k1 t, ready_filters t -> NoDup (k1 :: rest) -> Forall (bpresent t) (k1 :: rest) ->
  exists rest' t' r, dupl_inner blurs_equal k1 rest t = Ok (rest', t') /\ blurs r t t' /\ NoDup rest' /\ Forall (bpresent t') rest' /\ List.length rest' <= List.length rest /\ incl rest' rest /\ (forall k, ~ In k rest -> bpresent t k -> bpresent t' k) /\ (forall k, r k <> k -> In k rest).
Proof.
  induction rest as [|k2 rest IH]; intros k1 t R ND F.
  - exists [], t, (fun k => k). cbn. split; [reflexivity|]. split; [now apply blurs_id|]. split; [constructor|]. split; [constructor|]. split; [auto|]. split; [apply incl_refl|]. split; [auto|]. intros k X. now elim X.
  - inversion F as [|? ? F1 F']; subst. inversion F' as [|? ? F2 F'']; subst. inversion ND as [|? ? N1 ND']; subst. inversion ND' as [|? ? N2 ND'']; subst.
    pose proof F1 as F1'. destruct F1 as (s1 & Hs1 & Q1 & B1), F2 as (s2 & Hs2 & Q2 & B2). destruct (sub_place s1 t [] Hs1) as (a1 & P1). destruct (sub_place s2 t [] Hs2) as (a2 & P2).
    pose proof (wf_keys t (rf_wf t R)) as Nk. assert (X1 : find_sub k1 t = Some s1) by (rewrite <- Q1; now apply find_sub_iff). assert (X2 : find_sub k2 t = Some s2) by (rewrite <- Q2; now apply find_sub_iff).
    cbn. rewrite X1, X2. destruct (blurs_equal_ok s1 s2 B1 B2) as (b & Eb & Sb). rewrite Eb. cbn.
    destruct b.
    + assert (N12 : root_key s1 <> root_key s2) by (rewrite Q1, Q2; intros ->; apply N1; now left).
      pose proof (b_relink t s1 s2 a1 R P1 B1) as Er. rewrite Q1, Q2 in Er. rewrite Er. cbn.
      pose proof (b_remove t s1 s2 a1 a2 R P1 P2 B1 B2 N12) as Em. rewrite Q1, Q2 in Em. rewrite Em.
      set (t1 := merged t s2 (data s1)) in *.
      assert (Stay : forall s, In s (subs t) -> blur_filter s -> root_key s <> k2 -> In s (subs t1)) by (rewrite <- Q2; exact (b_stays t s1 s2 a1 a2 R P1 P2 B1 B2 N12)).
      assert (M : blurs (ren k2 k1) t t1).
      { split; [exact (b_ready t s1 s2 a1 a2 R P1 P2 B1 B2 N12)|]. split; [rewrite <- Q1, <- Q2; exact (b_redirects t s1 s2 a1 a2 R P1 P2 B1 B2 N12)|]. split; [intros s' Hs' B'; exact (proj1 (b_old t s1 s2 a1 a2 R P1 P2 B1 B2 N12 s' Hs' B'))|]. intros s Hs B. unfold ren. destruct (Nat.eqb_spec (root_key s) k2) as [E|N].
        - assert (s = s2) by (apply (sub_unique t); [exact Nk|exact Hs|exact Hs2|congruence]). subst s. exists s1. split; [apply Stay; [exact Hs1|exact B1|rewrite <- Q2; exact N12]|]. auto.
        - exists s. split; [now apply Stay|]. split; [exact B|]. split; [reflexivity|]. now apply same_blur_refl. }
      assert (Pr : forall k, k <> k2 -> bpresent t k -> bpresent t1 k). { intros k Nk' (s & Hs & Ks & Bs). exists s. split; [apply Stay; auto; congruence|auto]. }
      destruct (IH k1 t1) as (rest' & t' & r & E' & M' & ND3 & F3 & L3 & I3 & Kp3 & Mv).
      * apply M.
      * constructor; [|exact ND'']. intros H. apply N1. now right.
      * constructor; [apply Pr; [intros ->; apply N1; now left|exact F1']|]. apply Forall_forall. intros k Hk. apply Pr; [intros ->; now apply N2|]. exact (proj1 (Forall_forall _ _) F'' k Hk).
      * exists rest', t', (fun k => r (ren k2 k1 k)). split; [exact E'|]. split; [exact (blurs_comp _ _ _ _ _ R M M')|]. split; [exact ND3|]. split; [exact F3|]. split; [cbn; lia|]. split; [intros k Hk; right; now apply I3|]. split; [intros k Nk' Hk; apply Kp3; [intros X; apply Nk'; now right|]; apply Pr; [intros ->; apply Nk'; now left|exact Hk]|].
        intros k Hk. unfold ren in Hk. destruct (Nat.eqb_spec k k2) as [E|N]; [left; congruence|]. right. now apply Mv.
    + destruct (IH k1 t R) as (rest' & t' & r & E' & M' & ND3 & F3 & L3 & I3 & Kp3 & Mv).
      * constructor; [|exact ND'']. intros H. apply N1. now right.
      * constructor; [exact F1'|exact F''].
      * rewrite E'. cbn. exists (k2 :: rest'), t', r. split; [reflexivity|]. split; [exact M'|]. split; [constructor; [intros H; apply N2, I3, H|exact ND3]|]. split; [constructor; [apply Kp3; [exact N2|inversion F'; assumption]|exact F3]|]. split; [cbn; lia|]. split; [intros k [<-|Hk]; [now left|right; now apply I3]|]. split; [intros k Nk' Hk; apply Kp3; [intros X; apply Nk'; now right|exact Hk]|]. intros k Hk. right. now apply Mv.
Qed.
Lemma b_loop_ok n : forall l t, List.length l <= n -> ready_filters t -> NoDup l -> Forall (bpresent t) l -> exists t' r, dupl_loop blurs_equal n l t = Ok t' /\ blurs r t t' /\ forall k, r k <> k -> In k l.
Proof.
  induction n as [|n IH]; intros l t L R ND F; [exists t, (fun k => k); split; [reflexivity|split; [now apply blurs_id|intros k X; now elim X]]|]. destruct l as [|k1 rest]; [exists t, (fun k => k); split; [reflexivity|split; [now apply blurs_id|intros k X; now elim X]]|]. cbn.
  destruct (b_inner_ok rest k1 t R ND F) as (rest' & t1 & r & E & M & ND' & F' & L' & I' & _ & Mv). rewrite E. cbn. destruct (IH rest' t1) as (t' & r' & E' & M' & Mv'); [cbn in L; lia|apply M|exact ND'|exact F'|]. exists t', (fun k => r' (r k)). split; [exact E'|]. split; [exact (blurs_comp _ _ _ _ _ R M M')|].
  intros k Hk. right. destruct (Nat.eq_dec (r k) k) as [Ek|Nk]; [rewrite Ek in Hk; apply I', Mv', Hk|now apply Mv].
Qed.
Lemma b_pass t : ready_filters t -> exists t' r, remove_dupl_fe_gaussian_blur t = Ok t' /\ blurs r t t' /\ forall k, r k <> k -> exists s, In s (subs t) /\ root_key s = k /\ blur_filter s.
Proof.
  intros R. set (l := map root_key (filter (single_blur t) (subs t))). assert (F : Forall (bpresent t) l).
  { apply Forall_forall. intros k Hk. apply in_map_iff in Hk. destruct Hk as (s & <- & Hs). apply filter_In in Hs. destruct Hs as [Hs Es]. exists s. split; [exact Hs|]. split; [reflexivity|]. exact (single_blur_iff t s Es). }
  destruct (b_loop_ok (List.length l) l t) as (t' & r & E & M & Mv); [auto|exact R| |exact F|].
  - apply (sublist_NoDup _ (map root_key (subs t))); [apply sublist_map, sublist_filter|]. replace (map root_key (subs t)) with (keys t); [apply (rf_wf t R)|]. unfold keys. rewrite <- map_data_subs, map_map. reflexivity.
  - exists t', r. split; [exact E|]. split; [exact M|]. intros k Hk. exact (proj1 (Forall_forall _ _) F k (Mv k Hk)).
Qed.
