(** Proofs about resolve_use: the whole pass. *)
From Coq Require Import List Bool NArith Arith ZArith String Lia QArith Qcanon Permutation.
From Verif Require Import Names Num Value Dom DomFacts DomOps Outcome Move MoveFacts SpecDom SpecStyle SpecText Visit Regroup SpecPaint PaintFacts Img ResolveUse SpecUse TasksSimpleProofs MergeProofs UseProofs UseStep.
Import ListNotations.
Local Open Scope nat_scope.

(** ** Ancestors *)
Lemma anc_some k t : forall a0 a, ancestors k a0 t = Some a -> exists s, In (a, s) (places a0 t) /\ root_key s = k.
Proof.
  induction t as [d ch IH] using tree_ind'. intros a0 a. cbn [ancestors places]. destruct (Nat.eqb_spec (key d) k) as [E|E].
  - intros X. inversion X; subst. exists (T d ch). split; [now left|reflexivity].
  - intros H. rewrite Forall_forall in IH. assert (Z : exists c, In c ch /\ ancestors k (d :: a0) c = Some a).
    { clear IH. induction ch as [|c ch IHc]; [discriminate|]. destruct (ancestors k (d :: a0) c) eqn:Q; [inversion H; subst; exists c; split; [now left|exact Q]|]. destruct (IHc H) as (x & Hx & Qx). exists x. split; [now right|exact Qx]. }
    destruct Z as (c & Hc & Q). destruct (IH c Hc _ _ Q) as (s & P & K). exists s. split; [|exact K]. right. apply in_flat_map. eauto.
Qed.
Lemma anc_none k t : forall a0, ancestors k a0 t = None -> ~ In k (keys t).
Proof.
  induction t as [d ch IH] using tree_ind'. intros a0. cbn [ancestors]. rewrite keys_cons. destruct (Nat.eqb_spec (key d) k) as [E|E]; [discriminate|]. intros H [K|K]; [contradiction|]. rewrite Forall_forall in IH.
  induction ch as [|c ch IHc]; [destruct K|]. destruct (ancestors k (d :: a0) c) eqn:Q; [discriminate|]. cbn in K. apply in_app_or in K. destruct K as [K|K]; [exact (IH c (or_introl eq_refl) _ Q K)|]. apply IHc; auto. intros x Hx. apply IH. now right.
Qed.
Lemma anc_place t a s : NoDup (keys t) -> In (a, s) (places [] t) -> ancestors (root_key s) [] t = Some a.
Proof.
  intros N P. destruct (ancestors (root_key s) [] t) as [a'|] eqn:Q.
  - destruct (anc_some _ _ _ _ Q) as (s' & P' & K). f_equal. assert (E : (a', s') = (a, s)) by (apply (place_unique t []); auto). now inversion E.
  - destruct (anc_none _ _ _ Q). apply key_in_sub. exact (place_sub _ _ _ _ P).
Qed.
(** ** Numbers of uses *)
Lemma nodup_linked k l : NoDup (map key l) -> Forall attrs_nodup l -> NoDup (flat_map (fun d => map (fun a => (key d, a_name a)) (filter (refers k) (attrs d))) l).
Proof.
  induction l as [|d l IH]; [constructor|]. cbn [map flat_map]. intros N A. inversion N as [|? ? N1 N2]; subst. inversion A as [|? ? A1 A2]; subst. apply NoDup_app_intro.
  - unfold attrs_nodup in A1. clear -A1. induction (attrs d) as [|x xs IHx]; [constructor|]. cbn in *. inversion A1 as [|? ? B1 B2]; subst. destruct (refers k x); [|auto]. cbn. constructor; [|auto]. intros H. apply in_map_iff in H. destruct H as (y & E & Hy). apply filter_In in Hy. inversion E. apply B1. rewrite <- H0. apply in_map. tauto.
  - now apply IH.
  - intros [j n] H1 H2. apply in_map_iff in H1. destruct H1 as (x & E & _). inversion E; subst. apply in_flat_map in H2. destruct H2 as (d' & Hd & H2). apply in_map_iff in H2. destruct H2 as (y & E2 & _). inversion E2. apply N1. rewrite <- H0. now apply in_map.
Qed.
Lemma once_count t k d n : WF t -> WFA t -> In (key d, n) (linked_nodes k t) -> (forall p, In p (linked_nodes k t) -> p = (key d, n)) -> uses_count k t = 1.
Proof.
  intros W A I U. unfold uses_count. assert (N : NoDup (linked_nodes k t)) by (apply nodup_linked; [exact (wf_keys t W)|exact A]).
  destruct (linked_nodes k t) as [|p [|q l]]; [destruct I|reflexivity|]. exfalso. assert (p = q) by (rewrite (U p (or_introl eq_refl)), (U q (or_intror (or_introl eq_refl))); reflexivity). subst q. inversion N as [|? ? Z _]; subst. apply Z. now left.
Qed.
(** ** The pairs *)
Lemma tag_true e d : is_tag e d = true <-> tag d = TEl e.
Proof. apply is_tag_iff. Qed.
Lemma tag_false e d : is_tag e d = false <-> tag d <> TEl e.
Proof. rewrite <- tag_true. destruct (is_tag e d); split; congruence. Qed.
Lemma target_sound t U k : WF t -> WFA t -> In U (subs t) -> use_target t (data U) = Some k -> exists L, root_key L = k /\ replaceable t U L.
Proof.
  intros W A HU. pose proof (wf_keys t W) as N. unfold use_target. destruct (is_tag EUse (data U)) eqn:TU; [|discriminate]. cbn [andb]. destruct (is_used (key (data U)) t) eqn:US; [discriminate|]. cbn [negb].
  destruct (d_get (data U) AXlinkHref) as [v|] eqn:G; [|discriminate]. destruct v as [| | | | | | |j| | |]; try discriminate. destruct (ancestors j [] t) as [[|p a]|] eqn:QA; try discriminate. destruct (find_data j t) as [dl|] eqn:FD; [|discriminate].
  destruct (is_tag EDefs p) eqn:TD; [|discriminate]. destruct (is_tag ESymbol dl) eqn:T1; [discriminate|]. destruct (is_tag EUse dl) eqn:T2; [discriminate|]. cbn [andb negb]. destruct (Nat.eqb_spec (uses_count j t) 1) as [C|C]; [|discriminate]. intros X. inversion X; subst j. clear X.
  destruct (anc_some _ _ _ _ QA) as (L & P & K). exists L. split; [exact K|]. pose proof (place_sub _ _ _ _ P) as HL.
  assert (ED : data L = dl). { unfold find_data in FD. apply find_some in FD. destruct FD as [F1 F2]. apply Nat.eqb_eq in F2. apply (data_unique t); auto; [now apply data_of_sub|unfold root_key in K; congruence]. }
  rewrite <- ED in *. assert (RU : refers_to (data U) k). { rewrite get_lk in G. apply lk_some in G. destruct G as (x & Hx & _ & Ex). exists x. split; [exact Hx|now rewrite Ex]. }
  split.
  - split; [exact HU|now apply tag_true].
  - rewrite K. auto.
  - intros d Hd (x & Hx & E). assert (Z : is_used (key (data U)) t = true) by (apply is_used_iff, targets_in; exists d, x; auto). congruence.
  - exists p, a. split; [exact P|now apply tag_true].
  - split; now apply tag_false.
  - rewrite K. intros d x Hd Hx E. assert (Ed : d = data U) by (apply (once_unique t k); auto; [now apply data_of_sub|exists x; auto]). split; [exact Ed|]. subst d.
    assert (I1 : In (key (data U), a_name x) (linked_nodes k t)) by (apply linked_nodes_in; exists (data U), x; auto).
    assert (I2 : In (key (data U), AN AXlinkHref) (linked_nodes k t)). { rewrite get_lk in G. apply lk_some in G. destruct G as (y & Hy & Ny & Ey). apply linked_nodes_in. exists (data U), y. rewrite Ey. split; [exact Hd|]. auto. }
    unfold uses_count in C. destruct (linked_nodes k t) as [|q [|r l]]; try discriminate. destruct I1 as [I1|[]], I2 as [I2|[]]. congruence.
Qed.
Lemma target_complete t U L : WF t -> WFA t -> replaceable t U L -> use_target t (data U) = Some (root_key L).
Proof.
  intros W A R. pose proof (wf_keys t W) as N. destruct R as [[HU TU] [HL G] Fr (p & a & P & TD) [T1 T2] O]. unfold use_target. apply tag_true in TU, TD. apply tag_false in T1, T2. rewrite TU.
  assert (US : is_used (key (data U)) t = false). { apply not_true_iff_false. intros Z. apply is_used_iff, targets_in in Z. destruct Z as (d & x & Hd & Hx & E). apply (Fr d Hd). exists x. auto. }
  rewrite US, G. cbn [andb negb]. rewrite (anc_place t (p :: a) L N P).
  assert (FD : find_data (root_key L) t = Some (data L)). { unfold find_data. destruct (find _ (flat t)) as [x|] eqn:Q. - apply find_some in Q. destruct Q as [Q1 Q2]. apply Nat.eqb_eq in Q2. f_equal. apply (data_unique t); auto. now apply data_of_sub. - pose proof (find_none _ _ Q (data L) (data_of_sub _ _ HL)) as Z. cbn in Z. unfold root_key in Z. rewrite Nat.eqb_refl in Z. discriminate. }
  rewrite FD, TD, T1, T2. cbn [andb negb]. assert (C : uses_count (root_key L) t = 1).
  { apply (once_count t _ (data U) (AN AXlinkHref)); auto.
    - rewrite get_lk in G. apply lk_some in G. destruct G as (y & Hy & Ny & Ey). apply linked_nodes_in. exists (data U), y. rewrite Ey. split; [now apply data_of_sub|]. auto.
    - intros [j n] I. apply linked_nodes_in in I. destruct I as (d & x & Hd & Hx & E & -> & ->). destruct (O d x Hd Hx E) as [-> ->]. reflexivity. }
  rewrite C. reflexivity.
Qed.
Lemma in_pairs t u k : In (u, k) (use_pairs t) <-> exists U, In U (subs t) /\ root_key U = u /\ use_target t (data U) = Some k.
Proof.
  unfold use_pairs. rewrite in_flat_map. split.
  - intros (d & Hd & H). destruct (use_target t d) as [j|] eqn:Q; [|destruct H]. destruct H as [H|[]]. inversion H; subst. rewrite <- map_data_subs in Hd. apply in_map_iff in Hd. destruct Hd as (U & <- & HU). eauto.
  - intros (U & HU & <- & Q). exists (data U). split; [now apply data_of_sub|]. rewrite Q. now left.
Qed.
Lemma pairs_fst t : NoDup (keys t) -> NoDup (map fst (use_pairs t)).
Proof.
  unfold use_pairs, keys. generalize (use_target t) as f. intros f. induction (flat t) as [|d l IH]; [constructor|]. cbn. intros N. inversion N as [|? ? N1 N2]; subst. rewrite map_app. destruct (f d); [|auto]. cbn. constructor; [|auto].
  intros H. apply N1. apply in_map_iff in H. destruct H as ([x y] & E & H). cbn in E. subst x. apply in_flat_map in H. destruct H as (d' & Hd & H). destruct (f d'); [|destruct H]. destruct H as [H|[]]. inversion H as [[Z1 Z2]]. exact (in_map key _ _ Hd).
Qed.
Lemma nodup_snd {A B} (l : list (A * B)) : NoDup (map fst l) -> (forall a a' b, In (a, b) l -> In (a', b) l -> a = a') -> NoDup (map snd l).
Proof.
  induction l as [|[a b] l IH]; [constructor|]. cbn. intros N U. inversion N as [|? ? N1 N2]; subst. constructor.
  - intros H. apply in_map_iff in H. destruct H as ([a' b'] & E & H). cbn in E. subst b'. apply N1. rewrite (U a a' b); [|now left|now right]. change a' with (fst (a', b)). now apply in_map.
  - apply IH; [exact N2|]. intros x y z Hx Hy. apply (U x y z); now right.
Qed.

(** ** All steps *)
Record inv (rank : nat -> nat) (t : tree) (ps : list (nat * nat)) : Prop := {
  i_wf : WF t;
  i_wfa : WFA t;
  i_root : tag (data t) = TRoot;
  i_ids : own_ids t;
  i_pairs : forall u l, In (u, l) ps -> exists U L, root_key U = u /\ root_key L = l /\ replaceable t U L /\ fits t U L /\ forall u' l', In (u', l') ps -> In u' (keys L) -> rank l' < rank l;
  i_fst : NoDup (map fst ps);
  i_snd : NoDup (map snd ps)
}.
Lemma same_drawing_refl uu t : same_drawing uu t t.
Proof. split; [intros l H|intros d l H _ P; split; [exact H|]]; exists l; split; auto; apply same_refl. Qed.
Lemma same_drawing_trans uu t1 t2 t3 : same_drawing uu t1 t2 -> same_drawing uu t2 t3 -> same_drawing uu t1 t3.
Proof.
  intros [A1 B1] [A2 B2]. split.
  - intros l H. destruct (A1 l H) as (l2 & H2 & S2). destruct (A2 l2 H2) as (l3 & H3 & S3). exists l3. split; [exact H3|]. exact (same_trans _ _ _ S2 S3).
  - intros d l Hd Rd P. destruct (B1 d l Hd Rd P) as (Hd2 & l2 & P2 & S2). destruct (B2 d l2 Hd2 Rd P2) as (Hd3 & l3 & P3 & S3). split; [exact Hd3|]. exists l3. split; [exact P3|]. exact (same_trans _ _ _ S2 S3).
Qed.
Lemma all_steps uu rank ps : forall t, inv rank t ps ->
  exists t', fold_left (fun r p => match r with Ok t0 => resolve_one t0 p | _ => r end) ps (Ok t) = Ok t' /\ same_drawing uu t t' /\ WF t' /\ WFA t' /\
    (forall k, In k (keys t') -> In k (keys t)) /\ forall u l, In (u, l) ps -> ~ In u (keys t').
Proof.
  induction ps as [|[u l] ps IH]; intros t I.
  - exists t. split; [reflexivity|]. split; [apply same_drawing_refl|]. split; [apply I|]. split; [apply I|]. split; auto.
  - destruct I as [W A Rt Ids Ps N1 N2]. destruct (Ps u l (or_introl eq_refl)) as (U & L & <- & <- & R & F & Rk).
    assert (NU : ~ In (root_key U) (keys L)). { intros K. pose proof (Rk _ _ (or_introl eq_refl) K). lia. }
    cbn [fold_left]. rewrite (step_eq uu t U L W A Rt Ids R F NU). set (t1 := t' t U L).
    inversion N1 as [|? ? M1 M2]; subst. inversion N2 as [|? ? M3 M4]; subst.
    destruct (IH t1) as (t2 & E & S & W2 & A2 & K2 & G2).
    { split; auto.
      - exact (WF_t' t U L W A Rt Ids R F NU).
      - exact (WFA_t' t U L W A Rt Ids R F NU).
      - unfold t1, t'. now rewrite data_img.
      - exact (ids_t' t U L W A Rt Ids R F NU).
      - intros u2 l2 H2. destruct (Ps u2 l2 (or_intror H2)) as (U2 & L2 & <- & <- & R2 & F2 & Rk2).
        assert (Nu : root_key U2 <> root_key U). { intros X. apply M1. rewrite <- X. exact (in_map fst _ _ H2). }
        assert (Nl : root_key L2 <> root_key L). { intros X. apply M3. rewrite <- X. exact (in_map snd _ _ H2). }
        destruct (other_pair t U L W A Rt Ids R F NU U2 L2 R2 F2 Nu Nl) as (_ & R3 & F3).
        exists U2, (img (swap (root_key U) (root_key L) (newl U L)) L2). split; [reflexivity|]. split; [apply root_img|]. split; [exact R3|]. split; [exact F3|].
        intros u' l' H' K. destruct (inner_uses t U L W A R F NU L2 u' (proj1 (r_link _ _ _ R2)) K) as [K'|[K1 K']].
        + apply (Rk2 u' l'); [now right|exact K'].
        + pose proof (Rk2 _ _ (or_introl eq_refl) K1). pose proof (Rk u' l' (or_intror H') K'). lia. }
    assert (S1 : same_drawing uu t t1) by exact (step_drawing uu t U L W A Rt Ids R F NU).
    assert (K1 : forall k, In k (keys t1) -> In k (keys t)). { intros k K. pose proof (count_t' t U L W A Rt Ids R F NU k) as C. apply (count_occ_In Nat.eq_dec) in K. apply (count_occ_In Nat.eq_dec). unfold t1 in K. lia. }
    exists t2. split; [exact E|]. split; [exact (same_drawing_trans uu _ _ _ S1 S)|]. split; [exact W2|]. split; [exact A2|]. split; [auto|].
    intros u' l' [X|X]; [|exact (G2 u' l' X)]. inversion X; subst. intros K. apply K2 in K. revert K. apply (u_gone t U L W A Rt Ids R F NU). apply key_in_sub, subs_self.
Qed.
Theorem resolve_use_ok uu t : uready t ->
  exists t', resolve_use t = Ok t' /\ same_drawing uu t t' /\ WF t' /\ WFA t' /\ forall U L, replaceable t U L -> ~ In (root_key U) (keys t').
Proof.
  intros [W A Rt Ids Fi (rank & Rec)]. pose proof (wf_keys t W) as N. destruct (all_steps uu rank (use_pairs t) t) as (t2 & E & S & W2 & A2 & _ & G).
  { split; auto.
    - intros u l H. apply in_pairs in H. destruct H as (U & HU & <- & Q). destruct (target_sound t U l W A HU Q) as (L & <- & R). exists U, L. repeat (split; [solve [auto]|]). intros u' l' H' K. apply in_pairs in H'. destruct H' as (U' & HU' & <- & Q'). destruct (target_sound t U' l' W A HU' Q') as (L' & <- & R').
      apply (Rec U L U' L' R R'). apply sub_of_key in K. destruct K as (x & Hx & Ex). assert (x = U') by (apply (sub_unique t); auto; exact (subs_trans t L x (proj1 (r_link _ _ _ R)) Hx)). now subst.
    - now apply pairs_fst.
    - apply nodup_snd; [now apply pairs_fst|]. intros a a' b Ha Hb. apply in_pairs in Ha, Hb. destruct Ha as (U & HU & <- & Q), Hb as (U' & HU' & <- & Q'). destruct (target_sound t U b W A HU Q) as (L & EL & R). destruct (target_sound t U' b W A HU' Q') as (L' & EL' & R').
      assert (Z : refers_to (data U') b). { rewrite <- EL'. destruct (r_link _ _ _ R') as [_ G]. rewrite get_lk in G. apply lk_some in G. destruct G as (x & Hx & _ & Ex). exists x. split; [exact Hx|now rewrite Ex]. }
      destruct Z as (x & Hx & Ex). rewrite <- EL in Ex. destruct (r_once _ _ _ R (data U') x (data_of_sub _ _ HU') Hx Ex) as [Z _]. unfold root_key. now rewrite Z. }
  exists t2. split; [exact E|]. split; [exact S|]. split; [exact W2|]. split; [exact A2|]. intros U L R. apply (G (root_key U) (root_key L)). apply in_pairs. exists U. split; [apply R|]. split; [reflexivity|]. now apply target_complete.
Qed.
