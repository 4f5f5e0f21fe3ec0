(** Documents with references: the passes that move and remove elements. *)
From Coq Require Import List Bool NArith Arith ZArith String Lia QArith Qcanon Permutation.
From Verif Require Import Names Num Value Dom DomFacts DomOps Outcome DomRemove SpecDom SpecWritten Stops TasksSimple Move MoveFacts RmUnusedDefs GroupDefsProofs WfAll WfStruct UseStep WfUse WfGrad PlainMove Mild MildPasses.
Import ListNotations.
Local Open Scope nat_scope.

(** Every part of the second document comes from a part of the first one that contains at least the same nodes. *)
Definition below (t t' : tree) : Prop := forall u', In u' (subs t') -> exists u, In u (subs t) /\ M (data u) (data u') /\ incl (keys u') (keys u).
Lemma below_desc t t' : below t t' -> desc t t'.
Proof.
  intros B. split.
  - intros d' Hd. rewrite <- map_data_subs in Hd. apply in_map_iff in Hd. destruct Hd as (u' & <- & Hu). destruct (B u' Hu) as (u & A & Md & _). exists (data u). split; [now apply data_of_sub|exact Md].
  - intros a b (u' & Hu & K & I). destruct (B u' Hu) as (u & A & Md & Ik). exists u. split; [exact A|]. split; [|now apply Ik]. rewrite <- K. symmetry. exact (M_key _ _ Md).
Qed.
Lemma below_refl t : below t t. Proof. intros u Hu. exists u. split; [exact Hu|]. split; [apply M_refl|intros x Hx; exact Hx]. Qed.
Lemma below_trans a b c : below a b -> below b c -> below a c.
Proof. intros A B u Hu. destruct (B u Hu) as (v & Hv & M1 & I1). destruct (A v Hv) as (w & Hw & M2 & I2). exists w. split; [exact Hw|]. split; [exact (M_trans _ _ _ M2 M1)|intros x Hx; auto]. Qed.
Lemma below_shr t t' : shr M t t' -> below t t'.
Proof. intros S u' Hu. destruct (shr_subs M _ _ _ S Hu) as (u & A & B). exists u. split; [exact A|]. split; [exact (shr_data M _ _ B)|exact (shr_keys M M_key _ _ B)]. Qed.
Lemma below_unlink L t : below t (unlink L t).
Proof. apply below_shr. rewrite unlink_eq. apply shr_tmap. intros d _. apply M_filter, M_refl. Qed.
Lemma below_detach k t : below t (detach k t).
Proof. apply below_shr. apply (shr_prune (okn := fun _ => True) (fun d _ => M_refl d)). auto. Qed.
Lemma below_remove k t : below t (remove k t).
Proof. unfold remove. exact (below_trans _ _ _ (below_unlink _ _) (below_detach _ _)). Qed.
Lemma below_remove_nodes ks : forall t, below t (remove_nodes ks t).
Proof. unfold remove_nodes. induction ks as [|k ks IH]; intros t; cbn [fold_left]; [apply below_refl|]. exact (below_trans _ _ _ (below_remove k t) (IH _)). Qed.
Lemma below_drain p t : below t (fst (drain p t)).
Proof.
  unfold drain. generalize (tl (keys t)) 0. intros l n. revert t n. induction l as [|k l IH]; intros t n; cbn [fold_left]; [apply below_refl|]. unfold drain_step at 2. destruct (find_sub k t) as [s|]; [|apply IH]. destruct (p t s); [|apply IH]. exact (below_trans _ _ _ (below_remove k t) (IH _ _)).
Qed.
(** New children, from inside of the old ones. *)
Lemma below_set_kids k ch t s0 : NoDup (keys t) -> In s0 (subs t) -> root_key s0 = k ->
  (forall u, In u (flat_map subs ch) -> exists u0, In u0 (subs s0) /\ M (data u0) (data u) /\ incl (keys u) (keys u0)) -> below t (set_kids k (fun _ => ch) t).
Proof.
  intros N H0 K0 C u Hu. destruct (set_kids_subs _ _ _ _ Hu) as [X|(u0 & Hu0 & ->)].
  - destruct (C u X) as (u0 & A & B & D). exists u0. split; [exact (subs_trans t s0 _ H0 A)|auto].
  - exists u0. split; [exact Hu0|]. rewrite data_set_kids. split; [apply M_refl|]. destruct (in_dec Nat.eq_dec k (keys u0)) as [Hk|Hk]; [|rewrite (set_kids_out k _ u0 Hk); intros x Hx; exact Hx].
    intros x Hx. apply set_kids_keys, in_app_or in Hx. destruct Hx as [Hx|Hx]; [exact Hx|]. apply in_flat_map in Hx. destruct Hx as (c & Hc & Hx). destruct (C c) as (v & Hv & _ & I); [apply in_flat_map; exists c; split; [exact Hc|apply subs_self]|].
    apply sub_of_key in Hk. destruct Hk as (w & Hw & Kw). assert (w = s0) by (apply (sub_unique t); auto; [exact (subs_trans t u0 w Hu0 Hw)|congruence]). subst w. specialize (I x Hx). apply sub_of_key in I. destruct I as (z & Hz & <-). apply key_in_sub. exact (subs_trans u0 v z (subs_trans u0 s0 v Hw Hv) Hz).
Qed.
(** remove_unused_defs *)
Lemma below_defs_loop n k : forall t t', fine t -> defs_loop n k t = Some t' -> below t t'.
Proof.
  induction n as [|n IH]; intros t t' F E; cbn [defs_loop] in E; unfold defs_round in E; destruct (existsb _ _); try discriminate; try (injection E as <-; apply below_refl).
  apply (fun B => below_trans _ _ _ B (IH _ t' (fine_round k t F) E)). clear E IH. destruct (find_sub k t) as [s|] eqn:Es.
  - assert (Kd : kids_of k t = kids s) by (unfold kids_of; now rewrite Es). rewrite Kd. apply find_sub_some in Es. destruct Es as [Hs Ks]. apply (below_set_kids k _ t s (fine_nodup t F) Hs Ks). intros u Hu. destruct (round_all t (kids s) u Hu) as (c & Hc & [X|X]).
    + exists u. split; [exact (subs_trans s c u (kid_in s c Hc) X)|]. split; [apply M_refl|intros x Hx; exact Hx].
    + subst u. exists c. split; [now apply kid_in|]. split; [apply M_refl|]. intros x [<-|[]]. apply key_in_sub, subs_self.
  - apply find_sub_none in Es. rewrite (set_kids_out k _ t Es). apply below_refl.
Qed.
Lemma below_unused_defs t t' : fine t -> remove_unused_defs t = Some (Ok t') -> below t t'.
Proof.
  intros F E. unfold remove_unused_defs in E. destruct (first_defs t) as [d|]; [|discriminate]. destruct (defs_loop _ _ t) as [t1|] eqn:E1; [|discriminate]. cbn in E. injection E as <-. exact (below_defs_loop _ _ _ _ F E1).
Qed.
