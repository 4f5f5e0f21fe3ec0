(** Documents with references: duplicates are removed. *)
From Coq Require Import List Bool NArith Arith ZArith String Lia QArith Qcanon Permutation.
From Verif Require Import Names Num Value Dom DomFacts DomOps Outcome DomRemove SpecDom SpecWritten Stops TasksSimple Links Dupl Move MoveFacts WfAll WfStruct UseStep WfUse WfGrad PlainMove Mild MildPasses MildMove MildInvisible.
Import ListNotations.
Local Open Scope nat_scope.

Lemma gradient_dec d : gradient_node d \/ ~ gradient_node d.
Proof. unfold gradient_node. destruct (tag d) as [|e| | | |]; try (right; intuition discriminate). destruct e; try (right; intuition discriminate); auto. Qed.
Lemma MG_relink GK GL k2 k1 d : okg GK d -> nolink k2 d -> (GL k1 \/ (gradient_node d -> forall x, In x (attrs d) -> refers k2 x = false)) -> MG GL d (with_attrs d (map (relink_attr k2 k1) (attrs d))).
Proof.
  intros O N K. split; [reflexivity|now left|]. cbn. intros y Hy. apply in_map_iff in Hy. destruct Hy as (x & <- & Hx). unfold relink_attr. destruct (refers k2 x) eqn:R; [|now left]. destruct (a_name x) as [a|n] eqn:En; [|now left]. right.
  destruct (gradient_dec d) as [G|G].
  - right. destruct (og_attrs _ _ O G x Hx) as [[Hn (k & Ev & Gk)]|[L _]]; [|unfold refers in R; rewrite L in R; discriminate]. unfold hname in Hn. rewrite En in Hn. injection Hn as ->. split; [exact G|]. split; [reflexivity|]. exists k1. split; [reflexivity|]. destruct K as [K|K]; [exact K|]. rewrite (K G x Hx) in R. discriminate.
  - left. split; [intros X; contradiction|]. intros X Hn. unfold hname in Hn. cbn in Hn. rewrite (N X x Hx) in R; [discriminate|]. unfold hname. congruence.
Qed.

Section D.
Variables (U : nat -> Prop) (ur : nat -> nat) (t0 : tree).
Notation GK := (GKof t0).
Hypothesis (W0 : NoDup (keys t0)) (T0 : tame U ur GK t0).
(** The keys of gradients, or the keys of filters. *)
Variable e : bool.
Definition right_kind (d : ndata) : Prop := if e then gradient_node d else tag d = TEl EFilter.
Variable GL : nat -> Prop.
Hypothesis (GLK : forall k, GL k -> GK k) (GL1 : e = true -> forall k, GK k -> GL k).
Variable ks : list nat.
Hypothesis Hks : forall d, In d (flat t0) -> In (key d) ks -> right_kind d.
Lemma dupl_nolink t k d : descg GL t0 t -> In k ks -> In k (keys t) -> In d (flat t) -> nolink k d.
Proof.
  intros D Hk Kt Hd. pose proof (tame_descg _ _ _ _ _ T0 (descg_mono _ _ _ _ GLK D)) as Tt. destruct D as [D _]. apply in_map_iff in Kt. destruct Kt as (g & <- & Hg). destruct (D g Hg) as (g0 & Hg0 & Mg). rewrite (MG_key _ _ _ Mg) in *.
  assert (R : right_kind g0) by (apply Hks; [exact Hg0|congruence]). intros [Td|Td] x Hx Hn; [|exfalso; exact (tm_g _ _ _ _ Tt d x Hd Td Hx Hn)].
  destruct (tm_use _ _ _ _ Tt d x Hd Td Hx Hn) as (k & E & Uk & _). unfold refers. rewrite E. cbn [link_of]. apply Nat.eqb_neq. intros ->. destruct (tm_kind _ _ _ _ T0 g0 Hg0 Uk) as [A B]. unfold right_kind in R. destruct e; contradiction.
Qed.
Lemma relink_descg t t' k2 s1 : descg GL t0 t -> In s1 (subs t) -> In (root_key s1) ks -> In k2 ks -> In k2 (keys t) -> relink k2 (data s1) t = Ok t' -> descg GL t0 t'.
Proof.
  intros D Hs K1 K2 K2t E. unfold relink in E. destruct (forallb _ _); [|discriminate]. destruct (forallb _ _); [|discriminate]. injection E as <-. apply (descg_trans GL _ _ _ D). pose proof (tame_descg _ _ _ _ _ T0 (descg_mono _ _ _ _ GLK D)) as Tt.
  assert (KE : forall d, key (if String.eqb (nid d) (nid (data s1)) then d else with_attrs d (map (relink_attr k2 (key (data s1))) (attrs d))) = key d) by (intros d; now destruct (String.eqb _ _)).
  split.
  - intros d' Hd. rewrite flat_tmap in Hd. apply in_map_iff in Hd. destruct Hd as (d & <- & Hd). exists d. split; [exact Hd|]. destruct (String.eqb _ _); [apply MG_refl|]. apply (MG_relink GK GL); [exact (tm_nodes _ _ _ _ Tt d Hd)|exact (dupl_nolink t k2 d D K2 K2t Hd)|].
    destruct D as [D _]. destruct (D (data s1) (data_of_sub _ _ Hs)) as (d1 & H1 & M1). pose proof (Hks d1 H1) as R1. rewrite <- (MG_key _ _ _ M1) in R1. specialize (R1 K1).
    unfold right_kind in *. destruct e eqn:Ee; [left; apply GL1; [reflexivity|]; exists d1; split; [exact H1|]; split; [exact R1|symmetry; exact (MG_key _ _ _ M1)]|right]. intros G x Hx. destruct (og_attrs _ _ (tm_nodes _ _ _ _ Tt d Hd) G x Hx) as [[_ (k & Ev & g & Hg & Gg & Eg)]|[L _]]; [|unfold refers; now rewrite L].
    unfold refers. rewrite Ev. cbn [link_of]. apply Nat.eqb_neq. intros ->. assert (X : tag g = TEl EFilter) by (apply Hks; [exact Hg|congruence]). destruct Gg; congruence.
  - intros a b (s & Hs' & K & I). rewrite subs_tmap in Hs'. apply in_map_iff in Hs'. destruct Hs' as (u & <- & Hu). exists u. split; [exact Hu|]. rewrite keys_tmap in I by exact KE. split; [|exact I]. unfold root_key in *. rewrite data_tmap, KE in K. exact K.
Qed.
Lemma inner_descg cmp k1 : In k1 ks -> forall rest t p, incl rest ks -> descg GL t0 t -> dupl_inner cmp k1 rest t = Ok p -> descg GL t0 (snd p) /\ incl (fst p) rest.
Proof.
  intros K1. induction rest as [|k2 r IH]; intros t p Ir D E; cbn in E; [injection E as <-; split; [exact D|intros x []]|]. assert (Ir' : incl r ks) by (intros x Hx; apply Ir; now right). assert (Sk : descg GL t0 (snd p) /\ incl (fst p) r -> descg GL t0 (snd p) /\ incl (fst p) (k2 :: r)) by (intros [A B]; split; [exact A|intros x Hx; right; auto]).
  destruct (find_sub k1 t) as [s1|] eqn:E1; [|exact (Sk (IH t p Ir' D E))]. destruct (find_sub k2 t) as [s2|] eqn:E2; [|exact (Sk (IH t p Ir' D E))]. apply find_sub_some in E1, E2. destruct E1 as [H1 <-], E2 as [H2 <-].
  apply bind_ok in E. destruct E as (b & _ & E). destruct b.
  - apply bind_ok in E. destruct E as (t1 & R & E). apply Sk. refine (IH _ p Ir' _ E). apply (descg_trans GL t0 t1); [|apply desc_g, below_desc, below_remove]. refine (relink_descg t t1 _ s1 D H1 K1 (Ir _ (or_introl eq_refl)) _ R). now apply key_in_sub.
  - apply bind_ok in E. destruct E as (q & R & E). injection E as <-. destruct (IH t q Ir' D R) as [A B]. split; [exact A|]. cbn. intros x [<-|Hx]; [now left|right; auto].
Qed.
Lemma loop_descg cmp n : forall l t t', incl l ks -> descg GL t0 t -> dupl_loop cmp n l t = Ok t' -> descg GL t0 t'.
Proof.
  induction n as [|n IH]; intros l t t' I D E; [cbn in E; injection E as <-; exact D|]. destruct l as [|k1 rest]; cbn in E; [injection E as <-; exact D|]. apply bind_ok in E. destruct E as (p & E1 & E).
  destruct (inner_descg cmp k1 (I k1 (or_introl eq_refl)) rest t p (fun x Hx => I x (or_intror Hx)) D E1) as [A B]. refine (IH _ _ _ _ A E). intros x Hx. apply I. right. auto.
Qed.
End D.
Lemma of_kind_in e t d : NoDup (keys t) -> In d (flat t) -> In (key d) (of_kind e t) -> tag d = TEl e.
Proof. intros N Hd H. unfold of_kind in H. apply in_map_iff in H. destruct H as (x & E & H). apply filter_In in H. destruct H as [Hx Tx]. assert (x = d) by (apply (data_unique t); auto). subst x. now apply is_tag_tag. Qed.
Lemma dupl_linear_descg U ur t t' : NoDup (keys t) -> tame U ur (GKof t) t -> remove_dupl_linear_gradients t = Ok t' -> descg (GKof t) t t'.
Proof.
  intros N T0 E. refine (loop_descg U ur t T0 true (GKof t) (fun _ H => H) (fun _ _ H => H) (of_kind ELinearGradient t) _ _ _ _ _ _ (incl_refl _) (descg_refl _ t) E). intros d Hd Hk. left. now apply (of_kind_in _ t).
Qed.
Lemma dupl_radial_descg U ur t t' : NoDup (keys t) -> tame U ur (GKof t) t -> remove_dupl_radial_gradients t = Ok t' -> descg (GKof t) t t'.
Proof.
  intros N T0 E. refine (loop_descg U ur t T0 true (GKof t) (fun _ H => H) (fun _ _ H => H) (of_kind ERadialGradient t) _ _ _ _ _ _ (incl_refl _) (descg_refl _ t) E). intros d Hd Hk. right. now apply (of_kind_in _ t).
Qed.
Lemma dupl_blur_desc U ur t t' : NoDup (keys t) -> tame U ur (GKof t) t -> remove_dupl_fe_gaussian_blur t = Ok t' -> desc t t'.
Proof.
  intros N T0 E. apply descg_none. refine (loop_descg U ur t T0 false (fun _ => False) (fun _ H => match H with end) (fun H => ltac:(discriminate H)) (map root_key (filter (single_blur t) (subs t))) _ _ _ _ _ _ (incl_refl _) (descg_refl _ t) E). intros d Hd Hk. cbn. apply in_map_iff in Hk. destruct Hk as (s & E1 & Hs). apply filter_In in Hs. destruct Hs as [Hs Q].
  assert (data s = d) by (apply (data_unique t); auto using data_of_sub). subst d. unfold single_blur in Q. apply andb_prop in Q. destruct Q as [Q _]. apply andb_prop in Q. destruct Q as [Q _]. now apply is_tag_tag.
Qed.
