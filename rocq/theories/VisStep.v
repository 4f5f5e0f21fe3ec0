(** What is drawn, and a step that changes nodes and removes one subtree. *)
From Coq Require Import List Bool NArith Arith ZArith String Lia QArith Qcanon.
From Verif Require Import Names Num Value Dom DomFacts DomOps DomRemove VLoop SpecDom SpecText SpecWritten Visit MoveFacts UseStep Push SpecVisible.
Import ListNotations.
Local Open Scope nat_scope.

Scheme draws_ind2 := Induction for draws Sort Prop
  with draws_all_ind2 := Induction for draws_all Sort Prop.
Combined Scheme draws_mut from draws_ind2, draws_all_ind2.

Definition opens (d : ndata) : bool := match kind_of d with KBox | KSymbol => true | _ => inner d || match tag d with TRoot => true | _ => false end end.
Definition blank (t s : tree) : Prop := forall anc l, draws t anc s l -> l = [].
Lemma blank_not t s : drawn t (data s) = false -> blank t s.
Proof. intros E anc l H. inversion H; subst; auto; cbn in E; congruence. Qed.

(** The parent of a node is unique. *)
Lemma strict_parent s c : In c (flat_map subs (kids s)) -> exists p, In p (subs s) /\ In c (kids p).
Proof.
  induction s as [d ch IH] using tree_ind'. cbn [kids]. intros H. apply in_flat_map in H. destruct H as (x & Hx & H). destruct x as [dx cx]. destruct H as [<-|H]; [exists (T d ch); split; [apply subs_self|exact Hx]|].
  rewrite Forall_forall in IH. destruct (IH _ Hx H) as (p & Hp & Hc). exists p. split; [|exact Hc]. right. apply in_flat_map. exists (T dx cx). auto.
Qed.
Lemma parent_unique t p q c : NoDup (keys t) -> In p (subs t) -> In q (subs t) -> In c (kids p) -> In c (kids q) -> p = q.
Proof.
  intros N Hp Hq Cp Cq. destruct (sub_place p t [] Hp) as (a & Pa), (sub_place q t [] Hq) as (b & Pb). pose proof (place_kid t _ _ _ _ Pa Cp) as P1. pose proof (place_kid t _ _ _ _ Pb Cq) as P2.
  pose proof (place_unique t [] _ _ N P1 P2 eq_refl) as E. inversion E as [[E1 E2]]. apply (sub_unique t); auto. unfold root_key. now rewrite E1.
Qed.

Section Step.
  Variables (t : tree) (k : nat) (G : list nat) (f : ndata -> ndata) (R : ndata -> ndata -> Prop).
  Definition sv (u : tree) : tree := detach k (tmap f u).
  Hypothesis N : NoDup (keys t).
  Hypothesis HG : (exists s, In s (subs t) /\ root_key s = k /\ G = keys s) \/ (~ In k (keys t) /\ G = []).
  Hypothesis Hkey : forall d, key (f d) = key d.
  Hypothesis Hroot : ~ In (root_key t) G.

  Lemma root_sv u : root_key (sv u) = root_key u. Proof. unfold sv. rewrite root_detach. unfold root_key. now rewrite data_tmap. Qed.
  Lemma data_sv u : data (sv u) = f (data u). Proof. unfold sv. now rewrite data_detach, data_tmap. Qed.
  Lemma kids_sv u : kids (sv u) = flat_map (fun c => if Nat.eqb (root_key c) k then [] else [sv c]) (kids u).
  Proof.
    unfold sv. destruct u as [d ch]. cbn [tmap]. rewrite detach_T. cbn [kids]. rewrite flat_map_map. apply flat_map_ext. intros c. unfold root_key at 1. rewrite data_tmap, Hkey. reflexivity.
  Qed.
  Lemma kid_gone u c : In u (subs t) -> ~ In (root_key u) G -> In c (kids u) -> In (root_key c) G -> root_key c = k.
  Proof.
    intros Hu Ng Hc X. destruct HG as [(s & Hs & Ks & ->)|[_ ->]]; [|destruct X]. apply sub_of_key in X. destruct X as (x & Hx & Kx). assert (x = c) by (apply (sub_unique t); auto; [exact (subs_trans t s x Hs Hx)|exact (kid_sub u c t Hu Hc)]). subst x.
    destruct (in_subs_kids s c Hx) as [->|Hk]; [exact Ks|]. destruct (strict_parent s c Hk) as (p & Hp & Cp). exfalso. apply Ng. assert (p = u) by (apply (parent_unique t p u c); auto; exact (subs_trans t s p Hs Hp)). subst. now apply key_in_sub.
  Qed.
  Lemma kid_stays u c : In u (subs t) -> ~ In (root_key u) G -> In c (kids u) -> root_key c <> k -> ~ In (root_key c) G.
  Proof. intros Hu Ng Hc Nk X. exact (Nk (kid_gone u c Hu Ng Hc X)). Qed.
  Lemma key_gone : In k (keys t) -> In k G.
  Proof. intros H. destruct HG as [(s & Hs & <- & ->)|[X _]]; [|contradiction]. rewrite keys_kids. now left. Qed.
  Lemma sv_sub u : In u (subs t) -> ~ In (root_key u) G -> In (sv u) (subs (sv t)).
  Proof.
    intros Hu Ng. unfold sv. rewrite !detach_pruned. apply subs_pruned_keep; [rewrite subs_tmap; now apply in_map|]. intros a Ha Ea X. apply Nat.eqb_eq in Ea. apply in_kids_subs in Ha. rewrite subs_tmap in Ha. apply in_map_iff in Ha. destruct Ha as (a0 & <- & Ha). rewrite data_tmap, Hkey in Ea.
    rewrite subs_tmap in X. apply in_map_iff in X. destruct X as (u0 & E & Hu0). assert (K : root_key u0 = root_key u). { pose proof (f_equal (fun z => key (data z)) E) as Q. cbn in Q. rewrite !data_tmap, !Hkey in Q. exact Q. }
    apply Ng. rewrite <- K. destruct HG as [(s & Hs & Ks & ->)|[X _]]; [|exfalso; apply X; rewrite <- Ea; apply (key_in_sub a0 t Ha)]. assert (a0 = s) by (apply (sub_unique t); auto; unfold root_key in *; congruence). subst. now apply key_in_sub.
  Qed.
  Lemma sub_sv u' : In u' (subs (sv t)) -> exists u, In u (subs t) /\ u' = sv u /\ ~ In (root_key u) G.
  Proof.
    assert (S : forall v, In v (subs t) -> ~ In (root_key v) G -> forall u', In u' (subs (sv v)) -> exists u, In u (subs t) /\ u' = sv u /\ ~ In (root_key u) G).
    { induction v as [d ch IH] using tree_ind'. rewrite Forall_forall in IH. intros Hv Ng w Hw. destruct (in_subs_kids _ _ Hw) as [->|X]; [exists (T d ch); auto|]. rewrite kids_sv in X. cbn [kids] in X. apply in_flat_map in X. destruct X as (z & Hz & X). apply in_flat_map in Hz. destruct Hz as (c & Hc & Hz). destruct (Nat.eqb_spec (root_key c) k) as [Ek|Ek]; [destruct Hz|]. destruct Hz as [<-|[]].
      apply (IH c Hc); [exact (kid_sub (T d ch) c t Hv Hc)|exact (kid_stays (T d ch) c Hv Ng Hc Ek)|exact X]. }
    apply (S t (subs_self t) Hroot).
  Qed.
  Lemma keys_sv j : In j (keys (sv t)) <-> In j (keys t) /\ ~ In j G.
  Proof.
    split.
    - intros H. apply sub_of_key in H. destruct H as (u' & Hu' & <-). apply sub_sv in Hu'. destruct Hu' as (u & Hu & -> & Ng). rewrite root_sv. split; [now apply key_in_sub|exact Ng].
    - intros [H Ng]. apply sub_of_key in H. destruct H as (u & Hu & <-). rewrite <- root_sv. apply key_in_sub. now apply sv_sub.
  Qed.
  Lemma flat_sv d' : In d' (flat (sv t)) <-> exists d, In d (flat t) /\ ~ In (key d) G /\ d' = f d.
  Proof.
    split.
    - intros H. rewrite <- map_data_subs in H. apply in_map_iff in H. destruct H as (u' & <- & Hu'). apply sub_sv in Hu'. destruct Hu' as (u & Hu & -> & Ng). exists (data u). split; [now apply data_of_sub|]. split; [exact Ng|]. apply data_sv.
    - intros (d & Hd & Ng & ->). rewrite <- map_data_subs in Hd. apply in_map_iff in Hd. destruct Hd as (u & <- & Hu). rewrite <- data_sv. apply data_of_sub. now apply sv_sub.
  Qed.
  Lemma gone_down c u : In c (subs t) -> In (root_key c) G -> In u (subs c) -> In (root_key u) G.
  Proof.
    intros Hc X Hu. destruct HG as [(s & Hs & Ks & ->)|[_ ->]]; [|destruct X]. apply sub_of_key in X. destruct X as (x & Hx & Kx). assert (x = c) by (apply (sub_unique t); auto; exact (subs_trans t s x Hs Hx)). subst x.
    apply key_in_sub. exact (subs_trans s c u Hx Hu).
  Qed.
  Lemma sv_sub_in v u : In v (subs t) -> In u (subs v) -> ~ In (root_key u) G -> In (sv u) (subs (sv v)).
  Proof.
    revert u. induction v as [d ch IH] using tree_ind'. rewrite Forall_forall in IH. intros u Hv Hu Ng. destruct (in_subs_kids _ _ Hu) as [->|X]; [apply subs_self|]. cbn [kids] in X. apply in_flat_map in X. destruct X as (c & Hc & X).
    pose proof (kid_sub (T d ch) c t Hv Hc) as Hct. assert (Nc : ~ In (root_key c) G) by (intros Y; apply Ng; exact (gone_down c u Hct Y X)). assert (Nk : root_key c <> k) by (intros Y; apply Nc; rewrite Y; apply key_gone; rewrite <- Y; apply key_in_sub, Hct).
    apply (subs_trans _ (sv c)); [|now apply IH]. apply (kid_sub (sv (T d ch))); [apply subs_self|]. rewrite kids_sv. cbn [kids]. apply in_flat_map. exists c. split; [exact Hc|]. destruct (Nat.eqb_spec (root_key c) k); [contradiction|now left].
  Qed.
  Lemma sub_sv_in v u' : In v (subs t) -> ~ In (root_key v) G -> In u' (subs (sv v)) -> exists u, In u (subs v) /\ u' = sv u /\ ~ In (root_key u) G.
  Proof.
    revert u'. induction v as [d ch IH] using tree_ind'. rewrite Forall_forall in IH. intros w Hv Ng Hw. destruct (in_subs_kids _ _ Hw) as [->|X]; [exists (T d ch); split; [apply subs_self|auto]|]. rewrite kids_sv in X. cbn [kids] in X. apply in_flat_map in X. destruct X as (z & Hz & X). apply in_flat_map in Hz. destruct Hz as (c & Hc & Hz). destruct (Nat.eqb_spec (root_key c) k) as [Ek|Ek]; [destruct Hz|]. destruct Hz as [<-|[]].
    destruct (IH c Hc w) as (u & Hu & E & Nu); [exact (kid_sub (T d ch) c t Hv Hc)|exact (kid_stays (T d ch) c Hv Ng Hc Ek)|exact X|]. exists u. split; [|auto]. apply (subs_trans (T d ch) c u); [|exact Hu]. apply (kid_sub (T d ch)); [apply subs_self|exact Hc].
  Qed.
  Lemma flat_sv_in v d' : In v (subs t) -> ~ In (root_key v) G -> In d' (flat (sv v)) <-> exists d, In d (flat v) /\ ~ In (key d) G /\ d' = f d.
  Proof.
    intros Hv Ng. split.
    - intros H. rewrite <- map_data_subs in H. apply in_map_iff in H. destruct H as (u' & <- & Hu'). apply sub_sv_in in Hu'; auto. destruct Hu' as (u & Hu & -> & Nu). exists (data u). split; [now apply data_of_sub|]. split; [exact Nu|]. apply data_sv.
    - intros (d & Hd & Nd & ->). rewrite <- map_data_subs in Hd. apply in_map_iff in Hd. destruct Hd as (u & <- & Hu). rewrite <- data_sv. apply data_of_sub. now apply sv_sub_in.
  Qed.
  Lemma nodup_sv : NoDup (keys (sv t)).
  Proof. unfold sv. assert (X : NoDup (keys (tmap f t))) by (now rewrite keys_tmap). revert X. rewrite detach_pruned. unfold pruned. intros X. exact (sublist_NoDup _ _ (keys_prune_sublist _ _) X). Qed.
  Lemma find_sv j : find_sub j (sv t) = if in_dec Nat.eq_dec j G then None else option_map sv (find_sub j t).
  Proof.
    destruct (in_dec Nat.eq_dec j G) as [X|X]; [apply find_sub_none; rewrite keys_sv; tauto|]. destruct (find_sub j t) as [u|] eqn:E; cbn.
    - apply find_sub_some in E. destruct E as [Hu <-]. rewrite <- root_sv. apply find_sub_iff; [exact nodup_sv|now apply sv_sub].
    - apply find_sub_none. rewrite keys_sv. apply find_sub_none in E. tauto.
  Qed.
  Lemma find_data_sv j : find_data j (sv t) = if in_dec Nat.eq_dec j G then None else option_map f (find_data j t).
  Proof.
    destruct (in_dec Nat.eq_dec j G) as [X|X]; [apply find_data_none; rewrite keys_sv; tauto|]. destruct (find_data j t) as [u|] eqn:E; cbn.
    - apply find_data_some in E. destruct E as [Hu <-]. rewrite <- (Hkey u). apply find_data_in; [exact nodup_sv|]. apply flat_sv. eauto.
    - apply find_data_none. rewrite keys_sv. apply find_data_none in E. tauto.
  Qed.

  (** ** Drawing *)
  Hypothesis Htag : forall d, tag (f d) = tag d.
  Hypothesis Hdrawn : forall d, In d (flat t) -> ~ In (key d) G -> drawn (sv t) (f d) = drawn t d.
  Hypothesis Hlook : forall d, In d (flat t) -> ~ In (key d) G -> drawn t d = true -> (kind_of d = KUse -> d_get (f d) AXlinkHref = d_get d AXlinkHref) -> R d (f d).
  Hypothesis Hsym : forall d, In d (flat t) -> ~ In (key d) G -> kind_of d = KSymbol -> R d (f d) /\ dead (sv t) (f d) = dead t d.
  Hypothesis Hhref : forall d, In d (flat t) -> ~ In (key d) G -> kind_of d = KUse ->
    (d_get (f d) AXlinkHref = d_get d AXlinkHref /\ forall j, d_get d AXlinkHref = Some (VLink j) -> ~ In j G) \/
    (exists s, In s (subs t) /\ d_get d AXlinkHref = Some (VLink (root_key s)) /\ blank t s /\ kind_of (data s) <> KSymbol /\ d_get (f d) AXlinkHref = None).
  Hypothesis Hopen : forall u c, In u (subs t) -> ~ In (root_key u) G -> opens (data u) = true -> In c (kids u) -> root_key c = k -> blank t c.

  Lemma kind_f d : kind_of (f d) = kind_of d. Proof. unfold kind_of. now rewrite Htag. Qed.
  Lemma draws_step :
    (forall anc u l, draws t anc u l -> In u (subs t) -> ~ In (root_key u) G -> forall anc', Forall2 R anc anc' ->
      exists l', draws (sv t) anc' (sv u) l' /\ Forall2 (Forall2 R) l l') /\
    (forall anc ch l, draws_all t anc ch l -> (forall c, In c ch -> In c (subs t) /\ (root_key c = k /\ blank t c \/ root_key c <> k /\ ~ In (root_key c) G)) -> forall anc', Forall2 R anc anc' ->
      exists l', draws_all (sv t) anc' (flat_map (fun c => if Nat.eqb (root_key c) k then [] else [sv c]) ch) l' /\ Forall2 (Forall2 R) l l').
  Proof.
    assert (Kids : forall u, In u (subs t) -> ~ In (root_key u) G -> opens (data u) = true -> forall c, In c (kids u) -> In c (subs t) /\ (root_key c = k /\ blank t c \/ root_key c <> k /\ ~ In (root_key c) G)).
    { intros u Hu Ng O c Hc. split; [exact (kid_sub u c t Hu Hc)|]. destruct (Nat.eq_dec (root_key c) k) as [E|E]; [left; split; [exact E|exact (Hopen u c Hu Ng O Hc E)]|right; split; [exact E|exact (kid_stays u c Hu Ng Hc E)]]. }
    assert (Tg : forall d, In d (flat t) -> key d = key d) by reflexivity.
    apply (draws_mut t (fun anc u l _ => In u (subs t) -> ~ In (root_key u) G -> forall anc', Forall2 R anc anc' -> exists l', draws (sv t) anc' (sv u) l' /\ Forall2 (Forall2 R) l l')
      (fun anc ch l _ => (forall c, In c ch -> In c (subs t) /\ (root_key c = k /\ blank t c \/ root_key c <> k /\ ~ In (root_key c) G)) -> forall anc', Forall2 R anc anc' -> exists l', draws_all (sv t) anc' (flat_map (fun c => if Nat.eqb (root_key c) k then [] else [sv c]) ch) l' /\ Forall2 (Forall2 R) l l')).
    - intros anc s D Hs Ng anc' A. exists []. split; [|constructor]. apply dr_not. rewrite data_sv, Hdrawn; auto. now apply data_of_sub.
    - intros anc d ch D K Hs Ng anc' A. pose proof (data_of_sub _ _ Hs) as Hd. cbn [data] in Hd. exists [f d :: anc']. split; [|constructor; [constructor; [apply Hlook; auto; congruence|exact A]|constructor]].
      pose proof (kids_sv (T d ch)) as Ek. pose proof (data_sv (T d ch)) as Ed. destruct (sv (T d ch)) as [d' ch']. cbn [data] in Ed. subst d'. apply dr_leaf; [rewrite Hdrawn; auto|now rewrite kind_f].
    - intros anc d ch l D K Da IH Hs Ng anc' A. pose proof (data_of_sub _ _ Hs) as Hd. cbn [data] in Hd.
      destruct (IH (Kids (T d ch) Hs Ng ltac:(unfold opens; cbn [data]; now rewrite K)) (f d :: anc') (Forall2_cons _ _ (Hlook d Hd Ng D ltac:(congruence)) A)) as (l' & H' & F'). exists l'. split; [|exact F'].
      pose proof (kids_sv (T d ch)) as Ek. pose proof (data_sv (T d ch)) as Ed. destruct (sv (T d ch)) as [d' ch']. cbn [data kids] in Ed, Ek. subst d' ch'. apply dr_box; [rewrite Hdrawn; auto|now rewrite kind_f|exact H'].
    - intros anc d ch s l D K Eh Hs' Ks Da IH Hs Ng anc' A. pose proof (data_of_sub _ _ Hs) as Hd. cbn [data] in Hd. pose proof (data_sv (T d ch)) as Ed. pose proof (kids_sv (T d ch)) as Ek. destruct (sv (T d ch)) as [d' ch']. cbn [data kids] in Ed, Ek. subst d' ch'.
      destruct (Hhref d Hd Ng K) as [[E1 E2]|(s0 & Hs0 & E0 & B & _ & E1)].
      + specialize (E2 _ Eh). destruct (IH Hs' E2 (f d :: anc') (Forall2_cons _ _ (Hlook d Hd Ng D (fun _ => E1)) A)) as (l' & H' & F'). exists l'. split; [|exact F']. apply (dr_use _ _ _ _ (sv s)); [rewrite Hdrawn; auto|now rewrite kind_f|rewrite root_sv; congruence|now apply sv_sub|now rewrite data_sv, kind_f|exact H'].
      + assert (s0 = s) by (apply (sub_unique t); auto; congruence). subst s0. rewrite (B _ _ Da). exists []. split; [|constructor]. apply dr_use_none; [rewrite Hdrawn; auto|now rewrite kind_f|]. intros x Hx. rewrite E1. discriminate.
    - intros anc d ch s l D K Eh Hs' Ks Dd Da IH Hs Ng anc' A. pose proof (data_of_sub _ _ Hs) as Hd. cbn [data] in Hd. pose proof (data_sv (T d ch)) as Ed. pose proof (kids_sv (T d ch)) as Ek. destruct (sv (T d ch)) as [d' ch']. cbn [data kids] in Ed, Ek. subst d' ch'.
      destruct (Hhref d Hd Ng K) as [[E1 E2]|(s0 & Hs0 & E0 & B & NS & E1)].
      + specialize (E2 _ Eh). pose proof (data_of_sub _ _ Hs') as Hds. destruct (Hsym (data s) Hds E2 Ks) as [Rs De]. destruct (IH (Kids s Hs' E2 ltac:(unfold opens; now rewrite Ks)) (f (data s) :: f d :: anc')) as (l' & H' & F'); [constructor; [exact Rs|constructor; auto]|]. exists l'. split; [|exact F'].
        apply (dr_symbol _ _ _ _ (sv s)); [rewrite Hdrawn; auto|now rewrite kind_f|rewrite root_sv; congruence|now apply sv_sub|now rewrite data_sv, kind_f|now rewrite data_sv, De|]. rewrite data_sv, kids_sv. exact H'.
      + assert (s0 = s) by (apply (sub_unique t); auto; congruence). subst s0. contradiction.
    - intros anc d ch s D K Eh Hs' Ks Dd Hs Ng anc' A. pose proof (data_of_sub _ _ Hs) as Hd. cbn [data] in Hd. pose proof (data_sv (T d ch)) as Ed. pose proof (kids_sv (T d ch)) as Ek. destruct (sv (T d ch)) as [d' ch']. cbn [data kids] in Ed, Ek. subst d' ch'.
      exists []. split; [|constructor]. destruct (Hhref d Hd Ng K) as [[E1 E2]|(s0 & Hs0 & E0 & B & NS & E1)].
      + specialize (E2 _ Eh). pose proof (data_of_sub _ _ Hs') as Hds. destruct (Hsym (data s) Hds E2 Ks) as [Rs De]. apply (dr_symbol_dead _ _ _ _ (sv s)); [rewrite Hdrawn; auto|now rewrite kind_f|rewrite root_sv; congruence|now apply sv_sub|now rewrite data_sv, kind_f|now rewrite data_sv, De].
      + apply dr_use_none; [rewrite Hdrawn; auto|now rewrite kind_f|]. intros x Hx. rewrite E1. discriminate.
    - intros anc d ch D K Eh Hs Ng anc' A. pose proof (data_of_sub _ _ Hs) as Hd. cbn [data] in Hd. pose proof (data_sv (T d ch)) as Ed. pose proof (kids_sv (T d ch)) as Ek. destruct (sv (T d ch)) as [d' ch']. cbn [data kids] in Ed, Ek. subst d' ch'.
      exists []. split; [|constructor]. apply dr_use_none; [rewrite Hdrawn; auto|now rewrite kind_f|]. intros x Hx. destruct (Hhref d Hd Ng K) as [[E1 E2]|(s0 & Hs0 & E0 & B & NS & E1)]; [|rewrite E1; discriminate]. apply sub_sv in Hx. destruct Hx as (u & Hu & -> & _). rewrite root_sv, E1. now apply Eh.
    - intros anc _ anc' A. exists []. split; constructor.
    - intros anc s l p q Ds IHs Da IHa H anc' A. destruct (IHa (fun c Hc => H c (or_intror Hc)) anc' A) as (q' & Hq & Fq). cbn [flat_map]. destruct (H s (or_introl eq_refl)) as [Hs [[E B]|[E Ng]]].
      + rewrite E, Nat.eqb_refl. rewrite (B _ _ Ds). cbn. exists q'. auto.
      + destruct (Nat.eqb_spec (root_key s) k); [contradiction|]. destruct (IHs Hs Ng anc' A) as (p' & Hp & Fp). exists (p' ++ q'). split; [now constructor|now apply Forall2_app].
  Qed.
  Lemma opens_step u : In u (subs t) -> ~ In (root_key u) G -> opens (data u) = true -> R (data u) (f (data u)) -> forall l, draws_all t [data u] (kids u) l ->
    exists l', draws_all (sv t) [data (sv u)] (kids (sv u)) l' /\ Forall2 (Forall2 R) l l'.
  Proof.
    intros Hu Ng O Ru l H. destruct (proj2 draws_step _ _ _ H) with (anc' := [f (data u)]) as (l' & H' & F').
    - intros c Hc. split; [exact (kid_sub u c t Hu Hc)|]. destruct (Nat.eq_dec (root_key c) k) as [E|E]; [left; split; [exact E|exact (Hopen u c Hu Ng O Hc E)]|right; split; [exact E|exact (kid_stays u c Hu Ng Hc E)]].
    - constructor; [exact Ru|constructor].
    - exists l'. split; [|exact F']. now rewrite data_sv, kids_sv.
  Qed.
  (** The content of a clip path. *)
  Hypothesis Hcount : forall u c, In u (subs t) -> ~ In (root_key u) G -> tagged EClipPath (data u) = true -> In c (kids u) -> root_key c = k -> clip_counts t (data c) = false.
  Hypothesis Hcounts : forall d, In d (flat t) -> ~ In (key d) G -> clip_counts (sv t) (f d) = clip_counts t d.
  Lemma clip_step u : In u (subs t) -> ~ In (root_key u) G -> tagged EClipPath (data u) = true -> R (data u) (f (data u)) -> forall l,
    draws_all t [data u] (filter (fun c => clip_counts t (data c)) (kids u)) l ->
    exists l', draws_all (sv t) [data (sv u)] (filter (fun c => clip_counts (sv t) (data c)) (kids (sv u))) l' /\ Forall2 (Forall2 R) l l'.
  Proof.
    intros Hu Ng O Ru l H. destruct (proj2 draws_step _ _ _ H) with (anc' := [f (data u)]) as (l' & H' & F').
    - intros c Hc. apply filter_In in Hc. destruct Hc as [Hc Cc]. split; [exact (kid_sub u c t Hu Hc)|]. right. destruct (Nat.eq_dec (root_key c) k) as [E|E]; [rewrite (Hcount u c Hu Ng O Hc E) in Cc; discriminate|]. split; [exact E|exact (kid_stays u c Hu Ng Hc E)].
    - constructor; [exact Ru|constructor].
    - exists l'. split; [|exact F']. rewrite data_sv, kids_sv. replace (filter _ (flat_map _ (kids u))) with (flat_map (fun c => if Nat.eqb (root_key c) k then [] else [sv c]) (filter (fun c => clip_counts t (data c)) (kids u))); [exact H'|].
      assert (Q : forall c, In c (kids u) -> (root_key c = k /\ clip_counts t (data c) = false) \/ (root_key c <> k /\ clip_counts (sv t) (f (data c)) = clip_counts t (data c))).
      { intros c Hc. destruct (Nat.eq_dec (root_key c) k) as [E|E]; [left; split; [exact E|exact (Hcount u c Hu Ng O Hc E)]|right; split; [exact E|]]. apply Hcounts; [apply data_of_sub; exact (kid_sub u c t Hu Hc)|exact (kid_stays u c Hu Ng Hc E)]. }
      revert Q. generalize (kids u) as ch. induction ch as [|c ch IH]; intros Q; [reflexivity|]. cbn [filter flat_map]. specialize (IH (fun c Hc => Q c (or_intror Hc))). destruct (Q c (or_introl eq_refl)) as [[E C]|[E C]].
      + rewrite C, E, Nat.eqb_refl. cbn. exact IH.
      + destruct (Nat.eqb_spec (root_key c) k); [contradiction|]. cbn [app filter]. rewrite data_sv, C. destruct (clip_counts t (data c)); [cbn [flat_map]; destruct (Nat.eqb_spec (root_key c) k); [contradiction|]; cbn; now rewrite IH|exact IH].
  Qed.
End Step.
