(** C13: the theorems about group_defs. *)
From Coq Require Import List Bool NArith Arith ZArith String Lia Permutation.
From Verif Require Import Names Num Value Dom DomFacts DomOps DomRemove Outcome APass SpecDom SpecText SpecStyle TextProofs Visit Move MoveFacts RmUnusedDefs GroupDefs GroupDefsProofs GroupDefsEnd SpecGroupDefs GroupDefsLinks.
Import ListNotations.
Local Open Scope nat_scope.

Lemma is_ref_iff d : is_ref d = true <-> referenced_kind d.
Proof. unfold is_ref, referenced_kind. destruct (tag d) as [|e| | | |]; split; try discriminate; try (intros (x & X & _); discriminate); [eauto|]. intros (x & X & H). now inversion X; subst. Qed.
Lemma is_defs_iff d : is_defs d = true <-> is_defs_el d.
Proof. unfold is_defs, is_defs_el, is_tag. destruct (tag d) as [|e| | | |]; split; try discriminate; destruct (eid_eqb_spec e EDefs); congruence. Qed.
Lemma wf_grown T T' : WF T -> NoDup (keys T') -> grows T T' -> WF T'.
Proof.
  intros [_ L] N [G1 G2]. split; [exact N|]. intros k Hk. apply targets_in in Hk. destruct Hk as (d' & x & Hd & Hx & R). destruct (G2 d' Hd) as (d & Hd0 & (_ & _ & _ & G4)).
  assert (In k (keys T)). { apply L, targets_in. destruct (G4 x Hx) as [X|[_ (y & Hy & X)]]; [exists d, x|exists y, x]; auto. }
  unfold keys in H. apply in_map_iff in H. destruct H as (y & <- & Hy). destruct (G1 y Hy) as (y' & Hy' & (S & _)). rewrite <- (sig_key _ _ S). now apply (in_map key).
Qed.
Lemma wf_perm T T' : WF T -> NoDup (keys T') -> Permutation (flat T') (flat T) -> WF T'.
Proof. intros W N P. exact (wf_grown T T' W N (grows_perm _ _ P)). Qed.
Lemma child_of_parent m p : child_of m p = true <-> exists d l, fst p = d :: l /\ key d = m.
Proof. unfold child_of. destruct (fst p) as [|d l]; split; try discriminate; [intros (? & ? & ? & _); discriminate|rewrite Nat.eqb_eq; eauto|]. intros (? & ? & E & <-). inversion E; subst. apply Nat.eqb_refl. Qed.

Lemma in_other_iff m T k : NoDup (keys T) -> In k (in_other m T) <-> exists d l x, In (d :: l, x) (ctx [] T) /\ key x = k /\ other_defs m d = true.
Proof.
  intros N. unfold in_other. rewrite in_flat_map. split.
  - intros (s & Hs & H). destruct (other_defs m (data s)) eqn:E; [|contradiction]. apply in_map_iff in H. destruct H as (c & <- & Hc). destruct (sub_place s T [] Hs) as (a & Ha). exists (data s), a, (data c). split; [apply ctx_place; exists c; split; [now apply place_kid|reflexivity]|]. auto.
  - intros (d & l & x & H & <- & O). apply ctx_place in H. destruct H as (c & Hc & <-).
    assert (P : exists s, In (l, s) (places [] T) /\ data s = d /\ In c (kids s)).
    { clear -Hc. assert (G : forall t A B, In (B, c) (places A t) -> (B, c) = (A, t) \/ exists s l', B = data s :: l' /\ In (l', s) (places A t) /\ In c (kids s)).
      { induction t as [d0 ch IH] using tree_ind'. intros A B [E|H]; [left; now inversion E|]. right. apply in_flat_map in H. destruct H as (c0 & Hc0 & H). rewrite Forall_forall in IH. destruct (IH c0 Hc0 (d0 :: A) B H) as [E|(s & l' & -> & H1 & H2)].
        - inversion E; subst. exists (Dom.T d0 ch), A. split; [reflexivity|]. split; [now left|exact Hc0].
        - exists s, l'. split; [reflexivity|]. split; [right; apply in_flat_map; eauto|exact H2]. }
      destruct (G T [] (d :: l) Hc) as [E|(s & l' & E & H1 & H2)]; [discriminate|]. inversion E; subst. eauto. }
    destruct P as (s & Hs & <- & Hk). exists s. split; [exact (place_sub _ _ _ _ Hs)|]. rewrite O. now apply (in_map root_key).
Qed.
Lemma in_other_ok m sv T k : ok m sv T -> is_svg_el (data T) = false -> In k (in_other m T) -> node_ok m sv T k.
Proof.
  intros O Rt H. pose proof (ok_nodup _ _ _ O) as N. apply in_other_iff in H; [|exact N]. destruct H as (d & l & x & H & <- & Od). apply andb_prop in Od. destruct Od as [Dd Nd]. apply negb_true_iff, Nat.eqb_neq in Nd.
  destruct (front_ctx _ _ _ (ok_front _ _ _ O)) as (ds & dm & H1 & H2 & K1 & D1 & K2 & T2). exists x. split; [apply (ctx_in_flat T [] _ H)|]. split; [reflexivity|]. split; [|split].
  - intros E. assert (X : (d :: l, x) = ([ds; data T], dm)) by (apply (ctx_unique T []); auto; cbn; congruence). inversion X; subst. exact (defs_not_svg _ Dd T2).
  - intros E. assert (X : (d :: l, x) = ([data T], ds)) by (apply (ctx_unique T []); auto; cbn; congruence). inversion X; subst. unfold is_svg_el in Rt. unfold is_defs, is_tag in Dd. destruct (tag (data T)); discriminate.
  - intros E. assert (X : (d :: l, x) = ([], data T)) by (apply (ctx_unique T []); auto; destruct T; now left). discriminate.
Qed.
Lemma to_move_ok m T k : In k (to_move m T) -> exists d, In d (flat T) /\ key d = k /\ is_ref d = true.
Proof. intros H. apply in_map_iff in H. destruct H as (p & <- & H). apply filter_In in H. destruct H as [H R]. apply andb_prop in R. exists (snd p). split; [apply (ctx_in_flat T [] _ H)|tauto]. Qed.
Lemma to_move_done m T : refs_done m T (to_move m T).
Proof. intros p Hp R. destruct (child_of m p) eqn:E; [auto|]. right. apply in_map_iff. exists p. split; [reflexivity|]. apply filter_In. rewrite R, E. auto. Qed.
Definition step2 (m : nat) (t1 : tree) : tree := fold_left (move_step m) (to_move m t1) t1.
Definition step3 (m : nat) (t2 : tree) : tree := fold_left (fun t k => move k m t) (in_other m t2) t2.
Definition others (m : nat) (t3 : tree) : list nat := map key (filter (other_defs m) (flat t3)).
Lemma group_steps t svg m t1 : svg_element t = Some svg -> main_defs svg t = (m, t1) -> group_defs t = if moves_ok m (to_move m t1) t1 then Ok (remove_nodes (others m (step3 m (step2 m t1))) (step3 m (step2 m t1))) else Panic.
Proof. intros H E. unfold group_defs. rewrite H, E. reflexivity. Qed.
Lemma group_ok t svg m t1 : svg_element t = Some svg -> main_defs svg t = (m, t1) -> group_defs t <> Panic -> group_defs t = Ok (remove_nodes (others m (step3 m (step2 m t1))) (step3 m (step2 m t1))).
Proof. intros H E. rewrite (group_steps t svg m t1 H E). destruct (moves_ok _ _ _); [reflexivity|congruence]. Qed.
(** The pass does not abort if no style link is handed down. *)
Theorem C13_succeeds : forall t svg, NoDup (keys t) -> tag (data t) = TRoot -> svg_element t = Some svg -> no_style_links t svg -> exists t', group_defs t = Ok t'.
Proof.
  intros t svg N R Hs H. destruct (main_defs svg t) as [m t1] eqn:Hm. rewrite (group_steps t svg m t1 Hs Hm). destruct (first_step t svg m t1 N R Hs Hm) as (O1 & D1 & _).
  rewrite (moves_fine m (root_key svg)); [eauto|exact O1|rewrite D1; unfold is_svg_el; now rewrite R|apply to_move_ok|exact (still_first t svg m t1 N R Hs Hm H)].
Qed.
Lemma pipeline t svg m t1 : NoDup (keys t) -> tag (data t) = TRoot -> svg_element t = Some svg -> main_defs svg t = (m, t1) ->
  let sv := root_key svg in let t2 := step2 m t1 in let t3 := step3 m t2 in let t4 := remove_nodes (others m t3) t3 in
  ok m sv t1 /\ ok m sv t2 /\ ok m sv t3 /\ ok m sv t4 /\ grows t1 t2 /\ Permutation (flat t3) (flat t2) /\ refs_done m t2 [] /\ refs_done m t3 [] /\
  is_svg_el (data t2) = false /\ data t3 = data t2 /\ sig (data t2) = sig (data t) /\
  (forall p, In p (ctx [] t4) <-> exists q, In q (ctx [] t3) /\ other_defs m (snd q) = false /\ p = (map (cut_all (others m t3)) (fst q), cut_all (others m t3) (snd q))).
Proof.
  intros N R Hs Hm sv t2 t3 t4. destruct (first_step t svg m t1 N R Hs Hm) as (O1 & D1 & _). fold sv in O1.
  assert (R1 : is_svg_el (data t1) = false) by (rewrite D1; unfold is_svg_el; now rewrite R).
  destruct (second_step m sv (to_move m t1) t1 O1 R1 (to_move_done m t1) (to_move_ok m t1)) as (O2 & R2 & F2 & G2 & S2). fold (step2 m t1) in O2, R2, F2, G2, S2. fold t2 in O2, R2, F2, G2, S2.
  set (OD := fun j => exists d, In d (flat t2) /\ key d = j /\ other_defs m d = true).
  assert (Nm : ~ OD m). { intros (d & _ & <- & H). unfold other_defs in H. rewrite Nat.eqb_refl in H. apply andb_prop in H. destruct H. discriminate. }
  destruct (third_step m sv OD Nm (in_other m t2) t2 O2) as (O3 & D3 & F3 & P3 & C3).
  - intros k Hk. apply in_other_ok; auto.
  - exact F2.
  - intros p j Hp Hc (d & Hd & Kd & Od). apply in_other_iff; [apply O2|]. apply child_of_parent in Hc. destruct Hc as (e & l & E & Ke). destruct p as [a x]. cbn in E. subst a. exists e, l, x. split; [exact Hp|]. split; [reflexivity|].
    assert (e = d); [|now subst]. apply (data_unique t2); [apply O2| |exact Hd|congruence]. destruct (ctx_anc_in t2 [] _ e Hp (or_introl eq_refl)) as [[]|X]; exact X.
  - fold (step3 m t2) in O3, D3, F3, P3, C3. fold t3 in O3, D3, F3, P3, C3.
    assert (L : forall k, In k (others m t3) -> node_ok m sv t3 k /\ forall p, In p (ctx [] t3) -> child_of k p = false).
    { intros k Hk. apply in_map_iff in Hk. destruct Hk as (d & <- & Hd). apply filter_In in Hd. destruct Hd as [Hd Od]. split.
      - apply andb_prop in Od. destruct Od as [Dd Nd]. apply negb_true_iff, Nat.eqb_neq in Nd. exists d. split; [exact Hd|]. split; [reflexivity|]. split; [exact Nd|]. destruct (front_ctx _ _ _ (ok_front _ _ _ O3)) as (ds & dm & H1 & H2 & K1 & Dm & K2 & T2). split.
        + intros E. assert (d = ds) by (apply (data_unique t3); [apply O3|exact Hd|apply (ctx_in_flat t3 [] _ H2)|congruence]). subst. exact (defs_not_svg _ Dd T2).
        + intros E. assert (d = data t3) by (apply (data_unique t3); [apply O3|exact Hd|apply flat_self|exact E]). subst. rewrite D3 in Dd. unfold is_svg_el in R2. unfold is_defs, is_tag in Dd. destruct (tag (data t2)); discriminate.
      - intros p Hp. destruct (child_of (key d) p) eqn:E; [|reflexivity]. exfalso. apply (C3 p (key d) Hp E). exists d. split; [apply (Permutation_in d P3 Hd)|]. auto. }
    assert (ND : NoDup (others m t3)).
    { pose proof (ok_nodup _ _ _ O3) as X. unfold keys in X. unfold others. clear -X. induction (flat t3) as [|d l IH]; [constructor|]. cbn in X. inversion X as [|? ? X1 X2]; subst. cbn. destruct (other_defs m d); [|auto]. cbn. constructor; [|auto]. intros Y. apply X1. apply in_map_iff in Y. destruct Y as (z & Ez & Hz). apply filter_In in Hz. apply in_map_iff. exists z. tauto. }
    destruct (last_step m sv (others m t3) t3 O3 ND L) as (O4 & S4 & C4). fold t4 in O4, S4, C4.
    repeat (split; [assumption|]). split; [rewrite S2; now rewrite D1|]. intros p. rewrite C4. split; intros (q & Hq & H1 & H2); exists q; (split; [exact Hq|]); (split; [|exact H2]).
    + destruct (other_defs m (snd q)) eqn:E; [|reflexivity]. exfalso. apply H1. apply in_map_iff. exists (snd q). split; [reflexivity|]. apply filter_In. split; [apply (ctx_in_flat t3 [] _ Hq)|exact E].
    + intros X. apply in_map_iff in X. destruct X as (d & Ed & Hd). apply filter_In in Hd. destruct Hd as [Hd Od]. assert (d = snd q) by (apply (data_unique t3); [apply O3|exact Hd|apply (ctx_in_flat t3 [] _ Hq)|exact Ed]). subst. congruence.
Qed.

Lemma first_flat t svg m t1 : NoDup (keys t) -> tag (data t) = TRoot -> svg_element t = Some svg -> main_defs svg t = (m, t1) ->
  (first_defs t <> None /\ Permutation (flat t1) (flat t)) \/ (first_defs t = None /\ Permutation (flat t1) (ND m (TEl EDefs) "" [] :: flat t) /\ ~ In m (keys t)).
Proof.
  intros N R Hs Hm. destruct (first_step t svg m t1 N R Hs Hm) as (_ & _ & [(s & a & rest & F & _ & _ & P1 & P2 & _)|(F & P & Nm)]).
  - left. split; [congruence|]. rewrite <- (map_snd_ctx [] t1), <- (map_snd_ctx [] t), P1, P2, !map_app, !map_snd_ctx. reflexivity.
  - right. split; [exact F|]. split; [|exact Nm]. rewrite <- (map_snd_ctx [] t1), P. cbn. now rewrite map_snd_ctx.
Qed.
Lemma first_wf t svg m t1 : WF t -> tag (data t) = TRoot -> svg_element t = Some svg -> main_defs svg t = (m, t1) -> WF t1.
Proof.
  intros [N L] R Hs Hm. destruct (first_step t svg m t1 N R Hs Hm) as (O1 & _). split; [apply O1|]. intros k Hk. apply targets_in in Hk. destruct Hk as (d & x & Hd & Hx & E).
  destruct (first_flat t svg m t1 N R Hs Hm) as [(_ & P)|(_ & P & _)].
  - unfold keys. rewrite P. apply L, targets_in. exists d, x. split; [apply (Permutation_in d P Hd)|auto].
  - unfold keys. rewrite P. right. apply L, targets_in. apply (Permutation_in d P) in Hd. destruct Hd as [<-|Hd]; [contradiction|]. eauto.
Qed.
Lemma other_defs_el m d : other_defs m d = true <-> is_defs_el d /\ key d <> m.
Proof. unfold other_defs. rewrite andb_true_iff, is_defs_iff, negb_true_iff, Nat.eqb_neq. reflexivity. Qed.
Lemma sig_same d d' : sig d' = sig d <-> same_node d d'.
Proof. unfold sig, same_node. split; [intros E; inversion E; auto|]. intros (-> & -> & ->). reflexivity. Qed.
Lemma defs_el_sig d d' : sig d' = sig d -> is_defs_el d' <-> is_defs_el d.
Proof. intros E. unfold is_defs_el. now rewrite (sig_tag _ _ E). Qed.


(** ** Tracking a node through the steps *)
Lemma second_ind m sv (Q : tree -> Prop) :
  (forall T k, ok m sv T -> node_ok m sv T k -> (exists d, In d (flat T) /\ key d = k /\ is_ref d = true) -> Q T -> Q (move_step m T k)) ->
  forall rem T, ok m sv T -> is_svg_el (data T) = false -> (forall k, In k rem -> exists d, In d (flat T) /\ key d = k /\ is_ref d = true) -> Q T -> Q (fold_left (move_step m) rem T).
Proof.
  intros St. induction rem as [|k rem IH]; intros T O R H HQ; [exact HQ|]. cbn [fold_left]. pose proof (ref_node_ok m sv T k O R (H k (or_introl eq_refl))) as K. destruct (move_step_grows m sv T k O K) as (O' & [G1 _] & Sd & _). apply IH; [exact O'|now rewrite (svg_el_sig _ _ Sd)| |apply St; auto; apply H; now left].
  intros j Hj. destruct (H j (or_intror Hj)) as (d & Hd & Kd & Rd). destruct (G1 d Hd) as (d' & Hd' & (S1 & _)). exists d'. split; [exact Hd'|]. split; [rewrite (sig_key _ _ S1); exact Kd|rewrite (is_ref_sig _ _ S1); exact Rd].
Qed.
Lemma third_ind m sv (Q : tree -> Prop) rem0 :
  (forall T k, ok m sv T -> node_ok m sv T k -> In k rem0 -> Q T -> Q (move k m T)) ->
  forall rem T, incl rem rem0 -> ok m sv T -> (forall k, In k rem -> node_ok m sv T k) -> Q T -> Q (fold_left (fun t k => move k m t) rem T).
Proof.
  intros St. induction rem as [|k rem IH]; intros T I O H HQ; [exact HQ|]. cbn [fold_left]. pose proof (H k (or_introl eq_refl)) as K. destruct (move_spec m sv T k O K) as (s & a & rest & dm & ds & _ & _ & _ & _ & _ & _ & _ & _ & O2 & Rk & _). pose proof (move_perm m sv T k O K) as P.
  apply IH; [intros j Hj; apply I; now right|exact O2| |apply St; auto; apply I; now left]. intros j Hj. destruct (H j (or_intror Hj)) as (d & Hd & Kd & N1 & N2 & N3). exists d. split; [apply (Permutation_in d (Permutation_sym P)); exact Hd|]. rewrite Rk. auto.
Qed.
Lemma resolver_same k T p : NoDup (keys T) -> In p (ctx [] T) -> child_of k p = false -> resolver k T (snd p) = snd p.
Proof.
  intros N Hp C. unfold resolver. destruct (context k T) as [[anc n]|]; [|reflexivity]. destruct (existsb _ _) eqn:E; [|now rewrite andb_false_r]. exfalso. apply existsb_exists in E. destruct E as (j & Hj & Ej). apply Nat.eqb_eq in Ej. apply in_map_iff in Hj. destruct Hj as (q & Kq & Hq). apply filter_In in Hq. destruct Hq as [Hq Cq]. assert (p = q) by (apply (ctx_unique T []); auto; congruence). subst. congruence.
Qed.
Lemma main_step m sv T k d : ok m sv T -> node_ok m sv T k -> In d (flat T) -> key d = m -> In d (flat (move_step m T k)).
Proof.
  intros O K Hd Kd. unfold move_step. rewrite resolve_tmap. pose proof (ok_tmap m sv _ T O (resolver_sig k T)) as O1. pose proof (node_ok_tmap m sv _ T k K (resolver_sig k T)) as K1.
  apply (Permutation_in d (Permutation_sym (move_perm m sv _ k O1 K1))). rewrite flat_tmap. apply in_map_iff. exists d. split; [|exact Hd].
  destruct (front_ctx _ _ _ (ok_front _ _ _ O)) as (ds & dm & H1 & H2 & K1' & D1 & K2 & T2). assert (d = dm) by (apply (data_unique T); [apply O|exact Hd|apply (ctx_in_flat T [] _ H1)|congruence]). subst d.
  apply (resolver_same k T ([ds; data T], dm)); [apply O|exact H1|]. cbn. apply Nat.eqb_neq. destruct K as (e & _ & Ke & _ & X & _). congruence.
Qed.
Lemma main_same m sv rem T d : ok m sv T -> is_svg_el (data T) = false -> (forall k, In k rem -> exists d, In d (flat T) /\ key d = k /\ is_ref d = true) -> key d = m -> In d (flat T) -> In d (flat (fold_left (move_step m) rem T)).
Proof. intros O R H Kd. apply (second_ind m sv (fun T => In d (flat T))); auto. intros T0 k O0 K0 _ H0. exact (main_step m sv T0 k d O0 K0 H0 Kd). Qed.
(** A suffix of a context is the context of an ancestor. *)
Lemma ctx_under t : forall A B y C x, In (A ++ y :: B, x) (ctx C t) -> List.length C <= List.length B -> exists s, In (B, s) (places C t) /\ data s = y /\ forall D, In (A ++ y :: D, x) (ctx D s).
Proof.
  induction t as [d ch IH] using tree_ind'. intros A B y C x H L. rewrite Forall_forall in IH. assert (H0 := H). cbn [ctx] in H. destruct H as [E|H].
  - exfalso. inversion E as [[E1 E2]]. rewrite E1 in L. rewrite app_length in L. cbn in L. lia.
  - apply in_flat_map in H. destruct H as (c & Hc & H). destruct (Nat.eq_dec (List.length C) (List.length B)) as [X|X].
    + exists (T d ch). assert (EB : y :: B = d :: C).
      { rewrite ctx_app in H. apply in_map_iff in H. destruct H as ([l z] & E & _). inversion E as [[E1 E2]]. clear -E1 X. revert l E1. induction A as [|e A IHA]; intros [|f l] E1; cbn in E1.
        - now inversion E1.
        - exfalso. inversion E1 as [[X1 X2]]. apply (f_equal (@List.length ndata)) in X2. rewrite app_length in X2. cbn in X2. lia.
        - exfalso. inversion E1 as [[X1 X2]]. apply (f_equal (@List.length ndata)) in X2. rewrite app_length in X2. cbn in X2. lia.
        - inversion E1. apply (IHA l). assumption. }
      inversion EB; subst. split; [now left|]. split; [reflexivity|]. intros D. cbn [ctx]. right. apply in_flat_map. exists c. split; [exact Hc|]. rewrite ctx_app in H |- *. apply in_map_iff in H. destruct H as ([l z] & E & Hl). apply in_map_iff. exists (l, z). split; [|exact Hl]. inversion E as [[E1 E2]]. cbn in *. subst z. f_equal. apply app_inv_tail in E1. now subst.
    + destruct (IH c Hc A B y (d :: C) x H) as (s & H1 & H2 & H3); [cbn; lia|]. exists s. split; [right; apply in_flat_map; eauto|]. auto.
Qed.
Lemma ctx_tail t A B y x : In (A ++ y :: B, x) (ctx [] t) -> In (B, y) (ctx [] t).
Proof. intros H. destruct (ctx_under t A B y [] x H) as (s & H1 & H2 & _); [cbn; lia|]. apply ctx_place. eauto. Qed.
Lemma move_out m sv T k A x : ok m sv T -> node_ok m sv T k -> In (A, x) (ctx [] T) -> (forall y, In y (x :: A) -> key y <> k) -> In (A, x) (ctx [] (move k m T)).
Proof.
  intros O K H N. destruct (move_spec m sv T k O K) as (s & a & rest & dm & ds & Hs & Ks & _ & _ & _ & P1 & P2 & _). apply (Permutation_in _ P1) in H. apply (Permutation_in _ (Permutation_sym P2)). apply in_or_app. right. apply in_app_or in H. destruct H as [H|H]; [|exact H]. exfalso.
  assert (G : forall t B p, In p (ctx B t) -> p = (B, data t) \/ exists q, fst p = q ++ data t :: B).
  { clear. induction t as [d ch IH] using tree_ind'. intros B p [<-|H]; [now left|]. right. apply in_flat_map in H. destruct H as (c & Hc & H). rewrite Forall_forall in IH. destruct (IH c Hc (d :: B) p H) as [->|(q & ->)]; [exists []; reflexivity|exists (q ++ [data c]); now rewrite <- app_assoc]. }
  destruct (G s a _ H) as [E|(q & E)].
  - inversion E as [[E1 E2]]. apply (N (data s)); [left; congruence|exact Ks].
  - cbn in E. apply (N (data s)); [right; rewrite E; apply in_elt|exact Ks].
Qed.
Lemma move_in m sv T k A y B x : ok m sv T -> node_ok m sv T k -> In (A ++ y :: B, x) (ctx [] T) -> key y = k -> exists dm ds, key dm = m /\ key ds = sv /\ is_defs dm = true /\ In ([ds; data T], dm) (ctx [] T) /\ In (A ++ [y; dm; ds; data T], x) (ctx [] (move k m T)).
Proof.
  intros O K H Ky. destruct (move_spec m sv T k O K) as (s & a & rest & dm & ds & Hs & Ks & Km & Dm & Ksv & P1 & P2 & I & _). destruct (ctx_under T A B y [] x H) as (s1 & H1 & H2 & H3); [cbn; lia|].
  assert (E : (B, s1) = (a, s)) by (apply (place_unique T []); [apply O|exact H1|exact Hs|cbn; unfold root_key in *; congruence]). inversion E; subst s1 B.
  exists dm, ds. repeat (split; [assumption|]). split; [apply (Permutation_in _ (Permutation_sym P1)), in_or_app; now right|]. apply (Permutation_in _ (Permutation_sym P2)), in_or_app. left. apply (H3 [dm; ds; data T]).
Qed.
Lemma main_data_new m sv t1 d : ok m sv t1 -> is_svg_el (data t1) = false -> In d (flat t1) -> key d = m -> In d (flat (step2 m t1)).
Proof. intros O R H K. apply (main_same m sv); auto. intros k Hk. exact (to_move_ok m t1 k Hk). Qed.

(** After the pass the document is well formed, the first child of svg is the only defs element, and
    every element that is only rendered by reference is a child of it. All nodes but the defs
    elements are still there with their names, ids and attributes, except that attributes which
    refer to a dissolved defs element are gone and inheritable attributes of other nodes have been
    added; the only new node is the main defs, and only if there was none. *)
Theorem C13_structure : forall t svg, WF t -> tag (data t) = TRoot -> svg_element t = Some svg -> group_defs t <> Panic ->
  exists t' svg' main rest, group_defs t = Ok t' /\ WF t' /\
    svg_element t' = Some svg' /\ root_key svg' = root_key svg /\ kids svg' = main :: rest /\ is_defs_el (data main) /\
    (forall d, In d (flat t') -> is_defs_el d -> d = data main) /\
    (forall a d, In (a, d) (ctx [] t') -> referenced_kind d -> exists a', a = data main :: a') /\
    (forall d, In d (flat t) -> is_defs_el d -> key d <> root_key main -> ~ In (key d) (keys t')) /\
    (forall d, In d (flat t) -> (~ is_defs_el d \/ key d = root_key main) -> exists d', In d' (flat t') /\ same_node d d' /\
       (attrs_nodup d -> attrs_nodup d') /\ (forall x, In x (attrs d) -> In x (attrs d') \/ to_defs t x)) /\
    (forall d', In d' (flat t') ->
       (exists d, In d (flat t) /\ same_node d d' /\
         forall x, In x (attrs d') -> In x (attrs d) \/ (inheritable_attr x = true /\ exists y, In y (flat t) /\ In x (attrs y))) \/
       (d' = data main /\ attrs d' = [] /\ nid d' = ""%string /\ forall d, In d (flat t) -> ~ is_defs_el d)).
Proof.
  intros t svg W R Hs Hok. pose proof (wf_keys t W) as N. destruct (main_defs svg t) as [m t1] eqn:Hm. pose proof (first_wf t svg m t1 W R Hs Hm) as W1.
  destruct (pipeline t svg m t1 N R Hs Hm) as (O1 & O2 & O3 & O4 & G2 & P3 & F2 & F3 & R2 & D3 & S2 & C4). set (sv := root_key svg) in *. set (t2 := step2 m t1) in *. set (t3 := step3 m t2) in *. set (ks := others m t3) in *. set (t4 := remove_nodes ks t3) in *.
  assert (W2 : WF t2) by (apply (wf_grown t1); [exact W1|apply O2|exact G2]). assert (W3 : WF t3) by (apply (wf_perm t2); [exact W2|apply O3|exact P3]).
  assert (Nks : ~ In (root_key t3) ks).
  { intros X. apply in_map_iff in X. destruct X as (d & Ed & Hd). apply filter_In in Hd. destruct Hd as [Hd Od]. assert (d = data t3) by (apply (data_unique t3); [apply O3|exact Hd|apply flat_self|exact Ed]). subst d. apply other_defs_el in Od. destruct Od as [Od _]. unfold is_defs_el in Od. rewrite D3 in Od. unfold is_svg_el in R2. rewrite Od in R2. discriminate. }
  assert (W4 : WF t4) by (apply WF_remove_nodes; auto).
  destruct (front_svg _ _ _ (ok_front _ _ _ O4)) as (svg' & main & rest & E1 & E2 & E3 & E4 & E5).
  assert (Hmain : In ([data svg'; data t4], data main) (ctx [] t4)).
  { destruct (svg_ctx t4 svg' E1) as [_ P1]. apply ctx_place. exists main. split; [|reflexivity]. apply (place_kid t4 [] [data t4] svg'); [exact P1|rewrite E3; now left]. }
  assert (G3 : grows t1 t3) by (apply (grows_trans _ t2); [exact G2|now apply grows_perm]).
  assert (FL : forall d, In d (flat t4) <-> exists e, In e (flat t3) /\ other_defs m e = false /\ d = cut_all ks e).
  { intros d. rewrite <- (map_snd_ctx [] t4), in_map_iff. split.
    - intros (p & <- & Hp). apply C4 in Hp. destruct Hp as (q & Hq & Oq & ->). exists (snd q). split; [apply (ctx_in_flat t3 [] _ Hq)|]. auto.
    - intros (e & He & Oe & ->). rewrite <- (map_snd_ctx [] t3) in He. apply in_map_iff in He. destruct He as (q & <- & Hq). exists (map (cut_all ks) (fst q), cut_all ks (snd q)). split; [reflexivity|]. apply C4. exists q. auto. }
  assert (Uniq : forall d, In d (flat t4) -> key d = m -> d = data main). { intros d Hd Kd. apply (data_unique t4); [apply O4|exact Hd|apply (ctx_in_flat t4 [] _ Hmain)|]. unfold root_key in E4. congruence. }
  exists t4, svg', main, rest. split; [exact (group_ok t svg m t1 Hs Hm Hok)|]. split; [exact W4|]. split; [exact E1|]. split; [exact E2|]. split; [exact E3|]. split; [now apply is_defs_iff|].
  split; [|split; [|split; [|split]]].
  - intros d Hd Dd. apply Uniq; [exact Hd|]. apply FL in Hd. destruct Hd as (e & He & Oe & ->). destruct (Nat.eq_dec (key e) m) as [X|X]; [exact X|]. exfalso. assert (other_defs m e = true) by (apply other_defs_el; split; [exact Dd|exact X]). congruence.
  - intros a d Hp Rd. assert (Hp0 := Hp). apply C4 in Hp. destruct Hp as (q & Hq & Oq & Ep). inversion Ep; subst a d. assert (Rq : is_ref (snd q) = true) by (apply is_ref_iff; exact Rd). destruct (F3 q Hq Rq) as [Cq|[]]. apply child_of_parent in Cq. destruct Cq as (e & l & Eq & Ke). rewrite Eq in *. cbn [map] in *. exists (map (cut_all ks) l). f_equal. apply Uniq; [|exact Ke].
    destruct (ctx_anc_in t4 [] _ (cut_all ks e) Hp0 (or_introl eq_refl)) as [[]|X]; exact X.
  - intros d Hd Dd Nk X. apply in_map_iff in X. destruct X as (d' & Ed & Hd'). apply FL in Hd'. destruct Hd' as (e & He & Oe & ->).
    assert (Hd1 : In d (flat t1)) by (destruct (first_flat t svg m t1 N R Hs Hm) as [(_ & P)|(_ & P & _)]; apply (Permutation_in d (Permutation_sym P)); [exact Hd|now right]).
    destruct G3 as [G31 _]. destruct (G31 d Hd1) as (d3 & Hd3 & (Sd & _)). assert (d3 = e) by (apply (data_unique t3); [apply O3|exact Hd3|exact He|rewrite (sig_key _ _ Sd); now symmetry]). subst d3.
    assert (other_defs m e = true); [|congruence]. apply other_defs_el. split; [apply (defs_el_sig _ _ Sd); exact Dd|]. rewrite (sig_key _ _ Sd). congruence.
  - intros d Hd Dd. assert (Hd1 : In d (flat t1)) by (destruct (first_flat t svg m t1 N R Hs Hm) as [(_ & P)|(_ & P & _)]; apply (Permutation_in d (Permutation_sym P)); [exact Hd|now right]).
    destruct G3 as [G31 G32]. destruct (G31 d Hd1) as (e & He & (Se & Ie & Ne & _)). assert (Oe : other_defs m e = false).
    { destruct (other_defs m e) eqn:X; [|reflexivity]. exfalso. apply other_defs_el in X. destruct X as [X1 X2]. destruct Dd as [Dd|Dd]; [apply Dd; now apply (defs_el_sig _ _ Se)|]. apply X2. rewrite (sig_key _ _ Se). congruence. }
    exists (cut_all ks e). split; [apply FL; eauto|]. split; [apply sig_same; exact Se|]. split.
    + intros Nd. specialize (Ne Nd). unfold attrs_nodup in *. cbn. clear -Ne. induction (attrs e) as [|x l IH]; [constructor|]. cbn in Ne. inversion Ne as [|? ? X1 X2]; subst. cbn. destruct (negb _); [|auto]. cbn. constructor; [|auto]. intros Y. apply X1. apply in_map_iff in Y. destruct Y as (z & Ez & Hz). apply filter_In in Hz. apply in_map_iff. exists z. tauto.
    + intros x Hx. destruct (existsb (fun k => refers k x) ks) eqn:X.
      * right. apply existsb_exists in X. destruct X as (k & Hk & Rk). apply in_map_iff in Hk. destruct Hk as (f & <- & Hf). apply filter_In in Hf. destruct Hf as [Hf Of]. apply other_defs_el in Of. destruct Of as [Df Nf]. destruct (G32 f Hf) as (g & Hg & (Sg & _)). exists g.
        assert (Hgt : In g (flat t)). { destruct (first_flat t svg m t1 N R Hs Hm) as [(_ & P)|(_ & P & _)]; apply (Permutation_in g P) in Hg; [exact Hg|]. destruct Hg as [<-|Hg]; [|exact Hg]. exfalso. apply Nf. rewrite (sig_key _ _ Sg). reflexivity. }
        split; [exact Hgt|]. split; [now apply (defs_el_sig _ _ Sg)|]. now rewrite <- (sig_key _ _ Sg).
      * left. cbn. apply filter_In. split; [now apply Ie|]. now rewrite X.
  - intros d' Hd'. assert (Hd0 := Hd'). apply FL in Hd'. destruct Hd' as (e & He & Oe & ->). destruct G3 as [_ G32]. destruct (G32 e He) as (d & Hd & (Sd & _ & _ & Ad)). destruct (first_flat t svg m t1 N R Hs Hm) as [(_ & P)|(Fn & P & Nm)].
    + left. exists d. split; [apply (Permutation_in d P Hd)|]. split; [apply sig_same; exact Sd|]. intros x Hx. cbn in Hx. apply filter_In in Hx. destruct Hx as [Hx _]. destruct (Ad x Hx) as [X|(I & y & Hy & X)]; [auto|]. right. split; [exact I|]. exists y. split; [apply (Permutation_in y P Hy)|exact X].
    + assert (Ad' : forall x, In x (attrs e) -> In x (attrs d) \/ (inheritable_attr x = true /\ exists y, In y (flat t) /\ In x (attrs y))).
      { intros x Hx. destruct (Ad x Hx) as [X|(I & y & Hy & X)]; [auto|]. right. split; [exact I|]. apply (Permutation_in y P) in Hy. destruct Hy as [<-|Hy]; [contradiction|eauto]. }
      assert (Nod : forall x, In x (flat t) -> ~ is_defs_el x). { intros x Hx Dx. unfold first_defs in Fn. apply (find_none _ _ Fn) in Hx. apply is_defs_iff in Dx. unfold is_defs in Dx. congruence. }
      apply (Permutation_in d P) in Hd. destruct Hd as [<-|Hd].
      * (* the new defs *)
        assert (Ke : key e = m) by (rewrite (sig_key _ _ Sd); reflexivity).
        right. split; [apply Uniq; [exact Hd0|exact Ke]|]. split; [|split; [cbn; unfold sig in Sd; now inversion Sd|exact Nod]].
        (* its attributes: none, since only children of resolving kinds get attributes *)
        assert (X : In (ND m (TEl EDefs) "" []) (flat t3)). { apply (Permutation_in _ (Permutation_sym P3)). apply (main_data_new m sv t1); [exact O1| |apply (Permutation_in _ (Permutation_sym P)); now left|reflexivity]. destruct (first_step t svg m t1 N R Hs Hm) as (_ & D1 & _). rewrite D1. unfold is_svg_el. now rewrite R. }
        assert (e = ND m (TEl EDefs) "" []) by (apply (data_unique t3); [apply O3|exact He|exact X|exact Ke]). subst e. reflexivity.
      * left. exists d. split; [exact Hd|]. split; [apply sig_same; exact Sd|]. intros x Hx. cbn in Hx. apply filter_In in Hx. destruct Hx as [Hx _]. auto.
Qed.

(** ** Style *)
Lemma get_attr_app l x a : get_attr (l ++ [x]) a = match get_attr l a with Some y => Some y | None => if has_name (AN a) x then Some x else None end.
Proof. induction l as [|y l IH]; [reflexivity|]. cbn. unfold get_attr in *. cbn. destruct (has_name (AN a) y); [reflexivity|exact IH]. Qed.
Lemma add_attr_get d x a : inheritable_attr x = true -> d_get (add_attr d x) a = match d_get d a with Some v => Some v | None => if has_name (AN a) x then Some (a_val x) else None end.
Proof.
  intros I. unfold add_attr. destruct (a_name x) as [b|] eqn:E; [|unfold inheritable_attr in I; rewrite E in I; discriminate].
  assert (Hn : has_name (AN a) x = true <-> a = b) by (rewrite has_name_true, E; split; [intros X; now inversion X|intros ->; reflexivity]).
  unfold d_get, get_value, d_has, has_attr. destruct (get_attr (attrs d) b) as [y|] eqn:G.
  - destruct (get_attr (attrs d) a) eqn:G2; [reflexivity|]. destruct (has_name (AN a) x); [|reflexivity]. assert (X : a = b) by (now apply Hn). subst. congruence.
  - cbn [attrs with_attrs]. rewrite get_attr_app. destruct (get_attr (attrs d) a); [reflexivity|]. destruct (has_name (AN a) x); reflexivity.
Qed.

Lemma add_missing_get l d a : is_inheritable a = true -> d_get (add_missing l d) a = match d_get d a with Some v => Some v | None => nearest a l end.
Proof.
  intros Ia. unfold add_missing.
  assert (F : forall xs d, (forall x, In x xs -> inheritable_attr x = true) -> d_get (fold_left add_attr xs d) a = match d_get d a with Some v => Some v | None => get_value xs a end).
  { induction xs as [|x xs IH]; intros d0 H; cbn [fold_left]; [now destruct (d_get d0 a)|]. rewrite IH by (intros y Hy; apply H; now right). rewrite add_attr_get by (apply H; now left). destruct (d_get d0 a); [reflexivity|]. unfold get_value, get_attr. cbn [find]. destruct (has_name (AN a) x); reflexivity. }
  rewrite F by (intros x Hx; apply in_flat_map in Hx; destruct Hx as (y & _ & Hx); now apply filter_In in Hx). destruct (d_get d a); [reflexivity|].
  clear -Ia. induction l as [|p l IH]; [reflexivity|]. cbn [flat_map nearest]. rewrite <- IH. unfold d_get, get_value, get_attr. generalize (flat_map (fun p0 => filter inheritable_attr (attrs p0)) l) as r. intros r. induction (attrs p) as [|x xs IHx]; [reflexivity|]. cbn [filter find]. destruct (has_name (AN a) x) eqn:E.
  - assert (X : inheritable_attr x = true) by (apply has_name_true in E; unfold inheritable_attr; now rewrite E). rewrite X. cbn. now rewrite E.
  - destruct (inheritable_attr x); cbn; [now rewrite E|exact IHx].
Qed.
Lemma nearest_app a l r : nearest a (l ++ r) = match nearest a l with Some v => Some v | None => nearest a r end.
Proof. induction l as [|d l IH]; [reflexivity|]. cbn. destruct (d_get d a); [reflexivity|exact IH]. Qed.
Lemma nearest_none a l : nearest a l = None <-> forall d, In d l -> d_get d a = None.
Proof.
  induction l as [|d l IH]; cbn; [split; [intros _ d []|reflexivity]|]. destruct (d_get d a) eqn:E; split.
  - discriminate.
  - intros H. specialize (H d (or_introl eq_refl)). congruence.
  - intros H x [<-|Hx]; [exact E|]. now apply IH.
  - intros H. apply IH. auto.
Qed.
Lemma resolves_ref d : resolves d = true -> is_ref d = true.
Proof. unfold resolves, is_ref. destruct (tag d) as [|e| | | |]; try discriminate. destruct e; try discriminate; reflexivity. Qed.
Lemma ref_not_defs d : is_ref d = true -> is_defs d = false.
Proof. unfold is_ref, is_defs, is_tag. destruct (tag d) as [|e| | | |]; try reflexivity. destruct (eid_eqb_spec e EDefs); [subst; discriminate|reflexivity]. Qed.
Lemma resolves_sig d d' : sig d' = sig d -> resolves d' = resolves d. Proof. intros E. unfold resolves. now rewrite (sig_tag _ _ E). Qed.
Section tracking.
Variables (m sv kx : nat) (a : aid) (v : option value) (tg : tagt) (id : string).
Hypothesis Ia : is_inheritable a = true.
Definition plain_x (d : ndata) : Prop := is_ref d = false /\ is_defs d = false.
Definition tracked (T : tree) : Prop :=
  (exists dm, In dm (flat T) /\ key dm = m /\ d_get dm a = None) /\
  exists l n r ds x, In (l ++ n :: r ++ [ds; data T], x) (ctx [] T) /\ sig x = (kx, tg, id) /\ key ds = sv /\
    nearest a (x :: l ++ n :: r ++ [ds; data T]) = v /\ Forall plain_x (x :: l) /\ resolves n = true /\ Forall (fun y => is_ref y = true -> resolves y = true) r.
Lemma last_of x (A : list ndata) : exists A' z, x :: A = A' ++ [z].
Proof. destruct (exists_last (l := x :: A)) as (A' & z & E); [discriminate|]. eauto. Qed.
Lemma tracked_step T k : ok m sv T -> node_ok m sv T k -> (exists d, In d (flat T) /\ key d = k /\ is_ref d = true) -> tracked T -> tracked (move_step m T k).
Proof.
  intros O K (dk & Hdk & Kdk & Rk) [(dm0 & Hdm & Kdm & Gdm) (l & n & r & ds & x & H & Sx & Kds & V & Px & Rn & Rr)]. pose proof (ok_nodup _ _ _ O) as N.
  split; [exists dm0; split; [exact (main_step m sv T k dm0 O K Hdm Kdm)|auto]|].
  unfold move_step. rewrite resolve_tmap. set (g := resolver k T). assert (G : forall d, sig (g d) = sig d) by apply resolver_sig.
  pose proof (ok_tmap m sv g T O G) as O1. pose proof (node_ok_tmap m sv g T k K G) as K1.
  assert (Dt : data (move k m (tmap g T)) = data T).
  { destruct (move_spec m sv (tmap g T) k O1 K1) as (? & ? & ? & ? & ? & _ & _ & _ & _ & _ & _ & _ & _ & _ & _ & E). rewrite E, data_tmap. apply (resolver_same k T ([], data T)); [exact N|destruct T; now left|reflexivity]. }
  set (anc := l ++ n :: r ++ [ds; data T]) in *.
  assert (H1 : In (map g anc, g x) (ctx [] (tmap g T))) by (rewrite ctx_tmap0; apply in_map_iff; exists (anc, x); auto).
  (* the data of the nodes on the path that are not children of k *)
  assert (Fix1 : forall A y B, x :: anc = A ++ y :: B -> (match B with z :: _ => key z <> k | [] => True end) -> g y = y).
  { intros A y B E X. assert (Hy : In (B, y) (ctx [] T)). { destruct A as [|x' A]; cbn in E; inversion E; subst; [exact H|]. rewrite H3 in H. exact (ctx_tail T A B y x' H). }
    apply (resolver_same k T (B, y)); [exact N|exact Hy|]. cbn. destruct B as [|z B]; [reflexivity|]. cbn. now apply Nat.eqb_neq. }
  destruct (in_dec Nat.eq_dec k (map key anc)) as [Hin|Hout].
  - apply in_map_iff in Hin. destruct Hin as (y & Ky & Hy). assert (y = dk). { apply (data_unique T); [exact N| |exact Hdk|congruence]. destruct (ctx_anc_in T [] _ y H Hy) as [[]|Z]; exact Z. } subst y.
    (* y is n or in r *)
    assert (Hy' : exists A B r1, anc = A ++ dk :: B ++ [ds; data T] /\ ((A = l /\ dk = n /\ B = r /\ r1 = []) \/ (A = l ++ n :: r1 /\ r = r1 ++ dk :: B))).
    { unfold anc in Hy. apply in_app_or in Hy. destruct Hy as [Hy|[Hy|Hy]].
      - exfalso. rewrite Forall_forall in Px. destruct (Px dk (or_intror Hy)). congruence.
      - exists l, r, []. subst. split; [reflexivity|]. left. auto.
      - apply in_app_or in Hy. destruct Hy as [Hy|[Hy|[Hy|[]]]].
        + apply in_split in Hy. destruct Hy as (r1 & r2 & ->). exists (l ++ n :: r1), r2, r1. split; [unfold anc; rewrite <- ?app_assoc; cbn; now rewrite <- ?app_assoc|]. right. auto.
        + exfalso. destruct K as (? & _ & E & _ & X & _). subst. congruence.
        + exfalso. destruct K as (? & _ & E & _ & _ & X). subst. apply X. unfold root_key. congruence. }
    destruct Hy' as (A & B & r1 & EA & Cases).
    assert (Rdk : resolves dk = true). { destruct Cases as [(_ & -> & _)|(_ & Er)]; [exact Rn|]. rewrite Forall_forall in Rr. apply Rr; [rewrite Er; apply in_elt|exact Rk]. }
    assert (NDp : NoDup (map key (x :: anc))).
    { clear -N H. revert x H. induction anc as [|y anc IH]; intros x H; [constructor; [auto|constructor]|]. assert (Hy : In (anc, y) (ctx [] T)) by (apply (ctx_tail T [] anc y x); exact H). constructor; [|exact (IH y Hy)].
      intros X. change (In (key x) (map key (y :: anc))) in X. apply in_map_iff in X. destruct X as (z & Ez & Hz). apply in_split in Hz. destruct Hz as (P & Q & E). rewrite E in H. pose proof (ctx_tail T P Q z x H) as Hz. assert (W : (P ++ z :: Q, x) = (Q, z)) by (apply (ctx_unique T []); auto). inversion W as [[W1 W2]]. apply (f_equal (@List.length ndata)) in W1. rewrite app_length in W1. cbn in W1. lia. }
    rewrite EA in H1. rewrite map_app in H1. cbn [map] in H1. destruct (move_in m sv (tmap g T) k (map g A) (g dk) (map g (B ++ [ds; data T])) (g x) O1 K1 H1) as (dm & ds1 & Km & Ks1 & Dm & Hm & Hx'); [rewrite (sig_key _ _ (G dk)); exact Kdk|].
    assert (Gdk : g dk = dk).
    { apply (Fix1 (x :: A) dk (B ++ [ds; data T])); [rewrite EA; reflexivity|]. assert (NDq : NoDup (map key (x :: A ++ dk :: B ++ [ds; data T]))) by (rewrite <- EA; exact NDp).
      cbn in NDq. inversion NDq as [|? ? _ ND2]; subst. rewrite map_app in ND2. apply NoDup_app_inv in ND2. destruct ND2 as (_ & ND3 & _). cbn in ND3. inversion ND3 as [|? ? ND4 _]; subst. destruct (B ++ [ds; data T]) as [|z Z]; [exact I|]. intros E. apply ND4. left. exact E. }
    assert (Gds : ds1 = ds /\ data (tmap g T) = data T).
    { split; [|rewrite data_tmap; apply (resolver_same k T ([], data T)); [exact N|destruct T; now left|reflexivity]].
      assert (E0 : g ds = ds). { apply (Fix1 (x :: l ++ n :: r) ds [data T]); [unfold anc; cbn; rewrite <- ?app_assoc; cbn; now rewrite <- ?app_assoc|]. destruct K as (? & _ & _ & _ & _ & X). unfold root_key in X. congruence. }
      apply (data_unique (tmap g T)); [apply O1| | |congruence].
      - apply (ctx_in_flat _ [] ([data (tmap g T)], ds1)). apply (ctx_tail _ [] [data (tmap g T)] ds1 dm). exact Hm.
      - rewrite <- E0. rewrite flat_tmap. apply in_map. assert (Z : In ([data T], ds) (ctx [] T)) by (apply (ctx_tail T (l ++ n :: r) [data T] ds x); rewrite <- app_assoc; exact H). apply (ctx_in_flat T [] _ Z). }
    destruct Gds as [-> Gt]. rewrite Gt in Hx', Hm. rewrite Gdk in Hx'.
    assert (Gm : d_get dm a = None).
    { assert (dm = dm0); [|now subst]. assert (In dm0 (flat (tmap g T))). { rewrite flat_tmap. apply in_map_iff. exists dm0. split; [|exact Hdm]. destruct (front_ctx _ _ _ (ok_front _ _ _ O)) as (ds2 & dm2 & Z1 & Z2 & Z3 & _ & Z5 & _). assert (dm0 = dm2) by (apply (data_unique T); [exact N|exact Hdm|apply (ctx_in_flat T [] _ Z1)|congruence]). subst dm2. apply (resolver_same k T ([ds2; data T], dm0)); [exact N|exact Z1|]. cbn. apply Nat.eqb_neq. destruct K as (? & _ & _ & _ & X & _). congruence. }
      apply (data_unique (tmap g T)); [apply O1|apply (ctx_in_flat _ [] _ Hm)|exact H0|congruence]. }
    (* the values *)
    assert (Val : nearest a (g x :: map g A ++ [dk; dm; ds; data T]) = v).
    { destruct (last_of x A) as (A' & z & E). assert (EM : g x :: map g A = A' ++ [g z]).
      { change (g x :: map g A) with (map g (x :: A)). rewrite E, map_app. cbn. f_equal. rewrite <- (map_id A') at 2. apply map_ext_in. intros y Hy1. apply in_split in Hy1. destruct Hy1 as (P & Q & ->).
        apply (Fix1 P y (Q ++ [z] ++ dk :: B ++ [ds; data T])); [rewrite EA; change (x :: A ++ dk :: B ++ [ds; data T]) with ((x :: A) ++ dk :: B ++ [ds; data T]); rewrite E, <- !app_assoc; reflexivity|].
        assert (NDq : NoDup (map key ((P ++ y :: Q) ++ [z] ++ dk :: B ++ [ds; data T]))). { rewrite EA in NDp. change (x :: A ++ dk :: B ++ [ds; data T]) with ((x :: A) ++ dk :: B ++ [ds; data T]) in NDp. rewrite E, <- app_assoc in NDp. exact NDp. }
        rewrite <- app_assoc in NDq. cbn [app] in NDq. rewrite map_app in NDq. apply NoDup_app_inv in NDq. destruct NDq as (_ & NDq & _). cbn in NDq. inversion NDq as [|? ? _ NDr]; subst. rewrite map_app in NDr. cbn [map] in NDr.
        destruct Q as [|q Q]; cbn [app] in *.
        - intros X. inversion NDr as [|? ? Y _]; subst. apply Y. left. congruence.
        - intros X. inversion NDr as [|? ? Y _]; subst. apply Y. apply in_or_app. right. right. left. congruence. }
      change (g x :: map g A ++ [dk; dm; ds; data T]) with ((g x :: map g A) ++ [dk; dm; ds; data T]). rewrite EM. rewrite <- V, EA. change (x :: A ++ dk :: B ++ [ds; data T]) with ((x :: A) ++ dk :: B ++ [ds; data T]). rewrite E. rewrite <- !app_assoc. rewrite !(nearest_app a A'). destruct (nearest a A') eqn:EA'; [reflexivity|].
      assert (Gz : g z = add_missing (dk :: B ++ [ds; data T]) z).
      { unfold g, resolver. assert (Cx : In (B ++ [ds; data T], dk) (ctx [] T)) by (apply (ctx_tail T A (B ++ [ds; data T]) dk x); rewrite <- EA; exact H).
        assert (Ctx : context k T = Some (B ++ [ds; data T], dk)). { unfold context. destruct (find _ (ctx [] T)) as [p|] eqn:F. - apply find_some in F. destruct F as [F1 F2]. apply Nat.eqb_eq in F2. f_equal. apply (ctx_unique T []); auto. cbn. congruence. - apply (find_none _ _ F) in Cx. cbn in Cx. rewrite Kdk, Nat.eqb_refl in Cx. discriminate. }
        rewrite Ctx, Rdk. assert (Z : In (dk :: B ++ [ds; data T], z) (ctx [] T)).
        { destruct A' as [|x' A']; cbn in E; inversion E; subst.
          - rewrite EA in H. exact H.
          - rewrite EA in H. rewrite <- app_assoc in H. exact (ctx_tail T A' (dk :: B ++ [ds; data T]) z x' H). }
        assert (X : existsb (Nat.eqb (key z)) (map (fun p => key (snd p)) (filter (child_of k) (ctx [] T))) = true). { apply existsb_exists. exists (key z). split; [|apply Nat.eqb_refl]. apply in_map_iff. exists (dk :: B ++ [ds; data T], z). split; [reflexivity|]. apply filter_In. split; [exact Z|]. cbn. now apply Nat.eqb_eq. }
        rewrite X. reflexivity. }
      rewrite Gz. cbn [app nearest]. rewrite (add_missing_get _ z a Ia). destruct (d_get z a); [reflexivity|]. destruct (nearest a (dk :: B ++ [ds; data T])) as [w|] eqn:EW.
      - cbn [nearest] in EW |- *. now rewrite EW.
      - rewrite nearest_none in EW. cbn [nearest]. rewrite (EW dk (or_introl eq_refl)), Gm. rewrite (EW ds), (EW (data T)); [|right; apply in_or_app; right; right; now left|right; apply in_or_app; right; now left].
        symmetry. destruct (nearest a (B ++ [ds; data T])) eqn:EB; [|reflexivity]. exfalso. assert (EN : nearest a (B ++ [ds; data T]) = None) by (apply nearest_none; intros d Hd1; apply EW; now right). congruence. }
    rewrite Dt. destruct Cases as [(-> & -> & -> & ->)|(-> & ->)].
    + exists (map g l), n, [dm], ds, (g x). split; [exact Hx'|]. split; [now rewrite G|]. split; [exact Kds|]. split; [exact Val|]. split; [|split; [exact Rn|]].
      * change (g x :: map g l) with (map g (x :: l)). apply Forall_forall. intros y Hy1. apply in_map_iff in Hy1. destruct Hy1 as (z & <- & Hz). rewrite Forall_forall in Px. destruct (Px z Hz) as [P1 P2]. split; [now rewrite (is_ref_sig _ _ (G z))|now rewrite (is_defs_sig _ _ (G z))].
      * constructor; [|constructor]. intros X. apply ref_not_defs in X. congruence.
    + exists (map g l), (g n), (map g r1 ++ [dk; dm]), ds, (g x). split; [rewrite map_app in Hx'; cbn [map] in Hx'; rewrite <- ?app_assoc in *; cbn [app] in *; exact Hx'|]. split; [now rewrite G|]. split; [exact Kds|]. split; [rewrite map_app in Val; cbn [map] in Val; rewrite <- ?app_assoc in *; cbn [app] in *; exact Val|]. split; [|split; [now rewrite (resolves_sig _ _ (G n))|]].
      * change (g x :: map g l) with (map g (x :: l)). apply Forall_forall. intros y Hy1. apply in_map_iff in Hy1. destruct Hy1 as (z & <- & Hz). rewrite Forall_forall in Px. destruct (Px z Hz) as [P1 P2]. split; [now rewrite (is_ref_sig _ _ (G z))|now rewrite (is_defs_sig _ _ (G z))].
      * apply Forall_app. apply Forall_app in Rr. destruct Rr as [Rr1 _]. split; [|constructor; [auto|constructor; [|constructor]]; intros X; apply ref_not_defs in X; congruence]. apply Forall_forall. intros y Hy1. apply in_map_iff in Hy1. destruct Hy1 as (z & <- & Hz). rewrite (is_ref_sig _ _ (G z)), (resolves_sig _ _ (G z)). rewrite Forall_forall in Rr1. auto.
  - assert (Fx : forall y, In y (x :: anc) -> g y = y).
    { intros y Hy. apply in_split in Hy. destruct Hy as (P & Q & E). apply (Fix1 P y Q E). destruct Q as [|q Q]; [exact I|]. intros X. apply Hout. apply in_map_iff. exists q. split; [exact X|]. clearbody anc. destruct P as [|p P]; cbn in E; inversion E; subst; [now left|]. apply in_or_app. right. right. now left. }
    assert (Em : map g anc = anc) by (rewrite <- (map_id anc) at 2; apply map_ext_in; intros y Hy; apply Fx; now right). rewrite Em, (Fx x (or_introl eq_refl)) in H1.
    exists l, n, r, ds, x. rewrite Dt. split; [|auto 10]. apply (move_out m sv); [exact O1|exact K1|exact H1|]. intros y [<-|Hy] E; [|apply Hout; apply in_map_iff; eauto].
    rewrite Forall_forall in Px. destruct (Px x (or_introl eq_refl)) as [P1 _]. assert (x = dk) by (apply (data_unique T); [exact N|apply (ctx_in_flat T [] _ H)|exact Hdk|congruence]). subst. congruence.
Qed.
End tracking.

Lemma content_iff d : resolves d = true <-> content_kind d.
Proof.
  unfold resolves, content_kind. destruct (tag d) as [|e| | | |]; split; try discriminate; try (intros (x & X & _); discriminate).
  - intros H. exists e. split; [reflexivity|]. destruct e; try discriminate; cbn; auto 6.
  - intros (x & X & H). inversion X; subst. cbn in H. destruct H as [<-|[<-|[<-|[<-|[<-|[]]]]]]; reflexivity.
Qed.
Lemma first_defs_iff t d : first_defs t = Some d -> first_defs_el t d.
Proof.
  unfold first_defs, first_defs_el. induction (flat t) as [|y l IH]; [discriminate|]. cbn. destruct (is_tag EDefs y) eqn:E.
  - intros H. inversion H; subst. exists [], l. split; [reflexivity|]. split; [now apply is_defs_iff|intros z []].
  - intros H. destruct (IH H) as (pre & post & -> & D & F). exists (y :: pre), post. split; [reflexivity|]. split; [exact D|]. intros z [<-|Hz]; [|auto]. intros X. apply is_defs_iff in X. unfold is_defs in X. congruence.
Qed.
(** The content of a clipPath, marker, mask, pattern or symbol keeps its inherited style, if the main
    defs was a child of svg that does not set the property, nothing refers to a defs element, and the
    referenced elements around it are also of these kinds. *)
Theorem C13_style_partial : forall t svg a l n r x, WF t -> tag (data t) = TRoot -> svg_element t = Some svg -> group_defs t <> Panic -> is_inheritable a = true ->
  (forall d, first_defs_el t d -> In ([data svg; data t], d) (ctx [] t) /\ d_get d a = None) ->
  (forall d y, In d (flat t) -> In y (attrs d) -> ~ to_defs t y) ->
  In (l ++ n :: r ++ [data svg; data t], x) (ctx [] t) -> content_kind n ->
  (forall y, In y (x :: l) -> ~ referenced_kind y /\ ~ is_defs_el y) -> (forall y, In y r -> referenced_kind y -> content_kind y) ->
  exists t' anc x', group_defs t = Ok t' /\ In (anc, x') (ctx [] t') /\ same_node x x' /\
    nearest a (x' :: anc) = nearest a (x :: l ++ n :: r ++ [data svg; data t]).
Proof.
  intros t svg a l n r x W R Hs Hok Ia Hd Hl Hx Cn Hxl Hr. pose proof (wf_keys t W) as N. destruct (main_defs svg t) as [m t1] eqn:Hm.
  destruct (pipeline t svg m t1 N R Hs Hm) as (O1 & O2 & O3 & O4 & G2 & P3 & F2 & F3 & R2 & D3 & S2 & C4). set (sv := root_key svg) in *. set (t2 := step2 m t1) in *. set (t3 := step3 m t2) in *. set (ks := others m t3) in *. set (t4 := remove_nodes ks t3) in *.
  set (v := nearest a (x :: l ++ n :: r ++ [data svg; data t])). destruct (first_step t svg m t1 N R Hs Hm) as (_ & D1 & F1).
  assert (R1 : is_svg_el (data t1) = false) by (rewrite D1; unfold is_svg_el; now rewrite R).
  assert (Tr1 : tracked m sv (key x) a v (tag x) (nid x) t1).
  { assert (C : forall p, In p (ctx [] t) -> In p (ctx [] t1)).
    { destruct F1 as [(s & b & rest & E1 & E2 & E3 & E4 & E5 & _)|(_ & P & _)].
      - destruct (Hd (data s) (first_defs_iff _ _ E1)) as [Z _]. assert (Q : (b, data s) = ([data svg; data t], data s)). { apply (ctx_unique t []); auto. apply ctx_place. eauto. } inversion Q; subst b. intros p Hp. apply (Permutation_in p (Permutation_sym E5)). apply (Permutation_in p E4). exact Hp.
      - intros p Hp. apply (Permutation_in p (Permutation_sym P)). now right. }
    split.
    - destruct F1 as [(s & b & rest & E1 & E2 & E3 & E4 & E5 & _)|(_ & P & _)].
      + exists (data s). split; [apply (ctx_in_flat t1 [] (b, data s)), C, ctx_place; eauto|]. split; [exact E2|]. apply Hd. now apply first_defs_iff.
      + exists (ND m (TEl EDefs) "" []). split; [|split; reflexivity]. change (ND m (TEl EDefs) "" []) with (snd ([data svg; data t], ND m (TEl EDefs) "" [])). apply (ctx_in_flat t1 []). apply (Permutation_in _ (Permutation_sym P)). now left.
    - exists l, n, r, (data svg), x. rewrite D1. split; [now apply C|]. split; [reflexivity|]. split; [reflexivity|]. split; [reflexivity|]. split; [|split; [now apply content_iff|]].
      + apply Forall_forall. intros y Hy. destruct (Hxl y Hy) as [Y1 Y2]. split; [destruct (is_ref y) eqn:E; [|reflexivity]; exfalso; now apply Y1, is_ref_iff|destruct (is_defs y) eqn:E; [|reflexivity]; exfalso; now apply Y2, is_defs_iff].
      + apply Forall_forall. intros y Hy Y. apply content_iff. apply Hr; [exact Hy|now apply is_ref_iff]. }
  assert (Tr2 : tracked m sv (key x) a v (tag x) (nid x) t2).
  { apply (second_ind m sv (tracked m sv (key x) a v (tag x) (nid x))); [|exact O1|exact R1|intros k Hk; exact (to_move_ok m t1 k Hk)|exact Tr1]. intros T0 k O K Rk Q. now apply tracked_step. }
  destruct Tr2 as [(dm0 & Hdm0 & Kdm0 & Gdm0) (l2 & n2 & r2 & ds2 & x2 & H2 & Sx2 & Kds2 & V2 & Px2 & Rn2 & Rr2)]. set (anc := l2 ++ n2 :: r2 ++ [ds2; data t2]) in *.
  assert (Par : exists dm', r2 = [dm'] /\ key dm' = m).
  { pose proof (ctx_tail t2 l2 (r2 ++ [ds2; data t2]) n2 x2 H2) as Hn. destruct (F2 _ Hn (resolves_ref _ Rn2)) as [Cn2|[]]. apply child_of_parent in Cn2. destruct Cn2 as (e & q & Eq & Ke). cbn in Eq. rewrite Eq in Hn. pose proof (ctx_tail t2 [] q e n2 Hn) as He.
    destruct (front_ctx _ _ _ (ok_front _ _ _ O2)) as (ds & dm & Z1 & Z2 & K1 & Dm & K2 & T2). assert (Q : (q, e) = ([ds; data t2], dm)) by (apply (ctx_unique t2 []); [apply O2|exact He|exact Z1|cbn; congruence]). inversion Q; subst q e.
    destruct r2 as [|e r2]; [|destruct r2 as [|e2 r2]]; cbn in Eq; inversion Eq; subst; [eauto|].
    exfalso. apply (f_equal (@List.length ndata)) in H3. rewrite app_length in H3. cbn in H3. lia. }
  destruct Par as (dm' & -> & Kdm').
  assert (Out : forall k, In k (in_other m t2) -> forall y, In y (x2 :: anc) -> key y <> k).
  { intros k Hk y Hy E. pose proof (in_other_ok m sv t2 k O2 R2 Hk) as (dd & _ & _ & M1 & M2 & M3). apply in_other_iff in Hk; [|apply O2]. destruct Hk as (d & q & z & Hz & Kz & Od). apply other_defs_el in Od. destruct Od as [Od1 Od2].
    assert (Cy : exists p, In (p, y) (ctx [] t2) /\ exists A, x2 :: anc = A ++ y :: p). { apply in_split in Hy. destruct Hy as (A & B & EA). exists B. split; [|eauto]. destruct A as [|x' A]; cbn in EA; injection EA as E1 E2; [subst y; rewrite <- E2; exact H2|]. rewrite E2 in H2. exact (ctx_tail t2 A B y x2 H2). }
    destruct Cy as (p & Hp & A & EA). assert (Q : (d :: q, z) = (p, y)) by (apply (ctx_unique t2 []); [apply O2|exact Hz|exact Hp|cbn; congruence]). inversion Q; subst z p. clear Q Hp.
    (* d is in anc: its place *)
    assert (Hd' : In d (x2 :: l2) \/ d = n2 \/ d = dm' \/ y = dm' \/ y = ds2 \/ y = data t2).
    { clear -EA. unfold anc in EA. change (x2 :: l2 ++ n2 :: [dm'] ++ [ds2; data t2]) with ((x2 :: l2) ++ [n2; dm'; ds2; data t2]) in EA. revert A EA. induction (x2 :: l2) as [|e L IH]; intros A EA.
      - cbn in EA. destruct A as [|? [|? [|? [|? A]]]]; cbn in EA; inversion EA; subst; auto 10. destruct A; discriminate.
      - destruct A as [|e' A]; cbn in EA; inversion EA; subst.
        + destruct L as [|e2 L]; cbn in H1; inversion H1; subst; [right; now left|left; right; now left].
        + destruct (IH A H1) as [X|X]; [left; now right|right; exact X]. }
    destruct Hd' as [X|[-> |[-> |[-> |[-> | ->]]]]].
    - rewrite Forall_forall in Px2. destruct (Px2 d X) as [_ X2]. apply is_defs_iff in Od1. congruence.
    - apply is_defs_iff in Od1. pose proof (ref_not_defs _ (resolves_ref _ Rn2)). congruence.
    - congruence.
    - congruence.
    - congruence.
    - apply M3. unfold root_key. congruence. }
  assert (H3 : In (anc, x2) (ctx [] t3)).
  { apply (third_ind m sv (fun T => In (anc, x2) (ctx [] T)) (in_other m t2)); [|apply incl_refl|exact O2|intros k Hk; now apply in_other_ok|exact H2]. intros T0 k O K Hk Q. apply (move_out m sv); auto. }
  assert (Cut : forall y, In y (x2 :: anc) -> cut_all ks y = y).
  { intros y Hy. assert (Hy3 : In y (flat t3)). { destruct Hy as [<-|Hy]; [apply (ctx_in_flat t3 [] _ H3)|]. destruct (ctx_anc_in t3 [] _ y H3 Hy) as [[]|Z]; exact Z. }
    assert (Hattr : forall z, In z (attrs y) -> exists d, In d (flat t) /\ In z (attrs d)).
    { intros z Hz. assert (G3 : grows t1 t3) by (apply (grows_trans _ t2); [exact G2|now apply grows_perm]). destruct G3 as [_ G3]. destruct (G3 y Hy3) as (d & Hd1 & (_ & _ & _ & Z)). assert (Y : exists d, In d (flat t1) /\ In z (attrs d)) by (destruct (Z z Hz) as [Q|[_ (e & He & Q)]]; eauto). destruct Y as (e & He & Q).
      exists e. split; [|exact Q]. destruct (first_flat t svg m t1 N R Hs Hm) as [(_ & P)|(_ & P & _)]; apply (Permutation_in e P) in He; [exact He|]. destruct He as [<-|He]; [contradiction|exact He]. }
    unfold cut_all. destruct y as [ky ty iy ay]. unfold with_attrs. cbn in *. f_equal. rewrite (filter_ext_in _ (fun _ => true)); [clear; induction ay as [|z ay IH]; cbn; [reflexivity|now rewrite IH]|]. intros z Hz. apply negb_true_iff. destruct (existsb _ ks) eqn:E; [|reflexivity]. exfalso. apply existsb_exists in E. destruct E as (k & Hk & Rk). destruct (Hattr z Hz) as (d & Hd1 & Hz1). apply (Hl d z Hd1 Hz1).
    apply in_map_iff in Hk. destruct Hk as (f & <- & Hf). apply filter_In in Hf. destruct Hf as [Hf Of]. apply other_defs_el in Of. destruct Of as [Df Nf]. assert (G3 : grows t1 t3) by (apply (grows_trans _ t2); [exact G2|now apply grows_perm]). destruct G3 as [_ G3]. destruct (G3 f Hf) as (g & Hg & (Sg & _)). exists g.
    assert (Hgt : In g (flat t)). { destruct (first_flat t svg m t1 N R Hs Hm) as [(_ & P)|(_ & P & _)]; apply (Permutation_in g P) in Hg; [exact Hg|]. destruct Hg as [<-|Hg]; [|exact Hg]. exfalso. apply Nf. rewrite (sig_key _ _ Sg). reflexivity. }
    split; [exact Hgt|]. split; [now apply (defs_el_sig _ _ Sg)|]. now rewrite <- (sig_key _ _ Sg). }
  exists t4, anc, x2. split; [exact (group_ok t svg m t1 Hs Hm Hok)|]. split; [|split; [apply sig_same; exact Sx2|exact V2]].
  apply C4. exists (anc, x2). cbn [fst snd]. split; [exact H3|]. split.
  - unfold other_defs. rewrite Forall_forall in Px2. destruct (Px2 x2 (or_introl eq_refl)) as [_ ->]. reflexivity.
  - rewrite (Cut x2 (or_introl eq_refl)). f_equal. rewrite <- (map_id anc) at 1. apply map_ext_in. intros y Hy. symmetry. apply Cut. now right.
Qed.

(** A witness for the hypotheses of both theorems: nested patterns and a marker outside defs. *)
Definition gd_red := VColor 255 0 0.
Definition gd_blue := VColor 0 0 255.
Definition gd_doc : tree := doc [el 1 ESvg [] [el 2 EDefs [] [el 3 EDefs [] [el 4 ERect [] []]];
  el 5 EG [at_ AFill gd_red] [eli 6 EPattern "p" [] [el 7 EG [] [eli 8 EMarker "m" [] [el 9 EG [] [el 10 EPath [] []]]]]]]].
Example C13_instance : exists l n r x, WF gd_doc /\ tag (data gd_doc) = TRoot /\ In (l ++ n :: r ++ [ND 1 (TEl ESvg) "" []; data gd_doc], x) (ctx [] gd_doc) /\ content_kind n /\
  (forall y, In y (x :: l) -> ~ referenced_kind y /\ ~ is_defs_el y) /\ (forall y, In y r -> referenced_kind y -> content_kind y) /\
  group_defs gd_doc = Ok (doc [el 1 ESvg [] [el 2 EDefs [] [
      eli 6 EPattern "p" [] [el 7 EG [at_ AFill gd_red] []]; eli 8 EMarker "m" [] [el 9 EG [at_ AFill gd_red] [el 10 EPath [] []]]; el 4 ERect [] []];
    el 5 EG [at_ AFill gd_red] []]]).
Proof.
  exists [ND 9 (TEl EG) "" []], (ND 8 (TEl EMarker) "m" []), [ND 7 (TEl EG) "" []; ND 6 (TEl EPattern) "p" []; ND 5 (TEl EG) "" [at_ AFill gd_red]], (ND 10 (TEl EPath) "" []).
  split; [split; [cbn; repeat constructor; cbn; intuition discriminate|cbn; contradiction]|]. split; [reflexivity|]. split; [cbn; auto 12|]. split; [exists EMarker; cbn; auto|]. split; [|split].
  - intros y [<-|[<-|[]]]; (split; [intros (e & E & H); inversion E; subst; discriminate|discriminate]).
  - intros y [<-|[<-|[<-|[]]]] (e & E & H); inversion E; subst; try discriminate. exists EPattern. cbn. auto 10.
  - vm_compute. reflexivity.
Qed.
(** svgdom does not accept a link of an element to itself: the cleaner aborts. *)
Definition gd_self : tree := doc [el 1 ESvg [] [el 2 EG [at_ AFill (VFunc 4)] [eli 3 EPattern "p" [] [eli 4 ELinearGradient "a" [] []]]]].
Theorem C13_self_link_refuted : exists t, WF t /\ tag (data t) = TRoot /\ svg_element t <> None /\ group_defs t = Panic.
Proof.
  exists gd_self. split; [split; [cbn; repeat constructor; cbn; intuition discriminate|cbn; intros k [<-|[]]; auto 8]|]. split; [reflexivity|]. split; [vm_compute; discriminate|vm_compute; reflexivity].
Qed.
(** A document without an svg element is a panic. *)
Theorem C13_no_svg : forall t, svg_element t = None -> group_defs t = Panic.
Proof. intros t H. unfold group_defs. now rewrite H. Qed.
(** Without the hypotheses the style is not kept. The main defs leaves its group: *)
Definition gd_inside : tree := doc [el 1 ESvg [] [el 2 EG [at_ AFill gd_red] [el 3 EDefs [] [eli 4 EPattern "p" [] [el 5 ERect [] []]]]]].
Theorem C13_main_defs_refuted : exists t' a x a' x', group_defs gd_inside = Ok t' /\ WF gd_inside /\
  In (a, x) (ctx [] gd_inside) /\ In (a', x') (ctx [] t') /\ same_node x x' /\ tag x = TEl ERect /\
  nearest AFill (x :: a) = Some gd_red /\ nearest AFill (x' :: a') = None.
Proof.
  do 5 eexists. split; [vm_compute; reflexivity|]. split; [split; [cbn; repeat constructor; cbn; intuition discriminate|cbn; contradiction]|]. split; [cbn; do 5 right; left; reflexivity|]. split; [cbn; do 4 right; left; reflexivity|]. repeat split.
Qed.
(** The attributes of the main defs reach the elements moved into it: *)
Definition gd_main_fill : tree := doc [el 1 ESvg [] [el 2 EDefs [at_ AFill gd_blue] []; eli 4 EPattern "p" [] [el 5 ERect [] []]]].
Theorem C13_defs_style_refuted : exists t' a x a' x', group_defs gd_main_fill = Ok t' /\ WF gd_main_fill /\
  In (a, x) (ctx [] gd_main_fill) /\ In (a', x') (ctx [] t') /\ same_node x x' /\ tag x = TEl ERect /\
  nearest AFill (x :: a) = None /\ nearest AFill (x' :: a') = Some gd_blue.
Proof.
  do 5 eexists. split; [vm_compute; reflexivity|]. split; [split; [cbn; repeat constructor; cbn; intuition discriminate|cbn; contradiction]|]. split; [cbn; do 4 right; left; reflexivity|]. split; [cbn; do 4 right; left; reflexivity|]. repeat split.
Qed.
(** A gradient loses the [color] that its stops refer to by currentColor: *)
Definition gd_color : tree := doc [el 1 ESvg [] [el 2 EG [at_ AColor gd_red] [eli 4 ELinearGradient "l" [] [el 5 EStop [at_ AStopColor (VPre Vid_currentColor)] []]]]].
Theorem C13_current_color_refuted : exists t' a x a' x', group_defs gd_color = Ok t' /\ WF gd_color /\
  In (a, x) (ctx [] gd_color) /\ In (a', x') (ctx [] t') /\ same_node x x' /\ tag x = TEl EStop /\
  nearest AColor (x :: a) = Some gd_red /\ nearest AColor (x' :: a') = None.
Proof.
  do 5 eexists. split; [vm_compute; reflexivity|]. split; [split; [cbn; repeat constructor; cbn; intuition discriminate|cbn; contradiction]|]. split; [cbn; do 4 right; left; reflexivity|]. split; [cbn; do 4 right; left; reflexivity|]. repeat split.
Qed.
(** The content of a symbol inherits from the use element that refers to it (SVG 1.1, 5.6: the use
    element is the parent of the copy), but the pass writes the style of the symbol's own ancestors
    into the content: *)
Definition gd_symbol : tree := doc [el 1 ESvg [] [el 2 EDefs [] []; el 3 EG [at_ AFill gd_red] [eli 4 ESymbol "s" [] [el 5 ERect [] []]]; el 6 EUse [at_ AXlinkHref (VLink 4); at_ AFill gd_blue] []]].
Definition rendered (t : tree) (k use : nat) : option value :=
  match find_data k t, find (fun p => Nat.eqb (key (snd p)) use) (ctx [] t) with
  | Some x, Some (a, u) => nearest AFill (x :: u :: a)
  | _, _ => None
  end.
Theorem C13_symbol_refuted : exists t', WF gd_symbol /\ group_defs gd_symbol = Ok t' /\
  rendered gd_symbol 5 6 = Some gd_blue /\ rendered t' 5 6 = Some gd_red.
Proof.
  eexists. split; [split; [cbn; repeat constructor; cbn; intuition discriminate|cbn; intuition]|]. split; [vm_compute; reflexivity|]. split; vm_compute; reflexivity.
Qed.
Print Assumptions C13_structure.
Print Assumptions C13_style_partial.
