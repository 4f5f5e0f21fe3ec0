(** Replacing use elements keeps a document well-formed. *)
From Coq Require Import List Bool NArith Arith ZArith String Lia QArith Qcanon Permutation.
From Verif Require Import Names Num Value Dom DomFacts DomOps Outcome DomRemove VLoop SpecDom SpecText Visit APass Move MoveFacts RmUnusedDefs GroupDefs GroupDefsProofs Regroup ResolveUse SpecUse UseStep UseEnd TasksSimpleProofs WfAll WfPasses WfPasses2 WfStruct.
Import ListNotations.
Local Open Scope nat_scope.

Lemma detach_perm t s : NoDup (keys t) -> In s (subs t) -> root_key s <> root_key t -> Permutation (flat t) (flat s ++ flat (detach (root_key s) t)).
Proof.
  intros N Hs Nr. destruct (sub_place s t [] Hs) as (a & P). destruct (ctx_detach t s a [] N P Nr) as (pre & post & E1 & E2). rewrite <- (map_snd_ctx [] t), <- (map_snd_ctx a s), <- (map_snd_ctx [] (detach _ t)), E1, E2, !map_app. apply Permutation_app_swap_app.
Qed.
Lemma after_T u x d ch : insert_after u x (T d ch) = T d (flat_map (fun c => if Nat.eqb (root_key c) u then [c; x] else [insert_after u x c]) ch).
Proof. reflexivity. Qed.
Lemma after_out u x t : ~ In u (flat_map keys (kids t)) -> insert_after u x t = t.
Proof.
  induction t as [d ch IH] using tree_ind'. cbn [kids]. intros N. rewrite after_T. f_equal. rewrite Forall_forall in IH. apply Img.flat_map_one. intros c Hc. destruct (Nat.eqb_spec (root_key c) u) as [E|E].
  - exfalso. apply N. apply in_flat_map. exists c. split; [exact Hc|]. rewrite keys_kids. now left.
  - f_equal. apply IH; [exact Hc|]. intros X. apply N. apply in_flat_map. exists c. split; [exact Hc|]. rewrite keys_kids. now right.
Qed.
Lemma after_perm u x t : NoDup (keys t) -> In u (keys t) -> u <> root_key t -> Permutation (flat (insert_after u x t)) (flat x ++ flat t).
Proof.
  induction t as [d ch IH] using tree_ind'. intros N Hu Nr. rewrite keys_cons in N, Hu. destruct Hu as [Hu|Hu]; [contradiction Nr; symmetry; exact Hu|]. apply in_flat_map in Hu. destruct Hu as (c & Hc & Hu). inversion N as [|? ? N1 N2]; subst. rewrite Forall_forall in IH. specialize (IH c Hc (child_NoDup c ch Hc N2)). apply in_split in Hc. destruct Hc as (l & r & ->).
  rewrite flat_map_app in N2. cbn [flat_map] in N2. apply NoDup_app_inv in N2. destruct N2 as (_ & N3 & N4). apply NoDup_app_inv in N3. destruct N3 as (_ & _ & N5).
  assert (O : forall y, In y l \/ In y r -> (if Nat.eqb (root_key y) u then [y; x] else [insert_after u x y]) = [y]).
  { intros y Hy. assert (Q : ~ In u (keys y)). { intros Z. destruct Hy as [Hy|Hy]; [apply (N4 u); [apply in_flat_map; eauto|apply in_or_app; auto]|apply (N5 u); [exact Hu|apply in_flat_map; eauto]]. }
    rewrite keys_kids in Q. destruct (Nat.eqb_spec (root_key y) u) as [E|E]; [contradiction Q; now left|]. f_equal. apply after_out. intros Z. apply Q. now right. }
  rewrite after_T. cbn [flat]. rewrite flat_map_app. cbn [flat_map]. rewrite (Img.flat_map_one _ l) by (intros y Hy; apply O; auto). rewrite (Img.flat_map_one _ r) by (intros y Hy; apply O; auto).
  rewrite !flat_map_app. cbn [flat_map]. eapply Permutation_trans; [|apply Permutation_middle]. apply perm_skip. eapply Permutation_trans; [|apply Permutation_app_swap_app]. apply Permutation_app_head. rewrite app_assoc. apply Permutation_app_tail.
  destruct (Nat.eqb_spec (root_key c) u) as [E|E]; cbn [flat_map]; rewrite app_nil_r; [apply Permutation_app_comm|]. apply IH; [exact Hu|congruence].
Qed.
(** Where the subtrees of the new document come from. *)
Lemma after_subs u x t s : In s (subs (insert_after u x t)) -> In s (subs x) \/ exists s0, In s0 (subs t) /\ s = insert_after u x s0 \/ In s (subs t).
Proof.
  induction t as [d ch IH] using tree_ind'. rewrite after_T. rewrite Forall_forall in IH. intros [<-|H]; [right; exists (T d ch); left; split; [apply subs_self|reflexivity]|]. apply in_flat_map in H. destruct H as (y & Hy & H). apply in_flat_map in Hy. destruct Hy as (c & Hc & Hy).
  destruct (Nat.eqb (root_key c) u).
  - destruct Hy as [<-|[<-|[]]]; [|now left]. right. exists s. right. right. apply in_flat_map. eauto.
  - destruct Hy as [<-|[]]. destruct (IH c Hc H) as [Q|(s0 & [[Q ->]|Q])]; [now left|right; exists s0; left; split; [right; apply in_flat_map; eauto|reflexivity]|right; exists s; right; right; apply in_flat_map; eauto].
Qed.
Lemma root_after u x t : root_key (insert_after u x t) = root_key t. Proof. destruct t; reflexivity. Qed.
Lemma after_keys u x t k : In k (keys (insert_after u x t)) -> In k (keys t) \/ In u (keys t) /\ In k (keys x).
Proof.
  induction t as [d ch IH] using tree_ind'. rewrite after_T, !keys_cons. rewrite Forall_forall in IH. intros [<-|H]; [left; now left|]. apply in_flat_map in H. destruct H as (y & Hy & H). apply in_flat_map in Hy. destruct Hy as (c & Hc & Hy).
  destruct (Nat.eqb_spec (root_key c) u) as [E|E].
  - destruct Hy as [<-|[<-|[]]]; [left; right; apply in_flat_map; eauto|]. right. split; [|exact H]. right. apply in_flat_map. exists c. split; [exact Hc|]. rewrite keys_kids. left. exact E.
  - destruct Hy as [<-|[]]. destruct (IH c Hc H) as [Q|[Q1 Q2]]; [left; right; apply in_flat_map; eauto|right]. split; [right; apply in_flat_map; eauto|exact Q2].
Qed.
Lemma detach_subs k t s : In s (subs (detach k t)) -> exists s0, In s0 (subs t) /\ s = detach k s0.
Proof.
  induction t as [d ch IH] using tree_ind'. rewrite detach_T. rewrite Forall_forall in IH. intros [<-|H]; [exists (T d ch); split; [apply subs_self|reflexivity]|]. apply in_flat_map in H. destruct H as (y & Hy & H). apply in_flat_map in Hy. destruct Hy as (c & Hc & Hy). destruct (Nat.eqb _ _); [destruct Hy|]. destruct Hy as [<-|[]].
  destruct (IH c Hc H) as (s0 & Q & ->). exists s0. split; [right; apply in_flat_map; eauto|reflexivity].
Qed.
Lemma detach_incl k t : incl (keys (detach k t)) (keys t).
Proof.
  induction t as [d ch IH] using tree_ind'. rewrite detach_T. rewrite Forall_forall in IH. intros j. rewrite !keys_cons. intros [<-|H]; [now left|right]. apply in_flat_map in H. destruct H as (y & Hy & H). apply in_flat_map in Hy. destruct Hy as (c & Hc & Hy). destruct (Nat.eqb _ _); [destruct Hy|]. destruct Hy as [<-|[]].
  apply in_flat_map. exists c. split; [exact Hc|]. now apply (IH c Hc).
Qed.

(** What is inside of what, by keys. *)
Definition inside (t : tree) (j k : nat) : Prop := exists s, In s (subs t) /\ root_key s = k /\ In j (keys s).
Lemma inside_tmap f t j k : (forall d, key (f d) = key d) -> inside (tmap f t) j k -> inside t j k.
Proof.
  intros K (s & Hs & Ks & Hj). rewrite subs_tmap in Hs. apply in_map_iff in Hs. destruct Hs as (s0 & <- & Hs). exists s0. split; [exact Hs|]. rewrite keys_tmap in Hj by exact K. split; [|exact Hj]. unfold root_key in *. rewrite data_tmap, K in Ks. exact Ks.
Qed.
Lemma inside_detach i t j k : inside (detach i t) j k -> inside t j k.
Proof.
  intros (s & Hs & Ks & Hj). apply detach_subs in Hs. destruct Hs as (s0 & Hs & ->). exists s0. split; [exact Hs|]. rewrite root_detach in Ks. split; [exact Ks|]. now apply detach_incl in Hj.
Qed.
Lemma inside_remove i t j k : inside (remove i t) j k -> inside t j k.
Proof. unfold remove. intros H. apply inside_detach in H. rewrite unlink_eq in H. now apply inside_tmap in H. Qed.
Lemma inside_after u x t j k : inside (insert_after u x t) j k -> inside t j k \/ inside x j k \/ (inside t u k /\ In j (keys x)).
Proof.
  intros (s & Hs & Ks & Hj). apply after_subs in Hs. destruct Hs as [Hs|(s0 & [[Hs ->]|Hs])]; [right; left; exists s; auto| |left; exists s; auto]. rewrite root_after in Ks. apply after_keys in Hj. destruct Hj as [Hj|[H1 H2]]; [left; exists s0; auto|right; right]. split; [exists s0; auto|exact H2].
Qed.

(** ** One step *)
Lemma ext_put_all L d l d0 : (forall x k, In x l -> link_of (a_val x) = Some k -> In k L) -> ext L d0 d -> ext L d0 (with_attrs d (fold_left put_attr l (attrs d))).
Proof.
  intros H. revert d. induction l as [|x l IH]; intros d E; [destruct d; exact E|]. cbn [fold_left]. apply (IH (fun y k Hy => H y k (or_intror Hy)) (with_attrs d (put_attr (attrs d) x))). refine (ext_trans _ _ _ _ E _). apply ext_put_attr. intros k X. apply in_or_app. right. exact (H x k (or_introl eq_refl) X).
Qed.
Lemma shift_ext L d d' : shift_use d = Some d' -> ext L d d'.
Proof.
  unfold shift_use. destruct (_ || _); [|intros E; injection E as <-; apply ext_refl]. destruct (_ && _); [|discriminate]. intros E. injection E as <-. eapply ext_trans; [|apply ext_rm]. eapply ext_trans; [|apply ext_rm]. now apply fine_set_value.
Qed.
Lemma fine_resolve_one t u k t' : fine t -> u <> root_key t -> k <> root_key t -> ~ inside t u k -> resolve_one t (u, k) = Ok t' ->
  fine t' /\ root_key t' = root_key t /\ forall a b, inside t' a b -> inside t a b \/ (inside t u b /\ inside t a k).
Proof.
  intros F Nu Nk NI E. unfold resolve_one in E. set (t1 := upd u (fun d => d_rm d AXlinkHref) t) in E.
  assert (K1 : forall d, key (if Nat.eqb (key d) u then d_rm d AXlinkHref else d) = key d) by (intros d; now destruct (Nat.eqb _ _)).
  assert (F1 : fine t1) by (apply fine_upd; [exact F|]; intros d _ _; apply ext_rm). assert (R1 : root_key t1 = root_key t) by (unfold t1, upd, root_key; rewrite data_tmap; apply K1).
  assert (I1 : forall a b, inside t1 a b -> inside t a b) by (intros a b; apply inside_tmap, K1).
  destruct (find_data u t1) as [du|] eqn:Du; [|injection E as <-; auto]. destruct (find_sub k t1) as [l|] eqn:El; [|injection E as <-; auto]. destruct (shift_use du) as [du'|] eqn:Sh; [|injection E as <-; auto]. destruct (forallb _ _); [|discriminate]. injection E as <-.
  apply find_data_some in Du. destruct Du as [Hdu Kdu]. apply find_sub_some in El. destruct El as [Hl Kl]. pose proof (wf_keys _ (fine_wf _ F1)) as N1.
  set (x := T _ (kids l)). assert (Kx : keys x = keys l) by (rewrite !keys_kids; reflexivity).
  assert (Ul : ~ In u (keys l)). { intros X. apply NI, I1. exists l. auto. }
  assert (X : ext (keys t1) (data l) (data x)).
  { apply ext_put_all; [|apply ext_refl]. intros a j Ha Q. apply (wf_links _ (fine_wf _ F1)). apply (node_links_in t1 du); [exact Hdu|]. pose proof (proj2 (proj2 (proj2 (shift_ext [] du du' Sh)))) as I. assert (Z : In j (node_links du ++ [])) by (apply I; exact (link_in du' a j Ha Q)). now rewrite app_nil_r in Z. }
  assert (Pd : Permutation (flat t1) (flat l ++ flat (detach k t1))) by (rewrite <- Kl; apply detach_perm; [exact N1|exact Hl|congruence]).
  assert (Ud : In u (keys (detach k t1))). { assert (Q : In u (keys t1)) by (rewrite <- Kdu; now apply in_map). unfold keys in Q. apply (Permutation_in u (Permutation_map key Pd)) in Q. rewrite map_app in Q. apply in_app_or in Q. destruct Q as [Q|Q]; [contradiction|exact Q]. }
  assert (Nd : NoDup (keys (detach k t1))). { unfold keys. pose proof (Permutation_NoDup (Permutation_map key Pd) N1) as Q. rewrite map_app in Q. apply NoDup_app_inv in Q. apply Q. }
  assert (Pa : Permutation (flat (insert_after u x (detach k t1))) (flat x ++ flat (detach k t1))) by (apply after_perm; [exact Nd|exact Ud|rewrite root_detach; congruence]).
  assert (F2 : fine (insert_after u x (detach k t1))).
  { destruct F1 as [[_ W] A R]. assert (Ke : Permutation (keys t1) (keys (insert_after u x (detach k t1)))).
    { unfold keys. eapply Permutation_trans; [exact (Permutation_map key Pd)|]. eapply Permutation_trans; [|exact (Permutation_map key (Permutation_sym Pa))]. rewrite !map_app. fold (keys l). fold (keys x). rewrite Kx. apply Permutation_refl. }
    assert (B : forall d', In d' (flat (insert_after u x (detach k t1))) -> exists d, In d (flat t1) /\ ext (keys t1) d d').
    { intros d' Hd'. apply (Permutation_in d' Pa), in_app_or in Hd'. destruct Hd' as [[<-|Hd']|Hd'].
      - exists (data l). split; [now apply data_of_sub|exact X].
      - exists d'. split; [|apply ext_refl]. apply (Permutation_in d' (Permutation_sym Pd)), in_or_app. left. destruct l. right. exact Hd'.
      - exists d'. split; [|apply ext_refl]. apply (Permutation_in d' (Permutation_sym Pd)), in_or_app. now right. }
    split; [split| |].
    - exact (Permutation_NoDup Ke N1).
    - intros j Hj. apply (Permutation_in j Ke). rewrite targets_flat in Hj. apply in_flat_map in Hj. destruct Hj as (d' & Hd' & Hj). destruct (B d' Hd') as (d & Hd & Xd). apply Xd, in_app_or in Hj. destruct Hj as [Hj|Hj]; [|exact Hj]. apply W. exact (node_links_in t1 d j Hd Hj).
    - apply Forall_forall. intros d' Hd'. destruct (B d' Hd') as (d & Hd & Xd). apply Xd. exact (proj1 (Forall_forall _ _) A d Hd).
    - replace (data (insert_after u x (detach k t1))) with (data t1) by (destruct t1; reflexivity). exact R. }
  split; [now apply fine_remove|]. split.
  - unfold remove. rewrite root_detach, unlink_eq. unfold root_key at 1. rewrite data_tmap. change (root_key (insert_after u x (detach k t1)) = root_key t). now rewrite root_after, root_detach.
  - intros a b H. apply inside_remove, inside_after in H. destruct H as [H|[H|[H1 H2]]].
    + left. now apply inside_detach, I1 in H.
    + left. apply I1. destruct H as (s & Hs & Ks & Ha). destruct Hs as [<-|Hs].
      * exists l. split; [exact Hl|]. rewrite <- Kx. split; [|exact Ha]. rewrite <- Ks. change (root_key x) with (key (with_attrs (data l) (fold_left put_attr (attrs du') (attrs (data l))))). reflexivity.
      * exists s. split; [|auto]. apply (subs_trans t1 l); [exact Hl|]. apply in_kids_subs. exact Hs.
    + right. apply inside_detach, I1 in H1. split; [exact H1|]. apply I1. exists l. rewrite Kx in H2. auto.
Qed.
Lemma fine_resolve_pairs rank : forall ps t t', fine t -> (forall u k, In (u, k) ps -> u <> root_key t /\ k <> root_key t) ->
  (forall u k u' k', In (u, k) ps -> In (u', k') ps -> inside t u' k -> rank k' < rank k) ->
  fold_left (fun r p => match r with Ok t' => resolve_one t' p | _ => r end) ps (Ok t) = Ok t' -> fine t'.
Proof.
  induction ps as [|[u k] ps IH]; intros t t' F Nr Rk E; [injection E as <-; exact F|]. cbn [fold_left] in E. destruct (resolve_one t (u, k)) as [t1| |] eqn:E1.
  - destruct (Nr u k (or_introl eq_refl)) as [Nu Nk]. destruct (fine_resolve_one t u k t1 F Nu Nk) as (F1 & R1 & I1); [|exact E1|].
    + intros X. pose proof (Rk u k u k (or_introl eq_refl) (or_introl eq_refl) X). lia.
    + refine (IH t1 t' F1 _ _ E).
      * intros a b H. rewrite R1. apply Nr. now right.
      * intros a b a' b' H H' X. destruct (I1 _ _ X) as [Y|[Y Z]]; [exact (Rk a b a' b' (or_intror H) (or_intror H') Y)|]. pose proof (Rk a b u k (or_intror H) (or_introl eq_refl) Y). pose proof (Rk u k a' b' (or_introl eq_refl) (or_intror H') Z). lia.
  - exfalso. clear - E. induction ps as [|p ps IH]; [discriminate|]. exact (IH E).
  - exfalso. clear - E. induction ps as [|p ps IH]; [discriminate|]. exact (IH E).
Qed.
Lemma fine_resolve_use t t' : fine t -> no_recursion t -> resolve_use t = Ok t' -> fine t'.
Proof.
  intros F (rank & Rec) E. pose proof (fine_wf t F) as W. pose proof (fine_wfa t F) as A. pose proof (wf_keys t W) as N. refine (fine_resolve_pairs rank (use_pairs t) t t' F _ _ E).
  - intros u k H. apply in_pairs in H. destruct H as (U & HU & <- & Q). destruct (target_sound t U k W A HU Q) as (L & <- & R). split.
    + intros X. assert (U = t) by (apply (sub_unique t); auto using subs_self). subst U. pose proof (proj2 (r_use _ _ _ R)) as Y. rewrite (fine_root t F) in Y. discriminate.
    + intros X. destruct (r_defs _ _ _ R) as (p & a & P & _). assert (L = t) by (apply (sub_unique t); auto using subs_self; apply (r_link _ _ _ R)). subst L.
      assert (P0 : In ([], t) (places [] t)) by (destruct t; now left). pose proof (place_unique t [] (p :: a, t) ([], t) N P P0 eq_refl) as Z. discriminate.
  - intros u k u' k' H H' (s & Hs & Ks & K). apply in_pairs in H, H'. destruct H as (U & HU & <- & Q), H' as (U' & HU' & <- & Q'). destruct (target_sound t U k W A HU Q) as (L & <- & R). destruct (target_sound t U' k' W A HU' Q') as (L' & <- & R').
    assert (s = L) by (apply (sub_unique t); auto; apply (r_link _ _ _ R)). subst s. apply (Rec U L U' L' R R'). apply sub_of_key in K. destruct K as (x & Hx & Ex). assert (x = U') by (apply (sub_unique t); auto; exact (subs_trans t L x Hs Hx)). now subst.
Qed.
