(** Merging gradients: the rounds together. *)
From Coq Require Import List Bool NArith Arith ZArith String Lia Permutation.
From Verif Require Import Names Num Value Dom DomFacts DomOps DomRemove Outcome APass SpecDom SpecText Visit Move MoveFacts GroupDefsProofs GradUnits SpecGradients SpecWritten GradProofs GradTransProofs GradUnitsProofs SpecDupl DuplProofs Graft MergeGradients SpecMerge MergeProofs.
Import ListNotations.
Local Open Scope nat_scope.

(** [t'] comes from [t]; the gradients [D] of [t'] are merged but still there. *)
Record rel (t t' : tree) (D : list nat) : Prop := {
  rl_outs : outs [] t' = outs [] t;
  rl_grads : forall a s', In (a, s') (gpl [] t') -> exists s, In (a, s) (gpl [] t) /\ relaxed (data s) (data s');
  rl_inner : forall s' d, In s' (gsubs t') -> In d (flat_map flat (kids s')) -> exists s, In s (gsubs t) /\ In d (flat_map flat (kids s));
  rl_gone : forall d, In d (flat t) -> gradient_node d -> ~ In (key d) (keys t') \/ In (key d) D -> used_once t (key d);
  rl_refs : forall u k, In u (flat t) -> refers_to u k -> In k (keys t') -> ~ In k D -> exists u', In u' (flat t') /\ key u' = key u /\ refers_to u' k;
  rl_paint : forall d, In d (flat t') -> gradient_node d -> ~ In (key d) D -> same_paint (written t) (key d) (written t') (key d)
}.
Lemma rel_node t t' D d' : rel t t' D -> In d' (flat t') -> exists d, In d (flat t) /\ relaxed d d'.
Proof.
  intros R H. apply in_flat_parts in H. destruct H as [(a & H)|(s' & Hs' & H)].
  - rewrite (rl_outs _ _ _ R) in H. exists d'. split; [apply in_flat_parts; left; eauto|apply relaxed_refl].
  - destruct s' as [x ch] eqn:E. destruct H as [<-|H].
    + apply gpl_gsubs in Hs'. destruct Hs' as (a & Hs'). destruct (rl_grads _ _ _ R _ _ Hs') as (s & Hs & X). exists (data s). split; [|exact X]. apply gsub_flat. apply gpl_gsubs. eauto.
    + destruct (rl_inner _ _ _ R _ d' Hs' H) as (s & Hs & X). exists d'. split; [|apply relaxed_refl]. apply in_flat_parts. right. exists s. split; [exact Hs|]. destruct s. right. exact X.
Qed.
Lemma rel_keys t t' D k : rel t t' D -> In k (keys t') -> In k (keys t).
Proof. intros R H. apply in_map_iff in H. destruct H as (d' & <- & H). destruct (rel_node _ _ _ _ R H) as (d & Hd & X). destruct X as [-> _]. now apply in_map. Qed.
Lemma rel_refl t : rel t t [].
Proof.
  constructor; auto.
  - intros a s H. exists s. split; [exact H|apply relaxed_refl].
  - intros s d Hs Hd. eauto.
  - intros d Hd _ [H|[]]. exfalso. apply H. now apply in_map.
  - intros u k H R _ _. eauto.
  - intros d H _ _. exact (same_paint_refl (written t) (vis d) (in_w t d H)).
Qed.
Lemma relaxed_dget d d' a v : attrs_nodup d -> relaxed d d' -> d_get d' a = Some v -> d_get d a = Some v.
Proof.
  intros N (_ & _ & _ & R & _) H. rewrite dget_attr in *. destruct (get_attr (attrs d') a) as [x'|] eqn:E; [|discriminate]. destruct (get_attr_some _ _ _ E) as [Hx Nx]. destruct (R x' Hx) as (x & Hx0 & E1 & E2 & _).
  rewrite (get_attr_in _ x a N Hx0) by congruence. cbn in *. congruence.
Qed.
Lemma rel_once t t' D k : mready t -> NoDup (keys t') -> rel t t' D -> In k (keys t') -> ~ In k D -> used_once t' k -> used_once t k.
Proof.
  intros M N' R Hk ND (u' & Hu & G & F & Q). destruct (rel_node _ _ _ _ R Hu) as (u & Hu0 & X). exists u. split; [exact Hu0|]. split; [now apply (relaxed_grad u u')|]. split; [apply (relaxed_dget u u'); [exact (proj1 (Forall_forall _ _) (m_wfa _ M) u Hu0)|exact X|exact F]|].
  intros x Hx Rx. destruct (rl_refs _ _ _ R x k Hx Rx Hk ND) as (x' & Hx' & Kx & Rx'). rewrite (Q x' Hx' Rx') in Kx. apply (data_unique t); [exact (wf_keys _ (m_wf _ M))|exact Hx|exact Hu0|]. destruct X as [X _]. congruence.
Qed.
Lemma rel_trans t t1 t2 D1 D2 : mready t -> mready t1 -> rel t t1 D1 -> rel t1 t2 D2 -> rel t t2 (D1 ++ D2).
Proof.
  intros M M1 A B. pose proof (wf_keys _ (m_wf _ M1)) as N1. constructor.
  - rewrite (rl_outs _ _ _ B). apply (rl_outs _ _ _ A).
  - intros a s2 H. destruct (rl_grads _ _ _ B _ _ H) as (s1 & H1 & X1). destruct (rl_grads _ _ _ A _ _ H1) as (s & Hs & X). exists s. split; [exact Hs|]. exact (relaxed_trans _ _ _ X X1).
  - intros s2 d H2 Hd. destruct (rl_inner _ _ _ B _ _ H2 Hd) as (s1 & H1 & Hd1). exact (rl_inner _ _ _ A _ _ H1 Hd1).
  - intros d Hd G H. destruct (in_dec Nat.eq_dec (key d) (keys t1)) as [K|K]; [|apply (rl_gone _ _ _ A d Hd G); now left]. destruct (in_dec Nat.eq_dec (key d) D1) as [E|E]; [apply (rl_gone _ _ _ A d Hd G); now right|].
    apply (rel_once t t1 D1 (key d) M N1 A K E). apply in_map_iff in K. destruct K as (d1 & K & Hd1). rewrite <- K in *. destruct (rel_node _ _ _ _ A Hd1) as (d0 & Hd0 & X). assert (d0 = d) by (apply (data_unique t); [exact (wf_keys _ (m_wf _ M))|exact Hd0|exact Hd|destruct X; congruence]). subst d0.
    apply (rl_gone _ _ _ B d1 Hd1); [now apply (relaxed_grad d d1)|]. destruct H as [H|H]; [now left|right]. apply in_app_iff in H. now destruct H.
  - intros u k Hu R K E. assert (K1 : In k (keys t1)) by (exact (rel_keys _ _ _ _ B K)). destruct (rl_refs _ _ _ A u k Hu R K1) as (u1 & Hu1 & E1 & R1); [intros X; apply E, in_app_iff; now left|].
    destruct (rl_refs _ _ _ B u1 k Hu1 R1 K) as (u2 & Hu2 & E2 & R2); [intros X; apply E, in_app_iff; now right|]. exists u2. split; [exact Hu2|]. split; [congruence|exact R2].
  - intros d Hd G E. destruct (rel_node _ _ _ _ B Hd) as (d1 & Hd1 & X). assert (Ek : key d = key d1) by (destruct X; congruence). apply (same_paint_trans (written t) (key d) (written t1) (key d)); [unfold written; rewrite keys_tmap; [exact N1|reflexivity]| |].
    + rewrite Ek in *. apply (rl_paint _ _ _ A d1 Hd1); [now apply (relaxed_grad d1 d)|]. intros Y. apply E, in_app_iff. now left.
    + apply (rl_paint _ _ _ B d Hd G). intros Y. apply E, in_app_iff. now right.
Qed.
Lemma rel_step t sN sL : mready t -> In sN (gsubs t) -> In sL (gsubs t) -> d_get (data sN) AXlinkHref = Some (VLink (root_key sL)) -> d_get (data sL) AXlinkHref = None -> uses_count (root_key sL) t = 1 ->
  rel t (t1 t sN sL) [root_key sL].
Proof.
  intros M HN HL F FL O. pose proof (wf_keys _ (m_wf _ M)) as N. constructor.
  - unfold t1. apply outs_rg. apply gN_grad.
  - intros a s' H. unfold t1 in H. rewrite gpl_rg in H by apply gN_grad. apply in_map_iff in H. destruct H as ([b s] & E & H). cbn in E. inversion E; subst. exists s. split; [exact H|]. rewrite gN_data. unfold fN. destruct Nat.eqb; [apply take_relaxed|apply relaxed_refl].
  - intros s' d H Hd. exact (inner_t1 t sN sL HL s' d H Hd).
  - intros d Hd G [H|[H|[]]]; [exfalso; apply H; apply (Permutation_in _ (Permutation_sym (perm_keys t sN sL M HN HL F FL))); now apply in_map|]. rewrite <- H. destruct (gsub_flat t sN HN) as [A B]. exists (data sN). split; [exact A|]. split; [exact B|]. split; [exact F|]. intros x Hx R. exact (only_user t sN sL M HN F O x Hx R).
  - intros u k Hu R _ E. exists (fN sN sL u). split; [apply flat_t1; eauto|]. split; [apply fN_key|]. apply (refers_fN t sN sL M HN F); [exact Hu|exact R|]. intros ->. apply E. now left.
  - intros d' H G E. apply flat_t1 in H; try assumption. destruct H as (d & Hd & ->). rewrite fN_key in *. apply paint_step; try assumption; [now apply (fN_grad sN sL d)|]. intros X. apply E. now left.
Qed.
(** The merged gradients are not referenced and have no xlink:href. *)
Definition dead (t : tree) (D : list nat) : Prop := forall k, In k D -> (exists d, In d (flat t) /\ gradient_node d /\ key d = k /\ d_get d AXlinkHref = None) /\ forall x, In x (flat t) -> ~ refers_to x k.
Lemma rel_remove t t1 D : mready t -> mready t1 -> rel t t1 D -> dead t1 D -> rel t (remove_nodes D t1) [] /\ mready (remove_nodes D t1) /\ (D <> [] -> List.length (gsubs (remove_nodes D t1)) < List.length (gsubs t1)).
Proof.
  intros M M1 A DD. pose proof (wf_keys _ (m_wf _ M1)) as N1. assert (HD : forall k, In k D -> (exists d, In d (flat t1) /\ gradient_node d /\ key d = k) /\ forall x, In x (flat t1) -> ~ refers_to x k).
  { intros k Hk. destruct (DD k Hk) as ((d & X1 & X2 & X3 & _) & Y). split; [exists d; auto|exact Y]. }
  rewrite (removed t1 D M1 HD). split; [|split; [exact (mready2 t1 D M1 HD)|exact (fewer t1 D M1 HD)]].
  assert (NH : forall k, In k D -> forall d, In d (flat t1) -> key d = k -> d_get d AXlinkHref = None).
  { intros k Hk d Hd E. destruct (DD k Hk) as ((x & X1 & X2 & X3 & X4) & _). assert (d = x) by (apply (data_unique t1); [exact N1|exact Hd|exact X1|congruence]). now subst d. }
  constructor.
  - rewrite (outs2 t1 D M1 HD). apply (rl_outs _ _ _ A).
  - intros a s' H. apply (gpl2 t1 D M1 HD) in H. exact (rl_grads _ _ _ A a s' H).
  - intros s' d Hs Hd. apply (gs2_in t1 D M1 HD) in Hs. exact (rl_inner _ _ _ A s' d (proj1 Hs) Hd).
  - intros d Hd G [H|[]]. apply (rl_gone _ _ _ A d Hd G). destruct (in_dec Nat.eq_dec (key d) (keys t1)) as [K|K]; [|now left]. right. apply in_map_iff in K. destruct K as (d1 & K & Hd1). destruct (in_dec Nat.eq_dec (key d) D) as [E|E]; [exact E|exfalso]. apply H. rewrite <- K. apply in_map.
    destruct (rel_node _ _ _ _ A Hd1) as (d0 & Hd0 & X). assert (d0 = d) by (apply (data_unique t); [exact (wf_keys _ (m_wf _ M))|exact Hd0|exact Hd|destruct X; congruence]). subst d0. apply (flat2_grad t1 D M1 HD d1 Hd1); [now apply (relaxed_grad d d1)|congruence].
  - intros u k Hu R K _. assert (Kn : In k (keys t1) /\ ~ In k D).
    { apply in_map_iff in K. destruct K as (y & Ky & Hy). pose proof (flat2 t1 D M1 HD y Hy) as Hy1. split; [rewrite <- Ky; now apply in_map|]. intros E. destruct (HD k E) as ((z & Hz & Gz & Kz) & _). assert (y = z) by (apply (data_unique t1); [exact N1|exact Hy1|exact Hz|congruence]). subst z. apply (flat2_grad t1 D M1 HD y Hy1 Gz) in Hy. now rewrite Ky in Hy. }
    destruct Kn as [K1 KD]. destruct (rl_refs _ _ _ A u k Hu R K1 KD) as (u1 & Hu1 & E1 & R1). exists u1. split; [|auto].
    destruct (flat2_keep t1 D u1 Hu1) as [Q|[(s & Hs & E & Q)|(s & Hs & E & Q)]].
    + apply in_flat_parts. left. now rewrite (outs2 t1 D M1 HD).
    + apply in_flat_parts. right. exists s. split; [now apply (gs2_in t1 D M1 HD)|exact Q].
    + exfalso. destruct s as [x ch]. destruct Q as [Q|Q].
      * subst x. assert (G : gradient_node u1) by (apply (gsub_flat t1 (T u1 ch) Hs)). pose proof (ref_is_href t1 u1 k M1 Hu1 G R1) as F. rewrite (NH (key u1) E u1 Hu1 eq_refl) in F. discriminate.
      * destruct (inner_quiet t1 (T x ch) u1 M1 Hs Q) as [Y _]. exact (Y k R1).
  - intros d Hd G _. pose proof (flat2 t1 D M1 HD d Hd) as Hd1. pose proof (proj1 (flat2_grad t1 D M1 HD d Hd1 G) Hd) as E. apply (same_paint_trans (written t) (key d) (written t1) (key d)); [unfold written; rewrite keys_tmap; [exact N1|reflexivity]|exact (rl_paint _ _ _ A d Hd1 G E)|exact (paint2 t1 D M1 HD d Hd1 G E)].
Qed.
Definition ok (t : tree) (st : tree * list nat) : Prop := mready (fst st) /\ rel t (fst st) (snd st) /\ dead (fst st) (snd st) /\ List.length (gsubs (fst st)) = List.length (gsubs t) /\
  (forall x, In x (flat t) -> exists x', In x' (flat (fst st)) /\ key x' = key x /\ tag x' = tag x).
Lemma visit_ok t st k : mready t -> ok t st -> (exists d, In d (flat t) /\ gradient_node d /\ key d = k) -> ok t (merge_visit st k).
Proof.
  destruct st as [tc D]. intros M (Mc & Rc & Dc & Lc & Kc) (d0 & Hd0 & G0 & K0). cbn [fst snd] in *. pose proof (wf_keys _ (m_wf _ Mc)) as Nc.
  assert (Same : ok t (tc, D)) by (split; [exact Mc|]; split; [exact Rc|]; split; [exact Dc|]; split; [exact Lc|exact Kc]).
  destruct (Kc d0 Hd0) as (d & Hd & Kd & Td). assert (G : gradient_node d) by (exact (tag_grad _ _ Td G0)). destruct (flat_gsub tc d Mc Hd G) as (sN & HN & EN). assert (KN : root_key sN = k) by (unfold root_key; congruence).
  destruct (d_get (data sN) AXlinkHref) as [v|] eqn:F; [|unfold merge_visit; rewrite <- KN, (find_gsub tc Mc sN HN), F; exact Same].
  rewrite EN in F. destruct (href_target tc d v Mc Hd G F) as (y & Hy & Ey & Ty). subst v. destruct (flat_gsub tc y Mc Hy (tag_grad _ _ Ty G)) as (sL & HL & EL). assert (KL : root_key sL = key y) by (unfold root_key; congruence). rewrite <- EN in F. rewrite <- KL in F.
  destruct (Nat.eqb (uses_count (root_key sL) tc) 1 && negb (d_has (data sL) AXlinkHref)) eqn:C; [|unfold merge_visit; rewrite <- KN, (find_gsub tc Mc sN HN), F, (find_gsub tc Mc sL HL), C; exact Same].
  apply andb_true_iff in C. destruct C as [C1 C2]. apply Nat.eqb_eq in C1. apply negb_true_iff in C2. assert (FL : d_get (data sL) AXlinkHref = None) by (unfold d_has, has_attr in C2; unfold d_get, get_value; destruct (get_attr (attrs (data sL)) AXlinkHref); [discriminate|reflexivity]).
  rewrite <- KN, (visit_step tc sN sL Mc HN HL F FL C1). cbn [fst snd]. pose proof (mready_t1 tc sN sL Mc HN HL F FL C1) as M1. split; [exact M1|]. cbn [fst snd]. split; [exact (rel_trans t tc _ D _ M Mc Rc (rel_step tc sN sL Mc HN HL F FL C1))|]. split; [|split].
  - intros j Hj. apply in_app_iff in Hj. destruct Hj as [Hj|[<-|[]]].
    + destruct (Dc j Hj) as ((x & X1 & X2 & X3 & X4) & Y). split.
      * exists x. split; [|auto]. apply (flat_t1 tc sN sL Mc HN HL F FL). exists x. split; [exact X1|]. symmetry. apply fN_other. intros E. assert (x = data sN) by (apply (data_unique tc); [exact Nc|exact X1|apply gsub_flat, HN|exact E]). congruence.
      * intros x' Hx' R. apply (flat_t1 tc sN sL Mc HN HL F FL) in Hx'. destruct Hx' as (z & Hz & ->). apply (Y z Hz). exact (fN_refers tc sN sL Mc HN z j Hz R).
    + split.
      * destruct (gsub_flat tc sL HL) as [A B]. exists (data sL). split; [|auto]. apply (flat_t1 tc sN sL Mc HN HL F FL). exists (data sL). split; [exact A|]. symmetry. apply fN_other. intros E. apply (neNL tc sN sL Mc HN HL F FL). symmetry. exact E.
      * intros x' Hx' R. exact (dead_L tc sN sL Mc HN HL F FL C1 x' Hx' R).
  - unfold t1. rewrite gsubs_rg by apply gN_grad. now rewrite map_length.
  - intros x Hx. destruct (Kc x Hx) as (x' & Hx' & E1 & E2). exists (fN sN sL x'). split; [apply (flat_t1 tc sN sL Mc HN HL F FL); eauto|]. rewrite fN_key, fN_tag. auto.
Qed.
Lemma round_ok t : mready t -> ok t (merge_round t).
Proof.
  intros M. unfold merge_round. assert (I : forall l st, ok t st -> (forall k, In k l -> exists d, In d (flat t) /\ gradient_node d /\ key d = k) -> ok t (fold_left merge_visit l st)).
  { induction l as [|k l IH]; intros st H K; cbn; [exact H|]. apply IH; [apply visit_ok; [exact M|exact H|apply K; now left]|]. intros j Hj. apply K. now right. }
  apply I.
  - split; [exact M|]. cbn. split; [apply rel_refl|]. split; [intros k []|]. split; [reflexivity|]. intros x Hx. eauto.
  - intros k Hk. apply in_map_iff in Hk. destruct Hk as (d & <- & H). apply filter_In in H. destruct H as [H G]. exists d. split; [exact H|]. split; [now apply gradient_iff|reflexivity].
Qed.
Lemma merge_ends : forall n t, mready t -> List.length (gsubs t) < n -> exists t', merge_gradients n t = Some t' /\ mready t' /\ rel t t' [].
Proof.
  induction n as [|n IH]; intros t M L; [lia|]. cbn. pose proof (round_ok t M) as R. destruct (merge_round t) as [t1 D]. destruct R as (M1 & R1 & D1 & L1 & K1). cbn [fst snd] in *. destruct D as [|k D]; [exists t1; auto|].
  destruct (rel_remove t t1 (k :: D) M M1 R1 D1) as (R2 & M2 & W). assert (W' : List.length (gsubs (remove_nodes (k :: D) t1)) < n) by (specialize (W ltac:(discriminate)); lia). destruct (IH _ M2 W') as (t' & E & M' & R'). exists t'. split; [exact E|]. split; [exact M'|].
  exact (rel_trans t _ t' [] [] M M2 R2 R').
Qed.
Lemma rel_merges t t' : mready t -> mready t' -> rel t t' [] -> merges_grads t t'.
Proof.
  intros M M' R. pose proof (mready_unnested t M) as U. pose proof (mready_unnested t' M') as U'. constructor.
  - intros a d H. assert (Q : forall T, In (a, d) (ctx [] T) <-> In (a, d) (outs [] T)).
    { intros T. rewrite outs_ctx0. split; [|now intros [X _]]. intros X. split; [exact X|]. intros q Hq. apply not_true_is_false. intros E. apply H. exists q. split; [exact Hq|now apply gradient_iff]. }
    rewrite !Q, (rl_outs _ _ _ R). reflexivity.
  - intros a d' G H. apply (gpl_ctx t' a d' U') in H; [|now apply gradient_iff]. destruct H as (s' & Hs' & <-). destruct (rl_grads _ _ _ R _ _ Hs') as (s & Hs & X). exists (data s). split; [|exact X]. apply (gpl_ctx t a (data s) U); [apply gradient_iff; now apply (relaxed_grad (data s) (data s'))|]. eauto.
  - intros a d' (q & Hq & G) H. destruct (proj1 (inner_ctx t' d' U')) as (s' & Hs' & Hd'); [exists a, q; split; [exact H|]; split; [exact Hq|now apply gradient_iff]|]. destruct (rl_inner _ _ _ R _ _ Hs' Hd') as (s & Hs & Hd). destruct (proj2 (inner_ctx t d' U)) as (a0 & q0 & H0 & Hq0 & G0); [eauto|]. exists a0. split; [exact H0|]. exists q0. split; [exact Hq0|now apply gradient_iff].
  - intros d Hd G H. apply (rl_gone _ _ _ R d Hd G). now left.
  - intros d Hd G. apply (rl_paint _ _ _ R d Hd G). intros [].
Qed.
