(** Documents seen as a frame with gradients in it. *)
From Coq Require Import List Bool NArith Arith ZArith String Lia Permutation.
From Verif Require Import Names Num Value Dom DomFacts DomOps DomRemove Outcome APass SpecDom SpecText Visit Move MoveFacts GroupDefsProofs GradUnits SpecWritten GradUnitsProofs DuplProofs.
Import ListNotations.
Local Open Scope nat_scope.

Fixpoint gsubs (t : tree) : list tree := match t with T d ch => if is_gradient d then [t] else flat_map gsubs ch end.
Fixpoint outs (anc : list ndata) (t : tree) : list (list ndata * ndata) :=
  match t with T d ch => if is_gradient d then [] else (anc, d) :: flat_map (outs (d :: anc)) ch end.
(** Rewrite the outermost gradients. *)
Fixpoint rg (g : tree -> tree) (t : tree) : tree := match t with T d ch => if is_gradient d then g t else T d (map (rg g) ch) end.

Lemma flat_parts t : forall anc, Permutation (flat t) (map snd (outs anc t) ++ flat_map flat (gsubs t)).
Proof.
  induction t as [d ch IH] using tree_ind'. intros anc. cbn. destruct (is_gradient d); [cbn; now rewrite app_nil_r|]. cbn. constructor.
  induction ch as [|c ch IHc]; [constructor|]. inversion IH as [|? ? H1 H2]; subst. cbn. rewrite map_app, flat_map_app. rewrite (H1 (d :: anc)). rewrite (IHc H2). rewrite <- !app_assoc. apply Permutation_app_head. rewrite !app_assoc. apply Permutation_app_tail, Permutation_app_comm.
Qed.
Lemma in_flat_parts t d : In d (flat t) <-> (exists a, In (a, d) (outs [] t)) \/ exists s, In s (gsubs t) /\ In d (flat s).
Proof.
  assert (E : In d (flat t) <-> In d (map snd (outs [] t) ++ flat_map flat (gsubs t))) by (split; apply Permutation_in; [|apply Permutation_sym]; apply flat_parts).
  rewrite E, in_app_iff, in_map_iff, in_flat_map. split; intros [H|H]; [left|right; exact H|left|right; exact H].
  - destruct H as ([a x] & <- & H). eauto.
  - destruct H as (a & H). exists (a, d). auto.
Qed.
Lemma gsubs_subs t s : In s (gsubs t) -> In s (subs t) /\ is_gradient (data s) = true.
Proof.
  induction t as [d ch IH] using tree_ind'. cbn [gsubs]. destruct (is_gradient d) eqn:G.
  - intros [<-|[]]. split; [apply subs_self|exact G].
  - intros H. apply in_flat_map in H. destruct H as (c & Hc & H). rewrite Forall_forall in IH. destruct (IH c Hc H) as [A B]. split; [|exact B]. right. apply in_flat_map. eauto.
Qed.
Lemma outs_ctx t : forall a0 a d, In (a, d) (outs a0 t) <-> In (a, d) (ctx a0 t) /\ exists l, a = l ++ a0 /\ forall p, In p (d :: l) -> is_gradient p = false.
Proof.
  induction t as [d ch IH] using tree_ind'. intros a0 a x. cbn [outs ctx]. rewrite Forall_forall in IH. destruct (is_gradient d) eqn:G.
  - split; [intros []|]. intros [[E|H] (l & El & Q)].
    + inversion E; subst. rewrite (Q x (or_introl eq_refl)) in G. discriminate.
    + apply in_flat_map in H. destruct H as (c & Hc & H). destruct (ctx_shape c (d :: a0) _ H) as [X|(q & X)].
      * inversion X as [[Xa Xx]]. rewrite Xa in El. assert (l = [d]). { change (d :: a0) with ([d] ++ a0) in El. apply app_inv_tail in El. congruence. } subst l. rewrite (Q d) in G; [discriminate|right; now left].
      * cbn in X. rewrite X in El. change (q ++ data c :: d :: a0) with (q ++ ([data c; d] ++ a0)) in El. rewrite app_assoc in El. apply app_inv_tail in El. rewrite (Q d) in G; [discriminate|]. right. rewrite <- El. apply in_or_app. right. cbn. auto.
  - split.
    + intros [E|H]; [inversion E; subst; split; [now left|]; exists []; split; [reflexivity|]; intros p [<-|[]]; exact G|]. apply in_flat_map in H. destruct H as (c & Hc & H). apply (IH c Hc) in H. destruct H as (H & l & -> & Q). split; [right; apply in_flat_map; eauto|]. exists (l ++ [d]). split; [now rewrite <- app_assoc|]. intros p [<-|Hp]; [apply Q; now left|]. apply in_app_or in Hp. destruct Hp as [Hp|[<-|[]]]; [apply Q; now right|exact G].
    + intros [[E|H] (l & El & Q)]; [left; exact E|]. right. apply in_flat_map in H. destruct H as (c & Hc & H). apply in_flat_map. exists c. split; [exact Hc|]. apply (IH c Hc). split; [exact H|].
      destruct (ctx_shape c (d :: a0) _ H) as [X|(q & X)].
      * inversion X as [[Xa Xx]]. exists []. split; [reflexivity|]. rewrite <- Xx. intros p [<-|[]]. rewrite Xx. apply Q. now left.
      * cbn in X. exists (q ++ [data c]). split; [rewrite X, <- app_assoc; reflexivity|]. rewrite X in El. change (q ++ data c :: d :: a0) with (q ++ ([data c; d] ++ a0)) in El. rewrite app_assoc in El. apply app_inv_tail in El. intros p [<-|Hp]; [apply Q; now left|]. apply Q. right. rewrite <- El. apply in_app_or in Hp. apply in_or_app. destruct Hp as [Hp|[<-|[]]]; [now left|right; now left].
Qed.
Lemma outs_ctx0 t a d : In (a, d) (outs [] t) <-> In (a, d) (ctx [] t) /\ forall p, In p (d :: a) -> is_gradient p = false.
Proof. rewrite outs_ctx. split; intros [H Q]; (split; [exact H|]); [destruct Q as (l & -> & Q); rewrite app_nil_r; exact Q|exists a; split; [now rewrite app_nil_r|exact Q]]. Qed.
(** No gradient is inside another one. *)
Definition unnested (t : tree) : Prop := forall s d, In s (gsubs t) -> In d (flat_map flat (kids s)) -> is_gradient d = false.
Lemma unnested_ctx t : (forall a d p, In (a, d) (ctx [] t) -> In p a -> gradient_node p -> ~ gradient_node d) <-> unnested t.
Proof.
  split.
  - intros H s d Hs Hd. destruct (gsubs_subs t s Hs) as [Hs' G]. destruct (sub_place s t [] Hs') as (a & P). destruct s as [x ch]. apply in_flat_map in Hd. destruct Hd as (c & Hc & Hd). cbn in Hc. rewrite <- (map_snd_ctx (x :: a) c) in Hd. apply in_map_iff in Hd. destruct Hd as ([b y] & <- & Hy). cbn.
    destruct (is_gradient y) eqn:E; [|reflexivity]. exfalso. apply (H b y x); [apply (places_incl _ _ _ _ P); right; apply in_flat_map; exists c; auto| |now apply gradient_iff|now apply gradient_iff]. destruct (ctx_shape c (x :: a) _ Hy) as [Q|(q & Q)]; [inversion Q; now left|]. cbn in Q. rewrite Q. apply in_or_app. right. right. now left.
  - intros U a d p Hc Hp Gp Gd. assert (M : forall t a0, (forall s x, In s (gsubs t) -> In x (flat_map flat (kids s)) -> is_gradient x = false) -> In (a, d) (ctx a0 t) -> In p a -> In p a0 \/ False).
    { clear t U Hc Hp. induction t as [x ch IH] using tree_ind'. intros a0 U [E|H] Hp; [inversion E; subst; auto|]. apply in_flat_map in H. destruct H as (c & Hc & H). cbn in U. destruct (is_gradient x) eqn:G.
      - exfalso. apply gradient_iff in Gd. rewrite (U (T x ch) d (or_introl eq_refl)) in Gd; [discriminate|]. cbn. apply in_flat_map. exists c. split; [exact Hc|]. exact (ctx_in_flat c _ _ H).
      - rewrite Forall_forall in IH. destruct (IH c Hc (x :: a0)) as [[Q|Q]|[]]; [|exact H|exact Hp| |auto].
        + intros s y Hs. apply U. apply in_flat_map. eauto.
        + subst. apply gradient_iff in Gp. congruence. }
    destruct (M t [] U Hc Hp) as [[]|[]].
Qed.
Lemma grad_sub t s : unnested t -> In s (subs t) -> is_gradient (data s) = true -> In s (gsubs t).
Proof.
  induction t as [d ch IH] using tree_ind'. intros U Hs G. cbn [gsubs] in *. destruct (is_gradient d) eqn:Gd.
  - destruct Hs as [<-|Hs]; [now left|]. exfalso. unfold unnested in U. cbn [gsubs] in U. rewrite Gd in U. apply in_flat_map in Hs. destruct Hs as (c & Hc & Hs). rewrite (U (T d ch) (data s) (or_introl eq_refl)) in G; [discriminate|]. cbn. apply in_flat_map. exists c. split; [exact Hc|now apply data_of_sub].
  - destruct Hs as [<-|Hs]; [cbn in G; congruence|]. apply in_flat_map in Hs. destruct Hs as (c & Hc & Hs). apply in_flat_map. exists c. split; [exact Hc|]. rewrite Forall_forall in IH. apply IH; auto. intros s' x Hs'. apply U. cbn [gsubs]. rewrite Gd. apply in_flat_map. eauto.
Qed.
Lemma grad_sub_iff t s : unnested t -> (In s (gsubs t) <-> In s (subs t) /\ is_gradient (data s) = true).
Proof. intros U. split; [apply gsubs_subs|]. intros [A B]. now apply grad_sub. Qed.
(** Rewriting. *)
Lemma gsubs_rg g t : (forall s, In s (gsubs t) -> is_gradient (data (g s)) = true) -> gsubs (rg g t) = map g (gsubs t).
Proof.
  induction t as [d ch IH] using tree_ind'. cbn [rg gsubs]. destruct (is_gradient d) eqn:G; intros H.
  - specialize (H (T d ch) (or_introl eq_refl)). cbn. destruct (g (T d ch)) as [d' ch'] eqn:E. cbn in *. now rewrite H.
  - cbn [gsubs]. rewrite G. rewrite Forall_forall in IH. induction ch as [|c ch IHc]; [reflexivity|]. cbn. rewrite map_app. rewrite IH; [|now left|intros s Hs; apply H; cbn; apply in_or_app; now left]. f_equal. apply IHc; [intros x Hx; apply IH; now right|]. intros s Hs. apply H. cbn. apply in_or_app. now right.
Qed.
Lemma outs_rg g t : (forall s, In s (gsubs t) -> is_gradient (data (g s)) = true) -> forall anc, outs anc (rg g t) = outs anc t.
Proof.
  induction t as [d ch IH] using tree_ind'. intros H anc. cbn [rg gsubs outs] in *. destruct (is_gradient d) eqn:G.
  - specialize (H (T d ch) (or_introl eq_refl)). destruct (g (T d ch)) as [d' ch'] eqn:E. cbn in *. now rewrite H.
  - cbn [outs]. rewrite G. f_equal. rewrite Forall_forall in IH. induction ch as [|c ch IHc]; [reflexivity|]. cbn. rewrite IH; [|now left|intros s Hs; apply H; cbn; apply in_or_app; now left]. f_equal. apply IHc; [intros x Hx; apply IH; now right|]. intros s Hs. apply H. cbn. apply in_or_app. now right.
Qed.
Lemma rg_rg g h t : (forall s, In s (gsubs t) -> is_gradient (data (g s)) = true) -> rg h (rg g t) = rg (fun s => h (g s)) t.
Proof.
  induction t as [d ch IH] using tree_ind'. intros H. cbn [rg gsubs] in *. destruct (is_gradient d) eqn:G.
  - specialize (H (T d ch) (or_introl eq_refl)). destruct (g (T d ch)) as [d' ch'] eqn:E. cbn in *. now rewrite H.
  - cbn [rg]. rewrite G. f_equal. rewrite map_map. rewrite Forall_forall in IH. apply map_ext_in. intros c Hc. apply IH; [exact Hc|]. intros s Hs. apply H. apply in_flat_map. eauto.
Qed.
Lemma rg_ext g h t : (forall s, In s (gsubs t) -> g s = h s) -> rg g t = rg h t.
Proof.
  induction t as [d ch IH] using tree_ind'. intros H. cbn [rg gsubs] in *. destruct (is_gradient d) eqn:G; [apply H; now left|]. f_equal. rewrite Forall_forall in IH. apply map_ext_in. intros c Hc. apply IH; [exact Hc|]. intros s Hs. apply H. apply in_flat_map. eauto.
Qed.
Lemma rg_id t : rg (fun s => s) t = t.
Proof. induction t as [d ch IH] using tree_ind'. cbn. destruct (is_gradient d); [reflexivity|]. f_equal. rewrite <- (map_id ch) at 2. apply map_ext_in. intros c Hc. rewrite Forall_forall in IH. auto. Qed.
(** A node that is a gradient. *)
Definition grad_key (k : nat) (t : tree) : Prop := forall d, In d (flat t) -> key d = k -> is_gradient d = true.
Lemma inner_key k t s : unnested t -> grad_key k t -> In s (gsubs t) -> ~ In k (flat_map keys (kids s)).
Proof.
  intros U K Hs H. apply in_flat_map in H. destruct H as (c & Hc & H). apply in_map_iff in H. destruct H as (d & E & Hd). assert (X : is_gradient d = false) by (apply (U s d Hs); apply in_flat_map; eauto). rewrite (K d) in X; [discriminate| |exact E].
  destruct (gsubs_subs t s Hs) as [Hs' _]. rewrite <- map_data_subs. rewrite <- map_data_subs in Hd. apply in_map_iff in Hd. destruct Hd as (u & <- & Hu). apply in_map. apply (subs_trans t s u Hs'). apply in_kids_subs. apply in_flat_map. eauto.
Qed.
Lemma rg_set_kids k f t : unnested t -> grad_key k t -> set_kids k f t = rg (fun s => if Nat.eqb (root_key s) k then T (data s) (f (kids s)) else s) t.
Proof.
  induction t as [d ch IH] using tree_ind'. intros U K. cbn [set_kids rg]. destruct (is_gradient d) eqn:G.
  - unfold root_key. cbn [data kids]. destruct (Nat.eqb_spec (key d) k) as [E|E]; [reflexivity|]. f_equal. apply map_set_kids_out. apply (inner_key k (T d ch) (T d ch) U K). cbn. rewrite G. now left.
  - destruct (Nat.eqb_spec (key d) k) as [E|E]; [rewrite (K d) in G; [discriminate|now left|exact E]|]. f_equal. apply map_ext_in. intros c Hc. rewrite Forall_forall in IH. apply IH; [exact Hc| |].
    + intros s x Hs. apply U. cbn. rewrite G. apply in_flat_map. eauto.
    + intros x Hx. apply K. right. apply in_flat_map. eauto.
Qed.
Lemma rg_upd k f t : unnested t -> grad_key k t -> upd k f t = rg (fun s => if Nat.eqb (root_key s) k then T (f (data s)) (kids s) else s) t.
Proof.
  unfold upd. induction t as [d ch IH] using tree_ind'. intros U K. cbn [tmap rg]. destruct (is_gradient d) eqn:G.
  - unfold root_key. cbn [data kids]. assert (I : map (tmap (fun d => if Nat.eqb (key d) k then f d else d)) ch = ch). { rewrite <- (map_id ch) at 2. apply map_ext_in. intros c Hc. apply tmap_id. intros x Hx. destruct (Nat.eqb_spec (key x) k) as [E|E]; [|reflexivity]. exfalso. apply (inner_key k (T d ch) (T d ch) U K); [cbn; rewrite G; now left|]. cbn. apply in_flat_map. exists c. split; [exact Hc|]. rewrite <- E. now apply (in_map key). }
    rewrite I. destruct (Nat.eqb (key d) k); reflexivity.
  - destruct (Nat.eqb_spec (key d) k) as [E|E]; [rewrite (K d) in G; [discriminate|now left|exact E]|]. f_equal. apply map_ext_in. intros c Hc. rewrite Forall_forall in IH. apply IH; [exact Hc| |].
    + intros s x Hs. apply U. cbn. rewrite G. apply in_flat_map. eauto.
    + intros x Hx. apply K. right. apply in_flat_map. eauto.
Qed.
(** Removing gradients. *)
Lemma pruned_inner p t : (forall d, In d (flat_map flat (kids t)) -> p d = false) -> pruned p t = t.
Proof.
  induction t as [d ch IH] using tree_ind'. intros H. unfold pruned in *. cbn in *. f_equal. rewrite Forall_forall in IH. induction ch as [|c ch IHc]; [reflexivity|]. cbn. rewrite (H (data c)) by (apply in_or_app; left; apply flat_self). cbn. rewrite IH; [f_equal; apply IHc|now left|].
  - intros x Hx. apply IH. now right.
  - intros x Hx. apply H. apply in_or_app. now right.
  - intros x Hx. apply H. apply in_or_app. left. destruct c. right. exact Hx.
Qed.
Lemma gsubs_pruned p t : unnested t -> p (data t) = false -> (forall d, In d (flat t) -> is_gradient d = false -> p d = false) -> gsubs (pruned p t) = filter (fun s => negb (p (data s))) (gsubs t).
Proof.
  induction t as [d ch IH] using tree_ind'. intros U R H. cbn [gsubs]. destruct (is_gradient d) eqn:G.
  - rewrite pruned_inner; [cbn in *; rewrite G, R; reflexivity|]. intros x Hx. apply H; [right; exact Hx|]. apply (U (T d ch) x); [cbn; rewrite G; now left|exact Hx].
  - unfold pruned in *. cbn [prune gsubs]. rewrite G. rewrite Forall_forall in IH. assert (U' : forall c, In c ch -> unnested c). { intros c Hc s x Hs. apply U. cbn. rewrite G. apply in_flat_map. eauto. } assert (H' : forall c, In c ch -> forall d, In d (flat c) -> is_gradient d = false -> p d = false) by (intros c Hc x Hx; apply H; right; apply in_flat_map; eauto). clear U H R G.
    induction ch as [|c ch IHc]; [reflexivity|]. cbn. rewrite filter_app. rewrite flat_map_app. f_equal.
    + destruct (p (data c)) eqn:P.
      * destruct c as [dc cc]. destruct (is_gradient dc) eqn:Gc; [cbn in *; rewrite Gc; cbn; now rewrite P|]. cbn in P. rewrite (H' _ (or_introl eq_refl) dc (or_introl eq_refl) Gc) in P. discriminate.
      * cbn. rewrite app_nil_r. apply IH; [now left|apply U'; now left|exact P|apply H'; now left].
    + apply IHc; [intros x Hx; apply IH; now right|intros x Hx; apply U'; now right|intros x Hx; apply H'; now right].
Qed.
Lemma outs_pruned p t : (forall d, In d (flat t) -> is_gradient d = false -> p d = false) -> p (data t) = false -> forall anc, outs anc (pruned p t) = outs anc t.
Proof.
  induction t as [d ch IH] using tree_ind'. intros H R anc. unfold pruned in *. cbn [prune outs]. destruct (is_gradient d) eqn:G; [reflexivity|]. f_equal. rewrite Forall_forall in IH.
  assert (H' : forall c, In c ch -> forall d, In d (flat c) -> is_gradient d = false -> p d = false) by (intros c Hc x Hx; apply H; right; apply in_flat_map; eauto). clear H R G.
  induction ch as [|c ch IHc]; [reflexivity|]. cbn. rewrite flat_map_app. f_equal.
  - destruct (p (data c)) eqn:P.
    + destruct c as [dc cc]. cbn in *. destruct (is_gradient dc) eqn:Gc; [reflexivity|]. rewrite (H' _ (or_introl eq_refl) dc (or_introl eq_refl) Gc) in P. discriminate.
    + cbn. rewrite app_nil_r. apply IH; [now left|apply H'; now left|exact P].
  - apply IHc; [intros x Hx; apply IH; now right|intros x Hx; apply H'; now right].
Qed.

(** Gradients with their ancestors. *)
Fixpoint gpl (anc : list ndata) (t : tree) : list (list ndata * tree) := match t with T d ch => if is_gradient d then [(anc, t)] else flat_map (gpl (d :: anc)) ch end.
Lemma gpl_snd t : forall anc, map snd (gpl anc t) = gsubs t.
Proof.
  induction t as [d ch IH] using tree_ind'. intros anc. cbn. destruct (is_gradient d); [reflexivity|]. induction ch as [|c ch IHc]; [reflexivity|]. inversion IH; subst. cbn. rewrite map_app. f_equal; auto.
Qed.
Lemma gpl_gsubs t s : In s (gsubs t) <-> exists a, In (a, s) (gpl [] t).
Proof. rewrite <- (gpl_snd t []), in_map_iff. split; [intros ([a x] & <- & H); eauto|intros (a & H); exists (a, s); auto]. Qed.
Lemma gpl_rg g t : (forall s, In s (gsubs t) -> is_gradient (data (g s)) = true) -> forall anc, gpl anc (rg g t) = map (fun p => (fst p, g (snd p))) (gpl anc t).
Proof.
  induction t as [d ch IH] using tree_ind'. intros H anc. cbn [rg gsubs gpl] in *. destruct (is_gradient d) eqn:G.
  - specialize (H (T d ch) (or_introl eq_refl)). destruct (g (T d ch)) as [d' ch'] eqn:E. cbn in *. now rewrite H, E.
  - cbn [gpl]. rewrite G. rewrite Forall_forall in IH. induction ch as [|c ch IHc]; [reflexivity|]. cbn. rewrite map_app. rewrite IH; [|now left|intros s Hs; apply H; cbn; apply in_or_app; now left]. f_equal. apply IHc; [intros x Hx; apply IH; now right|]. intros s Hs. apply H. cbn. apply in_or_app. now right.
Qed.
Lemma gpl_pruned p t : unnested t -> p (data t) = false -> (forall d, In d (flat t) -> is_gradient d = false -> p d = false) -> forall anc, gpl anc (pruned p t) = filter (fun q => negb (p (data (snd q)))) (gpl anc t).
Proof.
  induction t as [d ch IH] using tree_ind'. intros U R H anc. cbn [gpl]. destruct (is_gradient d) eqn:G.
  - rewrite pruned_inner; [cbn in *; rewrite G, R; reflexivity|]. intros x Hx. apply H; [right; exact Hx|]. apply (U (T d ch) x); [cbn; rewrite G; now left|exact Hx].
  - unfold pruned in *. cbn [prune gpl]. rewrite G. rewrite Forall_forall in IH. assert (U' : forall c, In c ch -> unnested c). { intros c Hc s x Hs. apply U. cbn. rewrite G. apply in_flat_map. eauto. } assert (H' : forall c, In c ch -> forall d, In d (flat c) -> is_gradient d = false -> p d = false) by (intros c Hc x Hx; apply H; right; apply in_flat_map; eauto). clear U H R G.
    induction ch as [|c ch IHc]; [reflexivity|]. cbn. rewrite filter_app. rewrite flat_map_app. f_equal.
    + destruct (p (data c)) eqn:P.
      * destruct c as [dc cc]. destruct (is_gradient dc) eqn:Gc; [cbn in *; rewrite Gc; cbn; now rewrite P|]. cbn in P. rewrite (H' _ (or_introl eq_refl) dc (or_introl eq_refl) Gc) in P. discriminate.
      * cbn. rewrite app_nil_r. apply IH; [now left|apply U'; now left|exact P|apply H'; now left].
    + apply IHc; [intros x Hx; apply IH; now right|intros x Hx; apply U'; now right|intros x Hx; apply H'; now right].
Qed.
Lemma gpl_place t : forall a0 a s, In (a, s) (gpl a0 t) -> In (a, s) (places a0 t).
Proof.
  induction t as [d ch IH] using tree_ind'. intros a0 a s. cbn [gpl places]. destruct (is_gradient d).
  - intros [E|[]]. now left.
  - intros H. apply in_flat_map in H. destruct H as (c & Hc & H). right. apply in_flat_map. exists c. split; [exact Hc|]. rewrite Forall_forall in IH. now apply IH.
Qed.
Lemma gpl_ctx t a d : unnested t -> is_gradient d = true -> (In (a, d) (ctx [] t) <-> exists s, In (a, s) (gpl [] t) /\ data s = d).
Proof.
  intros U G. rewrite ctx_place. split; intros (s & H & E); exists s; (split; [|exact E]).
  - subst d. revert U H. generalize ([] : list ndata). induction t as [x ch IH] using tree_ind'. intros a0 U H. cbn [gpl]. destruct (is_gradient x) eqn:Gx.
    + destruct H as [H|H]; [now left|]. exfalso. apply in_flat_map in H. destruct H as (c & Hc & H). rewrite (U (T x ch) (data s)) in G; [discriminate|cbn; rewrite Gx; now left|]. cbn. apply in_flat_map. exists c. split; [exact Hc|]. exact (place_in _ _ _ _ H).
    + destruct H as [H|H]; [inversion H; subst; cbn in G; congruence|]. apply in_flat_map in H. destruct H as (c & Hc & H). apply in_flat_map. exists c. split; [exact Hc|]. rewrite Forall_forall in IH. apply IH; [exact Hc| |exact H]. intros u y Hu. apply U. cbn. rewrite Gx. apply in_flat_map. eauto.
  - now apply gpl_place.
Qed.
(** Nodes inside gradients. *)
Lemma inner_ctx t d : unnested t -> ((exists a p, In (a, d) (ctx [] t) /\ In p a /\ is_gradient p = true) <-> exists s, In s (gsubs t) /\ In d (flat_map flat (kids s))).
Proof.
  intros U. split.
  - intros (a & p & H & Hp & G). assert (M : forall a0, (forall q, In q a0 -> is_gradient q = false) -> In (a, d) (ctx a0 t) -> exists s, In s (gsubs t) /\ In d (flat_map flat (kids s))).
    { clear H U. induction t as [x ch IH] using tree_ind'. intros a0 Q H. destruct H as [E|H]; [inversion E; subst; rewrite (Q p Hp) in G; discriminate|]. cbn [gsubs]. destruct (is_gradient x) eqn:Gx.
      - exists (T x ch). split; [now left|]. cbn. apply in_flat_map in H. destruct H as (c & Hc & H). apply in_flat_map. exists c. split; [exact Hc|exact (ctx_in_flat c _ _ H)].
      - apply in_flat_map in H. destruct H as (c & Hc & H). rewrite Forall_forall in IH. destruct (IH c Hc (x :: a0)) as (s & Hs & Hd); [intros q [<-|Hq]; auto|exact H|]. exists s. split; [apply in_flat_map; eauto|exact Hd]. }
    apply (M []); [intros q []|exact H].
  - intros (s & Hs & Hd). apply gpl_gsubs in Hs. destruct Hs as (a & Hs). pose proof (gpl_place _ _ _ _ Hs) as P. assert (G : is_gradient (data s) = true) by (apply (gsubs_subs t s); apply gpl_gsubs; eauto).
    destruct s as [x ch]. apply in_flat_map in Hd. destruct Hd as (c & Hc & Hd). cbn in Hc. rewrite <- (map_snd_ctx (x :: a) c) in Hd. apply in_map_iff in Hd. destruct Hd as ([b y] & <- & Hy). exists b, x. split; [apply (places_incl _ _ _ _ P); right; apply in_flat_map; eauto|]. split; [|exact G].
    destruct (ctx_shape c (x :: a) _ Hy) as [Q|(q & Q)]; [inversion Q; now left|]. cbn in Q. rewrite Q. apply in_or_app. right. right. now left.
Qed.
