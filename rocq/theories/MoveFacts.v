(** Contexts of nodes when children are replaced, detached or moved. *)
From Coq Require Import List Bool NArith Arith String Lia Permutation.
From Verif Require Import Names Num Value Dom DomFacts DomOps DomRemove APass SpecText TextProofs Visit Move.
Import ListNotations.
Local Open Scope nat_scope.

(** The node [k] becomes the last child of the node [p] (svgdom: [detach] and [append]). *)
Definition move (k p : nat) (t : tree) : tree :=
  match find_sub k t with Some s => set_kids p (fun l => l ++ [s]) (detach k t) | None => t end.

Lemma ctx_place t : forall a0 a d, In (a, d) (ctx a0 t) <-> exists s, In (a, s) (places a0 t) /\ data s = d.
Proof.
  induction t as [d0 ch IH] using tree_ind'. intros a0 a d. rewrite Forall_forall in IH. cbn [ctx places]. split.
  - intros [E|H]; [inversion E; subst; exists (T d ch); split; [now left|reflexivity]|]. apply in_flat_map in H. destruct H as (c & Hc & H). apply (IH c Hc) in H. destruct H as (s & Hs & E). exists s. split; [right; apply in_flat_map; eauto|exact E].
  - intros (s & [E|H] & Ed); [inversion E; subst; now left|]. right. apply in_flat_map in H. destruct H as (c & Hc & H). apply in_flat_map. exists c. split; [exact Hc|]. apply (IH c Hc). eauto.
Qed.
Lemma ctx_app t : forall anc, ctx anc t = map (fun p => (fst p ++ anc, snd p)) (ctx [] t).
Proof.
  induction t as [d ch IH] using tree_ind'. intros anc. rewrite Forall_forall in IH. cbn [ctx map]. f_equal. clear -IH. induction ch as [|c ch IHc]; [reflexivity|]. cbn [flat_map]. rewrite map_app. f_equal; [|apply IHc; intros x Hx; apply IH; now right].
  rewrite (IH c (or_introl eq_refl) (d :: anc)), (IH c (or_introl eq_refl) [d]). rewrite map_map. apply map_ext. intros [l x]. cbn. now rewrite <- app_assoc.
Qed.
Lemma ctx_keys t anc : map (fun p => key (snd p)) (ctx anc t) = keys t.
Proof. unfold keys. rewrite <- (map_snd_ctx anc t). now rewrite map_map. Qed.
Lemma ctx_unique t a0 p q : NoDup (keys t) -> In p (ctx a0 t) -> In q (ctx a0 t) -> key (snd p) = key (snd q) -> p = q.
Proof.
  rewrite <- (ctx_keys t a0). generalize (ctx a0 t). induction l as [|x l IH]; intros N Hp Hq E; [contradiction|]. cbn in N. inversion N as [|? ? N1 N2]; subst.
  destruct Hp as [->|Hp], Hq as [->|Hq]; auto; exfalso; apply N1; apply in_map_iff; [exists q|exists p]; auto.
Qed.
Lemma sub_place s t a0 : In s (subs t) -> exists a, In (a, s) (places a0 t).
Proof.
  revert a0. induction t as [d ch IH] using tree_ind'. intros a0 [<-|H]; [exists a0; now left|]. apply in_flat_map in H. destruct H as (c & Hc & H). rewrite Forall_forall in IH. destruct (IH c Hc (d :: a0) H) as (a & Ha). exists a. right. apply in_flat_map. eauto.
Qed.
Lemma place_sub s t a0 a : In (a, s) (places a0 t) -> In s (subs t).
Proof.
  revert a0. induction t as [d ch IH] using tree_ind'. intros a0 [E|H]; [inversion E; subst; apply subs_self|]. apply in_flat_map in H. destruct H as (c & Hc & H). rewrite Forall_forall in IH. right. apply in_flat_map. exists c. split; [exact Hc|]. exact (IH c Hc (d :: a0) H).
Qed.
Lemma place_key s t a0 a : In (a, s) (places a0 t) -> In (root_key s) (keys t).
Proof. intros H. apply place_in in H. unfold root_key. now apply (in_map key). Qed.
Lemma ctx_set t s : forall a a0, NoDup (keys t) -> In (a, s) (places a0 t) -> exists pre post, ctx a0 t = pre ++ ctx a s ++ post /\
  forall f, ctx a0 (set_kids (root_key s) f t) = pre ++ ((a, data s) :: flat_map (ctx (data s :: a)) (f (kids s))) ++ post.
Proof.
  induction t as [d ch IH] using tree_ind'. intros a a0 N Hs. destruct (Nat.eqb_spec (key d) (root_key s)) as [E|E].
  - assert (X : (a, s) = (a0, T d ch)) by (apply (place_unique (T d ch) a0); auto; now left). inversion X; subst. exists [], []. cbn [app]. split; [now rewrite app_nil_r|]. intros f. rewrite app_nil_r. unfold root_key. cbn. now rewrite Nat.eqb_refl.
  - destruct Hs as [X|Hs]; [inversion X; subst; contradiction E; reflexivity|]. apply in_flat_map in Hs. destruct Hs as (c & Hc & Hs). rewrite keys_cons in N. inversion N as [|? ? N1 N2]; subst.
    rewrite Forall_forall in IH. destruct (IH c Hc a (d :: a0) (child_NoDup c ch Hc N2) Hs) as (pre & post & E1 & E2). apply in_split in Hc. destruct Hc as (l & r & ->).
    pose proof (place_key _ _ _ _ Hs) as Ks.
    rewrite flat_map_app in N2. cbn [flat_map] in N2. apply NoDup_app_inv in N2. destruct N2 as (_ & N3 & N4). apply NoDup_app_inv in N3. destruct N3 as (_ & _ & N5).
    exists ((a0, d) :: flat_map (ctx (d :: a0)) l ++ pre), (post ++ flat_map (ctx (d :: a0)) r). split.
    + cbn [ctx]. rewrite flat_map_app. cbn [flat_map]. rewrite E1. rewrite <- ?app_assoc. cbn [app]. now rewrite <- ?app_assoc.
    + intros f. cbn [set_kids]. destruct (Nat.eqb_spec (key d) (root_key s)); [contradiction|]. cbn [ctx]. rewrite map_app. cbn [map]. rewrite (map_set_kids_out _ _ l), (map_set_kids_out _ _ r).
      * rewrite flat_map_app. cbn [flat_map]. rewrite E2. rewrite <- ?app_assoc. cbn [app]. rewrite <- ?app_assoc. reflexivity.
      * intros X. exact (N5 _ Ks X).
      * intros X. apply (N4 _ X). apply in_or_app. now left.
Qed.
Lemma detach_T k d ch : detach k (T d ch) = T d (flat_map (fun c => if Nat.eqb (root_key c) k then [] else [detach k c]) ch).
Proof. reflexivity. Qed.
Lemma detach_out k t : ~ In k (keys t) -> detach k t = t.
Proof.
  intros N. unfold detach. apply prune_false. intros s Hs. apply Nat.eqb_neq. intros E. apply N. rewrite <- E. unfold root_key. apply (in_map key), data_of_sub. now apply in_kids_subs.
Qed.
Lemma detach_list_out k l : ~ In k (flat_map keys l) -> flat_map (fun c => if Nat.eqb (root_key c) k then [] else [detach k c]) l = l.
Proof.
  induction l as [|c l IH]; intros N; [reflexivity|]. cbn [flat_map] in *. assert (Nc : ~ In k (keys c)) by (intros X; apply N, in_or_app; auto).
  destruct (Nat.eqb_spec (root_key c) k) as [E|E]; [exfalso; apply Nc; rewrite <- E; rewrite keys_kids; now left|]. rewrite (detach_out k c Nc), IH; [reflexivity|]. intros X. apply N, in_or_app. auto.
Qed.
Lemma ctx_detach t s : forall a a0, NoDup (keys t) -> In (a, s) (places a0 t) -> root_key s <> root_key t -> exists pre post, ctx a0 t = pre ++ ctx a s ++ post /\ ctx a0 (detach (root_key s) t) = pre ++ post.
Proof.
  induction t as [d ch IH] using tree_ind'. intros a a0 N Hs Nr. destruct Hs as [X|Hs]; [inversion X; subst; contradiction Nr; reflexivity|]. apply in_flat_map in Hs. destruct Hs as (c & Hc & Hs). rewrite keys_cons in N. inversion N as [|? ? N1 N2]; subst.
  rewrite Forall_forall in IH. specialize (IH c Hc a (d :: a0) (child_NoDup c ch Hc N2) Hs). apply in_split in Hc. destruct Hc as (l & r & ->).
  pose proof (place_key _ _ _ _ Hs) as Ks. rewrite flat_map_app in N2. cbn [flat_map] in N2. apply NoDup_app_inv in N2. destruct N2 as (_ & N3 & N4). apply NoDup_app_inv in N3. destruct N3 as (N3 & _ & N5).
  rewrite detach_T, flat_map_app. cbn [flat_map]. rewrite (detach_list_out _ l), (detach_list_out _ r); [|intros X; exact (N5 _ Ks X)|intros X; apply (N4 _ X); apply in_or_app; now left].
  destruct (Nat.eqb_spec (root_key c) (root_key s)) as [E|E].
  - assert (Y : (a, s) = (d :: a0, c)) by (apply (place_unique c (d :: a0)); auto; destruct c; now left). inversion Y; subst. exists ((a0, d) :: flat_map (ctx (d :: a0)) l), (flat_map (ctx (d :: a0)) r).
    cbn [ctx]. rewrite !flat_map_app. cbn [flat_map app]. split; reflexivity.
  - destruct IH as (pre & post & E1 & E2); [congruence|]. exists ((a0, d) :: flat_map (ctx (d :: a0)) l ++ pre), (post ++ flat_map (ctx (d :: a0)) r).
    cbn [ctx]. rewrite !flat_map_app. cbn [flat_map app]. rewrite E1, E2. rewrite <- ?app_assoc. split; [cbn [app]; now rewrite <- ?app_assoc|]. cbn [app]. now rewrite <- ?app_assoc.
Qed.
Lemma root_detach k t : root_key (detach k t) = root_key t. Proof. destruct t; reflexivity. Qed.
Lemma data_detach k t : data (detach k t) = data t. Proof. destruct t; reflexivity. Qed.
(** Moving [s] below the node [dp]. *)
Lemma ctx_move t s a dp ap : NoDup (keys t) -> In (a, s) (places [] t) -> root_key s <> root_key t -> In (ap, dp) (ctx [] t) -> ~ In (key dp) (keys s) ->
  exists rest, Permutation (ctx [] t) (ctx a s ++ rest) /\ Permutation (ctx [] (move (root_key s) (key dp) t)) (ctx (dp :: ap) s ++ rest) /\
    In (ap, dp) rest /\ Permutation (keys (move (root_key s) (key dp) t)) (keys t).
Proof.
  intros N Hs Nr Hp Np. destruct (ctx_detach t s a [] N Hs Nr) as (pre & post & E1 & E2).
  assert (P1 : Permutation (ctx [] t) (ctx a s ++ pre ++ post)) by (rewrite E1; apply Permutation_app_swap_app).
  assert (Hp' : In (ap, dp) (pre ++ post)).
  { rewrite E1 in Hp. rewrite !in_app_iff in Hp. rewrite in_app_iff. destruct Hp as [Hp|[Hp|Hp]]; auto. exfalso. apply Np. rewrite <- (ctx_keys s a). apply in_map_iff. exists (ap, dp). auto. }
  set (t1 := detach (root_key s) t) in *. assert (N1 : NoDup (keys t1)).
  { rewrite <- (ctx_keys t1 []), E2. rewrite <- (ctx_keys t []) in N. apply (Permutation_NoDup (Permutation_map _ P1)) in N. rewrite map_app in N. apply NoDup_app_inv in N. tauto. }
  assert (Hp1 : In (ap, dp) (ctx [] t1)) by (rewrite E2; exact Hp'). apply ctx_place in Hp1. destruct Hp1 as (sp & Hsp & Dp).
  destruct (ctx_set t1 sp ap [] N1 Hsp) as (pre1 & post1 & F1 & F2). specialize (F2 (fun l => l ++ [s])). assert (Ksp : root_key sp = key dp) by (unfold root_key; congruence). rewrite Ksp in F2.
  assert (M : move (root_key s) (key dp) t = set_kids (key dp) (fun l => l ++ [s]) t1) by (unfold move; rewrite (find_sub_iff t s N (place_sub _ _ _ _ Hs)); reflexivity).
  assert (P2 : Permutation (ctx [] (move (root_key s) (key dp) t)) (ctx (dp :: ap) s ++ pre ++ post)).
  { rewrite M, F2. rewrite E2 in F1. rewrite F1. destruct sp as [d0 cs]. cbn [data kids ctx] in *. subst d0. rewrite flat_map_app. cbn [flat_map]. rewrite app_nil_r. cbn [app].
    transitivity (pre1 ++ ((ap, dp) :: flat_map (ctx (dp :: ap)) cs) ++ ctx (dp :: ap) s ++ post1); [apply Permutation_app_head; cbn [app]; now rewrite <- app_assoc|].
    set (m := (ap, dp) :: flat_map (ctx (dp :: ap)) cs). set (q := ctx (dp :: ap) s).
    transitivity (pre1 ++ q ++ m ++ post1); [apply Permutation_app_head; rewrite !app_assoc; apply Permutation_app_tail, Permutation_app_comm|].
    change ((ap, dp) :: flat_map (ctx (dp :: ap)) cs ++ post1) with (m ++ post1). rewrite !app_assoc. apply Permutation_app_tail, Permutation_app_tail, Permutation_app_comm. }
  exists (pre ++ post). split; [exact P1|]. split; [exact P2|]. split; [exact Hp'|].
  rewrite <- (ctx_keys (move _ _ _) []), <- (ctx_keys t []). rewrite (Permutation_map _ P1), (Permutation_map _ P2). rewrite !map_app, !ctx_keys. reflexivity.
Qed.
Lemma ctx_tmap f t : forall anc, ctx (map f anc) (tmap f t) = map (fun p => (map f (fst p), f (snd p))) (ctx anc t).
Proof.
  induction t as [d ch IH] using tree_ind'. intros anc. rewrite Forall_forall in IH. cbn [tmap ctx map fst snd]. f_equal. clear -IH. induction ch as [|c ch IHc]; [reflexivity|]. cbn [map flat_map]. rewrite map_app. f_equal; [apply (IH c (or_introl eq_refl) (d :: anc))|apply IHc; intros x Hx; apply IH; now right].
Qed.
