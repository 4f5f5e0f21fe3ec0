(** Proofs about the resolution of gradient attributes. *)
From Coq Require Import List Bool NArith Arith ZArith String Lia QArith Qcanon.
From Verif Require Import Names Num Value Dom DomFacts DomOps Outcome DomRemove Stops SpecStops AttrFacts StopsProofs SpecDom Transforms TransformsProofs VLoop Gradients SpecGradients.
Import ListNotations.
Local Open Scope nat_scope.

(** ** The order *)
Lemma mem_false k l : mem k l = false <-> ~ In k l.
Proof. rewrite <- not_true_iff_false. unfold mem. now rewrite mem_in. Qed.
Definition ordered (e : eid) (t : tree) (order : list nat) : Prop :=
  NoDup order /\ incl order (kind_nodes e t) /\
  forall done k rest j, order = done ++ k :: rest -> In j (same_kind_users e k t) -> In j done.

Lemma order_visit_cases e t order k : order_visit e t order k = order \/
  (order_visit e t order k = order ++ [k] /\ ~ In k order /\ forall j, In j (same_kind_users e k t) -> In j order).
Proof.
  unfold order_visit. destruct (mem k order) eqn:M; [now left|]. apply mem_false in M.
  destruct (existsb _ (same_kind_users e k t)) eqn:E; [now left|]. right. split; [reflexivity|]. split; [exact M|].
  intros j Hj. destruct (mem j order) eqn:Mj; [now apply mem_in in Mj|].
  assert (X : existsb (fun j => negb (mem j order)) (same_kind_users e k t) = true) by (apply existsb_exists; exists j; rewrite Mj; auto). congruence.
Qed.
Lemma snoc_split {A} (o : list A) (k : A) d x r : o ++ [k] = d ++ x :: r -> (r = [] /\ d = o /\ x = k) \/ exists r', r = r' ++ [k] /\ o = d ++ x :: r'.
Proof.
  intros H. destruct r as [|y r] using rev_ind.
  - left. apply app_inj_tail in H. destruct H; subst. auto.
  - right. exists r. clear IHr. rewrite app_comm_cons, app_assoc in H. apply app_inj_tail in H. destruct H as [H ->]. auto.
Qed.
Lemma order_visit_ok e t order k : In k (kind_nodes e t) -> ordered e t order -> ordered e t (order_visit e t order k).
Proof.
  intros Hk (N & I & O). destruct (order_visit_cases e t order k) as [->|(-> & Nk & U)]; [now split|]. split; [|split].
  - apply NoDup_app_intro; [exact N|repeat constructor; auto|]. intros x Hx [<-|[]]. auto.
  - intros x Hx. apply in_app_or in Hx. destruct Hx as [Hx|[<-|[]]]; auto.
  - intros done x rest j E Hj. destruct (snoc_split _ _ _ _ _ E) as [(_ & -> & ->)|(r' & _ & E')]; [now apply U|]. eapply O; eauto.
Qed.
Lemma order_round_ok e t nodes : forall order, incl nodes (kind_nodes e t) -> ordered e t order -> ordered e t (order_round e t nodes order).
Proof.
  unfold order_round. induction nodes as [|k nodes IH]; intros order I O; [exact O|]. cbn. apply IH; [intros x Hx; apply I; now right|].
  apply order_visit_ok; [apply I; now left|exact O].
Qed.
Lemma order_visit_incl e t order k : incl order (order_visit e t order k) /\ List.length order <= List.length (order_visit e t order k).
Proof. destruct (order_visit_cases e t order k) as [E|(E & _)]; rewrite E; [split; [apply incl_refl|apply le_n]|]. split; [apply incl_appl, incl_refl|rewrite app_length; cbn; lia]. Qed.
Lemma order_round_incl e t nodes : forall order, incl order (order_round e t nodes order) /\ List.length order <= List.length (order_round e t nodes order).
Proof.
  unfold order_round. induction nodes as [|k nodes IH]; intros order; [split; [apply incl_refl|apply le_n]|]. cbn. destruct (IH (order_visit e t order k)) as [A B].
  destruct (order_visit_incl e t order k) as [C D]. split; [eapply incl_tran; eassumption|lia].
Qed.
(** A node without waiting users gets its place in the round. *)
Lemma order_round_push e t nodes k : forall order, In k nodes -> (forall j, In j (same_kind_users e k t) -> In j order) -> In k (order_round e t nodes order).
Proof.
  unfold order_round. induction nodes as [|x nodes IH]; intros order Hk U; [contradiction|]. cbn. destruct Hk as [->|Hk].
  - assert (X : In k (order_visit e t order k)).
    { unfold order_visit. destruct (mem k order) eqn:M; [now apply mem_in in M|]. destruct (existsb _ (same_kind_users e k t)) eqn:E.
      - apply existsb_exists in E. destruct E as (j & Hj & Nj). apply negb_true_iff, mem_false in Nj. exfalso. auto.
      - apply in_or_app. right. now left. }
    destruct (order_round_incl e t nodes (order_visit e t order k)) as [A _]. now apply A.
  - apply IH; [exact Hk|]. intros j Hj. destruct (order_visit_incl e t order x) as [A _]. apply A. auto.
Qed.
Lemma kind_nodes_in e t k : In k (kind_nodes e t) <-> exists d, In d (flat t) /\ tag d = TEl e /\ key d = k.
Proof.
  unfold kind_nodes. rewrite in_map_iff. split.
  - intros (d & E & Hd). apply filter_In in Hd. destruct Hd as [Hd T]. exists d. split; [exact Hd|]. split; [|exact E].
    unfold is_tag in T. destruct (tag d); try discriminate. destruct (eid_eqb_spec e0 e); congruence.
  - intros (d & Hd & T & E). exists d. split; [exact E|]. apply filter_In. split; [exact Hd|]. unfold is_tag. rewrite T. destruct (eid_eqb_spec e e); congruence.
Qed.
Lemma users_in e t k j : In j (same_kind_users e k t) <-> exists d, In d (flat t) /\ tag d = TEl e /\ key d = j /\ refers_to d k.
Proof.
  unfold same_kind_users. rewrite in_map_iff. split.
  - intros (d & E & Hd). apply filter_In in Hd. destruct Hd as [Hd T]. apply andb_true_iff in T. destruct T as [T R]. exists d. split; [exact Hd|]. split.
    + unfold is_tag in T. destruct (tag d); try discriminate. destruct (eid_eqb_spec e0 e); congruence.
    + split; [exact E|]. apply existsb_exists in R. destruct R as (a & Ha & R). apply refers_iff in R. exists a. auto.
  - intros (d & Hd & T & E & a & Ha & R). exists d. split; [exact E|]. apply filter_In. split; [exact Hd|]. apply andb_true_iff. split.
    + unfold is_tag. rewrite T. destruct (eid_eqb_spec e e); congruence.
    + apply existsb_exists. exists a. split; [exact Ha|]. now apply refers_iff.
Qed.
Lemma kind_nodes_NoDup e t : NoDup (keys t) -> NoDup (kind_nodes e t).
Proof. intros N. unfold kind_nodes. apply (sublist_NoDup _ (keys t)); [|exact N]. apply sublist_map, sublist_filter. Qed.
(** The unplaced node with the highest rank. *)
Lemma max_rank (rank : nat -> nat) l : l <> [] -> exists k, In k l /\ forall j, In j l -> rank j <= rank k.
Proof.
  induction l as [|x l IH]; [congruence|]. intros _. destruct l as [|y l].
  - exists x. split; [now left|]. intros j [<-|[]]. lia.
  - destruct IH as (k & Hk & M); [discriminate|]. destruct (le_lt_dec (rank x) (rank k)).
    + exists k. split; [now right|]. intros j [<-|Hj]; auto.
    + exists x. split; [now left|]. intros j [<-|Hj]; [lia|]. specialize (M j Hj). lia.
Qed.
Lemma order_progress e t order : NoDup (keys t) -> acyclic_kind e t -> ordered e t order -> List.length order <> List.length (kind_nodes e t) ->
  List.length order < List.length (order_round e t (kind_nodes e t) order).
Proof.
  intros N (rank & R) (No & I & O) L.
  set (left := filter (fun k => negb (mem k order)) (kind_nodes e t)).
  assert (Hl : left <> []).
  { intros E. apply L. assert (X : incl (kind_nodes e t) order).
    { intros k Hk. destruct (mem k order) eqn:M; [now apply mem_in in M|]. assert (Y : In k left) by (apply filter_In; rewrite M; auto). rewrite E in Y. contradiction. }
    pose proof (NoDup_incl_length No I). pose proof (NoDup_incl_length (kind_nodes_NoDup e t N) X). lia. }
  destruct (max_rank rank left Hl) as (k & Hk & M). apply filter_In in Hk. destruct Hk as [Hk Nk]. apply negb_true_iff, mem_false in Nk.
  assert (P : In k (order_round e t (kind_nodes e t) order)).
  { apply order_round_push; [exact Hk|]. intros j Hj. destruct (mem j order) eqn:Mj; [now apply mem_in in Mj|]. exfalso.
    apply users_in in Hj. destruct Hj as (d & Hd & Td & <- & Rd). apply kind_nodes_in in Hk. destruct Hk as (x & Hx & Tx & <-).
    assert (Y : In (key d) left) by (apply filter_In; rewrite Mj; split; [apply kind_nodes_in; eauto|reflexivity]).
    specialize (M _ Y). specialize (R d x Hd Hx Td Tx Rd). lia. }
  destruct (order_round_incl e t (kind_nodes e t) order) as [A B].
  assert (X : List.length (k :: order) <= List.length (order_round e t (kind_nodes e t) order)).
  { apply NoDup_incl_length; [constructor; auto|]. intros x [<-|Hx]; auto. }
  cbn in X. lia.
Qed.
Lemma order_loop_ok e t : NoDup (keys t) -> acyclic_kind e t -> forall fuel order, ordered e t order ->
  List.length (kind_nodes e t) <= fuel + List.length order -> exists ks, order_loop fuel e t (kind_nodes e t) order = Some ks.
Proof.
  intros N A. induction fuel as [|n IH]; intros order O L; cbn [order_loop]; destruct (Nat.eqb_spec (List.length order) (List.length (kind_nodes e t))) as [E|E]; eauto.
  - exfalso. apply E. destruct O as (No & I & _). pose proof (NoDup_incl_length No I). lia.
  - apply IH; [apply order_round_ok; [apply incl_refl|exact O]|]. pose proof (order_progress e t order N A O E). lia.
Qed.
Lemma order_loop_some e t : forall fuel order ks, ordered e t order -> order_loop fuel e t (kind_nodes e t) order = Some ks ->
  ordered e t ks /\ List.length ks = List.length (kind_nodes e t).
Proof.
  induction fuel as [|n IH]; intros order ks O H; cbn [order_loop] in H; destruct (Nat.eqb_spec (List.length order) (List.length (kind_nodes e t))) as [E|E].
  1, 3: injection H as <-; auto.
  - discriminate.
  - eapply IH; [|exact H]. apply order_round_ok; [apply incl_refl|exact O].
Qed.
Lemma ordered_nil e t : ordered e t [].
Proof. split; [constructor|]. split; [intros ? []|]. intros done k rest j E. destruct done; discriminate. Qed.
Lemma ordered_all e t ks : NoDup (keys t) -> ordered e t ks -> List.length ks = List.length (kind_nodes e t) -> forall k, In k ks <-> In k (kind_nodes e t).
Proof.
  intros N (No & I & _) L k. split; [apply I|]. revert k. apply (NoDup_length_incl No); [lia|exact I].
Qed.
(** Position in a list. *)
Fixpoint index_of (k : nat) (l : list nat) : nat := match l with [] => 0 | x :: l' => if Nat.eqb x k then 0 else S (index_of k l') end.
Lemma index_split k l : In k l -> exists d r, l = d ++ k :: r /\ index_of k l = List.length d /\ ~ In k d.
Proof.
  induction l as [|x l IH]; [intros []|]. intros Hk. cbn. destruct (Nat.eqb_spec x k) as [->|Nx]; [exists [], l; auto|].
  destruct Hk as [Hk|Hk]; [congruence|]. destruct (IH Hk) as (d & r & E & Ei & Nd). exists (x :: d), r. cbn. rewrite E at 1. split; [reflexivity|]. split; [now rewrite Ei|]. intros [X|X]; congruence || auto.
Qed.
Lemma index_before d k r : forall j, In j d -> index_of j (d ++ k :: r) < List.length d.
Proof. induction d as [|x d IH]; intros j Hj; [contradiction|]. cbn. destruct (Nat.eqb_spec x j); [lia|]. destruct Hj as [Hj|Hj]; [congruence|]. specialize (IH j Hj). lia. Qed.
Lemma order_acyclic e t ks : NoDup (keys t) -> ordered e t ks -> List.length ks = List.length (kind_nodes e t) -> acyclic_kind e t.
Proof.
  intros N O L. exists (fun k => List.length ks - index_of k ks). intros d x Hd Hx Td Tx R.
  assert (Kx : In (key x) ks) by (apply (ordered_all e t ks N O L); apply kind_nodes_in; eauto).
  destruct (index_split _ _ Kx) as (done & rest & E & Ei & _). destruct O as (_ & _ & O).
  assert (Hj : In (key d) done) by (apply (O done (key x) rest); [exact E|apply users_in; eauto 6]).
  pose proof (index_before done (key x) rest (key d) Hj) as B. rewrite <- E in B. rewrite Ei, E, app_length in *. cbn. cbn in *. lia.
Qed.
Lemma gen_order_iff e t : NoDup (keys t) -> (exists ks, gen_order e t = Some ks) <-> acyclic_kind e t.
Proof.
  intros N. split.
  - intros (ks & H). destruct (order_loop_some e t _ _ _ (ordered_nil e t) H) as [O L]. eapply order_acyclic; eauto.
  - intros A. apply order_loop_ok; auto; [apply ordered_nil|cbn; lia].
Qed.
Lemma order_loop_never e t : NoDup (keys t) -> ~ acyclic_kind e t -> forall fuel, order_loop fuel e t (kind_nodes e t) [] = None.
Proof.
  intros N A fuel. destruct (order_loop fuel e t (kind_nodes e t) []) as [ks|] eqn:E; [|reflexivity]. exfalso. apply A.
  destruct (order_loop_some e t _ _ _ (ordered_nil e t) E) as [O L]. eapply order_acyclic; eauto.
Qed.

(** ** Values along xlink:href *)
Inductive along_n (t : tree) (a : aid) : nat -> ndata -> option value -> Prop :=
| an_own d v : d_get d a = Some v -> along_n t a 0 d (Some v)
| an_end d : d_get d a = None -> d_get d AXlinkHref = None -> along_n t a 0 d None
| an_next n d k x r : d_get d a = None -> d_get d AXlinkHref = Some (VLink k) -> In x (flat t) -> key x = k ->
    along_n t a n x r -> along_n t a (S n) d r.
Lemma along_sized t a d r : along_href t a d r <-> exists n, along_n t a n d r.
Proof.
  split.
  - induction 1 as [d v E|d E H|d k x r E H Hx Kx _ [n IH]]; [exists 0; now constructor|exists 0; now constructor|]. exists (S n). econstructor; eauto.
  - intros (n & H). induction H; [now apply ah_own|now apply ah_end|eapply ah_next; eauto].
Qed.
Lemma along_n_fun t a : NoDup (keys t) -> forall n d r, along_n t a n d r -> forall m r', along_n t a m d r' -> m = n /\ r' = r.
Proof.
  intros N n d r H. induction H as [d v E|d E H|n d k x r E H Hx Kx _ IH]; intros m r' H'; inversion H' as [d0 v0 E0|d0 E0 H0|n0 d0 k0 x0 r0 E0 H0 Hx0 Kx0 Hn0]; subst; try congruence; try (split; congruence).
  assert (X : x0 = x) by (apply (data_unique t); congruence). subst x0. destruct (IH _ _ Hn0). split; congruence.
Qed.
Lemma along_fun t a d r r' : NoDup (keys t) -> along_href t a d r -> along_href t a d r' -> r' = r.
Proof. intros N H H'. apply along_sized in H, H'. destruct H as (n & H), H' as (m & H'). now destruct (along_n_fun t a N n d r H m r' H'). Qed.
Lemma along_n_small t a : NoDup (keys t) -> forall n d r, along_n t a n d r -> n <= List.length (flat t).
Proof.
  intros N n d r H.
  assert (G : exists l, List.length l = n /\ NoDup l /\ incl l (flat t) /\ forall x, In x l -> exists m, m < n /\ along_n t a m x r).
  { induction H as [d v E|d E H|n d k x r E H Hx Kx Hn (l & L & Nl & I & C)].
    - exists []. repeat split; auto; [constructor|intros ? []|intros ? []].
    - exists []. repeat split; auto; [constructor|intros ? []|intros ? []].
    - exists (x :: l). cbn. split; [now rewrite L|]. split; [constructor; [|exact Nl]|split].
      + intros X. destruct (C x X) as (m & Lm & Hm). destruct (along_n_fun t a N _ _ _ Hn _ _ Hm). lia.
      + intros y [<-|Hy]; auto.
      + intros y [<-|Hy]; [exists n; auto|]. destruct (C y Hy) as (m & Lm & Hm). exists m. split; [lia|exact Hm]. }
  destruct G as (l & <- & Nl & I & _). now apply NoDup_incl_length.
Qed.
Definition as_look (r : option value) : look := match r with Some v => Found v | None => NotFound end.
Lemma lookup_n t a : NoDup (keys t) -> forall n d r, along_n t a n d r -> forall m, n <= m -> lookup m t a d = as_look r.
Proof.
  intros N n d r H. induction H as [d v E|d E H|n d k x r E H Hx Kx _ IH]; intros m L.
  - destruct m; cbn [lookup]; now rewrite E.
  - destruct m; cbn [lookup]; now rewrite E, H.
  - destruct m as [|m]; [lia|]. cbn [lookup]. rewrite E, H, <- Kx, (find_data_in t x N Hx). apply IH. lia.
Qed.
Lemma lookup_along t a d r : NoDup (keys t) -> along_href t a d r -> lookup (List.length (flat t)) t a d = as_look r.
Proof. intros N H. apply along_sized in H. destruct H as (n & H). eapply lookup_n; eauto. eapply along_n_small; eauto. Qed.
Lemma chain_along t a d : chain_ends t d -> exists r, along_href t a d r.
Proof.
  induction 1 as [d H|d k x H Hx Kx _ (r & IH)]; destruct (d_get d a) as [v|] eqn:E.
  - exists (Some v). now apply ah_own.
  - exists None. now apply ah_end.
  - exists (Some v). now apply ah_own.
  - exists r. eapply ah_next; eauto.
Qed.
Lemma along_ext t a d d' r : d_get d' a = d_get d a -> d_get d' AXlinkHref = d_get d AXlinkHref -> along_href t a d r -> along_href t a d' r.
Proof. intros E1 E2 H. inversion H; subst; [apply ah_own; congruence|apply ah_end; congruence|eapply ah_next; eauto; congruence]. Qed.

(** What [check_attr] does. *)
Definition orv (r def : option value) : option value := match r with Some v => Some v | None => def end.
Definition fill (a : aid) (o : option value) (d : ndata) : ndata :=
  if d_has d a then d else match o with Some v => d_set_hidden d a v | None => d end.
Lemma check_attr_ok t a def d r : NoDup (keys t) -> along_href t a d r -> check_attr t a def d = Ok (fill a (orv r def) d).
Proof. intros N H. unfold check_attr, fill. destruct (d_has d a); [reflexivity|]. rewrite (lookup_along _ _ _ _ N H). destruct r; reflexivity. Qed.
Lemma fill_get a o d b : get_attr (attrs (fill a o d)) b =
  if aid_eqb a b then match get_attr (attrs d) a with Some x => Some x | None => option_map (fun v => At (AN a) v false) o end else get_attr (attrs d) b.
Proof.
  unfold fill, d_has, has_attr. destruct (aid_eqb_spec a b) as [->|Nb].
  - destruct (get_attr (attrs d) b) eqn:E; [exact E|]. destruct o as [v|]; [|exact E]. apply get_hidden_same.
  - destruct (get_attr (attrs d) a) eqn:E; [reflexivity|]. destruct o as [v|]; [|reflexivity]. now apply get_hidden_other.
Qed.
Lemma fill_dget a o d b : d_get (fill a o d) b = if aid_eqb a b then orv (d_get d a) o else d_get d b.
Proof. unfold d_get, get_value. rewrite fill_get. destruct (aid_eqb_spec a b); [|reflexivity]. destruct (get_attr (attrs d) a); [reflexivity|]. destruct o; reflexivity. Qed.
Lemma fill_node a o d : same_node d (fill a o d) /\ same_except [a] d (fill a o d).
Proof.
  unfold fill. destruct (d_has d a); [split; [apply same_node_refl|apply same_except_refl]|]. destruct o; [|split; [apply same_node_refl|apply same_except_refl]].
  split; [repeat split|apply se_hidden].
Qed.
Definition fills (l : list (aid * option value)) (d : ndata) : ndata := fold_left (fun d p => fill (fst p) (snd p) d) l d.
Lemma fills_node l : forall d, same_node d (fills l d) /\ same_except (map fst l) d (fills l d).
Proof.
  induction l as [|p l IH]; intros d; cbn; [split; [apply same_node_refl|apply same_except_refl]|]. destruct (IH (fill (fst p) (snd p) d)) as [A B]. destruct (fill_node (fst p) (snd p) d) as [C D].
  split; [eapply same_node_trans; eassumption|]. eapply same_except_trans; [eapply same_except_weaken; [|exact D]|eapply same_except_weaken; [|exact B]]; intros x Hx; cbn in *; tauto.
Qed.
Lemma fills_other l b : ~ In b (map fst l) -> forall d, get_attr (attrs (fills l d)) b = get_attr (attrs d) b.
Proof.
  induction l as [|p l IH]; intros Nb d; [reflexivity|]. cbn in *. unfold fills in *. cbn. rewrite IH by tauto. rewrite fill_get. destruct (aid_eqb_spec (fst p) b); [tauto|reflexivity].
Qed.
Lemma fills_at l a o : NoDup (map fst l) -> In (a, o) l -> forall d,
  get_attr (attrs (fills l d)) a = match get_attr (attrs d) a with Some x => Some x | None => option_map (fun v => At (AN a) v false) o end.
Proof.
  induction l as [|p l IH]; intros N H d; [contradiction|]. cbn in N. inversion N as [|? ? N1 N2]; subst. cbn. destruct H as [->|H].
  - rewrite fills_other by exact N1. cbn. rewrite fill_get, aid_eqb_refl. reflexivity.
  - unfold fills in IH. cbn. rewrite (IH N2 H). rewrite fill_get. destruct (aid_eqb_spec (fst p) a) as [E|_]; [|reflexivity].
    exfalso. apply N1. rewrite E. apply in_map_iff. exists (a, o). auto.
Qed.

(** ** Documents in which some nodes have been filled *)
Definition val (t : tree) (a : aid) (d : ndata) : option value := match lookup (List.length (flat t)) t a d with Found v => Some v | _ => None end.
Lemma val_along t a d r : NoDup (keys t) -> along_href t a d r -> val t a d = r.
Proof. intros N H. unfold val. rewrite (lookup_along _ _ _ _ N H). destruct r; reflexivity. Qed.
Lemma along_mapped t a def h : (forall d, key (h d) = key d) ->
  (forall x, In x (flat t) -> d_get (h x) AXlinkHref = d_get x AXlinkHref /\ (forall v, d_get x a = Some v -> d_get (h x) a = Some v) /\
     (d_get x a = None -> d_get (h x) a = None \/ forall r, along_href t a x r -> d_get (h x) a = orv r def)) ->
  forall x r, along_href t a x r -> In x (flat t) -> exists r1, along_href (tmap h t) a (h x) r1 /\ orv r1 def = orv r def.
Proof.
  intros Hk Hh x r H. induction H as [d v E|d E H|d k x r E H Hx Kx Hr IH]; intros Hd; destruct (Hh d Hd) as (F1 & F2 & F3).
  - exists (Some v). split; [|reflexivity]. apply ah_own. auto.
  - destruct (F3 E) as [F|F].
    + exists None. split; [|reflexivity]. apply ah_end; congruence.
    + specialize (F None (ah_end t a d E H)). cbn in F. destruct def as [v|].
      * exists (Some v). split; [now apply ah_own|reflexivity].
      * exists None. split; [apply ah_end; congruence|reflexivity].
  - destruct (F3 E) as [F|F].
    + destruct (IH Hx) as (r1 & A & B). exists r1. split; [|exact B]. eapply ah_next; [exact F|rewrite F1; exact H| | |exact A].
      * rewrite flat_tmap. now apply in_map.
      * now rewrite Hk.
    + assert (Hr' : along_href t a d r) by exact (ah_next t a d k x r E H Hx Kx Hr). specialize (F r Hr'). destruct (orv r def) as [v|] eqn:Ev.
      * exists (Some v). split; [now apply ah_own|reflexivity].
      * destruct (IH Hx) as (r1 & A & B). exists r1. split; [|congruence]. eapply ah_next; [exact F|rewrite F1; exact H| | |exact A].
        -- rewrite flat_tmap. now apply in_map.
        -- now rewrite Hk.
Qed.
(** The start of the chain is not replaced by [h]. *)
Lemma along_from t a def h d r : (forall d, key (h d) = key d) ->
  (forall x, In x (flat t) -> d_get (h x) AXlinkHref = d_get x AXlinkHref /\ (forall v, d_get x a = Some v -> d_get (h x) a = Some v) /\
     (d_get x a = None -> d_get (h x) a = None \/ forall r, along_href t a x r -> d_get (h x) a = orv r def)) ->
  along_href t a d r -> exists r1, along_href (tmap h t) a d r1 /\ orv r1 def = orv r def.
Proof.
  intros Hk Hh H. inversion H as [d0 v E|d0 E X|d0 k x r0 E X Hx Kx Hr]; subst.
  - exists (Some v). split; [now apply ah_own|reflexivity].
  - exists None. split; [now apply ah_end|reflexivity].
  - destruct (along_mapped t a def h Hk Hh x r Hr Hx) as (r1 & A & B). exists r1. split; [|exact B]. eapply ah_next; [exact E|exact X| | |exact A].
    + rewrite flat_tmap. now apply in_map.
    + apply Hk.
Qed.

Fixpoint checks (t : tree) (l : list (aid * option value)) (d : ndata) : result ndata :=
  match l with [] => Ok d | p :: l' => bind (check_attr t (fst p) (snd p) d) (checks t l') end.
Lemma bind_ret {A} (x : result A) : bind x (fun y => Ok y) = x.
Proof. destruct x; reflexivity. Qed.
Lemma checks_ok t o : NoDup (keys t) -> forall l d, NoDup (map fst l) -> ~ In AXlinkHref (map fst l) ->
  (forall a def, In (a, def) l -> exists r, along_href t a d r /\ orv r def = o a) ->
  checks t l d = Ok (fills (map (fun p => (fst p, o (fst p))) l) d).
Proof.
  intros N. induction l as [|(a, def) l IH]; intros d Nl Nh H; [reflexivity|]. cbn [checks fst snd map fills fold_left]. cbn in Nl, Nh. inversion Nl as [|? ? N1 N2]; subst.
  destruct (H a def (or_introl eq_refl)) as (r & Hr & Er). rewrite (check_attr_ok t a def d r N Hr), Er. cbn [bind].
  apply IH; [exact N2|tauto|]. intros b def' Hb. destruct (H b def' (or_intror Hb)) as (r' & Hr' & Er'). exists r'. split; [|exact Er'].
  apply along_ext with (d := d); [| |exact Hr'].
  - rewrite fill_dget. destruct (aid_eqb_spec a b) as [->|_]; [|reflexivity]. exfalso. apply N1. apply in_map_iff. exists (b, def'). auto.
  - rewrite fill_dget. destruct (aid_eqb_spec a AXlinkHref) as [->|_]; [|reflexivity]. tauto.
Qed.
Definition lin_checks : list (aid * option value) := map (fun a => (a, gradient_default a)) linear_attrs.
Lemma linear_node_checks t d : resolve_linear_node t d = checks t lin_checks d.
Proof.
  unfold resolve_linear_node, lin_checks, linear_attrs. cbn [map checks fst snd gradient_default]. unfold percent.
  repeat (match goal with |- bind ?x _ = bind ?x _ => destruct x; cbn [bind]; try reflexivity end). destruct (check_attr t AGradientTransform None _); reflexivity.
Qed.
Definition lin_fill (t : tree) (d : ndata) : ndata := fills (map (fun a => (a, orv (val t a d) (gradient_default a))) linear_attrs) d.
Lemma linear_NoDup : NoDup linear_attrs. Proof. repeat constructor; cbn; intuition discriminate. Qed.
Lemma radial_NoDup : NoDup radial_attrs. Proof. repeat constructor; cbn; intuition discriminate. Qed.
Lemma map_fst_pair (f : aid -> option value) l : map fst (map (fun a => (a, f a)) l) = l.
Proof. induction l as [|a l IH]; [reflexivity|]. cbn. now rewrite IH. Qed.
Lemma fills_dget_other l d b : ~ In b (map fst l) -> d_get (fills l d) b = d_get d b.
Proof. intros H. unfold d_get, get_value. now rewrite fills_other. Qed.
Lemma fills_dget_at l d a o : NoDup (map fst l) -> In (a, o) l -> d_get (fills l d) a = orv (d_get d a) o.
Proof. intros N H. unfold d_get, get_value. rewrite (fills_at l a o N H). destruct (get_attr (attrs d) a); [reflexivity|]. destruct o; reflexivity. Qed.

Lemma lin_step t done d : NoDup (keys t) -> (forall x, In x (flat t) -> In (key x) done -> chain_ends t x) -> chain_ends t d -> In d (flat t) ->
  resolve_linear_node (visited (lin_fill t) done t) d = Ok (lin_fill t d).
Proof.
  intros N Hc Hd Hin. rewrite linear_node_checks. set (h := fun x => if mem (key x) done then lin_fill t x else x).
  assert (Hk : forall x, key (h x) = key x) by (intros x; unfold h; destruct (mem _ _); [apply fills_node|reflexivity]).
  unfold lin_checks. rewrite (checks_ok _ (fun a => orv (val t a d) (gradient_default a))).
  - reflexivity.
  - unfold visited. rewrite keys_tmap; [exact N|exact Hk].
  - rewrite map_fst_pair. exact linear_NoDup.
  - rewrite map_fst_pair. cbn. intuition discriminate.
  - intros a def Ha. apply in_map_iff in Ha. destruct Ha as (b & E & Hb). injection E as -> <-.
    destruct (chain_along t a d Hd) as (r & Hr). rewrite (val_along t a d r N Hr). apply along_from; [exact Hk| |exact Hr].
    intros x Hx. unfold h. destruct (mem (key x) done) eqn:M.
    + apply mem_in in M. specialize (Hc x Hx M). split; [|split].
      * apply fills_dget_other. rewrite map_fst_pair. cbn. intuition discriminate.
      * intros v Ev. unfold lin_fill. rewrite (fills_dget_at _ _ a (orv (val t a x) (gradient_default a))); [now rewrite Ev|rewrite map_fst_pair; exact linear_NoDup|apply in_map_iff; eauto].
      * intros En. right. intros r0 Hr0. unfold lin_fill. rewrite (fills_dget_at _ _ a (orv (val t a x) (gradient_default a))); [|rewrite map_fst_pair; exact linear_NoDup|apply in_map_iff; eauto].
        rewrite En. cbn. now rewrite (val_along t a x r0 N Hr0).
    + split; [reflexivity|]. split; [auto|]. auto.
Qed.

(** Radial gradients. *)
Definition rad_value (t : tree) (d : ndata) (a : aid) : option value :=
  match a with
  | AFx => orv (val t AFx d) (orv (d_get d ACx) (orv (val t ACx d) (gradient_default ACx)))
  | AFy => orv (val t AFy d) (orv (d_get d ACy) (orv (val t ACy d) (gradient_default ACy)))
  | _ => orv (val t a d) (gradient_default a)
  end.
Definition rad_fill (t : tree) (d : ndata) : ndata := fills (map (fun a => (a, rad_value t d a)) radial_attrs) d.
Definition rad_checks (cx cy : option value) : list (aid * option value) :=
  [(AGradientUnits, gradient_default AGradientUnits); (ASpreadMethod, gradient_default ASpreadMethod); (ACx, gradient_default ACx);
   (ACy, gradient_default ACy); (AR, gradient_default AR); (AFx, cx); (AFy, cy); (AGradientTransform, None)].
Lemma bind_bind {A B C} (x : result A) (f : A -> result B) (g : B -> result C) : bind (bind x f) g = bind x (fun a => bind (f a) g).
Proof. destruct x; reflexivity. Qed.
Lemma checks_app t l m d : checks t (l ++ m) d = bind (checks t l d) (checks t m).
Proof. revert d. induction l as [|p l IH]; intros d; [reflexivity|]. cbn. rewrite bind_bind. destruct (check_attr t (fst p) (snd p) d); cbn; auto. Qed.
Lemma radial_node_checks t d : resolve_radial_node t d =
  bind (checks t (firstn 5 (rad_checks None None)) d) (fun d1 => checks t (skipn 5 (rad_checks (d_get d1 ACx) (d_get d1 ACy))) d1).
Proof.
  unfold resolve_radial_node, rad_checks. cbn [firstn skipn checks fst snd gradient_default]. unfold percent. rewrite !bind_bind.
  repeat (match goal with |- bind ?x _ = bind ?x _ => destruct x; cbn [bind]; try reflexivity; rewrite ?bind_bind end).
  symmetry. apply bind_ret.
Qed.
Lemma along_kept t a h (S : ndata -> Prop) : (forall d, key (h d) = key d) -> (forall x, In x (flat t) -> S x -> h x = x) ->
  (forall x y, In x (flat t) -> In y (flat t) -> S x -> d_get x AXlinkHref = Some (VLink (key y)) -> S y) ->
  forall x r, along_href t a x r -> In x (flat t) -> S x -> along_href (tmap h t) a x r.
Proof.
  intros Hk Hs Hc x r H. induction H as [d v E|d E H|d k x r E H Hx Kx Hr IH]; intros Hd Sd; [now apply ah_own|now apply ah_end|].
  subst k. assert (Sx : S x) by (eapply Hc; eauto). eapply ah_next; [exact E|exact H| | |now apply IH].
  - rewrite flat_tmap. apply in_map_iff. exists x. auto.
  - reflexivity.
Qed.
(** A radial gradient is the target of xlink:href of radial gradients only. *)
Definition radial_hrefs (t : tree) : Prop := forall x y, In x (flat t) -> In y (flat t) -> d_get x AXlinkHref = Some (VLink (key y)) ->
  tag y = TEl ERadialGradient -> tag x = TEl ERadialGradient.
Lemma href_refers x k : d_get x AXlinkHref = Some (VLink k) -> refers_to x k.
Proof.
  unfold d_get, get_value. destruct (get_attr (attrs x) AXlinkHref) as [y|] eqn:E; [|discriminate]. intros H. injection H as H.
  apply get_attr_some in E. exists y. split; [apply E|]. now rewrite H.
Qed.
Lemma rad_step t ks done d rest : NoDup (keys t) -> ordered ERadialGradient t ks -> ks = done ++ key d :: rest -> radial_hrefs t ->
  (forall x, In x (flat t) -> tag x = TEl ERadialGradient -> chain_ends t x) -> tag d = TEl ERadialGradient -> In d (flat t) ->
  resolve_radial_node (visited (rad_fill t) done t) d = Ok (rad_fill t d).
Proof.
  intros N (Nk & Ik & Ok_) Ek RH Hc Td Hd. rewrite radial_node_checks. set (h := fun x => if mem (key x) done then rad_fill t x else x).
  assert (Hk : forall x, key (h x) = key x) by (intros x; unfold h; destruct (mem _ _); [apply fills_node|reflexivity]).
  assert (N1 : NoDup (keys (visited (rad_fill t) done t))) by (unfold visited; rewrite keys_tmap; [exact N|exact Hk]).
  assert (Kd : forall x, In x (flat t) -> In (key x) done -> tag x = TEl ERadialGradient).
  { intros x Hx Hin. assert (X : In (key x) (kind_nodes ERadialGradient t)) by (apply Ik; rewrite Ek; apply in_or_app; now left).
    apply kind_nodes_in in X. destruct X as (y & Hy & Ty & Ey). assert (y = x) by (apply (data_unique t); congruence). now subst y. }
  assert (C : chain_ends t d) by auto.
  (* attributes other than fx and fy *)
  assert (G : forall a, In a radial_attrs -> a <> AFx -> a <> AFy -> exists r, along_href (visited (rad_fill t) done t) a d r /\ orv r (gradient_default a) = rad_value t d a).
  { intros a Ha N2 N3. destruct (chain_along t a d C) as (r & Hr).
    assert (Erv : forall x, rad_value t x a = orv (val t a x) (gradient_default a)) by (intros x; unfold rad_value; destruct a; try reflexivity; congruence).
    rewrite Erv, (val_along t a d r N Hr). apply along_from; [exact Hk| |exact Hr].
    intros x Hx. unfold h. destruct (mem (key x) done) eqn:M.
    - apply mem_in in M. split; [|split].
      + apply fills_dget_other. rewrite map_fst_pair. cbn. intuition discriminate.
      + intros v Ev. unfold rad_fill. rewrite (fills_dget_at _ _ a (rad_value t x a)); [now rewrite Ev|rewrite map_fst_pair; exact radial_NoDup|apply in_map_iff; eauto].
      + intros En. right. intros r0 Hr0. unfold rad_fill. rewrite (fills_dget_at _ _ a (rad_value t x a)); [|rewrite map_fst_pair; exact radial_NoDup|apply in_map_iff; eauto].
        rewrite En, Erv. cbn. now rewrite (val_along t a x r0 N Hr0).
    - split; [reflexivity|]. split; [auto|]. auto. }
  (* fx and fy: no radial gradient of the chain has been visited *)
  assert (F : forall a, along_href (visited (rad_fill t) done t) a d (val t a d)).
  { intros a. destruct (chain_along t a d C) as (r & Hr). rewrite (val_along t a d r N Hr).
    apply (along_kept t a h (fun x => ~ In (key x) done) Hk); auto.
    - intros x Hx Sx. unfold h. apply mem_false in Sx. now rewrite Sx.
    - intros x y Hx Hy Sx E Iy. apply Sx. pose proof (Kd y Hy Iy) as Ty. pose proof (RH x y Hx Hy E Ty) as Tx.
      apply in_split in Iy. destruct Iy as (l1 & l2 & El). rewrite El. apply in_or_app. left.
      apply (Ok_ l1 (key y) (l2 ++ key d :: rest)); [rewrite Ek, El, <- app_assoc; reflexivity|]. apply users_in. exists x. repeat split; auto. now apply href_refers.
    - rewrite Ek in Nk. apply NoDup_remove_2 in Nk. intros X. apply Nk. apply in_or_app. now left. }
  rewrite (checks_ok _ (rad_value t d) N1).
  - cbn [bind]. set (d1 := fills _ d).
    assert (Ex : d_get d1 ACx = orv (d_get d ACx) (rad_value t d ACx)).
    { apply fills_dget_at; [cbn; repeat constructor; cbn; intuition discriminate|cbn; tauto]. }
    assert (Ey : d_get d1 ACy = orv (d_get d ACy) (rad_value t d ACy)).
    { apply fills_dget_at; [cbn; repeat constructor; cbn; intuition discriminate|cbn; tauto]. }
    rewrite (checks_ok _ (rad_value t d) N1).
    + reflexivity.
    + cbn. repeat constructor; cbn; intuition discriminate.
    + cbn. intuition discriminate.
    + assert (E : forall a r, ~ In a (map fst (firstn 5 (rad_checks None None))) -> along_href (visited (rad_fill t) done t) a d r -> along_href (visited (rad_fill t) done t) a d1 r).
      { intros a r Ha H. apply along_ext with (d := d); [| |exact H]; apply fills_dget_other; [exact Ha|cbn; intuition discriminate]. }
      clearbody d1. intros a def Ha. cbn in Ha. destruct Ha as [Ha|[Ha|[Ha|[]]]]; injection Ha as <- <-.
      * exists (val t AFx d). split; [apply E; [cbn; intuition discriminate|apply F]|]. now rewrite Ex.
      * exists (val t AFy d). split; [apply E; [cbn; intuition discriminate|apply F]|]. now rewrite Ey.
      * destruct (G AGradientTransform) as (r & A & B); [cbn; tauto|discriminate|discriminate|]. exists r. split; [apply E; [cbn; intuition discriminate|exact A]|exact B].
  - cbn. repeat constructor; cbn; intuition discriminate.
  - cbn. intuition discriminate.
  - intros a def Ha. cbn in Ha. repeat (destruct Ha as [Ha|Ha]; [injection Ha as <- <-; apply G; [cbn; tauto|discriminate|discriminate]|]). contradiction.
Qed.
