(** C28 and C52, the other half: what can never be seen is really removed. *)
From Coq Require Import List Bool NArith Arith ZArith String Lia QArith Qcanon.
From Verif Require Import Names Num Value Dom DomFacts DomOps Outcome DomRemove SpecDom AttrFacts Stops SpecWritten SpecText RmUnusedDefs RmInvisible WfAll WfStruct UseStep WfUse WfGrad MildMove Props_wf.
Import ListNotations.
Local Open Scope nat_scope.

(** ** What the steps keep of a node *)
Definition linked_value (d : ndata) (a : aid) : Prop := exists v k, d_get d a = Some v /\ link_of v = Some k.
Definition flat_value (v : option value) : Prop := match v with None | Some (VPre _) | Some (VColor _ _ _) => True | _ => False end.
Definition keeps (d d1 : ndata) : Prop :=
  key d1 = key d /\ tag d1 = tag d /\ forall a, a <> AFillOpacity -> a <> AStrokeOpacity -> d_get d1 a = d_get d a \/ (linked_value d a /\ flat_value (d_get d1 a)).
Lemma keeps_refl d : keeps d d. Proof. split; [reflexivity|]. split; [reflexivity|]. auto. Qed.
Lemma keeps_trans a b c : keeps a b -> keeps b c -> keeps a c.
Proof.
  intros (A1 & A2 & A3) (B1 & B2 & B3). split; [congruence|]. split; [congruence|]. intros x X1 X2. destruct (A3 x X1 X2) as [E|[L F]]; destruct (B3 x X1 X2) as [E'|[L' F']].
  - left. congruence.
  - right. split; [|exact F']. unfold linked_value in *. rewrite E in L'. exact L'.
  - right. split; [exact L|]. now rewrite E'.
  - right. auto.
Qed.
Lemma get_filter_nodup p l a : NoDup (map a_name l) -> get_attr (filter p l) a = match get_attr l a with Some x => if p x then Some x else None | None => None end.
Proof.
  intros N. unfold get_attr. induction l as [|x l IH]; [reflexivity|]. cbn in N. inversion N as [|? ? Nx Nl]; subst. cbn [filter find]. destruct (has_name (AN a) x) eqn:E.
  - destruct (p x) eqn:P; [cbn [find]; now rewrite E|]. apply has_name_true in E. destruct (find (has_name (AN a)) (filter p l)) as [y|] eqn:F; [|reflexivity]. exfalso. apply find_some in F. destruct F as [Fy Ny]. apply filter_In in Fy.
    apply has_name_true in Ny. apply Nx. apply in_map_iff. exists y. split; [congruence|apply Fy].
  - rewrite <- (IH Nl). destruct (p x); cbn [find]; rewrite ?E; reflexivity.
Qed.
Lemma keeps_unlink L d : attrs_nodup d -> keeps d (with_attrs d (filter (fun x => negb (existsb (fun k => refers k x) L)) (attrs d))).
Proof.
  intros N. split; [reflexivity|]. split; [reflexivity|]. intros a _ _. unfold d_get, get_value. cbn [attrs with_attrs]. rewrite get_filter_nodup by exact N. destruct (get_attr (attrs d) a) as [x|] eqn:E; [|auto].
  destruct (existsb (fun k => refers k x) L) eqn:R; cbn [negb]; [|auto]. right. split; [|exact I]. apply refers_mem in R. destruct R as (k & Lk & _). exists (a_val x), k. split; [|exact Lk]. unfold d_get, get_value. now rewrite E.
Qed.
(** The second document is a part of the first one. *)
Definition rest (t t1 : tree) : Prop := forall s1, In s1 (subs t1) -> exists s, In s (subs t) /\ keeps (data s) (data s1) /\ List.length (kids s1) <= List.length (kids s) /\ forall c1, In c1 (kids s1) -> exists c, In c (kids s) /\ keeps (data c) (data c1).
Lemma rest_refl t : rest t t. Proof. intros s H. exists s. split; [exact H|]. split; [apply keeps_refl|]. split; [lia|]. intros c Hc. exists c. split; [exact Hc|apply keeps_refl]. Qed.
Lemma rest_trans a b c : rest a b -> rest b c -> rest a c.
Proof.
  intros A B s H. destruct (B s H) as (s1 & H1 & K1 & L1 & C1). destruct (A s1 H1) as (s2 & H2 & K2 & L2 & C2). exists s2. split; [exact H2|]. split; [exact (keeps_trans _ _ _ K2 K1)|]. split; [lia|].
  intros x Hx. destruct (C1 x Hx) as (y & Hy & Ky). destruct (C2 y Hy) as (z & Hz & Kz). exists z. split; [exact Hz|exact (keeps_trans _ _ _ Kz Ky)].
Qed.
Lemma rest_keys t t1 : rest t t1 -> incl (keys t1) (keys t).
Proof. intros R k Hk. apply key_sub in Hk. destruct Hk as (s & Hs & <-). destruct (R s Hs) as (s0 & H0 & (K & _) & _). unfold root_key. rewrite K. now apply in_subs_root. Qed.
Lemma rest_tmap f t : (forall d, In d (flat t) -> keeps d (f d)) -> rest t (tmap f t).
Proof.
  intros H s Hs. rewrite subs_tmap in Hs. apply in_map_iff in Hs. destruct Hs as (s0 & <- & H0). exists s0. split; [exact H0|]. rewrite data_tmap, kids_tmap, map_length. split; [apply H; now apply data_of_sub|]. split; [lia|].
  intros c Hc. apply in_map_iff in Hc. destruct Hc as (c0 & <- & Hc). exists c0. split; [exact Hc|]. rewrite data_tmap. apply H. apply data_of_sub. exact (Push.kid_sub s0 c0 t H0 Hc).
Qed.
Lemma rest_unlink L t : WFA t -> rest t (unlink L t).
Proof. intros W. apply rest_tmap. intros d Hd. apply keeps_unlink. exact (proj1 (Forall_forall _ _) W d Hd). Qed.
Lemma detached_len k l : List.length (flat_map (fun c => if Nat.eqb (root_key c) k then [] else [detach k c]) l) <= List.length l.
Proof. induction l as [|c l IH]; [cbn; lia|]. cbn [flat_map]. rewrite app_length. destruct (Nat.eqb _ _); cbn [List.length]; lia. Qed.
Lemma rest_detach k t : rest t (detach k t).
Proof.
  intros s Hs. destruct (detach_subs k t s Hs) as (s0 & H0 & ->). exists s0. split; [exact H0|]. rewrite data_detach. split; [apply keeps_refl|]. destruct s0 as [d ch]. cbn [detach kids prune]. split; [apply detached_len|].
  intros c1 Hc. apply in_flat_map in Hc. destruct Hc as (c & Hc & Hc1). exists c. split; [exact Hc|]. destruct (Nat.eqb _ _); [contradiction|]. destruct Hc1 as [<-|[]]. destruct c. apply keeps_refl.
Qed.
Lemma rest_remove k t : fine t -> rest t (remove k t).
Proof. intros F. unfold remove. exact (rest_trans _ _ _ (rest_unlink _ t (fine_wfa t F)) (rest_detach _ _)). Qed.
Lemma rest_remove_nodes ks : forall t, fine t -> rest t (remove_nodes ks t).
Proof. unfold remove_nodes. induction ks as [|k ks IH]; intros t F; cbn [fold_left]; [apply rest_refl|]. exact (rest_trans _ _ _ (rest_remove k t F) (IH _ (fine_remove k t F))). Qed.
Lemma rest_linked ks : forall t, fine t -> rest t (fold_left remove_linked ks t).
Proof.
  induction ks as [|k ks IH]; intros t F; cbn [fold_left]; [apply rest_refl|]. assert (F1 : fine (remove_nodes (map fst (linked_nodes k t)) t)) by now apply fine_remove_nodes.
  refine (rest_trans _ _ _ _ (IH _ _)); [|now apply fine_remove]. exact (rest_trans _ _ _ (rest_remove_nodes _ t F) (rest_remove k _ F1)).
Qed.
Lemma rest_drain_steps p l : forall t n, fine t -> fine (fst (fold_left (drain_step p) l (t, n))) /\ rest t (fst (fold_left (drain_step p) l (t, n))).
Proof.
  induction l as [|k l IH]; intros t n F; [split; [exact F|apply rest_refl]|]. cbn [fold_left]. unfold drain_step at 2 4. destruct (find_sub k t) as [s|]; [|now apply IH]. destruct (p t s); [|now apply IH].
  destruct (IH (remove k t) (S n) (fine_remove k t F)) as [A B]. split; [exact A|exact (rest_trans _ _ _ (rest_remove k t F) B)].
Qed.
Lemma rest_drain p t : fine t -> rest t (fst (drain p t)).
Proof. intros F. apply rest_drain_steps. exact F. Qed.

Lemma removed_key k t : NoDup (keys t) -> k <> root_key t -> ~ In k (keys (remove k t)).
Proof.
  intros N Ne H. apply (remove_keys k t N Ne k) in H. destruct H as [H X]. apply X. apply key_sub in H. destruct H as (s & Hs & E). unfold sub_keys. rewrite <- E. rewrite (find_sub_iff t s N Hs). apply in_subs_root. apply subs_self.
Qed.
Lemma removed_keys k ks : forall t, fine t -> In k ks -> k <> root_key t -> ~ In k (keys (remove_nodes ks t)).
Proof.
  unfold remove_nodes. induction ks as [|j ks IH]; intros t F H Ne; [contradiction|]. cbn [fold_left]. pose proof (fine_remove j t F) as F1. destruct (Nat.eq_dec j k) as [->|Nj].
  - intros X. apply (rest_keys _ _ (rest_remove_nodes ks _ F1)) in X. exact (removed_key k t (wf_keys t (fine_wf t F)) Ne X).
  - destruct H as [H|H]; [contradiction|]. apply IH; auto. now rewrite root_key_remove.
Qed.
Lemma kid_key t s c : NoDup (keys t) -> In s (subs t) -> In c (kids s) -> root_key c <> root_key t.
Proof.
  intros N Hs Hc E. destruct (in_subs_kids t s Hs) as [->|H].
  - rewrite keys_kids in N. inversion N as [|? ? X _]. apply X. rewrite <- E. apply in_flat_map. exists c. split; [exact Hc|]. apply in_subs_root. apply subs_self.
  - rewrite keys_kids in N. inversion N as [|? ? X _]. apply X. rewrite <- E. apply in_flat_map in H. destruct H as (u & Hu & H). apply in_flat_map. exists u. split; [exact Hu|]. apply in_subs_root. exact (Push.kid_sub s c u H Hc).
Qed.

(** ** Nodes with a property that the steps keep are removed *)
Section Bad.
Variable P : tree -> Prop.
Hypothesis P_el : forall s, P s -> exists e, tag (data s) = TEl e.
Hypothesis P_keep : forall s s1, P s -> keeps (data s) (data s1) -> List.length (kids s1) <= List.length (kids s) -> (forall c1, In c1 (kids s1) -> exists c, In c (kids s) /\ keeps (data c) (data c1)) -> P s1.
Definition bad (k : nat) (t : tree) : Prop := forall s, In s (subs t) -> root_key s = k -> P s.
Lemma bad_rest k t t1 : rest t t1 -> bad k t -> bad k t1.
Proof. intros R B s Hs E. destruct (R s Hs) as (s0 & H0 & K & L & C). apply (P_keep s0 s); auto. apply B; [exact H0|]. destruct K as [K _]. unfold root_key in *. congruence. Qed.
Lemma bad_root k t : fine t -> bad k t -> k <> root_key t.
Proof. intros F B E. destruct (P_el t) as (e & He); [apply B; [apply subs_self|auto]|]. rewrite (fine_root t F) in He. discriminate. Qed.
Lemma bad_removed k t : fine t -> bad k t -> ~ In k (keys (remove k t)).
Proof. intros F B. apply removed_key; [exact (wf_keys t (fine_wf t F))|exact (bad_root k t F B)]. Qed.
Lemma gone_nodes k ks : forall t, fine t -> In k ks -> bad k t -> ~ In k (keys (remove_nodes ks t)).
Proof.
  unfold remove_nodes. induction ks as [|j ks IH]; intros t F H B; [contradiction|]. cbn [fold_left]. pose proof (fine_remove j t F) as F1. destruct (Nat.eq_dec j k) as [->|Ne].
  - intros X. apply (rest_keys _ _ (rest_remove_nodes ks _ F1)) in X. exact (bad_removed k t F B X).
  - destruct H as [H|H]; [contradiction|]. apply IH; auto. exact (bad_rest k _ _ (rest_remove j t F) B).
Qed.
Lemma gone_linked k ks : forall t, fine t -> In k ks -> bad k t -> ~ In k (keys (fold_left remove_linked ks t)).
Proof.
  induction ks as [|j ks IH]; intros t F H B; [contradiction|]. cbn [fold_left]. assert (F0 : fine (remove_nodes (map fst (linked_nodes j t)) t)) by now apply fine_remove_nodes.
  assert (F1 : fine (remove_linked t j)) by (now apply fine_remove). pose proof (bad_rest k _ _ (rest_remove_nodes (map fst (linked_nodes j t)) t F) B) as B0. destruct (Nat.eq_dec j k) as [->|Ne].
  - intros X. apply (rest_keys _ _ (rest_linked ks _ F1)) in X. exact (bad_removed k _ F0 B0 X).
  - destruct H as [H|H]; [contradiction|]. apply IH; auto. exact (bad_rest k _ _ (rest_remove j _ F0) B0).
Qed.
Lemma gone_drain k p t : fine t -> (forall u s, P s -> p u s = true) -> bad k t -> ~ In k (keys (fst (drain p t))).
Proof.
  intros F Hp B H. pose proof (rest_keys _ _ (rest_drain p t F) k H) as Hk. assert (Ht : In k (tl (keys t))). { rewrite keys_kids in *. destruct Hk as [Hk|Hk]; [|exact Hk]. exfalso. exact (bad_root k t F B (eq_sym Hk)). }
  apply in_split in Ht. destruct Ht as (l1 & l2 & E). unfold drain in H. rewrite E, fold_left_app in H. cbn [fold_left] in H.
  destruct (rest_drain_steps p l1 t 0 F) as [F1 R1]. destruct (fold_left (drain_step p) l1 (t, 0)) as [t1 n1]. cbn [fst] in F1, R1. pose proof (bad_rest k _ _ R1 B) as B1. unfold drain_step at 2 in H.
  destruct (find_sub k t1) as [s|] eqn:Fs.
  - apply find_sub_some in Fs. destruct Fs as [Hs Es]. rewrite (Hp t1 s (B1 s Hs Es)) in H. destruct (rest_drain_steps p l2 (remove k t1) (S n1) (fine_remove k t1 F1)) as [_ R2]. apply (rest_keys _ _ R2) in H. exact (bad_removed k t1 F1 B1 H).
  - destruct (rest_drain_steps p l2 t1 n1 F1) as [_ R2]. apply (rest_keys _ _ R2) in H. apply find_sub_none in Fs. contradiction.
Qed.
End Bad.

(** ** The steps *)
Lemma rest_fold {A} (f : ndata -> A -> ndata) d l : (forall x d1, In x l -> keeps d d1 -> keeps d (f d1 x)) -> keeps d (fold_left f l d).
Proof.
  intros H. assert (G : forall m d1, incl m l -> keeps d d1 -> keeps d (fold_left f m d1)); [|apply G; [intros x Hx; exact Hx|apply keeps_refl]].
  induction m as [|x m IH]; intros d1 I K; [exact K|]. cbn. apply IH; [intros y Hy; apply I; now right|]. apply H; [apply I; now left|exact K].
Qed.
Lemma link_attr_value k d a : attrs_nodup d -> In a (link_attrs k d) -> linked_value d a.
Proof.
  intros N H. unfold link_attrs in H. apply in_flat_map in H. destruct H as (x & Hx & H). destruct (a_name x) as [b|s] eqn:E; [|contradiction]. destruct (refers k x) eqn:R; [|contradiction]. destruct H as [->|[]]. apply refers_iff in R.
  exists (a_val x), k. split; [|exact R]. unfold d_get, get_value. rewrite (get_attr_in (attrs d) x a N Hx E). reflexivity.
Qed.
Lemma keeps_set d d1 a v : linked_value d a -> flat_value (Some v) -> keeps d d1 -> keeps d (d_set d1 a v).
Proof.
  intros L V (K1 & K2 & K3). split; [exact K1|]. split; [exact K2|]. intros b B1 B2. destruct (aid_eqb_spec a b) as [->|Ne].
  - right. split; [exact L|]. unfold d_get, get_value, d_set. cbn [attrs with_attrs]. now rewrite get_set_same.
  - assert (E : d_get (d_set d1 a v) b = d_get d1 b) by (unfold d_get, get_value, d_set; cbn [attrs with_attrs]; now rewrite get_set_other by exact Ne). rewrite E. now apply K3.
Qed.
Lemma keeps_opacity d d1 a v : a = AFillOpacity \/ a = AStrokeOpacity -> keeps d d1 -> keeps d (d_set d1 a v).
Proof.
  intros A (K1 & K2 & K3). split; [exact K1|]. split; [exact K2|]. intros b B1 B2. assert (Ne : a <> b) by (destruct A as [-> | ->]; congruence).
  assert (E : d_get (d_set d1 a v) b = d_get d1 b) by (unfold d_get, get_value, d_set; cbn [attrs with_attrs]; now rewrite get_set_other by exact Ne). rewrite E. now apply K3.
Qed.
Lemma keeps_no_paint k d : attrs_nodup d -> keeps d (no_paint k d).
Proof. intros N. unfold no_paint. apply rest_fold. intros a d1 Ha K. apply keeps_set; [exact (link_attr_value k d a N Ha)|exact I|exact K]. Qed.
Lemma keeps_solid k r g b o d : attrs_nodup d -> keeps d (solid k (VColor r g b) o d).
Proof.
  intros N. unfold solid. apply rest_fold. intros a d1 Ha K. assert (K1 : keeps d (d_set d1 a (VColor r g b))) by (apply keeps_set; [exact (link_attr_value k d a N Ha)|exact I|exact K]).
  unfold one_color. cbn zeta. destruct (qeqb o q1); [exact K1|]. destruct a; try exact K1; apply keeps_opacity; auto.
Qed.
Lemma rest_unpaint ks : forall t, fine t -> rest t (unpaint ks t).
Proof.
  induction ks as [|k ks IH]; intros t F; [apply rest_refl|]. change (unpaint (k :: ks) t) with (unpaint ks (tmap (no_paint k) t)). assert (F1 : fine (tmap (no_paint k) t)) by exact (fine_unpaint [k] t F).
  refine (rest_trans _ _ _ _ (IH _ F1)). apply rest_tmap. intros d Hd. apply keeps_no_paint. exact (proj1 (Forall_forall _ _) (fine_wfa t F) d Hd).
Qed.
Lemma rest_paint ks : forall r t t', (forall u, r = Ok u -> fine u /\ rest t u) -> fold_left (fun r k => bind r (fun t => paint_solid t k)) ks r = Ok t' -> fine t' /\ rest t t'.
Proof.
  induction ks as [|k ks IH]; intros r t t' H E; [now apply H|]. cbn [fold_left] in E. refine (IH _ t t' _ E). intros u Eu.
  assert (Fu : fine u). { apply (fine_paint [k] r u); [intros v Ev; apply H; exact Ev|exact Eu]. } split; [exact Fu|].
  apply bind_ok in Eu. destruct Eu as (v & Ev & Eu). destruct (H v Ev) as [Fv Rv]. unfold paint_solid in Eu. destruct (find_sub k v) as [[d [|c l]]|]; try (injection Eu as <-; exact Rv).
  destruct (d_get (data c) AStopColor) as [[]|]; try discriminate. destruct (d_get (data c) AStopOpacity) as [[]|]; try discriminate.
  match type of Eu with Ok ?x = Ok ?y => assert (X : x = y) by congruence end. clear Eu. rewrite <- X. refine (rest_trans _ _ _ Rv _). apply rest_tmap. intros y Hy. destruct (is_grad y); [apply keeps_refl|]. apply keeps_solid. exact (proj1 (Forall_forall _ _) (fine_wfa v Fv) y Hy).
Qed.
Lemma rest_clip_rounds stops : forall ks t empty, fine t -> rest t (fst (clip_rounds stops ks t empty)).
Proof.
  induction ks as [|k ks IH]; intros t empty F; cbn [clip_rounds]; [apply rest_refl|]. destruct (find_sub k t) as [s|]; [|now apply IH]. cbn zeta. set (bad0 := map root_key _). destruct (stops && _); cbn [fst]; [now apply rest_remove_nodes|].
  exact (rest_trans _ _ _ (rest_remove_nodes bad0 t F) (IH _ _ (fine_remove_nodes bad0 t F))).
Qed.

(** ** The kinds of nodes that cannot be seen *)
Definition empty_path (s : tree) : Prop := tag (data s) = TEl EPath /\ forall x l, d_get (data s) AD <> Some (VPath (x :: l)).
Definition empty_use (s : tree) : Prop := tag (data s) = TEl EUse /\ d_get (data s) AXlinkHref = None.
Definition flat_rect (s : tree) : Prop := tag (data s) = TEl ERect /\ exists a u, In a [AWidth; AHeight] /\ d_get (data s) a = Some (VLen (Len q0 u)).
Definition empty_filter (s : tree) : Prop := tag (data s) = TEl EFilter /\ kids s = [].
Definition poor_gradient (s : tree) : Prop := (tag (data s) = TEl ELinearGradient \/ tag (data s) = TEl ERadialGradient) /\ d_get (data s) AXlinkHref = None /\ List.length (kids s) <= 1.
(** A clip path without a child that can clip. *)
Definition empty_clip (s : tree) : Prop :=
  tag (data s) = TEl EClipPath /\ forall c, In c (kids s) -> tag (data c) <> TEl EUse /\ tag (data c) <> TEl EPath /\ tag (data c) <> TEl EText /\ forall e, tag (data c) = TEl e -> is_basic_shape e = false.

Lemma path_keep s s1 : empty_path s -> keeps (data s) (data s1) -> empty_path s1.
Proof.
  intros [T H] (_ & K2 & K3). split; [congruence|]. intros x l E. destruct (K3 AD) as [Q|[_ V]]; try discriminate; [rewrite Q in E; exact (H x l E)|]. rewrite E in V. exact V.
Qed.
Lemma use_keep s s1 : empty_use s -> keeps (data s) (data s1) -> empty_use s1.
Proof.
  intros [T H] (_ & K2 & K3). split; [congruence|]. destruct (K3 AXlinkHref) as [Q|[(v & k & L & _) _]]; try discriminate; congruence.
Qed.
Lemma rect_keep s s1 : flat_rect s -> keeps (data s) (data s1) -> flat_rect s1.
Proof.
  intros [T (a & u & Ha & H)] (_ & K2 & K3). split; [congruence|]. exists a, u. split; [exact Ha|]. destruct (K3 a) as [Q|[(v & k & L & Lk) _]]; try (cbn in Ha; intuition (subst; discriminate)); [congruence|]. rewrite H in L. injection L as <-. discriminate.
Qed.
Lemma gradient_keep s s1 : poor_gradient s -> keeps (data s) (data s1) -> List.length (kids s1) <= List.length (kids s) -> poor_gradient s1.
Proof.
  intros (T & H & L) (_ & K2 & K3) Le. split; [rewrite K2; exact T|]. split; [|lia]. destruct (K3 AXlinkHref) as [Q|[(v & k & X & _) _]]; try discriminate; congruence.
Qed.
Lemma filter_keep s s1 : empty_filter s -> keeps (data s) (data s1) -> List.length (kids s1) <= List.length (kids s) -> empty_filter s1.
Proof. intros (T & H) (_ & K2 & K3) L. split; [congruence|]. rewrite H in L. destruct (kids s1); [reflexivity|cbn in L; lia]. Qed.
Lemma clip_keep s s1 : empty_clip s -> keeps (data s) (data s1) -> (forall c1, In c1 (kids s1) -> exists c, In c (kids s) /\ keeps (data c) (data c1)) -> empty_clip s1.
Proof. intros (T & H) (_ & K2 & _) C. split; [congruence|]. intros c1 Hc1. destruct (C c1 Hc1) as (c & Hc & (_ & Tc & _)). rewrite Tc. now apply H. Qed.

Lemma gone_clip k t : fine t -> bad empty_clip k t -> In k (keys t) -> forall b, ~ In k (keys (fst (process_clip_paths false (t, b)))).
Proof.
  intros F B Hk b. unfold process_clip_paths.
  assert (Pe : forall s, empty_clip s -> exists e, tag (data s) = TEl e) by (intros s [E _]; eauto).
  assert (Pk : forall s s1, empty_clip s -> keeps (data s) (data s1) -> List.length (kids s1) <= List.length (kids s) -> (forall c1, In c1 (kids s1) -> exists c, In c (kids s) /\ keeps (data c) (data c1)) -> empty_clip s1) by (intros s s1 A B1 _ C; exact (clip_keep s s1 A B1 C)).
  assert (G : forall ks u empty, fine u -> bad empty_clip k u -> In k ks \/ In k empty -> In k (snd (clip_rounds false ks u empty)) \/ ~ In k (keys (fst (clip_rounds false ks u empty)))).
  { induction ks as [|j ks IH]; intros u empty Fu Bu Hj; [left; cbn; destruct Hj as [[]|Hj]; exact Hj|]. cbn [clip_rounds]. destruct (find_sub j u) as [s|] eqn:Fs.
    - cbn zeta. cbn [andb]. set (bd := map root_key _). pose proof (fine_remove_nodes bd u Fu) as F1. pose proof (bad_rest empty_clip Pk k _ _ (rest_remove_nodes bd u Fu) Bu) as B1. destruct (Nat.eq_dec j k) as [->|Ne].
      + apply find_sub_some in Fs. destruct Fs as [Hs Es].
        assert (Sh : forall c, In c (kids s) -> In (root_key c) bd).
        { intros c Hc. unfold bd. apply in_map_iff. exists c. split; [reflexivity|]. apply filter_In. split; [exact Hc|]. destruct (Bu s Hs Es) as [_ Q]. destruct (Q c Hc) as (Q1 & Q2 & Q3 & Q4).
          assert (U : is_tag EUse (data c) = false) by (unfold is_tag; destruct (tag (data c)) as [|e| | | |]; try reflexivity; destruct (eid_eqb_spec e EUse); congruence).
          unfold valid_clip_elem. rewrite U. apply negb_true_iff. unfold clip_shape, tag_sat, is_tag. destruct (tag (data c)) as [|e| | | |] eqn:Te; try reflexivity. rewrite (Q4 e eq_refl). destruct (eid_eqb_spec e EPath); [congruence|]. destruct (eid_eqb_spec e EText); [congruence|]. reflexivity. }
        destruct (find_sub k (remove_nodes bd u)) as [s1|] eqn:F2.
        * assert (E2 : kids s1 = []).
          { apply find_sub_some in F2. destruct F2 as [H2 E2]. destruct (kids s1) as [|c1 l1] eqn:K1; [reflexivity|]. exfalso.
            pose proof (rest_remove_nodes bd u Fu s1 H2) as (s0 & H0 & K0 & _ & C0). assert (s0 = s). { apply (sub_unique u); auto; [apply (wf_keys u (fine_wf u Fu))|]. destruct K0 as [K0 _]. unfold root_key in *. congruence. } subst s0.
            destruct (C0 c1) as (c & Hc & (Kc & _)); [rewrite K1; now left|].
            assert (X : ~ In (root_key c) (keys (remove_nodes bd u))).
            { apply removed_keys; [exact Fu|now apply Sh|]. exact (kid_key u s c (wf_keys u (fine_wf u Fu)) Hs Hc). }
            apply X. unfold root_key. rewrite <- Kc. apply in_subs_root. apply (Push.kid_sub s1 c1 _ H2). rewrite K1. now left. }
          destruct s1 as [d1 ch1]. cbn [kids] in E2. subst ch1. apply IH; auto. right. apply in_or_app. right. now left.
        * right. intros X. apply find_sub_none in F2. apply F2. exact (rest_keys _ _ (rest_clip_rounds false ks _ _ F1) k X).
      + apply IH; auto. destruct Hj as [[Hj|Hj]|Hj]; [contradiction|auto|]. right. destruct (find_sub j (remove_nodes bd u)) as [[? [|? ?]]|]; try exact Hj. apply in_or_app. now left.
    - destruct (Nat.eq_dec j k) as [->|Ne]; [|apply IH; auto; destruct Hj as [[Hj|Hj]|Hj]; [contradiction|auto|auto]].
      right. intros X. apply find_sub_none in Fs. apply Fs. exact (rest_keys _ _ (rest_clip_rounds false ks _ _ Fu) k X). }
  assert (Hc : In k (tag_keys EClipPath t)).
  { apply key_sub in Hk. destruct Hk as (s & Hs & E). unfold tag_keys. apply in_map_iff. exists (data s). split; [exact E|]. apply filter_In. split; [now apply data_of_sub|]. destruct (B s Hs E) as [Ts _]. unfold is_tag. rewrite Ts. reflexivity. }
  pose proof (rest_clip_rounds false (tag_keys EClipPath t) t [] F) as R. pose proof (fine_clip_rounds false (tag_keys EClipPath t) t [] F) as F1. specialize (G (tag_keys EClipPath t) t [] F B (or_introl Hc)).
  destruct (clip_rounds false (tag_keys EClipPath t) t []) as [t1 em]. cbn [fst snd] in *. destruct G as [G|G].
  - apply (gone_linked empty_clip Pe Pk k (rev em) t1 F1); [now apply -> in_rev|]. exact (bad_rest empty_clip Pk k _ _ R B).
  - intros X. apply G. exact (rest_keys _ _ (rest_linked (rev em) t1 F1) k X).
Qed.

(** ** The whole pass *)
Lemma display_found t r s anc : In (anc, s) (places [] r) ->
  (forall d, In d anc -> (exists e, tag d = TEl e) /\ d_get d ADisplay <> Some (VPre Vid_none)) -> (exists e, tag (data s) = TEl e) -> d_get (data s) ADisplay = Some (VPre Vid_none) -> (forall d, In d (flat s) -> is_used (key d) t = false) ->
  forall p ch, In r ch -> In (root_key s) (display_nodes t (T p ch)).
Proof.
  revert anc s. induction r as [d0 ch0 IH] using tree_ind'. intros anc s P A E D U p ch Hr. cbn [display_nodes]. apply in_flat_map. exists (T d0 ch0). split; [exact Hr|]. cbn [data].
  cbn [places] in P. destruct P as [P|P].
  - injection P as <- <-. cbn [data] in *. destruct E as [e E]. unfold is_svg_el. rewrite E. cbn [negb]. unfold disp_none. rewrite D. cbn [value_eqb]. destruct (value_eqb_spec (VPre Vid_none) (VPre Vid_none)); [|contradiction].
    assert (U0 : is_used (root_key (T d0 ch0)) t = false) by (apply U; cbn; now left). rewrite U0. cbn [negb andb].
    assert (U1 : existsb (fun n => is_used (key n) t) (flat (T d0 ch0)) = false). { destruct (existsb _ _) eqn:Q; [|reflexivity]. apply existsb_exists in Q. destruct Q as (x & Hx & Q). rewrite (U x Hx) in Q. discriminate. }
    rewrite U1. now left.
  - apply in_flat_map in P. destruct P as (c & Hc & P). rewrite TextProofs.places_app in P. apply in_map_iff in P. destruct P as ((an & s') & Q & P). cbn [fst snd] in Q. injection Q as <- ->.
    destruct (A d0) as [[e0 E0] D0]; [apply in_or_app; right; now left|]. unfold is_svg_el. rewrite E0. cbn [negb]. assert (N0 : disp_none d0 = false).
    { unfold disp_none. destruct (d_get d0 ADisplay) as [v|]; [|reflexivity]. destruct (value_eqb_spec v (VPre Vid_none)); [congruence|reflexivity]. }
    rewrite N0. cbn [andb]. rewrite Forall_forall in IH. apply (IH c Hc an s P); auto. intros d Hd. apply A. apply in_or_app. now left.
Qed.
(** What can never be seen: a path without data, a use element without a reference, a rect without width or
    height, an empty filter, a gradient with less than two stops of its own and no template, and a clip path
    without a shape (if the iterator of svgdom goes on after a removal). *)
Definition hopeless (stops : bool) (s : tree) : Prop := empty_path s \/ empty_use s \/ flat_rect s \/ empty_filter s \/ poor_gradient s \/ (stops = false /\ empty_clip s).
(** None of them is left, and neither is an element with display="none" that stands in elements without it and
    has no part that something refers to. *)
Theorem C52_invisible stops t t' : fine t -> remove_invisible stops t = Some (Ok t') ->
  (forall s, In s (subs t) -> hopeless stops s -> ~ In (root_key s) (keys t')) /\
  (forall r anc s, In r (kids t) -> In (anc, s) (places [] r) ->
     (forall d, In d anc -> (exists e, tag d = TEl e) /\ d_get d ADisplay <> Some (VPre Vid_none)) ->
     (exists e, tag (data s) = TEl e) -> d_get (data s) ADisplay = Some (VPre Vid_none) -> (forall d, In d (flat s) -> is_used (key d) t = false) -> ~ In (root_key s) (keys t')).
Proof.
  intros F E. unfold remove_invisible in E. cbv zeta in E. pose proof (wf_keys t (fine_wf t F)) as N.
  assert (At : forall (P : tree -> Prop) s, In s (subs t) -> P s -> bad P (root_key s) t).
  { intros P s Hs Ps u Hu Eu. assert (u = s) by (apply (sub_unique t); auto). now subst. }
  set (x1 := process_display (t, false)) in E. assert (F1 : fine (fst x1)) by (now apply fine_remove_nodes). assert (R1 : rest t (fst x1)) by (now apply rest_remove_nodes).
  assert (D1 : forall k, In k (display_nodes t t) -> k <> root_key t -> ~ In k (keys (fst x1))) by (intros k Hk Nk; now apply removed_keys). clearbody x1.
  set (x2 := RmInvisible.process_paths x1) in E. assert (F2 : fine (fst x2)) by (now apply fine_drain). assert (R2 : rest (fst x1) (fst x2)) by (now apply rest_drain).
  assert (D2 : forall k, bad empty_path k (fst x1) -> ~ In k (keys (fst x2))).
  { intros k B. apply (gone_drain empty_path); auto; [intros s [X _]; eauto|intros s s1 X Y _ _; exact (path_keep s s1 X Y)|].
    intros u s [Ts Hs]. unfold path_invisible, is_tag, has_data. rewrite Ts. cbn [eid_eqb]. destruct (d_get (data s) AD) as [v|] eqn:Ev; [|reflexivity]. destruct v as [| | | | | | | | | |p]; try reflexivity. destruct p; [reflexivity|]. exfalso. eapply Hs. reflexivity. }
  clearbody x2. pose proof (rest_trans _ _ _ R1 R2) as R12.
  set (x3 := process_clip_paths stops x2) in E.
  assert (FR3 : fine (fst x3) /\ rest (fst x2) (fst x3)).
  { unfold x3, process_clip_paths. destruct x2 as [t2 b2]. pose proof (fine_clip_rounds stops (tag_keys EClipPath t2) t2 [] F2) as Q. pose proof (rest_clip_rounds stops (tag_keys EClipPath t2) t2 [] F2) as Q2. destruct (clip_rounds _ _ _ _) as [u e]. cbn [fst] in *. split; [now apply fine_remove_linked|].
    exact (rest_trans _ _ _ Q2 (rest_linked _ _ Q)). }
  destruct FR3 as [F3 R3]. assert (D3 : stops = false -> forall k, bad empty_clip k (fst x2) -> ~ In k (keys (fst x3))).
  { intros -> k B. destruct x2 as [t2 b2]. cbn [fst] in *. destruct (in_dec Nat.eq_dec k (keys t2)) as [Hk|Hk]; [now apply gone_clip|]. intros X. apply Hk. exact (rest_keys _ _ R3 k X). }
  clearbody x3. pose proof (rest_trans _ _ _ R12 R3) as R13.
  set (x4 := process_empty_filter x3) in E. assert (FR4 : fine (fst x4) /\ rest (fst x3) (fst x4)) by (unfold x4, process_empty_filter; destruct x3; split; [now apply fine_remove_linked|now apply rest_linked]). destruct FR4 as [F4 R4].
  assert (D4 : forall k, bad empty_filter k (fst x3) -> ~ In k (keys (fst x4))).
  { intros k B. destruct (in_dec Nat.eq_dec k (keys (fst x3))) as [Hk|Hk]; [|intros X; apply Hk; exact (rest_keys _ _ R4 k X)].
    unfold x4, process_empty_filter. destruct x3 as [t3 b3]. cbn [fst] in *. apply (gone_linked empty_filter); auto; [intros s [X _]; eauto|intros s s1 X Y L _; exact (filter_keep s s1 X Y L)|].
    apply key_sub in Hk. destruct Hk as (s & Hs & Es). unfold filter_keys. apply in_map_iff. exists s. split; [exact Es|]. apply filter_In. split; [exact Hs|]. destruct (B s Hs Es) as [Ts Ks]. unfold is_tag. rewrite Ts, Ks. reflexivity. }
  clearbody x4. pose proof (rest_trans _ _ _ R13 R4) as R14.
  set (x5 := process_fe_color_matrix x4) in E. assert (F5 : fine (fst x5)) by (now apply fine_drain). assert (R5 : rest (fst x4) (fst x5)) by (now apply rest_drain). clearbody x5. pose proof (rest_trans _ _ _ R14 R5) as R15.
  set (x6 := process_use x5) in E. assert (F6 : fine (fst x6)) by (now apply fine_drain). assert (R6 : rest (fst x5) (fst x6)) by (now apply rest_drain).
  assert (D6 : forall k, bad empty_use k (fst x5) -> ~ In k (keys (fst x6))).
  { intros k B. apply (gone_drain empty_use); auto; [intros s [X _]; eauto|intros s s1 X Y _ _; exact (use_keep s s1 X Y)|].
    intros u s [Ts Hs]. unfold use_invisible, is_tag. rewrite Ts. cbn [eid_eqb]. unfold d_has, has_attr. unfold d_get, get_value in Hs. destruct (get_attr (attrs (data s)) AXlinkHref); [discriminate|reflexivity]. }
  clearbody x6. pose proof (rest_trans _ _ _ R15 R6) as R16.
  destruct (process_gradients x6) as [x7| |] eqn:E7; try discriminate.
  assert (FR7 : fine (fst x7) /\ rest (fst x6) (fst x7) /\ forall k, bad poor_gradient k (fst x6) -> ~ In k (keys (fst x7))).
  { unfold process_gradients in E7. destruct x6 as [t6 b6]. cbn [fst] in *. apply bind_ok in E7. destruct E7 as (t7 & P & E7). injection E7 as <-. cbn [fst].
    destruct (rest_paint (gradient_keys 1 t6) (Ok (unpaint (gradient_keys 0 t6) t6)) t6 t7) as [Fp Rp]; [|exact P|].
    { intros u Hu. injection Hu as <-. split; [now apply fine_unpaint|now apply rest_unpaint]. }
    split; [now apply fine_remove_nodes|]. pose proof (rest_remove_nodes (gradient_keys 0 t6 ++ gradient_keys 1 t6) t7 Fp) as Rn. split; [exact (rest_trans _ _ _ Rp Rn)|].
    intros k B. destruct (in_dec Nat.eq_dec k (keys t6)) as [Hk|Hk]; [|intros X; apply Hk; exact (rest_keys _ _ (rest_trans _ _ _ Rp Rn) k X)].
    apply (gone_nodes poor_gradient); auto; [intros s [[X|X] _]; eauto|intros s s1 X Y L _; exact (gradient_keep s s1 X Y L)| |].
    - apply key_sub in Hk. destruct Hk as (s & Hs & Es). destruct (B s Hs Es) as (Ts & Hh & Le).
      assert (Gs : is_grad (data s) = true) by (unfold is_grad, tag_sat; destruct Ts as [-> | ->]; reflexivity).
      assert (Nh : d_has (data s) AXlinkHref = false) by (unfold d_has, has_attr; unfold d_get, get_value in Hh; destruct (get_attr (attrs (data s)) AXlinkHref); [discriminate|reflexivity]).
      assert (Gk : forall n, List.length (kids s) = n -> In k (gradient_keys n t6)). { intros n Hn. unfold gradient_keys. apply in_map_iff. exists s. split; [exact Es|]. apply filter_In. split; [exact Hs|]. rewrite Gs, Nh, Hn, Nat.eqb_refl. reflexivity. }
      apply in_or_app. destruct (List.length (kids s)) as [|[|n]] eqn:Ln; [left; now apply Gk|right; now apply Gk|lia].
    - apply (bad_rest poor_gradient) with (t := t6); [intros s s1 X Y L _; exact (gradient_keep s s1 X Y L)|exact Rp|exact B]. }
  destruct FR7 as (F7 & R7 & D7). pose proof (rest_trans _ _ _ R16 R7) as R17.
  set (x8 := process_rect x7) in E. assert (F8 : fine (fst x8)) by (now apply fine_drain). assert (R8 : rest (fst x7) (fst x8)) by (now apply rest_drain).
  assert (D8 : forall k, bad flat_rect k (fst x7) -> ~ In k (keys (fst x8))).
  { intros k B. apply (gone_drain flat_rect); auto; [intros s [X _]; eauto|intros s s1 X Y _ _; exact (rect_keep s s1 X Y)|].
    intros u s [Ts (a & un & Ha & Hs)]. unfold rect_invisible, is_tag. rewrite Ts. cbn [eid_eqb andb]. apply orb_true_iff. unfold zero_len. cbn in Ha. destruct Ha as [<-|[<-|[]]]; rewrite Hs; cbn [num]; rewrite qeqb_refl; auto. }
  clearbody x8.
  assert (Last : incl (keys t') (keys (fst x8))).
  { destruct (snd x8); [|injection E as <-; intros k Hk; exact Hk]. intros k Hk. apply key_sub in Hk. destruct Hk as (s & Hs & <-). destruct (below_unused_defs _ _ F8 E s Hs) as (u & Hu & M & _). unfold root_key. rewrite (Mild.M_key _ _ M). now apply in_subs_root. }
  split.
  - intros s Hs H X. apply Last in X. pose proof (At) as A. destruct H as [H|[H|[H|[H|[H|[-> H]]]]]]; specialize (A _ s Hs H).
    + apply (D2 (root_key s)); [exact (bad_rest empty_path (fun s s1 X Y _ _ => path_keep s s1 X Y) _ _ _ R1 A)|]. apply (rest_keys _ _ R3), (rest_keys _ _ R4), (rest_keys _ _ R5), (rest_keys _ _ R6), (rest_keys _ _ R7), (rest_keys _ _ R8). exact X.
    + apply (D6 (root_key s)); [exact (bad_rest empty_use (fun s s1 X Y _ _ => use_keep s s1 X Y) _ _ _ R15 A)|]. apply (rest_keys _ _ R7), (rest_keys _ _ R8). exact X.
    + apply (D8 (root_key s)); [exact (bad_rest flat_rect (fun s s1 X Y _ _ => rect_keep s s1 X Y) _ _ _ R17 A)|exact X].
    + apply (D4 (root_key s)); [exact (bad_rest empty_filter (fun s s1 X Y L _ => filter_keep s s1 X Y L) _ _ _ R13 A)|]. apply (rest_keys _ _ R5), (rest_keys _ _ R6), (rest_keys _ _ R7), (rest_keys _ _ R8). exact X.
    + apply (D7 (root_key s)); [exact (bad_rest poor_gradient (fun s s1 X Y L _ => gradient_keep s s1 X Y L) _ _ _ R16 A)|]. apply (rest_keys _ _ R8). exact X.
    + apply (D3 eq_refl (root_key s)); [exact (bad_rest empty_clip (fun s s1 X Y _ C => clip_keep s s1 X Y C) _ _ _ R12 A)|]. apply (rest_keys _ _ R4), (rest_keys _ _ R5), (rest_keys _ _ R6), (rest_keys _ _ R7), (rest_keys _ _ R8). exact X.
  - intros r anc s Hr P A Es Ds U X. apply Last in X. apply (D1 (root_key s)).
    + destruct t as [d ch]. cbn [kids] in Hr. exact (display_found (T d ch) r s anc P A Es Ds U d ch Hr).
    + intros Er. assert (Hs : In s (subs t)) by (destruct t as [d ch]; cbn [subs kids] in *; right; apply in_flat_map; exists r; split; [exact Hr|exact (MoveFacts.place_sub s r [] anc P)]).
      assert (s = t) by (apply (sub_unique t); auto; apply subs_self). subst s. destruct Es as [e Es]. rewrite (fine_root t F) in Es. discriminate.
    + apply (rest_keys _ _ R2), (rest_keys _ _ R3), (rest_keys _ _ R4), (rest_keys _ _ R5), (rest_keys _ _ R6), (rest_keys _ _ R7), (rest_keys _ _ R8). exact X.
Qed.

(** The picture of C28_instance with one more clip path, whose only child is a group. *)
Definition hopeless_scene : tree := doc [el 1 ESvg [] [
  el 2 EDefs [] [
    eli 3 ELinearGradient "a" [] [el 4 EStop [at_ AStopColor (VColor 1 2 3); at_ AStopOpacity (VNum q1)] []];
    eli 5 ELinearGradient "b" [] [];
    eli 8 EClipPath "d" [] [el 9 EG [] []];
    eli 10 EFilter "e" [] []];
  el 13 EPath [at_ AD (VPath []); at_ AFill (VFunc 3)] [];
  el 14 ERect [at_ AWidth (px 5); at_ AHeight (px 5); at_ AStroke (VFunc 5)] [];
  el 15 EG [at_ AClipPath (VFunc 8)] [];
  el 16 EG [] [el 17 EG [at_ ADisplay (VPre Vid_none)] [el 18 ERect [at_ AWidth (px 5); at_ AHeight (px 5)] []]];
  el 19 EUse [] [];
  el 21 ERect [at_ AWidth (px 5); at_ AHeight (px 0)] []]].
Ltac wfa := unfold WFA, doc, el, at_; cbn [flat flat_map app]; repeat (apply Forall_cons || apply Forall_nil); unfold attrs_nodup; cbn; repeat constructor; cbn; intuition discriminate.
Example C52_invisible_instance : fine hopeless_scene /\
  (forall k, In k [3; 5; 8; 10; 13; 19; 21] -> exists s, In s (subs hopeless_scene) /\ root_key s = k /\ hopeless false s) /\
  (exists r anc s, In r (kids hopeless_scene) /\ In (anc, s) (places [] r) /\ root_key s = 17 /\ map key anc = [16; 1]) /\
  exists t', remove_invisible false hopeless_scene = Some (Ok t') /\ keys t' = [0; 1; 2; 14; 16].
Proof.
  split; [apply fine_b_spec; [vm_compute; reflexivity|wfa]|]. split.
  - intros k Hk. assert (Q : exists s, find_sub k hopeless_scene = Some s /\ hopeless false s).
    { cbn in Hk. destruct Hk as [<-|[<-|[<-|[<-|[<-|[<-|[<-|[]]]]]]]]; (eexists; split; [cbn; reflexivity|]).
      - do 4 right. left. split; [left; reflexivity|]. split; [reflexivity|cbn; lia].
      - do 4 right. left. split; [left; reflexivity|]. split; [reflexivity|cbn; lia].
      - do 5 right. split; [reflexivity|]. split; [reflexivity|]. intros c [<-|[]]. cbn. repeat split; try discriminate. intros e [= <-]. reflexivity.
      - do 3 right. left. split; reflexivity.
      - left. split; [reflexivity|]. cbn. discriminate.
      - right. left. split; reflexivity.
      - do 2 right. left. split; [reflexivity|]. exists AHeight, UNone. split; [right; now left|]. unfold px. vm_compute. reflexivity. }
    destruct Q as (s & Q & H). apply find_sub_some in Q. destruct Q as [Hs E]. eauto.
  - split.
    + eexists. eexists. eexists. split; [left; reflexivity|]. split; [cbn; do 12 right; left; reflexivity|]. split; reflexivity.
    + eexists. split; [vm_compute; reflexivity|reflexivity].
Qed.
