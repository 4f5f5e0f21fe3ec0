(** Merging gradients: one merge, the removal, all rounds. *)
From Coq Require Import List Bool NArith Arith ZArith String Lia Permutation.
From Verif Require Import Names Num Value Dom DomFacts DomOps DomRemove Outcome APass SpecDom SpecText Visit Move MoveFacts GroupDefsProofs GradUnits SpecGradients SpecWritten GradProofs GradTransProofs GradUnitsProofs SpecDupl DuplProofs Graft MergeGradients SpecMerge.
Import ListNotations.
Local Open Scope nat_scope.

(** ** Attributes *)
Definition vis_in (l : ndata) (a : aid) : bool := match get_attr (attrs l) a with Some x => a_vis x | None => false end.
Definition shown (l : ndata) (L : list aid) (x : attr) : attr :=
  if existsb (fun a => has_name (AN a) x && vis_in l a) L then At (a_name x) (a_val x) true else x.
Lemma shown_name l L x : a_name (shown l L x) = a_name x.
Proof. unfold shown. now destruct existsb. Qed.
Lemma shown_val l L x : a_val (shown l L x) = a_val x.
Proof. unfold shown. now destruct existsb. Qed.
Lemma shown_vis l L x : a_vis x = true -> a_vis (shown l L x) = true.
Proof. unfold shown. intros H. now destruct existsb. Qed.
Lemma show_all l L : forall as_, fold_left (show_linked l) L as_ = map (shown l L) as_.
Proof.
  induction L as [|a L IH]; intros as_; cbn [fold_left]; [unfold shown; cbn; now rewrite map_id|]. rewrite IH. unfold show_linked.
  assert (E : (match get_attr (attrs l) a with Some x => if a_vis x then show_attr as_ a else as_ | None => as_ end) = if vis_in l a then show_attr as_ a else as_) by (unfold vis_in; destruct (get_attr (attrs l) a); reflexivity).
  rewrite E. clear E. destruct (vis_in l a) eqn:V.
  - unfold show_attr. rewrite map_map. apply map_ext. intros x. unfold shown. cbn [existsb]. rewrite V, andb_true_r. destruct (has_name (AN a) x) eqn:H; cbn [orb a_name a_val].
    + unfold has_name. cbn. destruct existsb; reflexivity.
    + reflexivity.
  - apply map_ext. intros x. unfold shown. cbn [existsb]. now rewrite V, andb_false_r.
Qed.
Definition mattrs (d : ndata) : list aid := if is_tag ELinearGradient d then lg_attributes else rg_attributes.
Lemma take_closed l d : attrs (take_attrs l d) = map (shown l (mattrs d)) (rm_attr (attrs d) AXlinkHref).
Proof. unfold take_attrs. cbn. apply show_all. Qed.
Lemma mattrs_iff d a : gradient_node d -> In a (mattrs d) <-> In a (gradient_attrs d).
Proof.
  unfold mattrs, is_tag, gradient_attrs. intros [H|H]; rewrite H; cbn; intuition.
Qed.
Lemma take_in l d x' : In x' (attrs (take_attrs l d)) <-> exists x, In x (attrs d) /\ a_name x <> AN AXlinkHref /\ x' = shown l (mattrs d) x.
Proof.
  rewrite take_closed, in_map_iff. unfold rm_attr. split.
  - intros (x & <- & H). apply filter_In in H. destruct H as [H E]. apply negb_true_iff, has_name_false in E. eauto.
  - intros (x & H & E & ->). exists x. split; [reflexivity|]. apply filter_In. split; [exact H|]. apply negb_true_iff, has_name_false. exact E.
Qed.
Lemma take_nodup l d : attrs_nodup d -> attrs_nodup (take_attrs l d).
Proof.
  unfold attrs_nodup. rewrite take_closed, map_map. intros H. rewrite (map_ext _ a_name) by apply shown_name. unfold rm_attr. now apply NoDup_map_filter.
Qed.
Lemma get_map (f : attr -> attr) l a : (forall x, a_name (f x) = a_name x) -> get_attr (map f l) a = option_map f (get_attr l a).
Proof.
  intros F. unfold get_attr. induction l as [|x l IH]; cbn; [reflexivity|]. unfold has_name at 1 3. rewrite F. destruct (aname_eqb (a_name x) (AN a)) eqn:E; [reflexivity|exact IH].
Qed.
Lemma take_get l d a : a <> AXlinkHref -> get_attr (attrs (take_attrs l d)) a = option_map (shown l (mattrs d)) (get_attr (attrs d) a).
Proof. intros H. rewrite take_closed, get_map by apply shown_name. rewrite get_rm_other by congruence. reflexivity. Qed.
Lemma take_href l d : get_attr (attrs (take_attrs l d)) AXlinkHref = None.
Proof. rewrite take_closed, get_map by apply shown_name. now rewrite get_rm_same. Qed.
Lemma take_dget l d a : a <> AXlinkHref -> d_get (take_attrs l d) a = d_get d a.
Proof. intros H. unfold d_get, get_value. rewrite take_get by exact H. destruct (get_attr (attrs d) a); cbn; [now rewrite shown_val|reflexivity]. Qed.
Lemma dget_attr d a : d_get d a = option_map a_val (get_attr (attrs d) a).
Proof. reflexivity. Qed.
Lemma take_vis l d a : attrs_nodup d -> gradient_node d -> In a (gradient_attrs d) -> a <> AXlinkHref ->
  d_get (vis (take_attrs l d)) a = if vis_in l a then d_get d a else d_get (vis d) a.
Proof.
  intros N G Ha H. rewrite !vis_dget by (try apply take_nodup; exact N). rewrite take_get by exact H. rewrite dget_attr. destruct (get_attr (attrs d) a) as [x|] eqn:E; cbn; [|now destruct vis_in].
  destruct (get_attr_some _ _ _ E) as [_ Nx]. unfold shown. destruct (vis_in l a) eqn:V.
  - assert (X : existsb (fun b => has_name (AN b) x && vis_in l b) (mattrs d) = true). { apply existsb_exists. exists a. split; [now apply mattrs_iff|]. rewrite V, andb_true_r. now apply has_name_true. }
    rewrite X. reflexivity.
  - assert (X : existsb (fun b => has_name (AN b) x && vis_in l b) (mattrs d) = false).
    { apply not_true_is_false. intros Q. apply existsb_exists in Q. destruct Q as (b & _ & Q). apply andb_true_iff in Q. destruct Q as [Q1 Q2]. apply has_name_true in Q1. rewrite Nx in Q1. inversion Q1; subst. congruence. }
    rewrite X. reflexivity.
Qed.
Lemma vis_in_get l a : attrs_nodup l -> vis_in l a = match d_get (vis l) a with Some _ => true | None => false end.
Proof. intros N. rewrite vis_dget by exact N. unfold vis_in. destruct (get_attr (attrs l) a) as [x|]; [|reflexivity]. now destruct (a_vis x). Qed.
Lemma take_refers l d k : attrs_nodup d -> refers_to (take_attrs l d) k -> refers_to d k.
Proof. intros N (x' & H & E). apply take_in in H. destruct H as (x & Hx & _ & ->). rewrite shown_val in E. exists x. auto. Qed.
Lemma take_relaxed l d : relaxed d (take_attrs l d).
Proof.
  split; [reflexivity|]. split; [reflexivity|]. split; [reflexivity|]. split.
  - intros x' H. apply take_in in H. destruct H as (x & Hx & _ & ->). exists x. split; [exact Hx|]. split; [apply shown_name|]. split; [apply shown_val|apply shown_vis].
  - intros x Hx Nx. exists (shown l (mattrs d) x). split; [apply take_in; eauto|]. split; [apply shown_name|apply shown_val].
Qed.
Lemma relaxed_refl d : relaxed d d.
Proof. unfold relaxed. repeat (split; [reflexivity|]). split; intros x Hx; eauto 6. Qed.
Lemma relaxed_trans a b c : relaxed a b -> relaxed b c -> relaxed a c.
Proof.
  intros (A1 & A2 & A3 & A4 & A5) (B1 & B2 & B3 & B4 & B5). split; [congruence|]. split; [congruence|]. split; [congruence|]. split.
  - intros x H. destruct (B4 x H) as (y & Hy & E1 & E2 & E3). destruct (A4 y Hy) as (z & Hz & F1 & F2 & F3). exists z. split; [exact Hz|]. split; [congruence|]. split; [congruence|auto].
  - intros x H N. destruct (A5 x H N) as (y & Hy & E1 & E2). destruct (B5 y Hy) as (z & Hz & F1 & F2); [congruence|]. exists z. split; [exact Hz|]. split; congruence.
Qed.
Lemma relaxed_grad d d' : relaxed d d' -> gradient_node d' <-> gradient_node d.
Proof. intros (_ & E & _). unfold gradient_node. now rewrite E. Qed.
Lemma relaxed_refers d d' k : relaxed d d' -> refers_to d' k -> refers_to d k.
Proof. intros (_ & _ & _ & E & _) (x & Hx & L). destruct (E x Hx) as (y & Hy & _ & V & _). exists y. split; [exact Hy|congruence]. Qed.

(** ** One merge *)
Definition shrunk (a : aid) (o0 o : option value) : Prop := o = o0 \/ (a = AGradientTransform /\ o0 = Some identity /\ o = None).
Lemma once_unique t k u : NoDup (keys t) -> uses_count k t = 1 -> In u (flat t) -> refers_to u k -> forall x, In x (flat t) -> refers_to x k -> x = u.
Proof.
  unfold uses_count, linked_nodes. intros N C Hu Ru x Hx Rx. destruct (Nat.eq_dec (key x) (key u)) as [E|E]; [now apply (data_unique t)|exfalso].
  assert (M : forall d, In d (flat t) -> refers_to d k -> exists nm, In (key d, nm) (flat_map (fun d => map (fun a => (key d, a_name a)) (filter (refers k) (attrs d))) (flat t))).
  { intros d Hd (y & Hy & L). exists (a_name y). apply in_flat_map. exists d. split; [exact Hd|]. apply in_map_iff. exists y. split; [reflexivity|]. apply filter_In. split; [exact Hy|]. unfold refers. rewrite L. apply Nat.eqb_refl. }
  destruct (M u Hu Ru) as (a & Ha), (M x Hx Rx) as (b & Hb). destruct (flat_map _ (flat t)) as [|p [|q l]]; [destruct Ha| |discriminate].
  destruct Ha as [Ha|[]], Hb as [Hb|[]]. subst p. inversion Hb. congruence.
Qed.
Lemma mready_unnested t : mready t -> unnested t.
Proof. intros M. apply unnested_ctx. apply (m_nest _ M). Qed.
Lemma gsub_flat t s : In s (gsubs t) -> In (data s) (flat t) /\ gradient_node (data s).
Proof. intros H. destruct (gsubs_subs t s H) as [A B]. split; [now apply data_of_sub|now apply gradient_iff]. Qed.
Lemma flat_gsub t d : mready t -> In d (flat t) -> gradient_node d -> exists s, In s (gsubs t) /\ data s = d.
Proof.
  intros M H G. rewrite <- map_data_subs in H. apply in_map_iff in H. destruct H as (s & <- & Hs). exists s. split; [|reflexivity]. apply grad_sub; [now apply mready_unnested|exact Hs|now apply gradient_iff].
Qed.
Lemma href_val t d : mready t -> In d (flat t) -> gradient_node d -> d_get (vis d) AXlinkHref = d_get d AXlinkHref.
Proof.
  intros M H G. rewrite vis_dget by exact (proj1 (Forall_forall _ _) (m_wfa _ M) d H). rewrite dget_attr. destruct (get_attr (attrs d) AXlinkHref) as [x|] eqn:E; [|reflexivity].
  destruct (get_attr_some _ _ _ E) as [Hx Nx]. destruct (m_hrefs _ M d x H G Hx Nx) as [V _]. now rewrite V.
Qed.
Lemma href_target t d v : mready t -> In d (flat t) -> gradient_node d -> d_get d AXlinkHref = Some v -> exists y, In y (flat t) /\ v = VLink (key y) /\ tag y = tag d.
Proof.
  intros M H G E. rewrite dget_attr in E. destruct (get_attr (attrs d) AXlinkHref) as [x|] eqn:Q; [|discriminate]. cbn in E. inversion E as [E']. destruct (get_attr_some _ _ _ Q) as [Hx Nx].
  destruct (m_hrefs _ M d x H G Hx Nx) as (_ & y & Hy & Ey & Ty). exists y. split; [exact Hy|]. split; [exact Ey|exact Ty].
Qed.
Lemma ref_is_href t d k : mready t -> In d (flat t) -> gradient_node d -> refers_to d k -> d_get d AXlinkHref = Some (VLink k).
Proof.
  intros M H G (x & Hx & L). pose proof (m_links _ M d x k H G Hx L) as Nx. rewrite dget_attr. rewrite (get_attr_in _ x) by (try exact Hx; try exact Nx; exact (proj1 (Forall_forall _ _) (m_wfa _ M) d H)). cbn.
  destruct (m_hrefs _ M d x H G Hx Nx) as (_ & y & _ & Ey & _). rewrite Ey in *. cbn in L. congruence.
Qed.
Lemma inner_quiet t s d : mready t -> In s (gsubs t) -> In d (flat_map flat (kids s)) -> (forall k, ~ refers_to d k) /\ forall x, In x (flat t) -> ~ refers_to x (key d).
Proof.
  intros M Hs Hd. destruct (proj2 (inner_ctx t d (mready_unnested _ M))) as (a & p & H & Hp & G); [eauto|]. exact (m_inner _ M a d p H Hp (proj1 (gradient_iff p) G)).
Qed.
Lemma not_href_attr d a : In a (gradient_attrs d) -> a <> AXlinkHref.
Proof. unfold gradient_attrs. destruct (tag d) as [|[]| | | |]; cbn; try contradiction; intros H ->; intuition discriminate. Qed.
Lemma tag_gattrs d d' : tag d' = tag d -> gradient_attrs d' = gradient_attrs d.
Proof. unfold gradient_attrs. now intros ->. Qed.
Lemma tag_grad d d' : tag d' = tag d -> gradient_node d -> gradient_node d'.
Proof. unfold gradient_node. now intros ->. Qed.
Lemma gsubs_nodup t : NoDup (keys t) -> NoDup (map root_key (gsubs t)).
Proof.
  intros N. assert (P : Permutation (keys t) (map key (map snd (outs [] t)) ++ flat_map keys (gsubs t))).
  { unfold keys at 1. rewrite (Permutation_map key (flat_parts t [])). rewrite map_app. rewrite (flat_map_concat_map keys), (flat_map_concat_map flat), concat_map. rewrite (map_map flat (map key)). reflexivity. }
  apply (Permutation_NoDup P) in N. apply NoDup_app_inv in N. destruct N as (_ & N & _). clear P. induction (gsubs t) as [|s l IH]; cbn in *; [constructor|].
  apply NoDup_app_inv in N. destruct N as (A & B & C). constructor; [|now apply IH]. intros H. apply in_map_iff in H. destruct H as (u & E & Hu). apply (C (root_key s)); [unfold keys; destruct s; now left|].
  apply in_flat_map. exists u. split; [exact Hu|]. rewrite <- E. destruct u; now left.
Qed.

Section Step.
Variables (t sN sL : tree).
Hypothesis M : mready t.
Hypothesis HN : In sN (gsubs t).
Hypothesis HL : In sL (gsubs t).
Notation n := (data sN).
Notation l := (data sL).
Notation kN := (root_key sN).
Notation kL := (root_key sL).
Hypothesis Hhref : d_get n AXlinkHref = Some (VLink kL).
Hypothesis Hlast : d_get l AXlinkHref = None.
Hypothesis Honce : uses_count kL t = 1.
Definition mv : bool := match kids sN with [] => true | _ => false end.
Definition fN (d : ndata) : ndata := if Nat.eqb (key d) kN then take_attrs l d else d.
Definition gN (s : tree) : tree :=
  if Nat.eqb (root_key s) kN then T (take_attrs l (data s)) (if mv then kids sL else kids s)
  else if Nat.eqb (root_key s) kL then T (data s) (if mv then [] else kids s) else s.
Definition t1 : tree := rg gN t.
Let N : NoDup (keys t) := wf_keys t (m_wf _ M).
Let U : unnested t := mready_unnested t M.
Lemma ndN : In n (flat t) /\ gradient_node n. Proof. now apply gsub_flat. Qed.
Lemma ndL : In l (flat t) /\ gradient_node l. Proof. now apply gsub_flat. Qed.
Lemma neNL : kN <> kL.
Proof. intros E. assert (X : sN = sL) by (apply (sub_unique t); [exact N|now apply gsubs_subs|now apply gsubs_subs|exact E]). rewrite X in Hhref. congruence. Qed.
Lemma tagL : tag l = tag n.
Proof.
  destruct ndN as [A B]. destruct (href_target t n _ M A B Hhref) as (y & Hy & E & Ty). inversion E as [E']. rewrite <- Ty. f_equal. apply (data_unique t); [exact N|apply ndL|exact Hy|exact E'].
Qed.
Lemma only_user x : In x (flat t) -> refers_to x kL -> x = n.
Proof. intros Hx R. apply (once_unique t kL n N Honce); [apply ndN|now apply href_refers|exact Hx|exact R]. Qed.
Lemma gN_grad s : In s (gsubs t) -> is_gradient (data (gN s)) = true.
Proof.
  intros H. destruct (gsubs_subs t s H) as [_ G]. unfold gN. destruct (Nat.eqb (root_key s) kN); [exact G|]. destruct (Nat.eqb (root_key s) kL); exact G.
Qed.
Lemma gN_data s : data (gN s) = fN (data s).
Proof. unfold gN, fN, root_key. destruct (Nat.eqb (key (data s)) (key (data sN))); [reflexivity|]. destruct (Nat.eqb (key (data s)) (key (data sL))); reflexivity. Qed.
Lemma fN_key d : key (fN d) = key d. Proof. unfold fN. destruct Nat.eqb; reflexivity. Qed.
Lemma fN_tag d : tag (fN d) = tag d. Proof. unfold fN. destruct Nat.eqb; reflexivity. Qed.
Lemma fN_other d : key d <> kN -> fN d = d. Proof. intros H. unfold fN. destruct (Nat.eqb_spec (key d) kN); [contradiction|reflexivity]. Qed.
Lemma fN_grad d : gradient_node (fN d) <-> gradient_node d. Proof. unfold gradient_node. now rewrite fN_tag. Qed.
Lemma gN_root s : root_key (gN s) = root_key s. Proof. unfold root_key. rewrite gN_data. apply fN_key. Qed.
Lemma gN_L : gN sL = T l (if mv then [] else kids sL).
Proof. unfold gN. destruct (Nat.eqb_spec (root_key sL) kN) as [E|E]; [exfalso; apply neNL; congruence|]. now rewrite Nat.eqb_refl. Qed.
Lemma gN_N : gN sN = T (take_attrs l n) (if mv then kids sL else kids sN).
Proof. unfold gN. now rewrite Nat.eqb_refl. Qed.
Lemma gN_other s : root_key s <> kN -> root_key s <> kL -> gN s = s.
Proof. intros A B. unfold gN. destruct (Nat.eqb_spec (root_key s) kN); [contradiction|]. destruct (Nat.eqb_spec (root_key s) kL); [contradiction|reflexivity]. Qed.
Lemma inner_f s d : In s (gsubs t) -> In d (flat_map flat (kids s)) -> fN d = d.
Proof.
  intros Hs Hd. apply fN_other. intros E. apply (inner_key kN t s U) in Hs.
  - apply Hs. apply in_flat_map in Hd. destruct Hd as (c & Hc & Hd). apply in_flat_map. exists c. split; [exact Hc|]. rewrite <- E. now apply in_map.
  - intros x Hx Ex. rewrite (data_unique t x n N Hx (proj1 ndN) Ex). apply gradient_iff, ndN.
Qed.
Lemma flat_map_flat_map s : In s (gsubs t) -> map fN (flat s) = fN (data s) :: flat_map flat (kids s).
Proof.
  intros H. destruct s as [x ch] eqn:E. cbn. f_equal. rewrite <- (map_id (flat_map flat ch)) at 2. apply map_ext_in. intros d Hd. apply (inner_f s); rewrite E; assumption.
Qed.
Lemma perm_flat : Permutation (flat t1) (map fN (flat t)).
Proof.
  rewrite (flat_parts t1 []). unfold t1. rewrite outs_rg, gsubs_rg by exact gN_grad. rewrite (Permutation_map fN (flat_parts t [])), map_app. apply Permutation_app.
  - assert (E : map fN (map snd (outs [] t)) = map snd (outs [] t)); [|now rewrite E]. rewrite <- (map_id (map snd _)) at 2. apply map_ext_in. intros d Hd. apply in_map_iff in Hd. destruct Hd as ([a x] & E & Hd). cbn in E. subst x. apply fN_other. intros E.
    apply outs_ctx0 in Hd. destruct Hd as [Hd Q]. assert (X : d = n) by (apply (data_unique t); [exact N|exact (ctx_in_flat _ _ _ Hd)|apply ndN|exact E]). specialize (Q d (or_introl eq_refl)). rewrite X in Q. rewrite (proj2 (gradient_iff n) (proj2 ndN)) in Q. discriminate.
  - pose proof (gsubs_nodup t N) as ND. assert (P : exists r, Permutation (gsubs t) (sN :: sL :: r)).
    { destruct (in_split sN (gsubs t) HN) as (l1 & l2 & E). assert (X : In sL (l1 ++ l2)). { pose proof HL as HL'. rewrite E in HL'. apply in_app_iff in HL'. apply in_app_iff. destruct HL' as [?|[Q|?]]; [now left| |now right]. exfalso. apply neNL. now rewrite Q. }
      destruct (in_split sL (l1 ++ l2) X) as (m1 & m2 & E'). exists (m1 ++ m2). rewrite E. rewrite <- Permutation_middle. constructor. rewrite E'. now rewrite <- Permutation_middle. }
    destruct P as (r & P). assert (ND' : NoDup (map root_key (sN :: sL :: r))) by (apply (Permutation_NoDup (Permutation_map root_key P)); exact ND).
    assert (R : map gN r = r). { rewrite <- (map_id r) at 2. apply map_ext_in. intros s Hs. inversion ND' as [|? ? A B]; subst. inversion B as [|? ? C D]; subst. apply gN_other; intros E; [apply A; right|apply C]; rewrite <- E; now apply in_map. }
    rewrite (Permutation_flat_map flat (Permutation_map gN P)). rewrite (Permutation_map fN (Permutation_flat_map flat P)). cbn [map flat_map]. rewrite R, !map_app, gN_N, gN_L, flat_map_flat_map, flat_map_flat_map by assumption.
    assert (F : map fN (flat_map flat r) = flat_map flat r).
    { rewrite <- (map_id (flat_map flat r)) at 2. apply map_ext_in. intros d Hd. apply in_flat_map in Hd. destruct Hd as (s & Hs & Hd). assert (In s (gsubs t)) as Hs' by (apply (Permutation_in _ (Permutation_sym P)); right; now right).
      destruct s as [x ch] eqn:E. destruct Hd as [<-|Hd]; [|apply (inner_f s); rewrite E; assumption]. apply fN_other. intros Q. inversion ND' as [|? ? A B]; subst. apply A. right. apply in_map_iff. exists (T x ch). split; [exact Q|exact Hs]. }
    rewrite F. unfold fN at 1. unfold root_key at 1. rewrite Nat.eqb_refl. rewrite (fN_other l) by (intros E; apply neNL; symmetry; exact E). cbn [flat]. unfold mv. destruct (kids sN) as [|c ch] eqn:E.
    + cbn [flat_map app]. constructor. rewrite <- Permutation_middle. reflexivity.
    + reflexivity.
Qed.
Lemma flat_t1 x' : In x' (flat t1) <-> exists x, In x (flat t) /\ x' = fN x.
Proof.
  split.
  - intros H. apply (Permutation_in _ perm_flat) in H. apply in_map_iff in H. destruct H as (x & <- & H). eauto.
  - intros (x & H & ->). apply (Permutation_in _ (Permutation_sym perm_flat)). now apply in_map.
Qed.
Lemma perm_keys : Permutation (keys t1) (keys t).
Proof. unfold keys. rewrite (Permutation_map key perm_flat), map_map. rewrite (map_ext _ key) by apply fN_key. reflexivity. Qed.
Lemma nodup_t1 : NoDup (keys t1). Proof. apply (Permutation_NoDup (Permutation_sym perm_keys) N). Qed.
Lemma fN_n : fN n = take_attrs l n. Proof. unfold fN, root_key. now rewrite Nat.eqb_refl. Qed.
Lemma fN_cases d : In d (flat t) -> d = n \/ (key d <> kN /\ fN d = d).
Proof. intros H. destruct (Nat.eq_dec (key d) kN) as [E|E]; [left; apply (data_unique t); [exact N|exact H|apply ndN|exact E]|right; split; [exact E|now apply fN_other]]. Qed.
Lemma nd d : In d (flat t) -> attrs_nodup d. Proof. exact (proj1 (Forall_forall _ _) (m_wfa _ M) d). Qed.
Lemma fN_refers d k : In d (flat t) -> refers_to (fN d) k -> refers_to d k.
Proof. intros H R. destruct (fN_cases d H) as [->|[_ E]]; [rewrite fN_n in R; apply (take_refers l); [now apply nd|exact R]|now rewrite E in R]. Qed.
Lemma refers_fN d k : In d (flat t) -> refers_to d k -> k <> kL -> refers_to (fN d) k.
Proof.
  intros H R Nk. destruct (fN_cases d H) as [->|[_ E]]; [|now rewrite E]. exfalso. apply Nk. pose proof (ref_is_href t n k M H (proj2 ndN) R) as Q. congruence.
Qed.
Lemma dead_L x : In x (flat t1) -> ~ refers_to x kL.
Proof.
  intros H R. apply flat_t1 in H. destruct H as (d & Hd & ->). pose proof (only_user d Hd (fN_refers d kL Hd R)) as E. subst d. rewrite fN_n in R. destruct R as (x' & H & L). apply take_in in H. destruct H as (x & Hx & Nx & ->). rewrite shown_val in L. apply Nx. exact (m_links _ M n x kL Hd (proj2 ndN) Hx L).
Qed.
Lemma fN_dget d a : In d (flat t) -> a <> AXlinkHref -> d_get (fN d) a = d_get d a.
Proof. intros H Na. destruct (fN_cases d H) as [->|[_ E]]; [rewrite fN_n; now apply take_dget|now rewrite E]. Qed.
Lemma fN_href d : In d (flat t) -> key d <> kN -> d_get (fN d) AXlinkHref = d_get d AXlinkHref.
Proof. intros H E. now rewrite fN_other. Qed.
Lemma n_nohref : d_get (take_attrs l n) AXlinkHref = None.
Proof. rewrite dget_attr, take_href. reflexivity. Qed.
Lemma n_vnohref : d_get (vis (take_attrs l n)) AXlinkHref = None.
Proof. rewrite vis_dget by (apply take_nodup, nd, ndN). now rewrite take_href. Qed.
Lemma n_vis a : In a (gradient_attrs n) -> d_get (vis (take_attrs l n)) a = if vis_in l a then d_get n a else d_get (vis n) a.
Proof. intros Ha. apply take_vis; [apply nd, ndN|apply ndN|exact Ha|exact (not_href_attr _ _ Ha)]. Qed.
Lemma next_in d k x : In d (flat t) -> gradient_node d -> d_get (vis d) AXlinkHref = Some (VLink k) -> In x (flat (written t)) -> key x = k ->
  exists y, In y (flat t) /\ x = vis y /\ tag y = tag d /\ key y = k.
Proof.
  intros H G E Hx Kx. rewrite (href_val t d M H G) in E. destruct (href_target t d _ M H G E) as (y & Hy & Ey & Ty). inversion Ey as [Ek]. exists y. split; [exact Hy|]. split; [|split; [exact Ty|reflexivity]].
  apply (data_unique (written t)); [unfold written; rewrite keys_tmap; [exact N|reflexivity]|exact Hx|now apply in_w|cbn; congruence].
Qed.
Lemma own_L a w : In a (gradient_attrs n) -> d_get (vis n) a = None -> d_get (vis l) a = Some w -> along_href (written t) a (vis n) (Some w).
Proof.
  intros Ha E F. apply ah_next with (k := kL) (x := vis l); [exact E|rewrite (href_val t n M) by apply ndN; exact Hhref|apply in_w, ndL|reflexivity|]. now apply ah_own.
Qed.
Lemma carried_L a w : In a (gradient_attrs n) -> d_get (vis n) a = None -> d_get (vis l) a = Some w -> same_value a (Some w) (d_get n a).
Proof. intros Ha E F. apply (m_carried _ M n a w); [apply ndN|apply ndN|exact Ha|now apply own_L]. Qed.
Lemma along_forward a y o0 : along_href (written t) a y o0 -> forall d, y = vis d -> In d (flat t) -> gradient_node d -> In a (gradient_attrs d) ->
  exists o, along_href (written t1) a (vis (fN d)) o /\ shrunk a o0 o.
Proof.
  induction 1 as [y v E|y E F|y k x r E F Hx Kx A IH]; intros d -> Hd G Ha.
  - destruct (fN_cases d Hd) as [->|[_ Q]]; [|rewrite Q; exists (Some v); split; [now apply ah_own|now left]]. rewrite fN_n. exists (Some v). split; [|now left]. apply ah_own. rewrite n_vis by exact Ha.
    destruct (vis_in l a); [|exact E]. apply (vis_dget_some n a v); [now apply nd|exact E].
  - destruct (fN_cases d Hd) as [->|[_ Q]]; [|rewrite Q; exists None; split; [now apply ah_end|now left]]. rewrite (href_val t n M Hd G) in F. congruence.
  - destruct (next_in d k x Hd G F Hx Kx) as (z & Hz & -> & Tz & Kz). destruct (fN_cases d Hd) as [->|[Nd Q]].
    + assert (Ez : z = l). { apply (data_unique t); [exact N|exact Hz|apply ndL|]. rewrite (href_val t n M Hd G) in F. unfold root_key in Hhref. congruence. }
      subst z. rewrite fN_n. inversion A as [? v E2|? E2 F2|? k2 ? ? E2 F2]; subst.
      * assert (V : vis_in l a = true) by (rewrite vis_in_get by (apply nd, ndL); now rewrite E2).
        pose proof (carried_L a v Ha E E2) as C. exists (d_get n a). split.
        -- destruct (d_get n a) as [w|] eqn:W; [apply ah_own; rewrite n_vis, V by exact Ha; exact W|apply ah_end; [rewrite n_vis, V by exact Ha; exact W|apply n_vnohref]].
        -- destruct C as [C|(C1 & C2 & C3)]; [left; congruence|]. destruct C2 as [C2|[C2|[]]]; [discriminate|]. destruct C3 as [C3|[C3|[]]]; [right; repeat split; auto; congruence|left; congruence].
      * exists None. split; [|now left]. assert (V : vis_in l a = false) by (rewrite vis_in_get by (apply nd, ndL); now rewrite E2). apply ah_end; [rewrite n_vis, V by exact Ha; exact E|apply n_vnohref].
      * exfalso. rewrite (href_val t l M) in F2 by apply ndL. congruence.
    + destruct (IH z eq_refl Hz (tag_grad _ _ Tz G)) as (o & A' & S); [now rewrite (tag_gattrs _ _ Tz)|]. exists o. split; [|exact S]. rewrite Q. apply ah_next with (k := k) (x := vis (fN z)); [exact E|exact F| |cbn; rewrite fN_key; exact Kz|exact A'].
      apply in_w, flat_t1. eauto.
Qed.
Lemma along_backward a y o : along_href (written t1) a y o -> forall d, y = vis (fN d) -> In d (flat t) -> gradient_node d -> In a (gradient_attrs d) ->
  exists o0, along_href (written t) a (vis d) o0 /\ shrunk a o0 o.
Proof.
  induction 1 as [y v E|y E F|y k x r E F Hx Kx A IH]; intros d -> Hd G Ha.
  - destruct (fN_cases d Hd) as [->|[_ Q]]; [|rewrite Q in E; exists (Some v); split; [now apply ah_own|now left]]. rewrite fN_n, n_vis in E by exact Ha. destruct (d_get (vis n) a) as [w|] eqn:W.
    + exists (Some w). split; [now apply ah_own|]. left. destruct (vis_in l a); [|congruence]. apply (vis_dget_some n a w) in W; [congruence|now apply nd].
    + destruct (vis_in l a) eqn:V; [|discriminate]. rewrite vis_in_get in V by (apply nd, ndL). destruct (d_get (vis l) a) as [w|] eqn:W2; [|discriminate]. exists (Some w). split; [now apply own_L|]. pose proof (carried_L a w Ha W W2) as C. rewrite E in C.
      destruct C as [C|(C1 & C2 & C3)]; [left; congruence|]. destruct C2 as [C2|[C2|[]]]; [discriminate|]. destruct C3 as [C3|[C3|[]]]; [discriminate|left; congruence].
  - destruct (fN_cases d Hd) as [->|[_ Q]]; [|rewrite Q in *; exists None; split; [now apply ah_end|now left]]. rewrite fN_n, n_vis in E by exact Ha. destruct (vis_in l a) eqn:V.
    + rewrite vis_in_get in V by (apply nd, ndL). destruct (d_get (vis l) a) as [w|] eqn:W2; [|discriminate]. assert (W : d_get (vis n) a = None) by (destruct (d_get (vis n) a) as [u|] eqn:W; [apply (vis_dget_some n a u) in W; [congruence|now apply nd]|reflexivity]).
      exists (Some w). split; [now apply own_L|]. pose proof (carried_L a w Ha W W2) as C. rewrite E in C. destruct C as [C|(C1 & C2 & C3)]; [discriminate|]. destruct C2 as [C2|[C2|[]]]; [discriminate|]. right. repeat split; auto.
    + exists None. split; [|now left]. rewrite vis_in_get in V by (apply nd, ndL). apply ah_next with (k := kL) (x := vis l); [exact E|rewrite (href_val t n M) by apply ndN; exact Hhref|apply in_w, ndL|reflexivity|]. apply ah_end; [now destruct (d_get (vis l) a)|rewrite (href_val t l M) by apply ndL; exact Hlast].
  - destruct (fN_cases d Hd) as [->|[Nd Q]]; [exfalso; rewrite fN_n, n_vnohref in F; discriminate|]. rewrite Q in E, F. rewrite (href_val t d M Hd G) in F. destruct (href_target t d _ M Hd G F) as (z & Hz & Ez & Tz). inversion Ez as [Ek].
    assert (X : x = vis (fN z)). { apply (data_unique (written t1)); [unfold written; rewrite keys_tmap; [exact nodup_t1|reflexivity]|exact Hx|apply in_w, flat_t1; eauto|cbn; rewrite fN_key; congruence]. }
    destruct (IH z X Hz (tag_grad _ _ Tz G)) as (o0 & A' & S); [now rewrite (tag_gattrs _ _ Tz)|]. exists o0. split; [|exact S]. apply ah_next with (k := k) (x := vis z); [exact E|rewrite (href_val t d M Hd G); exact F|now apply in_w|cbn; congruence|exact A'].
Qed.
Lemma effective_step a v d y : effective (written t) y a v -> y = vis d -> In d (flat t) -> gradient_node d -> In a (gradient_attrs d) ->
  exists v', effective (written t1) (vis (fN d)) a v' /\ same_value a v v'.
Proof.
  intros E Ey Hd G. subst y. induction E as [a v A|a A Na|a v Ea A E IH|a v Ea A E IH]; intros Ha.
  - destruct (along_forward a _ _ A d eq_refl Hd G Ha) as (o & B & S). destruct S as [->|(-> & S1 & ->)]; [exists (Some v); split; [now apply eff_found|now left]|].
    inversion S1; subst. exists None. split; [apply (eff_default (written t1) _ AGradientTransform); [exact B|cbn; intuition discriminate]|right; cbn; auto].
  - destruct (along_forward a _ _ A d eq_refl Hd G Ha) as (o & B & S). destruct S as [->|(_ & S1 & _)]; [|discriminate]. exists (gradient_default a). split; [now apply eff_default|now left].
  - destruct (along_forward a _ _ A d eq_refl Hd G Ha) as (o & B & S). destruct S as [->|(_ & S1 & _)]; [|discriminate]. destruct IH as (v' & E' & S').
    { subst a. revert Ha. unfold gradient_attrs. destruct (tag d) as [|[]| | | |]; cbn; intuition discriminate. }
    exists v'. split; [now apply eff_fx|]. destruct S' as [->|(Q & _)]; [now left|discriminate].
  - destruct (along_forward a _ _ A d eq_refl Hd G Ha) as (o & B & S). destruct S as [->|(_ & S1 & _)]; [|discriminate]. destruct IH as (v' & E' & S').
    { subst a. revert Ha. unfold gradient_attrs. destruct (tag d) as [|[]| | | |]; cbn; intuition discriminate. }
    exists v'. split; [now apply eff_fy|]. destruct S' as [->|(Q & _)]; [now left|discriminate].
Qed.
Lemma sub_t1 s : In s (gsubs t) -> In (tmap vis (gN s)) (subs (written t1)).
Proof.
  intros H. unfold written. rewrite subs_tmap. apply in_map. unfold t1. assert (X : In (gN s) (gsubs (rg gN t))) by (rewrite gsubs_rg by exact gN_grad; now apply in_map). now apply gsubs_subs in X.
Qed.
Lemma root_vis s : root_key (tmap vis s) = root_key s. Proof. unfold root_key. now rewrite data_tmap. Qed.
Lemma kids_vis s : kids (tmap vis s) = map (tmap vis) (kids s). Proof. apply kids_tmap. Qed.
Lemma kids_vis_nil s : kids (tmap vis s) = [] <-> kids s = []. Proof. rewrite kids_vis. destruct (kids s); cbn; split; congruence. Qed.
Lemma gsub_key s k : In s (subs t) -> root_key s = k -> (exists d, In d (flat t) /\ gradient_node d /\ key d = k) -> In s (gsubs t).
Proof.
  intros Hs E (d & Hd & G & K). apply grad_sub; [exact U|exact Hs|]. apply gradient_iff. assert (X : data s = d) by (apply (data_unique t); [exact N|now apply data_of_sub|exact Hd|unfold root_key in E; congruence]). now rewrite X.
Qed.
Lemma gsub_n s : In s (gsubs t) -> root_key s = kN -> s = sN.
Proof. intros H E. apply (sub_unique t); [exact N|now apply gsubs_subs|now apply gsubs_subs|exact E]. Qed.
Lemma kids_gN s : In s (gsubs t) -> root_key s <> kL -> kids s <> [] -> kids (gN s) = kids s.
Proof.
  intros Hs NL K. destruct (Nat.eq_dec (root_key s) kN) as [E|E]; [|now rewrite gN_other]. rewrite (gsub_n s Hs E) in *. rewrite gN_N. unfold mv. destruct (kids sN); [contradiction|reflexivity].
Qed.
Lemma stops_step k0 lst : stops_in_effect (written t) k0 lst -> (exists d, In d (flat t) /\ gradient_node d /\ key d = k0) -> k0 <> kL -> stops_in_effect (written t1) k0 lst.
Proof.
  induction 1 as [s Hs K|s k lst Hs K F A IH|s Hs K F]; intros Q NL.
  - destruct (DuplProofs.sub_w t s Hs) as (s0 & Hs0 & ->). rewrite root_vis in *. pose proof (gsub_key s0 _ Hs0 eq_refl Q) as Gs. assert (K0 : kids s0 <> []) by (intros X; apply K; now apply kids_vis_nil).
    rewrite kids_vis. rewrite <- (kids_gN s0 Gs NL K0), <- kids_vis. rewrite <- (gN_root s0), <- (root_vis (gN s0)). apply se_own; [now apply sub_t1|]. intros X. apply (proj1 (kids_vis_nil _)) in X. rewrite kids_gN in X by assumption. contradiction.
  - destruct (DuplProofs.sub_w t s Hs) as (s0 & Hs0 & ->). rewrite root_vis in *. pose proof (gsub_key s0 _ Hs0 eq_refl Q) as Gs. apply (proj1 (kids_vis_nil _)) in K. rewrite data_tmap in F. destruct (gsub_flat t s0 Gs) as [Hd G]. rewrite (href_val t _ M Hd G) in F.
    destruct (href_target t _ _ M Hd G F) as (z & Hz & Ez & Tz). inversion Ez as [Ek]. destruct (Nat.eq_dec (root_key s0) kN) as [E|E].
    + pose proof (gsub_n s0 Gs E) as X. subst s0. assert (k = kL) by congruence. subst k. assert (Mv : mv = true) by (unfold mv; now rewrite K). clear IH. rewrite <- (gN_root sN), <- (root_vis (gN sN)).
      inversion A as [s' Hs' K' E1 E2|s' k' l' Hs' K' F' A' E1 E2|s' Hs' K' F' E1 E2].
      * destruct (DuplProofs.sub_w t s' Hs') as (s1 & Hs1 & ->). rewrite root_vis in E1. assert (s1 = sL) by (apply (sub_unique t); [exact N|exact Hs1|now apply gsubs_subs|congruence]). subst s1. rewrite kids_vis.
        assert (X : kids (gN sN) = kids sL) by (rewrite gN_N, Mv; reflexivity). rewrite <- X, <- kids_vis. apply se_own; [now apply sub_t1|]. intros Y. apply (proj1 (kids_vis_nil _)) in Y. apply K'. apply kids_vis_nil. congruence.
      * destruct (DuplProofs.sub_w t s' Hs') as (s1 & Hs1 & ->). rewrite root_vis in E1. assert (s1 = sL) by (apply (sub_unique t); [exact N|exact Hs1|now apply gsubs_subs|congruence]). subst s1. rewrite data_tmap, (href_val t l M) in F' by apply ndL. congruence.
      * destruct (DuplProofs.sub_w t s' Hs') as (s1 & Hs1 & ->). rewrite root_vis in E1. assert (s1 = sL) by (apply (sub_unique t); [exact N|exact Hs1|now apply gsubs_subs|congruence]). subst s1. apply (proj1 (kids_vis_nil _)) in K'.
        apply se_none; [now apply sub_t1|apply kids_vis_nil; rewrite gN_N, Mv; exact K'|rewrite data_tmap, gN_N; apply n_vnohref].
    + assert (gN s0 = s0) as GE by (apply gN_other; assumption). rewrite <- (root_vis s0). apply se_next with (k := k); [rewrite <- GE; now apply sub_t1|now apply kids_vis_nil|rewrite data_tmap, (href_val t _ M Hd G); exact F|].
      apply IH; [exists z; split; [exact Hz|]; split; [exact (tag_grad _ _ Tz G)|congruence]|]. intros X. apply E. unfold root_key. f_equal. apply (only_user (data s0) Hd). rewrite <- X. now apply href_refers.
  - destruct (DuplProofs.sub_w t s Hs) as (s0 & Hs0 & ->). rewrite root_vis in *. pose proof (gsub_key s0 _ Hs0 eq_refl Q) as Gs. apply (proj1 (kids_vis_nil _)) in K. rewrite data_tmap in F. destruct (gsub_flat t s0 Gs) as [Hd G]. rewrite (href_val t _ M Hd G) in F.
    assert (gN s0 = s0) as GE. { apply gN_other; [|exact NL]. intros E. rewrite (gsub_n s0 Gs E) in F. congruence. } rewrite <- (root_vis s0). apply se_none; [rewrite <- GE; now apply sub_t1|now apply kids_vis_nil|rewrite data_tmap, (href_val t _ M Hd G); exact F].
Qed.
Lemma paint_step d : In d (flat t) -> gradient_node d -> key d <> kL -> same_paint (written t) (key d) (written t1) (key d).
Proof.
  intros Hd G NL. exists (vis d), (vis (fN d)). split; [now apply in_w|]. split; [reflexivity|]. split; [apply in_w, flat_t1; eauto|]. split; [apply fN_key|]. split; [cbn; apply fN_tag|]. split.
  - intros a v Ha E. apply (effective_step a v d (vis d) E eq_refl Hd G Ha).
  - intros lst A. apply stops_step; [exact A|eauto|exact NL].
Qed.
Lemma unnested_t1 : unnested t1.
Proof.
  intros s' d Hs' Hd. unfold t1 in Hs'. rewrite gsubs_rg in Hs' by exact gN_grad. apply in_map_iff in Hs'. destruct Hs' as (s & <- & Hs). revert Hd. unfold gN. destruct (Nat.eqb (root_key s) kN); [|destruct (Nat.eqb (root_key s) kL)]; [destruct mv..|]; cbn [kids].
  - intros Hd. exact (U sL d HL Hd).
  - intros Hd. exact (U s d Hs Hd).
  - intros [].
  - intros Hd. exact (U s d Hs Hd).
  - intros Hd. exact (U s d Hs Hd).
Qed.
Lemma inner_t1 s' d : In s' (gsubs t1) -> In d (flat_map flat (kids s')) -> exists s, In s (gsubs t) /\ In d (flat_map flat (kids s)).
Proof.
  intros Hs' Hd. unfold t1 in Hs'. rewrite gsubs_rg in Hs' by exact gN_grad. apply in_map_iff in Hs'. destruct Hs' as (s & <- & Hs). revert Hd. unfold gN. destruct (Nat.eqb (root_key s) kN); [|destruct (Nat.eqb (root_key s) kL)]; [destruct mv..|]; cbn [kids]; try (intros Hd; exists s; split; [exact Hs|exact Hd]).
  - intros Hd. exists sL. auto.
  - intros [].
Qed.
Lemma mready_t1 : mready t1.
Proof.
  constructor.
  - constructor; [exact nodup_t1|]. intros k H. apply (Permutation_in _ (Permutation_sym perm_keys)). apply targets_in in H. destruct H as (x & y & H & R). apply flat_t1 in H. destruct H as (d & Hd & ->).
    destruct (fN_refers d k Hd (ex_intro _ y R)) as (z & Hz). apply (wf_links t (m_wf _ M)). apply targets_in. exists d, z. split; [exact Hd|exact Hz].
  - apply Forall_forall. intros x H. apply flat_t1 in H. destruct H as (d & Hd & ->). destruct (fN_cases d Hd) as [->|[_ ->]]; [rewrite fN_n; apply take_nodup; now apply nd|now apply nd].
  - unfold t1. pose proof (m_root _ M) as R. destruct t as [x ch] eqn:E. cbn in *. destruct (is_gradient x) eqn:G; [apply gradient_iff in G; contradiction|exact R].
  - apply unnested_ctx. exact unnested_t1.
  - intros a d p H Hp G. destruct (proj1 (inner_ctx t1 d unnested_t1)) as (s' & Hs' & Hd'); [exists a, p; split; [exact H|]; split; [exact Hp|now apply gradient_iff]|]. destruct (inner_t1 s' d Hs' Hd') as (s & Hs & Hd). destruct (inner_quiet t s d M Hs Hd) as [A B]. split; [exact A|].
    intros x Hx R. apply flat_t1 in Hx. destruct Hx as (y & Hy & ->). apply (B y Hy). apply fN_refers; assumption.
  - intros d' x k H G Hx L. apply flat_t1 in H. destruct H as (d & Hd & ->). apply (proj1 (fN_grad d)) in G. destruct (fN_cases d Hd) as [->|[_ E]].
    + rewrite fN_n in Hx. apply take_in in Hx. destruct Hx as (y & Hy & Ny & ->). rewrite shown_val in L. rewrite shown_name. exact (m_links _ M n y k Hd G Hy L).
    + rewrite E in Hx. exact (m_links _ M d x k Hd G Hx L).
  - intros d' x H G Hx Nx. apply flat_t1 in H. destruct H as (d & Hd & ->). apply (proj1 (fN_grad d)) in G. destruct (fN_cases d Hd) as [->|[_ E]].
    + rewrite fN_n in Hx. apply take_in in Hx. destruct Hx as (y & Hy & Ny & ->). rewrite shown_name in Nx. contradiction.
    + rewrite E in Hx. destruct (m_hrefs _ M d x Hd G Hx Nx) as (V & y & Hy & Ey & Ty). split; [exact V|]. exists (fN y). split; [apply flat_t1; eauto|]. rewrite fN_key, !fN_tag. auto.
  - intros d' a v H G Ha A. apply flat_t1 in H. destruct H as (d & Hd & ->). apply (proj1 (fN_grad d)) in G. assert (Ha' : In a (gradient_attrs d)) by (rewrite <- (tag_gattrs d (fN d) (fN_tag d)); exact Ha).
    destruct (along_backward a _ _ A d eq_refl Hd G Ha') as (o0 & B & S). destruct S as [<-|(_ & _ & S)]; [|discriminate]. rewrite fN_dget by (try exact Hd; exact (not_href_attr _ _ Ha)). exact (m_carried _ M d a v Hd G Ha' B).
Qed.
Lemma grad_key_in s : In s (gsubs t) -> grad_key (root_key s) t.
Proof. intros H d Hd E. destruct (gsub_flat t s H) as [A B]. rewrite (data_unique t d (data s) N Hd A E). now apply gradient_iff. Qed.
Lemma find_gsub s : In s (gsubs t) -> find_sub (root_key s) t = Some s.
Proof.
  intros H. destruct (find_sub_in (root_key s) t) as (u & E); [apply in_map_iff; exists (data s); split; [reflexivity|now apply gsub_flat]|]. rewrite E. f_equal. apply find_sub_some in E. apply (sub_unique t); [exact N|apply E|now apply gsubs_subs|apply E].
Qed.
Lemma visit_step ks : merge_visit (t, ks) kN = (t1, ks ++ [kL]).
Proof.
  unfold merge_visit. rewrite (find_gsub sN HN), Hhref, (find_gsub sL HL), Honce. assert (X : d_has l AXlinkHref = false) by (unfold d_has, has_attr; unfold d_get, get_value in Hlast; destruct (get_attr (attrs l) AXlinkHref); [discriminate|reflexivity]). rewrite X. cbn [Nat.eqb negb andb]. f_equal. unfold t1.
  set (h1 := fun s => if Nat.eqb (root_key s) kL then T (data s) [] else s). set (h2 := fun s => if Nat.eqb (root_key s) kN then T (data s) (kids sL) else s). set (h3 := fun s => if Nat.eqb (root_key s) kN then T (take_attrs l (data s)) (kids s) else s).
  assert (G1 : forall s, In s (gsubs t) -> is_gradient (data (h1 s)) = true) by (intros s Hs; destruct (gsubs_subs t s Hs) as [_ G]; unfold h1; destruct Nat.eqb; exact G).
  destruct (kids sN) as [|c ch] eqn:E.
  - rewrite (rg_set_kids kL _ t U (grad_key_in sL HL)). fold h1.
    assert (Ks1 : keys (rg h1 t) = keys (rg h1 t)) by reflexivity.
    assert (U1 : unnested (rg h1 t)). { intros s' d Hs'. rewrite gsubs_rg in Hs' by exact G1. apply in_map_iff in Hs'. destruct Hs' as (s & <- & Hs). unfold h1. destruct Nat.eqb; [intros []|]. now apply U. }
    assert (K1 : grad_key kN (rg h1 t)).
    { intros d Hd Ed. apply in_flat_parts in Hd. rewrite outs_rg, gsubs_rg in Hd by exact G1. destruct Hd as [(a & Hd)|(s' & Hs' & Hd)].
      - apply (grad_key_in sN HN); [|exact Ed]. apply in_flat_parts. left. eauto.
      - apply (grad_key_in sN HN); [|exact Ed]. apply in_map_iff in Hs'. destruct Hs' as (s & <- & Hs). apply in_flat_parts. right. exists s. split; [exact Hs|]. revert Hd. unfold h1. destruct Nat.eqb; [|auto]. intros [<-|[]]. apply flat_self. }
    rewrite (rg_set_kids kN _ _ U1 K1). fold h2. rewrite rg_rg by exact G1.
    assert (G2 : forall s, In s (gsubs t) -> is_gradient (data (h2 (h1 s))) = true) by (intros s Hs; specialize (G1 s Hs); unfold h2; destruct Nat.eqb; exact G1).
    set (h12 := fun s => h2 (h1 s)) in *.
    assert (IK : forall s, In s (gsubs t) -> data (h12 s) = data s). { intros s Hs. unfold h12, h2, h1. destruct (Nat.eqb (root_key s) kL); destruct (Nat.eqb _ kN); reflexivity. }
    assert (U2 : unnested (rg h12 t)). { intros s' d Hs'. rewrite gsubs_rg in Hs' by exact G2. apply in_map_iff in Hs'. destruct Hs' as (s & <- & Hs). unfold h12, h2. destruct Nat.eqb; [cbn [kids]; now apply U|]. unfold h1. destruct Nat.eqb; [intros []|]. now apply U. }
    assert (K2 : grad_key kN (rg h12 t)).
    { intros d Hd Ed. apply in_flat_parts in Hd. rewrite outs_rg, gsubs_rg in Hd by exact G2. destruct Hd as [(a & Hd)|(s' & Hs' & Hd)].
      - apply (grad_key_in sN HN); [|exact Ed]. apply in_flat_parts. left. eauto.
      - apply (grad_key_in sN HN); [|exact Ed]. apply in_map_iff in Hs'. destruct Hs' as (s & <- & Hs). apply in_flat_parts. right. unfold h12, h2 in Hd. destruct Nat.eqb.
        + destruct Hd as [<-|Hd]; [exists s; split; [exact Hs|]; assert (Y : data (h1 s) = data s) by (unfold h1; destruct Nat.eqb; reflexivity); rewrite Y; apply flat_self|]. exists sL. split; [exact HL|]. destruct sL; right. exact Hd.
        + exists s. split; [exact Hs|]. revert Hd. unfold h1. destruct Nat.eqb; [|auto]. intros [<-|[]]. apply flat_self. }
    rewrite (rg_upd kN _ _ U2 K2). fold h3. rewrite rg_rg by exact G2. apply rg_ext. intros s Hs. unfold h3, h12, h2, h1, gN, mv. rewrite E. clear. destruct (Nat.eqb_spec (root_key s) kL) as [A|A].
    + change (root_key (T (data s) [])) with (root_key s). destruct (Nat.eqb_spec (root_key s) kN) as [B|B].
      * change (root_key (T (data (T (data s) [])) (kids sL))) with (root_key s). rewrite (proj2 (Nat.eqb_eq _ _) B). reflexivity.
      * change (root_key (T (data s) [])) with (root_key s). rewrite (proj2 (Nat.eqb_neq _ _) B). reflexivity.
    + destruct (Nat.eqb_spec (root_key s) kN) as [B|B].
      * change (root_key (T (data s) (kids sL))) with (root_key s). rewrite (proj2 (Nat.eqb_eq _ _) B). reflexivity.
      * rewrite (proj2 (Nat.eqb_neq _ _) B). reflexivity.
  - rewrite (rg_upd kN _ _ U (grad_key_in sN HN)). apply rg_ext. intros s Hs. unfold gN, mv. rewrite E. destruct (Nat.eqb (root_key s) kN); [reflexivity|]. destruct (Nat.eqb (root_key s) kL); [now destruct s|reflexivity].
Qed.
End Step.

(** ** The removal of the merged gradients *)
Lemma mem_key_in D d : mem_key D d = true <-> In (key d) D.
Proof. unfold mem_key. rewrite existsb_exists. split; [intros (x & H & E); apply Nat.eqb_eq in E; congruence|intros H; exists (key d); split; [exact H|apply Nat.eqb_refl]]. Qed.
Lemma unlink_none ks t : (forall d k, In d (flat t) -> In k ks -> ~ refers_to d k) -> unlink ks t = t.
Proof.
  intros H. rewrite unlink_eq. apply tmap_id. intros d Hd. unfold unlink_data. destruct d as [k g i l] eqn:E. unfold with_attrs. cbn. f_equal.
  assert (X : forall x, In x l -> existsb (fun j => refers j x) ks = false).
  { intros x Hx. apply not_true_is_false. intros Q. apply existsb_exists in Q. destruct Q as (j & Hj & Q). apply (H (ND k g i l) j Hd Hj). exists x. split; [exact Hx|]. unfold refers in Q. destruct (link_of (a_val x)); [apply Nat.eqb_eq in Q; congruence|discriminate]. }
  induction l as [|x l IH]; cbn; [reflexivity|]. rewrite X by now left. cbn. f_equal. clear E H Hd. assert (Y : forall y, In y l -> existsb (fun j => refers j y) ks = false) by (intros y Hy; apply X; now right). clear X IH.
  induction l as [|y l IH]; cbn; [reflexivity|]. rewrite Y by now left. cbn. f_equal. apply IH. intros z Hz. apply Y. now right.
Qed.
Section Removal.
Variables (t : tree) (D : list nat).
Hypothesis M : mready t.
Hypothesis HD : forall k, In k D -> (exists d, In d (flat t) /\ gradient_node d /\ key d = k) /\ forall x, In x (flat t) -> ~ refers_to x k.
Let N : NoDup (keys t) := wf_keys t (m_wf _ M).
Let U : unnested t := mready_unnested t M.
Let p := mem_key D.
Notation t2 := (pruned p t).
Lemma D_grad d : In d (flat t) -> is_gradient d = false -> p d = false.
Proof.
  intros Hd G. apply not_true_is_false. intros E. apply mem_key_in in E. destruct (HD _ E) as ((x & Hx & Gx & Kx) & _). rewrite (data_unique t d x N Hd Hx (eq_sym Kx)) in G. apply gradient_iff in Gx. congruence.
Qed.
Lemma D_root : p (data t) = false.
Proof. apply D_grad; [apply flat_self|]. apply not_true_is_false. intros E. apply gradient_iff in E. exact (m_root _ M E). Qed.
Lemma gs2 : gsubs t2 = filter (fun s => negb (p (data s))) (gsubs t).
Proof. apply gsubs_pruned; [exact U|exact D_root|exact D_grad]. Qed.
Lemma gs2_in s : In s (gsubs t2) <-> In s (gsubs t) /\ ~ In (root_key s) D.
Proof.
  rewrite gs2, filter_In, negb_true_iff. unfold p. split; intros [A B]; (split; [exact A|]).
  - intros H. apply mem_key_in in H. congruence.
  - apply not_true_is_false. intros E. apply mem_key_in in E. exact (B E).
Qed.
Lemma outs2 anc : outs anc t2 = outs anc t. Proof. apply outs_pruned; [exact D_grad|exact D_root]. Qed.
Lemma gpl2 a s : In (a, s) (gpl [] t2) -> In (a, s) (gpl [] t).
Proof. rewrite gpl_pruned by (try exact U; try exact D_root; exact D_grad). rewrite filter_In. intros [H _]. exact H. Qed.
Lemma flat2 d : In d (flat t2) -> In d (flat t).
Proof.
  intros H. apply in_flat_parts in H. apply in_flat_parts. rewrite outs2 in H. destruct H as [H|(s & Hs & H)]; [now left|right]. apply gs2_in in Hs. destruct Hs as [Hs _]. eauto.
Qed.
Lemma flat2_grad d : In d (flat t) -> gradient_node d -> (In d (flat t2) <-> ~ In (key d) D).
Proof.
  intros Hd G. split.
  - intros H E. apply in_flat_parts in H. rewrite outs2 in H. destruct H as [(a & H)|(s & Hs & H)].
    + apply outs_ctx0 in H. destruct H as [_ Q]. specialize (Q d (or_introl eq_refl)). apply gradient_iff in G. congruence.
    + apply gs2_in in Hs. destruct Hs as [Hs Ns]. destruct s as [x ch]. destruct H as [<-|H]; [exact (Ns E)|]. apply gradient_iff in G. rewrite (U (T x ch) d Hs H) in G. discriminate.
  - intros E. destruct (flat_gsub t d M Hd G) as (s & Hs & <-). apply in_flat_parts. right. exists s. split; [now apply gs2_in|apply flat_self].
Qed.
Lemma flat2_keep d : In d (flat t) -> (exists a, In (a, d) (outs [] t)) \/ (exists s, In s (gsubs t) /\ ~ In (root_key s) D /\ In d (flat s)) \/ (exists s, In s (gsubs t) /\ In (root_key s) D /\ In d (flat s)).
Proof.
  intros H. apply in_flat_parts in H. destruct H as [H|(s & Hs & H)]; [now left|right]. destruct (in_dec Nat.eq_dec (root_key s) D) as [E|E]; [right|left]; eauto.
Qed.
(** Nothing that is removed is referenced or refers to anything. *)
Lemma dead_refs : (forall k, In k D -> forall d, In d (flat t) -> key d = k -> d_get d AXlinkHref = None) -> forall d k, In d (flat t) -> ~ In d (flat t2) -> ~ refers_to d k.
Proof.
  intros NH d k Hd H R. destruct (flat2_keep d Hd) as [Q|[(s & Hs & E & Q)|(s & Hs & E & Q)]].
  - apply H. apply in_flat_parts. left. now rewrite outs2.
  - apply H. apply in_flat_parts. right. exists s. split; [now apply gs2_in|exact Q].
  - destruct s as [x ch] eqn:Es. destruct Q as [<-|Q].
    + assert (G : gradient_node x) by (apply (gsub_flat t (T x ch) Hs)). pose proof (ref_is_href t x k M Hd G R) as F. rewrite (NH (key x) E x Hd eq_refl) in F. discriminate.
    + destruct (inner_quiet t (T x ch) d M Hs Q) as [A _]. exact (A k R).
Qed.
Lemma no_cut d k : In d (flat t) -> In k (below p t) -> ~ refers_to d k.
Proof.
  intros Hd Hk R. apply below_in in Hk. destruct Hk as (s & Hs & Ps & Hk). apply mem_key_in in Ps. assert (Hs' : In s (subs t)) by (apply in_kids_subs; exact Hs).
  destruct (HD _ Ps) as ((x & Hx & Gx & Kx) & Q). assert (X : x = data s) by (apply (data_unique t); [exact N|exact Hx|now apply data_of_sub|exact Kx]). subst x.
  assert (Gs : In s (gsubs t)) by (apply grad_sub; [exact U|exact Hs'|now apply gradient_iff]). apply in_map_iff in Hk. destruct Hk as (y & Ey & Hy). destruct s as [x ch]. destruct Hy as [<-|Hy]; [subst k; exact (Q d Hd R)|].
  destruct (inner_quiet t (T x ch) y M Gs Hy) as [_ B]. apply (B d Hd). now rewrite Ey.
Qed.
Lemma removed : remove_nodes D t = t2.
Proof.
  rewrite remove_nodes_closed; [|exact N|intros H; pose proof D_root as R; apply not_true_iff_false in R; apply R; now apply mem_key_in]. rewrite unlink_none; [reflexivity|]. intros d k Hd Hk. now apply no_cut.
Qed.
Lemma live d k : In d (flat t) -> refers_to d k -> ~ In k D.
Proof. intros H R E. destruct (HD k E) as [_ Q]. exact (Q d H R). Qed.
Lemma along2_forward a y o : along_href (written t) a y o -> forall d, y = vis d -> In d (flat t) -> gradient_node d -> along_href (written t2) a y o.
Proof.
  induction 1 as [y v E|y E F|y k x r E F Hx Kx A IH]; intros d -> Hd G; [now apply ah_own|now apply ah_end|].
  destruct (next_in t M d k x Hd G F Hx Kx) as (z & Hz & -> & Tz & Kz). apply ah_next with (k := k) (x := vis z); [exact E|exact F| |exact Kz|apply (IH z eq_refl Hz (tag_grad _ _ Tz G))].
  apply in_w. apply flat2_grad; [exact Hz|exact (tag_grad _ _ Tz G)|]. rewrite Kz. apply (live d); [exact Hd|]. rewrite (href_val t d M Hd G) in F. now apply href_refers.
Qed.
Lemma along2_back a y o : along_href (written t2) a y o -> along_href (written t) a y o.
Proof.
  induction 1 as [y v E|y E F|y k x r E F Hx Kx A IH]; [now apply ah_own|now apply ah_end|]. apply ah_next with (k := k) (x := x); [exact E|exact F| |exact Kx|exact IH].
  unfold written in Hx. rewrite flat_tmap in Hx. apply in_map_iff in Hx. destruct Hx as (z & <- & Hz). apply in_w. now apply flat2.
Qed.
Lemma effective2 a v y d : effective (written t) y a v -> y = vis d -> In d (flat t) -> gradient_node d -> effective (written t2) y a v.
Proof.
  intros E -> Hd G. induction E as [a v A|a A Na|a v Ea A E IH|a v Ea A E IH].
  - apply eff_found. apply (along2_forward a _ _ A d eq_refl Hd G).
  - apply eff_default; [|exact Na]. apply (along2_forward a _ _ A d eq_refl Hd G).
  - apply eff_fx; [exact Ea| |exact IH]. apply (along2_forward a _ _ A d eq_refl Hd G).
  - apply eff_fy; [exact Ea| |exact IH]. apply (along2_forward a _ _ A d eq_refl Hd G).
Qed.
Lemma sub2 s : In s (gsubs t) -> ~ In (root_key s) D -> In (tmap vis s) (subs (written t2)).
Proof. intros H E. unfold written. rewrite subs_tmap. apply in_map. assert (X : In s (gsubs t2)) by (now apply gs2_in). now apply gsubs_subs in X. Qed.
Lemma stops2 k0 lst : stops_in_effect (written t) k0 lst -> (exists d, In d (flat t) /\ gradient_node d /\ key d = k0) -> ~ In k0 D -> stops_in_effect (written t2) k0 lst.
Proof.
  induction 1 as [s Hs K|s k lst Hs K F A IH|s Hs K F]; intros Q NL; destruct (DuplProofs.sub_w t s Hs) as (s0 & Hs0 & ->); rewrite root_vis in *; pose proof (gsub_key t M s0 _ Hs0 eq_refl Q) as Gs; rewrite <- (root_vis s0).
  - apply se_own; [now apply sub2|exact K].
  - apply se_next with (k := k); [now apply sub2|exact K|exact F|]. rewrite data_tmap in F. destruct (gsub_flat t s0 Gs) as [Hd G]. rewrite (href_val t _ M Hd G) in F. destruct (href_target t _ _ M Hd G F) as (z & Hz & Ez & Tz). assert (Ek : k = key z) by congruence.
    apply IH; [exists z; split; [exact Hz|]; split; [exact (tag_grad _ _ Tz G)|congruence]|]. apply (live (data s0)); [exact Hd|]. now apply href_refers.
  - apply se_none; [now apply sub2|exact K|exact F].
Qed.
Lemma paint2 d : In d (flat t) -> gradient_node d -> ~ In (key d) D -> same_paint (written t) (key d) (written t2) (key d).
Proof.
  intros Hd G E. exists (vis d), (vis d). split; [now apply in_w|]. split; [reflexivity|]. split; [apply in_w; now apply flat2_grad|]. split; [reflexivity|]. split; [reflexivity|]. split.
  - intros a v Ha A. exists v. split; [|now left]. apply (effective2 a v _ d A eq_refl Hd G).
  - intros lst A. apply stops2; [exact A|eauto|exact E].
Qed.
Lemma keys2 : NoDup (keys t2).
Proof.
  assert (P : Permutation (keys t2) (map key (map snd (outs [] t)) ++ flat_map keys (gsubs t2))).
  { unfold keys at 1. rewrite (Permutation_map key (flat_parts t2 [])). rewrite outs2, map_app. rewrite (flat_map_concat_map keys), (flat_map_concat_map flat), concat_map. rewrite (map_map flat (map key)). reflexivity. }
  assert (P0 : Permutation (keys t) (map key (map snd (outs [] t)) ++ flat_map keys (gsubs t))).
  { unfold keys at 1. rewrite (Permutation_map key (flat_parts t [])). rewrite map_app. rewrite (flat_map_concat_map keys), (flat_map_concat_map flat), concat_map. rewrite (map_map flat (map key)). reflexivity. }
  apply (Permutation_NoDup (Permutation_sym P)). pose proof (Permutation_NoDup P0 N) as N0. apply NoDup_app_inv in N0. destruct N0 as (A & B & C). rewrite gs2. clear P P0.
  apply NoDup_app_intro; [exact A| |].
  - clear A C. induction (gsubs t) as [|s l IH]; cbn in *; [constructor|]. apply NoDup_app_inv in B. destruct B as (B1 & B2 & B3). destruct (negb (p (data s))); [|now apply IH]. cbn. apply NoDup_app_intro; [exact B1|now apply IH|].
    intros x Hx Hx'. apply (B3 x Hx). apply in_flat_map in Hx'. destruct Hx' as (u & Hu & Hx'). apply filter_In in Hu. apply in_flat_map. exists u. split; [apply Hu|exact Hx'].
  - intros x Hx Hx'. apply (C x Hx). apply in_flat_map in Hx'. destruct Hx' as (u & Hu & Hx'). apply filter_In in Hu. apply in_flat_map. exists u. split; [apply Hu|exact Hx'].
Qed.
Lemma target2 d y : In d (flat t2) -> In y (flat t) -> gradient_node y -> refers_to d (key y) -> In y (flat t2).
Proof. intros Hd Hy G R. apply flat2_grad; [exact Hy|exact G|]. apply (live d); [now apply flat2|exact R]. Qed.
Lemma unnested2 : unnested t2.
Proof. intros s d Hs Hd. apply gs2_in in Hs. exact (U s d (proj1 Hs) Hd). Qed.
Lemma mready2 : mready t2.
Proof.
  constructor.
  - constructor; [exact keys2|]. intros k H. apply targets_in in H. destruct H as (d & x & Hd & Hx & L). assert (R : refers_to d k) by (exists x; auto). pose proof (flat2 d Hd) as Hd0.
    assert (Hk : In k (keys t)) by (apply (wf_links t (m_wf _ M)); apply targets_in; exists d, x; auto). apply in_map_iff in Hk. destruct Hk as (y & Ey & Hy). apply in_map_iff. exists y. split; [exact Ey|].
    destruct (flat2_keep y Hy) as [Q|[(s & Hs & E & Q)|(s & Hs & E & Q)]].
    + apply in_flat_parts. left. now rewrite outs2.
    + apply in_flat_parts. right. exists s. split; [now apply gs2_in|exact Q].
    + exfalso. destruct s as [z ch]. destruct Q as [Q|Q].
      * subst y. subst k. exact (live d _ Hd0 R E).
      * destruct (inner_quiet t _ y M Hs Q) as [_ B]. apply (B d Hd0). now rewrite Ey.
  - apply Forall_forall. intros d Hd. exact (proj1 (Forall_forall _ _) (m_wfa _ M) d (flat2 d Hd)).
  - rewrite data_pruned. exact (m_root _ M).
  - apply unnested_ctx. exact unnested2.
  - intros a d q H Hq G. destruct (proj1 (inner_ctx t2 d unnested2)) as (s' & Hs' & Hd'); [exists a, q; split; [exact H|]; split; [exact Hq|now apply gradient_iff]|]. apply gs2_in in Hs'. destruct (inner_quiet t s' d M (proj1 Hs') Hd') as [A B]. split; [exact A|].
    intros x Hx. apply B. now apply flat2.
  - intros d x k Hd. apply (m_links _ M). now apply flat2.
  - intros d x Hd G Hx Nx. destruct (m_hrefs _ M d x (flat2 d Hd) G Hx Nx) as (V & y & Hy & Ey & Ty). split; [exact V|]. exists y. split; [|auto]. apply (target2 d y Hd Hy (tag_grad _ _ Ty G)). exists x. split; [exact Hx|]. now rewrite Ey.
  - intros d a v Hd G Ha A. apply (m_carried _ M d a v (flat2 d Hd) G Ha). now apply along2_back.
Qed.
Lemma filter_shorter {A} (q : A -> bool) l x : In x l -> q x = false -> List.length (filter q l) < List.length l.
Proof.
  intros H E. assert (W : forall l, List.length (filter q l) <= List.length l) by (intros l0; induction l0 as [|y l0 IH0]; cbn; [lia|]; destruct (q y); cbn; lia).
  induction l as [|y l IH]; [destruct H|]. destruct H as [->|H]; cbn; [rewrite E; specialize (W l); lia|]. specialize (IH H). destruct (q y); cbn; lia.
Qed.
Lemma fewer : D <> [] -> List.length (gsubs t2) < List.length (gsubs t).
Proof.
  intros ND. assert (X : exists k, In k D) by (destruct D as [|k l]; [contradiction|exists k; now left]). destruct X as (k & Hk). destruct (HD k Hk) as ((d & Hd & G & Kd) & _). destruct (flat_gsub t d M Hd G) as (s & Hs & Es).
  rewrite gs2. apply (filter_shorter _ _ s Hs). apply negb_false_iff. unfold p. apply mem_key_in. rewrite Es, Kd. exact Hk.
Qed.
End Removal.
