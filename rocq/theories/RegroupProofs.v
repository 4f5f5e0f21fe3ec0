(** Sharing equal stop lists: proofs. *)
From Coq Require Import DecimalString DecimalNat.
From Coq Require Import List Bool NArith Arith ZArith String Lia Permutation.
From Verif Require Import Names Num Value Dom DomFacts DomOps DomRemove Outcome APass SpecDom SpecText Visit Move MoveFacts GroupDefsProofs GroupDefsEnd GradUnits SpecGradients SpecWritten SpecGradUnits GradProofs GradTransProofs GradUnitsProofs SpecDupl Dupl DuplProofs Graft SpecMerge MergeProofs Stops Transforms Gradients Props_gradients Regroup SpecRegroup.
Import ListNotations.
Local Open Scope string_scope.
Local Open Scope list_scope.
Local Open Scope nat_scope.

(** ** Free ids *)
Lemma dec_inj n m : dec n = dec m -> n = m.
Proof.
  unfold dec. intros H. assert (X : forall n, NilZero.uint_of_string (NilZero.string_of_uint (Nat.to_uint n)) = Some (Nat.to_uint n)).
  { intros k. apply NilZero.usu. destruct k; [discriminate|]. intros E. pose proof (Unsigned.of_to (S k)) as Q. rewrite E in Q. discriminate. }
  assert (E : Some (Nat.to_uint n) = Some (Nat.to_uint m)) by (rewrite <- !X; now rewrite H). inversion E as [E']. rewrite <- (Unsigned.of_to n), <- (Unsigned.of_to m). now rewrite E'.
Qed.
Lemma append_inj p a b : (p ++ a)%string = (p ++ b)%string -> a = b.
Proof. induction p as [|c p IH]; cbn; [auto|]. intros H. injection H as H. auto. Qed.
Lemma has_node_id_iff t s : has_node_id t s = true <-> In s (map nid (flat t)).
Proof.
  unfold has_node_id. rewrite existsb_exists, in_map_iff. split; intros (d & A & B); exists d; [apply String.eqb_eq in B; auto|subst; split; [exact B|apply String.eqb_refl]].
Qed.
Lemma gen_id_free p t : ~ In (gen_id p t) (map nid (flat t)).
Proof.
  unfold gen_id. assert (G : forall f n, In (gen_id_from f n p t) (map nid (flat t)) -> forall i, i <= f -> In (p ++ dec (n + i))%string (map nid (flat t))).
  { induction f as [|f IH]; intros n H i Hi; cbn in H.
    - assert (i = 0) by lia. subst i. now rewrite Nat.add_0_r.
    - destruct (has_node_id t (p ++ dec n)%string) eqn:E.
      + apply has_node_id_iff in E. destruct i as [|i]; [now rewrite Nat.add_0_r|]. replace (n + S i) with (S n + i) by lia. apply IH; [exact H|lia].
      + apply has_node_id_iff in H. congruence. }
  intros H. pose proof (G _ _ H) as Q. assert (I : incl (map (fun i => (p ++ dec (1 + i))%string) (seq 0 (S (List.length (flat t))))) (map nid (flat t))).
  { intros s Hs. apply in_map_iff in Hs. destruct Hs as (i & <- & Hi). apply in_seq in Hi. apply Q. lia. }
  apply NoDup_incl_length in I; [rewrite !map_length, seq_length in I; lia|]. apply FinFun.Injective_map_NoDup; [|apply seq_NoDup]. intros i j E. apply append_inj, dec_inj in E. lia.
Qed.
Lemma gen_id_nonempty t : gen_id "lg" t <> ""%string.
Proof. unfold gen_id. generalize (List.length (flat t)) 1. intros f n. revert n. induction f as [|f IH]; intros n; cbn; [discriminate|]. destruct has_node_id; [apply IH|discriminate]. Qed.
(** ** Rewriting the outermost gradients to lists *)
Fixpoint rgf (g : tree -> list tree) (t : tree) : list tree := match t with T d ch => if is_gradient d then g t else [T d (flat_map (rgf g) ch)] end.
Definition to_grads (g : tree -> list tree) (t : tree) : Prop := forall s u, In s (gsubs t) -> In u (g s) -> is_gradient (data u) = true.
Lemma gsubs_all l : (forall u, In u l -> is_gradient (data u) = true) -> flat_map gsubs l = l.
Proof. induction l as [|u l IH]; intros H; [reflexivity|]. cbn. rewrite IH by (intros; apply H; now right). specialize (H u (or_introl eq_refl)). destruct u as [d ch]. cbn in *. now rewrite H. Qed.
Lemma gsubs_rgf g t : to_grads g t -> flat_map gsubs (rgf g t) = flat_map g (gsubs t).
Proof.
  induction t as [d ch IH] using tree_ind'. unfold to_grads. cbn [rgf gsubs]. destruct (is_gradient d) eqn:G; intros H.
  - cbn. rewrite app_nil_r. apply gsubs_all. intros u Hu. apply (H (T d ch)); [now left|exact Hu].
  - cbn [flat_map gsubs]. rewrite G, app_nil_r. rewrite Forall_forall in IH. induction ch as [|c ch IHc]; [reflexivity|]. cbn. rewrite !flat_map_app. f_equal.
    + apply IH; [now left|]. intros s u Hs. apply H. cbn. apply in_app_iff. now left.
    + apply IHc; [intros x Hx; apply IH; now right|]. intros s u Hs. apply H. cbn. apply in_app_iff. now right.
Qed.
Lemma outs_all l anc : (forall u, In u l -> is_gradient (data u) = true) -> flat_map (outs anc) l = [].
Proof. induction l as [|u l IH]; intros H; [reflexivity|]. cbn. rewrite IH by (intros; apply H; now right). specialize (H u (or_introl eq_refl)). destruct u as [d ch]. cbn in *. now rewrite H. Qed.
Lemma outs_rgf g t : to_grads g t -> forall anc, flat_map (outs anc) (rgf g t) = outs anc t.
Proof.
  induction t as [d ch IH] using tree_ind'. unfold to_grads. cbn [rgf gsubs outs]. destruct (is_gradient d) eqn:G; intros H anc.
  - apply outs_all. intros u Hu. apply (H (T d ch)); [now left|exact Hu].
  - cbn [flat_map outs]. rewrite G, app_nil_r. f_equal. rewrite Forall_forall in IH. induction ch as [|c ch IHc]; [reflexivity|]. cbn. rewrite !flat_map_app. f_equal.
    + apply IH; [now left|]. intros s u Hs. apply H. cbn. apply in_app_iff. now left.
    + apply IHc; [intros x Hx; apply IH; now right|]. intros s u Hs. apply H. cbn. apply in_app_iff. now right.
Qed.
Lemma gpl_all l (anc : list ndata) : (forall u, In u l -> is_gradient (data u) = true) -> flat_map (gpl anc) l = map (fun u => (anc, u)) l.
Proof. induction l as [|u l IH]; intros H; [reflexivity|]. cbn. rewrite IH by (intros; apply H; now right). specialize (H u (or_introl eq_refl)). destruct u as [d ch]. cbn in *. now rewrite H. Qed.
Lemma gpl_rgf g t : to_grads g t -> forall anc, flat_map (gpl anc) (rgf g t) = flat_map (fun q => map (fun u => (fst q, u)) (g (snd q))) (gpl anc t).
Proof.
  induction t as [d ch IH] using tree_ind'. unfold to_grads. cbn [rgf gsubs gpl]. destruct (is_gradient d) eqn:G; intros H anc.
  - cbn. rewrite app_nil_r. apply gpl_all. intros u Hu. apply (H (T d ch)); [now left|exact Hu].
  - cbn [flat_map gpl]. rewrite G, app_nil_r. rewrite Forall_forall in IH. induction ch as [|c ch IHc]; [reflexivity|]. cbn. rewrite !flat_map_app. f_equal.
    + apply IH; [now left|]. intros s u Hs. apply H. cbn. apply in_app_iff. now left.
    + apply IHc; [intros x Hx; apply IH; now right|]. intros s u Hs. apply H. cbn. apply in_app_iff. now right.
Qed.
Lemma rgf_rg g h t : (forall s, In s (gsubs t) -> is_gradient (data (h s)) = true) -> rgf g (rg h t) = rgf (fun s => g (h s)) t.
Proof.
  induction t as [d ch IH] using tree_ind'. cbn [rg gsubs rgf]. destruct (is_gradient d) eqn:G; intros H.
  - specialize (H (T d ch) (or_introl eq_refl)). destruct (h (T d ch)) as [d' ch'] eqn:E. cbn in *. now rewrite H.
  - cbn [rgf]. rewrite G. f_equal. f_equal. rewrite Forall_forall in IH. rewrite flat_map_concat_map, map_map, <- flat_map_concat_map. clear G. induction ch as [|c ch IHc]; [reflexivity|]. cbn. f_equal.
    + apply IH; [now left|]. intros s Hs. apply H. cbn. apply in_app_iff. now left.
    + apply IHc; [intros x Hx; apply IH; now right|]. intros s Hs. apply H. cbn. apply in_app_iff. now right.
Qed.
Lemma rg_rgf g h t : to_grads g t -> map (rg h) (rgf g t) = rgf (fun s => map h (g s)) t.
Proof.
  induction t as [d ch IH] using tree_ind'. unfold to_grads. cbn [gsubs rgf]. destruct (is_gradient d) eqn:G; intros H.
  - apply map_ext_in. intros u Hu. specialize (H (T d ch) u (or_introl eq_refl) Hu). destruct u as [x cu]. cbn in *. now rewrite H.
  - cbn [map rg]. rewrite G. f_equal. f_equal. rewrite Forall_forall in IH. clear G. induction ch as [|c ch IHc]; [reflexivity|]. cbn. rewrite map_app. f_equal.
    + apply IH; [now left|]. intros s u Hs. apply H. cbn. apply in_app_iff. now left.
    + apply IHc; [intros x Hx; apply IH; now right|]. intros s u Hs. apply H. cbn. apply in_app_iff. now right.
Qed.
Lemma rgf_ext g h t : (forall s, In s (gsubs t) -> g s = h s) -> rgf g t = rgf h t.
Proof.
  induction t as [d ch IH] using tree_ind'. cbn [gsubs rgf]. destruct (is_gradient d) eqn:G; intros H; [apply H; now left|]. f_equal. f_equal. rewrite Forall_forall in IH. clear G. induction ch as [|c ch IHc]; [reflexivity|]. cbn. f_equal.
  - apply IH; [now left|]. intros s Hs. apply H. cbn. apply in_app_iff. now left.
  - apply IHc; [intros x Hx; apply IH; now right|]. intros s Hs. apply H. cbn. apply in_app_iff. now right.
Qed.
Lemma insert_out k u t : ~ In k (flat_map keys (kids t)) -> insert_before k u t = t.
Proof.
  induction t as [d ch IH] using tree_ind'. cbn [kids insert_before]. intros H. f_equal. rewrite Forall_forall in IH. induction ch as [|c ch IHc]; [reflexivity|]. cbn in *. rewrite IHc; [|intros x Hx; apply IH; now right|intros X; apply H, in_app_iff; now right].
  destruct (Nat.eqb_spec (root_key c) k) as [E|E]; [exfalso; apply H, in_app_iff; left; rewrite <- E; destruct c; now left|]. rewrite IH; [reflexivity|now left|]. intros X. apply H, in_app_iff. left. destruct c. right. cbn in X. unfold keys in *. rewrite flat_map_concat_map in X. cbn. rewrite flat_map_concat_map, concat_map, map_map. exact X.
Qed.
Lemma insert_rgf k u t : unnested t -> grad_key k t -> is_gradient (data t) = false -> [insert_before k u t] = rgf (fun s => if Nat.eqb (root_key s) k then [u; s] else [s]) t.
Proof.
  induction t as [d ch IH] using tree_ind'. intros U K R. cbn [insert_before rgf]. cbn in R. rewrite R. f_equal. f_equal. rewrite Forall_forall in IH.
  assert (U' : forall c, In c ch -> unnested c). { intros c Hc s x Hs. apply U. cbn [gsubs]. rewrite R. apply in_flat_map. eauto. }
  assert (K' : forall c, In c ch -> grad_key k c). { intros c Hc x Hx. apply K. right. apply in_flat_map. eauto. }
  clear U K. induction ch as [|c ch IHc]; [reflexivity|]. cbn [flat_map]. f_equal; [|apply IHc; intros; try apply IH; try apply U'; try apply K'; try (now right); auto].
  destruct (is_gradient (data c)) eqn:G.
  - assert (I : insert_before k u c = c). { apply insert_out. apply (inner_key k c c); [now apply U'; left|apply K'; now left|]. destruct c. cbn in *. rewrite G. now left. }
    rewrite I. destruct c as [x cc]. cbn [rgf data] in *. rewrite G. reflexivity.
  - rewrite <- (IH c (or_introl eq_refl)); [|apply U'; now left|apply K'; now left|exact G]. destruct (Nat.eqb_spec (root_key c) k) as [E|E]; [|reflexivity]. rewrite (K' c (or_introl eq_refl) (data c)) in G; [discriminate|apply flat_self|exact E].
Qed.
(** ** One new gradient *)
Lemma rready_unnested t : rready t -> unnested t. Proof. intros R. apply unnested_ctx. exact (rr_nest _ R). Qed.
Lemma set_new l a v : get_attr l a = None -> set_attr l a v = l ++ [At (AN a) v true].
Proof.
  unfold get_attr. induction l as [|x l IH]; cbn; [reflexivity|]. destruct (has_name (AN a) x) eqn:E; [discriminate|]. intros H. now rewrite IH.
Qed.
Definition lk (kf : nat) (d : ndata) : ndata := d_set d AXlinkHref (VLink kf).
Lemma lk_attrs kf d : d_get d AXlinkHref = None -> attrs (lk kf d) = attrs d ++ [At (AN AXlinkHref) (VLink kf) true].
Proof. intros H. unfold lk, d_set. cbn. apply set_new. unfold d_get, get_value in H. destruct (get_attr (attrs d) AXlinkHref); [discriminate|reflexivity]. Qed.
Section Fold.
Variables (kf : nat) (js : list nat).
Record foldable (u : tree) : Prop := {
  fo_un : unnested u;
  fo_key : forall j, In j js -> grad_key j u;
  fo_inner : forall s d x, In s (gsubs u) -> In d (flat_map flat (kids s)) -> In x (flat u) -> ~ refers_to x (key d);
  fo_kf : forall s d, In s (gsubs u) -> In d (flat_map flat (kids s)) -> key d <> kf
}.
Definition hj (j : nat) (s : tree) : tree := if Nat.eqb (root_key s) j then T (lk kf (data s)) [] else s.
Lemma hj_grad j s : is_gradient (data s) = true -> is_gradient (data (hj j s)) = true.
Proof. unfold hj. destruct Nat.eqb; auto. Qed.
Lemma lk_refers d k : refers_to (lk kf d) k -> refers_to d k \/ k = kf.
Proof.
  intros (x & Hx & L). unfold lk, d_set in Hx. cbn in Hx. apply set_attr_in in Hx. destruct Hx as [Hx|Hx]; [left; exists x; auto|subst x; cbn in L; right; congruence].
Qed.
Lemma fold_step u j : foldable u -> In j js -> upd j (lk kf) (remove_kids j u) = rg (hj j) u /\ foldable (rg (hj j) u).
Proof.
  intros F Hj. pose proof (fo_un _ F) as U. pose proof (fo_key _ F j Hj) as K. split.
  - unfold remove_kids. assert (E : unlink (flat_map keys (kids_of j u)) u = u).
    { apply unlink_none. intros d k Hd Hk R. unfold kids_of in Hk. destruct (find_sub j u) as [s|] eqn:Fs; [|destruct Hk]. apply find_sub_some in Fs. destruct Fs as [Hs Es]. assert (Gs : In s (gsubs u)) by (apply grad_sub; [exact U|exact Hs|apply K; [now apply data_of_sub|exact Es]]).
      apply in_flat_map in Hk. destruct Hk as (c & Hc & Hk). apply in_map_iff in Hk. destruct Hk as (y & <- & Hy). apply (fo_inner _ F s y d Gs); [apply in_flat_map; eauto|exact Hd|exact R]. }
    rewrite E, (rg_set_kids j _ u U K). set (g0 := fun s => if Nat.eqb (root_key s) j then T (data s) [] else s).
    assert (G0 : forall s, In s (gsubs u) -> is_gradient (data (g0 s)) = true) by (intros s Hs; destruct (gsubs_subs u s Hs) as [_ G]; unfold g0; destruct Nat.eqb; exact G).
    assert (U0 : unnested (rg g0 u)). { intros s' d Hs'. rewrite gsubs_rg in Hs' by exact G0. apply in_map_iff in Hs'. destruct Hs' as (s & <- & Hs). unfold g0. destruct Nat.eqb; [intros []|]. now apply U. }
    assert (K0 : grad_key j (rg g0 u)).
    { intros d Hd Ed. apply in_flat_parts in Hd. rewrite outs_rg, gsubs_rg in Hd by exact G0. apply K; [|exact Ed]. apply in_flat_parts. destruct Hd as [(a & Hd)|(s' & Hs' & Hd)]; [left; eauto|right]. apply in_map_iff in Hs'. destruct Hs' as (s & <- & Hs). exists s. split; [exact Hs|]. revert Hd. unfold g0. destruct Nat.eqb; [|auto]. intros [<-|[]]. apply flat_self. }
    rewrite (rg_upd j _ _ U0 K0), rg_rg by exact G0. apply rg_ext. intros s Hs. unfold hj, g0. destruct (Nat.eqb_spec (root_key s) j) as [A|A].
    + change (root_key (T (data s) [])) with (root_key s). rewrite (proj2 (Nat.eqb_eq _ _) A). reflexivity.
    + rewrite (proj2 (Nat.eqb_neq _ _) A). reflexivity.
  - assert (G0 : forall s, In s (gsubs u) -> is_gradient (data (hj j s)) = true) by (intros s Hs; apply hj_grad; now apply gsubs_subs in Hs).
    assert (In1 : forall s' d, In s' (gsubs (rg (hj j) u)) -> In d (flat_map flat (kids s')) -> exists s, In s (gsubs u) /\ In d (flat_map flat (kids s))).
    { intros s' d Hs' Hd. rewrite gsubs_rg in Hs' by exact G0. apply in_map_iff in Hs'. destruct Hs' as (s & <- & Hs). unfold hj in Hd. destruct Nat.eqb; [destruct Hd|]. eauto. }
    assert (Fl : forall d, In d (flat (rg (hj j) u)) -> In d (flat u) \/ exists d0, In d0 (flat u) /\ is_gradient d0 = true /\ d = lk kf d0).
    { intros d Hd. apply in_flat_parts in Hd. rewrite outs_rg, gsubs_rg in Hd by exact G0. destruct Hd as [(a & Hd)|(s' & Hs' & Hd)]; [left; apply in_flat_parts; eauto|]. apply in_map_iff in Hs'. destruct Hs' as (s & <- & Hs). unfold hj in Hd. destruct Nat.eqb.
      - destruct Hd as [<-|[]]. right. exists (data s). destruct (gsubs_subs u s Hs) as [A B]. split; [now apply data_of_sub|auto].
      - left. apply in_flat_parts. right. eauto. }
    constructor.
    + intros s' d Hs' Hd. destruct (In1 s' d Hs' Hd) as (s & Hs & Hd'). exact (U s d Hs Hd').
    + intros i Hi d Hd Ed. destruct (Fl d Hd) as [X|(d0 & X & G & ->)]; [exact (fo_key _ F i Hi d X Ed)|exact G].
    + intros s' d x Hs' Hd Hx R. destruct (In1 s' d Hs' Hd) as (s & Hs & Hd'). destruct (Fl x Hx) as [X|(d0 & X & G & ->)]; [exact (fo_inner _ F s d x Hs Hd' X R)|]. apply lk_refers in R. destruct R as [R|R]; [exact (fo_inner _ F s d d0 Hs Hd' X R)|exact (fo_kf _ F s d Hs Hd' R)].
    + intros s' d Hs' Hd. destruct (In1 s' d Hs' Hd) as (s & Hs & Hd'). exact (fo_kf _ F s d Hs Hd').
Qed.
Definition hl (l : list nat) (s : tree) : tree := if existsb (Nat.eqb (root_key s)) l then T (lk kf (data s)) [] else s.
Lemma lk_lk d : lk kf (lk kf d) = lk kf d.
Proof.
  unfold lk, d_set, with_attrs. cbn. f_equal. induction (attrs d) as [|x l IH]; cbn; [reflexivity|]. destruct (has_name (AN AXlinkHref) x) eqn:E; cbn; [reflexivity|]. rewrite E. now rewrite IH.
Qed.
Lemma fold_closed l : forall u, incl l js -> foldable u -> fold_left (fun t j => upd j (lk kf) (remove_kids j t)) l u = rg (hl l) u.
Proof.
  induction l as [|j l IH]; intros u I F; cbn [fold_left].
  - symmetry. rewrite <- (rg_id u) at 2. now apply rg_ext.
  - destruct (fold_step u j F (I j (or_introl eq_refl))) as [E F']. rewrite E, IH; [|intros x Hx; apply I; now right|exact F']. rewrite rg_rg by (intros s Hs; apply hj_grad; now apply gsubs_subs in Hs). apply rg_ext. intros s Hs. unfold hl, hj. cbn [existsb].
    destruct (Nat.eqb_spec (root_key s) j) as [A|A]; [|reflexivity]. cbn [orb]. change (root_key (T (lk kf (data s)) [])) with (root_key s). cbn [data]. rewrite lk_lk. now destruct existsb.
Qed.
End Fold.
(** ** The result of [share] *)
Lemma in_members js k : existsb (Nat.eqb k) js = true <-> In k js.
Proof. rewrite existsb_exists. split; [intros (x & H & E); apply Nat.eqb_eq in E; congruence|intros H; exists k; split; [exact H|apply Nat.eqb_refl]]. Qed.
Lemma not_members js k : existsb (Nat.eqb k) js = false <-> ~ In k js.
Proof. rewrite <- in_members. destruct existsb; split; congruence. Qed.
Section Share.
Variables (t s1 : tree) (js : list nat).
Hypothesis R : rready t.
Hypothesis H1 : In s1 (gsubs t).
Hypothesis F1 : d_get (data s1) AXlinkHref = None.
Hypothesis C1 : kids s1 <> [].
Notation k1 := (root_key s1).
Hypothesis HJ : forall j, In j js -> j <> k1 /\ exists s, In s (gsubs t) /\ root_key s = j /\ d_get (data s) AXlinkHref = None /\ kids s <> [] /\ is_equal_stops s1 s = true.
Let N : NoDup (keys t) := wf_keys t (rr_wf _ R).
Let U : unnested t := rready_unnested t R.
Notation kf := (fresh t).
Definition nw : ndata := ND (fresh t) (TEl ELinearGradient) (gen_id "lg" t) [].
Definition G0 (s : tree) : list tree := if Nat.eqb (root_key s) k1 then [T nw (kids s1); T (lk kf (data s)) []] else [s].
Definition GG (s : tree) : list tree :=
  if Nat.eqb (root_key s) k1 then [T nw (kids s1); T (lk kf (data s)) []] else if existsb (Nat.eqb (root_key s)) js then [T (lk kf (data s)) []] else [s].
Lemma kf_new k : In k (keys t) -> k <> kf. Proof. intros H ->. exact (fresh_not t H). Qed.
Lemma nw_grad : is_gradient nw = true. Proof. reflexivity. Qed.
Lemma gsub_data s : In s (gsubs t) -> In (data s) (flat t) /\ is_gradient (data s) = true.
Proof. intros H. destruct (gsubs_subs t s H) as [A B]. split; [now apply data_of_sub|exact B]. Qed.
Lemma G0_grads : to_grads G0 t.
Proof. intros s u Hs. destruct (gsub_data s Hs) as [_ G]. unfold G0. destruct Nat.eqb; cbn; intuition; subst; auto. Qed.
Lemma GG_grads : to_grads GG t.
Proof. intros s u Hs. destruct (gsub_data s Hs) as [_ G]. unfold GG. destruct Nat.eqb; [|destruct existsb]; cbn; intuition; subst; auto. Qed.
Lemma grad_root : is_gradient (data t) = false.
Proof. apply not_true_is_false. intros E. apply gradient_iff in E. exact (rr_root _ R E). Qed.
Lemma gsub_gkey s : In s (gsubs t) -> grad_key (root_key s) t.
Proof. intros H d Hd E. destruct (gsub_data s H) as [A B]. rewrite (data_unique t d (data s) N Hd A E). exact B. Qed.
Lemma gsub_uniq s s' : In s (gsubs t) -> In s' (gsubs t) -> root_key s = root_key s' -> s = s'.
Proof. intros A B E. apply (sub_unique t); [exact N|now apply gsubs_subs|now apply gsubs_subs|exact E]. Qed.
Lemma kids_of_s s : In s (gsubs t) -> kids_of (root_key s) t = kids s.
Proof.
  intros H. unfold kids_of. destruct (find_sub_in (root_key s) t) as (u & E); [apply in_map_iff; exists (data s); split; [reflexivity|now apply gsub_data]|]. rewrite E. apply find_sub_some in E. f_equal. apply (sub_unique t); [exact N|apply E|now apply gsubs_subs|apply E].
Qed.
Lemma inner_no s d : In s (gsubs t) -> In d (flat_map flat (kids s)) -> (forall k, ~ refers_to d k) /\ (forall x, In x (flat t) -> ~ refers_to x (key d)) /\ In d (flat t) /\ is_gradient d = false.
Proof.
  intros Hs Hd. destruct (proj2 (inner_ctx t d U)) as (a & p & H & Hp & G); [eauto|]. destruct (rr_inner _ R a d p H Hp (proj1 (gradient_iff p) G)) as [A B]. split; [exact A|]. split; [exact B|]. split; [exact (ctx_in_flat _ _ _ H)|exact (U s d Hs Hd)].
Qed.
Lemma inserted : exists t0, insert_before k1 (T nw (kids_of k1 t)) (upd k1 (lk kf) (set_kids k1 (fun _ => []) t)) = t0 /\ [t0] = rgf G0 t.
Proof.
  eexists. split; [reflexivity|]. pose proof (gsub_gkey s1 H1) as K. rewrite (kids_of_s s1 H1). rewrite (rg_set_kids k1 _ t U K). set (g0 := fun s => if Nat.eqb (root_key s) k1 then T (data s) [] else s).
  assert (A0 : forall s, In s (gsubs t) -> is_gradient (data (g0 s)) = true) by (intros s Hs; destruct (gsub_data s Hs) as [_ G]; unfold g0; destruct Nat.eqb; exact G).
  assert (U0 : unnested (rg g0 t)). { intros s' d Hs'. rewrite gsubs_rg in Hs' by exact A0. apply in_map_iff in Hs'. destruct Hs' as (s & <- & Hs). unfold g0. destruct Nat.eqb; [intros []|]. now apply U. }
  assert (K0 : grad_key k1 (rg g0 t)).
  { intros d Hd Ed. apply in_flat_parts in Hd. rewrite outs_rg, gsubs_rg in Hd by exact A0. apply K; [|exact Ed]. apply in_flat_parts. destruct Hd as [(a & Hd)|(s' & Hs' & Hd)]; [left; eauto|right]. apply in_map_iff in Hs'. destruct Hs' as (s & <- & Hs). exists s. split; [exact Hs|]. revert Hd. unfold g0. destruct Nat.eqb; [|auto]. intros [<-|[]]. apply flat_self. }
  rewrite (rg_upd k1 _ _ U0 K0), rg_rg by exact A0.
  assert (E : rg (fun s => (fun s0 => if Nat.eqb (root_key s0) k1 then T (lk kf (data s0)) (kids s0) else s0) (g0 s)) t = rg (hj kf k1) t).
  { apply rg_ext. intros s Hs. unfold hj, g0. destruct (Nat.eqb_spec (root_key s) k1) as [A|A].
    - change (root_key (T (data s) [])) with (root_key s). rewrite (proj2 (Nat.eqb_eq _ _) A). reflexivity.
    - rewrite (proj2 (Nat.eqb_neq _ _) A). reflexivity. }
  rewrite E. clear E U0 K0 A0. clearbody g0.
  assert (A1 : forall s, In s (gsubs t) -> is_gradient (data (hj kf k1 s)) = true) by (intros s Hs; apply hj_grad; now apply gsub_data).
  assert (U1 : unnested (rg (hj kf k1) t)). { intros s' d Hs'. rewrite gsubs_rg in Hs' by exact A1. apply in_map_iff in Hs'. destruct Hs' as (s & <- & Hs). unfold hj. destruct Nat.eqb; [intros []|]. now apply U. }
  assert (K1 : grad_key k1 (rg (hj kf k1) t)).
  { intros d Hd Ed. apply in_flat_parts in Hd. rewrite outs_rg, gsubs_rg in Hd by exact A1. destruct Hd as [(a & Hd)|(s' & Hs' & Hd)]; [apply K; [|exact Ed]; apply in_flat_parts; left; eauto|]. apply in_map_iff in Hs'. destruct Hs' as (s & <- & Hs). destruct (gsub_data s Hs) as [X Y]. revert Hd. unfold hj. destruct Nat.eqb; [intros [<-|[]]; exact Y|]. intros Hd. apply K; [|exact Ed]. apply in_flat_parts. right. eauto. }
  rewrite (insert_rgf k1 _ _ U1 K1); [|pose proof grad_root as Gr; destruct t as [x ch]; cbn in *; rewrite Gr; exact Gr].
  rewrite rgf_rg by exact A1. apply rgf_ext. intros s Hs. unfold G0, hj. destruct (Nat.eqb_spec (root_key s) k1) as [A|A].
  - change (root_key (T (lk kf (data s)) [])) with (root_key s). rewrite (proj2 (Nat.eqb_eq _ _) A). reflexivity.
  - rewrite (proj2 (Nat.eqb_neq _ _) A). reflexivity.
Qed.
Lemma hl_G s : In s (gsubs t) -> map (hl kf js) (G0 s) = GG s.
Proof.
  intros Hs. unfold G0, GG. destruct (Nat.eqb_spec (root_key s) k1) as [A|A].
  - cbn [map]. unfold hl. change (root_key (T nw (kids s1))) with kf. change (root_key (T (lk kf (data s)) [])) with (root_key s).
    rewrite (proj2 (not_members js kf)), (proj2 (not_members js (root_key s))); [reflexivity| |].
    + intros X. destruct (HJ _ X) as [Y _]. congruence.
    + intros X. destruct (HJ _ X) as (_ & u & Hu & E & _). apply (fresh_not t). rewrite <- E. apply in_map_iff. exists (data u). split; [reflexivity|now apply gsub_data].
  - cbn [map]. unfold hl. destruct existsb; reflexivity.
Qed.
Lemma linkable d : In d (flat t) -> can_link d nw = true.
Proof.
  intros H. unfold can_link. cbn. rewrite andb_true_r. apply andb_true_iff. split.
  - unfold has_id. cbn. apply negb_true_iff. apply String.eqb_neq. apply gen_id_nonempty.
  - apply negb_true_iff. apply String.eqb_neq. intros E. apply (gen_id_free "lg" t). rewrite <- E. now apply in_map.
Qed.
Lemma share_closed : exists t1, share k1 js t = Ok t1 /\ [t1] = rgf GG t.
Proof.
  unfold share. fold nw. assert (X : forallb (fun d => negb (existsb (Nat.eqb (key d)) (k1 :: js)) || can_link d nw) (flat t) = true) by (apply forallb_forall; intros d Hd; rewrite linkable by exact Hd; apply orb_true_r).
  rewrite X. cbn zeta. destruct inserted as (t0 & E & Q). change (key nw) with kf. fold (lk kf). rewrite E. eexists. split; [reflexivity|].
  assert (Fo : foldable kf js t0).
  { assert (GS : gsubs t0 = flat_map G0 (gsubs t)) by (rewrite <- (gsubs_rgf G0 t G0_grads), <- Q; cbn; now rewrite app_nil_r).
    assert (OS : outs [] t0 = outs [] t) by (rewrite <- (outs_rgf G0 t G0_grads []), <- Q; cbn; now rewrite app_nil_r).
    assert (In1 : forall s' d, In s' (gsubs t0) -> In d (flat_map flat (kids s')) -> exists s, In s (gsubs t) /\ In d (flat_map flat (kids s))).
    { intros s' d Hs' Hd. rewrite GS in Hs'. apply in_flat_map in Hs'. destruct Hs' as (s & Hs & Hs'). unfold G0 in Hs'. destruct Nat.eqb; [|destruct Hs' as [<-|[]]; eauto]. destruct Hs' as [<-|[<-|[]]]; [exists s1; auto|destruct Hd]. }
    assert (Fl : forall d, In d (flat t0) -> In d (flat t) \/ d = nw \/ exists d0, In d0 (flat t) /\ is_gradient d0 = true /\ d = lk kf d0).
    { intros d Hd. apply in_flat_parts in Hd. rewrite OS, GS in Hd. destruct Hd as [(a & Hd)|(s' & Hs' & Hd)]; [left; apply in_flat_parts; eauto|]. apply in_flat_map in Hs'. destruct Hs' as (s & Hs & Hs'). unfold G0 in Hs'. destruct Nat.eqb.
      - destruct Hs' as [<-|[<-|[]]].
        + destruct Hd as [<-|Hd]; [auto|]. left. destruct (inner_no s1 d H1 Hd) as (_ & _ & Y & _). exact Y.
        + destruct Hd as [<-|[]]. right. right. exists (data s). destruct (gsub_data s Hs). auto.
      - destruct Hs' as [<-|[]]. left. apply in_flat_parts. eauto. }
    constructor.
    - intros s' d Hs' Hd. destruct (In1 s' d Hs' Hd) as (s & Hs & Hd'). exact (U s d Hs Hd').
    - intros j Hj d Hd Ed. destruct (HJ j Hj) as (_ & u & Hu & Eu & _). destruct (Fl d Hd) as [Y|[-> |(d0 & Y & G & ->)]]; [|reflexivity|exact G]. apply (gsub_gkey u Hu d Y). congruence.
    - intros s' d x Hs' Hd Hx Rx. destruct (In1 s' d Hs' Hd) as (s & Hs & Hd'). destruct (inner_no s d Hs Hd') as (_ & B & B' & _). destruct (Fl x Hx) as [Y|[-> |(d0 & Y & G & ->)]]; [exact (B x Y Rx)|destruct Rx as (y & [] & _)|]. apply lk_refers in Rx. destruct Rx as [Rx|Rx]; [exact (B d0 Y Rx)|]. apply (kf_new (key d)); [now apply in_map|exact Rx].
    - intros s' d Hs' Hd. destruct (In1 s' d Hs' Hd) as (s & Hs & Hd'). destruct (inner_no s d Hs Hd') as (_ & _ & B & _). apply kf_new. now apply in_map. }
  rewrite (fold_closed kf js js t0 (fun x H => H) Fo). change [rg (hl kf js) t0] with (map (rg (hl kf js)) [t0]). rewrite Q, (rg_rgf _ _ t G0_grads). apply rgf_ext. exact hl_G.
Qed.
Variable t1 : tree.
Hypothesis E1 : [t1] = rgf GG t.
Lemma gs1 : gsubs t1 = flat_map GG (gsubs t).
Proof. rewrite <- (gsubs_rgf GG t GG_grads), <- E1. cbn. now rewrite app_nil_r. Qed.
Lemma outs1 anc : outs anc t1 = outs anc t.
Proof. rewrite <- (outs_rgf GG t GG_grads anc), <- E1. cbn. now rewrite app_nil_r. Qed.
Lemma gpl1 : gpl [] t1 = flat_map (fun q => map (fun u => (fst q, u)) (GG (snd q))) (gpl [] t).
Proof. rewrite <- (gpl_rgf GG t GG_grads []), <- E1. cbn. now rewrite app_nil_r. Qed.
Definition linked (k : nat) : Prop := k = k1 \/ In k js.
Definition lkc (d : ndata) : ndata := if Nat.eqb (key d) k1 || existsb (Nat.eqb (key d)) js then lk kf d else d.
Lemma lkc_key d : key (lkc d) = key d. Proof. unfold lkc. destruct (_ || _); reflexivity. Qed.
Lemma lkc_tag d : tag (lkc d) = tag d. Proof. unfold lkc. destruct (_ || _); reflexivity. Qed.
Lemma lkc_nid d : nid (lkc d) = nid d. Proof. unfold lkc. destruct (_ || _); reflexivity. Qed.
Lemma lkc_yes d : linked (key d) -> lkc d = lk kf d.
Proof. intros [H|H]; unfold lkc; [rewrite H, Nat.eqb_refl; reflexivity|]. rewrite (proj2 (in_members js _) H), orb_true_r. reflexivity. Qed.
Lemma lkc_no d : ~ linked (key d) -> lkc d = d.
Proof. intros H. unfold lkc. rewrite (proj2 (Nat.eqb_neq _ _)), (proj2 (not_members js _)); [reflexivity| |]; intros X; apply H; [now right|now left]. Qed.
Lemma linked_dec k : linked k \/ ~ linked k.
Proof. unfold linked. destruct (Nat.eq_dec k k1); [auto|]. destruct (in_dec Nat.eq_dec k js); [auto|]. right. intuition. Qed.
Lemma linked_sub s : In s (gsubs t) -> linked (root_key s) -> d_get (data s) AXlinkHref = None /\ kids s <> [] /\ (root_key s = k1 \/ is_equal_stops s1 s = true).
Proof.
  intros Hs [E|E].
  - rewrite (gsub_uniq s s1 Hs H1 E). auto.
  - destruct (HJ _ E) as (_ & u & Hu & Eu & A & B & C). rewrite (gsub_uniq s u Hs Hu (eq_sym Eu)). auto.
Qed.
Lemma linked_data d : In d (flat t) -> linked (key d) -> is_gradient d = true /\ d_get d AXlinkHref = None.
Proof.
  intros Hd L. assert (X : exists s, In s (gsubs t) /\ root_key s = key d). { destruct L as [E|E]; [exists s1; auto|]. destruct (HJ _ E) as (_ & u & Hu & Eu & _). eauto. } destruct X as (s & Hs & E).
  assert (Ed : d = data s) by (apply (data_unique t); [exact N|exact Hd|now apply gsub_data|symmetry; exact E]). subst d. split; [now apply gsub_data|]. apply (linked_sub s Hs). now rewrite E.
Qed.
Lemma GG_cases s u : In s (gsubs t) -> In u (GG s) -> (root_key s = k1 /\ u = T nw (kids s1)) \/ (linked (root_key s) /\ u = T (lkc (data s)) []) \/ (~ linked (root_key s) /\ u = s).
Proof.
  intros Hs. unfold GG. destruct (Nat.eqb_spec (root_key s) k1) as [A|A].
  - intros [<-|[<-|[]]]; [now left|]. right. left. split; [now left|]. rewrite lkc_yes by (now left). reflexivity.
  - destruct existsb eqn:B; intros [<-|[]].
    + apply in_members in B. right. left. split; [now right|]. rewrite lkc_yes by (now right). reflexivity.
    + apply not_members in B. right. right. split; [intros [X|X]; contradiction|reflexivity].
Qed.
Lemma GG_old s : In s (gsubs t) -> exists u, In u (GG s) /\ data u = lkc (data s).
Proof.
  intros Hs. unfold GG. destruct (Nat.eqb_spec (root_key s) k1) as [A|A]; [exists (T (lk kf (data s)) []); split; [cbn; auto|]; rewrite lkc_yes by (now left); reflexivity|].
  destruct existsb eqn:B; [apply in_members in B; exists (T (lk kf (data s)) []); split; [cbn; auto|]; rewrite lkc_yes by (now right); reflexivity|]. apply not_members in B. exists s. split; [cbn; auto|]. rewrite lkc_no; [reflexivity|]. intros [X|X]; contradiction.
Qed.
Lemma inner_t1 s' d : In s' (gsubs t1) -> In d (flat_map flat (kids s')) -> exists s, In s (gsubs t) /\ In d (flat_map flat (kids s)).
Proof.
  intros Hs' Hd. rewrite gs1 in Hs'. apply in_flat_map in Hs'. destruct Hs' as (s & Hs & Hu). destruct (GG_cases s s' Hs Hu) as [[_ ->]|[[_ ->]|[_ ->]]]; [exists s1; auto|destruct Hd|exists s; auto].
Qed.
Lemma flat1_inv x : In x (flat t1) -> x = nw \/ exists d, In d (flat t) /\ x = lkc d.
Proof.
  intros H. apply in_flat_parts in H. rewrite outs1 in H. destruct H as [(a & H)|(s' & Hs' & H)].
  - right. exists x. split; [apply in_flat_parts; eauto|]. symmetry. apply lkc_no. intros L. apply outs_ctx0 in H. destruct H as [H Q]. destruct (linked_data x (ctx_in_flat _ _ _ H) L) as [G _]. rewrite (Q x (or_introl eq_refl)) in G. discriminate.
  - rewrite gs1 in Hs'. apply in_flat_map in Hs'. destruct Hs' as (s & Hs & Hu). assert (In2 : forall u, In u (gsubs t) -> In x (flat_map flat (kids u)) -> exists d, In d (flat t) /\ x = lkc d).
    { intros u Hu' Hx. destruct (inner_no u x Hu' Hx) as (_ & _ & A & B). exists x. split; [exact A|]. symmetry. apply lkc_no. intros L. destruct (linked_data x A L) as [G _]. congruence. }
    destruct (GG_cases s s' Hs Hu) as [[_ ->]|[[_ ->]|[L ->]]].
    + destruct H as [<-|H]; [now left|right]. exact (In2 s1 H1 H).
    + destruct H as [<-|[]]. right. exists (data s). split; [now apply gsub_data|reflexivity].
    + right. destruct s as [y ch] eqn:Es. destruct H as [<-|H]; [|exact (In2 (T y ch) Hs H)]. exists y. split; [exact (proj1 (gsub_data _ Hs))|]. symmetry. apply lkc_no. exact L.
Qed.
Lemma flat1_grad d : In d (flat t) -> is_gradient d = true -> In (lkc d) (flat t1).
Proof.
  intros H G. assert (X : exists s, In s (gsubs t) /\ data s = d). { rewrite <- map_data_subs in H. apply in_map_iff in H. destruct H as (s & <- & Hs). exists s. split; [|reflexivity]. now apply grad_sub. }
  destruct X as (s & Hs & <-). destruct (GG_old s Hs) as (u & Hu & E). apply in_flat_parts. right. exists u. split; [rewrite gs1; apply in_flat_map; eauto|]. rewrite <- E. apply flat_self.
Qed.
Lemma flat1_nw : In nw (flat t1).
Proof. apply in_flat_parts. right. exists (T nw (kids s1)). split; [rewrite gs1; apply in_flat_map; exists s1; split; [exact H1|]; unfold GG; rewrite Nat.eqb_refl; now left|now left]. Qed.
Lemma flat1_ref d k : In d (flat t) -> refers_to d k -> exists y, In y (flat t) /\ key y = k /\ In (lkc y) (flat t1).
Proof.
  intros Hd Rk. assert (Hk : In k (keys t)). { apply (wf_links t (rr_wf _ R)). apply targets_in. destruct Rk as (x & Hx & L). exists d, x. auto. } apply in_map_iff in Hk. destruct Hk as (y & E & Hy). exists y. split; [exact Hy|]. split; [exact E|].
  apply in_flat_parts in Hy. destruct Hy as [(a & Hy)|(s & Hs & Hy)].
  - assert (X : lkc y = y). { apply lkc_no. intros L. apply outs_ctx0 in Hy. destruct Hy as [Hy Q]. destruct (linked_data y (ctx_in_flat _ _ _ Hy) L) as [G _]. rewrite (Q y (or_introl eq_refl)) in G. discriminate. } rewrite X. apply in_flat_parts. left. rewrite outs1. eauto.
  - destruct s as [x ch] eqn:Es. destruct Hy as [<-|Hy]; [apply flat1_grad; apply (gsub_data _ Hs)|]. exfalso. destruct (inner_no _ y Hs Hy) as (_ & B & _). apply (B d Hd). now rewrite E.
Qed.
Lemma GG_keys s : In s (gsubs t) -> root_key s <> k1 -> sublist (flat_map keys (GG s)) (keys s).
Proof.
  intros Hs A. unfold GG. rewrite (proj2 (Nat.eqb_neq _ _) A). destruct existsb; cbn [flat_map]; rewrite app_nil_r; [|apply sublist_refl]. destruct s as [d ch]. cbn. apply sub_cons. apply sublist_nil.
Qed.
Lemma part_keys u : Permutation (keys u) (map key (map snd (outs [] u)) ++ flat_map keys (gsubs u)).
Proof. unfold keys at 1. rewrite (Permutation_map key (flat_parts u [])). rewrite map_app. rewrite (flat_map_concat_map keys), (flat_map_concat_map flat), concat_map. rewrite (map_map flat (map key)). reflexivity. Qed.
Lemma nodup1 : NoDup (keys t1).
Proof.
  apply (Permutation_NoDup (Permutation_sym (part_keys t1))). rewrite outs1, gs1. destruct (in_split s1 (gsubs t) H1) as (A & B & E). pose proof (gsubs_nodup t N) as ND. rewrite E in ND. rewrite map_app in ND. cbn in ND. apply NoDup_remove_2 in ND.
  rewrite E, flat_map_app, flat_map_app. cbn [flat_map]. rewrite flat_map_app.
  assert (SA : forall l, incl l (gsubs t) -> (forall s, In s l -> root_key s <> k1) -> sublist (flat_map keys (flat_map GG l)) (flat_map keys l)).
  { induction l as [|s l IH]; intros I Q; [constructor|]. cbn. rewrite flat_map_app. apply sublist_app; [apply GG_keys; [apply I; now left|apply Q; now left]|apply IH; [intros x Hx; apply I; now right|intros x Hx; apply Q; now right]]. }
  assert (IA : sublist (flat_map keys (flat_map GG A)) (flat_map keys A)). { apply SA; [intros x Hx; rewrite E; apply in_app_iff; now left|]. intros s Hs X. apply ND. apply in_app_iff. left. rewrite <- X. now apply in_map. }
  assert (IB : sublist (flat_map keys (flat_map GG B)) (flat_map keys B)). { apply SA; [intros x Hx; rewrite E; apply in_app_iff; right; now right|]. intros s Hs X. apply ND. apply in_app_iff. right. rewrite <- X. now apply in_map. }
  assert (P1 : Permutation (flat_map keys (GG s1)) (kf :: keys s1)).
  { unfold GG. rewrite Nat.eqb_refl. destruct s1 as [d ch]. cbn [flat_map kids data]. rewrite !keys_cons. cbn [flat_map]. rewrite app_nil_r. change (key nw) with kf. change (key (lk kf d)) with (key d). cbn. constructor. rewrite <- Permutation_cons_append. reflexivity. }
  set (O := map key (map snd (outs [] t))). apply (Permutation_NoDup (l := kf :: O ++ flat_map keys (flat_map GG A) ++ keys s1 ++ flat_map keys (flat_map GG B))).
  - rewrite P1. cbn [app]. rewrite !app_assoc. rewrite <- !Permutation_middle. rewrite <- !app_assoc. reflexivity.
  - assert (S : sublist (O ++ flat_map keys (flat_map GG A) ++ keys s1 ++ flat_map keys (flat_map GG B)) (O ++ flat_map keys (gsubs t))).
    { apply sublist_app; [apply sublist_refl|]. rewrite E, flat_map_app. cbn [flat_map]. apply sublist_app; [exact IA|]. apply sublist_app; [apply sublist_refl|exact IB]. }
    constructor; [|apply (sublist_NoDup _ _ S); exact (Permutation_NoDup (part_keys t) N)]. intros X. apply (sublist_incl _ _ S) in X. apply (fresh_not t). exact (Permutation_in _ (Permutation_sym (part_keys t)) X).
Qed.
Lemma nodup_in d : In d (flat t) -> attrs_nodup d.
Proof. exact (proj1 (Forall_forall _ _) (rr_wfa _ R) d). Qed.
Lemma lkc_nodup d : In d (flat t) -> attrs_nodup (lkc d).
Proof. intros H. unfold lkc. destruct (_ || _); [apply nodup_set|]; now apply nodup_in. Qed.
Lemma lkc_refers d k : refers_to (lkc d) k -> refers_to d k \/ k = kf.
Proof. unfold lkc. destruct (_ || _); [apply lk_refers|auto]. Qed.
Lemma grad_lkc d : gradient_node (lkc d) <-> gradient_node d.
Proof. unfold gradient_node. now rewrite lkc_tag. Qed.
Lemma root1 : data t1 = data t.
Proof. pose proof grad_root as G. pose proof E1 as E. destruct t as [x ch]. cbn in G, E. rewrite G in E. injection E as ->. reflexivity. Qed.
Lemma unnested1 : unnested t1.
Proof. intros s' d Hs' Hd. destruct (inner_t1 s' d Hs' Hd) as (s & Hs & Hd'). exact (U s d Hs Hd'). Qed.
Lemma lkc_href d : In d (flat t) -> linked (key d) -> d_get (lkc d) AXlinkHref = Some (VLink kf).
Proof. intros Hd L. rewrite lkc_yes by exact L. unfold lk, d_set, d_get, get_value. cbn. now rewrite get_set_same. Qed.
Lemma lkc_get d a : a <> AXlinkHref -> d_get (lkc d) a = d_get d a.
Proof. intros H. unfold lkc. destruct (_ || _); [|reflexivity]. unfold lk, d_set, d_get, get_value. cbn. now rewrite get_set_other by congruence. Qed.
Lemma share_ready : rready t1.
Proof.
  constructor.
  - constructor; [exact nodup1|]. intros k H. apply targets_in in H. destruct H as (x & y & Hx & Hy & L). assert (Rk : refers_to x k) by (exists y; auto). destruct (flat1_inv x Hx) as [->|(d & Hd & ->)]; [destruct Hy|].
    apply lkc_refers in Rk. destruct Rk as [Rk| ->]; [|apply in_map_iff; exists nw; split; [reflexivity|exact flat1_nw]]. destruct (flat1_ref d k Hd Rk) as (z & Hz & <- & Hz'). apply in_map_iff. exists (lkc z). split; [apply lkc_key|exact Hz'].
  - apply Forall_forall. intros x Hx. destruct (flat1_inv x Hx) as [->|(d & Hd & ->)]; [constructor|now apply lkc_nodup].
  - rewrite root1. exact (rr_root _ R).
  - apply unnested_ctx. exact unnested1.
  - intros a d p H Hp G. destruct (proj1 (inner_ctx t1 d unnested1)) as (s' & Hs' & Hd'); [exists a, p; split; [exact H|]; split; [exact Hp|now apply gradient_iff]|]. destruct (inner_t1 s' d Hs' Hd') as (s & Hs & Hd). destruct (inner_no s d Hs Hd) as (A & B & C & _). split; [exact A|].
    intros x Hx Rx. destruct (flat1_inv x Hx) as [->|(y & Hy & ->)]; [destruct Rx as (z & [] & _)|]. apply lkc_refers in Rx. destruct Rx as [Rx|Rx]; [exact (B y Hy Rx)|]. apply (kf_new (key d)); [now apply in_map|exact Rx].
  - intros d' x Hd' G Hx Nx. destruct (flat1_inv d' Hd') as [->|(d & Hd & ->)]; [destruct Hx|]. apply (proj1 (grad_lkc _)) in G.
    assert (Old : In x (attrs d) -> a_vis x = true /\ exists y, In y (flat t1) /\ a_val x = VLink (key y) /\ gradient_node y).
    { intros Hx0. destruct (rr_hrefs _ R d x Hd G Hx0 Nx) as (V & y & Hy & Ey & Gy). split; [exact V|]. exists (lkc y). split; [apply flat1_grad; [exact Hy|now apply gradient_iff]|]. rewrite lkc_key. split; [exact Ey|]. now apply grad_lkc. }
    unfold lkc in Hx. destruct (_ || _); [|exact (Old Hx)]. unfold lk, d_set in Hx. cbn in Hx. apply set_attr_in in Hx. destruct Hx as [Hx| ->]; [exact (Old Hx)|]. cbn. split; [reflexivity|]. exists nw. split; [exact flat1_nw|]. split; [reflexivity|now left].
  - intros s c x a Hs G Hc. assert (Gs : In s (gsubs t1)) by (apply grad_sub; [exact unnested1|exact Hs|now apply gradient_iff]). rewrite gs1 in Gs. apply in_flat_map in Gs. destruct Gs as (s0 & Hs0 & Hu).
    assert (X : exists s2, In s2 (gsubs t) /\ In c (kids s2)). { destruct (GG_cases s0 s Hs0 Hu) as [[_ ->]|[[_ ->]|[_ ->]]]; [exists s1; auto|destruct Hc|exists s0; auto]. } destruct X as (s2 & Hs2 & Hc2). destruct (gsubs_subs t s2 Hs2) as [A B].
    apply (rr_stops _ R s2 c x a A); [now apply gradient_iff|exact Hc2].
  - destruct (rr_acyclic _ R) as (rank & HR). exists (fun k => if Nat.eqb k kf then 0 else S (rank k)). intros d' k Hd' G F. destruct (flat1_inv d' Hd') as [->|(d & Hd & ->)]; [discriminate|]. rewrite lkc_key. apply (proj1 (grad_lkc _)) in G.
    assert (Nk : key d <> kf) by (apply kf_new; now apply in_map). rewrite (proj2 (Nat.eqb_neq _ _) Nk). destruct (Nat.eqb_spec k kf) as [E|E]; [lia|]. apply -> Nat.succ_lt_mono. apply (HR d k Hd G). destruct (linked_dec (key d)) as [L|L]; [rewrite (lkc_href d Hd L) in F; congruence|rewrite lkc_no in F by exact L; exact F].
  - destruct (rr_kinds _ R) as (rank & HR). exists (fun k => if Nat.eqb k kf then 0 else S (rank k)). intros d' x' Hd' Hx' Td Tx Rk. destruct (flat1_inv d' Hd') as [->|(d & Hd & ->)]; [destruct Rk as (z & [] & _)|]. rewrite lkc_key. rewrite lkc_tag in Td.
    assert (Nk : key d <> kf) by (apply kf_new; now apply in_map). rewrite (proj2 (Nat.eqb_neq _ _) Nk). destruct (Nat.eqb_spec (key x') kf) as [E|E]; [lia|]. apply -> Nat.succ_lt_mono. destruct (flat1_inv x' Hx') as [->|(x & Hx & ->)]; [now elim E|]. rewrite lkc_key in *. rewrite lkc_tag in Tx. apply (HR d x Hd Hx Td Tx). apply lkc_refers in Rk. destruct Rk as [Rk|Rk]; [exact Rk|contradiction].
Qed.
(** *** Paint *)
Lemma hrefv d : In d (flat t) -> gradient_node d -> d_get (vis d) AXlinkHref = d_get d AXlinkHref.
Proof.
  intros H G. rewrite vis_dget by (now apply nodup_in). rewrite dget_attr. destruct (get_attr (attrs d) AXlinkHref) as [x|] eqn:E; [|reflexivity]. destruct (get_attr_some _ _ _ E) as [A B]. destruct (rr_hrefs _ R d x H G A B) as [-> _]. reflexivity.
Qed.
Lemma nextv d k x : In d (flat t) -> gradient_node d -> d_get (vis d) AXlinkHref = Some (VLink k) -> In x (flat (written t)) -> key x = k ->
  exists y, In y (flat t) /\ x = vis y /\ gradient_node y /\ key y = k.
Proof.
  intros H G F Hx Kx. unfold written in Hx. rewrite flat_tmap in Hx. apply in_map_iff in Hx. destruct Hx as (y & <- & Hy). exists y. split; [exact Hy|]. split; [reflexivity|]. split; [|exact Kx].
  rewrite (hrefv d H G), dget_attr in F. destruct (get_attr (attrs d) AXlinkHref) as [z|] eqn:E; [|discriminate]. destruct (get_attr_some _ _ _ E) as [A B]. destruct (rr_hrefs _ R d z H G A B) as (_ & w & Hw & Ew & Gw). cbn in F. assert (X : w = y) by (apply (data_unique t); [exact N|exact Hw|exact Hy|cbn in Kx; congruence]). now subst w.
Qed.
Lemma visl_get d a : In d (flat t) -> a <> AXlinkHref -> d_get (vis (lkc d)) a = d_get (vis d) a.
Proof.
  intros H A. unfold lkc. destruct (_ || _); [|reflexivity]. unfold lk. rewrite vis_set by (now apply nodup_in). destruct (aid_eqb_spec AXlinkHref a); [congruence|reflexivity].
Qed.
Lemma visl_href d : In d (flat t) -> d_get (vis (lkc d)) AXlinkHref = if Nat.eqb (key d) k1 || existsb (Nat.eqb (key d)) js then Some (VLink kf) else d_get (vis d) AXlinkHref.
Proof. intros H. unfold lkc. destruct (_ || _); [|reflexivity]. unfold lk. rewrite vis_set by (now apply nodup_in). reflexivity. Qed.
Lemma visl_yes d : In d (flat t) -> linked (key d) -> d_get (vis (lkc d)) AXlinkHref = Some (VLink kf).
Proof. intros H [L|L]; rewrite visl_href by exact H; [rewrite L, Nat.eqb_refl; reflexivity|]. rewrite (proj2 (in_members js _) L), orb_true_r. reflexivity. Qed.
Lemma along1 a y o : a <> AXlinkHref -> along_href (written t) a y o -> forall d, y = vis d -> In d (flat t) -> gradient_node d -> along_href (written t1) a (vis (lkc d)) o.
Proof.
  intros Na. induction 1 as [y v E|y E F|y k x r E F Hx Kx A IH]; intros d -> Hd G.
  - apply ah_own. now rewrite visl_get.
  - destruct (linked_dec (key d)) as [L|L].
    + apply ah_next with (k := kf) (x := vis nw); [now rewrite visl_get|now apply visl_yes|apply in_w; exact flat1_nw|reflexivity|]. apply ah_end; reflexivity.
    + rewrite lkc_no by exact L. now apply ah_end.
  - destruct (linked_dec (key d)) as [L|L]; [exfalso; destruct (linked_data d Hd L) as [_ Q]; rewrite hrefv in F by assumption; congruence|].
    destruct (nextv d k x Hd G F Hx Kx) as (z & Hz & -> & Gz & Kz). apply ah_next with (k := k) (x := vis (lkc z)); [now rewrite visl_get|now rewrite lkc_no|apply in_w, flat1_grad; [exact Hz|now apply gradient_iff]|cbn; now rewrite lkc_key|]. now apply IH.
Qed.
Lemma eff1 a v d : a <> AXlinkHref -> effective (written t) (vis d) a v -> In d (flat t) -> gradient_node d -> effective (written t1) (vis (lkc d)) a v.
Proof.
  intros Na E Hd G. induction E as [a v A|a A Nb|a v Ea A E IH|a v Ea A E IH].
  - apply eff_found. apply (along1 a _ _ Na A d eq_refl Hd G).
  - apply eff_default; [|exact Nb]. apply (along1 a _ _ Na A d eq_refl Hd G).
  - apply eff_fx; [exact Ea| |apply IH; discriminate]. apply (along1 a _ _ Na A d eq_refl Hd G).
  - apply eff_fy; [exact Ea| |apply IH; discriminate]. apply (along1 a _ _ Na A d eq_refl Hd G).
Qed.
Lemma stop_vis s c : In s (gsubs t) -> In c (kids s) -> stop_values (tmap vis c) = stop_values c.
Proof.
  intros Hs Hc. destruct (gsubs_subs t s Hs) as [A B]. apply gradient_iff in B. assert (Hd : In (data c) (flat t)) by (apply data_of_sub; apply (subs_trans t s c A); destruct s; right; apply in_flat_map; exists c; split; [exact Hc|apply subs_self]).
  assert (Q : forall a, In a [AOffset; AStopColor; AStopOpacity] -> stop_value (vis (data c)) a = stop_value (data c) a).
  { intros a Ha. unfold stop_value. rewrite vis_dget by (now apply nodup_in). rewrite dget_attr. destruct (get_attr (attrs (data c)) a) as [x|] eqn:E; [|reflexivity]. destruct (get_attr_some _ _ _ E) as [X Y]. destruct (rr_stops _ R s c x a A B Hc X Y Ha) as [->|V]; [reflexivity|]. destruct (a_vis x); [reflexivity|]. exact V. }
  unfold stop_values. rewrite data_tmap. rewrite !Q by (cbn; auto). reflexivity.
Qed.
Lemma stops_vis s : In s (gsubs t) -> map stop_values (kids (tmap vis s)) = map stop_values (kids s).
Proof. intros Hs. rewrite kids_vis, map_map. apply map_ext_in. intros c Hc. exact (stop_vis s c Hs Hc). Qed.
Lemma sub1 u : In u (gsubs t1) -> In (tmap vis u) (subs (written t1)).
Proof. intros H. unfold written. rewrite subs_tmap. apply in_map. now apply gsubs_subs in H. Qed.
Lemma GG_no s : In s (gsubs t) -> ~ linked (root_key s) -> In s (gsubs t1).
Proof. intros Hs L. rewrite gs1. apply in_flat_map. exists s. split; [exact Hs|]. unfold GG. rewrite (proj2 (Nat.eqb_neq _ _)), (proj2 (not_members js _)); [now left| |]; intros X; apply L; [now right|now left]. Qed.
Lemma GG_yes s : In s (gsubs t) -> linked (root_key s) -> In (T (lkc (data s)) []) (gsubs t1).
Proof.
  intros Hs L. rewrite gs1. apply in_flat_map. exists s. split; [exact Hs|]. rewrite lkc_yes by exact L. unfold GG. destruct (Nat.eqb_spec (root_key s) k1) as [A|A]; [right; now left|]. destruct L as [L|L]; [contradiction|]. rewrite (proj2 (in_members js _) L). now left.
Qed.
Lemma nw_sub : In (T nw (kids s1)) (gsubs t1).
Proof. rewrite gs1. apply in_flat_map. exists s1. split; [exact H1|]. unfold GG. rewrite Nat.eqb_refl. now left. Qed.
Lemma stops1 k0 lst : stops_in_effect (written t) k0 lst -> (exists d, In d (flat t) /\ gradient_node d /\ key d = k0) -> stops_in_effect (written t1) k0 lst.
Proof.
  assert (Own : forall s, In s (subs (written t)) -> (exists d, In d (flat t) /\ gradient_node d /\ key d = root_key s) -> exists s0, In s0 (gsubs t) /\ s = tmap vis s0 /\ root_key s0 = root_key s /\ In (data s0) (flat t) /\ gradient_node (data s0)).
  { intros s Hs (d & Hd & G & K). destruct (DuplProofs.sub_w t s Hs) as (s0 & Hs0 & ->). rewrite root_vis in *. exists s0. assert (X : data s0 = d) by (apply (data_unique t); [exact N|now apply data_of_sub|exact Hd|now symmetry]). rewrite X. split; [apply grad_sub; [exact U|exact Hs0|rewrite X; now apply gradient_iff]|]. auto. }
  induction 1 as [s Hs K|s k lst Hs K F A IH|s Hs K F]; intros Q; destruct (Own s Hs Q) as (s0 & Gs & -> & Ks & Hd & G); rewrite <- Ks.
  - destruct (linked_dec (root_key s0)) as [L|L].
    + replace (map stop_values (kids (tmap vis s0))) with (map stop_values (kids (tmap vis (T nw (kids s1))))).
      * replace (root_key s0) with (root_key (tmap vis (T (lkc (data s0)) []))) by (rewrite root_vis; unfold root_key; cbn [data]; apply lkc_key). apply se_next with (k := kf).
        -- apply sub1. now apply GG_yes.
        -- reflexivity.
        -- rewrite data_tmap. cbn [data]. now apply visl_yes.
        -- replace kf with (root_key (tmap vis (T nw (kids s1)))) by reflexivity. apply se_own; [apply sub1; exact nw_sub|]. intros X. apply (proj1 (kids_vis_nil _)) in X. exact (C1 X).
      * rewrite (stops_vis s0 Gs). replace (kids (tmap vis (T nw (kids s1)))) with (kids (tmap vis s1)) by (now rewrite !kids_vis). rewrite (stops_vis s1 H1).
        destruct (linked_sub s0 Gs L) as (_ & _ & [E|E]); [now rewrite (gsub_uniq s0 s1 Gs H1 E)|]. unfold is_equal_stops in E. apply andb_prop in E. destruct E as [E E']. apply Nat.eqb_eq in E. now apply all_stops_equal_true.
    + rewrite <- (root_vis s0). apply se_own; [apply sub1; now apply GG_no|exact K].
  - destruct (linked_dec (root_key s0)) as [L|L]; [exfalso; destruct (linked_sub s0 Gs L) as (Y & _); rewrite data_tmap, hrefv in F by assumption; congruence|].
    rewrite <- (root_vis s0). apply se_next with (k := k); [apply sub1; now apply GG_no|exact K|exact F|]. apply IH. rewrite data_tmap in F. rewrite hrefv in F by assumption. rewrite dget_attr in F. destruct (get_attr (attrs (data s0)) AXlinkHref) as [x|] eqn:E; [|discriminate]. destruct (get_attr_some _ _ _ E) as [X Y]. destruct (rr_hrefs _ R _ x Hd G X Y) as (_ & w & Hw & Ew & Gw). cbn in F. exists w. split; [exact Hw|]. split; [exact Gw|congruence].
  - destruct (linked_dec (root_key s0)) as [L|L]; [exfalso; destruct (linked_sub s0 Gs L) as (_ & Y & _); apply Y; now apply kids_vis_nil|]. rewrite <- (root_vis s0). apply se_none; [apply sub1; now apply GG_no|exact K|exact F].
Qed.
Lemma share_paint d : In d (flat t) -> gradient_node d -> same_paint (written t) (key d) (written t1) (key d).
Proof.
  intros Hd G. exists (vis d), (vis (lkc d)). split; [now apply in_w|]. split; [reflexivity|]. split; [apply in_w, flat1_grad; [exact Hd|now apply gradient_iff]|]. split; [cbn; apply lkc_key|]. split; [cbn; apply lkc_tag|]. split.
  - intros a v Ha A. exists v. split; [|now left]. apply eff1; [|exact A|exact Hd|exact G]. exact (not_href_attr (vis d) a Ha).
  - intros lst A. apply stops1; [exact A|eauto].
Qed.
End Share.
