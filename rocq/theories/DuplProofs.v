(** One step of merging two equal gradients. *)
From Coq Require Import List Bool NArith Arith ZArith String Lia Permutation.
From Verif Require Import Names Num Value Dom DomFacts DomOps DomRemove Outcome APass SpecDom SpecText TextProofs Visit Move MoveFacts GroupDefsProofs Dupl SpecGradients SpecWritten SpecGradUnits SpecDupl DuplFacts GradProofs GradTransProofs Props_default Props_coords.
Import ListNotations.
Local Open Scope nat_scope.

Lemma opt_eqb_true x y : opt_eqb x y = true -> x = y.
Proof. destruct x as [v|], y as [w|]; cbn; try discriminate; [|reflexivity]. intros H. f_equal. now apply value_eqb_true. Qed.
Lemma same_value_refl a v : same_value a v v. Proof. now left. Qed.
Lemma same_value_sym a v w : same_value a v w -> same_value a w v.
Proof. intros [->|(E & X & Y)]; [now left|right; auto]. Qed.
Lemma same_value_trans a u v w : same_value a u v -> same_value a v w -> same_value a u w.
Proof. intros [->|(E & X & Y)]; [auto|]. intros [<-|(_ & X' & Y')]; right; auto. Qed.
Lemma same_value_eq a v w : a <> AGradientTransform -> same_value a v w -> v = w.
Proof. intros N [E|(E & _)]; [exact E|contradiction]. Qed.
Lemma places_incl t : forall a0 a s, In (a, s) (places a0 t) -> incl (ctx a s) (ctx a0 t).
Proof.
  induction t as [d ch IH] using tree_ind'. intros a0 a s [E|H].
  - inversion E; subst. apply incl_refl.
  - apply in_flat_map in H. destruct H as (c & Hc & H). rewrite Forall_forall in IH. intros p Hp. right. apply in_flat_map. exists c. split; [exact Hc|]. exact (IH c Hc _ _ _ H p Hp).
Qed.
Lemma ctx_shape u : forall B p, In p (ctx B u) -> p = (B, data u) \/ exists q, fst p = q ++ data u :: B.
Proof.
  induction u as [d ch IH] using tree_ind'. intros B p [<-|H]; [now left|]. right. apply in_flat_map in H. destruct H as (c & Hc & H). rewrite Forall_forall in IH.
  destruct (IH c Hc (d :: B) p H) as [->|(q & ->)]; [exists []; reflexivity|exists (q ++ [data c]); now rewrite <- app_assoc].
Qed.
Lemma ctx_below t s a j : In (a, s) (places [] t) -> In j (keys s) -> j <> root_key s -> exists a' d, In (a', d) (ctx [] t) /\ key d = j /\ In (data s) a'.
Proof.
  intros P Hj N. rewrite <- (ctx_keys s a) in Hj. apply in_map_iff in Hj. destruct Hj as ([a' d] & K & Hp). exists a', d. split; [exact (places_incl _ _ _ _ P _ Hp)|]. split; [exact K|].
  destruct (ctx_shape s a _ Hp) as [E|(q & E)]; [inversion E; subst; now elim N|]. cbn in E. rewrite E. apply in_elt.
Qed.
Lemma eff_step T d a v k x : NoDup (keys T) -> d_get d a = None -> d_get d AXlinkHref = Some (VLink k) -> In x (flat T) -> key x = k ->
  (a = AFx -> d_get d ACx = None) -> (a = AFy -> d_get d ACy = None) -> (effective T d a v <-> effective T x a v).
Proof.
  intros N E Eh Hx Kx Fx Fy.
  assert (A : forall b r, d_get d b = None -> along_href T b d r <-> along_href T b x r).
  { intros b r Eb. split; intros H.
    - inversion H as [d' v' E'|d' E' Eh'|d' k' x' r' E' Eh' Hx' Kx' H']; subst; try congruence. assert (x' = x) by (apply (data_unique T); auto; congruence). now subst.
    - eapply ah_next; eauto. }
  split; intros H.
  - inversion H as [w H'|H' Na|w Ea H' X|w Ea H' X]; subst.
    + apply eff_found. now apply A.
    + apply eff_default; [now apply A|exact Na].
    + apply eff_fx; [reflexivity|now apply A|]. inversion X as [u X'|X' _|u Eu|u Eu]; subst; try discriminate Eu; [apply eff_found|apply eff_default; [|cbn; intuition discriminate]]; apply A; auto.
    + apply eff_fy; [reflexivity|now apply A|]. inversion X as [u X'|X' _|u Eu|u Eu]; subst; try discriminate Eu; [apply eff_found|apply eff_default; [|cbn; intuition discriminate]]; apply A; auto.
  - inversion H as [w H'|H' Na|w Ea H' X|w Ea H' X]; subst.
    + apply eff_found. now apply A.
    + apply eff_default; [now apply A|exact Na].
    + apply eff_fx; [reflexivity|now apply A|]. inversion X as [u X'|X' _|u Eu|u Eu]; subst; try discriminate Eu; [apply eff_found|apply eff_default; [|cbn; intuition discriminate]]; apply A; auto.
    + apply eff_fy; [reflexivity|now apply A|]. inversion X as [u X'|X' _|u Eu|u Eu]; subst; try discriminate Eu; [apply eff_found|apply eff_default; [|cbn; intuition discriminate]]; apply A; auto.
Qed.
Lemma eff_own T d a v w : NoDup (keys T) -> d_get d a = Some w -> effective T d a v -> v = Some w.
Proof. intros N E H. apply (effective_fun T d a v (Some w) N H). apply eff_found. now apply ah_own. Qed.
Lemma attrs_equal_true l d1 d2 : attrs_equal l d1 d2 = Ok true -> forall a, In a l -> d_get d1 a = d_get d2 a.
Proof.
  induction l as [|b l IH]; [intros _ a []|]. cbn. destruct (d_get d1 b) as [v|] eqn:E1, (d_get d2 b) as [w|] eqn:E2; try discriminate. destruct (value_eqb v w) eqn:E; [|discriminate]. intros H a [<-|Ha]; [|auto]. apply value_eqb_true in E. congruence.
Qed.
Lemma all_stops_equal_true l1 : forall l2, List.length l1 = List.length l2 -> all_stops_equal l1 l2 = true -> map stop_values l1 = map stop_values l2.
Proof.
  induction l1 as [|c l1 IH]; intros [|c' l2]; try discriminate; [reflexivity|]. cbn. intros L H. apply andb_prop in H. destruct H as [H H']. f_equal; [|apply IH; [congruence|exact H']].
  unfold stop_equal in H. apply andb_prop in H. destruct H as [H H3]. apply andb_prop in H. destruct H as [H H2]. unfold stop_values, stop_value. apply opt_eqb_true in H, H2, H3. now rewrite H, H2, H3.
Qed.
Definition compared (e : eid) : list aid :=
  if eid_eqb e ELinearGradient then [AX1; AY1; AX2; AY2; AGradientUnits; ASpreadMethod] else [ACx; ACy; AR; AFx; AFy; AGradientUnits; ASpreadMethod].

Section gstep.
Variables (e : eid) (t s1 s2 : tree) (a1 a2 : list ndata).
Hypothesis He : e = ELinearGradient \/ e = ERadialGradient.
Hypothesis R : ready t.
Hypothesis P1 : In (a1, s1) (places [] t).
Hypothesis P2 : In (a2, s2) (places [] t).
Hypothesis T1 : tag (data s1) = TEl e.
Hypothesis T2 : tag (data s2) = TEl e.
Notation n1 := (data s1).
Notation n2 := (data s2).
Notation k1 := (root_key s1).
Notation k2 := (root_key s2).
Hypothesis N12 : k1 <> k2.
Let W := r_wf t R.
Lemma grad_tag d : tag d = TEl e -> gradient_node d.
Proof. unfold gradient_node. intros ->. destruct He as [-> | ->]; auto. Qed.
Lemma G1 : gradient_node n1. Proof. apply grad_tag, T1. Qed.
Lemma G2 : gradient_node n2. Proof. apply grad_tag, T2. Qed.
Lemma H1 : In n1 (flat t). Proof. exact (place_in _ _ _ _ P1). Qed.
Lemma H2 : In n2 (flat t). Proof. exact (place_in _ _ _ _ P2). Qed.
Lemma gattrs d : tag d = TEl e -> gradient_attrs d = if eid_eqb e ELinearGradient then linear_attrs else radial_attrs.
Proof. unfold gradient_attrs. intros ->. destruct He as [-> | ->]; reflexivity. Qed.
(** The comparison does not panic. *)
Lemma has_values d a : In d (flat t) -> tag d = TEl e -> In a (compared e) -> d_get d a <> None.
Proof.
  intros Hd Td Ha. assert (Hg : In a (gradient_attrs d) /\ a <> AGradientTransform).
  { rewrite (gattrs d Td). unfold compared in Ha. destruct He as [-> | ->]; cbn in *; intuition (subst; auto 12; discriminate). }
  destruct (r_resolved t R d a Hd (grad_tag d Td) (proj1 Hg)) as (v & Hv & S). apply (same_value_eq _ _ _ (proj2 Hg)) in S. rewrite <- S. clear S.
  assert (D : ~ In a [AFx; AFy] -> v <> None).
  { intros Na. inversion Hv as [u X|X _|u Eu|u Eu]; subst; try discriminate; try (exfalso; apply Na; cbn; auto; fail). unfold compared in Ha. destruct He as [-> | ->]; cbn in Ha, Na |- *; intuition (subst; cbn; try discriminate; auto). }
  inversion Hv as [u X Q|X Na Q|u Eu X Y Q|u Eu X Y Q].
  - discriminate.
  - rewrite Q. now apply D.
  - inversion Y as [u' X' Q'|X' _ Q'|u' Eu'|u' Eu']; try discriminate.
  - inversion Y as [u' X' Q'|X' _ Q'|u' Eu'|u' Eu']; try discriminate.
Qed.
Lemma cmp_ok : exists b, gradients_equal (compared e) s1 s2 = Ok b.
Proof.
  assert (A : forall l, incl l (compared e) -> exists b, attrs_equal l n1 n2 = Ok b).
  { induction l as [|a l IH]; intros I; [exists true; reflexivity|]. cbn. destruct (d_get n1 a) as [v|] eqn:E1; [|exfalso; exact (has_values n1 a H1 T1 (I a (or_introl eq_refl)) E1)]. destruct (d_get n2 a) as [w|] eqn:E2; [|exfalso; exact (has_values n2 a H2 T2 (I a (or_introl eq_refl)) E2)].
    destruct (value_eqb v w); [|exists false; reflexivity]. apply IH. intros x Hx. apply I. now right. }
  destruct (A _ (incl_refl _)) as (b & E). unfold gradients_equal, gradient_attrs_equal. destruct (value_eqb _ _); [|exists false; reflexivity]. destruct (_ && _ && _); [exists false; reflexivity|]. rewrite E. cbn. eexists. reflexivity.
Qed.
Hypothesis EQ : gradients_equal (compared e) s1 s2 = Ok true.
Lemma cmp_parts : same_value AGradientTransform (d_get n1 AGradientTransform) (d_get n2 AGradientTransform) /\
  (d_get n1 AXlinkHref = d_get n2 AXlinkHref \/ d_get n1 AXlinkHref = None \/ d_get n2 AXlinkHref = None) /\
  (forall a, In a (compared e) -> d_get n1 a = d_get n2 a) /\ List.length (kids s1) = List.length (kids s2) /\ map stop_values (kids s1) = map stop_values (kids s2).
Proof.
  pose proof EQ as H. unfold gradients_equal, gradient_attrs_equal in H. destruct (value_eqb _ _) eqn:E; [|discriminate]. destruct (_ && _ && _) eqn:Eh; [discriminate|]. destruct (attrs_equal _ _ _) as [b| |] eqn:Ea; try discriminate. cbn in H. injection H as H. apply andb_prop in H. destruct H as [-> H].
  apply value_eqb_true in E. split; [|split; [|split; [exact (attrs_equal_true _ _ _ Ea)|]]].
  - unfold default_to in E. unfold same_value. destruct (d_get n1 AGradientTransform) as [v|], (d_get n2 AGradientTransform) as [w|]; [left; congruence| | |now left]; right; subst; cbn; auto.
  - unfold d_has, has_attr in Eh. unfold d_get, get_value in *. destruct (get_attr (attrs n1) AXlinkHref) as [x|]; [|auto]. destruct (get_attr (attrs n2) AXlinkHref) as [y|]; [|auto]. cbn in Eh. left. cbn. f_equal. apply negb_false_iff in Eh. now apply value_eqb_true.
  - unfold is_equal_stops in H. apply andb_prop in H. destruct H as [H H']. apply Nat.eqb_eq in H. split; [exact H|now apply all_stops_equal_true].
Qed.
Lemma same_href : d_get n1 AXlinkHref = d_get n2 AXlinkHref.
Proof.
  destruct cmp_parts as (_ & Hh & _ & L & _).
  destruct (r_tidy t R s1 (place_sub _ _ _ _ P1) G1) as [[A1 B1]|[A1 B1]], (r_tidy t R s2 (place_sub _ _ _ _ P2) G2) as [[A2 B2]|[A2 B2]]; try congruence.
  - exfalso. rewrite A2 in L. destruct (kids s1); [congruence|discriminate].
  - exfalso. rewrite A1 in L. destruct (kids s2); [congruence|discriminate].
  - intuition.
Qed.
Lemma same_attr a : In a (gradient_attrs n1) -> same_value a (d_get n1 a) (d_get n2 a).
Proof.
  destruct cmp_parts as (Ht & _ & Ha & _). rewrite (gattrs n1 T1). intros H. destruct (aid_eqb_spec a AGradientTransform) as [->|N]; [exact Ht|]. left. apply Ha. unfold compared. destruct He as [-> | ->]; cbn in *; intuition (subst; auto 12).
Qed.
(** The hypotheses of the merge step. *)
Lemma below2 j : In j (keys s2) -> j <> k2 -> exists a d, In (a, d) (ctx [] t) /\ key d = j /\ In n2 a.
Proof. apply ctx_below with (a := a2). exact P2. Qed.
Lemma grad_below s a d : In (a, s) (places [] t) -> gradient_node (data s) -> In d (flat t) -> gradient_node d -> In (key d) (keys s) -> key d = root_key s.
Proof.
  intros P G Hd Gd Hk. destruct (Nat.eq_dec (key d) (root_key s)) as [E|N]; [exact E|]. exfalso. destruct (ctx_below t s a _ P Hk N) as (a' & d' & Hc & K & Ha). assert (d' = d) by (apply (data_unique t); [apply W|exact (ctx_in_flat _ _ _ Hc)|exact Hd|exact K]). subst. exact (r_nest t R a' d (data s) Hc Ha G Gd).
Qed.
Lemma K1 : ~ In (key n1) (keys s2).
Proof. intros H. apply N12. exact (grad_below s2 a2 n1 P2 G2 H1 G1 H). Qed.
Lemma N2 : k2 <> root_key t.
Proof.
  intros E. apply K1. assert (S : s2 = t) by (apply (sub_unique t); [apply W|exact (place_sub _ _ _ _ P2)|apply subs_self|exact E]). rewrite S. apply (in_map key), H1.
Qed.
Lemma Typed : forall d x k, In d (flat t) -> In x (attrs d) -> link_of (a_val x) = Some k -> exists a, a_name x = AN a /\ a_val x = link_value a k /\ a_vis x = true.
Proof. intros d x k Hd Hx L. destruct (r_link t R d x k Hd Hx L) as (a & A & B & C & _). exists a. auto. Qed.
Lemma ref_href d k : In d (flat t) -> gradient_node d -> refers_to d k -> d_get d AXlinkHref = Some (VLink k).
Proof.
  intros Hd G (x & Hx & L). destruct (r_link t R d x k Hd Hx L) as (a & A & B & _ & D). rewrite (D G) in *. cbn in B. unfold d_get, get_value. rewrite (get_attr_in (attrs d) x AXlinkHref); [cbn; now rewrite B| |exact Hx|exact A]. exact (proj1 (Forall_forall _ _) (r_wfa t R) d Hd).
Qed.
Lemma Users : forall d, In d (flat t) -> refers_to d k2 -> nid d <> nid n1 /\ nid n1 <> ""%string /\ ~ refers_to n1 (key d).
Proof.
  intros d Hd Hr. destruct (r_rank t R) as (rank & Rk). pose proof (r_gid t R n1 H1 G1) as I1. split; [|split; [exact I1|]].
  - intros E. assert (d = n1) by (apply (r_ids t R d n1 Hd H1 E); congruence). subst. pose proof (ref_href n1 _ H1 G1 Hr) as E1. rewrite same_href in E1. pose proof (Rk n2 _ H2 G2 E1) as X. change (key n2) with k2 in X. lia.
  - intros Hr1. pose proof (ref_href n1 _ H1 G1 Hr1) as E1. destruct (r_hrefs t R n1 _ H1 G1 E1) as (x & Hx & Ex & Tx). injection Ex as Ex. assert (x = d) by (apply (data_unique t); auto; apply W). subst x. assert (Gd : gradient_node d) by (unfold gradient_node; rewrite Tx; apply G1).
    pose proof (Rk d _ Hd Gd (ref_href d _ Hd Gd Hr)) as X. rewrite same_href in E1. pose proof (Rk n2 _ H2 G2 E1) as Y. change (key n2) with k2 in Y. lia.
Qed.
Lemma Inner : forall j d, In j (keys s2) -> j <> k2 -> In d (flat t) -> ~ refers_to d j.
Proof. intros j d Hj N Hd. destruct (below2 j Hj N) as (a & x & Hc & <- & Ha). exact (r_noref t R a x n2 d Hc Ha G2 Hd). Qed.
Notation f := (rl k2 k1).
Notation t1 := (merged t s2 n1).
Lemma step_relink : relink k2 n1 t = Ok (tmap f t).
Proof. exact (relink_ok t s2 n1 Typed Users). Qed.

Let Wa := r_wfa t R.
Lemma flat_t1 d' : In d' (flat t1) <-> exists d, In d (flat t) /\ ~ In (key d) (keys s2) /\ d' = f d.
Proof. exact (flat_merged t s2 a2 n1 W P2 N2 d'). Qed.
Lemma ctx_t1 p : In p (ctx [] t1) <-> exists q, In q (ctx [] t) /\ ~ In (key (snd q)) (keys s2) /\ p = (map f (fst q), f (snd q)).
Proof. exact (ctx_merged t s2 a2 n1 W P2 N2 p). Qed.
Lemma subs_t1 s' : In s' (subs t1) <-> exists s, In s (subs t) /\ ~ In (root_key s) (keys s2) /\ s' = detach k2 (tmap f s).
Proof. exact (subs_merged t s2 a2 n1 W P2 N2 s'). Qed.
Lemma get_f d a : In d (flat t) -> d_get (f d) a = option_map (redirect_value (ren k2 k1)) (d_get d a).
Proof. exact (d_get_rl t s2 n1 Typed d a). Qed.
Lemma get_vf d a : In d (flat t) -> d_get (vis (f d)) a = option_map (redirect_value (ren k2 k1)) (d_get (vis d) a).
Proof. exact (d_get_vis_rl t s2 n1 Typed d a). Qed.
Lemma link_f d x k : In d (flat t) -> In x (attrs (f d)) -> link_of (a_val x) = Some k -> exists y j, In y (attrs d) /\ link_of (a_val y) = Some j /\ k = ren k2 k1 j /\ x = relink_attr k2 k1 y.
Proof. exact (rl_link t s2 n1 Typed d x k). Qed.
Lemma no_link d v a : In d (flat t) -> gradient_node d -> d_get d a = Some v -> a <> AXlinkHref -> link_of v = None.
Proof.
  intros Hd G E N. destruct (link_of v) as [k|] eqn:L; [|reflexivity]. exfalso. unfold d_get, get_value in E. destruct (get_attr (attrs d) a) as [x|] eqn:Ex; [|discriminate]. injection E as E. apply get_attr_some in Ex. destruct Ex as [Hx Nx]. rewrite <- E in L. destruct (r_link t R d x k Hd Hx L) as (b & B & _ & _ & D). apply N. rewrite <- (D G). congruence.
Qed.
Lemma redirect_none v : link_of v = None -> redirect_value (ren k2 k1) v = v.
Proof. destruct v; cbn; auto; discriminate. Qed.
Lemma get_same d a : In d (flat t) -> gradient_node d -> a <> AXlinkHref -> d_get (f d) a = d_get d a.
Proof. intros Hd G N. rewrite get_f by exact Hd. destruct (d_get d a) as [v|] eqn:E; [|reflexivity]. cbn. f_equal. apply redirect_none. exact (no_link d v a Hd G E N). Qed.
Lemma nodup_in d : In d (flat t) -> attrs_nodup d.
Proof. exact (proj1 (Forall_forall _ _) Wa d). Qed.
Lemma get_vsame d a : In d (flat t) -> gradient_node d -> a <> AXlinkHref -> d_get (vis (f d)) a = d_get (vis d) a.
Proof.
  intros Hd G N. rewrite get_vf by exact Hd. destruct (d_get (vis d) a) as [v|] eqn:E; [|reflexivity]. cbn. f_equal. apply redirect_none. apply (no_link d v a Hd G); [|exact N]. apply vis_dget_some; [exact (nodup_in d Hd)|exact E].
Qed.
(** xlink:href of gradients is visible *)
Lemma href_vis d : In d (flat t) -> gradient_node d -> d_get (vis d) AXlinkHref = d_get d AXlinkHref.
Proof.
  intros Hd G. rewrite vis_dget by exact (nodup_in d Hd). unfold d_get, get_value. destruct (get_attr (attrs d) AXlinkHref) as [x|] eqn:E; [|reflexivity]. cbn. pose proof E as E'. apply get_attr_some in E'. destruct E' as [Hx Nx].
  destruct (r_hrefs t R d (a_val x) Hd G) as (y & _ & Ev & _). { unfold d_get, get_value. rewrite E. reflexivity. } destruct (r_link t R d x (key y) Hd Hx) as (a & _ & _ & V & _); [now rewrite Ev|]. now rewrite V.
Qed.
Lemma get_fhref d : In d (flat t) -> gradient_node d -> d_get (f d) AXlinkHref = match d_get d AXlinkHref with Some (VLink k) => Some (VLink (ren k2 k1 k)) | o => o end.
Proof.
  intros Hd G. rewrite get_f by exact Hd. destruct (d_get d AXlinkHref) as [v|] eqn:E; [|reflexivity]. destruct (r_hrefs t R d v Hd G E) as (y & _ & -> & _). reflexivity.
Qed.
Lemma get_vfhref d : In d (flat t) -> gradient_node d -> d_get (vis (f d)) AXlinkHref = match d_get d AXlinkHref with Some (VLink k) => Some (VLink (ren k2 k1 k)) | o => o end.
Proof.
  intros Hd G. rewrite get_vf, href_vis by assumption. destruct (d_get d AXlinkHref) as [v|] eqn:E; [|reflexivity]. destruct (r_hrefs t R d v Hd G E) as (y & _ & -> & _). reflexivity.
Qed.
Lemma grad_kept d : In d (flat t) -> gradient_node d -> key d <> k2 -> ~ In (key d) (keys s2).
Proof. intros Hd G N H. apply N. exact (grad_below s2 a2 d P2 G2 Hd G H). Qed.
Lemma sub_same s : In s (subs t) -> gradient_node (data s) -> root_key s <> k2 -> detach k2 (tmap f s) = tmap f s.
Proof.
  intros Hs G N. apply detach_out. rewrite keys_tmap by reflexivity. intros H. destruct (sub_place s t [] Hs) as (a & P). apply N. symmetry. exact (grad_below s a n2 P G H2 G2 H).
Qed.
Lemma rank_t1 (rank : nat -> nat) : (forall d k, In d (flat t) -> gradient_node d -> d_get d AXlinkHref = Some (VLink k) -> rank k < rank (key d)) ->
  exists rank' : nat -> nat, forall d k, In d (flat t) -> gradient_node d -> key d <> k2 -> d_get d AXlinkHref = Some (VLink k) -> rank' (ren k2 k1 k) < rank' (key d).
Proof.
  intros Rk. exists (fun k => if Nat.eqb k k1 then Nat.min (rank k1) (rank k2) else rank k). intros d k Hd G N E. pose proof (Rk d k Hd G E) as L. unfold ren.
  destruct (Nat.eqb_spec (key d) k1) as [Kd|Kd].
  - assert (d = n1) by (apply (data_unique t); [apply W|exact Hd|exact H1|exact Kd]). subst d. pose proof (Rk n1 k H1 G1 E) as L1. rewrite same_href in E. pose proof (Rk n2 k H2 G2 E) as L2. change (key n1) with k1 in *. change (key n2) with k2 in *.
    destruct (Nat.eqb_spec k k2) as [->|Nk]; [lia|]. destruct (Nat.eqb_spec k k1) as [->|Nk1]; lia.
  - destruct (Nat.eqb_spec k k2) as [->|Nk]; [rewrite Nat.eqb_refl; lia|]. destruct (Nat.eqb_spec k k1) as [->|Nk1]; lia.
Qed.
(** The target of a gradient's xlink:href after the step. *)
Lemma next_node d k : In d (flat t) -> gradient_node d -> d_get d AXlinkHref = Some (VLink k) ->
  exists x y, In x (flat t) /\ key x = k /\ tag x = tag d /\ In y (flat t) /\ key y = ren k2 k1 k /\ key y <> k2 /\ tag y = tag d /\ (forall a, In a (gradient_attrs d) -> same_value a (d_get y a) (d_get x a)).
Proof.
  intros Hd G E. destruct (r_hrefs t R d _ Hd G E) as (x & Hx & Ex & Tx). injection Ex as Ex. exists x. unfold ren. destruct (Nat.eqb_spec k k2) as [Ek|Nk].
  - exists n1. assert (x = n2) by (apply (data_unique t); [apply W|exact Hx|exact H2|change (key n2) with k2; congruence]). subst x. repeat split; auto; [exact H1|congruence|]. intros a Ha. apply same_attr. rewrite (gattrs n1 T1). rewrite <- (gattrs d) by congruence. exact Ha.
  - exists x. repeat split; auto; [congruence|]. intros a _. apply same_value_refl.
Qed.
Lemma keys_t1 : NoDup (keys (written t1)).
Proof. rewrite written_keys. exact (nodup_merged t s2 n1 W). Qed.
Lemma in_w (T : tree) d : In d (flat T) -> In (vis d) (flat (written T)).
Proof. unfold written. rewrite flat_tmap. apply in_map. Qed.
Lemma not_href d a : In a (gradient_attrs d) -> a <> AXlinkHref.
Proof. unfold gradient_attrs. destruct (tag d) as [|[]| | | |]; cbn; intuition (subst; discriminate). Qed.
Lemma values_step d a : In d (flat t) -> gradient_node d -> key d <> k2 -> In a (gradient_attrs d) -> exists v, effective (written t1) (vis (f d)) a v /\ same_value a v (d_get d a).
Proof.
  destruct (r_rank t R) as (rank & Rk). destruct (rank_t1 rank Rk) as (rk & Rk').
  assert (M : forall n d, rk (key d) < n -> In d (flat t) -> gradient_node d -> key d <> k2 -> forall a, In a (gradient_attrs d) -> exists v, effective (written t1) (vis (f d)) a v /\ same_value a v (d_get d a)).
  2: { intros Hd G N Ha. exact (M (S (rk (key d))) d (Nat.lt_succ_diag_r _) Hd G N a Ha). }
  clear d a. induction n as [|n IH]; [lia|]. intros d Ln Hd G N.
  assert (NW : NoDup (keys (written t))) by (rewrite written_keys; apply W).
  assert (M : forall a, In a (gradient_attrs d) -> (forall c, (a = AFx -> c = ACx) -> (a = AFy -> c = ACy) -> In a [AFx; AFy] -> exists v, effective (written t1) (vis (f d)) c v /\ same_value c v (d_get d c)) -> exists v, effective (written t1) (vis (f d)) a v /\ same_value a v (d_get d a)).
  { intros a Ha Foc. pose proof (not_href d a Ha) as Nh. destruct (r_resolved t R d a Hd G Ha) as (v & Hv & S).
    destruct (d_get (vis d) a) as [w|] eqn:E.
    - pose proof (eff_own _ _ _ _ _ NW E Hv) as ->. exists (Some w). split; [|exact S]. apply eff_found, ah_own. rewrite get_vsame; assumption.
    - destruct (d_get d AXlinkHref) as [h|] eqn:Eh.
      + destruct (r_hrefs t R d h Hd G Eh) as (x0 & _ & -> & _). destruct (next_node d _ Hd G Eh) as (x & y & Hx & Kx & Tx & Hy & Ky & Ny & Ty & Sv).
        assert (Fo : (a = AFx -> d_get (vis d) ACx = None) /\ (a = AFy -> d_get (vis d) ACy = None)).
        { destruct (r_focus t R d Hd G) as [F1 F2]; [congruence|]. split; intros ->; auto. }
        assert (Gx : gradient_node x) by (unfold gradient_node; rewrite Tx; exact G). assert (Gy : gradient_node y) by (unfold gradient_node; rewrite Ty; exact G).
        assert (Ax : In a (gradient_attrs x)) by (unfold gradient_attrs; rewrite Tx; exact Ha). assert (Ay : In a (gradient_attrs y)) by (unfold gradient_attrs; rewrite Ty; exact Ha).
        assert (E1 : d_get (vis d) AXlinkHref = Some (VLink (key x0))) by (rewrite href_vis; assumption).
        apply (eff_step (written t) (vis d) a v _ (vis x) NW E E1 (in_w t x Hx) Kx (proj1 Fo) (proj2 Fo)) in Hv.
        destruct (r_resolved t R x a Hx Gx Ax) as (v0 & Hv0 & S0). pose proof (effective_fun _ _ _ _ _ NW Hv Hv0) as <-.
        destruct (IH y) with (a := a) as (v' & Hv' & S'); [|exact Hy|exact Gy|exact Ny|exact Ay|].
        { pose proof (Rk' d _ Hd G N Eh) as L. rewrite <- Ky in L. lia. }
        exists v'. split.
        * assert (E2 : d_get (vis (f d)) AXlinkHref = Some (VLink (ren k2 k1 (key x0)))) by (rewrite get_vfhref by assumption; now rewrite Eh).
          apply (eff_step (written t1) (vis (f d)) a v' (ren k2 k1 (key x0)) (vis (f y)) keys_t1); [now rewrite get_vsame|exact E2|apply in_w, flat_t1; exists y; split; [exact Hy|]; split; [now apply grad_kept|reflexivity]|exact Ky| | |exact Hv']; intros ->; (rewrite get_vsame; [|exact Hd|exact G|discriminate]); now apply Fo.
        * apply (same_value_trans a v' (d_get y a)); [exact S'|]. apply (same_value_trans a _ (d_get x a)); [now apply Sv|]. apply (same_value_trans a _ v); [now apply same_value_sym|exact S].
      + assert (E1 : d_get (vis d) AXlinkHref = None) by (rewrite href_vis; assumption). assert (E2 : d_get (vis (f d)) AXlinkHref = None) by (rewrite get_vfhref by assumption; now rewrite Eh).
        assert (Al : along_href (written t1) a (vis (f d)) None) by (apply ah_end; [now rewrite get_vsame|exact E2]).
        inversion Hv as [u X Q|X Na Q|u Eu X Y Q|u Eu X Y Q].
        * exfalso. inversion X; congruence.
        * exists (gradient_default a). split; [apply eff_default; assumption|]. rewrite Q. exact S.
        * destruct (Foc ACx) as (v' & Hv' & S'); [auto|rewrite Eu; discriminate|rewrite Eu; cbn; auto|]. exists v'. split; [apply eff_fx; assumption|]. assert (Hc : In ACx (gradient_attrs d)) by (rewrite Eu in Ha; unfold gradient_attrs in *; destruct G as [G|G]; rewrite G in *; cbn in *; intuition discriminate).
          destruct (r_resolved t R d ACx Hd G Hc) as (v0 & Hv0 & S0). pose proof (effective_fun _ _ _ _ _ NW Y Hv0) as <-. apply same_value_eq in S'; [|discriminate]. apply same_value_eq in S0; [|discriminate]. congruence.
        * destruct (Foc ACy) as (v' & Hv' & S'); [rewrite Eu; discriminate|auto|rewrite Eu; cbn; auto|]. exists v'. split; [apply eff_fy; assumption|]. assert (Hc : In ACy (gradient_attrs d)) by (rewrite Eu in Ha; unfold gradient_attrs in *; destruct G as [G|G]; rewrite G in *; cbn in *; intuition discriminate).
          destruct (r_resolved t R d ACy Hd G Hc) as (v0 & Hv0 & S0). pose proof (effective_fun _ _ _ _ _ NW Y Hv0) as <-. apply same_value_eq in S'; [|discriminate]. apply same_value_eq in S0; [|discriminate]. congruence. }
  intros a Ha. apply M; [exact Ha|]. intros c Cx Cy Hf. destruct Hf as [<-|[<-|[]]].
  - rewrite (Cx eq_refl). apply M; [unfold gradient_attrs in *; destruct G as [G|G]; rewrite G in *; cbn in *; intuition discriminate|]. intros ? _ _ [Q|[Q|[]]]; discriminate Q.
  - rewrite (Cy eq_refl). apply M; [unfold gradient_attrs in *; destruct G as [G|G]; rewrite G in *; cbn in *; intuition discriminate|]. intros ? _ _ [Q|[Q|[]]]; discriminate Q.
Qed.

Lemma grad_f d : gradient_node (f d) <-> gradient_node d. Proof. reflexivity. Qed.
Lemma relink_vis d x : In d (flat t) -> In x (attrs d) -> a_vis (relink_attr k2 k1 x) = a_vis x.
Proof. intros Hd Hx. exact (proj2 (relink_val t s2 n1 Typed d x Hd Hx)). Qed.
Lemma gone2 : In k2 (keys s2). Proof. rewrite keys_kids. now left. Qed.
Lemma ne2 k : ~ In k (keys s2) -> k <> k2. Proof. intros H ->. apply H, gone2. Qed.
Lemma kid_flat s c : In s (subs t) -> In c (kids s) -> In (data c) (flat t).
Proof. intros Hs Hc. apply data_of_sub. apply (subs_trans t s c Hs). apply in_kids_subs. apply in_flat_map. exists c. split; [exact Hc|apply subs_self]. Qed.
Lemma ready_t1 : ready t1.
Proof.
  split.
  - exact (WF_merged t s2 a2 n1 W P2 N2 H1 K1 Typed Inner).
  - exact (WFA_merged t s2 a2 n1 W P2 N2 Wa).
  - intros d d' Hd Hd' E Ne. apply flat_t1 in Hd, Hd'. destruct Hd as (x & Hx & _ & ->), Hd' as (y & Hy & _ & ->). f_equal. exact (r_ids t R x y Hx Hy E Ne).
  - intros d Hd G. apply flat_t1 in Hd. destruct Hd as (x & Hx & _ & ->). exact (r_gid t R x Hx G).
  - intros a d p Hc Hp Gp G. apply ctx_t1 in Hc. destruct Hc as ([b x] & Hc & _ & E). inversion E; subst a d. apply in_map_iff in Hp. destruct Hp as (q & <- & Hq). exact (r_nest t R b x q Hc Hq Gp G).
  - intros a d p x Hc Hp Gp Hx (y & Hy & L). apply ctx_t1 in Hc. destruct Hc as ([b d0] & Hc & _ & E). inversion E; subst a d. apply in_map_iff in Hp. destruct Hp as (q & <- & Hq). apply flat_t1 in Hx. destruct Hx as (x0 & Hx & _ & ->).
    destruct (link_f x0 y _ Hx Hy L) as (y0 & j & Hy0 & Lj & Ej & _). cbn in Ej. unfold ren in Ej. destruct (Nat.eqb_spec j k2) as [Ek|Nk].
    + assert (d0 = n1) by (apply (data_unique t); [apply W|exact (ctx_in_flat _ _ _ Hc)|exact H1|exact Ej]). subst d0. exact (r_nest t R b n1 q Hc Hq Gp G1).
    + apply (r_noref t R b d0 q x0 Hc Hq Gp Hx). exists y0. split; [exact Hy0|]. congruence.
  - intros s' Hs G. apply subs_t1 in Hs. destruct Hs as (s & Hs & Ns & ->). rewrite data_detach, data_tmap in G. rewrite (sub_same s Hs G (ne2 _ Ns)), data_tmap, kids_tmap. rewrite get_fhref by (auto; now apply data_of_sub).
    destruct (r_tidy t R s Hs G) as [[A B]|[A B]]; [left|right].
    + split; [destruct (kids s); [congruence|discriminate]|now rewrite B].
    + split; [now rewrite A|]. destruct (d_get (data s) AXlinkHref) as [[]|]; congruence.
  - intros d x k Hd Hx L. apply flat_t1 in Hd. destruct Hd as (d0 & Hd & _ & ->). destruct (link_f d0 x k Hd Hx L) as (y & j & Hy & Lj & -> & ->). destruct (r_link t R d0 y j Hd Hy Lj) as (a & A & B & C & D). exists a. unfold relink_attr, ren. destruct (refers k2 y) eqn:Rf.
    + apply refers_iff in Rf. assert (j = k2) by congruence. subst j. rewrite A, Nat.eqb_refl. cbn. repeat split; auto.
    + destruct (Nat.eqb_spec j k2) as [->|Nj]; [|auto]. exfalso. assert (refers k2 y = true) by (apply refers_iff; exact Lj). congruence.
  - intros d v Hd G E. apply flat_t1 in Hd. destruct Hd as (d0 & Hd & Nd & ->). rewrite (get_fhref d0 Hd G) in E. destruct (d_get d0 AXlinkHref) as [h|] eqn:Eh; [|discriminate]. destruct (r_hrefs t R d0 h Hd G Eh) as (x0 & _ & -> & _). injection E as <-.
    destruct (next_node d0 _ Hd G Eh) as (x & y & _ & _ & _ & Hy & Ky & Ny & Ty & _). exists (f y). split; [|split; [cbn; now rewrite Ky|exact Ty]]. apply flat_t1. exists y. split; [exact Hy|]. split; [|reflexivity]. apply grad_kept; [exact Hy|unfold gradient_node; rewrite Ty; exact G|exact Ny].
  - destruct (r_rank t R) as (rank & Rk). destruct (rank_t1 rank Rk) as (rk & Rk'). exists rk. intros d k Hd G E. apply flat_t1 in Hd. destruct Hd as (d0 & Hd & Nd & ->). rewrite (get_fhref d0 Hd G) in E. destruct (d_get d0 AXlinkHref) as [h|] eqn:Eh; [|discriminate]. destruct (r_hrefs t R d0 h Hd G Eh) as (x0 & _ & -> & _). injection E as <-. exact (Rk' d0 _ Hd G (ne2 _ Nd) Eh).
  - intros s' c x a Hs G Hc Hx Nx Ha. apply subs_t1 in Hs. destruct Hs as (s & Hs & Ns & ->). rewrite data_detach, data_tmap in G. rewrite (sub_same s Hs G (ne2 _ Ns)), kids_tmap in Hc. apply in_map_iff in Hc. destruct Hc as (c0 & <- & Hc). rewrite data_tmap in Hx. cbn in Hx. apply in_map_iff in Hx. destruct Hx as (y & <- & Hy).
    assert (Ny : a_name y = AN a) by (rewrite <- Nx; symmetry; exact (relink_name s2 n1 y)). destruct (r_stops t R s c0 y a Hs G Hc Hy Ny Ha) as [V L]. rewrite (relink_vis _ y (kid_flat s c0 Hs Hc) Hy). assert (Rf : relink_attr k2 k1 y = y) by (unfold relink_attr; destruct (refers k2 y) eqn:Rf; [apply refers_iff in Rf; congruence|reflexivity]). change (key n1) with k1. rewrite Rf. split; [exact V|exact L].
  - intros d Hd G Eh. apply flat_t1 in Hd. destruct Hd as (d0 & Hd & Nd & ->). assert (Eh' : d_get d0 AXlinkHref <> None) by (intros X; apply Eh; rewrite get_fhref by assumption; now rewrite X). destruct (r_focus t R d0 Hd G Eh') as [F1 F2]. split; intros X; (rewrite get_vsame in X |- *; [|exact Hd|exact G|discriminate| exact Hd|exact G|discriminate]); auto.
  - intros d a Hd G Ha. apply flat_t1 in Hd. destruct Hd as (d0 & Hd & Nd & ->). destruct (values_step d0 a Hd G (ne2 _ Nd) Ha) as (v & Hv & S). exists v. split; [exact Hv|]. rewrite get_same; [exact S|exact Hd|exact G|exact (not_href d0 a Ha)].
Qed.
Lemma stop_f s c : In s (subs t) -> gradient_node (data s) -> In c (kids s) -> stop_values (tmap vis c) = stop_values c /\ stop_values (tmap vis (tmap f c)) = stop_values c.
Proof.
  intros Hs G Hc. pose proof (kid_flat s c Hs Hc) as Hd. unfold stop_values. rewrite !data_tmap.
  assert (A : forall a, In a [AOffset; AStopColor; AStopOpacity] -> stop_value (vis (data c)) a = stop_value (data c) a /\ stop_value (vis (f (data c))) a = stop_value (data c) a).
  { intros a Ha. unfold stop_value. rewrite get_vf by exact Hd. rewrite vis_dget by exact (nodup_in _ Hd). unfold d_get, get_value. destruct (get_attr (attrs (data c)) a) as [x|] eqn:E; [|auto]. apply get_attr_some in E. destruct (r_stops t R s c x a Hs G Hc (proj1 E) (proj2 E) Ha) as [V L]. destruct (a_vis x) eqn:Vx.
    - cbn. split; [reflexivity|]. f_equal. now apply redirect_none.
    - destruct V as [V|V]; [discriminate|]. cbn. auto. }
  destruct (A AOffset) as [X1 Y1]; [cbn; auto|]. destruct (A AStopColor) as [X2 Y2]; [cbn; auto|]. destruct (A AStopOpacity) as [X3 Y3]; [cbn; auto|]. now rewrite X1, X2, X3, Y1, Y2, Y3.
Qed.
Lemma stops_f s : In s (subs t) -> gradient_node (data s) -> map stop_values (kids (tmap vis s)) = map stop_values (kids s) /\ map stop_values (kids (tmap vis (tmap f s))) = map stop_values (kids s).
Proof. intros Hs G. rewrite !kids_tmap, !map_map. split; apply map_ext_in; intros c Hc; apply (stop_f s c Hs G Hc). Qed.
Lemma sub_w (T : tree) s : In s (subs (written T)) -> exists s0, In s0 (subs T) /\ s = tmap vis s0.
Proof. unfold written. rewrite subs_tmap, in_map_iff. intros (s0 & <- & H). eauto. Qed.
Lemma sub_kept s : In s (subs t) -> gradient_node (data s) -> root_key s <> k2 -> In (tmap vis (tmap f s)) (subs (written t1)).
Proof. intros Hs G N. unfold written. rewrite subs_tmap. apply in_map. apply subs_t1. exists s. split; [exact Hs|]. split; [apply grad_kept; [now apply data_of_sub|exact G|exact N]|]. symmetry. now apply sub_same. Qed.
Lemma stops_step k l : stops_in_effect (written t) k l -> (exists d, In d (flat t) /\ gradient_node d /\ key d = k) -> stops_in_effect (written t1) (ren k2 k1 k) l.
Proof.
  assert (Pick : forall s, In s (subs t) -> gradient_node (data s) -> exists s', In s' (subs t) /\ gradient_node (data s') /\ root_key s' = ren k2 k1 (root_key s) /\ root_key s' <> k2 /\ List.length (kids s') = List.length (kids s) /\ map stop_values (kids s') = map stop_values (kids s) /\ d_get (data s') AXlinkHref = d_get (data s) AXlinkHref).
  { intros s Hs G. unfold ren. destruct (Nat.eqb_spec (root_key s) k2) as [E|N].
    - assert (s = s2) by (apply (sub_unique t); [apply W|exact Hs|exact (place_sub _ _ _ _ P2)|exact E]). subst s. exists s1. destruct cmp_parts as (_ & _ & _ & L & M). repeat split; auto; [exact (place_sub _ _ _ _ P1)|apply G1|exact same_href].
    - exists s. repeat split; auto. }
  induction 1 as [s Hs Nk|s k l Hs Nk Eh _ IH|s Hs Nk Eh]; intros (d & Hd & G & Kd); apply sub_w in Hs; destruct Hs as (s0 & Hs & ->); (assert (K0 : root_key (tmap vis s0) = root_key s0) by (unfold root_key; now rewrite data_tmap)); rewrite K0 in Kd |- *; try rewrite data_tmap in Eh;
    (assert (d = data s0) by (apply (data_unique t); [apply W|exact Hd|now apply data_of_sub|exact Kd])); subst d; destruct (Pick s0 Hs G) as (s' & Hs' & G' & K' & N' & L' & M' & E'); rewrite <- K'.
  - replace (root_key s') with (root_key (tmap vis (tmap f s'))) by (unfold root_key; rewrite !data_tmap; reflexivity).
    replace (map stop_values (kids (tmap vis s0))) with (map stop_values (kids (tmap vis (tmap f s')))); [|rewrite (proj1 (stops_f s0 Hs G)), (proj2 (stops_f s' Hs' G')); exact M'].
    apply se_own; [exact (sub_kept s' Hs' G' N')|]. rewrite !kids_tmap in *. destruct (kids s0); [now elim Nk|]. destruct (kids s'); discriminate.
  - rewrite href_vis in Eh by assumption. replace (root_key s') with (root_key (tmap vis (tmap f s'))) by (unfold root_key; rewrite !data_tmap; reflexivity).
    destruct (r_hrefs t R _ _ Hd G Eh) as (x & Hx & Ex & Tx). injection Ex as Ex. eapply se_next; [exact (sub_kept s' Hs' G' N')| | |apply IH; exists x; split; [exact Hx|]; split; [unfold gradient_node; rewrite Tx; exact G|now symmetry]].
    + rewrite !kids_tmap in *. destruct (kids s0); [|discriminate]. destruct (kids s'); [reflexivity|discriminate].
    + rewrite !data_tmap. rewrite get_vfhref; [|now apply data_of_sub|exact G']. rewrite E', Eh. reflexivity.
  - exfalso. rewrite href_vis in Eh by assumption. rewrite kids_tmap in Nk. destruct (r_tidy t R s0 Hs G) as [[A B]|[A B]]; [destruct (kids s0); [congruence|discriminate]|congruence].
Qed.
Lemma paint_step d : In d (flat t) -> gradient_node d -> same_paint (written t) (key d) (written t1) (ren k2 k1 (key d)).
Proof.
  intros Hd G. assert (Pick : exists d', In d' (flat t) /\ gradient_node d' /\ key d' = ren k2 k1 (key d) /\ key d' <> k2 /\ tag d' = tag d /\ forall a, In a (gradient_attrs d) -> same_value a (d_get d a) (d_get d' a)).
  { unfold ren. destruct (Nat.eqb_spec (key d) k2) as [E|N].
    - assert (d = n2) by (apply (data_unique t); [apply W|exact Hd|exact H2|exact E]). subst d. exists n1. split; [exact H1|]. split; [exact G1|]. split; [reflexivity|]. split; [exact N12|]. split; [congruence|]. intros a Ha. apply same_value_sym, same_attr. rewrite (gattrs n1 T1), <- (gattrs n2 T2). exact Ha.
    - exists d. repeat split; auto. intros a _. apply same_value_refl. }
  destruct Pick as (d' & Hd' & G' & K' & N' & T' & S'). exists (vis d), (vis (f d')). split; [now apply in_w|]. split; [reflexivity|]. split; [apply in_w, flat_t1; exists d'; split; [exact Hd'|split; [now apply grad_kept|reflexivity]]|]. split; [exact K'|]. split; [exact T'|]. split.
  - intros a v Ha Hv. destruct (r_resolved t R d a Hd G Ha) as (v0 & Hv0 & S0). assert (NW : NoDup (keys (written t))) by (rewrite written_keys; apply W). pose proof (effective_fun _ _ _ _ _ NW Hv Hv0) as <-.
    assert (Ha' : In a (gradient_attrs d')) by (unfold gradient_attrs; rewrite T'; exact Ha). destruct (values_step d' a Hd' G' N' Ha') as (v' & Hv' & Sv). exists v'. split; [exact Hv'|]. apply (same_value_trans a _ (d_get d a)); [exact S0|]. apply (same_value_trans a _ (d_get d' a)); [now apply S'|now apply same_value_sym].
  - intros l Hl. apply stops_step; [exact Hl|]. exists d. auto.
Qed.
Lemma step_remove : remove k2 (tmap f t) = t1.
Proof. exact (remove_merged t s2 a2 n1 W P2 K1 Typed Inner). Qed.
Lemma present_t1 k d : In d (flat t) -> key d = k -> tag d = TEl e -> k <> k2 -> exists d', In d' (flat t1) /\ key d' = k /\ tag d' = TEl e.
Proof. intros Hd Kd Td Nk. exists (f d). split; [|auto]. apply flat_t1. exists d. split; [exact Hd|]. split; [|reflexivity]. apply grad_kept; [exact Hd|now apply grad_tag|congruence]. Qed.
Lemma redirects_t1 : redirects (fun d => tag d = TEl e) (ren k2 k1) t t1.
Proof. apply (redirects_step t s2 a2 n1 W P2 N2 H1 K1 Typed); [congruence|exact T2|]. intros d Hd Td N. apply grad_kept; auto. now apply grad_tag. Qed.
End gstep.

(** Composition of steps. *)
Lemma anc_in t a d p : In (a, d) (ctx [] t) -> In p a -> In p (flat t).
Proof. intros H Hp. destruct (ctx_anc_in t [] _ p H Hp) as [[]|X]; exact X. Qed.
Lemma redirect_comp r1 r2 v : redirect_value r2 (redirect_value r1 v) = redirect_value (fun k => r2 (r1 k)) v.
Proof. destruct v; reflexivity. Qed.
Lemma link_redirect r v : link_of v = None -> link_of (redirect_value r v) = None.
Proof. destruct v; cbn; auto; discriminate. Qed.
Lemma redirected_comp r1 r2 l l1 l2 : Forall2 (redirected r1) l l1 -> Forall2 (redirected r2) l1 l2 -> Forall2 (redirected (fun k => r2 (r1 k))) l l2.
Proof.
  intros H. revert l2. induction H as [|x y l l1 (A & B & C) _ IH]; intros l2 H2; inversion H2 as [|y' z l1' l2' (A2 & B2 & C2) H2']; subst; constructor; [|now apply IH].
  split; [congruence|]. split; [rewrite B2, B; apply redirect_comp|]. intros L. rewrite C2; [now apply C|]. rewrite B. now apply link_redirect.
Qed.
Lemma redirected_id l : Forall2 (redirected (fun k => k)) l l.
Proof. induction l as [|x l IH]; constructor; [|exact IH]. split; [reflexivity|]. split; [destruct (a_val x); reflexivity|reflexivity]. Qed.
Lemma redirects_id K t : redirects K (fun k => k) t t.
Proof.
  split.
  - intros d Hd. exists d. repeat split; auto. apply redirected_id.
  - intros a d H. exists a, d. auto.
  - intros a d H. left. apply (in_map key), (ctx_in_flat t [] _ H).
  - reflexivity.
  - intros d Hd _. exists d. auto.
  - reflexivity.
Qed.
Lemma redirects_comp (K : ndata -> Prop) r1 r2 t t1 t2 : NoDup (keys t) -> (forall d d', tag d = tag d' -> K d -> K d') ->
  redirects K r1 t t1 -> redirects K r2 t1 t2 -> redirects K (fun k => r2 (r1 k)) t t2.
Proof.
  intros N Kt A B. assert (I : forall k, In k (keys t2) -> In k (keys t1)). { intros k Hk. apply in_map_iff in Hk. destruct Hk as (d & <- & Hd). destruct (rd_old _ _ _ _ B d Hd) as (d1 & Hd1 & -> & _). now apply (in_map key). }
  assert (Rin : forall d, In d (flat t) -> K d -> exists d', In d' (flat t2) /\ key d' = r2 (r1 (key d)) /\ tag d' = tag d).
  { intros d Hd Kd. destruct (rd_in _ _ _ _ A d Hd Kd) as (d1 & Hd1 & K1 & T1). destruct (rd_in _ _ _ _ B d1 Hd1 (Kt _ _ (eq_sym T1) Kd)) as (d2 & Hd2 & K2 & T2). exists d2. split; [exact Hd2|]. split; congruence. }
  split.
  - intros d2 Hd2. destruct (rd_old _ _ _ _ B d2 Hd2) as (d1 & Hd1 & A1 & A2 & A3 & A4). destruct (rd_old _ _ _ _ A d1 Hd1) as (d & Hd & B1 & B2 & B3 & B4). exists d. split; [exact Hd|]. repeat split; try congruence. exact (redirected_comp _ _ _ _ _ B4 A4).
  - intros a2 d2 H2. destruct (rd_place _ _ _ _ B a2 d2 H2) as (a1 & d1 & H1 & X1 & Y1). destruct (rd_place _ _ _ _ A a1 d1 H1) as (a & d & H & X & Y). exists a, d. split; [exact H|]. split; congruence.
  - intros a d H. destruct (rd_kept _ _ _ _ A a d H) as [Hk|(p & Hp & Kp & Np)].
    + apply in_map_iff in Hk. destruct Hk as (d1 & E1 & Hd1). rewrite <- (map_snd_ctx [] t1) in Hd1. apply in_map_iff in Hd1. destruct Hd1 as ([a1 x] & <- & Hc). cbn in *. destruct (rd_kept _ _ _ _ B a1 x Hc) as [Hk|(p1 & Hp1 & Kp1 & Np1)]; [left; congruence|]. right.
      destruct (rd_place _ _ _ _ A a1 x Hc) as (a' & d' & Hc' & Kx & Ka).
      assert (Q : exists p, In p (d' :: a') /\ key p1 = key p). { destruct Hp1 as [<-|Hp1]; [exists d'; split; [now left|exact Kx]|]. apply (in_map key) in Hp1. rewrite Ka in Hp1. apply in_map_iff in Hp1. destruct Hp1 as (p & Kp & Hp). exists p. split; [now right|auto]. }
      destruct Q as (p & Hp & Kp). assert (E : (a', d') = (a, d)) by (apply (ctx_unique t []); [exact N|exact Hc'|exact H|cbn; congruence]). inversion E; subst a' d'.
      assert (Hf1 : In p1 (flat t1)) by (destruct Hp1 as [<-|Hp1]; [exact (ctx_in_flat t1 [] _ Hc)|exact (anc_in _ _ _ _ Hc Hp1)]).
      assert (Hf : In p (flat t)) by (destruct Hp as [<-|Hp]; [exact (ctx_in_flat t [] _ H)|exact (anc_in _ _ _ _ H Hp)]).
      destruct (rd_old _ _ _ _ A p1 Hf1) as (p0 & Hp0 & X0 & Y0 & _). assert (p0 = p) by (apply (data_unique t); [exact N|exact Hp0|exact Hf|congruence]). subst p0.
      exists p. split; [exact Hp|]. split; [exact (Kt _ _ Y0 Kp1)|]. assert (G : r1 (key p) = key p) by (apply (rd_gone _ _ _ _ A); rewrite <- Kp; now apply (in_map key)). rewrite G, <- Kp. exact Np1.
    + right. exists p. split; [exact Hp|]. split; [exact Kp|]. intros E. apply Np. apply (rd_gone _ _ _ _ A). apply I. assert (Hf : In p (flat t)) by (destruct Hp as [<-|Hp]; [exact (ctx_in_flat t [] _ H)|exact (anc_in _ _ _ _ H Hp)]). destruct (Rin p Hf Kp) as (d' & Hd' & E' & _). rewrite <- E, <- E'. now apply (in_map key).
  - intros k Hk. rewrite (rd_gone _ _ _ _ A k (I k Hk)). now apply (rd_gone _ _ _ _ B).
  - exact Rin.
  - intros k Nk. rewrite (rd_other _ _ _ _ A k Nk). apply (rd_other _ _ _ _ B). intros d1 Hd1 E1 K1. destruct (rd_old _ _ _ _ A d1 Hd1) as (d & Hd & X & Y & _). apply (Nk d Hd); [congruence|exact (Kt _ _ Y K1)].
Qed.
Lemma same_paint_trans t k t1 k1 t2 k2 : NoDup (keys t1) -> same_paint t k t1 k1 -> same_paint t1 k1 t2 k2 -> same_paint t k t2 k2.
Proof.
  intros N (d & d1 & Hd & Kd & Hd1 & Kd1 & Td1 & A & B) (x & d2 & Hx & Kx & Hd2 & Kd2 & Td2 & A' & B'). assert (x = d1) by (apply (data_unique t1); auto; congruence). subst x. exists d, d2. repeat split; auto; [congruence|].
  intros a v Ha Hv. destruct (A a v Ha Hv) as (v1 & Hv1 & S1). destruct (A' a v1) as (v2 & Hv2 & S2); [unfold gradient_attrs in *; rewrite Td1; exact Ha|exact Hv1|]. exists v2. split; [exact Hv2|exact (same_value_trans _ _ _ _ S1 S2)].
Qed.
Lemma same_paint_refl t d : In d (flat t) -> same_paint t (key d) t (key d).
Proof. intros Hd. exists d, d. repeat split; auto. intros a v _ Hv. exists v. split; [exact Hv|apply same_value_refl]. Qed.

