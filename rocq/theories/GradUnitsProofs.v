(** Proofs for GradUnits.v. *)
From Coq Require Import List Bool NArith Arith ZArith String Lia QArith Qcanon.
From Verif Require Import Names Num Value Dom DomFacts DomOps Outcome DomRemove Stops SpecStops AttrFacts StopsProofs NPass SpecDom SpecWritten Transforms VLoop Gradients SpecGradients GradProofs GradTransProofs Props_gradtrans UnusedCoords SpecCoords HideFacts Props_coords GradUnits SpecGradUnits.
Import ListNotations.
Local Open Scope nat_scope.

Notation AGU := AGradientUnits.
Lemma gradient_iff d : is_gradient d = true <-> gradient_node d.
Proof.
  unfold is_gradient, gradient_node, is_tag. rewrite orb_true_iff. destruct (tag d) as [|e| | | |]; try (split; intros [H|H]; discriminate).
  destruct (eid_eqb_spec e ELinearGradient), (eid_eqb_spec e ERadialGradient); subst; split; intuition congruence.
Qed.
(** The written value of the units. *)
Definition eff (r : option value) : value := match r with Some v => v | None => o_bb end.
Definition U (T : tree) (d : ndata) (v : value) : Prop := exists r, along_href (written T) AGU (vis d) r /\ v = eff r.
Lemma U_effective T d v : U T d v <-> effective (written T) (vis d) AGU (Some v).
Proof.
  split.
  - intros (r & H & ->). destruct r as [w|]; cbn [eff]; [now apply eff_found|]. apply (eff_default (written T) (vis d) AGU H). cbn. intuition discriminate.
  - intros H. inversion H as [w H' E|H' Na E|w E H' X E2|w E H' X E2]; subst; try discriminate; [exists (Some v); auto|]. exists None. split; [exact H'|]. reflexivity.
Qed.
Lemma u_own T d v : d_get (vis d) AGU = Some v -> U T d v.
Proof. intros H. exists (Some v). split; [now apply ah_own|reflexivity]. Qed.
Lemma u_root T d : d_get (vis d) AGU = None -> d_get (vis d) AXlinkHref = None -> U T d o_bb.
Proof. intros H1 H2. exists None. split; [now apply ah_end|reflexivity]. Qed.
Lemma u_next T d x v : d_get (vis d) AGU = None -> d_get (vis d) AXlinkHref = Some (VLink (key x)) -> In x (flat T) -> U T x v -> U T d v.
Proof. intros H1 H2 Hx (r & H & ->). exists r. split; [|reflexivity]. apply (ah_next _ _ _ (key x) (vis x)); auto using vis_node_in. Qed.
Lemma u_inv T d v : NoDup (keys T) -> U T d v ->
  d_get (vis d) AGU = Some v \/
  (d_get (vis d) AGU = None /\ d_get (vis d) AXlinkHref = None /\ v = o_bb) \/
  (d_get (vis d) AGU = None /\ exists x, d_get (vis d) AXlinkHref = Some (VLink (key x)) /\ In x (flat T) /\ U T x v).
Proof.
  intros N (r & H & ->). inversion H as [y w E|y E H'|y k z r' E H' Hz Kz Hr]; subst.
  - left. exact E.
  - right. left. auto.
  - right. right. split; [exact E|]. unfold written in Hz. rewrite flat_tmap in Hz. apply in_map_iff in Hz. destruct Hz as (x & <- & Hx). exists x. split; [exact H'|]. split; [exact Hx|]. exists r. auto.
Qed.
Lemma u_fun T d v w : NoDup (keys T) -> U T d v -> U T d w -> v = w.
Proof. intros N (r & H & ->) (s & H' & ->). assert (s = r); [|congruence]. apply (along_fun (written T) AGU (vis d)); auto. rewrite written_keys. exact N. Qed.

(** What every step does to a node. *)
Definition same_but (d d' : ndata) : Prop :=
  key d' = key d /\ tag d' = tag d /\ nid d' = nid d /\ (attrs_nodup d -> attrs_nodup d') /\
  (forall x, a_name x <> AN AGU -> (In x (attrs d') <-> In x (attrs d))) /\ (forall a, a <> AGU -> get_attr (attrs d') a = get_attr (attrs d) a) /\
  (forall x, a_name x = AN AGU -> In x (attrs d') -> link_of (a_val x) <> None -> exists y, In y (attrs d) /\ a_val y = a_val x /\ a_name y = AN AGU).
Lemma sb_refl d : same_but d d. Proof. repeat split; auto. intros x E Hx _. eauto. Qed.
Lemma sb_trans a b c : same_but a b -> same_but b c -> same_but a c.
Proof.
  intros (A1 & A2 & A3 & A4 & A5 & A6 & A7) (B1 & B2 & B3 & B4 & B5 & B6 & B7). repeat split; try congruence; auto.
  - intros Hx. apply A5; auto. apply B5; auto.
  - intros Hx. apply B5; auto. apply A5; auto.
  - intros x Nx. rewrite B6, A6; auto.
  - intros x Ex Hx L. destruct (B7 x Ex Hx L) as (y & Hy & Ey & Ny). destruct (A7 y Ny Hy) as (z & Hz & Ez & Nz); [congruence|]. exists z. split; [exact Hz|]. split; [congruence|exact Nz].
Qed.
Definition hide1 (d : ndata) : ndata := with_attrs d (hide_attr (attrs d) AGU).
Lemma hide1_all d : hide1 d = hide_all [AGU] d. Proof. reflexivity. Qed.
Lemma hide1_sb d : same_but d (hide1 d).
Proof.
  repeat split.
  - intros N. rewrite hide1_all. now apply hide_all_nodup.
  - intros Hx. unfold hide1 in Hx. cbn in Hx. unfold hide_attr in Hx. apply in_map_iff in Hx. destruct Hx as (y & E & Hy). destruct (has_name (AN AGU) y) eqn:Ny; [|congruence]. subst x. cbn in H. apply has_name_true in Ny. congruence.
  - intros Hx. unfold hide1. cbn. unfold hide_attr. apply in_map_iff. exists x. split; [|exact Hx]. destruct (has_name (AN AGU) x) eqn:Ny; [|reflexivity]. apply has_name_true in Ny. congruence.
  - intros a Na. rewrite hide1_all, hide_all_get. destruct (get_attr (attrs d) a); [|reflexivity]. cbn. destruct (aid_eqb_spec a AGU); [congruence|reflexivity].
  - intros x Ex Hx _. unfold hide1 in Hx. cbn in Hx. unfold hide_attr in Hx. apply in_map_iff in Hx. destruct Hx as (y & E & Hy). exists y. split; [exact Hy|]. destruct (has_name (AN AGU) y); subst x; auto.
Qed.
Lemma hide1_get d b : d_get (hide1 d) b = d_get d b. Proof. rewrite hide1_all. apply hide_all_dget. Qed.
Lemma hide1_vis d : attrs_nodup d -> d_get (vis (hide1 d)) AGU = None.
Proof. intros N. rewrite hide1_all, hide_all_vis by exact N. reflexivity. Qed.
Lemma set_other_in l a v x : a_name x <> AN a -> (In x (set_attr l a v) <-> In x l).
Proof.
  intros H. induction l as [|y l IH]; cbn; [split; [intros [<-|[]]; contradiction H; reflexivity|contradiction]|]. destruct (has_name (AN a) y) eqn:E; cbn.
  - apply has_name_true in E. split; intros [X|X]; auto; subst; contradiction H; reflexivity.
  - rewrite IH. tauto.
Qed.
Lemma set_sb d v : link_of v = None -> same_but d (d_set d AGU v).
Proof.
  intros L. repeat split.
  - apply nodup_set.
  - intros Hx. now apply (set_other_in (attrs d) AGU v x).
  - intros Hx. now apply (set_other_in (attrs d) AGU v x).
  - intros a Na. unfold d_set. cbn. apply get_set_other. congruence.
  - intros x Ex Hx Lx. unfold d_set in Hx. cbn in Hx. apply set_attr_in in Hx. destruct Hx as [Hx| ->]; [eauto|]. cbn in Lx. contradiction.
Qed.
Lemma sb_get d d' a : same_but d d' -> a <> AGU -> d_get d' a = d_get d a.
Proof. intros (_ & _ & _ & _ & _ & H & _) Na. unfold d_get, get_value. now rewrite H. Qed.
Lemma sb_vis d d' a : attrs_nodup d -> same_but d d' -> a <> AGU -> d_get (vis d') a = d_get (vis d) a.
Proof. intros N S Na. destruct S as (_ & _ & _ & S4 & _ & S6 & _). apply vis_ext; auto. Qed.

(** The facts that stay true. *)
Record base (rank : nat -> nat) (T : tree) : Prop := {
  b_keys : NoDup (keys T);
  b_wfa : WFA T;
  b_hrefs : gradient_hrefs T;
  b_vis : hrefs_written T;
  b_links : gradient_links T;
  b_rank : forall d k, In d (flat T) -> gradient_node d -> d_get d AXlinkHref = Some (VLink k) -> rank k < rank (key d)
}.
Lemma gradient_sb d d' : same_but d d' -> gradient_node d' -> gradient_node d.
Proof. intros (_ & E & _). unfold gradient_node. now rewrite E. Qed.
Lemma base_tmap rank T g : base rank T -> (forall d, In d (flat T) -> same_but d (g d)) -> base rank (tmap g T).
Proof.
  intros [N A GH HV GL RK] S. split.
  - unfold keys. rewrite flat_tmap, map_map. rewrite (map_ext_in _ key); [exact N|]. intros d Hd. apply (S d Hd).
  - unfold WFA. rewrite flat_tmap. apply Forall_forall. intros x Hx. apply in_map_iff in Hx. destruct Hx as (d & <- & Hd). destruct (S d Hd) as (_ & _ & _ & H & _). apply H. exact (proj1 (Forall_forall _ _) A d Hd).
  - intros x v Hx Gx E. rewrite flat_tmap in Hx. apply in_map_iff in Hx. destruct Hx as (d & <- & Hd). pose proof (S d Hd) as Sd. rewrite (sb_get d) in E by (auto; discriminate).
    destruct (GH d v Hd (gradient_sb _ _ Sd Gx) E) as (k & y & -> & Hy & Ky & Gy). exists k, (g y). split; [reflexivity|]. rewrite flat_tmap. split; [now apply in_map|]. destruct (S y Hy) as (K & T1 & _). split; [congruence|]. unfold gradient_node. now rewrite T1.
  - intros x a Hx Gx Ha E. rewrite flat_tmap in Hx. apply in_map_iff in Hx. destruct Hx as (d & <- & Hd). pose proof (S d Hd) as Sd. apply (HV d a Hd (gradient_sb _ _ Sd Gx)); [|exact E].
    destruct Sd as (_ & _ & _ & _ & H & _). apply H; [congruence|exact Ha].
  - intros x a k y Hx Gx Ha L Hy Ky Gy. rewrite flat_tmap in Hx, Hy. apply in_map_iff in Hx, Hy. destruct Hx as (d & <- & Hd), Hy as (y0 & <- & Hy). pose proof (S d Hd) as Sd. pose proof (S y0 Hy) as Sy.
    assert (Ky0 : key y0 = k) by (destruct Sy as (K & _); congruence). pose proof (gradient_sb _ _ Sy Gy) as Gy0. pose proof (gradient_sb _ _ Sd Gx) as Gd.
    destruct (aname_eqb_spec (a_name a) (AN AGU)) as [E|E].
    + destruct Sd as (_ & _ & _ & _ & _ & _ & H). destruct (H a E Ha) as (b & Hb & Eb & Nb); [congruence|]. exfalso. assert (X : a_name b = AN AXlinkHref) by (apply (GL d b k y0); auto; congruence). congruence.
    + destruct Sd as (_ & _ & _ & _ & H & _). apply (GL d a k y0); auto. now apply H.
  - intros x k Hx Gx E. rewrite flat_tmap in Hx. apply in_map_iff in Hx. destruct Hx as (d & <- & Hd). pose proof (S d Hd) as Sd. rewrite (sb_get d) in E by (auto; discriminate).
    destruct Sd as (K & T1 & Sd). rewrite K. apply RK; auto. unfold gradient_node in *. now rewrite <- T1.
Qed.
Section steps.
Variables (rank : nat -> nat) (T : tree).
Hypothesis B : base rank T.
Lemma s_nodup d : In d (flat T) -> attrs_nodup d. Proof. exact (proj1 (Forall_forall _ _) (b_wfa _ _ B) d). Qed.
Lemma s_href d : In d (flat T) -> gradient_node d -> d_get (vis d) AXlinkHref = d_get d AXlinkHref.
Proof.
  intros Hd G. rewrite vis_dget by now apply s_nodup. unfold d_get, get_value. destruct (get_attr (attrs d) AXlinkHref) as [x|] eqn:E; [|reflexivity]. apply get_attr_some in E.
  now rewrite (b_vis _ _ B d x Hd G (proj1 E) (proj2 E)).
Qed.
Lemma s_target d x : In d (flat T) -> gradient_node d -> In x (flat T) -> d_get d AXlinkHref = Some (VLink (key x)) -> gradient_node x /\ rank (key x) < rank (key d).
Proof.
  intros Hd G Hx E. split; [|exact (b_rank _ _ B d (key x) Hd G E)]. destruct (b_hrefs _ _ B d _ Hd G E) as (k & y & Ek & Hy & Ky & Gy). assert (y = x) by (apply (data_unique T); [apply B|auto|auto|congruence]). now subst y.
Qed.
(** All steps have this form: the new written units of a gradient, or none. *)
Lemma step_rule (keep : ndata -> Prop) (g : ndata -> ndata) : (forall d, In d (flat T) -> same_but d (g d)) ->
  (forall d v, In d (flat T) -> gradient_node d -> keep d -> U T d v ->
     d_get (vis (g d)) AGU = Some v \/
     (d_get (vis (g d)) AGU = None /\ ((d_get d AXlinkHref = None /\ v = o_bb) \/
        exists x, d_get d AXlinkHref = Some (VLink (key x)) /\ In x (flat T) /\ ((keep x /\ U T x v) \/ U (tmap g T) (g x) v)))) ->
  forall d v, In d (flat T) -> gradient_node d -> keep d -> U T d v -> U (tmap g T) (g d) v.
Proof.
  intros S H. assert (R : forall n d v, rank (key d) < n -> In d (flat T) -> gradient_node d -> keep d -> U T d v -> U (tmap g T) (g d) v).
  { induction n as [|n IH]; intros d v L Hd G K Hv; [lia|]. pose proof (S d Hd) as Sd. pose proof (sb_vis d (g d) AXlinkHref (s_nodup d Hd) Sd ltac:(discriminate)) as EH. rewrite (s_href d Hd G) in EH.
    destruct (H d v Hd G K Hv) as [E|(E & [(Eh & ->)|(x & Eh & Hx & C)])].
    - now apply u_own.
    - apply u_root; [exact E|congruence].
    - destruct (s_target d x Hd G Hx Eh) as [Gx Rx]. apply (u_next _ _ (g x)); [exact E| |rewrite flat_tmap; now apply in_map|].
      + rewrite EH, Eh. destruct (S x Hx) as (-> & _). reflexivity.
      + destruct C as [(Kx & Ux)|C]; [|exact C]. apply IH; auto. lia. }
  intros d v. apply (R (Datatypes.S (rank (key d)))). lia.
Qed.
(** Nodes that are not changed. *)
Lemma same_rule (keep : ndata -> Prop) (g : ndata -> ndata) d v : In d (flat T) -> gradient_node d -> U T d v -> d_get (vis (g d)) AGU = d_get (vis d) AGU ->
  (forall x, In x (flat T) -> d_get d AXlinkHref = Some (VLink (key x)) -> keep x) ->
  d_get (vis (g d)) AGU = Some v \/
     (d_get (vis (g d)) AGU = None /\ ((d_get d AXlinkHref = None /\ v = o_bb) \/
        exists x, d_get d AXlinkHref = Some (VLink (key x)) /\ In x (flat T) /\ ((keep x /\ U T x v) \/ U (tmap g T) (g x) v))).
Proof.
  intros Hd G Hv E K. rewrite E. destruct (u_inv T d v (b_keys _ _ B) Hv) as [H|[(H1 & H2 & H3)|(H1 & x & H2 & Hx & Ux)]]; try rewrite (s_href d Hd G) in H2; eauto 10.
Qed.
End steps.

(** ** The first step *)
Definition eq_units (t : tree) (d : ndata) : bool :=
  match link_key d with
  | Some k => match find_data k t with Some x => opt_value_eqb (d_get d AGU) (d_get x AGU) | None => false end
  | None => false
  end.
Definition eq_change (t : tree) (d : ndata) : ndata := if eq_units t d then hide1 d else d.
Lemma eq_change_sb t d : same_but d (eq_change t d). Proof. unfold eq_change. destruct (eq_units t d); [apply hide1_sb|apply sb_refl]. Qed.
Lemma eq_change_get t d b : d_get (eq_change t d) b = d_get d b. Proof. unfold eq_change. destruct (eq_units t d); [apply hide1_get|reflexivity]. Qed.
Lemma units_visit_visited t done d : NoDup (keys t) -> d_has d AGU = true -> units_visit (visited (eq_change t) done t) d = Ok (eq_change t d).
Proof.
  intros N H.
  assert (F : forall k, find_data k (visited (eq_change t) done t) = option_map (fun d => if mem (key d) done then eq_change t d else d) (find_data k t)).
  { intros k. unfold visited. apply find_data_tmap. apply visited_key. intros x. apply eq_change_sb. }
  set (V := visited (eq_change t) done t) in *. clearbody V. unfold units_visit. unfold eq_change at 1, eq_units. destruct (link_key d) as [k|]; [|reflexivity].
  rewrite (F k). destruct (find_data k t) as [x|]; [|reflexivity]. cbn [option_map].
  assert (E : d_get (if mem (key x) done then eq_change t x else x) AGU = d_get x AGU) by (destruct (mem _ _); [apply eq_change_get|reflexivity]).
  rewrite E. destruct (opt_value_eqb _ _); [|reflexivity]. unfold make_invisible. now rewrite H.
Qed.
Lemma eq_change_U rank T : base rank T -> units_carried T -> forall ks d v, In d (flat T) -> gradient_node d -> U T d v ->
  U (visited (eq_change T) ks T) (if mem (key d) ks then eq_change T d else d) v.
Proof.
  intros B C ks. set (g := fun d => if mem (key d) ks then eq_change T d else d). intros d v Hd G Hv. change (U (tmap g T) (g d) v).
  assert (S : forall d, In d (flat T) -> same_but d (g d)) by (intros x _; unfold g; destruct (mem _ _); [apply eq_change_sb|apply sb_refl]).
  apply (step_rule rank T B (fun _ => True) g S); auto. clear d v Hd G Hv. intros d v Hd G _ Hv.
  assert (Cases : g d = d \/ (g d = hide1 d /\ eq_units T d = true)) by (unfold g, eq_change; destruct (mem _ _); [destruct (eq_units T d); auto|auto]).
  destruct Cases as [E|[E Q]]; [apply (same_rule rank T B); auto; now rewrite E|]. right. rewrite E. split; [apply hide1_vis; exact (s_nodup rank T B d Hd)|]. right.
  unfold eq_units in Q. destruct (link_key d) as [k|] eqn:L; [|discriminate]. destruct (find_data k T) as [x|] eqn:F; [|discriminate]. apply find_data_some in F. destruct F as [Hx Kx]. apply opt_value_eqb_true in Q.
  unfold link_key in L. destruct (d_get d AXlinkHref) as [w|] eqn:Eh; [|discriminate]. destruct w; try discriminate. injection L as <-. subst. exists x. split; [reflexivity|]. split; [exact Hx|]. left. split; [exact I|].
  destruct (s_target rank T B d x Hd G Hx Eh) as [Gx _]. destruct (C d Hd G) as [C1 C2]. rewrite Eh in C1. assert (Y : exists u, d_get d AGU = Some u) by (specialize (C1 ltac:(discriminate)); destruct C1 as [C1|[C1|[]]]; eauto).
  destruct Y as (u & Eu). assert (v = u) by (apply (u_fun T d); [apply B|exact Hv|apply U_effective; auto]). subst v. apply U_effective. destruct (C x Hx Gx) as [_ C3]. apply C3. congruence.
Qed.

(** ** The order of the first step *)
Section order.
Variables (rank : nat -> nat) (t : tree).
Hypothesis (NK : NoDup (keys t)) (WA : WFA t) (PL : plain_links t) (RK : forall d k, In d (flat t) -> gradient_node d -> d_get d AXlinkHref = Some (VLink k) -> rank k < rank (key d)).
Definition ordered_nodes : list ndata := filter (fun d => is_gradient d && d_has d AXlinkHref) (flat t).
Lemma ordered_in d : In d ordered_nodes <-> In d (flat t) /\ gradient_node d /\ d_get d AXlinkHref <> None.
Proof.
  unfold ordered_nodes. rewrite filter_In, andb_true_iff, gradient_iff. unfold d_has, has_attr, d_get, get_value. destruct (get_attr (attrs d) AXlinkHref); split; intuition congruence.
Qed.
Definition uses (j k : nat) : bool := match link_of_key t j with Some x => Nat.eqb x k | None => false end.
Lemma link_of_key_in d : In d (flat t) -> link_of_key t (key d) = link_key d.
Proof. intros Hd. unfold link_of_key. now rewrite (find_data_in t d NK Hd). Qed.
Lemma count_href k y : In y (flat t) -> key y = k -> gradient_node y -> forall d, In d (flat t) -> gradient_node d ->
  List.length (filter (refers k) (attrs d)) = if match link_key d with Some x => Nat.eqb x k | None => false end then 1 else 0.
Proof.
  intros Hy Ky Gy d Hd G. pose proof (proj1 (Forall_forall _ _) WA d Hd) as Nd. unfold link_key, d_get, get_value.
  assert (F : forall x, In x (attrs d) -> refers k x = true -> a_name x = AN AXlinkHref /\ a_val x = VLink k) by (intros x Hx R; apply refers_iff in R; exact (PL d x k y Hd G Hx R Hy Ky Gy)).
  unfold attrs_nodup in Nd. clear -F Nd. unfold get_attr in *. revert F Nd. generalize (attrs d) as l. induction l as [|x l IH]; intros F Nd; [reflexivity|]. inversion Nd as [|? ? N1 N2]; subst. cbn [filter find].
  destruct (has_name (AN AXlinkHref) x) eqn:Hn.
  - apply has_name_true in Hn.
    assert (Z : filter (refers k) l = []). { destruct (filter (refers k) l) as [|z m] eqn:Fz; [reflexivity|]. assert (Hz : In z (filter (refers k) l)) by (rewrite Fz; now left). apply filter_In in Hz. destruct Hz as [Hz Rz]. exfalso. apply N1. rewrite Hn, <- (proj1 (F z (or_intror Hz) Rz)). now apply in_map. }
    destruct (refers k x) eqn:R.
    + destruct (F x (or_introl eq_refl) R) as [_ ->]. rewrite Nat.eqb_refl, Z. reflexivity.
    + rewrite Z. unfold refers in R. destruct (a_val x); try reflexivity. cbn [link_of] in R. now rewrite R.
  - destruct (refers k x) eqn:R; [exfalso; apply has_name_false in Hn; apply Hn; apply F; [now left|exact R]|]. apply IH; auto. intros z Hz. apply F. now right.
Qed.
Lemma gradient_uses_count y : In y (flat t) -> gradient_node y -> gradient_uses t (key y) = List.length (filter (fun j => uses j (key y)) (map key ordered_nodes)).
Proof.
  intros Hy Gy. unfold gradient_uses, ordered_nodes.
  assert (Z : forall l, (forall d, In d l -> In d (flat t)) -> List.length (flat_map (fun d => if is_gradient d then filter (refers (key y)) (attrs d) else []) l) =
    List.length (filter (fun j => uses j (key y)) (map key (filter (fun d => is_gradient d && d_has d AXlinkHref) l)))).
  { induction l as [|d l IH]; intros Hl; [reflexivity|]. cbn [flat_map filter]. rewrite app_length, IH by (intros x Hx; apply Hl; now right). destruct (is_gradient d) eqn:G; cbn [andb]; [|reflexivity].
    rewrite (count_href (key y) y Hy eq_refl Gy d (Hl d (or_introl eq_refl)) (proj1 (gradient_iff d) G)).
    destruct (d_has d AXlinkHref) eqn:Hh; cbn [map filter].
    - unfold uses at 2. rewrite link_of_key_in by (apply Hl; now left). destruct (match link_key d with Some x => _ | None => _ end); reflexivity.
    - unfold link_key, d_get, get_value. unfold d_has, has_attr in Hh. destruct (get_attr (attrs d) AXlinkHref); [discriminate|]. reflexivity. }
  apply Z. auto.
Qed.
(** The counters are the numbers of waiting users. *)
Definition counted (order : list (nat * nat)) : Prop :=
  (forall k c, In (k, c) order -> c = List.length (filter (fun j => uses j k) (map fst order))) /\ NoDup (map fst order) /\
  forall k, In k (map fst order) -> exists d, In d ordered_nodes /\ key d = k.
Lemma counted_start : counted (units_order t).
Proof.
  assert (F : map fst (units_order t) = map key ordered_nodes) by (unfold units_order; rewrite map_map; reflexivity).
  split; [|split].
  - intros k c H. rewrite F. unfold units_order in H. apply in_map_iff in H. destruct H as (d & E & Hd). inversion E; subst. apply ordered_in in Hd. destruct Hd as (Hd & G & _). now apply gradient_uses_count.
  - rewrite F. apply (sublist_NoDup _ (keys t)); [|exact NK]. apply sublist_map, sublist_filter.
  - intros k Hk. rewrite F in Hk. apply in_map_iff in Hk. destruct Hk as (d & E & Hd). eauto.
Qed.
Lemma ready_in order k : In k (ready order) -> In k (map fst order).
Proof. unfold ready. intros H. apply in_map_iff in H. destruct H as (p & <- & Hp). apply filter_In in Hp. apply in_map. tauto. Qed.
Lemma round_keys order : map fst (units_round t order) = map fst (filter (fun p => negb (Nat.eqb (snd p) 0)) order).
Proof. unfold units_round. rewrite map_map. reflexivity. Qed.
Lemma filter_split {A} (f p : A -> bool) l : List.length (filter f l) = List.length (filter f (filter p l)) + List.length (filter f (filter (fun x => negb (p x)) l)).
Proof. induction l as [|x l IH]; [reflexivity|]. cbn. destruct (p x), (f x) eqn:E; cbn; rewrite ?E; cbn; lia. Qed.
Lemma filter_map {A C} (h : A -> C) p (l : list A) : filter p (map h l) = map h (filter (fun x => p (h x)) l).
Proof. induction l as [|x l IH]; [reflexivity|]. cbn. destruct (p (h x)); cbn; now rewrite IH. Qed.
Lemma counted_round order : counted order -> counted (units_round t order).
Proof.
  intros (C & N & D). split; [|split].
  - intros k c H. rewrite round_keys. unfold units_round in H. apply in_map_iff in H. destruct H as ((k0 & c0) & E & H). unfold decrease in E. cbn [fst snd] in E. inversion E; subst. apply filter_In in H. destruct H as [H _].
    rewrite (C _ _ H) at 1. unfold ready. rewrite !filter_map. rewrite !map_length. rewrite (filter_split (fun x => uses (fst x) k) (fun p => Nat.eqb (snd p) 0) order). unfold uses. lia.
  - rewrite round_keys. apply (sublist_NoDup _ (map fst order)); [|exact N]. apply sublist_map, sublist_filter.
  - intros k Hk. apply D. rewrite round_keys in Hk. apply in_map_iff in Hk. destruct Hk as (p & <- & Hp). apply filter_In in Hp. apply in_map. tauto.
Qed.
Lemma round_shrinks order : counted order -> order <> [] -> List.length (units_round t order) < List.length order.
Proof.
  intros (C & N & D) Ne. destruct (max_rank rank (map fst order)) as (k & Hk & M); [destruct order; [contradiction|discriminate]|].
  apply in_map_iff in Hk. destruct Hk as ((k0 & c) & Ek & Hk). cbn in Ek. subst k0.
  assert (Z : c = 0).
  { rewrite (C _ _ Hk). destruct (filter (fun j => uses j k) (map fst order)) as [|j m] eqn:F; [reflexivity|]. exfalso.
    assert (Hj : In j (filter (fun j => uses j k) (map fst order))) by (rewrite F; now left). apply filter_In in Hj. destruct Hj as [Hj Uj].
    destruct (D j Hj) as (d & Hd & <-). apply ordered_in in Hd. destruct Hd as (Hd & G & _). unfold uses in Uj. rewrite (link_of_key_in d Hd) in Uj. unfold link_key in Uj.
    destruct (d_get d AXlinkHref) as [[]|] eqn:E; try discriminate. apply Nat.eqb_eq in Uj. subst. pose proof (RK d _ Hd G E). specialize (M _ Hj). lia. }
  subst c. unfold units_round. rewrite map_length. clear -Hk. induction order as [|p l IH]; [contradiction|]. cbn. destruct Hk as [->|Hk].
  - cbn. assert (L : List.length (filter (fun p => negb (Nat.eqb (snd p) 0)) l) <= List.length l) by (apply sublist_length, sublist_filter). lia.
  - specialize (IH Hk). destruct (negb _); cbn; lia.
Qed.
Lemma sequence_ok : forall fuel order, counted order -> List.length order <= fuel -> exists ks, units_sequence fuel t order = Some ks /\ NoDup ks /\ (forall k, In k ks <-> In k (map fst order)).
Proof.
  induction fuel as [|n IH]; intros order C L.
  - destruct order; [|cbn in L; lia]. exists []. cbn. split; [reflexivity|]. split; [constructor|tauto].
  - destruct order as [|p l] eqn:E; [exists []; cbn; split; [reflexivity|]; split; [constructor|tauto]|]. rewrite <- E in *. assert (Ne : order <> []) by congruence.
    destruct (IH (units_round t order) (counted_round _ C)) as (ks & S & Nk & I); [pose proof (round_shrinks order C Ne); lia|].
    exists (ready order ++ ks). split; [rewrite E at 1; cbn [units_sequence]; rewrite <- E, S; reflexivity|].
    assert (R : forall k, In k (map fst order) <-> In k (ready order) \/ In k (map fst (units_round t order))).
    { intros k. rewrite round_keys. unfold ready. rewrite !in_map_iff. split.
      - intros (q & Eq & Hq). destruct (Nat.eqb (snd q) 0) eqn:Z; [left|right]; exists q; rewrite filter_In, Z; auto.
      - intros [(q & Eq & Hq)|(q & Eq & Hq)]; apply filter_In in Hq; exists q; tauto. }
    split.
    + apply NoDup_app_intro; [|exact Nk|].
      * apply (sublist_NoDup _ (map fst order)); [|apply C]. apply sublist_map, sublist_filter.
      * intros k H1 H2. apply I in H2. rewrite round_keys in H2. unfold ready in H1. apply in_map_iff in H1, H2. destruct H1 as (q1 & E1 & H1), H2 as (q2 & E2 & H2). apply filter_In in H1, H2. destruct H1 as [H1 Z1], H2 as [H2 Z2].
        assert (q1 = q2). { destruct C as (_ & N & _). clear -N H1 H2 E1 E2. induction order as [|q l IH]; [contradiction|]. cbn in N. inversion N as [|? ? N1 N2]; subst. destruct H1 as [->|H1], H2 as [->|H2]; auto; exfalso; apply N1; [rewrite <- E2|rewrite E2]; now apply in_map. }
        subst q2. rewrite Z1 in Z2. discriminate.
    + intros k. rewrite R, in_app_iff, I. tauto.
Qed.
End order.
Section order2.
Variables (rank : nat -> nat) (t : tree).
Hypothesis B : base rank t.
Notation ordered_nodes := (ordered_nodes t).
Notation ordered_in := (ordered_in t).
Lemma base_links : plain_links t.
Proof.
  intros d x k y Hd G Hx L Hy Ky Gy. pose proof (b_links _ _ B d x k y Hd G Hx L Hy Ky Gy) as N. split; [exact N|]. pose proof (proj1 (Forall_forall _ _) (b_wfa _ _ B) d Hd) as Nd.
  assert (E : d_get d AXlinkHref = Some (a_val x)) by (unfold d_get, get_value; now rewrite (get_attr_in (attrs d) x AXlinkHref Nd Hx N)).
  destruct (b_hrefs _ _ B d _ Hd G E) as (j & _ & Q & _). rewrite Q in L. cbn in L. congruence.
Qed.
Lemma rm_equal_ok : units_carried t -> exists ks, rm_equal t = Some (Ok (visited (eq_change t) ks t)) /\ forall k, In k ks <-> exists d, In d ordered_nodes /\ key d = k.
Proof.
  intros UC. destruct (sequence_ok rank t (b_keys _ _ B) (b_rank _ _ B) _ (units_order t) (counted_start t (b_keys _ _ B) (b_wfa _ _ B) base_links) (le_n _)) as (ks & S & Nk & I). exists ks.
  assert (I2 : forall k, In k ks <-> exists d, In d ordered_nodes /\ key d = k).
  { intros k. rewrite I. unfold units_order. rewrite map_map, in_map_iff. fold ordered_nodes. cbn [fst]. split; intros (d & X & Y); exists d; auto. }
  split; [|exact I2]. unfold rm_equal. rewrite S. cbn [option_map]. f_equal.
  apply vloop_closed; [apply B|intros d; apply eq_change_sb|exact Nk| |].
  - intros k Hk. apply I2 in Hk. destruct Hk as (d & Hd & <-). apply ordered_in in Hd. apply in_map. tauto.
  - intros done k rest d E Hd Ek. apply units_visit_visited; [apply B|]. assert (Hk : In k ks) by (rewrite E; apply in_elt). apply I2 in Hk. destruct Hk as (d' & Hd' & Ek'). assert (d' = d) by (apply ordered_in in Hd'; apply (data_unique t); [apply B|tauto|exact Hd|congruence]). subst d'.
    apply ordered_in in Hd'. destruct Hd' as (_ & G & Hh). destruct (UC d Hd G) as [C1 _]. specialize (C1 Hh). unfold d_has, has_attr. unfold d_get, get_value in C1. destruct (get_attr (attrs d) AGU); [reflexivity|]. cbn in C1. intuition discriminate.
Qed.
End order2.

(** ** The second step *)
Definition carried (T : tree) : Prop := forall d, In d (flat T) -> gradient_node d -> d_get d AXlinkHref <> None ->
  exists u, (u = o_bb \/ u = u_sou) /\ d_get d AGU = Some u /\ U T d u.
(** A gradient without xlink:href that is used by gradients only. *)
Definition is_parent (T : tree) (p : ndata) : Prop :=
  In p (flat T) /\ gradient_node p /\ d_get p AXlinkHref = None /\ forall x, In x (flat T) -> existsb (refers (key p)) (attrs x) = true -> gradient_node x.
Definition user_change (c : value) (d : ndata) : ndata :=
  match d_get d AGU with Some u => if value_eqb u c then hide1 d else d_set d AGU u | None => d end.
Lemma two_link u : u = o_bb \/ u = u_sou -> link_of u = None. Proof. intros [-> | ->]; reflexivity. Qed.
Lemma user_change_key c d : key (user_change c d) = key d.
Proof. unfold user_change. destruct (d_get d AGU); [|reflexivity]. destruct (value_eqb _ _); reflexivity. Qed.
Lemma user_change_sb c d u : d_get d AGU = Some u -> u = o_bb \/ u = u_sou -> same_but d (user_change c d).
Proof. intros E D. unfold user_change. rewrite E. destruct (value_eqb _ _); [apply hide1_sb|apply set_sb; now apply two_link]. Qed.
Lemma d_get_set_same d a v : d_get (d_set d a v) a = Some v.
Proof. unfold d_get, d_set, get_value. cbn. now rewrite get_set_same. Qed.
Lemma user_change_get c d b : d_get (user_change c d) b = d_get d b.
Proof.
  unfold user_change. destruct (d_get d AGU) as [u|] eqn:E; [|reflexivity]. destruct (value_eqb _ _); [apply hide1_get|]. destruct (aid_eqb_spec b AGU) as [->|N]; [now rewrite d_get_set_same|].
  unfold d_get, d_set, get_value. cbn. rewrite get_set_other by congruence. reflexivity.
Qed.
Lemma vis_set_same d v : attrs_nodup d -> d_get (vis (d_set d AGU v)) AGU = Some v.
Proof. intros N. rewrite vis_dget by now apply nodup_set. unfold d_set. cbn. rewrite get_set_same. reflexivity. Qed.
Section group.
Variables (rank : nat -> nat) (T : tree) (p : ndata).
Hypothesis B : base rank T.
Hypothesis Ca : carried T.
Hypothesis P : is_parent T p.
Let k := key p.
Definition user (d : ndata) : bool := is_gradient d && match link_key d with Some j => Nat.eqb j k | None => false end.
Lemma users_closed : linked_keys k T = map key (filter user (flat T)).
Proof.
  unfold linked_keys, linked_nodes. assert (Z : forall l, (forall d, In d l -> In d (flat T)) ->
    map fst (flat_map (fun d => map (fun a => (key d, a_name a)) (filter (refers k) (attrs d))) l) = map key (filter user l)); [|apply Z; auto].
  destruct P as (Hp & Gp & _ & Up). induction l as [|d l IH]; intros Hl; [reflexivity|]. cbn [flat_map filter]. rewrite map_app, IH by (intros x Hx; apply Hl; now right). rewrite map_map. cbn [fst].
  assert (Hd : In d (flat T)) by (apply Hl; now left). unfold user at 2. destruct (is_gradient d) eqn:G; cbn [andb].
  - pose proof (count_href T (b_wfa _ _ B) (base_links rank T B) k p Hp eq_refl Gp d Hd (proj1 (gradient_iff d) G)) as C. destruct (match link_key d with Some j => Nat.eqb j k | None => false end).
    + destruct (filter (refers k) (attrs d)) as [|x [|y m]]; try discriminate. reflexivity.
    + destruct (filter (refers k) (attrs d)) as [|x m]; try discriminate. reflexivity.
  - destruct (filter (refers k) (attrs d)) as [|x m] eqn:F; [reflexivity|]. exfalso. assert (Hx : In x (filter (refers k) (attrs d))) by (rewrite F; now left). apply filter_In in Hx.
    assert (E : existsb (refers k) (attrs d) = true) by (apply existsb_exists; eauto). apply (Up d Hd), gradient_iff in E. congruence.
Qed.
Lemma user_iff d : In d (flat T) -> (user d = true <-> gradient_node d /\ d_get d AXlinkHref = Some (VLink k)).
Proof.
  intros Hd. unfold user. rewrite andb_true_iff, gradient_iff. unfold link_key. split.
  - intros [G H]. split; [exact G|]. destruct (d_get d AXlinkHref) as [w|]; [|discriminate]. destruct w; try discriminate. apply Nat.eqb_eq in H. now subst.
  - intros [G ->]. split; [exact G|]. apply Nat.eqb_refl.
Qed.
Lemma user_in d : In d (flat T) -> (In (key d) (linked_keys k T) <-> user d = true).
Proof.
  intros Hd. rewrite users_closed, in_map_iff. split.
  - intros (x & E & Hx). apply filter_In in Hx. destruct Hx as [Hx Ux]. assert (x = d) by (apply (data_unique T); [apply B|auto|auto|auto]). now subst.
  - intros Ud. exists d. rewrite filter_In. auto.
Qed.
Lemma user_mem d : In d (flat T) -> mem (key d) (linked_keys k T) = user d.
Proof. intros Hd. pose proof (user_in d Hd) as I. destruct (user d). - apply mem_in. tauto. - apply mem_false. intros X. apply I in X. discriminate. Qed.
Lemma users_nodup : NoDup (linked_keys k T).
Proof. rewrite users_closed. apply (sublist_NoDup _ (keys T)); [|apply B]. apply sublist_map, sublist_filter. Qed.
Lemma user_not_parent d : In d (flat T) -> user d = true -> key d <> k.
Proof. intros Hd Ud E. apply user_iff in Ud; [|exact Hd]. destruct Ud as [_ H]. destruct P as (Hp & _ & Np & _). assert (d = p) by (apply (data_unique T); [apply B|auto|auto|exact E]). subst. congruence. Qed.
Lemma user_units d : In d (flat T) -> user d = true -> exists u, (u = o_bb \/ u = u_sou) /\ d_get d AGU = Some u /\ U T d u.
Proof. intros Hd Ud. apply user_iff in Ud; [|exact Hd]. destruct Ud as [G E]. apply Ca; auto. rewrite E. discriminate. Qed.
Definition group_change (c : value) (d : ndata) : ndata :=
  if Nat.eqb (key d) k then hide_default_units (d_set d AGU c) else if user d then user_change c d else d.
Lemma count_all v : List.length (filter (has_units v T) (linked_keys k T)) = List.length (filter (fun d => user d && opt_value_eqb (d_get d AGU) (Some v)) (flat T)).
Proof.
  rewrite users_closed. assert (Z : forall l, (forall d, In d l -> In d (flat T)) -> List.length (filter (has_units v T) (map key (filter user l))) = List.length (filter (fun d => user d && opt_value_eqb (d_get d AGU) (Some v)) l)); [|apply Z; auto].
  induction l as [|d l IH]; intros Hl; [reflexivity|]. cbn [filter]. destruct (user d); cbn [map filter andb]; [|apply IH; intros; apply Hl; now right].
  unfold has_units at 1. rewrite (find_data_in T d (b_keys _ _ B)) by (apply Hl; now left). destruct (opt_value_eqb _ _); cbn [List.length]; rewrite IH by (intros; apply Hl; now right); reflexivity.
Qed.
Lemma total_all : uses_count k T = List.length (filter user (flat T)).
Proof. unfold uses_count. rewrite <- (map_length fst). fold (linked_keys k T). rewrite users_closed. apply map_length. Qed.
Lemma filter_all {A} (f g : A -> bool) l : List.length (filter (fun x => f x && g x) l) = List.length (filter f l) -> forall x, In x l -> f x = true -> g x = true.
Proof.
  induction l as [|y l IH]; intros E x Hx Fx; [contradiction|]. cbn in E.
  assert (L : List.length (filter (fun x => f x && g x) l) <= List.length (filter f l)) by (clear; induction l as [|z l IH]; cbn; [lia|]; destruct (f z), (g z); cbn; lia).
  destruct (f y) eqn:Fy, (g y) eqn:Gy; cbn in E; try lia; destruct Hx as [->|Hx]; try congruence; apply IH; auto; lia.
Qed.
Lemma filter_none {A} (f g : A -> bool) l : List.length (filter (fun x => f x && g x) l) = 0 -> forall x, In x l -> f x = true -> g x = false.
Proof.
  induction l as [|y l IH]; intros E x Hx Fx; [contradiction|]. cbn in E. destruct (f y) eqn:Fy, (g y) eqn:Gy; cbn in E; try lia; destruct Hx as [->|Hx]; try congruence; apply IH; auto.
Qed.
Lemma loop_closed c f : link_of c = None -> (forall d u, In d (flat T) -> user d = true -> d_get d AGU = Some u -> u = o_bb \/ u = u_sou -> f d = Ok (user_change c d)) ->
  bind (vloop (fun _ => f) (linked_keys k T) (upd k (fun d => d_set d AGU c) T)) (fun t => Ok (upd k hide_default_units t)) = Ok (tmap (group_change c) T).
Proof.
  intros Lc Hf. set (T1 := upd k (fun d => d_set d AGU c) T).
  assert (Kf : forall d, key ((fun d => if Nat.eqb (key d) k then d_set d AGU c else d) d) = key d) by (intros d; cbn; destruct (Nat.eqb _ _); reflexivity).
  assert (K1 : keys T1 = keys T) by (unfold T1, upd; apply keys_tmap; exact Kf).
  rewrite (vloop_closed (fun _ => f) (user_change c) T1); [|rewrite K1; apply B|apply user_change_key|apply users_nodup| |].
  - cbn [bind]. f_equal. unfold visited, T1, upd. rewrite !tmap_tmap. apply tmap_ext. intros d Hd. unfold group_change. rewrite Kf. rewrite user_mem by exact Hd.
    destruct (Nat.eqb_spec (key d) k) as [E|E].
    + destruct (user d) eqn:Ud; [destruct (user_not_parent d Hd Ud E)|]. change (key (d_set d AGU c)) with (key d). rewrite E, Nat.eqb_refl. reflexivity.
    + destruct (user d) eqn:Ud; [rewrite user_change_key|]; destruct (Nat.eqb_spec (key d) k); congruence.
  - intros j Hj. rewrite K1. rewrite users_closed in Hj. apply in_map_iff in Hj. destruct Hj as (d & <- & Hd). apply filter_In in Hd. apply in_map. tauto.
  - intros done j rest d E Hd Ek. unfold T1, upd in Hd. rewrite flat_tmap in Hd. apply in_map_iff in Hd. destruct Hd as (d0 & <- & Hd). rewrite Kf in Ek.
    assert (Hj : In j (linked_keys k T)) by (rewrite E; apply in_elt). subst j. apply (user_in d0 Hd) in Hj. pose proof (user_not_parent d0 Hd Hj) as Nk. destruct (Nat.eqb_spec (key d0) k); [contradiction|].
    destruct (user_units d0 Hd Hj) as (u & D & Eu & _). exact (Hf d0 u Hd Hj Eu D).
Qed.
Lemma make_inv c d : d_get d AGU = Some c -> make_invisible AGU d = Ok (hide1 d).
Proof. intros E. unfold make_invisible, d_has, has_attr. unfold d_get, get_value in E. destruct (get_attr (attrs d) AGU); [reflexivity|discriminate]. Qed.
Lemma user_change_same c d : d_get d AGU = Some c -> c = o_bb \/ c = u_sou -> user_change c d = hide1 d.
Proof. intros E [-> | ->]; unfold user_change; rewrite E; reflexivity. Qed.
Lemma group_closed : exists c, (c = o_bb \/ c = u_sou) /\ group_visit T k = Ok (tmap (group_change c) T).
Proof.
  unfold group_visit. destruct (Nat.eqb_spec (List.length (filter (has_units o_bb T) (linked_keys k T))) (uses_count k T)) as [E|E].
  - rewrite count_all, total_all in E. exists o_bb. split; [auto|]. apply loop_closed; [reflexivity|]. intros d u Hd Ud Eu D. pose proof (filter_all _ _ _ E d Hd Ud) as X. apply opt_value_eqb_true in X.
    rewrite (make_inv _ _ X), user_change_same by auto. reflexivity.
  - clear E. destruct (Nat.eqb_spec (List.length (filter (has_units o_bb T) (linked_keys k T))) 0) as [E|E].
    + rewrite count_all in E. exists u_sou. split; [auto|]. apply loop_closed; [reflexivity|]. intros d u Hd Ud Eu D. pose proof (filter_none _ _ _ E d Hd Ud) as X. cbn beta in X. rewrite Eu in X. destruct D as [-> | ->]; [discriminate X|].
      rewrite (make_inv _ _ Eu), user_change_same by auto. reflexivity.
    + destruct (Nat.leb _ _).
      * exists o_bb. split; [auto|]. apply loop_closed; [reflexivity|]. intros d u Hd Ud Eu D. unfold move_units, user_change. rewrite Eu. destruct D as [-> | ->]; [exact (make_inv _ _ Eu)|reflexivity].
      * exists u_sou. split; [auto|]. apply loop_closed; [reflexivity|]. intros d u Hd Ud Eu D. unfold move_units, user_change. rewrite Eu. destruct D as [-> | ->]; [reflexivity|exact (make_inv _ _ Eu)].
Qed.
Lemma hide_default_sb d : same_but d (hide_default_units d).
Proof. unfold hide_default_units. destruct (opt_value_eqb _ _); [apply hide1_sb|apply sb_refl]. Qed.
Lemma group_sb c d : c = o_bb \/ c = u_sou -> In d (flat T) -> same_but d (group_change c d).
Proof.
  intros Dc Hd. unfold group_change. destruct (Nat.eqb _ _).
  - apply (sb_trans _ (d_set d AGU c)); [apply set_sb; now apply two_link|apply hide_default_sb].
  - destruct (user d) eqn:Ud; [|apply sb_refl]. destruct (user_units d Hd Ud) as (u & D & Eu & _). exact (user_change_sb c d u Eu D).
Qed.
Lemma group_other c d : key d <> k -> ~ gradient_node d -> group_change c d = d.
Proof. intros N G. unfold group_change. destruct (Nat.eqb_spec (key d) k); [contradiction|]. destruct (user d) eqn:Ud; [|reflexivity]. unfold user in Ud. apply andb_true_iff in Ud. destruct Ud as [Ud _]. apply gradient_iff in Ud. contradiction. Qed.
Lemma group_get c d : key d <> k -> d_get (group_change c d) AGU = d_get d AGU.
Proof. intros N. unfold group_change. destruct (Nat.eqb_spec (key d) k); [contradiction|]. destruct (user d); [apply user_change_get|reflexivity]. Qed.
Lemma group_parent_U c : c = o_bb \/ c = u_sou -> U (tmap (group_change c) T) (group_change c p) c.
Proof.
  intros Dc. destruct P as (Hp & Gp & Np & _). pose proof (s_nodup rank T B p Hp) as Nd.
  pose proof (sb_vis p _ AXlinkHref Nd (group_sb c p Dc Hp) ltac:(discriminate)) as Hh. rewrite (s_href rank T B p Hp Gp), Np in Hh.
  assert (E : group_change c p = hide_default_units (d_set p AGU c)) by (unfold group_change, k; now rewrite Nat.eqb_refl).
  destruct Dc as [-> | ->].
  - apply u_root; [|exact Hh]. rewrite E. unfold hide_default_units. rewrite d_get_set_same. apply (hide1_vis (d_set p AGU o_bb)). now apply nodup_set.
  - apply u_own. rewrite E. unfold hide_default_units. rewrite d_get_set_same. change (opt_value_eqb (Some u_sou) (Some o_bb)) with false. cbn beta iota. now apply vis_set_same.
Qed.
Lemma group_U c : c = o_bb \/ c = u_sou -> forall d v, In d (flat T) -> gradient_node d -> key d <> k -> U T d v -> U (tmap (group_change c) T) (group_change c d) v.
Proof.
  intros Dc. apply (step_rule rank T B (fun d => key d <> k) (group_change c)); [intros d Hd; now apply group_sb|].
  intros d v Hd G K Hv. destruct (user d) eqn:Ud.
  - destruct (user_units d Hd Ud) as (u & D & Eu & Uu). assert (v = u) by (apply (u_fun T d); [apply B|auto|auto]). subst v.
    assert (E : group_change c d = user_change c d) by (unfold group_change; destruct (Nat.eqb_spec (key d) k); [contradiction|now rewrite Ud]). rewrite E. unfold user_change. rewrite Eu.
    pose proof (s_nodup rank T B d Hd) as Nd. destruct (value_eqb u c) eqn:V.
    + right. split; [now apply hide1_vis|]. right. exists p. split; [apply (user_iff d Hd); exact Ud|]. split; [apply P|]. right. assert (u = c) by (destruct D as [-> | ->], Dc as [-> | ->]; try discriminate V; reflexivity). subst u. now apply group_parent_U.
    + left. now apply vis_set_same.
  - apply (same_rule rank T B); auto.
    + unfold group_change. destruct (Nat.eqb_spec (key d) k); [contradiction|]. now rewrite Ud.
    + intros x Hx Eh E. assert (X : user d = true) by (apply (user_iff d Hd); split; [exact G|congruence]). congruence.
Qed.
End group.

(** ** All steps *)
Definition reached (rank : nat -> nat) (keep : ndata -> Prop) (t : tree) (g : ndata -> ndata) : Prop :=
  (forall d, In d (flat t) -> same_but d (g d) /\ (~ gradient_node d -> g d = d)) /\ base rank (tmap g t) /\ carried (tmap g t) /\
  (forall d v, In d (flat t) -> gradient_node d -> keep d -> U t d v -> U (tmap g t) (g d) v).
Lemma sb_refers k d d' : same_but d d' -> existsb (refers k) (attrs d') = true -> existsb (refers k) (attrs d) = true.
Proof.
  intros (_ & _ & _ & _ & H5 & _ & H7) E. apply existsb_exists in E. destruct E as (x & Hx & Rx). destruct (aname_eqb_spec (a_name x) (AN AGU)) as [Ex|Ex].
  - destruct (H7 x Ex Hx) as (y & Hy & Ey & _); [apply refers_iff in Rx; congruence|]. apply existsb_exists. exists y. split; [exact Hy|]. unfold refers in *. now rewrite Ey.
  - apply existsb_exists. exists x. split; [now apply H5|exact Rx].
Qed.
Lemma parent_tmap t g p : (forall d, In d (flat t) -> same_but d (g d)) -> is_parent t p -> is_parent (tmap g t) (g p).
Proof.
  intros S (Hp & Gp & Np & Up). pose proof (S p Hp) as Sp. split; [rewrite flat_tmap; now apply in_map|]. split; [destruct Sp as (_ & E & _); unfold gradient_node; now rewrite E|]. split; [rewrite (sb_get p) by (auto; discriminate); exact Np|].
  intros x Hx E. rewrite flat_tmap in Hx. apply in_map_iff in Hx. destruct Hx as (d & <- & Hd). pose proof (S d Hd) as Sd. assert (Ek : key (g p) = key p) by apply Sp. rewrite Ek in E. pose proof (Up d Hd (sb_refers _ _ _ Sd E)) as G.
  destruct Sd as (_ & Et & _). unfold gradient_node. now rewrite Et.
Qed.
Lemma unit_parents_in t k : In k (unit_parents t) -> exists p, key p = k /\ is_parent t p.
Proof.
  unfold unit_parents. rewrite in_map_iff. intros (p & <- & Hp). exists p. split; [reflexivity|]. apply filter_In in Hp. destruct Hp as [Hp E]. rewrite !andb_true_iff in E. destruct E as [[G N] F]. rewrite forallb_forall in F.
  split; [exact Hp|]. split; [now apply gradient_iff|]. split; [unfold d_has, has_attr in N; unfold d_get, get_value; destruct (get_attr (attrs p) AXlinkHref); [discriminate|reflexivity]|].
  intros x Hx R. specialize (F x Hx). rewrite R in F. cbn in F. now apply gradient_iff.
Qed.
Lemma group_reached rank t g k p : (forall d, In d (flat t) -> key d = k -> ~ gradient_node d -> False) -> reached rank (fun d => ~ In (key d) (unit_parents t)) t g -> In k (unit_parents t) -> key p = k -> is_parent t p ->
  exists c, group_visit (tmap g t) k = Ok (tmap (fun d => group_change (g p) c (g d)) t) /\ reached rank (fun d => ~ In (key d) (unit_parents t)) t (fun d => group_change (g p) c (g d)).
Proof.
  intros NG (S & B & Ca & UU) Hk Kp P. assert (S1 : forall d, In d (flat t) -> same_but d (g d)) by (intros d Hd; apply (S d Hd)).
  pose proof (parent_tmap t g p S1 P) as P'. destruct P as (Hp & Gp & _). assert (Kg : key (g p) = k) by (destruct (S1 p Hp) as (E & _); congruence).
  destruct (group_closed rank (tmap g t) (g p) B Ca P') as (c & Dc & E). rewrite Kg in E. exists c. split; [rewrite E; f_equal; apply tmap_tmap|].
  assert (T2 : tmap (fun d => group_change (g p) c (g d)) t = tmap (group_change (g p) c) (tmap g t)) by (symmetry; apply tmap_tmap).
  assert (SG : forall x, In x (flat (tmap g t)) -> same_but x (group_change (g p) c x)) by (intros x Hx; eapply group_sb; eassumption).
  assert (In' : forall d, In d (flat t) -> In (g d) (flat (tmap g t))) by (intros d Hd; rewrite flat_tmap; now apply in_map).
  split; [|split; [|split]].
  - intros d Hd. split; [apply (sb_trans _ (g d)); [apply (S d Hd)|apply SG; auto]|]. intros N. destruct (S d Hd) as [_ X]. rewrite X by exact N. apply group_other; [|exact N]. rewrite Kg. intros E2. exact (NG d Hd E2 N).
  - rewrite T2. apply base_tmap; auto.
  - rewrite T2. intros x Hx Gx Hh. rewrite flat_tmap in Hx. apply in_map_iff in Hx. destruct Hx as (y & <- & Hy). pose proof (SG y Hy) as Sy. rewrite (sb_get y) in Hh by (auto; discriminate). pose proof (gradient_sb _ _ Sy Gx) as Gy.
    destruct (Ca y Hy Gy Hh) as (u & Du & Eu & Uu). assert (Ny : key y <> key (g p)) by (intros E2; assert (y = g p) by (apply (data_unique (tmap g t)); [apply B|auto|apply P'|exact E2]); subst y; destruct P' as (_ & _ & X & _); congruence).
    exists u. split; [exact Du|]. split; [rewrite (group_get _ _ _ Ny); exact Eu|]. exact (group_U rank (tmap g t) (g p) B Ca P' c Dc y u Hy Gy Ny Uu).
  - intros d v Hd G Kd Uv. rewrite T2. apply (group_U rank (tmap g t) (g p) B Ca P' c Dc); auto.
    + destruct (S1 d Hd) as (_ & Et & _). unfold gradient_node. now rewrite Et.
    + rewrite Kg. destruct (S1 d Hd) as (-> & _). intros X. apply Kd. now rewrite X.
Qed.
Lemma group_all rank t : base rank t -> carried t -> exists g, group_to_parent t = Ok (tmap g t) /\ reached rank (fun d => ~ In (key d) (unit_parents t)) t g.
Proof.
  intros B Ca. unfold group_to_parent.
  assert (Z : forall ks g, incl ks (unit_parents t) -> reached rank (fun d => ~ In (key d) (unit_parents t)) t g ->
    exists g', fold_left (fun r k => bind r (fun t => group_visit t k)) ks (Ok (tmap g t)) = Ok (tmap g' t) /\ reached rank (fun d => ~ In (key d) (unit_parents t)) t g').
  { induction ks as [|k ks IH]; intros g Hi Rg; [exists g; auto|]. cbn [fold_left bind]. destruct (unit_parents_in t k (Hi k (or_introl eq_refl))) as (p & Kp & P).
    destruct (group_reached rank t g k p) as (c & E & R); auto.
    - intros d Hd E N. destruct P as (Hp & Gp & _). assert (d = p) by (apply (data_unique t); [apply B|auto|auto|congruence]). subst. contradiction.
    - apply Hi. now left.
    - rewrite E. apply IH; [intros x Hx; apply Hi; now right|exact R]. }
  assert (E0 : t = tmap (fun d => d) t) by (symmetry; apply tmap_id; reflexivity). specialize (Z (unit_parents t) (fun d => d) (incl_refl _)). rewrite <- E0 in Z. apply Z.
  split; [|split; [|split]]; rewrite <- ?E0; auto. intros d Hd. split; [apply sb_refl|reflexivity].
Qed.
Lemma carried_of t : units_carried t -> carried t.
Proof.
  intros C d Hd G Hh. destruct (C d Hd G) as [C1 C2]. destruct (C1 Hh) as [E|[E|[]]]; symmetry in E; [exists o_bb|exists u_sou]; (split; [auto|]; split; [exact E|]; apply U_effective, C2; exact E).
Qed.
Definition visit_eq (t : tree) (ks : list nat) (d : ndata) : ndata := if mem (key d) ks then eq_change t d else d.
Lemma pass_all rank t : base rank t -> units_carried t -> exists g, remove_gradient_attributes t = Some (Ok (tmap g t)) /\
  (forall d, In d (flat t) -> same_but d (g d) /\ (~ gradient_node d -> g d = d)) /\
  (forall d v, In d (flat t) -> gradient_node d -> matters t d -> U t d v -> U (tmap g t) (g d) v).
Proof.
  intros B C. destruct (rm_equal_ok rank t B C) as (ks & E & I). set (h := visit_eq t ks).
  assert (S : forall d, In d (flat t) -> same_but d (h d)) by (intros d _; unfold h, visit_eq; destruct (mem _ _); [apply eq_change_sb|apply sb_refl]).
  change (visited (eq_change t) ks t) with (tmap h t) in E. pose proof (base_tmap rank t h B S) as B1.
  assert (U1 : forall d v, In d (flat t) -> gradient_node d -> U t d v -> U (tmap h t) (h d) v) by (intros d v; apply (eq_change_U rank t B C ks)).
  assert (C1 : carried (tmap h t)).
  { intros x Hx Gx Hh. rewrite flat_tmap in Hx. apply in_map_iff in Hx. destruct Hx as (d & <- & Hd). pose proof (S d Hd) as Sd. rewrite (sb_get d) in Hh by (auto; discriminate). pose proof (gradient_sb _ _ Sd Gx) as G.
    destruct (carried_of t C d Hd G Hh) as (u & Du & Eu & Uu). exists u. split; [exact Du|]. split; [|auto]. unfold h, visit_eq. destruct (mem _ _); [rewrite eq_change_get|]; exact Eu. }
  destruct (group_all rank (tmap h t) B1 C1) as (g & E2 & (S2 & _ & _ & U2)). exists (fun d => g (h d)).
  assert (In' : forall d, In d (flat t) -> In (h d) (flat (tmap h t))) by (intros d Hd; rewrite flat_tmap; now apply in_map).
  assert (T2 : tmap (fun d => g (h d)) t = tmap g (tmap h t)) by (symmetry; apply tmap_tmap).
  split; [|split].
  - unfold remove_gradient_attributes. rewrite E. cbn [option_map bind]. rewrite E2, T2. reflexivity.
  - intros d Hd. destruct (S2 (h d) (In' d Hd)) as [Sg Ng]. split; [apply (sb_trans _ (h d)); auto|]. intros N.
    assert (Eh : h d = d). { unfold h, visit_eq. destruct (mem (key d) ks) eqn:M; [|reflexivity]. apply mem_in, I in M. destruct M as (x & Hx & Ex). apply ordered_in in Hx. assert (x = d) by (apply (data_unique t); [apply B|tauto|auto|auto]). subst. tauto. }
    rewrite Eh in *. auto.
  - intros d v Hd G M Uv. rewrite T2. apply U2; auto.
    + destruct (S d Hd) as (_ & Et & _). unfold gradient_node. now rewrite Et.
    + intros X. apply unit_parents_in in X. destruct X as (p & Kp & (Hp & Gp & Np & Up)). assert (p = h d) by (apply (data_unique (tmap h t)); [apply B1|auto|auto|exact Kp]). subst p.
      destruct M as [M|(x & Hx & Nx & Rx)].
      * apply M. rewrite <- (sb_get d (h d)); [exact Np|auto|discriminate].
      * assert (Eh : h x = x). { unfold h, visit_eq. destruct (mem (key x) ks) eqn:M; [|reflexivity]. apply mem_in, I in M. destruct M as (z & Hz & Ez). apply ordered_in in Hz. assert (z = x) by (apply (data_unique t); [apply B|tauto|auto|auto]). subst. tauto. }
        apply Nx. apply Up; [rewrite <- Eh; auto|]. destruct (S d Hd) as (-> & _). destruct Rx as (b & Hb & Lb). apply existsb_exists. exists b. split; [exact Hb|]. now apply refers_iff.
Qed.
(** The other attributes. *)
Lemma along_sb t g a : WFA t -> (forall d, In d (flat t) -> same_but d (g d)) -> a <> AGU ->
  forall y r, along_href (written t) a y r -> forall d, y = vis d -> In d (flat t) -> along_href (written (tmap g t)) a (vis (g d)) r.
Proof.
  intros A S Na y r H. assert (V : forall d b, In d (flat t) -> b <> AGU -> d_get (vis (g d)) b = d_get (vis d) b) by (intros d b Hd Nb; apply sb_vis; auto; exact (proj1 (Forall_forall _ _) A d Hd)).
  induction H as [y v E|y E Eh|y k x r E Eh Hx Kx Hr IH]; intros d -> Hd.
  - apply ah_own. now rewrite V.
  - apply ah_end; rewrite V by (auto; discriminate); assumption.
  - unfold written in Hx. rewrite flat_tmap in Hx. apply in_map_iff in Hx. destruct Hx as (x0 & <- & Hx0). apply (ah_next _ _ _ k (vis (g x0))).
    + now rewrite V.
    + rewrite V by (auto; discriminate). exact Eh.
    + apply vis_node_in. rewrite flat_tmap. now apply in_map.
    + destruct (S x0 Hx0) as (E0 & _). cbn. cbn in Kx. congruence.
    + apply IH; auto.
Qed.
Lemma effective_sb t g a : WFA t -> (forall d, In d (flat t) -> same_but d (g d)) -> a <> AGU ->
  forall d v, In d (flat t) -> effective (written t) (vis d) a v -> effective (written (tmap g t)) (vis (g d)) a v.
Proof.
  intros A S Na d v Hd H. assert (L : forall b r, b <> AGU -> along_href (written t) b (vis d) r -> along_href (written (tmap g t)) b (vis (g d)) r) by (intros b r Nb X; exact (along_sb t g b A S Nb _ _ X d eq_refl Hd)).
  induction H as [a v H|a H N|a v -> H X IH|a v -> H X IH].
  - apply eff_found. auto.
  - apply eff_default; auto.
  - apply eff_fx; auto. apply IH. discriminate.
  - apply eff_fy; auto. apply IH. discriminate.
Qed.

