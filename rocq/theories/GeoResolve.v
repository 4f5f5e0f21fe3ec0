(** Lemmas: what gradients carry after their attributes have been resolved. *)
From Coq Require Import List Bool NArith Arith ZArith String QArith Qcanon Lia.
From Verif Require Import Names Num Value Dom DomFacts DomOps Outcome SpecStops AttrFacts SpecDom SpecGradients GradProofs SpecWritten SpecPrepared SpecGeometry SpecPicture Gradients WfAll Props_wf GradTransProofs Props_gradients Props_gradtrans Geometry GeoPasses GeoRun.
From Verif Require PicturePrep PictureShades Props_transforms.
Import ListNotations.
Local Open Scope nat_scope.

(** [d'] is [d] with its values in effect in [t]. *)
Definition carries (t : tree) (d d' : ndata) : Prop :=
  key d' = key d /\ tag d' = tag d /\
  (forall a x, get_attr (attrs d) a = Some x -> get_attr (attrs d') a = Some x) /\
  (forall a, In a geo_attrs -> ~ In a (gradient_attrs d) -> get_attr (attrs d') a = get_attr (attrs d) a) /\
  (forall a, In a (gradient_attrs d) -> get_attr (attrs d) a = None -> exists v, effective t d a v /\ get_attr (attrs d') a = option_map (fun v => At (AN a) v false) v).
Lemma resolved_carries l t d d' : attrs_nodup d -> attrs_nodup d' -> gradient_attrs d = l -> resolved_as l t d d' -> carries t d d'.
Proof.
  intros N N' <- ((K & T & _) & S & H). split; [exact K|]. split; [exact T|]. split; [|split].
  - intros a x E. assert (Dec : In a (gradient_attrs d) \/ ~ In a (gradient_attrs d)) by (destruct (in_dec (fun a b => match aid_eqb_spec a b with ReflectT _ e => left e | ReflectF _ n => right n end) a (gradient_attrs d)); auto).
    destruct Dec as [I|I]; [specialize (H a I); rewrite E in H; exact H|]. rewrite (Props_transforms.same_except_get _ d d' a N N' S I). exact E.
  - intros a _ I. exact (Props_transforms.same_except_get _ d d' a N N' S I).
  - intros a I E. specialize (H a I). rewrite E in H. exact H.
Qed.
Lemma carries_get t d d' a v : carries t d d' -> d_get d a = Some v -> d_get d' a = Some v.
Proof. intros (_ & _ & H & _) E. unfold d_get, get_value in *. destruct (get_attr (attrs d) a) as [x|] eqn:Q; [|discriminate]. now rewrite (H a x Q). Qed.
Lemma carries_eff t d d' a : carries t d d' -> In a (gradient_attrs d) -> effective t d a (d_get d' a).
Proof.
  intros (_ & _ & H1 & _ & H2) Ha. destruct (get_attr (attrs d) a) as [x|] eqn:E.
  - unfold d_get at 1, get_value. rewrite (H1 a x E). apply eff_found, ah_own. unfold d_get, get_value. now rewrite E.
  - destruct (H2 a Ha E) as (v & Ev & Q). unfold d_get, get_value. rewrite Q. destruct v; exact Ev.
Qed.
Lemma carries_href t d d' : carries t d d' -> get_attr (attrs d') AXlinkHref = get_attr (attrs d) AXlinkHref.
Proof. intros (_ & _ & _ & H & _). apply H; [cbn; tauto|]. unfold gradient_attrs. destruct (tag d) as [|e| | | |]; try (intros []; fail). destruct e; cbn; intuition discriminate. Qed.
Lemma carries_refl_eff t d d' a : carries t d d' -> d_get d' a = None -> d_get d a = None.
Proof. intros C E. destruct (d_get d a) as [v|] eqn:Q; [|reflexivity]. rewrite (carries_get t d d' a v C Q) in E. discriminate. Qed.
Lemma get_href d d' : get_attr (attrs d') AXlinkHref = get_attr (attrs d) AXlinkHref -> d_get d' AXlinkHref = d_get d AXlinkHref.
Proof. unfold d_get, get_value. now intros ->. Qed.

Section Resolve.
  Variables t u1 u2 : tree.
  Hypothesis F0 : fine t.
  Hypothesis F1 : fine u1.
  Hypothesis F2 : fine u2.
  Hypothesis Sv : solvable t.
  Hypothesis Pg : plain_gradients t.
  Hypothesis P1 : resolve_linear_gradient_attributes t = Some (Ok u1).
  Hypothesis P2 : resolve_radial_gradient_attributes u1 = Some (Ok u2).
  Let N0 := wf_keys t (fine_wf t F0).
  Let N1 := wf_keys u1 (fine_wf u1 F1).
  Let nd0 d : In d (flat t) -> attrs_nodup d := proj1 (Forall_forall _ _) (fine_wfa t F0) d.
  Let nd1 d : In d (flat u1) -> attrs_nodup d := proj1 (Forall_forall _ _) (fine_wfa u1 F1) d.
  Let nd2 d : In d (flat u2) -> attrs_nodup d := proj1 (Forall_forall _ _) (fine_wfa u2 F2) d.

  (** After the linear gradients. *)
  Definition lin (d d1 : ndata) : Prop := (tag d = TEl ELinearGradient -> carries t d d1) /\ (tag d <> TEl ELinearGradient -> d1 = d).
  Lemma f2_in {A B} (P : A -> B -> Prop) l l' : Forall2 P l l' -> Forall2 (fun x y => In x l /\ In y l' /\ P x y) l l'.
  Proof.
    intros F. assert (G : forall m m', incl l m -> incl l' m' -> Forall2 (fun x y => In x m /\ In y m' /\ P x y) l l').
    { induction F as [|x y l l' H F IH]; intros m m' I I'; constructor; [split; [apply I; now left|split; [apply I'; now left|exact H]]|]. apply IH; [intros z Hz; apply I; now right|intros z Hz; apply I'; now right]. }
    apply G; apply incl_refl.
  Qed.
  Lemma lin_all : Forall2 lin (flat t) (flat u1).
  Proof.
    destruct (C16_linear t (fine_wf t F0) (sv_linear t Sv)) as (w & E & _ & F); [intros d Hd T; apply (sv_chains t Sv d Hd); now left|]. rewrite P1 in E. injection E as <-. apply f2_in in F.
    eapply Forall2_impl; [|exact F]. intros d d1 (Hd & Hd1 & A & B). split; [|exact B]. intros T. apply (resolved_carries linear_attrs); auto. unfold gradient_attrs. now rewrite T.
  Qed.
  Lemma lin_key d d1 : lin d d1 -> key d1 = key d /\ tag d1 = tag d /\ d_get d1 AXlinkHref = d_get d AXlinkHref.
  Proof.
    intros [A B]. assert (Dec : tag d = TEl ELinearGradient \/ tag d <> TEl ELinearGradient) by (destruct (tag d) as [|e| | | |]; try (right; discriminate); destruct e; try (right; discriminate); now left).
    destruct Dec as [T|T]; [|rewrite (B T); auto]. specialize (A T). split; [apply A|]. split; [apply A|]. apply get_href, (carries_href t _ _ A).
  Qed.
  Lemma lin_fwd d : In d (flat t) -> exists d1, In d1 (flat u1) /\ lin d d1. Proof. exact (f2_both_l _ _ _ d lin_all). Qed.
  Lemma lin_bwd d1 : In d1 (flat u1) -> exists d, In d (flat t) /\ lin d d1. Proof. exact (PicturePrep.f2_back _ _ _ _ lin_all). Qed.
  Lemma radial_same d d1 : lin d d1 -> tag d1 = TEl ERadialGradient -> d1 = d.
  Proof. intros L T. apply L. rewrite <- (proj1 (proj2 (lin_key _ _ L))), T. discriminate. Qed.
  Lemma chain_u1 d : chain_ends t d -> forall d1, lin d d1 -> chain_ends u1 d1.
  Proof.
    intros C. induction C as [d E|d k x E Hx Kx C IH]; intros d1 L; destruct (lin_key _ _ L) as (_ & _ & H).
    - apply ce_end. now rewrite H.
    - destruct (lin_fwd x Hx) as (x1 & Hx1 & L1). apply (ce_next u1 d1 k x1); [now rewrite H|exact Hx1|rewrite (proj1 (lin_key _ _ L1)); exact Kx|exact (IH x1 L1)].
  Qed.
  Lemma rad_all : Forall2 (fun d d' => (tag d = TEl ERadialGradient -> carries u1 d d') /\ (tag d <> TEl ERadialGradient -> d' = d)) (flat u1) (flat u2).
  Proof.
    destruct (C16_radial_partial u1 (fine_wf u1 F1)) as (w & E & _ & F).
    - destruct (sv_radial t Sv) as (rank & H). exists rank. intros d x Hd Hx Td Tx R. destruct (lin_bwd d Hd) as (d0 & Hd0 & Ld). destruct (lin_bwd x Hx) as (x0 & Hx0 & Lx). pose proof (radial_same _ _ Ld Td). pose proof (radial_same _ _ Lx Tx). subst d0 x0. exact (H d x Hd0 Hx0 Td Tx R).
    - intros x y Hx Hy E T. destruct (lin_bwd x Hx) as (x0 & Hx0 & Lx). destruct (lin_bwd y Hy) as (y0 & Hy0 & Ly). destruct (lin_key _ _ Lx) as (_ & Tx & Ex). destruct (lin_key _ _ Ly) as (Ky & Ty & _). rewrite Tx. apply (pg_kinds t Pg x0 y0); [exact Hx0|exact Hy0|rewrite <- Ex, <- Ky; exact E|congruence].
    - intros d Hd T. destruct (lin_bwd d Hd) as (d0 & Hd0 & Ld). apply (chain_u1 d0); [|exact Ld]. apply (sv_chains t Sv d0 Hd0). right. rewrite <- (proj1 (proj2 (lin_key _ _ Ld))). exact T.
    - rewrite P2 in E. injection E as <-. apply f2_in in F. eapply Forall2_impl; [|exact F]. intros d d1 (Hd & Hd1 & A & B). split; [|exact B]. intros T. apply (resolved_carries radial_attrs); auto. unfold gradient_attrs. now rewrite T.
  Qed.
  (** Values in effect among the resolved linear gradients are those of before. *)
  Lemma along_back a d1 r : In a radial_attrs -> along_href u1 a d1 r -> In d1 (flat u1) -> forall d, In d (flat t) -> lin d d1 -> gradient_node d ->
    exists r0, along_href t a d r0 /\ (r = r0 \/ (r0 = None /\ r = gradient_default a)).
  Proof.
    intros Ha A. induction A as [d1 v E|d1 E1 E2|d1 k x1 r E1 E2 Hx Kx A IH]; intros Hd1 d Hd L G; destruct (lin_key _ _ L) as (Kd & Td & Eh).
    - destruct (d_get d a) as [v0|] eqn:E0.
      + exists (Some v0). split; [now apply ah_own|]. left. destruct G as [G|G]; [|rewrite (proj2 L) in E by (rewrite G; discriminate); congruence]. rewrite (carries_get t d d1 a v0 (proj1 L G) E0) in E. congruence.
      + destruct G as [G|G]; [|rewrite (proj2 L) in E by (rewrite G; discriminate); congruence]. pose proof (proj1 L G) as C. assert (Ia : In a (gradient_attrs d)).
        { destruct (in_dec (fun a b => match aid_eqb_spec a b with ReflectT _ e => left e | ReflectF _ n => right n end) a (gradient_attrs d)) as [I|I]; [exact I|]. exfalso. assert (Gi : In a geo_attrs) by (clear - Ha; unfold geo_attrs; cbn in Ha |- *; tauto). destruct C as (_ & _ & _ & C & _). specialize (C a Gi I). unfold d_get, get_value in E, E0. rewrite C in E. destruct (get_attr (attrs d) a); congruence. }
        pose proof (carries_eff t d d1 a C Ia) as Ef. rewrite E in Ef. inversion Ef as [w X Q1|X Y Q1|w X X1 X2 Q1|w X X1 X2 Q1].
        * exists (Some v). split; [exact X|now left].
        * exists None. split; [exact X|]. right. split; [reflexivity|]. congruence.
        * exfalso. unfold gradient_attrs in Ia. rewrite G, X in Ia. cbn in Ia. intuition discriminate.
        * exfalso. unfold gradient_attrs in Ia. rewrite G, X in Ia. cbn in Ia. intuition discriminate.
    - exists None. split; [|now left]. apply ah_end; [|congruence]. destruct (d_get d a) as [v|] eqn:Q; [|reflexivity]. destruct G as [G|G]; [rewrite (carries_get t d d1 a v (proj1 L G) Q) in E1; discriminate|rewrite (proj2 L) in E1 by (rewrite G; discriminate); congruence].
    - assert (E0 : d_get d a = None) by (destruct (d_get d a) as [v|] eqn:Q; [|reflexivity]; destruct G as [G|G]; [rewrite (carries_get t d d1 a v (proj1 L G) Q) in E1; discriminate|rewrite (proj2 L) in E1 by (rewrite G; discriminate); congruence]).
      destruct (lin_bwd x1 Hx) as (x & Hx0 & Lx). destruct (lin_key _ _ Lx) as (Kx1 & _ & _). rewrite Eh in E2. destruct (pg_hrefs t Pg d _ Hd G E2) as (k' & y & Ek & Hy & Ky & Gy). injection Ek as <-. assert (x = y) by (apply (data_unique t); auto; congruence). subst y.
      destruct (IH Hx x Hx0 Lx Gy) as (r0 & A0 & C). exists r0. split; [|exact C]. apply (ah_next t a d k x); auto; congruence.
  Qed.
  Lemma eff_back a d v : effective u1 d a v -> In a radial_attrs -> In d (flat t) -> In d (flat u1) -> tag d = TEl ERadialGradient -> effective t d a v.
  Proof.
    intros E Ha Hd Hd1 T. assert (L : lin d d). { split; [congruence|reflexivity]. } assert (G : gradient_node d) by (right; exact T). revert Ha L G. induction E as [a v A|a A Nf|a v Ea A E IH|a v Ea A E IH]; intros Ha L G; destruct (along_back a d _ Ha A Hd1 d Hd L G) as (r0 & A0 & C).
    - destruct C as [<-|[-> C]]; [now apply eff_found|]. rewrite C. apply eff_default; [exact A0|]. intros X. cbn in X. destruct X as [<-|[<-|[]]]; discriminate C.
    - assert (r0 = None) by (destruct C as [<-|[-> _]]; reflexivity). subst r0. now apply eff_default.
    - assert (r0 = None) by (destruct C as [<-|[-> _]]; reflexivity). subst r0. apply eff_fx; auto. apply IH; auto. cbn. tauto.
    - assert (r0 = None) by (destruct C as [<-|[-> _]]; reflexivity). subst r0. apply eff_fy; auto. apply IH; auto. cbn. tauto.
  Qed.
  Lemma carried : Forall2 (fun d d' => gradient_node d \/ gradient_node d' -> carries t d d') (flat t) (flat u2).
  Proof.
    pose proof lin_all as L. apply f2_in in L. pose proof rad_all as R. revert R. generalize (flat u2). induction L as [|d d1 l l1 (Hd & Hd1 & H) L IH]; intros l2 R; inversion R as [|? d2 ? r2 [A B] R2]; subst; constructor; [|now apply IH].
    intros G. destruct (lin_key _ _ H) as (K & T & _). assert (Dec : tag d1 = TEl ERadialGradient \/ tag d1 <> TEl ERadialGradient) by (destruct (tag d1) as [|e| | | |]; try (right; discriminate); destruct e; try (right; discriminate); now left). destruct Dec as [T1|T1].
    - assert (d1 = d) by (exact (radial_same d d1 H T1)). subst d1. destruct (A T1) as (C1 & C2 & C3 & C4 & C5). split; [exact C1|]. split; [exact C2|]. split; [exact C3|]. split; [exact C4|]. intros a Ia E. destruct (C5 a Ia E) as (v & Ev & Q). exists v. split; [|exact Q]. apply eff_back; auto. unfold gradient_attrs in Ia. rewrite T1 in Ia. exact Ia.
    - rewrite (B T1) in *. apply H. rewrite T in T1. destruct G as [[G|G]|[G|G]]; rewrite ?T in G; try exact G; contradiction.
  Qed.
End Resolve.
