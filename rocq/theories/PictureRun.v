(** For a prepared document, the passes come to an end without an error. *)
From Coq Require Import List Bool NArith Arith ZArith String QArith Qcanon Lia.
From Verif Require Import Names Num Value Dom DomFacts DomOps IdNum Outcome DomRemove Stops SpecStops Transforms VLoop Gradients SpecGradients GradProofs TasksSimple TasksSimpleProofs SpecDom SpecStyle SpecText SpecPaint PaintFacts Visit SpecUse SpecUngroup SpecGroupStyle UngroupProofs UngroupKeep UngroupEnd StyleMove StyleEnd Ungroup GroupStyle Cli Clean SpecClean WfAll SpecPicture SpecPrepared PictureSim PictureTwin PictureServers PicturePrep PictureTail PictureRemarks PictureEnd PlainEnd.
From Verif Require Import Props_simple Props_stops.
From Verif Require SpecPanic.
Import ListNotations.
Local Open Scope nat_scope.

(** ** Gradients *)
Record kindly (e : eid) (d d' : ndata) : Prop := {
  kd_key : key d' = key d;
  kd_tag : tag d' = tag d;
  kd_href : d_get d' AXlinkHref = d_get d AXlinkHref;
  kd_same : tag d <> TEl e -> d' = d
}.
Lemma kindly_refl e d : kindly e d d. Proof. constructor; auto. Qed.
Lemma kindly_trans e a b c : kindly e a b -> kindly e b c -> kindly e a c.
Proof. intros A B. constructor; [rewrite (kd_key _ _ _ B); apply A|rewrite (kd_tag _ _ _ B); apply A|rewrite (kd_href _ _ _ B); apply A|]. intros H. rewrite (kd_same _ _ _ B); [now apply A|]. now rewrite (kd_tag _ _ _ A). Qed.
Section Kind.
  Variable e : eid.
  Notation R := (kindly e).
  Notation twin := (twin R).
  Lemma kw_refl t : twin t t.
  Proof. induction t as [d ch IH] using tree_ind'. constructor; [apply kindly_refl|]. induction IH; constructor; auto. Qed.
  Lemma kw_trans a : forall b c, twin a b -> twin b c -> twin a c.
  Proof.
    induction a as [d ch IH] using tree_ind'. intros b c A B. inversion A as [x1 d1 x2 ch1 R1 F1]; subst. inversion B as [y1 d2 y2 ch2 R2 F2]; subst. constructor; [exact (kindly_trans _ _ _ _ R1 R2)|].
    clear A B R1 R2. revert ch2 F2. induction F1 as [|u u' l l' W F IH2]; intros ch2 F2; inversion F2; subst; constructor; [exact (Forall_inv IH _ _ W H1)|]. exact (IH2 (Forall_inv_tail IH) _ H3).
  Qed.
  Lemma kw_flat a : forall b, twin a b -> Forall2 R (flat a) (flat b).
  Proof.
    induction a as [d ch IH] using tree_ind'. intros b A. inversion A as [x1 d1 x2 ch1 R1 F1]; subst. cbn [flat]. constructor; [exact R1|]. clear A R1. induction F1 as [|u u' l l' W F IH2]; [constructor|]. cbn. apply Forall2_app; [exact (Forall_inv IH _ W)|exact (IH2 (Forall_inv_tail IH))].
  Qed.
  Lemma kw_keys a b : twin a b -> keys b = keys a.
  Proof. intros W. apply kw_flat in W. unfold keys. induction W as [|d d' l l' S F IH]; [reflexivity|]. cbn. now rewrite IH, (kd_key _ _ _ S). Qed.
  Lemma kw_upd k d d' t : NoDup (keys t) -> In d (flat t) -> key d = k -> R d d' -> twin t (upd k (fun _ => d') t).
  Proof.
    intros N Hd K S. unfold upd. apply twin_tmap. intros x Hx. destruct (Nat.eqb_spec (key x) k) as [E|E]; [|apply kindly_refl]. assert (x = d) by (apply (data_unique t); congruence). now subst x.
  Qed.
  Lemma kw_chain t t' d : twin t t' -> chain_ends t d -> forall d', R d d' -> chain_ends t' d'.
  Proof.
    intros W C. induction C as [d Hd|d k x Hd Hx Kx C IH]; intros d' S.
    - apply ce_end. now rewrite (kd_href _ _ _ S).
    - destruct (f2_forth _ _ _ _ (kw_flat _ _ W) Hx) as (x' & Hx' & Sx). apply (ce_next t' d' k x'); [now rewrite (kd_href _ _ _ S)|exact Hx'|now rewrite (kd_key _ _ _ Sx)|exact (IH x' Sx)].
  Qed.
  Lemma kw_chains t t' (P : ndata -> Prop) : (forall d d', tag d' = tag d -> P d' -> P d) -> twin t t' -> (forall d, In d (flat t) -> P d -> chain_ends t d) -> forall d, In d (flat t') -> P d -> chain_ends t' d.
  Proof. intros HP W H d Hd Pd. destruct (f2_back _ _ _ _ (kw_flat _ _ W) Hd) as (c & Hc & S). apply (kw_chain t t' c W); [|exact S]. apply H; [exact Hc|]. exact (HP c d (kd_tag _ _ _ S) Pd). Qed.
  Lemma vloop_run f : (forall u d, NoDup (keys u) -> In d (flat u) -> tag d = TEl e -> chain_ends u d -> exists d', f u d = Ok d' /\ R d d') ->
    forall ks t, NoDup (keys t) -> (forall d, In d (flat t) -> In (key d) ks -> tag d = TEl e) -> (forall d, In d (flat t) -> tag d = TEl e -> chain_ends t d) -> exists t', vloop f ks t = Ok t' /\ twin t t'.
  Proof.
    intros H. induction ks as [|k ks IH]; intros t N V C; cbn [vloop]; [exists t; split; [reflexivity|apply kw_refl]|]. destruct (find_data k t) as [d|] eqn:Fd.
    - destruct (VLoop.find_data_some _ _ _ Fd) as [Hd K]. assert (Td : tag d = TEl e) by (apply V; [exact Hd|left; now symmetry]). destruct (H t d N Hd Td (C d Hd Td)) as (d' & -> & S). cbn [bind]. pose proof (kw_upd k d d' t N Hd K S) as W.
      destruct (IH (upd k (fun _ => d') t)) as (t' & E & W').
      + now rewrite (kw_keys _ _ W).
      + intros x Hx Hk. destruct (f2_back _ _ _ _ (kw_flat _ _ W) Hx) as (c & Hc & X). rewrite (kd_tag _ _ _ X). apply V; [exact Hc|right; now rewrite <- (kd_key _ _ _ X)].
      + apply (kw_chains t _ (fun d => tag d = TEl e)); [intros a b E; congruence|exact W|exact C].
      + exists t'. split; [exact E|exact (kw_trans _ _ _ W W')].
    - apply IH; auto. intros x Hx Hk. apply V; [exact Hx|now right].
  Qed.
End Kind.
Lemma check_run e t a def d : NoDup (keys t) -> chain_ends t d -> tag d = TEl e -> a <> AXlinkHref -> exists d', check_attr t a def d = Ok d' /\ kindly e d d' /\ chain_ends t d' /\ tag d' = TEl e.
Proof.
  intros N C Td Ha. destruct (chain_along t a d C) as (r & Hr). exists (fill a (orv r def) d). split; [exact (check_attr_ok t a def d r N Hr)|]. destruct (fill_node a (orv r def) d) as [(K & Tg & _) _].
  assert (Hh : d_get (fill a (orv r def) d) AXlinkHref = d_get d AXlinkHref) by (rewrite fill_dget; destruct (aid_eqb_spec a AXlinkHref); [contradiction|reflexivity]).
  split; [|split].
  - constructor; [congruence|congruence|exact Hh|intros X; contradiction].
  - inversion C; subst; [apply ce_end; congruence|eapply ce_next; eauto; congruence].
  - congruence.
Qed.
Ltac chk N := match goal with C : chain_ends ?t ?d, T : tag ?d = TEl ?e, K : kindly ?e ?d0 ?d |- context [check_attr ?t ?a ?def ?d] =>
  let d' := fresh "d'" in let E := fresh "E" in let K' := fresh "K" in let C' := fresh "C" in let T' := fresh "T" in
  destruct (check_run e t a def d N C T ltac:(discriminate)) as (d' & E & K' & C' & T'); rewrite E; cbn [bind]; apply (kindly_trans e _ _ _ K) in K'; clear C T K E end.
Lemma linear_run u d : NoDup (keys u) -> In d (flat u) -> tag d = TEl ELinearGradient -> chain_ends u d -> exists d', resolve_linear_node u d = Ok d' /\ kindly ELinearGradient d d'.
Proof.
  intros N _ Tg C. unfold resolve_linear_node. pose proof (kindly_refl ELinearGradient d) as K. do 6 chk N. match goal with C : chain_ends _ ?x, T : tag ?x = _, K : kindly _ _ ?x |- _ => destruct (check_run ELinearGradient u AGradientTransform None x N C T ltac:(discriminate)) as (z & Ez & Kz & _); exists z; split; [exact Ez|exact (kindly_trans _ _ _ _ K Kz)] end.
Qed.
Lemma radial_run u d : NoDup (keys u) -> In d (flat u) -> tag d = TEl ERadialGradient -> chain_ends u d -> exists d', resolve_radial_node u d = Ok d' /\ kindly ERadialGradient d d'.
Proof.
  intros N _ Tg C. unfold resolve_radial_node. pose proof (kindly_refl ERadialGradient d) as K. do 5 chk N. cbv zeta. do 2 chk N. match goal with C : chain_ends _ ?x, T : tag ?x = _, K : kindly _ _ ?x |- _ => destruct (check_run ERadialGradient u AGradientTransform None x N C T ltac:(discriminate)) as (z & Ez & Kz & _); exists z; split; [exact Ez|exact (kindly_trans _ _ _ _ K Kz)] end.
Qed.
Lemma order_kind e t ks : NoDup (keys t) -> gen_order e t = Some ks -> forall d, In d (flat t) -> In (key d) ks -> tag d = TEl e.
Proof.
  intros N G d Hd Hk. unfold gen_order in G. apply (order_incl e t (kind_nodes e t)) in G; [|intros x []]. apply G in Hk. apply kind_nodes_in in Hk. destruct Hk as (c & Hc & Tc & Kc). assert (c = d) by (apply (data_unique t); auto). now subst c.
Qed.
Lemma grad_run e f t : NoDup (keys t) -> (forall u d, NoDup (keys u) -> In d (flat u) -> tag d = TEl e -> chain_ends u d -> exists d', f u d = Ok d' /\ kindly e d d') ->
  acyclic_kind e t -> (forall d, In d (flat t) -> tag d = TEl e -> chain_ends t d) ->
  exists ks t', gen_order e t = Some ks /\ vloop f ks t = Ok t' /\ twin (kindly e) t t'.
Proof.
  intros N H A C. destruct (proj2 (gen_order_iff e t N) A) as (ks & G). destruct (vloop_run e f H ks t N (order_kind e t ks N G) C) as (t' & E & W). exists ks, t'. auto.
Qed.

(** ** Stops *)
Definition all_stops (t : tree) : Prop := forall s c, In s (subs t) -> gradient_el (data s) -> In c (kids s) -> tag (data c) = TEl EStop.
Definition first_only (t : tree) : Prop := forall s i c, In s (subs t) -> gradient_el (data s) -> nth_error (kids s) (S i) = Some c -> exists l, d_get (data c) AOffset = Some (VLen l).
Definition plain_units (t : tree) : Prop := forall s c l, In s (subs t) -> gradient_el (data s) -> In c (kids s) -> d_get (data c) AOffset = Some (VLen l) -> unit l = UNone \/ unit l = UPercent.
Lemma f2_nth {A} (P : A -> A -> Prop) l l' : Forall2 P l l' -> forall i y, nth_error l' i = Some y -> exists x, nth_error l i = Some x /\ P x y.
Proof. induction 1; intros [|i] z; cbn; try discriminate; [intros E; injection E as <-; eauto|apply IHForall2]. Qed.
Lemma gradient_back e d d' : kindly e d d' -> gradient_el d' -> gradient_el d. Proof. intros K. unfold gradient_el. now rewrite (kd_tag _ _ _ K). Qed.
Lemma stops_keep e t t' : In e [ELinearGradient; ERadialGradient] -> twin (kindly e) t t' -> all_stops t -> (all_stops t') /\ (first_only t -> first_only t') /\ (plain_units t -> plain_units t').
Proof.
  intros He W A. assert (Sub : forall s', In s' (subs t') -> gradient_el (data s') -> exists s, In s (subs t) /\ gradient_el (data s) /\ Forall2 (fun c c' => In c (kids s) /\ twin (kindly e) c c') (kids s) (kids s')).
  { intros s' Hs' G. destruct (twin_subs' _ t t' s' W Hs') as (s & Hs & Ws). exists s. split; [exact Hs|]. split; [exact (gradient_back e _ _ (twin_data _ _ _ Ws) G)|]. apply Props_transforms.Forall2_with_in. exact (twin_kids _ _ _ Ws). }
  assert (Same : forall s c c', In s (subs t) -> gradient_el (data s) -> In c (kids s) -> twin (kindly e) c c' -> data c' = data c).
  { intros s c c' Hs G Hc Wc. apply (kd_same _ _ _ (twin_data _ _ _ Wc)). rewrite (A s c Hs G Hc). destruct He as [<-|[<-|[]]]; discriminate. }
  split; [|split].
  - intros s' c' Hs' G Hc'. destruct (Sub s' Hs' G) as (s & Hs & G0 & F). destruct (f2_back _ _ _ _ F Hc') as (c & _ & Hc & Wc). rewrite (Same s c c' Hs G0 Hc Wc). exact (A s c Hs G0 Hc).
  - intros H s' i c' Hs' G Hc'. destruct (Sub s' Hs' G) as (s & Hs & G0 & F). destruct (f2_nth _ _ _ F _ _ Hc') as (c & Hn & Hc & Wc). rewrite (Same s c c' Hs G0 Hc Wc). exact (H s i c Hs G0 Hn).
  - intros H s' c' l Hs' G Hc'. destruct (Sub s' Hs' G) as (s & Hs & G0 & F). destruct (f2_back _ _ _ _ F Hc') as (c & _ & Hc & Wc). rewrite (Same s c c' Hs G0 Hc Wc). exact (H s c l Hs G0 Hc).
Qed.
Lemma stops_run t : first_only t -> exists t', resolve_stop_attributes t = Ok t'.
Proof.
  intros H. destruct (C17_error_kind t) as [P _]. destruct (resolve_stop_attributes t) as [t'|err|] eqn:E; [eauto| |contradiction]. exfalso. destruct (proj1 (C17_fails_iff t) (ex_intro _ err E)) as (s & i & d & Hs & G & Hn & B). rewrite nth_error_map in Hn. destruct (nth_error (kids s) (S i)) as [c|] eqn:Ec; [|discriminate]. injection Hn as <-. exact (B (H s i c Hs G Ec)).
Qed.
(** ** The preparation *)
Lemma acyclic_other e e' t t' : e' <> e -> twin (kindly e) t t' -> acyclic_kind e' t -> acyclic_kind e' t'.
Proof.
  intros Ne W (rank & H). exists rank. intros d x Hd Hx Td Tx Rf.
  assert (B : forall y, In y (flat t') -> tag y = TEl e' -> In y (flat t)).
  { intros y Hy Ty. destruct (f2_back _ _ _ _ (kw_flat _ _ _ W) Hy) as (c & Hc & S). rewrite (kd_same _ _ _ S); [exact Hc|]. rewrite <- (kd_tag _ _ _ S), Ty. congruence. }
  apply H; auto.
Qed.
