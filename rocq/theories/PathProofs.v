(** Proofs about the path model (Paths.v) against the drawing semantics (SpecPath.v). *)
From Coq Require Import List Bool ZArith QArith Qcanon Lia.
From Verif Require Import Names Num Value Paths SpecPath.
Import ListNotations.
Local Open Scope Qc_scope.

Lemma point_eqb_spec a b : reflect (a = b) (point_eqb a b).
Proof.
  destruct a as [a a'], b as [b b']; unfold point_eqb; cbn.
  destruct (qeqb_spec a b), (qeqb_spec a' b'); cbn; constructor; congruence.
Qed.
Lemma point_eqb_refl a : point_eqb a a = true.
Proof. now destruct (point_eqb_spec a a). Qed.

(** * Traces *)
Lemma run_app s l m : run s (l ++ m) = run (run s l) m.
Proof. revert s. induction l; cbn; auto. Qed.
Lemma trace_app s l m : trace s (l ++ m) = trace s l ++ trace (run s l) m.
Proof. revert s. induction l; cbn; intros; [reflexivity|]. now rewrite IHl, app_assoc. Qed.
Lemma abs_app l m : abs (l ++ m) = abs l ++ abs m.
Proof. apply map_app. Qed.

Definition eqv (vis : piece -> bool) (t u : list ev) : Prop := forall c, subpaths vis c t = subpaths vis c u.
Lemma eqv_refl vis t : eqv vis t t.
Proof. now intro. Qed.
Lemma eqv_trans vis t u v : eqv vis t u -> eqv vis u v -> eqv vis t v.
Proof. intros H K c. now rewrite H. Qed.
Lemma eqv_app vis s t u : eqv vis t u -> eqv vis (s ++ t) (s ++ u).
Proof.
  intros H. induction s as [|[|p] s IH]; intros c; cbn; auto.
  - now rewrite IH.
  - destruct (vis p); apply IH.
Qed.
Lemma eqv_cons vis e t u : eqv vis t u -> eqv vis (e :: t) (e :: u).
Proof. intros H. exact (eqv_app vis [e] t u H). Qed.
Lemma eqv_invis vis p t : vis p = false -> eqv vis (Draw p :: t) t.
Proof. intros H c. cbn. now rewrite H. Qed.
Lemma eqv_break2 vis t : eqv vis (Break :: Break :: t) (Break :: t).
Proof. intro c. cbn. reflexivity. Qed.
Lemma eqv_break_nil vis : eqv vis [Break] [].
Proof. intro c. cbn. apply app_nil_r. Qed.

(** * conv_to_absolute / conv_to_relative *)
Lemma Qc_sub_add x p : p + (x + - p) = x.
Proof. ring. Qed.
Lemma conv_to_absolute_ok : forall l px py mx my c,
  trace (Pen (px, py) (mx, my) c) (abs (conv_to_absolute_go px py mx my l)) = trace (Pen (px, py) (mx, my) c) l.
Proof.
  induction l as [|[a d] l IH]; intros px py mx my c; [reflexivity|].
  cbn [conv_to_absolute_go absolute sdata].
  destruct a; destruct d; cbn [shift_seg abs map trace draw absolute sdata fst snd cur start last seg_x seg_y or_else padd];
    fold abs; rewrite ?(Qcplus_comm _ px), ?(Qcplus_comm _ py);
    repeat match goal with |- context [map (Seg true) ?x] => change (map (Seg true) x) with (abs x) end;
    rewrite IH; reflexivity.
Qed.
Lemma conv_to_relative_ok : forall l px py mx my c,
  trace (Pen (px, py) (mx, my) c) (conv_to_relative_go px py mx my l) = trace (Pen (px, py) (mx, my) c) (abs l).
Proof.
  induction l as [|d l IH]; intros px py mx my c; [reflexivity|].
  cbn [conv_to_relative_go].
  destruct d; cbn [shift_seg abs map trace draw absolute sdata fst snd cur start last seg_x seg_y or_else padd];
    unfold padd; cbn [fst snd]; rewrite ?Qc_sub_add;
    repeat match goal with |- context [map (Seg true) ?x] => change (map (Seg true) x) with (abs x) end;
    rewrite IH; reflexivity.
Qed.

(** * Shapes of segment lists *)
Definition no_hv (s : seg) : Prop := match s with HLine _ | VLine _ => False | _ => True end.
Fixpoint zm_ok (z : bool) (l : list seg) : Prop :=
  match l with [] => True | s :: l' => (z = true -> is_move s = true) /\ zm_ok (is_close s) l' end.
Definition shape (l : list seg) : Prop := zm_ok true l /\ Forall no_hv l.
Fixpoint endz (z : bool) (l : list seg) : bool := match l with [] => z | s :: l' => endz (is_close s) l' end.
Lemma zm_app z a b : zm_ok z (a ++ b) <-> zm_ok z a /\ zm_ok (endz z a) b.
Proof. revert z. induction a as [|s a IH]; cbn; intros z; [tauto|]. rewrite IH. tauto. Qed.
Lemma endz_app z a b : endz z (a ++ b) = endz (endz z a) b.
Proof. revert z. induction a; cbn; auto. Qed.
Lemma zm_weak z l : zm_ok z l -> zm_ok false l.
Proof. destruct l; cbn; [tauto|]. intros [_ H]. split; [discriminate|assumption]. Qed.

(** [fix_m] *)
Lemma fix_m_go_zm : forall l mx my p, zm_ok (is_close p) (fix_m_go mx my p l).
Proof.
  induction l as [|c l IH]; intros; cbn; [exact I|].
  destruct (match p with MoveTo x y => (x, y) | _ => (mx, my) end) as [a b].
  destruct (is_close p) eqn:E, (is_move c) eqn:F; cbn; repeat split; auto; discriminate.
Qed.
Lemma fix_m_go_eqv vis : forall l mx my p s,
  (is_move p = false -> start s = (mx, my)) -> (match p with MoveTo x y => start s = (x, y) | _ => True end) ->
  (is_close p = true -> cur s = start s /\ last s = NoCtrl) ->
  forall c, (is_close p = true -> c = []) ->
  subpaths vis c (trace s (abs (fix_m_go mx my p l))) = subpaths vis c (trace s (abs l)).
Proof.
  induction l as [|c l IH]; intros mx my p s H1 H2 H3 acc Hacc; [reflexivity|].
  cbn [fix_m_go].
  destruct (match p with MoveTo x y => (x, y) | _ => (mx, my) end) as [a b] eqn:Eab.
  assert (Hst : start s = (a, b)).
  { destruct p; cbn in *; try (now rewrite H1, Eab by reflexivity); congruence. }
  assert (Hrec : forall s' acc', s' = fst (draw s (Seg true c)) -> (is_close c = true -> acc' = []) ->
      subpaths vis acc' (trace s' (abs (fix_m_go a b c l))) = subpaths vis acc' (trace s' (abs l))).
  { intros s' acc' -> Hacc'. apply IH.
    - intros Hm. destruct c; cbn in Hm |- *; try discriminate; try exact Hst.
    - destruct c; cbn; auto.
    - destruct c; cbn; try discriminate. auto.
    - assumption. }
  assert (Hplain : subpaths vis acc (trace s (abs (c :: fix_m_go a b c l))) = subpaths vis acc (trace s (abs (c :: l)))).
  { cbn [abs map trace]. fold (abs l) (abs (fix_m_go a b c l)).
    destruct c; cbn [draw snd fst app sdata absolute subpaths];
      repeat match goal with |- context [vis ?x] => destruct (vis x) end;
      try (f_equal; apply Hrec; [reflexivity|reflexivity || discriminate]);
      apply Hrec; try reflexivity; discriminate. }
  destruct (is_close p && negb (is_move c)) eqn:E; [|exact Hplain].
  apply andb_prop in E as [Ez Em]. specialize (H3 Ez). specialize (Hacc Ez). subst acc.
  rewrite <- Hplain. cbn [abs map trace draw fst snd sdata absolute]. cbn [app subpaths flush].
  assert (Es : Pen (a, b) (a, b) NoCtrl = s).
  { destruct s as [cu st la]; cbn in *. destruct H3; congruence. }
  rewrite Es. reflexivity.
Qed.
Lemma fix_m_eqv vis l : match l with c :: _ => is_move c = true | [] => True end ->
  eqv vis (trace pen0 (abs (fix_m l))) (trace pen0 (abs l)).
Proof.
  intros H. destruct l as [|[] l]; try discriminate; [apply eqv_refl|]. intros c.
  cbn [fix_m abs map trace draw fst snd sdata absolute app subpaths]. f_equal.
  apply fix_m_go_eqv; cbn; try discriminate; auto.
Qed.

(** [convert_hv_to_l]: [s] is the pen after [p]. *)
Definition pen_of (p : seg) (s : pen) : Prop :=
  match seg_x p, seg_y p with Some x, Some y => cur s = (x, y) | _, _ => is_close p = true end.
Lemma hv_to_l_ok : forall l p s, no_hv p -> pen_of p s -> zm_ok (is_close p) l ->
  exists r, hv_to_l_go p l = Some r /\ trace s (abs r) = trace s (abs l) /\ zm_ok (is_close p) r /\ Forall no_hv r.
Proof.
  induction l as [|c l IH]; intros p s Hp Hs Hz; cbn [hv_to_l_go].
  { exists []. repeat split; auto. }
  cbn [zm_ok] in Hz. destruct Hz as [Hz Hz'].
  assert (Hkeep : no_hv c -> exists r, (match hv_to_l_go c l with Some r => Some (c :: r) | None => None end) = Some r /\
     trace s (abs r) = trace s (abs (c :: l)) /\ zm_ok (is_close p) r /\ Forall no_hv r).
  { intros Hc. destruct (IH c (fst (draw s (Seg true c))) Hc) as (r & E & Ht & Hr & Hf); auto.
    { destruct c; cbn in *; try contradiction; try reflexivity. }
    exists (c :: r). rewrite E. split; [reflexivity|]. cbn [abs map trace]. fold (abs r) (abs l). rewrite Ht.
    repeat split; auto. }
  assert (Hline : forall x y, (exists d, (c = HLine d \/ c = VLine d)) ->
     draw s (Seg true c) = draw s (Seg true (LineTo x y)) ->
     exists r, (match hv_to_l_go (LineTo x y) l with Some r => Some (LineTo x y :: r) | None => None end) = Some r /\
     trace s (abs r) = trace s (abs (c :: l)) /\ zm_ok (is_close p) r /\ Forall no_hv r).
  { intros x y Hd Hdr. destruct (IH (LineTo x y) (fst (draw s (Seg true (LineTo x y)))) I) as (r & E & Ht & Hr & Hf).
    { reflexivity. }
    { destruct Hd as (d & [-> | ->]); exact Hz'. }
    exists (LineTo x y :: r). rewrite E. split; [reflexivity|]. cbn [abs map trace]. fold (abs r) (abs l).
    rewrite Hdr, Ht. repeat split; auto; [|constructor; cbn; auto]. cbn.
    intros Hcl. specialize (Hz Hcl). destruct Hd as (d & [-> | ->]); discriminate. }
  destruct c; try (apply Hkeep; exact I).
  - assert (is_close p = false) as Hnc.
    { destruct (is_close p); [|reflexivity]. specialize (Hz eq_refl). discriminate. }
    unfold pen_of in Hs. destruct (seg_x p) as [px|] eqn:Ex, (seg_y p) as [py|] eqn:Ey;
      try (destruct p; cbn in *; congruence || contradiction).
    apply Hline; [eauto|]. cbn. now rewrite Hs.
  - assert (is_close p = false) as Hnc.
    { destruct (is_close p); [|reflexivity]. specialize (Hz eq_refl). discriminate. }
    unfold pen_of in Hs. destruct (seg_x p) as [px|] eqn:Ex, (seg_y p) as [py|] eqn:Ey;
      try (destruct p; cbn in *; congruence || contradiction).
    apply Hline; [eauto|]. cbn. now rewrite Hs.
Qed.

(** [convert_l_to_hv] *)
Lemma l_to_hv_ok : forall l px py z s, zm_ok z l -> Forall no_hv l -> (z = false -> cur s = (px, py)) ->
  exists r, l_to_hv_go px py l = Some r /\ trace s (abs r) = trace s (abs l).
Proof.
  induction l as [|c l IH]; intros px py z s Hz Hf Hs; cbn [l_to_hv_go].
  { exists []. auto. }
  inversion Hf as [|? ? Hc Hf']; subst. destruct Hz as [Hz Hz'].
  assert (Hkeep : forall px' py', (is_close c = false -> cur (fst (draw s (Seg true c))) = (px', py')) ->
     exists r, option_map (cons c) (l_to_hv_go px' py' l) = Some r /\ trace s (abs r) = trace s (abs (c :: l))).
  { intros px' py' Hcur. destruct (IH px' py' _ (fst (draw s (Seg true c))) Hz' Hf' Hcur) as (r & E & Ht).
    rewrite E. exists (c :: r). split; [reflexivity|]. cbn [abs map trace]. fold (abs r) (abs l). now rewrite Ht. }
  destruct c; try contradiction; try (apply Hkeep; cbn; auto; discriminate).
  assert (z = false) as -> by (destruct z; [discriminate (Hz eq_refl)|reflexivity]). specialize (Hs eq_refl).
  destruct (IH x y _ (fst (draw s (Seg true (LineTo x y)))) Hz' Hf') as (r & E & Ht); [reflexivity|].
  rewrite E. cbn [option_map].
  set (c' := if qeqb px x && negb (qeqb py y) then VLine y else _).
  assert (Hd : draw s (Seg true c') = draw s (Seg true (LineTo x y))).
  { unfold c'. destruct (qeqb_spec px x), (qeqb_spec py y); cbn [andb negb]; try reflexivity;
      cbn; rewrite Hs; subst; reflexivity. }
  exists (c' :: r). split; [reflexivity|]. cbn [abs map trace]. fold (abs r) (abs l). now rewrite Hd, Ht.
Qed.

(** * Removal of unused segments: all steps are instances of six rewriting rules. *)
Definition pen_at (a : list seg) : pen := run pen0 (abs a).
Inductive red : list seg -> list seg -> Prop :=
| red_mm a x y x' y' b : red (a ++ MoveTo x y :: MoveTo x' y' :: b) (a ++ MoveTo x' y' :: b)
| red_eq a c b : red (a ++ c :: c :: b) (a ++ c :: b)
| red_mz a x y b : red (a ++ MoveTo x y :: ClosePath :: b) (a ++ b)
| red_lz a x y b : start (pen_at a) = (x, y) -> red (a ++ LineTo x y :: ClosePath :: b) (a ++ ClosePath :: b)
| red_lm a x y b : start (pen_at a) = (x, y) -> zm_ok true b -> red (a ++ LineTo x y :: b) (a ++ ClosePath :: b)
| red_zero a x y b : endz true a = false -> cur (pen_at a) = (x, y) -> red (a ++ LineTo x y :: b) (a ++ b).
Inductive reds : list seg -> list seg -> Prop :=
| reds_nil l : reds l l
| reds_step l m n : red l m -> reds m n -> reds l n.
Lemma reds_trans l m n : reds l m -> reds m n -> reds l n.
Proof. induction 1; auto. intros. econstructor; eauto. Qed.
Lemma reds_one l m : red l m -> reds l m.
Proof. intros. econstructor; [eassumption|constructor]. Qed.

Lemma red_shape l m : red l m -> shape l -> shape m.
Proof.
  intros H [Hz Hf].
  assert (Hsub : forall x, In x m -> In x l \/ x = ClosePath).
  { destruct H; intros z; rewrite !in_app_iff; cbn [In]; intuition auto. }
  split.
  2: { rewrite Forall_forall in *. intros x Hx. destruct (Hsub x Hx) as [| ->]; [auto|exact I]. }
  clear Hsub Hf.
  destruct H; rewrite zm_app in *; cbn [zm_ok is_close is_move] in *; destruct Hz as [Ha Hz];
    try (repeat split; try tauto; fail).
  - destruct Hz as [? [? Hz]]. split; [tauto|]. destruct b; cbn in *; [tauto|].
    split; [|tauto]. intros; tauto.
  - split; [tauto|]. rewrite H. tauto.
Qed.

Lemma nh_ctx p x y : forall a, 
  (forall prev zl, no_hazard (run p (abs a)) prev zl x -> no_hazard (run p (abs a)) prev zl y) ->
  forall prev zl, no_hazard p prev zl (a ++ x) -> no_hazard p prev zl (a ++ y).
Proof.
  intros a. revert p. induction a as [|s a IH]; intros p H prev zl; [apply H|].
  cbn [app no_hazard]. destruct (zero_line p s).
  - apply IH. exact H.
  - intros (A & B & C). repeat split; auto.
Qed.
(** Where only the reflected control point is different and does not matter. *)
Lemma nh_weak : forall l p prev zl p' prev' zl',
  no_hazard p prev zl l -> cur p = cur p' -> start p = start p' -> (zl = true \/ last p = last p') ->
  (zl' = true -> zl = true) -> (forall s, is_curve s = true -> prev' = Some s -> prev = Some s) ->
  no_hazard p' prev' zl' l /\ trace p (abs l) = trace p' (abs l).
Proof.
  induction l as [|s l IH]; intros p prev zl p' prev' zl' H Hc Hs Hl Hz Hp; [split; [exact I|reflexivity]|].
  cbn [no_hazard abs map trace] in *. fold (abs l).
  assert (Ez : zero_line p' s = zero_line p s). { destruct s; cbn; congruence. }
  rewrite Ez. destruct (zero_line p s) eqn:E.
  - destruct s; try discriminate. cbn [draw fst snd sdata absolute] in *.
    destruct (IH _ _ _ (Pen (x, y) (start p') NoCtrl) prev' true H) as [A B]; auto.
    split; [exact A|]. cbn [app]. rewrite Hc. f_equal. exact B.
  - destruct H as (H1 & H2 & H3).
    assert (Ed : draw p (Seg true s) = draw p' (Seg true s)).
    { destruct p as [c1 s1 l1], p' as [c2 s2 l2]; cbn [cur start last] in *. subst c2 s2.
      destruct Hl as [Hl|Hl]; [|now subst].
      destruct s; try reflexivity; cbn [is_smooth] in H2; specialize (H2 eq_refl); congruence. }
    rewrite <- Ed. split; [|reflexivity]. repeat split; auto.
    + intros Hcu E'. apply (H1 Hcu). auto.
    + intros Hsm. specialize (H2 Hsm). destruct zl'; [rewrite Hz in H2; auto|reflexivity].
Qed.
Lemma run_abs_app a b : run pen0 (abs (a ++ b)) = run (pen_at a) (abs b).
Proof. now rewrite abs_app, run_app. Qed.

Lemma shows_line_refl a : shows (PLine a a) = false.
Proof. cbn. now rewrite point_eqb_refl. Qed.

Lemma nh_move_head p prev zl p' prev' zl' l : zm_ok true l ->
  no_hazard p prev zl l -> no_hazard p' prev' zl' l /\ eqv shows (Break :: trace p (abs l)) (trace p' (abs l)).
Proof.
  destruct l as [|[] l]; cbn; try (intros [E _]; specialize (E eq_refl); discriminate).
  - intros _ _. split; [exact I|apply eqv_break_nil].
  - intros _ (H1 & H2 & H3). repeat split; auto; try discriminate.
Qed.

Lemma red_sound l m : red l m -> shape l -> harmless l ->
  harmless m /\ eqv shows (trace pen0 (abs l)) (trace pen0 (abs m)).
Proof.
  unfold harmless. intros H [Hz _] Hh.
  assert (Hctx : forall a x y, l = a ++ x -> m = a ++ y ->
     (forall prev zl, no_hazard (pen_at a) prev zl x ->
        no_hazard (pen_at a) prev zl y /\ eqv shows (trace (pen_at a) (abs x)) (trace (pen_at a) (abs y))) ->
     no_hazard pen0 None false m /\ eqv shows (trace pen0 (abs l)) (trace pen0 (abs m))).
  { intros a x y -> -> Hloc.
    assert (Hx : exists prev zl, no_hazard (pen_at a) prev zl x).
    { clear - Hh. unfold pen_at. revert Hh. generalize pen0 (@None seg) false.
      induction a as [|s a IH]; intros p prev zl; [cbn; eauto|]. cbn [app no_hazard].
      destruct (zero_line p s); [apply IH|]. intros (_ & _ & H). eapply IH. exact H. }
    split.
    - eapply nh_ctx; [|exact Hh]. intros. now apply Hloc.
    - rewrite !abs_app, !trace_app. apply eqv_app. destruct Hx as (prev & zl & Hx). eapply Hloc, Hx. }
  destruct H; (eapply Hctx; [reflexivity|reflexivity|]); clear Hctx; rewrite ?zm_app in Hz;
    set (s := pen_at a) in *; intros prev zl Hn.
  - (* mm *) cbn in Hn |- *. destruct Hn as (_ & _ & _ & _ & Hn). repeat split; auto; discriminate.
  - (* equal *)
    cbn [no_hazard] in Hn. cbn [abs map trace no_hazard]. fold (abs b).
    destruct (zero_line s c) eqn:E1.
    + destruct c; try discriminate. cbn [draw fst snd sdata absolute zero_line cur] in *.
      rewrite point_eqb_refl in Hn. split; [exact Hn|].
      apply eqv_cons. apply (eqv_invis shows). apply shows_line_refl.
    + destruct Hn as (H1 & H2 & Hn).
      destruct (zero_line (fst (draw s (Seg true c))) c) eqn:E2.
      * destruct c; try discriminate. cbn [draw fst snd sdata absolute] in *.
        edestruct nh_weak as [A B]; [exact Hn| | | | | |].
        6: { split; [repeat split; [exact H1|exact H2|exact A]|].
             cbn [app cur start] in B |- *. apply eqv_cons.
             apply (eqv_invis shows). apply shows_line_refl. }
        all: cbn; auto; discriminate.
      * destruct Hn as (H1' & H2' & Hn).
        assert (Hcv : is_curve c = false). { destruct (is_curve c); [exfalso; now apply H1'|reflexivity]. }
        assert (Hsame : fst (draw (fst (draw s (Seg true c))) (Seg true c)) = fst (draw s (Seg true c))).
        { destruct c; try discriminate Hcv; reflexivity. }
        rewrite Hsame in *. split; [auto|].
        destruct c; try discriminate Hcv; cbn [draw fst snd sdata absolute app cur start].
        -- apply eqv_break2.
        -- cbn in E2. rewrite point_eqb_refl in E2. discriminate.
        -- apply eqv_cons, (eqv_invis shows). cbn. now rewrite point_eqb_refl.
        -- apply eqv_cons, (eqv_invis shows). cbn. now rewrite point_eqb_refl.
        -- apply eqv_cons, (eqv_invis shows). cbn. now rewrite point_eqb_refl.
        -- apply eqv_cons. intros acc. cbn [subpaths]. rewrite shows_line_refl. reflexivity.
  - (* mz *)
    cbn [no_hazard zero_line draw fst snd sdata absolute abs map trace] in Hn |- *. fold (abs b).
    destruct Hn as (_ & _ & _ & _ & Hn). destruct Hz as [_ Hz]. cbn in Hz.
    assert (Hzb : zm_ok true b) by tauto.
    destruct (nh_move_head _ _ _ s prev zl b Hzb Hn) as [A B]. split; [exact A|].
    cbn [app cur start]. intros acc. rewrite <- B. cbn [subpaths]. rewrite shows_line_refl. reflexivity.
  - (* lz *)
    assert (Hn' : no_hazard (Pen (start s) (start s) NoCtrl) (Some ClosePath) false b).
    { cbn in Hn. destruct (point_eqb (cur s) (x, y)); tauto. }
    split.
    + cbn. repeat split; auto; discriminate.
    + cbn [abs map trace draw fst snd sdata absolute app cur start]. fold (abs b). rewrite H.
      apply eqv_cons. apply (eqv_invis shows). apply shows_line_refl.
  - (* lm *)
    assert (Hn' : exists prev' zl', no_hazard (fst (draw s (Seg true (LineTo x y)))) prev' zl' b).
    { cbn in Hn. destruct (point_eqb (cur s) (x, y)); [eauto|]. destruct Hn as (_ & _ & Hn). eauto. }
    destruct Hn' as (prev' & zl' & Hn').
    destruct (nh_move_head _ _ _ (fst (draw s (Seg true ClosePath))) (Some ClosePath) false b H0 Hn') as [A B].
    destruct (nh_move_head _ _ _ (fst (draw s (Seg true (LineTo x y)))) None false b H0 A) as [A' B'].
    split.
    + cbn [no_hazard zero_line]. repeat split; auto; discriminate.
    + cbn [abs map trace draw fst snd sdata absolute app cur start] in *. fold (abs b). rewrite H in *.
      apply eqv_cons. intros acc. rewrite <- B'. reflexivity.
  - (* zero *)
    cbn [no_hazard zero_line] in Hn. rewrite <- H0, point_eqb_refl in Hn.
    cbn [draw fst snd sdata absolute] in Hn.
    edestruct nh_weak as [A B]; [exact Hn| | | | | |].
    6: { split; [exact A|]. cbn [abs map trace draw fst snd sdata absolute app cur start]. fold (abs b).
         rewrite B. apply (eqv_invis shows). rewrite H0. apply shows_line_refl. }
    all: cbn; auto.
Qed.
Lemma reds_shape l m : reds l m -> shape l -> shape m.
Proof. induction 1; eauto using red_shape. Qed.
Lemma reds_sound l m : reds l m -> shape l -> harmless l ->
  harmless m /\ eqv shows (trace pen0 (abs l)) (trace pen0 (abs m)).
Proof.
  induction 1 as [|l m n H R IH]; intros Hs Hh; [split; [assumption|apply eqv_refl]|].
  destruct (red_sound _ _ H Hs Hh) as [A B].
  destruct (IH (red_shape _ _ H Hs) A) as [C D]. split; [assumption|]. eapply eqv_trans; eauto.
Qed.

(** The measure that every rule decreases. *)
Definition lines (l : list seg) : nat := List.length (filter (fun s => match s with LineTo _ _ => true | _ => false end) l).
Definition weight (l : list seg) : nat := (List.length l + lines l)%nat.
Lemma weight_app l m : weight (l ++ m) = (weight l + weight m)%nat.
Proof. unfold weight, lines. rewrite filter_app, !app_length. lia. Qed.
Lemma weight_cons s l : weight (s :: l) = (match s with LineTo _ _ => 2 | _ => 1 end + weight l)%nat.
Proof. unfold weight, lines. cbn [filter]. destruct s; cbn; lia. Qed.
Lemma red_weight l m : red l m -> (weight m < weight l)%nat.
Proof. destruct 1; rewrite ?weight_app, ?weight_cons; try destruct c; lia. Qed.
Lemma reds_weight l m : reds l m -> m = l \/ (weight m < weight l)%nat.
Proof. induction 1 as [|l m n H R [E|E]]; [now left| |]; right; apply red_weight in H; subst; lia. Qed.

Lemma drain_single_reds p : (forall a b, p a b = true -> forall x y, red (x ++ a :: b :: y) (x ++ b :: y)) ->
  forall l rl, reds (rev rl ++ l) (drain_single p rl l).
Proof.
  intros Hp. induction l as [|c l IH]; intros rl; cbn [drain_single].
  { rewrite app_nil_r. constructor. }
  destruct rl as [|prev rl]; [apply (IH [c])|].
  destruct (p prev c) eqn:E.
  - eapply reds_step; [|apply (IH (c :: rl))]. cbn [rev]. rewrite <- !app_assoc. cbn [app]. now apply Hp.
  - specialize (IH (c :: prev :: rl)). cbn [rev] in IH. rewrite <- !app_assoc in IH. cbn [rev app] in *.
    rewrite <- app_assoc. exact IH.
Qed.
Lemma drain_pairs_single_reds p : (forall a b, p a b = true -> forall x y, red (x ++ a :: b :: y) (x ++ b :: y)) ->
  forall l, reds l (drain_pairs_single p l).
Proof. intros Hp [|c l]; [constructor|]. apply (drain_single_reds p Hp l [c]). Qed.
Lemma drain_both_reds p : (forall a b, p a b = true -> forall x y, red (x ++ a :: b :: y) (x ++ y)) ->
  forall n l rl, (List.length l <= n)%nat -> reds (rev rl ++ l) (drain_both p rl l).
Proof.
  intros Hp. induction n as [|n IH]; intros [|c l] rl Hn; cbn [List.length] in Hn; try lia;
    cbn [drain_both]; try (rewrite app_nil_r; constructor).
  destruct rl as [|prev rl]; [apply (IH l [c]); lia|].
  destruct (p prev c) eqn:E.
  - destruct rl as [|q rl].
    + eapply reds_step; [apply (Hp prev c E [] l)|]. cbn [app].
      destruct l as [|a [|b l]]; try constructor. cbn [List.length] in Hn. apply (IH l [b; a]). lia.
    + eapply reds_step; [|apply (IH l (q :: rl)); lia]. cbn [rev]. rewrite <- !app_assoc. cbn [app].
      specialize (Hp prev c E (rev (q :: rl)) l). cbn [rev] in Hp. rewrite <- !app_assoc in Hp. exact Hp.
  - specialize (IH l (c :: prev :: rl)). cbn [rev] in IH. rewrite <- !app_assoc in IH. cbn [rev app] in *.
    rewrite <- app_assoc. apply IH. lia.
Qed.
Lemma remove_mm_reds l : reds l (remove_mm l).
Proof. apply drain_pairs_single_reds. intros [] [] E x' y'; try discriminate. apply red_mm. Qed.
Lemma remove_zz_reds l : reds l (remove_zz l).
Proof. apply drain_pairs_single_reds. intros [] [] E x' y'; try discriminate. apply red_eq. Qed.
Lemma remove_equal_reds l : reds l (remove_equal l).
Proof. apply drain_pairs_single_reds. intros a b E x' y'. destruct (seg_eqb_spec a b); [subst; apply red_eq|discriminate]. Qed.
Lemma remove_mz_reds l : reds l (remove_mz l).
Proof.
  destruct l as [|c l]; [constructor|]. unfold remove_mz, drain_pairs_both.
  apply (drain_both_reds _) with (rl := [c]) (n := List.length l); [|lia].
  intros [] [] E x' y'; try discriminate. apply red_mz.
Qed.

(** resolve_xy finds the current point when the segments are absolute, without H/V, and nothing but
    a MoveTo follows a ClosePath. *)
Lemma pen_at_snoc a c : pen_at (a ++ [c]) = fst (draw (pen_at a) (Seg true c)).
Proof. unfold pen_at. now rewrite run_abs_app. Qed.
Lemma resolve_some : forall rl, shape (rev rl) -> rl <> [] -> exists p, resolve_xy rl = Some p.
Proof.
  induction rl as [|c rl IH]; [congruence|]. cbn [rev]. intros [Hz Hf] _. cbn [resolve_xy].
  apply Forall_app in Hf as [Hf Hc]. inversion Hc; subst. rewrite zm_app in Hz. cbn in Hz.
  destruct c; cbn in *; try contradiction; eauto.
  apply IH; [split; tauto|]. intros ->. cbn in Hz. destruct Hz as [_ [Hz _]]. discriminate (Hz eq_refl).
Qed.
Lemma resolve_cur : forall rl p, Forall no_hv rl -> endz true (rev rl) = false -> resolve_xy rl = Some p ->
  cur (pen_at (rev rl)) = p.
Proof.
  intros [|c rl] p Hf He; [discriminate|]. inversion Hf; subst. cbn [rev] in *. rewrite endz_app in He. cbn in He.
  rewrite pen_at_snoc. destruct c; cbn in *; try contradiction; try discriminate; now intros [= <-].
Qed.

Lemma zero_length_reds : forall l rl, shape (rev rl ++ l) -> rl <> [] ->
  exists r, zero_length_go rl l = Some r /\ reds (rev rl ++ l) r.
Proof.
  induction l as [|c l IH]; intros rl Hs Hrl; cbn [zero_length_go].
  { rewrite app_nil_r. eexists. split; [reflexivity|constructor]. }
  assert (Hs' : shape (rev rl)).
  { destruct Hs as [Hz Hf]. rewrite zm_app in Hz. apply Forall_app in Hf. split; tauto. }
  destruct (resolve_some rl Hs' Hrl) as [[px py] E]. rewrite E.
  assert (Hk : exists r, zero_length_go (c :: rl) l = Some r /\ reds (rev rl ++ c :: l) r).
  { destruct (IH (c :: rl)) as (r & Er & R).
    - cbn [rev]. rewrite <- app_assoc. exact Hs.
    - congruence.
    - cbn [rev] in R. rewrite <- app_assoc in R. eauto. }
  destruct c; try exact Hk.
  destruct (qeqb x px && qeqb y py) eqn:Ez; [|exact Hk].
  apply andb_prop in Ez as [E1 E2]. destruct (qeqb_spec x px); [subst px|discriminate].
  destruct (qeqb_spec y py); [subst py|discriminate].
  assert (R : red (rev rl ++ LineTo x y :: l) (rev rl ++ l)).
  { assert (He : endz true (rev rl) = false).
    { destruct Hs as [Hz _]. rewrite zm_app in Hz. destruct Hz as [_ [Hz _]].
      destruct (endz true (rev rl)); [|reflexivity]. discriminate (Hz eq_refl). }
    apply red_zero; [exact He|]. apply resolve_cur; auto.
    destruct Hs' as [_ Hf]. rewrite Forall_forall in *. intros s Hin. apply Hf. now apply -> in_rev. }
  destruct (IH rl (red_shape _ _ R Hs) Hrl) as (r & Er & R').
  exists r. split; [exact Er|]. econstructor; eauto.
Qed.

Lemma drop_lines_reds mx my : forall rl b, start (pen_at (rev rl)) = (mx, my) ->
  start (pen_at (rev (drop_lines mx my rl))) = (mx, my) /\
  reds (rev rl ++ ClosePath :: b) (rev (drop_lines mx my rl) ++ ClosePath :: b).
Proof.
  induction rl as [|c rl IH]; intros b Hs; [split; [assumption|constructor]|].
  cbn [drop_lines]. destruct (at_move mx my c) eqn:E; [|split; [assumption|constructor]].
  destruct c; try discriminate. cbn [at_move] in E. apply andb_prop in E as [E1 E2].
  destruct (qeqb_spec mx x); [subst x|discriminate]. destruct (qeqb_spec my y); [subst y|discriminate].
  cbn [rev] in *. rewrite pen_at_snoc in Hs. cbn in Hs.
  destruct (IH b Hs) as [A B]. split; [exact A|]. eapply reds_step; [|exact B].
  rewrite <- app_assoc. cbn [app]. now apply red_lz.
Qed.
Lemma drop_lines_nonempty mx my rl : shape (rev rl) -> rl <> [] -> drop_lines mx my rl <> [].
Proof.
  induction rl as [|c rl IH]; [congruence|]. intros [Hz Hf] _. cbn [drop_lines].
  destruct (at_move mx my c) eqn:E; [|congruence]. cbn [rev] in *. rewrite zm_app in Hz. apply Forall_app in Hf.
  apply IH; [split; tauto|]. intros ->. destruct c; try discriminate. cbn in Hz. destruct Hz as [_ [Hz _]].
  discriminate (Hz eq_refl).
Qed.
Lemma at_move_eq mx my c : at_move mx my c = true -> c = LineTo mx my.
Proof.
  destruct c; try discriminate. cbn. intros E. apply andb_prop in E as [E1 E2].
  destruct (qeqb_spec mx x); [subst|discriminate]. destruct (qeqb_spec my y); [subst|discriminate]. reflexivity.
Qed.
Lemma start_snoc_nonmove a c : is_move c = false -> start (pen_at (a ++ [c])) = start (pen_at a).
Proof. rewrite pen_at_snoc. destruct c; cbn; congruence. Qed.

Lemma lz_go_reds : forall l mx my rl, shape (rev rl ++ l) -> rl <> [] -> start (pen_at (rev rl)) = (mx, my) ->
  reds (rev rl ++ l) (lz_go mx my rl l).
Proof.
  induction l as [|c l IH]; intros mx my rl Hs Hrl Hst; cbn [lz_go].
  { rewrite app_nil_r. constructor. }
  assert (Hgo : forall mx' my', start (pen_at (rev (c :: rl))) = (mx', my') ->
      reds (rev rl ++ c :: l) (lz_go mx' my' (c :: rl) l)).
  { intros mx' my' H. specialize (IH mx' my' (c :: rl)). cbn [rev] in *. rewrite <- app_assoc in IH. cbn [app] in IH.
    apply IH; [exact Hs|congruence|exact H]. }
  assert (Hkeep : is_move c = false -> reds (rev rl ++ c :: l) (lz_go mx my (c :: rl) l)).
  { intros Hm. apply Hgo. cbn [rev]. now rewrite start_snoc_nonmove. }
  assert (Hdef : is_move c = false -> is_close c = false ->
      reds (rev rl ++ c :: l) (match l with
        | [] => if at_move mx my c then rev (ClosePath :: drop_lines mx my rl) else rev (c :: rl)
        | _ => lz_go mx my (c :: rl) l end)).
  { intros Hm Hc. destruct l as [|d l]; [|now apply Hkeep].
    destruct (at_move mx my c) eqn:E; [|cbn; constructor].
    apply at_move_eq in E. subst c.
    eapply reds_step; [apply (red_lm (rev rl) mx my []); [exact Hst|exact I]|].
    cbn [rev]. now apply drop_lines_reds. }
  destruct c; try (apply Hdef; reflexivity).
  - (* MoveTo *)
    assert (Hplain : reds (rev rl ++ MoveTo x y :: l) (lz_go x y (MoveTo x y :: rl) l)).
    { apply Hgo. cbn [rev]. now rewrite pen_at_snoc. }
    destruct l as [|d l]; [exact Hplain|]. destruct rl as [|s rl]; [congruence|].
    destruct (at_move mx my s) eqn:E; [|exact Hplain].
    apply at_move_eq in E. subst s. cbn [rev] in *. rewrite pen_at_snoc in Hst. cbn in Hst.
    rewrite <- app_assoc in *. cbn [app] in *.
    assert (R : red (rev rl ++ LineTo mx my :: MoveTo x y :: d :: l) (rev rl ++ ClosePath :: MoveTo x y :: d :: l)).
    { apply red_lm; [exact Hst|]. destruct Hs as [Hz _]. rewrite zm_app in Hz. cbn in *. tauto. }
    eapply reds_step; [exact R|].
    specialize (IH x y (MoveTo x y :: ClosePath :: rl)). cbn [rev] in IH. rewrite <- !app_assoc in IH. cbn [app] in IH.
    apply IH; [eapply red_shape; eassumption|congruence|].
    change (rev rl ++ [ClosePath; MoveTo x y]) with (rev rl ++ [ClosePath] ++ [MoveTo x y]).
    rewrite app_assoc, pen_at_snoc. reflexivity.
  - (* ClosePath *)
    destruct (drop_lines_reds mx my rl l Hst) as [A B].
    eapply reds_trans; [exact B|].
    specialize (IH mx my (ClosePath :: drop_lines mx my rl)). cbn [rev] in IH. rewrite <- app_assoc in IH. cbn [app] in IH.
    apply IH; [eapply reds_shape; eassumption|congruence|].
    rewrite start_snoc_nonmove; [exact A|reflexivity].
Qed.
Lemma process_lz_reds l : shape l -> exists r, process_lz l = Some r /\ reds l r.
Proof.
  destruct l as [|c l]; intros Hs; [exists []; split; [reflexivity|constructor]|].
  destruct Hs as [[Hm Hz] Hf]. specialize (Hm eq_refl). destruct c; try discriminate. cbn [process_lz seg_x seg_y].
  eexists. split; [reflexivity|]. apply (lz_go_reds l x y [MoveTo x y]); [|congruence|reflexivity].
  split; [cbn; auto|assumption].
Qed.
Lemma remove_zero_length_reds l : shape l -> exists r, remove_zero_length l = Some r /\ reds l r.
Proof.
  destruct l as [|c l]; intros Hs; [exists []; split; [reflexivity|constructor]|].
  apply (zero_length_reds l [c] Hs). congruence.
Qed.

Lemma reds_len l m : reds l m -> List.length m = List.length l -> m = l \/ (weight m < weight l)%nat.
Proof. intros H _. now apply reds_weight. Qed.

(** One iteration of the removal loop. *)
Lemma figure_one s : match s with MoveTo _ _ => True | _ => False end -> subpaths shows [] (trace pen0 (abs [s])) = [].
Proof. destruct s; try contradiction. reflexivity. Qed.
Lemma rm_unused_step_ok l : shape l -> exists r b, rm_unused_step l = Some (r, b) /\ shape r /\
  (harmless l -> harmless r /\ figure (abs r) = figure (abs l)) /\ (b = true -> (weight r < weight l)%nat).
Proof.
  intros Hs. destruct l as [|c [|d l]].
  - exists [], false. repeat split; auto. cbn. discriminate.
  - exists [], false. repeat split; auto; try exact I; try discriminate.
    unfold figure. destruct Hs as [[Hm _] _]. specialize (Hm eq_refl). destruct c; try discriminate. reflexivity.
  - set (l0 := c :: d :: l) in *.
    assert (E0 : rm_unused_step l0 = rm_unused_step l0) by reflexivity. unfold rm_unused_step at 2 in E0.
    unfold l0 at 2 in E0. fold l0 in E0.
    pose proof (remove_mm_reds l0) as R1. set (l1 := remove_mm l0) in *.
    pose proof (remove_zz_reds l1) as R2. set (l2 := remove_zz l1) in *.
    pose proof (remove_mz_reds l2) as R3. set (l3 := remove_mz l2) in *.
    assert (R03 : reds l0 l3) by eauto using reds_trans.
    destruct (process_lz_reds l3 (reds_shape _ _ R03 Hs)) as (l4 & E4 & R4). rewrite E4 in E0.
    pose proof (remove_equal_reds l4) as R5. set (l5 := remove_equal l4) in *.
    assert (R05 : reds l0 l5) by eauto using reds_trans.
    destruct (remove_zero_length_reds l5 (reds_shape _ _ R05 Hs)) as (l6 & E6 & R6). rewrite E6 in E0.
    assert (R06 : reds l0 l6) by eauto using reds_trans.
    assert (Hs6 : shape l6) by eauto using reds_shape.
    assert (Hsem : harmless l0 -> harmless l6 /\ figure (abs l6) = figure (abs l0)).
    { intros Hh. destruct (reds_sound _ _ R06 Hs Hh) as [A B]. split; [exact A|]. symmetry. apply B. }
    set (b := negb _) in E0.
    assert (Hb : b = true -> (weight l6 < weight l0)%nat).
    { intros Hb. destruct (reds_weight _ _ R06) as [E|E]; [|exact E]. exfalso.
      pose proof (reds_weight _ _ R1) as W1. pose proof (reds_weight _ _ R2) as W2. pose proof (reds_weight _ _ R3) as W3.
      pose proof (reds_weight _ _ R4) as W4. pose proof (reds_weight _ _ R5) as W5. pose proof (reds_weight _ _ R6) as W6.
      assert (L1 : l1 = l0) by (destruct W1 as [?|W1]; [assumption|]; exfalso; clear b Hb E0; subst l6;
        repeat match goal with W : _ \/ _ |- _ => destruct W as [W|W]; [apply (f_equal weight) in W|] end; lia).
      assert (L2 : l2 = l1) by (destruct W2 as [?|W2]; [assumption|]; exfalso; clear b Hb E0; subst l6;
        repeat match goal with W : _ \/ _ |- _ => destruct W as [W|W]; [apply (f_equal weight) in W|] end; lia).
      assert (L3 : l3 = l2) by (destruct W3 as [?|W3]; [assumption|]; exfalso; clear b Hb E0; subst l6;
        repeat match goal with W : _ \/ _ |- _ => destruct W as [W|W]; [apply (f_equal weight) in W|] end; lia).
      assert (L4 : l4 = l3) by (destruct W4 as [?|W4]; [assumption|]; exfalso; clear b Hb E0; subst l6;
        repeat match goal with W : _ \/ _ |- _ => destruct W as [W|W]; [apply (f_equal weight) in W|] end; lia).
      assert (L5 : l5 = l4) by (destruct W5 as [?|W5]; [assumption|]; exfalso; clear b Hb E0; subst l6;
        repeat match goal with W : _ \/ _ |- _ => destruct W as [W|W]; [apply (f_equal weight) in W|] end; lia).
      unfold b in Hb. rewrite E, L5, L4, L3, L2, L1 in Hb. rewrite !Nat.eqb_refl in Hb.
      destruct (list_eqb_spec seg_eqb seg_eqb_spec l0 l0); [|congruence]. discriminate Hb. }
    clearbody b. destruct l6 as [|s l6].
    + exists [], false. repeat split; auto; try apply Hs6; try (now apply Hsem); discriminate.
    + exists (s :: l6), b. repeat split; auto; try apply Hs6; now apply Hsem.
Qed.
Lemma remove_unused_ok : forall fuel l, shape l -> (weight l < fuel)%nat ->
  exists r, remove_unused_loop fuel l = Some r /\ shape r /\ (harmless l -> figure (abs r) = figure (abs l)).
Proof.
  induction fuel as [|fuel IH]; intros l Hs Hw; [lia|]. cbn [remove_unused_loop].
  destruct (rm_unused_step_ok l Hs) as (r & b & E & Hr & Hsem & Hb). rewrite E. destruct b.
  - specialize (Hb eq_refl). destruct (IH r Hr) as (r' & E' & Hr' & Hsem'); [lia|].
    exists r'. repeat split; auto; try apply Hr'. intros Hh. destruct (Hsem Hh) as [A B]. rewrite <- B. auto.
  - exists r. repeat split; auto; try apply Hr. intros Hh. now apply Hsem.
Qed.
Lemma weight_bound l : (weight l <= 2 * List.length l)%nat.
Proof.
  unfold weight, lines. induction l as [|[] l IH]; cbn; lia.
Qed.

(** * Converting curves to lines and smooth curves *)
Lemma on_line_spec x1 y1 x2 y2 x y : is_point_on_line x1 y1 x2 y2 x y = true -> on_line (x1, y1) (x2, y2) (x, y).
Proof.
  unfold is_point_on_line, on_line. cbn [fst snd]. destruct (qeqb_spec x1 x2) as [|Hne]; [discriminate|].
  match goal with |- context [negb (qeqb ?u q0)] => destruct (qeqb_spec u q0) as [E|E] end; cbn [negb]; [|discriminate].
  intros _.
  assert (Hd : x2 - x1 <> 0) by (intros H; apply Hne; symmetry; apply Qcminus_eq_0_iff || (replace x2 with (x2 - x1 + x1) by ring; rewrite H; ring)).
  assert (Hm : ((y2 - y1) / (x2 - x1)) * (x2 - x1) = y2 - y1) by (field; exact Hd).
  set (m := (y2 - y1) / (x2 - x1)) in *.
  assert (Ey : y = m * x + (y1 - m * x1)).
  { replace y with (y - (m * x + (y1 - m * x1)) + (m * x + (y1 - m * x1))) by ring. rewrite E. unfold q0.
    change (zq 0) with 0. ring. }
  rewrite Ey, <- Hm. ring.
Qed.
Definition cs_ok (p : seg) (l : list seg) : Prop :=
  match l with s :: _ => is_smooth s = true -> match p, s with CurveTo _ _ _ _ _ _, SmoothCurve _ _ _ _ => False | _, _ => True end | [] => True end.
Fixpoint no_cs (p : seg) (l : list seg) : Prop := match l with [] => True | s :: l' => cs_ok p l /\ no_cs s l' end.
Lemma no_cs_of p l : (forall a b x1 y1 x2 y2 x y x2' y2' x' y',
    p :: l <> a ++ CurveTo x1 y1 x2 y2 x y :: SmoothCurve x2' y2' x' y' :: b) -> no_cs p l.
Proof.
  revert p. induction l as [|s l IH]; intros p H; cbn; [exact I|]. split.
  - intros _. destruct p, s; try exact I. eapply (H []). reflexivity.
  - apply IH. intros a b. intros. specialize (H (p :: a) b). cbn in H. intros E. eapply H. f_equal. exact E.
Qed.

Inductive ev_conv : ev -> ev -> Prop :=
| EvBreak : ev_conv Break Break
| EvDraw p q : kept_or_straightened p q -> ev_conv (Draw p) (Draw q).
Lemma kept_refl t : Forall2 ev_conv t t.
Proof. induction t as [|[]]; constructor; auto; constructor; constructor. Qed.

(** [p]: the last original segment, [s]/[s']: the pens after the original and the converted prefix. *)
Definition pens (p : seg) (s s' : pen) : Prop :=
  cur s = cur s' /\ start s = start s' /\
  (last s = last s' \/ (exists a b c d e f, p = CurveTo a b c d e f) /\ (exists c, last s = CubicCtrl c) /\ last s' = NoCtrl).
(** the control point stored in the pen after an (absolute) segment *)
Definition ctrl_of (p : seg) (c : ctrl) : Prop :=
  match p with
  | CurveTo _ _ x2 y2 _ _ | SmoothCurve x2 y2 _ _ => c = CubicCtrl (x2, y2)
  | _ => match c with CubicCtrl _ => False | _ => True end
  end.
Lemma ctrl_of_draw s c : ctrl_of c (last (fst (draw s (Seg true c)))).
Proof. destruct c; cbn; auto. Qed.

Lemma conv_curve_sound p px py x1 y1 x2 y2 x y c s :
  cur s = (px, py) -> ctrl_of p (last s) ->
  match p with CurveTo _ _ _ _ a b | SmoothCurve _ _ a b => (a, b) = (px, py) | _ => True end ->
  conv_curve p px py x1 y1 x2 y2 x y = Some c ->
  (c = LineTo x y /\ on_line (px, py) (x, y) (x1, y1) /\ on_line (px, py) (x, y) (x2, y2)) \/
  (c = SmoothCurve x2 y2 x y /\ draw s (Seg true c) = draw s (Seg true (CurveTo x1 y1 x2 y2 x y))).
Proof.
  intros Hcur Hctrl Hend. unfold conv_curve.
  destruct (_ && _ && _ && _ && _) eqn:Ev.
  { intros [= <-]. left. repeat (apply andb_prop in Ev as [Ev ?]).
    destruct (qeqb_spec px x); [subst px|discriminate]. destruct (qeqb_spec x1 x2); [subst x1|discriminate].
    destruct (qeqb_spec x2 x); [subst x2|discriminate]. unfold on_line; cbn. repeat split; ring. }
  clear Ev. destruct (_ && _ && _ && _ && _) eqn:Eh.
  { intros [= <-]. left. repeat (apply andb_prop in Eh as [Eh ?]).
    destruct (qeqb_spec py y); [subst py|discriminate]. destruct (qeqb_spec y1 y2); [subst y1|discriminate].
    destruct (qeqb_spec y2 y); [subst y2|discriminate]. unfold on_line; cbn. repeat split; ring. }
  clear Eh. destruct (_ && _) eqn:El.
  { intros [= <-]. left. apply andb_prop in El as [E1 E2]. repeat split; now apply on_line_spec. }
  clear El.
  assert (Href : forall nx ny, (let (nx1, ny1) := match p with
      | CurveTo _ _ px2 py2 ppx ppy | SmoothCurve px2 py2 ppx ppy => (ppx * zq 2 - px2, ppy * zq 2 - py2)
      | _ => (px, py) end in (nx1, ny1)) = (nx, ny) ->
      match last s with CubicCtrl c => reflect_at (cur s) c | _ => cur s end = (nx, ny)).
  { assert (E2 : forall a, a * zq 2 = a + a) by (intros a; change (zq 2) with (1 + 1); ring).
    intros nx ny. destruct p; cbn [ctrl_of] in Hctrl; try (rewrite Hctrl; unfold reflect_at);
      try (destruct (last s); [|contradiction|]); intros [= <- <-]; rewrite Hcur; cbn [fst snd];
      try reflexivity; inversion Hend; subst; f_equal; rewrite E2; ring. }
  destruct (match p with CurveTo _ _ _ _ _ _ => _ | _ => _ end) as [nx1 ny1] eqn:En.
  destruct (qeqb x1 nx1 && qeqb y1 ny1) eqn:Es; [|discriminate]. intros [= <-]. right. split; [reflexivity|].
  apply andb_prop in Es as [E1 E2]. destruct (qeqb_spec x1 nx1); [subst nx1|discriminate].
  destruct (qeqb_spec y1 ny1); [subst ny1|discriminate].
  cbn. rewrite (Href x1 y1 eq_refl). reflexivity.
Qed.

(** the prefix of converted segments determines the converted pen *)
Lemma conv_pass_ok : forall l p rl s ch, rl <> [] -> shape (rev rl ++ l) ->
  is_close p = (match rl with q :: _ => is_close q | [] => false end) ->
  pens p s (pen_at (rev rl)) -> no_cs p l ->
  exists r ch', conv_pass_go rl l ch = Some (rev rl ++ r, ch') /\ shape (rev rl ++ r) /\
    Forall2 ev_conv (trace s (abs l)) (trace (pen_at (rev rl)) (abs r)) /\
    (forall ch, exists ch2, conv_pass_go rl r ch = Some (rev rl ++ r, ch2) /\ ch2 = ch).
Proof.
  induction l as [|c l IH]; intros p rl s ch Hrl Hs Hcl Hp Hcs.
  { cbn [conv_pass_go]. exists [], ch. rewrite app_nil_r in *. repeat split; try apply Hs; [constructor|].
    intros. cbn. rewrite ?app_nil_r. eauto. }
  assert (Hs' : shape (rev rl)).
  { destruct Hs as [Hz Hf]. rewrite zm_app in Hz. apply Forall_app in Hf. split; tauto. }
  destruct (resolve_some rl Hs' Hrl) as [[px py] E]. destruct rl as [|q rl0] eqn:Erl; [congruence|].
  rewrite <- Erl in *. assert (Hqrl : exists rl0, rl = q :: rl0) by eauto. clear Erl.
  assert (Hcons : forall c l ch, conv_pass_go rl (c :: l) ch =
    match c with
    | CurveTo x1 y1 x2 y2 x y => match conv_curve q px py x1 y1 x2 y2 x y with
         | Some c' => conv_pass_go (c' :: rl) l true | None => conv_pass_go (c :: rl) l ch end
    | _ => conv_pass_go (c :: rl) l ch end).
  { intros c1 l1 ch1. cbn [conv_pass_go]. destruct Hqrl as [? ->]. rewrite E. reflexivity. }
  rewrite Hcons.
  assert (Hstep : forall c' ch0, shape (rev rl ++ c' :: l) -> is_close c = is_close c' ->
     pens c (fst (draw s (Seg true c))) (fst (draw (pen_at (rev rl)) (Seg true c'))) ->
     Forall2 ev_conv (snd (draw s (Seg true c))) (snd (draw (pen_at (rev rl)) (Seg true c'))) ->
     (forall r ch, conv_pass_go rl (c' :: r) ch = conv_pass_go (c' :: rl) r ch) ->
     exists r ch', conv_pass_go (c' :: rl) l ch0 = Some (rev rl ++ r, ch') /\ shape (rev rl ++ r) /\
       Forall2 ev_conv (trace s (abs (c :: l))) (trace (pen_at (rev rl)) (abs r)) /\
       (forall ch, exists ch2, conv_pass_go rl r ch = Some (rev rl ++ r, ch2) /\ ch2 = ch)).
  { intros c' ch0 Hsh Hcl' Hpen Hev Hagain.
    destruct (IH c (c' :: rl) (fst (draw s (Seg true c))) ch0) as (r & ch' & Er & Hr & Ht & Hi).
    - congruence.
    - cbn [rev]. now rewrite <- app_assoc.
    - exact Hcl'.
    - cbn [rev]. now rewrite pen_at_snoc.
    - apply Hcs.
    - cbn [rev] in *. rewrite <- app_assoc in *. cbn [app] in *. exists (c' :: r), ch'. repeat split; try apply Hr; auto.
      + cbn [abs map trace]. apply Forall2_app; [exact Hev|]. now rewrite pen_at_snoc in Ht.
      + intros ch1. destruct (Hi ch1) as (ch2 & E2 & ->). exists ch1. split; [|reflexivity].
        rewrite Hagain, E2. rewrite <- ?app_assoc. reflexivity. }
  assert (Hagain0 : forall c', (forall a b d e f g, c' <> CurveTo a b d e f g) ->
     forall r ch, conv_pass_go rl (c' :: r) ch = conv_pass_go (c' :: rl) r ch).
  { intros c' Hnc r ch1. rewrite Hcons. destruct c'; try reflexivity.
    now specialize (Hnc x1 y1 x2 y2 x y). }
  destruct Hp as (Hp1 & Hp2 & Hp3).
  assert (Hdraw_same : (match c with SmoothCurve _ _ _ _ => last s = last (pen_at (rev rl)) | _ => True end) ->
     pens c (fst (draw s (Seg true c))) (fst (draw (pen_at (rev rl)) (Seg true c))) /\
     Forall2 ev_conv (snd (draw s (Seg true c))) (snd (draw (pen_at (rev rl)) (Seg true c)))).
  { intros Hsm. assert (Hd : draw s (Seg true c) = draw (pen_at (rev rl)) (Seg true c)).
    { destruct s as [c1 s1 l1], (pen_at (rev rl)) as [c2 s2 l2]; cbn [cur start last] in *. subst c2 s2.
      destruct Hp3 as [->|(_ & (cc & ->) & ->)]; [reflexivity|].
      destruct c; try reflexivity. discriminate Hsm. }
    rewrite Hd. split; [repeat split; now left|apply kept_refl]. }
  assert (Hsmooth : match c with SmoothCurve _ _ _ _ => last s = last (pen_at (rev rl)) | _ => True end).
  { destruct c; try exact I. destruct Hp3 as [->|((a & b & d & e & f & g & ->) & _)]; [reflexivity|].
    destruct Hcs as [Hcs _]. exfalso. exact (Hcs eq_refl). }
  destruct (Hdraw_same Hsmooth) as [Hpen Hev].
  destruct c; try (apply Hstep; auto; apply Hagain0; congruence).
  (* CurveTo *)
  assert (He : endz true (rev rl) = false).
  { destruct Hs as [Hz _]. rewrite zm_app in Hz. destruct Hz as [_ [Hz _]].
    destruct (endz true (rev rl)); [|reflexivity]. discriminate (Hz eq_refl). }
  assert (Hcur : cur (pen_at (rev rl)) = (px, py)).
  { apply resolve_cur; auto. destruct Hs' as [_ Hf]. rewrite Forall_forall in *. intros d Hin. apply Hf. now apply -> in_rev. }
  destruct Hqrl as [rl1 Hrl1].
  assert (Hq : ctrl_of q (last (pen_at (rev rl)))).
  { rewrite Hrl1. cbn [rev]. rewrite pen_at_snoc. apply ctrl_of_draw. }
  assert (Hqe : match q with CurveTo _ _ _ _ a b | SmoothCurve _ _ a b => (a, b) = (px, py) | _ => True end).
  { rewrite Hrl1 in E. cbn [resolve_xy] in E. destruct q; try exact I; cbn in E; congruence. }
  destruct (conv_curve q px py x1 y1 x2 y2 x y) as [c'|] eqn:Ec.
  - destruct (conv_curve_sound _ _ _ _ _ _ _ _ _ _ _ Hcur Hq Hqe Ec) as [(-> & O1 & O2)|(-> & Hd)].
    + apply Hstep.
      * destruct Hs as [Hz Hf]. split.
        -- rewrite zm_app in *. cbn in *. tauto.
        -- rewrite Forall_app in *. destruct Hf as [Hf1 Hf2]. inversion Hf2; subst. split; [assumption|]. now constructor.
      * reflexivity.
      * unfold pens; cbn. repeat split; auto. right. repeat split; eauto 8.
      * cbn. rewrite Hp1, Hcur. constructor; [|constructor]. constructor. now constructor.
      * apply Hagain0. congruence.
    + rewrite <- Hd in Hpen, Hev. apply Hstep; auto.
      * destruct Hs as [Hz Hf]. split.
        -- rewrite zm_app in *. cbn in *. tauto.
        -- rewrite Forall_app in *. destruct Hf as [Hf1 Hf2]. inversion Hf2; subst. split; [assumption|]. now constructor.
      * apply Hagain0. congruence.
  - apply Hstep; auto. intros r ch1. rewrite Hcons. now rewrite Ec.
Qed.

Lemma conv_pass_top l : shape l -> no_smooth_after_curve l ->
  exists r b, conv_pass l = Some (r, b) /\ shape r /\ Forall2 ev_conv (trace pen0 (abs l)) (trace pen0 (abs r)) /\
    conv_pass r = Some (r, false).
Proof.
  intros Hs Hn. destruct l as [|c l].
  { exists [], false. repeat split; try apply Hs. constructor. }
  destruct (conv_pass_ok l c [c] (pen_at [c]) false) as (r & b & E & Hr & Ht & Hi).
  - congruence.
  - exact Hs.
  - reflexivity.
  - repeat split; now left.
  - apply no_cs_of. exact Hn.
  - cbn [rev app] in *. exists (c :: r), b. repeat split; try apply Hr; auto.
    + cbn [abs map trace]. apply Forall2_app; [apply kept_refl|exact Ht].
    + destruct (Hi false) as (ch2 & E2 & ->). exact E2.
Qed.
Lemma convert_segments_ok fuel l : (2 <= fuel)%nat -> shape l -> no_smooth_after_curve l ->
  exists r, convert_segments_loop fuel l = Some r /\ shape r /\ Forall2 ev_conv (trace pen0 (abs l)) (trace pen0 (abs r)).
Proof.
  intros Hf Hs Hn. destruct (conv_pass_top l Hs Hn) as (r & b & E & Hr & Ht & Ei).
  destruct fuel as [|[|fuel]]; try lia. cbn [convert_segments_loop]. rewrite E.
  exists r. destruct b; [rewrite Ei|]; auto.
Qed.

(** Without the condition on "S": the pass still ends, with a well-formed path. *)
Definition is_line_or_smooth_or_same (c c' : seg) : Prop :=
  c' = c \/ ((exists a b d e f g, c = CurveTo a b d e f g) /\ is_move c' = false /\ is_close c' = false /\ no_hv c').
Lemma conv_curve_shape p px py x1 y1 x2 y2 x y c : conv_curve p px py x1 y1 x2 y2 x y = Some c ->
  is_move c = false /\ is_close c = false /\ no_hv c /\ (forall a b d e f g, c <> CurveTo a b d e f g).
Proof.
  unfold conv_curve. repeat match goal with |- context [if ?b then _ else _] => destruct b end;
    try (destruct (match p with CurveTo _ _ _ _ _ _ => _ | _ => _ end) as [nx1 ny1];
         destruct (qeqb x1 nx1 && qeqb y1 ny1)); intros [= <-]; repeat split; congruence.
Qed.
Lemma conv_pass_total : forall l rl ch, rl <> [] -> shape (rev rl ++ l) ->
  exists r ch', conv_pass_go rl l ch = Some (rev rl ++ r, ch') /\ shape (rev rl ++ r) /\
    (forall ch, conv_pass_go rl r ch = Some (rev rl ++ r, ch)).
Proof.
  induction l as [|c l IH]; intros rl ch Hrl Hs.
  { cbn [conv_pass_go]. exists [], ch. rewrite app_nil_r in *. repeat split; try apply Hs. }
  assert (Hs' : shape (rev rl)).
  { destruct Hs as [Hz Hf]. rewrite zm_app in Hz. apply Forall_app in Hf. split; tauto. }
  destruct (resolve_some rl Hs' Hrl) as [[px py] E]. destruct rl as [|q rl0] eqn:Erl; [congruence|].
  rewrite <- Erl in *.
  assert (Hcons : forall c l ch, conv_pass_go rl (c :: l) ch =
    match c with
    | CurveTo x1 y1 x2 y2 x y => match conv_curve q px py x1 y1 x2 y2 x y with
         | Some c' => conv_pass_go (c' :: rl) l true | None => conv_pass_go (c :: rl) l ch end
    | _ => conv_pass_go (c :: rl) l ch end).
  { intros c1 l1 ch1. cbn [conv_pass_go]. subst rl. rewrite E. reflexivity. }
  assert (Hstep : forall c' ch0, shape (rev rl ++ c' :: l) ->
     (forall r ch, conv_pass_go rl (c' :: r) ch = conv_pass_go (c' :: rl) r ch) ->
     exists r ch', conv_pass_go (c' :: rl) l ch0 = Some (rev rl ++ r, ch') /\ shape (rev rl ++ r) /\
       (forall ch, conv_pass_go rl r ch = Some (rev rl ++ r, ch))).
  { intros c' ch0 Hsh Hag. destruct (IH (c' :: rl) ch0) as (r & ch' & Er & Hr & Hi).
    - congruence.
    - cbn [rev]. now rewrite <- app_assoc.
    - cbn [rev] in *. rewrite <- app_assoc in *. cbn [app] in *. exists (c' :: r), ch'.
      repeat split; try apply Hr; auto. intros ch1. rewrite Hag, Hi, <- ?app_assoc. reflexivity. }
  rewrite Hcons.
  destruct c; try (apply Hstep; [exact Hs|]; intros; rewrite Hcons; reflexivity).
  destruct (conv_curve q px py x1 y1 x2 y2 x y) as [c'|] eqn:Ec.
  - destruct (conv_curve_shape _ _ _ _ _ _ _ _ _ _ Ec) as (A & B & C & D).
    apply Hstep.
    + destruct Hs as [Hz Hf]. split.
      * rewrite zm_app in *. destruct Hz as [Hz1 Hz2]. cbn in Hz2 |- *. rewrite A, B. tauto.
      * rewrite Forall_app in *. destruct Hf as [Hf1 Hf2]. inversion Hf2; subst. split; [assumption|]. now constructor.
    + intros. rewrite Hcons. destruct c'; try reflexivity. now specialize (D x0 y0 x3 y3 x4 y4).
  - apply Hstep; [exact Hs|]. intros. rewrite Hcons, Ec. reflexivity.
Qed.
Lemma convert_segments_total fuel l : (2 <= fuel)%nat -> shape l ->
  exists r, convert_segments_loop fuel l = Some r /\ shape r.
Proof.
  intros Hf Hs. destruct fuel as [|[|fuel]]; try lia. cbn [convert_segments_loop].
  destruct l as [|c l]; [exists []; auto|]. cbn [conv_pass].
  destruct (conv_pass_total l [c] false) as (r & b & E & Hr & Hi); [congruence|exact Hs|].
  rewrite E. cbn [rev app] in *. exists (c :: r). destruct b; [|auto]. cbn [conv_pass]. rewrite Hi. auto.
Qed.

(** * apply_transform *)
Definition map_ctrl (k e f : Qc) (c : ctrl) : ctrl :=
  match c with NoCtrl => NoCtrl | CubicCtrl p => CubicCtrl (map_point k e f p) | QuadCtrl p => QuadCtrl (map_point k e f p) end.
Definition map_pen k e f (p : pen) : pen :=
  Pen (map_point k e f (cur p)) (map_point k e f (start p)) (map_ctrl k e f (last p)).
Definition map_ev k e f (v : ev) : ev := match v with Break => Break | Draw p => Draw (map_piece k e f p) end.
Lemma t_apply_uniform k e f x y : t_apply (Tr k q0 q0 k e f) x y = (k * x + e, k * y + f).
Proof. unfold t_apply; cbn. change q0 with 0. f_equal; ring. Qed.
Lemma map_reflect k e f p c : reflect_at (map_point k e f p) (map_point k e f c) = map_point k e f (reflect_at p c).
Proof. unfold reflect_at, map_point; cbn. f_equal; ring. Qed.
Lemma ts_draw k e f s c :
  draw (map_pen k e f s) (Seg true (ts_seg (Tr k q0 q0 k e f) k c)) =
  (map_pen k e f (fst (draw s (Seg true c))), map (map_ev k e f) (snd (draw s (Seg true c)))).
Proof.
  destruct s as [cu st la]; destruct c; cbn [ts_seg]; rewrite ?t_apply_uniform;
    unfold map_pen; cbn [draw fst snd sdata absolute cur start last map map_ev map_piece map_ctrl]; try reflexivity.
  - destruct la; cbn [map_ctrl]; rewrite ?map_reflect; reflexivity.
  - destruct la; cbn [map_ctrl]; rewrite ?map_reflect; reflexivity.
  - rewrite (Qcmult_comm rx k), (Qcmult_comm ry k). reflexivity.
Qed.
Lemma ts_trace k e f : forall l s,
  trace (map_pen k e f s) (abs (apply_transform (Tr k q0 q0 k e f) k l)) = map (map_ev k e f) (trace s (abs l)).
Proof.
  induction l as [|c l IH]; intros s; [reflexivity|]. cbn [apply_transform abs map trace].
  rewrite ts_draw. cbn [fst snd]. rewrite map_app. f_equal. apply IH.
Qed.
Lemma ts_shape t k l : shape l -> shape (apply_transform t k l).
Proof.
  intros [Hz Hf]. split.
  - clear Hf. revert Hz. generalize true. induction l as [|c l IH]; intros z; cbn; [auto|]. intros [A B]. split.
    + destruct c; cbn in *; auto.
    + specialize (IH _ B). destruct c; exact IH.
  - clear Hz. induction Hf as [|c l Hc Hf IH]; cbn; constructor; auto. destruct c; cbn in *; auto.
Qed.
Lemma subpaths_map vis k e f : (forall p, vis (map_piece k e f p) = vis p) -> forall t c,
  subpaths vis (map (map_piece k e f) c) (map (map_ev k e f) t) = map (map (map_piece k e f)) (subpaths vis c t).
Proof.
  intros Hv. induction t as [|[|p] t IH]; intros c; cbn.
  - destruct c; reflexivity.
  - rewrite map_app. rewrite <- (IH []). destruct c; reflexivity.
  - rewrite Hv. destruct (vis p); [|apply IH]. rewrite <- IH, map_app. reflexivity.
Qed.
Lemma shows_map k e f p : k <> 0 -> shows (map_piece k e f p) = shows p.
Proof.
  intros Hk. assert (H : forall a b, point_eqb (map_point k e f a) (map_point k e f b) = point_eqb a b).
  { intros [a a'] [b b']. destruct (point_eqb_spec (a, a') (b, b')) as [E|E].
    - rewrite E. apply point_eqb_refl.
    - destruct (point_eqb_spec (map_point k e f (a, a')) (map_point k e f (b, b'))) as [E'|]; [|reflexivity].
      exfalso. apply E. pose proof (f_equal fst E') as E1. pose proof (f_equal snd E') as E2. cbn [map_point fst snd] in E1, E2.
      assert (Hinj : forall u v w, k * u + w = k * v + w -> u = v).
      { intros u v w Eu.
        assert (E3 : k * u = k * v) by (replace (k * u) with (k * u + w - w) by ring; rewrite Eu; ring).
        replace u with (/ k * (k * u)) by (field; exact Hk). rewrite E3. field. exact Hk. }
      apply Hinj in E1. apply Hinj in E2. now subst. }
  destruct p; cbn; rewrite ?H; reflexivity.
Qed.
Lemma trace_move_first l s s' : zm_ok true l -> trace s (abs l) = trace s' (abs l).
Proof. destruct l as [|[] l]; cbn; try reflexivity; intros [H _]; discriminate (H eq_refl). Qed.
Lemma apply_transform_figure vis k e f l : (forall p, vis (map_piece k e f p) = vis p) -> shape l ->
  subpaths vis [] (trace pen0 (abs (apply_transform (Tr k q0 q0 k e f) k l))) =
  map (map (map_piece k e f)) (subpaths vis [] (trace pen0 (abs l))).
Proof.
  intros Hv Hs. rewrite <- (subpaths_map vis k e f Hv _ []). cbn [map]. rewrite <- ts_trace.
  f_equal. apply trace_move_first. apply (ts_shape _ _ _ Hs).
Qed.

(** * The whole pipeline *)
Lemma conv_to_absolute_head l : starts_with_move l -> match conv_to_absolute l with c :: _ => is_move c = true | [] => True end.
Proof.
  unfold conv_to_absolute. destruct l as [|[a d] l]; [auto|]. intros (x & y & E). cbn in E. subst d. cbn. destruct a; reflexivity.
Qed.
Definition normalise (l : list segment) : option (list seg) := convert_hv_to_l (fix_m (conv_to_absolute l)).
Lemma normalise_ok vis l : starts_with_move l ->
  exists r, normalise l = Some r /\ shape r /\ eqv vis (trace pen0 (abs r)) (trace pen0 l).
Proof.
  intros Hm. pose proof (conv_to_absolute_head l Hm) as Hh. unfold normalise.
  assert (Ht : trace pen0 (abs (conv_to_absolute l)) = trace pen0 l) by apply conv_to_absolute_ok.
  pose proof (fix_m_eqv vis (conv_to_absolute l) Hh) as He. rewrite Ht in He.
  assert (Hz : zm_ok true (fix_m (conv_to_absolute l)) /\
     match fix_m (conv_to_absolute l) with c :: _ => is_move c = true | [] => True end).
  { destruct (conv_to_absolute l) as [|c m]; [cbn; auto|]. cbn. repeat split; auto. apply fix_m_go_zm. }
  destruct Hz as [Hz Hh']. destruct (fix_m (conv_to_absolute l)) as [|c m] eqn:E.
  { exists []. repeat split; auto; constructor. }
  destruct c; try discriminate. cbn [convert_hv_to_l].
  destruct (hv_to_l_ok m (MoveTo x y) (fst (draw pen0 (Seg true (MoveTo x y))))) as (r & Er & Hr & Hzr & Hf).
  - exact I.
  - reflexivity.
  - apply Hz.
  - rewrite Er. exists (MoveTo x y :: r). split; [reflexivity|]. split.
    + split; [cbn; auto|]. constructor; [exact I|assumption].
    + intros acc. rewrite <- He. cbn [abs map trace]. fold (abs r) (abs m). now rewrite Hr.
Qed.
Lemma finish_ok l : shape l -> exists r, convert_l_to_hv l = Some r /\ trace pen0 (conv_to_relative r) = trace pen0 (abs l).
Proof.
  intros [Hz Hf]. destruct (l_to_hv_ok l q0 q0 true pen0 Hz Hf) as (r & E & Ht); [discriminate|].
  exists r. split; [exact E|]. rewrite <- Ht. apply conv_to_relative_ok.
Qed.
Lemma process_path_total opt m ts l : starts_with_move l -> exists r, process_path opt m ts l = Some r.
Proof.
  intros Hm. destruct l as [|s l]; [exists []; reflexivity|].
  destruct (normalise_ok shows (s :: l) Hm) as (l1 & E1 & Hs1 & _). unfold process_path. unfold normalise in E1. rewrite E1.
  cbn [obind].
  assert (H2 : exists l2, (if po_convert opt then convert_segments_loop (2 + List.length l1) l1 else Some l1) = Some l2 /\ shape l2).
  { destruct (po_convert opt); [|eauto]. apply convert_segments_total; [lia|assumption]. }
  destruct H2 as (l2 & E2 & Hs2). rewrite E2. cbn [obind].
  assert (H3 : exists l3, (if po_unused opt && negb m then remove_unused_loop (2 + 2 * List.length l2) l2 else Some l2) = Some l3 /\ shape l3).
  { destruct (po_unused opt && negb m); [|eauto].
    destruct (remove_unused_ok (2 + 2 * List.length l2) l2 Hs2) as (r & E & Hr & _); [pose proof (weight_bound l2); lia|]. eauto. }
  destruct H3 as (l3 & E3 & Hs3). rewrite E3. cbn [obind]. destruct l3 as [|c l3]; [eauto|].
  assert (Hs4 : shape (match ts with Some (t, sx) => apply_transform t sx (c :: l3) | None => c :: l3 end)).
  { destruct ts as [[t k]|]; [now apply ts_shape|assumption]. }
  destruct (finish_ok _ Hs4) as (r & E4 & _). rewrite E4. cbn. eauto.
Qed.
(** The figure, when curves are not converted. *)
Lemma process_path_figure opt m ts l r :
  starts_with_move l -> po_convert opt = false ->
  (po_unused opt = true -> m = false -> forall l1, normalise l = Some l1 -> harmless l1) ->
  process_path opt m ts l = Some r ->
  match ts with
  | None => figure r = figure l
  | Some (Tr a b c d e f, k) => b = q0 -> c = q0 -> d = a -> k = a -> a <> 0 -> figure r = map (map (map_piece a e f)) (figure l)
  end.
Proof.
  intros Hm Hc Hh. destruct l as [|s l].
  { intros [= <-]. destruct ts as [[[] ?]|]; reflexivity. }
  destruct (normalise_ok shows (s :: l) Hm) as (l1 & E1 & Hs1 & Hv1). specialize (fun A B => Hh A B l1 E1).
  unfold process_path. unfold normalise in E1. rewrite E1, Hc. cbn [obind].
  assert (H3 : exists l3, (if po_unused opt && negb m then remove_unused_loop (2 + 2 * List.length l1) l1 else Some l1) = Some l3
     /\ shape l3 /\ figure (abs l3) = figure (s :: l)).
  { assert (Hfig : figure (abs l1) = figure (s :: l)) by apply Hv1.
    destruct (po_unused opt); cbn [andb]; [|eauto]. destruct m; cbn [negb]; [eauto|].
    destruct (remove_unused_ok (2 + 2 * List.length l1) l1 Hs1) as (r' & E & Hr & Hf); [pose proof (weight_bound l1); lia|].
    exists r'. repeat split; auto; try apply Hr. rewrite Hf by auto. exact Hfig. }
  destruct H3 as (l3 & E3 & Hs3 & Hf3). rewrite E3. cbn [obind].
  destruct l3 as [|c l3].
  { intros [= <-]. rewrite <- Hf3. destruct ts as [[[] ?]|]; reflexivity. }
  destruct ts as [[[a b c' d e f] k]|].
  - intros E -> -> -> -> Ha.
    destruct (finish_ok _ (ts_shape (Tr a q0 q0 a e f) a _ Hs3)) as (r' & E4 & Ht). rewrite E4 in E. injection E as <-.
    unfold figure at 1. rewrite Ht. rewrite <- Hf3. apply apply_transform_figure; [|exact Hs3].
    intros p. now apply shows_map.
  - intros E. destruct (finish_ok _ Hs3) as (r' & E4 & Ht). rewrite E4 in E. injection E as <-.
    unfold figure at 1. rewrite Ht. exact Hf3.
Qed.

(** * Kinds of commands are kept by the normalisation *)
Lemma shift_seg_eq dx dy s : is_curve (shift_seg dx dy s) = is_curve s /\ is_smooth (shift_seg dx dy s) = is_smooth s.
Proof. destruct s; auto. Qed.
Lemma abs_curves : forall l px py mx my, without_curves l -> Forall (fun s => is_curve s = false) (conv_to_absolute_go px py mx my l).
Proof.
  induction l as [|[a d] l IH]; intros px py mx my H; cbn; [constructor|].
  assert (Hl : without_curves l) by (intros s Hs; apply H; now right).
  assert (Hd : is_curve d = false) by (apply (H (Seg a d)); now left).
  destruct a; destruct d; try discriminate Hd; cbn; constructor; auto.
Qed.
Lemma fix_m_curves : forall l mx my p, Forall (fun s => is_curve s = false) l -> Forall (fun s => is_curve s = false) (fix_m_go mx my p l).
Proof.
  induction l as [|c l IH]; intros mx my p H; cbn; [constructor|]. inversion H; subst.
  destruct (match p with MoveTo x y => (x, y) | _ => (mx, my) end).
  destruct (is_close p && negb (is_move c)); repeat constructor; auto.
Qed.
Lemma hv_curves : forall l p r, Forall (fun s => is_curve s = false) l -> hv_to_l_go p l = Some r -> Forall (fun s => is_curve s = false) r.
Proof.
  induction l as [|c l IH]; intros p r H; cbn; [intros [= <-]; constructor|]. inversion H; subst.
  destruct (match c with HLine _ => _ | VLine _ => _ | _ => _ end) as [c'|] eqn:E; [|discriminate].
  destruct (hv_to_l_go c' l) eqn:El; [|discriminate]. intros [= <-]. constructor; eauto.
  destruct c; cbn in *; try congruence; destruct p; cbn in E; try discriminate; injection E as <-; reflexivity.
Qed.
Lemma normalise_curves l r : without_curves l -> normalise l = Some r -> Forall (fun s => is_curve s = false) r.
Proof.
  intros H. unfold normalise, convert_hv_to_l, fix_m, conv_to_absolute.
  pose proof (abs_curves l q0 q0 q0 q0 H) as Ha.
  destruct (conv_to_absolute_go q0 q0 q0 q0 l) as [|c m]; [intros [= <-]; constructor|]. inversion Ha; subst.
  destruct (hv_to_l_go c (fix_m_go q0 q0 c m)) eqn:E; [|discriminate]. intros [= <-]. constructor; [assumption|].
  eapply hv_curves; [|exact E]. now apply fix_m_curves.
Qed.
Lemma harmless_no_curves : forall l p prev zl, Forall (fun s => is_curve s = false) l -> no_hazard p prev zl l.
Proof.
  induction l as [|s l IH]; intros p prev zl H; cbn; [exact I|]. inversion H; subst.
  destruct (zero_line p s); [auto|]. repeat split; auto; [congruence|].
  destruct s; cbn in *; congruence.
Qed.

Definition is_c (s : seg) : bool := match s with CurveTo _ _ _ _ _ _ => true | _ => false end.
Definition is_s (s : seg) : bool := match s with SmoothCurve _ _ _ _ => true | _ => false end.
Fixpoint ncs (c : bool) (l : list seg) : Prop :=
  match l with [] => True | s :: l' => (c = true -> is_s s = false) /\ ncs (is_c s) l' end.
Lemma ncs_no_cs : forall l p, ncs (is_c p) l <-> no_cs p l.
Proof.
  induction l as [|s l IH]; intros p; cbn; [tauto|]. rewrite IH. unfold cs_ok.
  destruct p, s; cbn; intuition (try congruence).
Qed.
Lemma ncs_of : forall l, no_smooth_after_curve l -> ncs false l.
Proof.
  intros l H. destruct l as [|p l]; [exact I|]. cbn. split; [discriminate|]. apply ncs_no_cs. apply no_cs_of. exact H.
Qed.
Lemma abs_ncs : forall l px py mx my c, ncs c (map sdata l) -> ncs c (conv_to_absolute_go px py mx my l).
Proof.
  induction l as [|[a d] l IH]; intros px py mx my c; cbn; [auto|]. intros [A B].
  destruct a; destruct d; cbn in *; split; auto.
Qed.
Lemma fix_m_ncs : forall l mx my p c, ncs c l -> ncs c (fix_m_go mx my p l).
Proof.
  induction l as [|s l IH]; intros mx my p c; cbn; [auto|]. intros [A B].
  destruct (match p with MoveTo x y => (x, y) | _ => (mx, my) end).
  destruct (is_close p && negb (is_move s)); cbn; repeat split; auto; discriminate.
Qed.
Lemma hv_ncs : forall l p r c, ncs c l -> hv_to_l_go p l = Some r -> ncs c r.
Proof.
  induction l as [|s l IH]; intros p r c; cbn; [intros _ [= <-]; exact I|]. intros [A B].
  destruct (match s with HLine _ => _ | VLine _ => _ | _ => _ end) as [s'|] eqn:E; [|discriminate].
  destruct (hv_to_l_go s' l) eqn:El; [|discriminate]. intros [= <-].
  assert (is_c s' = is_c s /\ is_s s' = is_s s) as [C D].
  { destruct s; cbn in *; try (injection E as <-; auto; fail); destruct p; cbn in E; try discriminate; injection E as <-; auto. }
  cbn. rewrite C, D. eauto.
Qed.
Lemma normalise_ncs l r : no_smooth_after_curve (map sdata l) -> normalise l = Some r -> ncs false r.
Proof.
  intros H. apply ncs_of in H. unfold normalise, convert_hv_to_l, fix_m, conv_to_absolute.
  pose proof (abs_ncs l q0 q0 q0 q0 false H) as Ha.
  destruct (conv_to_absolute_go q0 q0 q0 q0 l) as [|c m]; [intros [= <-]; exact I|]. destruct Ha as [_ Ha].
  destruct (hv_to_l_go c (fix_m_go q0 q0 c m)) eqn:E; [|discriminate]. intros [= <-]. cbn. split; [discriminate|].
  eapply hv_ncs; [|exact E]. now apply fix_m_ncs.
Qed.
Lemma ncs_to l : ncs false l -> no_smooth_after_curve l.
Proof.
  intros H a b x1 y1 x2 y2 x y x2' y2' x' y' ->. revert H. generalize false.
  induction a as [|s a IH]; intros c; cbn; [|intros [_ H]; eapply IH, H]. intros (_ & H & _). discriminate (H eq_refl).
Qed.
Lemma subpaths_all_conv : forall t t', Forall2 ev_conv t t' -> forall c c', Forall2 kept_or_straightened c c' ->
  Forall2 (Forall2 kept_or_straightened) (subpaths (fun _ => true) c t) (subpaths (fun _ => true) c' t').
Proof.
  induction 1 as [|e e' t t' He H IH]; intros c c' Hc; cbn.
  - destruct Hc; cbn; constructor; [constructor; auto|constructor].
  - destruct He as [|p q Hp].
    + apply Forall2_app; [|apply IH; constructor]. destruct Hc; cbn; constructor; [constructor; auto|constructor].
    + apply IH. apply Forall2_app; [assumption|]. constructor; [assumption|constructor].
Qed.
(** outlines *)
Lemma process_path_outline opt m ts l r :
  starts_with_move l -> po_convert opt = false -> po_unused opt && negb m = false ->
  process_path opt m ts l = Some r ->
  match ts with
  | None => outline r = outline l
  | Some (Tr a b c d e f, k) => b = q0 -> c = q0 -> d = a -> k = a -> outline r = map (map (map_piece a e f)) (outline l)
  end.
Proof.
  intros Hm Hc Hu. destruct l as [|s l].
  { intros [= <-]. destruct ts as [[[] ?]|]; reflexivity. }
  destruct (normalise_ok (fun _ => true) (s :: l) Hm) as (l1 & E1 & Hs1 & Hv1).
  unfold process_path. unfold normalise in E1. rewrite E1, Hc, Hu. cbn [obind].
  assert (Hfig : outline (abs l1) = outline (s :: l)) by apply Hv1.
  destruct l1 as [|c l1].
  { intros [= <-]. rewrite <- Hfig. destruct ts as [[[] ?]|]; reflexivity. }
  destruct ts as [[[a b c' d e f] k]|].
  - intros E -> -> -> ->.
    destruct (finish_ok _ (ts_shape (Tr a q0 q0 a e f) a _ Hs1)) as (r' & E4 & Ht). rewrite E4 in E. injection E as <-.
    unfold outline at 1. rewrite Ht. rewrite <- Hfig. apply apply_transform_figure; [|exact Hs1]. reflexivity.
  - intros E. destruct (finish_ok _ Hs1) as (r' & E4 & Ht). rewrite E4 in E. injection E as <-.
    unfold outline at 1. rewrite Ht. exact Hfig.
Qed.
Lemma process_path_convert opt m l r : starts_with_move l -> no_smooth_after_curve (map sdata l) ->
  po_convert opt = true -> po_unused opt && negb m = false ->
  process_path opt m None l = Some r ->
  Forall2 (Forall2 kept_or_straightened) (outline l) (outline r).
Proof.
  intros Hm Hn Hc Hu. destruct l as [|s l].
  { intros [= <-]. constructor. }
  destruct (normalise_ok (fun _ => true) (s :: l) Hm) as (l1 & E1 & Hs1 & Hv1).
  assert (Hn1 : no_smooth_after_curve l1) by (apply ncs_to; eapply normalise_ncs; eassumption).
  unfold process_path. unfold normalise in E1. rewrite E1, Hc. cbn [obind].
  destruct (convert_segments_ok (2 + List.length l1) l1 ltac:(lia) Hs1 Hn1) as (l2 & E2 & Hs2 & Ht2).
  rewrite E2. cbn [obind]. rewrite Hu. cbn [obind].
  assert (Hfig : outline (abs l1) = outline (s :: l)) by apply Hv1.
  assert (Hconv : Forall2 (Forall2 kept_or_straightened) (outline (s :: l)) (outline (abs l2))).
  { rewrite <- Hfig. apply subpaths_all_conv; [exact Ht2|constructor]. }
  destruct l2 as [|c l2]; [intros [= <-]; exact Hconv|].
  intros E. destruct (finish_ok _ Hs2) as (r' & E4 & Ht). rewrite E4 in E. injection E as <-.
  unfold outline at 2. rewrite Ht. exact Hconv.
Qed.
