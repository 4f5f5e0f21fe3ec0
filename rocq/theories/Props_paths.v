(** Properties C37 - C41 (path data). Specification: SpecPath.v, SpecCurve.v. *)
From Coq Require Import List Bool ZArith QArith Qcanon Reals Lra Lia.
From Verif Require Import Names Num Value Paths SpecPath SpecCurve PathProofs PathReals.
Import ListNotations.
Local Open Scope Qc_scope.

(** * C37: normalisation does not change what is drawn *)
Theorem C37_to_absolute : forall l, outline (abs (conv_to_absolute l)) = outline l.
Proof. intros l. unfold outline. f_equal. apply conv_to_absolute_ok. Qed.
Theorem C37_to_relative : forall l, outline (conv_to_relative l) = outline (abs l).
Proof. intros l. unfold outline. f_equal. apply conv_to_relative_ok. Qed.
(** The whole path processing without optional steps: absolute form, explicit MoveTo after ClosePath,
    H/V to L, L to H/V, relative form. *)
Theorem C37_normalisation : forall m l, starts_with_move l ->
  exists r, process_path (PO false false) m None l = Some r /\ outline r = outline l.
Proof.
  intros m l H. destruct (process_path_total (PO false false) m None l H) as [r E]. exists r. split; [exact E|].
  exact (process_path_outline (PO false false) m None l r H eq_refl eq_refl E).
Qed.
Print Assumptions C37_normalisation.
(** After it every command is relative. *)
Theorem C37_all_relative : forall opt m ts l r, process_path opt m ts l = Some r -> forall s, In s r -> absolute s = false.
Proof.
  assert (G : forall l px py mx my s, In s (conv_to_relative_go px py mx my l) -> absolute s = false).
  { induction l as [|c l IH]; intros px py mx my s; cbn; [contradiction|]. intros [<-|H]; [reflexivity|].
    destruct c; eapply IH; exact H. }
  intros opt m ts l r. unfold process_path. destruct l as [|s l]; [intros [= <-]; contradiction|].
  unfold obind. destruct (convert_hv_to_l _) as [l1|]; [|discriminate].
  destruct (if po_convert opt then _ else _) as [l2|]; [|discriminate].
  destruct (if po_unused opt && negb m then _ else _) as [[|c l3]|]; try discriminate; [intros [= <-]; contradiction|].
  destruct (convert_l_to_hv _) as [l5|]; [|discriminate]. intros [= <-]. apply G.
Qed.
(** H after Z, relative commands, and an arc. *)
Definition ex37 : list segment :=
  [Seg false (MoveTo (zq 10) (zq 20)); Seg false (HLine (zq 5)); Seg true (VLine (zq 40)); Seg true ClosePath;
   Seg false (HLine (zq 7)); Seg false (Arc (zq 3) (zq 4) q0 true false (zq 1) (zq 2))].
Example C37_instance : starts_with_move ex37 /\ List.length (outline ex37) = 2%nat /\
  match process_path (PO false false) false None ex37 with Some r => List.length r = 7%nat | None => False end.
Proof. split; [cbn; eauto|]. split; vm_compute; reflexivity. Qed.

(** * C38: removing unused segments *)
(** The figure (what is drawn, without pieces that paint nothing) stays, if the two hazards do not
    occur in the absolute form of the path: a curve that repeats the segment before it, and a smooth
    curve after a zero-length line. What is missing: in these two situations the figure changes, see
    the refutations below. *)
Theorem C38_remove_unused_partial : forall l r,
  starts_with_move l ->
  (forall l1, convert_hv_to_l (fix_m (conv_to_absolute l)) = Some l1 -> harmless l1) ->
  process_path (PO false true) false None l = Some r -> figure r = figure l.
Proof. intros l r H Hh E. apply (process_path_figure (PO false true) false None l r H eq_refl); auto. Qed.
Print Assumptions C38_remove_unused_partial.
(** For paths of lines and arcs there is no condition. *)
Theorem C38_lines_and_arcs : forall l r, starts_with_move l -> without_curves l ->
  process_path (PO false true) false None l = Some r -> figure r = figure l.
Proof.
  intros l r H Hc E. apply C38_remove_unused_partial; auto. intros l1 E1.
  apply harmless_no_curves. eapply normalise_curves; eassumption.
Qed.
Print Assumptions C38_lines_and_arcs.
(** The removal loop ends: the bound on the number of iterations used in the model is never reached,
    and a larger bound gives the same result. *)
Theorem C38_terminates : forall l l1, starts_with_move l -> convert_hv_to_l (fix_m (conv_to_absolute l)) = Some l1 ->
  exists r, forall fuel, (2 * List.length l1 < fuel)%nat -> remove_unused_loop fuel l1 = Some r.
Proof.
  intros l l1 H E. destruct (normalise_ok shows l H) as (l1' & E1 & Hs & _). unfold normalise in E1.
  assert (l1' = l1) by congruence. subst l1'. clear E E1.
  destruct (remove_unused_ok (1 + 2 * List.length l1) l1 Hs) as (r & Er & _); [pose proof (weight_bound l1); lia|].
  exists r. intros fuel Hf. destruct (remove_unused_ok fuel l1 Hs) as (r' & Er' & _); [pose proof (weight_bound l1); lia|].
  rewrite Er'. f_equal.
  assert (mono : forall f g m x y, remove_unused_loop f m = Some x -> remove_unused_loop g m = Some y -> x = y).
  { induction f as [|f IH]; intros [|g] m x y; cbn; try discriminate.
    destruct (rm_unused_step m) as [[m' []]|]; try discriminate; [apply IH|congruence]. }
  eapply mono; eassumption.
Qed.
Print Assumptions C38_terminates.
Definition pt (z w : Z) (f : Qc -> Qc -> seg) : segment := Seg true (f (zq z) (zq w)).
(** A square closed twice over, with a repeated point, and a null subpath. *)
Definition ex38 : list segment :=
  [pt 10 10 MoveTo; pt 20 10 LineTo; pt 20 10 LineTo; pt 20 20 LineTo; pt 10 10 LineTo; Seg true ClosePath;
   pt 1 1 MoveTo; Seg true ClosePath; pt 5 5 LineTo].
Example C38_instance : starts_with_move ex38 /\ without_curves ex38 /\
  match process_path (PO false true) false None ex38 with Some r => List.length r = 6%nat | None => False end /\
  map (@List.length piece) (figure ex38) = [3%nat; 1%nat].
Proof.
  split; [cbn; eauto|]. split.
  - intros s H. cbn in H. repeat (destruct H as [<-|H]; [reflexivity|]). contradiction.
  - split; vm_compute; reflexivity.
Qed.
(** A curve between zero-length lines is harmless. *)
Example C38_instance_curves : 
  let l := [MoveTo q0 q0; LineTo q0 q0; CurveTo q0 q1 q1 q1 q1 q0; SmoothCurve q1 q1 (zq 5) (zq 5); LineTo (zq 5) (zq 5)] in
  harmless l /\ figure (conv_to_relative match remove_unused_loop 20 l with Some r => r | None => [] end) = figure (abs l).
Proof.
  cbv zeta. assert (H : harmless [MoveTo q0 q0; LineTo q0 q0; CurveTo q0 q1 q1 q1 q1 q0; SmoothCurve q1 q1 (zq 5) (zq 5); LineTo (zq 5) (zq 5)]).
  { cbn. repeat split; congruence. }
  split; [exact H|].
  assert (Hs : shape [MoveTo q0 q0; LineTo q0 q0; CurveTo q0 q1 q1 q1 q1 q0; SmoothCurve q1 q1 (zq 5) (zq 5); LineTo (zq 5) (zq 5)]).
  { split; [cbn; repeat split; discriminate|repeat constructor]. }
  destruct (remove_unused_ok 20 _ Hs) as (r & E & Hr & Hf); [vm_compute; repeat constructor|]. rewrite E.
  transitivity (figure (abs r)); [|now apply Hf]. unfold figure. f_equal. apply conv_to_relative_ok.
Qed.

(** Two equal curves in a row are not the same as one: the second one starts where the first one ends. *)
Definition count (o : list (list piece)) : nat := List.length (concat o).
Theorem C38_equal_curves_refuted : exists l r, starts_with_move l /\
  process_path (PO false true) false None l = Some r /\ count (figure l) = 2%nat /\ count (figure r) = 1%nat.
Proof.
  exists [pt 10 10 MoveTo; Seg true (CurveTo (zq 20) (zq 20) (zq 30) (zq 30) (zq 40) (zq 10));
          Seg true (CurveTo (zq 20) (zq 20) (zq 30) (zq 30) (zq 40) (zq 10))].
  eexists. split; [cbn; eauto|]. split; [vm_compute; reflexivity|]. split; vm_compute; reflexivity.
Qed.
Theorem C38_equal_smooth_quads_refuted : exists l r, starts_with_move l /\
  process_path (PO false true) false None l = Some r /\ count (figure l) = 3%nat /\ count (figure r) = 2%nat.
Proof.
  exists [pt 10 10 MoveTo; Seg true (Quad (zq 20) (zq 20) (zq 30) (zq 10)); pt 40 10 SmoothQuad; pt 40 10 SmoothQuad].
  eexists. split; [cbn; eauto|]. split; [vm_compute; reflexivity|]. split; vm_compute; reflexivity.
Qed.
(** Removing a zero-length line before a smooth curve changes its first control point. *)
Definition cubic_controls (o : list (list piece)) : list (Qc * Qc) :=
  flat_map (fun p => match p with PCubic _ c1 _ _ => [c1] | _ => [] end) (concat o).
Theorem C38_smooth_after_zero_line_refuted : exists l r, starts_with_move l /\
  process_path (PO false true) false None l = Some r /\
  list_eqb point_eqb (cubic_controls (figure l)) [(zq 10, zq 20); (zq 40, zq 10)] = true /\
  list_eqb point_eqb (cubic_controls (figure r)) [(zq 10, zq 20); (zq 40, zq 0)] = true.
Proof.
  exists [pt 10 10 MoveTo; Seg true (CurveTo (zq 10) (zq 20) (zq 40) (zq 20) (zq 40) (zq 10));
          pt 40 10 LineTo; Seg true (SmoothCurve (zq 60) (zq 20) (zq 60) (zq 10))].
  eexists. split; [cbn; eauto|]. split; [vm_compute; reflexivity|]. split; vm_compute; reflexivity.
Qed.

(** * C39: converting curves *)
(** Every piece stays as it is, or is a cubic curve whose control points are on the line through its
    ends and becomes the line between its ends. What is missing: paths with an S command directly
    after a C command (refuted below), and control points beyond the ends (refuted below). *)
Theorem C39_convert_partial : forall m l r, starts_with_move l -> no_smooth_after_curve (map sdata l) ->
  process_path (PO true false) m None l = Some r ->
  Forall2 (Forall2 kept_or_straightened) (outline l) (outline r).
Proof. intros m l r H Hn E. exact (process_path_convert (PO true false) m l r H Hn eq_refl eq_refl E). Qed.
Print Assumptions C39_convert_partial.
(** If the control points of straight curves lie between the ends, the path covers the same points of
    the plane. *)
Theorem C39_same_points_partial : forall other m l r, starts_with_move l -> no_smooth_after_curve (map sdata l) ->
  tame (outline l) -> process_path (PO true false) m None l = Some r ->
  forall X Y : R, covered other (outline l) X Y <-> covered other (outline r) X Y.
Proof.
  intros other m l r H Hn Ht E X Y. pose proof (C39_convert_partial m l r H Hn E) as F.
  set (o := outline l) in *. set (o' := outline r) in *. clearbody o o'. clear E H Hn.
  assert (Hp : forall s p q, In s o -> In p s -> kept_or_straightened p q -> (covers other p X Y <-> covers other q X Y)).
  { intros s p q Hs Hin K. destruct K as [|a c1 c2 b O1 O2]; [reflexivity|].
    destruct (Ht s a c1 c2 b Hs Hin O1 O2) as [B1 B2]. cbn. now apply cubic_between_is_segment. }
  clear Ht. unfold covered. induction F as [|s s' o o' Hss F IH].
  { split; intros (? & ? & [] & _). }
  assert (Hin : (exists p, In p s /\ covers other p X Y) <-> (exists p, In p s' /\ covers other p X Y)).
  { specialize (Hp s). assert (Hp' := fun p q => Hp p q (or_introl eq_refl)). clear Hp IH F. revert Hp'.
    induction Hss as [|p q s s' K Hss IH]; intros Hp; [reflexivity|].
    specialize (IH (fun p0 q0 Hi => Hp p0 q0 (or_intror Hi))). specialize (Hp p q (or_introl eq_refl) K).
    split; intros (p' & [<-|Hi] & C).
    - exists q. split; [now left|]. now apply Hp.
    - destruct IH as [IH _]. destruct IH as (p2 & I2 & C2); [eauto|]. exists p2. split; [now right|exact C2].
    - exists p. split; [now left|]. now apply Hp.
    - destruct IH as [_ IH]. destruct IH as (p2 & I2 & C2); [eauto|]. exists p2. split; [now right|exact C2]. }
  assert (IH' := IH (fun s0 p q Hi => Hp s0 p q (or_intror Hi))). clear IH.
  split.
  - intros (s0 & p & [<-|Hi] & Hps & C).
    + destruct (proj1 Hin) as (p' & I' & C'); [eauto|]. exists s', p'. split; [now left|auto].
    + destruct (proj1 IH') as (s1 & p1 & I1 & J1 & C1); [exists s0, p; auto|]. exists s1, p1. split; [now right|auto].
  - intros (s0 & p & [<-|Hi] & Hps & C).
    + destruct (proj2 Hin) as (p' & I' & C'); [eauto|]. exists s, p'. split; [now left|auto].
    + destruct (proj2 IH') as (s1 & p1 & I1 & J1 & C1); [exists s0, p; auto|]. exists s1, p1. split; [now right|auto].
Qed.
Print Assumptions C39_same_points_partial.
(** The conversion loop ends for every path after at most two rounds. *)
Theorem C39_terminates : forall l l1, starts_with_move l -> convert_hv_to_l (fix_m (conv_to_absolute l)) = Some l1 ->
  exists r, forall fuel, (2 <= fuel)%nat -> convert_segments_loop fuel l1 = Some r.
Proof.
  intros l l1 H E. destruct (normalise_ok shows l H) as (l1' & E1 & Hs & _). unfold normalise in E1.
  assert (l1' = l1) by congruence. subst l1'. clear E E1.
  destruct (convert_segments_total 2 l1 ltac:(lia) Hs) as (r & Er & _).
  exists r. intros fuel Hf. destruct (convert_segments_total fuel l1 Hf Hs) as (r' & Er' & _). rewrite Er'. f_equal.
  assert (mono : forall f g m x y, convert_segments_loop f m = Some x -> convert_segments_loop g m = Some y -> x = y).
  { induction f as [|f IH]; intros [|g] m x y; cbn; try discriminate.
    destruct (conv_pass m) as [[m' []]|]; try discriminate; [apply IH|congruence]. }
  eapply mono; eassumption.
Qed.
Definition ex39 : list segment :=
  [pt 10 10 MoveTo; Seg true (CurveTo (zq 10) (zq 15) (zq 10) (zq 20) (zq 10) (zq 40));
   Seg true (CurveTo (zq 10) (zq 40) (zq 20) (zq 50) (zq 30) (zq 40));
   Seg true (CurveTo (zq 40) (zq 30) (zq 50) (zq 10) (zq 60) (zq 60))].
Example C39_instance : starts_with_move ex39 /\ no_smooth_after_curve (map sdata ex39) /\
  match process_path (PO true false) false None ex39 with
  | Some r => map (fun s => match sdata s with VLine _ => 1 | SmoothCurve _ _ _ _ => 2 | MoveTo _ _ => 0 | _ => 9 end)%nat r = [0; 1; 2; 2]%nat
  | None => False end /\ tame (outline ex39).
Proof.
  split; [cbn; eauto|]. split; [|split].
  - intros a b x1 y1 x2 y2 x y x2' y2' x' y' E.
    assert (Hn : forall s, In s (map sdata ex39) -> is_s s = false).
    { intros s Hs. cbn in Hs. repeat (destruct Hs as [<-|Hs]; [reflexivity|]). contradiction. }
    specialize (Hn (SmoothCurve x2' y2' x' y')). rewrite E in Hn. cbn in Hn.
    discriminate Hn. apply in_or_app. right. right. now left.
  - vm_compute. reflexivity.
  - intros s a c1 c2 b Hs Hp O1 O2. cbn in Hs. destruct Hs as [<-|[]].
    cbn in Hp. destruct Hp as [E|[E|[E|[]]]]; injection E as <- <- <- <-.
    + split; [exists (fq 1 6)|exists (fq 1 3)]; (split; [apply (Qle_bool_imp_le); reflexivity|]); (split; [apply (Qle_bool_imp_le); reflexivity|]);
        f_equal; apply Qc_is_canon; vm_compute; reflexivity.
    + exfalso. unfold on_line in O2. apply (f_equal this) in O2. vm_compute in O2. discriminate.
    + exfalso. unfold on_line in O1. apply (f_equal this) in O1. vm_compute in O1. discriminate.
Qed.

(** A vertical curve that overshoots its end: the drawn points go up to y = 50, the line ends at 40. *)
Theorem C39_overshooting_curve_refuted : exists l r, starts_with_move l /\ no_smooth_after_curve (map sdata l) /\
  process_path (PO true false) false None l = Some r /\
  exists X Y, covered (fun _ _ _ => False) (outline l) X Y /\ ~ covered (fun _ _ _ => False) (outline r) X Y.
Proof.
  set (l := [pt 10 10 MoveTo; Seg true (CurveTo (zq 10) (zq 110) (zq 10) (zq 20) (zq 10) (zq 40))]).
  exists l. destruct (process_path (PO true false) false None l) as [r|] eqn:E; [|vm_compute in E; discriminate].
  exists r. split; [cbn; eauto|]. split; [|split; [reflexivity|]].
  { intros a b x1 y1 x2 y2 x y x2' y2' x' y' El.
    assert (Hn : forall s, In s (map sdata l) -> is_s s = false).
    { intros s Hs. cbn in Hs. repeat (destruct Hs as [<-|Hs]; [reflexivity|]). contradiction. }
    specialize (Hn (SmoothCurve x2' y2' x' y')). rewrite El in Hn. cbn in Hn.
    discriminate Hn. apply in_or_app. right. right. now left. }
  assert (Eo : forall s p, In s (outline r) -> In p s -> exists a b, p = PLine a b /\ this (snd a) = (10 # 1)%Q /\ this (snd b) = (40 # 1)%Q).
  { vm_compute in E. injection E as <-. intros s p Hs Hp. cbn in Hs. destruct Hs as [<-|[]]. cbn in Hp. destruct Hp as [<-|[]].
    eexists. eexists. split; [reflexivity|]. split; vm_compute; reflexivity. }
  exists 10%R. exists (bezier (1/2) 10 110 20 40). split.
  - eexists. eexists. split; [left; reflexivity|]. split; [left; reflexivity|]. cbn. exists (1/2)%R. split; [lra|].
    unfold bezier, real, Q2R; cbn. split; lra.
  - intros (s & p & Hs & Hp & C). destruct (Eo s p Hs Hp) as (a & b & -> & Ea & Eb). cbn in C.
    destruct C as (t & Ht & _ & C). unfold real in C. rewrite Ea, Eb in C. unfold bezier, Q2R in C. cbn in C. lra.
Qed.
Print Assumptions C39_overshooting_curve_refuted.
(** An S command after a converted C command: the first control point of S was the reflection of the
    last control point of C, afterwards it is the current point. *)
Theorem C39_smooth_after_converted_refuted : exists l r, starts_with_move l /\
  process_path (PO true false) false None l = Some r /\
  list_eqb point_eqb (cubic_controls (outline l)) [(zq 10, zq 15); (zq 10, zq 60)] = true /\
  list_eqb point_eqb (cubic_controls (outline r)) [(zq 10, zq 40)] = true.
Proof.
  exists [pt 10 10 MoveTo; Seg true (CurveTo (zq 10) (zq 15) (zq 10) (zq 20) (zq 10) (zq 40));
          Seg true (SmoothCurve (zq 50) (zq 50) (zq 60) (zq 60))].
  eexists. split; [cbn; eauto|]. split; [vm_compute; reflexivity|]. split; vm_compute; reflexivity.
Qed.

(** * C40: applying a transform to path data *)
(** [a] is the scale of the transform matrix (a 0 0 a e f); other matrices are not applied, see
    the theorems on process_paths. *)
Theorem C40_apply_transform : forall m a e f l, starts_with_move l ->
  exists r, process_path (PO false false) m (Some (Tr a q0 q0 a e f, a)) l = Some r /\
    outline r = map (map (map_piece a e f)) (outline l).
Proof.
  intros m a e f l H. destruct (process_path_total (PO false false) m (Some (Tr a q0 q0 a e f, a)) l H) as [r E]. exists r.
  split; [exact E|]. exact (process_path_outline (PO false false) m _ l r H eq_refl eq_refl E eq_refl eq_refl eq_refl eq_refl).
Qed.
Print Assumptions C40_apply_transform.
(** Together with the removal of unused segments. *)
Theorem C40_apply_transform_and_clean_partial : forall m a e f l r, starts_with_move l -> a <> 0 ->
  (m = false -> forall l1, convert_hv_to_l (fix_m (conv_to_absolute l)) = Some l1 -> harmless l1) ->
  process_path (PO false true) m (Some (Tr a q0 q0 a e f, a)) l = Some r ->
  figure r = map (map (map_piece a e f)) (figure l).
Proof.
  intros m a e f l r H Ha Hh E.
  refine (process_path_figure (PO false true) m _ l r H eq_refl _ E eq_refl eq_refl eq_refl eq_refl Ha). auto.
Qed.
Print Assumptions C40_apply_transform_and_clean_partial.
Example C40_instance : starts_with_move ex37 /\
  match process_path (PO false false) false (Some (Tr (zq 2) q0 q0 (zq 2) (zq 7) (zq 8), zq 2)) ex37 with
  | Some (Seg false (MoveTo x y) :: _) => qeqb x (zq 27) && qeqb y (zq 48) = true
  | _ => False end.
Proof. split; [cbn; eauto|]. vm_compute. reflexivity. Qed.

(** * C41: no panic *)
Theorem C41_no_panic : forall opt m ts l, starts_with_move l -> process_path opt m ts l <> None.
Proof. intros opt m ts l H. destruct (process_path_total opt m ts l H) as [r ->]. discriminate. Qed.
Print Assumptions C41_no_panic.
(** The condition is needed: "V 1 H 1" leads to a panic. *)
Example C41_needs_move : process_path (PO true true) false None [Seg true (VLine q1); Seg true (HLine q1)] = None.
Proof. vm_compute. reflexivity. Qed.
Example C41_instance : starts_with_move ex38 /\ starts_with_move ex39.
Proof. split; cbn; eauto. Qed.
