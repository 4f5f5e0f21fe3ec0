(** C45: the options for path data switch the steps that they name. Specifications: SpecPath.v, SpecTransforms.v, SpecClean.v. *)
From Coq Require Import List Bool ZArith QArith Qcanon Lia String.
From Verif Require Import Names Num Value Dom DomFacts Outcome Cli Paths SpecPath PathProofs Props_paths APass SpecDom SpecStops AttrFacts Transforms SpecTransforms Props_transforms Clean SpecClean.
Import ListNotations.
Local Open Scope nat_scope.

Lemma Forall2_map_iff {A B C D} (f : A -> C) (g : B -> D) (P : C -> D -> Prop) l m : Forall2 (fun x y => P (f x) (g y)) l m -> Forall2 P (map f l) (map g m).
Proof. induction 1; cbn; constructor; auto. Qed.
Lemma nodewise x o t t' (P : ndata -> ndata -> Prop) : perform x o PPaths t = Some (Ok t') ->
  (forall a d d', process_path_node (segment_opts o) a d = Ok d' -> P d d') -> Forall2 P (flat t) (flat t').
Proof.
  intros E H. cbn [perform] in E. injection E as E. destruct (apass_ok _ (path_node_key (segment_opts o)) t [] [] t' (Forall2_nil _) E) as [_ F].
  rewrite <- (map_snd_ctx [] t), <- (map_snd_ctx [] t'). apply Forall2_map_iff. eapply Forall2_impl; [|exact F]. cbn. intros [a d] [a' d'] (V & _). cbn in *. exact (H _ _ _ V).
Qed.

(** What may happen to one path (the steps of the pass that the user can switch; the transform is a separate one). *)
Section Switches.
Variable o : cleaning_options.
(** Nothing is switched on, or only the removal of segments, which leaves paths with markers alone. *)
Definition only_rewritten (d : ndata) : Prop := o_convert_segments o = false /\ (o_remove_unused_segments o = false \/ carries_markers d).
Definition only_converted (d : ndata) : Prop := o_convert_segments o = true /\ (o_remove_unused_segments o = false \/ carries_markers d).
Definition only_shortened (d : ndata) : Prop := o_convert_segments o = false /\ o_remove_unused_segments o = true.
Definition switched (d : ndata) (p p' : list segment) : Prop :=
  (only_rewritten d -> outline p' = outline p) /\
  (only_converted d -> no_smooth_after_curve (map sdata p) -> Forall2 (Forall2 kept_or_straightened) (outline p) (outline p')) /\
  (only_shortened d -> (forall l, convert_hv_to_l (fix_m (conv_to_absolute p)) = Some l -> harmless l) -> figure p' = figure p).
End Switches.

(** C45: without apply-transform-to-paths the pass over the paths changes nothing but the data of path elements. In the
    data: with both other options off, and for paths with markers when only the removal of segments is on, the outline
    stays piece by piece; with only the conversion on, pieces stay or straight curves become lines; with only the removal
    on, the figure stays and no piece is converted. *)
Theorem C45_path_switches x o t t' : perform x o PPaths t = Some (Ok t') -> o_apply_transform_to_paths o = false ->
  Forall2 (fun d d' => same_node d d' /\ same_except [AD] d d' /\ (~ is_path d -> d' = d) /\
    (is_path d -> forall p, d_get d AD = Some (VPath p) -> starts_with_move p ->
       exists p', d_get d' AD = Some (VPath p') /\ switched o d p p')) (flat t) (flat t').
Proof.
  intros E Tr. apply (nodewise x o t t' _ E). intros a d d' V. apply path_node_ok in V. destruct V as [(k & e & f & (_ & X & _) & _)|[(_ & Sd & N & (Pp & _) & Ex)|[N ->]]].
  - cbn in X. congruence.
  - split; [exact N|]. split; [exact Ex|]. split; [contradiction|]. intros _ p Hp Sm. destruct (Pp p Hp) as (m & p' & M & Q & G). exists p'. split; [exact G|]. cbn [segment_opts pso_path] in Q.
    assert (Off : o_remove_unused_segments o = false \/ carries_markers d -> o_remove_unused_segments o && negb m = false).
    { intros [->|K]; [reflexivity|]. apply M in K. rewrite K. apply andb_false_r. }
    split; [|split].
    + intros (C & U). exact (process_path_outline (PO _ _) m None p p' Sm C (Off U) Q).
    + intros (C & U) Ns. exact (process_path_convert (PO _ _) m p p' Sm Ns C (Off U) Q).
    + intros (C & U) Hh. exact (process_path_figure (PO _ _) m None p p' Sm C (fun _ _ => Hh) Q).
  - split; [apply same_node_refl|]. split; [apply same_except_refl|]. split; [auto|]. intros X. contradiction.
Qed.
Print Assumptions C45_path_switches.


(** An instance: of the same path, with the conversion on the straight curve becomes a line and the line without length
    stays; with the removal on it is the other way around. *)
Definition path_options (conv unused : bool) : cleaning_options := Build_cleaning_options
  false false false false false false false false false false false false false false false false false false false false
  false false false false false false false true unused conv false false JoinNone 6 6 8 8.
Definition one_path : list segment := [Seg true (MoveTo q1 q1); Seg true (CurveTo (zq 2) q1 (zq 3) q1 (zq 4) q1); Seg true (LineTo (zq 4) q1)].
Definition path_doc : tree := doc [el 1 ESvg [] [el 2 EPath [at_ AD (VPath one_path)] []]].
Definition pieces_of (r : option (result tree)) : list (list bool) :=
  match r with
  | Some (Ok t) => flat_map (fun d => match d_get d AD with Some (VPath p) => map (map (fun c => match c with PCubic _ _ _ _ => true | _ => false end)) (outline p) | _ => [] end) (flat t)
  | _ => []
  end.
Example C45_path_switches_instance : forall x,
  starts_with_move one_path /\ no_smooth_after_curve (map sdata one_path) /\
  (forall l, convert_hv_to_l (fix_m (conv_to_absolute one_path)) = Some l -> harmless l) /\
  pieces_of (perform x (path_options true false) PPaths path_doc) = [[false; false]] /\
  pieces_of (perform x (path_options false true) PPaths path_doc) = [[true]] /\
  pieces_of (perform x (path_options false false) PPaths path_doc) = [[true; false]].
Proof.
  intros x. split; [cbn; eauto|]. split.
  { intros a b x1 y1 x2 y2 u v x2' y2' x' y' X. cbn in X. destruct a as [|? [|? [|? [|? a]]]]; discriminate X. }
  split; [|vm_compute; auto].
  intros l E. vm_compute in E. injection E as <-. cbn. intuition (try discriminate; auto).
Qed.
