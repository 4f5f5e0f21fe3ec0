(** C45: the passes of clean_doc and the options. *)
From Coq Require Import List Bool NArith Arith ZArith String QArith Qcanon.
From Verif Require Import Names Num Value Dom Outcome Cli TasksSimple SpecDom Transforms Paths Stops Ungroup RmInvisible Clean SpecClean.
Import ListNotations.
Local Open Scope nat_scope.

Definition step_ (x : svgdom) (o : cleaning_options) (r : outcome) (p : pass) : outcome := andthen r (when (enabled o p) (perform x o p)).
Lemma clean_fold x o t : preclean_checks t = Ok tt -> clean_doc x o t = fold_left (step_ x o) pipeline (Some (Ok t)).
Proof.
  intros E. unfold clean_doc. rewrite E. unfold pipeline. cbn [fold_left]. unfold step_. cbn [enabled perform].
  change (when true ?f) with f. unfold when at 1 2 3 4 5 6 7. reflexivity.
Qed.
Lemma fold_stuck x o l r : (forall t, r <> Some (Ok t)) -> fold_left (step_ x o) l r = r.
Proof. induction l as [|p l IH]; intros H; [reflexivity|]. cbn [fold_left]. replace (step_ x o r p) with r; [now apply IH|]. unfold step_, andthen. destruct r as [[t|e|]|]; try reflexivity. now destruct (H t). Qed.
Lemma fold_runs x o l : forall t, runs x o (filter (enabled o) l) t (fold_left (step_ x o) l (Some (Ok t))).
Proof.
  induction l as [|p l IH]; intros t; [constructor|]. cbn [fold_left filter]. unfold step_ at 2. cbn [andthen]. unfold when. destruct (enabled o p); [|apply IH].
  destruct (perform x o p t) as [[t1|e|]|] eqn:E.
  - exact (runs_next _ _ _ _ _ _ _ E (IH t1)).
  - rewrite fold_stuck by discriminate. now constructor.
  - rewrite fold_stuck by discriminate. now constructor.
  - rewrite fold_stuck by discriminate. now constructor.
Qed.
Lemma runs_det x o l t r : runs x o l t r -> forall r', runs x o l t r' -> r = r'.
Proof. induction 1; intros r' H'; inversion H'; subst; try congruence; try reflexivity. match goal with A : perform _ _ _ _ = Some (Ok ?a), B : perform _ _ _ _ = Some (Ok ?b) |- _ => assert (a = b) by congruence; subst end. auto. Qed.

(** C45: a document that passes the checks goes through exactly the passes of the table whose option is set (the
    mandatory ones always), in the order of the table, each with the result of the one before; the first failure is the
    result. A document that does not pass them is not changed and the error is reported. *)
Theorem C45_pipeline x o t : preclean_checks t = Ok tt -> forall r, runs x o (filter (enabled o) pipeline) t r <-> r = clean_doc x o t.
Proof.
  intros E r. rewrite (clean_fold x o t E). pose proof (fold_runs x o pipeline t) as F. split; [intros H; exact (runs_det _ _ _ _ _ H _ F)|intros ->; exact F].
Qed.
Theorem C45_checks_first x o t e : preclean_checks t = Err e -> clean_doc x o t = Some (Err e).
Proof. intros E. unfold clean_doc. now rewrite E. Qed.
(** With all options off, only the mandatory passes are run. *)
Theorem C45_all_off x o t : all_off o -> preclean_checks t = Ok tt -> runs x o mandatory t (clean_doc x o t).
Proof.
  intros A E. replace mandatory with (filter (enabled o) pipeline); [now apply C45_pipeline|].
  assert (F : forall l, incl l pipeline -> filter (enabled o) l = filter (fun p => match p with PLinear | PRadial | PStops | PInherit | PFix | PGroupDefs | PRound | PEmptyDefs | PXmlns | PDefaultTransform | PJoinStyle => true | _ => false end) l).
  { induction l as [|p l IH]; intros I; [reflexivity|]. cbn [filter]. rewrite IH by (intros q Hq; apply I; now right). specialize (A p (I p (or_introl eq_refl))). destruct p; cbn [enabled] in *; try reflexivity; (rewrite A by (cbn; intuition discriminate); reflexivity). }
  rewrite F by apply incl_refl. reflexivity.
Qed.
(** Options that a pass does not read do not matter: the final newline is not part of the document, and the options
    for the segments of paths have no effect unless paths are processed. *)
Lemma fold_same x o o' l : (forall p, enabled o' p = enabled o p) -> (forall p t, enabled o p = true -> perform x o' p t = perform x o p t) ->
  forall r, fold_left (step_ x o') l r = fold_left (step_ x o) l r.
Proof.
  intros H1 H2. induction l as [|p l IH]; intros r; [reflexivity|]. cbn [fold_left]. rewrite IH. f_equal. unfold step_, andthen, when. rewrite H1. destruct r as [[t|e|]|]; try reflexivity. destruct (enabled o p) eqn:E; [now apply H2|reflexivity].
Qed.
Lemma clean_same x o o' t : (forall p, enabled o' p = enabled o p) -> (forall p t, enabled o p = true -> perform x o' p t = perform x o p t) -> clean_doc x o' t = clean_doc x o t.
Proof.
  intros H1 H2. destruct (preclean_checks t) as [[]|e|] eqn:E; [rewrite !clean_fold by exact E; now apply fold_same|unfold clean_doc; now rewrite E..].
Qed.
Theorem C45_newline x o o' t : differ_in_newline o o' -> clean_doc x o' t = clean_doc x o t.
Proof. intros (b & ->). apply clean_same; intros []; reflexivity. Qed.
Section elems.
  Variables o o' : gopts.
  Hypothesis H : valid_elems o' = valid_elems o.
  Lemma child_same anc d : child_ok o' anc d = child_ok o anc d. Proof. unfold child_ok. now rewrite H. Qed.
  Lemma all_same {A} (f g : A -> result bool) l : (forall x, f x = g x) -> all_ok f l = all_ok g l.
  Proof. intros E. induction l as [|x l IH]; [reflexivity|]. cbn. rewrite E. destruct (g x) as [[]|e|]; cbn; auto. Qed.
  Lemma prep_one_same t k : prep_one o' t k = prep_one o t k.
  Proof.
    unfold prep_one. destruct (find_sub k t) as [s|]; [|reflexivity]. destruct (ancestors k [] t) as [anc|]; [|reflexivity]. destruct (is_tag EG (data s) && d_has (data s) ATransform); [|reflexivity].
    destruct (valid_transform (data s)) as [b|e|]; cbn [bind]; try reflexivity. destruct (negb b || negb (valid_attrs anc (data s))); [reflexivity|]. rewrite (all_same _ (fun c => child_ok o (data s :: anc) (data c))); [reflexivity|]. intros c. apply child_same.
  Qed.
  Lemma prep_loop_same r ks : forall t, prep_loop o' r ks t = prep_loop o r ks t.
  Proof. induction ks as [|k ks IH]; intros t; [reflexivity|]. cbn. rewrite prep_one_same. destruct (prep_one o t k) as [x|e|]; cbn; try reflexivity. destruct (snd x && negb r); auto. Qed.
  Lemma prepare_same s r p t : prepare o' s r p t = prepare o s r p t.
  Proof. unfold prepare. rewrite H. destruct (find_sub p t) as [x|]; [|reflexivity]. rewrite prep_loop_same. reflexivity. Qed.
  Lemma ungroup_one_same s t p g : ungroup_one o' s t p g = ungroup_one o s t p g.
  Proof. unfold ungroup_one. destruct (find_sub g t) as [x|]; [|reflexivity]. destruct (give_all t (attrs (data x)) (kids x)) as [ch|e|]; cbn [bind]; try reflexivity. apply prepare_same. Qed.
  Lemma ungroup_loop_same s n : forall t, ungroup_loop n o' s t = ungroup_loop n o s t.
  Proof. induction n as [|n IH]; intros t; [reflexivity|]. cbn. destruct (svg_element t) as [v|]; [|reflexivity]. destruct (find_group t v) as [[p g]|]; [|reflexivity]. rewrite ungroup_one_same. destruct (ungroup_one o s t p g); auto. Qed.
End elems.
Lemma ungroup_same o o' s t : valid_elems o' = valid_elems o -> ungroup_groups o' s t = ungroup_groups o s t.
Proof. intros H. unfold ungroup_groups. destruct (svg_element t); [|reflexivity]. rewrite (prepare_same o o' H). destruct (prepare o s true (root_key t0) t); try reflexivity. apply (ungroup_loop_same o o' H). Qed.
Theorem C45_segments x o o' t : differ_in_segments o o' -> o_paths_to_relative o = false -> clean_doc x o' t = clean_doc x o t.
Proof.
  intros (u & c & a & ->) F. apply clean_same; [now intros []|]. intros p t' E. destruct p; try reflexivity; [|cbn in E; congruence].
  cbn [perform]. apply ungroup_same. unfold valid_elems, group_opts. cbn. now rewrite F.
Qed.

(** An instance: with two options, the document goes through these passes. *)
Definition off : cleaning_options := Build_cleaning_options
  false false false false false false false false false false false false false false false false false false false false
  false false false false false false false false false false false false JoinNone 6 6 8 8.
Definition two : cleaning_options := Build_cleaning_options
  false false true false false false false false true false false false false false false false false false false false
  false false false false false false false false false false false false JoinNone 6 6 8 8.
Example C45_instance : all_off off /\
  filter (enabled two) pipeline = [PLinear; PRadial; PStops; PInherit; PFix; PGroupDefs; PRound; PTitle; PUngroup; PUngroup; PUngroup; PEmptyDefs; PXmlns; PDefaultTransform; PJoinStyle] /\
  exists t, preclean_checks t = Ok tt /\ svg_element t <> None.
Proof. split; [intros [] _ M; try reflexivity; exfalso; apply M; cbn; auto 20|]. split; [reflexivity|]. exists (doc [el 1 ESvg [] []]). split; [reflexivity|discriminate]. Qed.
