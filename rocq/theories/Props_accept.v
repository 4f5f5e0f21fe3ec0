(** C49: a cleaned document passes the preliminary checks again. C50: no new kinds of nodes. C12 for a whole run. *)
From Coq Require Import List Bool NArith Arith ZArith String Lia QArith Qcanon.
From Verif Require Import Names Num Value Dom DomFacts DomOps Outcome SpecDom Cli TasksSimple TasksSimpleProofs Props_simple Clean SpecClean Props_clean WfAll SpecWf Props_wf Still SpecAccept MildPasses StillAll.
Import ListNotations.
Local Open Scope nat_scope.

(** * The checks and the specification *)
Lemma special_event a : is_event_name (AN a) <-> is_graphical_event a || is_document_event a || is_animation_event a = true.
Proof.
  unfold is_event_name. split.
  - intros H. cbn in H. repeat (destruct H as [H|H]; [injection H as <-; reflexivity|]). destruct H.
  - destruct a; cbn; intros H; try discriminate H; tauto.
Qed.
Lemma exempt_in e : exempt_el e = true <-> In e [EA; EImage; EFontFaceUri; EFeImage].
Proof. split; [destruct e; try discriminate; cbn; auto|]. cbn. intros H. intuition (subst; reflexivity). Qed.
Definition kinds (g : tagt) : Prop := In g (map TEl [EScript; EAnimate; EAnimateColor; EAnimateMotion; EAnimateTransform; ESet]).
Lemma kinds_ok : ~ kinds (TEl EPath) /\ ~ kinds (TEl EDefs) /\ ~ kinds (TEl EG) /\ ~ kinds (TEl ELinearGradient).
Proof. unfold kinds. cbn. repeat split; intuition discriminate. Qed.
Lemma link_of_some v : link_of v <> None <-> exists k, v = VLink k \/ v = VFunc k.
Proof.
  split; [|intros (k & [-> | ->]); discriminate]. destruct v; intros H; try (exfalso; apply H; reflexivity); eauto.
Qed.
(** A node that is allowed, in terms of [acceptable]. *)
Definition fit (inv : bool) (d : ndata) : Prop := ~ kinds (tag d) /\ forall y, In y (attrs d) -> oka inv (cls d) y.
Lemma fit_acceptable d e : tag d = TEl e -> fit false d <-> acceptable_element e d.
Proof.
  intros Te. unfold fit, kinds. rewrite Te. unfold cls. rewrite Te. split.
  - intros [A B]. split.
    + intros ->. apply A. now left.
    + intros H. apply A. right. unfold is_animation in H. now apply in_map.
    + intros x Hx Ev. specialize (B x Hx). unfold oka in B. destruct (a_name x) as [a|s] eqn:En; [|unfold is_event_name in Ev; apply in_map_iff in Ev; destruct Ev as (? & Q & _); discriminate Q].
      apply special_event in Ev. assert (S : special a = true) by (unfold special; destruct a; try reflexivity; exact Ev). rewrite S in B. destruct (exempt_el e); destruct a; try discriminate Ev; exact B.
    + intros x Hx Cn. specialize (B x Hx). unfold oka in B. destruct Cn as [Cn|[Cn|[]]]; rewrite <- Cn in B; cbn in B; destruct (exempt_el e); exact B.
    + intros Ne x Hx Hr. specialize (B x Hx). unfold oka in B. rewrite Hr in B. cbn in B. destruct (exempt_el e) eqn:Ex; [exfalso; apply Ne, exempt_in, Ex|]. destruct B as [B|[B|[B _]]]; [discriminate|now apply link_of_some|discriminate].
  - intros [A1 A2 A3 A4 A5]. split.
    + intros H. cbn in H. destruct H as [H|H]; [injection H as H; now apply A1|]. apply A2. unfold is_animation. cbn. intuition congruence.
    + intros y Hy. unfold oka. assert (G : forall c, (c = Exempt <-> exempt_el e = true) -> match a_name y with AN a => if special a then match a with AXlinkHref => c = Exempt \/ L false (a_val y) | ARequiredFeatures | ASystemLanguage => a_val y = VStr "" | _ => False end else True | ANx _ => True end).
      { intros c Hc. destruct (a_name y) as [a|s] eqn:En; [|exact I]. destruct (special a) eqn:S; [|exact I].
        assert (Ev : ~ (is_graphical_event a || is_document_event a || is_animation_event a = true)) by (rewrite <- special_event, <- En; now apply A3).
        destruct a; try (exfalso; apply Ev; exact S).
        - apply (A4 y Hy). rewrite En. now left.
        - apply (A4 y Hy). rewrite En. right. now left.
        - destruct (exempt_el e) eqn:Ex; [left; now apply Hc|]. right. left. apply link_of_some. apply (A5); auto. rewrite <- exempt_in. congruence. }
      destruct (exempt_el e) eqn:Ex.
      * specialize (G Exempt). destruct (a_name y); apply G; tauto.
      * specialize (G Strict). destruct (a_name y); apply G; split; discriminate.
Qed.

Lemma get_in d x a : NoDup (map a_name (attrs d)) -> In x (attrs d) -> a_name x = AN a -> d_get d a = Some (a_val x).
Proof. intros N Hx Nx. unfold d_get, get_value. now rewrite (get_attr_in _ x a N Hx Nx). Qed.
(** For documents as the parser makes them the checks are exactly this. *)
Theorem C49_checks_of_parsed t : (forall d, In d (flat t) -> NoDup (map a_name (attrs d))) -> parsed t -> (preclean_checks t = Ok tt <-> acceptable t).
Proof.
  intros N P. rewrite C07_accepts_iff_supported. split; intros H d e Hd Te; destruct (H d e Hd Te) as [A1 A2 A3 A4 A5]; split; auto.
  - intros x Hx Cn. destruct (proj1 (P d e x Hd Te Hx) Cn) as (s & Es). rewrite Es. f_equal. assert (X : exists a, In a [ARequiredFeatures; ASystemLanguage] /\ a_name x = AN a) by (destruct Cn as [Cn|[Cn|[]]]; rewrite <- Cn; cbn; eauto). destruct X as (a & Ha & Na). apply (A4 a s Ha). rewrite <- Es. exact (get_in d x a (N d Hd) Hx Na).
  - intros Ne x Hx Nx. destruct (proj2 (P d e x Hd Te Hx) Nx) as [(s & Es)|Q]; [|exact Q]. exfalso. apply (A5 Ne s). rewrite <- Es. exact (get_in d x AXlinkHref (N d Hd) Hx Nx).
  - intros a s Ha G. apply d_get_in in G. destruct G as (x & Hx & Nx & Vx). rewrite (A4 x Hx) in Vx; [congruence|]. rewrite Nx. cbn in *. intuition congruence.
  - intros Ne s G. apply d_get_in in G. destruct G as (x & Hx & Nx & Vx). destruct (A5 Ne x Hx Nx) as (k & [Q|Q]); congruence.
Qed.
Print Assumptions C49_checks_of_parsed.

(** * A whole run *)
Definition classes (t : tree) (k : nat) : class := match find_data k t with Some d => cls d | None => Strict end.
Lemma start X inv t : NoDup (keys t) -> (forall d, In d (flat t) -> ~ X (tag d) /\ forall y, In y (attrs d) -> oka inv (cls d) y) -> AL X true inv t.
Proof.
  intros N H. exists (classes t). intros d Hd. destruct (H d Hd) as [A B]. split; [exact A|]. intros _. split; [|exact B]. unfold classes. now rewrite (find_data_in t d N Hd).
Qed.
Lemma cleaned_by (X : tagt -> Prop) chk inv x o t t' : (o_convert_shapes o = true -> forall d, Mild.shape_el d -> X (TEl EPath) -> X (tag d)) /\ ~ X (TEl EDefs) -> (o_remove_invisible_elements o = true -> inv = true) ->
  (o_group_by_style o = true -> ~ X (TEl EG)) -> (o_regroup_gradient_stops o = true -> ~ X (TEl ELinearGradient)) ->
  clean_doc x o t = Some (Ok t') -> AL X chk inv t -> AL X chk inv t'.
Proof.
  intros Xok I XG XL E H. destruct (preclean_checks t) as [[]|e|] eqn:P; [|unfold clean_doc in E; rewrite P in E; discriminate..].
  refine (AL_runs X chk inv (o_convert_shapes o = true) Xok x o (filter (enabled o) pipeline) _ _ _ _ t _ (proj2 (C45_pipeline x o t P _) eq_refl) t' E H); intros Q; [apply I|idtac|apply XG|apply XL]; apply filter_In in Q; exact (proj2 Q).
Qed.
Lemma cleaned (X : tagt -> Prop) chk inv x o t t' : ~ X (TEl EPath) /\ ~ X (TEl EDefs) /\ ~ X (TEl EG) /\ ~ X (TEl ELinearGradient) -> (o_remove_invisible_elements o = true -> inv = true) ->
  clean_doc x o t = Some (Ok t') -> AL X chk inv t -> AL X chk inv t'.
Proof. intros (A & B & C & D) I. apply cleaned_by; auto. split; [intros _ d _ Q; contradiction|exact B]. Qed.
Lemma fit_start inv t : acceptable t -> forall d, In d (flat t) -> fit inv d.
Proof.
  intros A d Hd. assert (F : fit false d). { destruct (tag d) as [|e|s|s|s|] eqn:Te; try (unfold fit, kinds, cls; rewrite Te; cbn; split; [intuition discriminate|intros; exact I]). apply (fit_acceptable d e Te). exact (A d e Hd Te). }
  destruct F as [F1 F2]. split; [exact F1|]. intros y Hy. specialize (F2 y Hy). unfold oka in *. destruct (cls d); auto; destruct (a_name y) as [a|]; auto; destruct (special a); auto; destruct a; auto; destruct F2 as [F2|[F2|[F2 _]]]; try discriminate F2; first [left; exact F2 | right; left; exact F2].
Qed.
(** The output is acceptable if invisible elements are not removed. Missing: the removal of invisible elements, see the
    next theorem and the refutation. *)
Theorem C49_acceptable_again_partial x o t t' : NoDup (keys t) -> acceptable t -> o_remove_invisible_elements o = false -> clean_doc x o t = Some (Ok t') -> acceptable t'.
Proof.
  intros N A I E. destruct (cleaned kinds true false x o t t' kinds_ok) as (C & H); [congruence|exact E|exact (start kinds false t N (fit_start false t A))|].
  intros d e Hd Te. apply (fit_acceptable d e Te). destruct (H d Hd) as [H1 H2]. split; [exact H1|]. exact (proj2 (H2 eq_refl)).
Qed.
Print Assumptions C49_acceptable_again_partial.
(** With all options: nothing that the checks reject is brought into the document, but a reference may be replaced. *)
Theorem C49_checks_pass_again_partial x o t t' : NoDup (keys t) -> acceptable t -> clean_doc x o t = Some (Ok t') -> preclean_checks t' = Ok tt /\ links_or_paint t'.
Proof.
  intros N A E. destruct (cleaned kinds true true x o t t' kinds_ok) as (C & H); [auto|exact E|exact (start kinds true t N (fit_start true t A))|].
  assert (F : forall d, In d (flat t') -> fit true d) by (intros d Hd; destruct (H d Hd) as [H1 H2]; split; [exact H1|exact (proj2 (H2 eq_refl))]).
  assert (LP : links_or_paint t').
  { intros d e y Hd Te Ne Hy Ny. destruct (F d Hd) as [_ F2]. specialize (F2 y Hy). unfold oka, cls in F2. rewrite Te, Ny in F2. destruct (exempt_el e) eqn:Ex; [exfalso; apply Ne, exempt_in, Ex|]. cbn in F2. destruct F2 as [F2|[F2|[_ F2]]]; [discriminate|left; now apply link_of_some|right; exact F2]. }
  split; [|exact LP]. apply C07_accepts_iff_supported. intros d e Hd Te. destruct (F d Hd) as [F1 F2]. rewrite Te in F1.
  assert (Ev : forall y a, In y (attrs d) -> a_name y = AN a -> special a = true -> a <> AXlinkHref -> In a [ARequiredFeatures; ASystemLanguage] /\ a_val y = VStr "").
  { intros y a Hy Ny Sa Na. specialize (F2 y Hy). unfold oka, cls in F2. rewrite Te, Ny, Sa in F2. destruct (exempt_el e); destruct a; try contradiction; cbn; auto. }
  split.
  - intros ->. apply F1. now left.
  - intros Q. apply F1. right. unfold is_animation in Q. now apply in_map.
  - intros y Hy Q. destruct (a_name y) as [a|s] eqn:Ny; [|unfold is_event_name in Q; apply in_map_iff in Q; destruct Q as (? & Q & _); discriminate Q]. apply special_event in Q. destruct (Ev y a Hy Ny) as [[Z|[Z|[]]] _]; try (subst a; discriminate Q); [unfold special; destruct a; try reflexivity; exact Q|intros ->; discriminate Q].
  - intros a s Ha G. apply d_get_in in G. destruct G as (y & Hy & Ny & Vy). destruct (Ev y a Hy Ny) as [_ Z]; [destruct Ha as [<-|[<-|[]]]; reflexivity|destruct Ha as [<-|[<-|[]]]; discriminate|congruence].
  - intros Ne s G. apply d_get_in in G. destruct G as (y & Hy & Ny & Vy). specialize (LP d e y Hd Te Ne Hy Ny). rewrite Vy in LP. destruct LP as [(k & [Q|Q])|[Q|(r & g & b & Q)]]; discriminate.
Qed.
Print Assumptions C49_checks_pass_again_partial.
(** The code: a gradient without stops is removed, and the gradients that refer to it get xlink:href="none", which is not
    accepted when the saved file is read again. *)
Definition none_doc : tree := doc [el 1 ESvg [] [
  el 2 EDefs [] [eli 3 ELinearGradient "a" [at_ AXlinkHref (VLink 5)] [stop_ 6 0; stop_ 7 1];
                 eli 4 ELinearGradient "b" [at_ AXlinkHref (VLink 5)] [stop_ 8 1; stop_ 9 0];
                 eli 5 ELinearGradient "c" [] []];
  el 10 ECircle [at_ AR (px 1); at_ AFill (VFunc 3)] []; el 11 ECircle [at_ AR (px 1); at_ AFill (VFunc 4)] []]].
Definition acceptable_b (t : tree) : bool := forallb (fun d => match tag d with TEl e => negb (existsb (eid_eqb e) [EScript; EAnimate; EAnimateColor; EAnimateMotion; EAnimateTransform; ESet]) &&
  forallb (fun x => match a_name x with AN a => if special a then match a with AXlinkHref => exempt_el e || match link_of (a_val x) with Some _ => true | None => false end | ARequiredFeatures | ASystemLanguage => match a_val x with VStr s => String.eqb s "" | _ => false end | _ => false end else true | ANx _ => true end) (attrs d) | _ => true end) (flat t).
Lemma acceptable_b_spec t : acceptable_b t = true -> acceptable t.
Proof.
  unfold acceptable_b. rewrite forallb_forall. intros H d e Hd Te. specialize (H d Hd). rewrite Te in H. apply andb_prop in H. destruct H as [H1 H2]. rewrite forallb_forall in H2. apply (fit_acceptable d e Te). split.
  - rewrite Te. unfold kinds. intros Q. apply in_map_iff in Q. destruct Q as (e' & Q & He). injection Q as ->. apply negb_true_iff in H1. enough (X : existsb (eid_eqb e) [EScript; EAnimate; EAnimateColor; EAnimateMotion; EAnimateTransform; ESet] = true) by congruence. apply existsb_exists. exists e. split; [exact He|]. destruct (eid_eqb_spec e e); congruence.
  - intros y Hy. specialize (H2 y Hy). unfold oka, cls. rewrite Te. destruct (exempt_el e) eqn:Ex; cbn [orb] in H2.
    + destruct (a_name y) as [a|]; [|exact I]. destruct (special a); [|exact I]. destruct a; try discriminate H2; auto; destruct (a_val y); try discriminate H2; f_equal; now apply String.eqb_eq.
    + destruct (a_name y) as [a|]; [|exact I]. destruct (special a); [|exact I]. destruct a; try discriminate H2; try (destruct (a_val y); try discriminate H2; f_equal; now apply String.eqb_eq). right. left. destruct (link_of (a_val y)); [discriminate|discriminate H2].
Qed.
Theorem C49_none_reference_refuted : exists t t', well_formed t /\ acceptable t /\ clean_doc lib all_on t = Some (Ok t') /\
  (exists d x, In d (flat t') /\ tag d = TEl ELinearGradient /\ In x (attrs d) /\ x = At (AN AXlinkHref) (VPre Vid_none) true) /\
  ~ acceptable t' /\ preclean_checks (read_again t') = Err (ExternalHref "none") /\ clean_doc lib all_on (read_again t') = Some (Err (ExternalHref "none")).
Proof.
  exists none_doc. destruct (clean_doc lib all_on none_doc) as [[t'| |]|] eqn:E; [|vm_compute in E; discriminate..]. exists t'.
  split; [apply well_formed_fine, fine_b_spec; [vm_compute; reflexivity|wfa]|]. split; [apply acceptable_b_spec; reflexivity|]. split; [reflexivity|].
  assert (G : exists d, In d (flat t') /\ tag d = TEl ELinearGradient /\ In (At (AN AXlinkHref) (VPre Vid_none) true) (attrs d)).
  { vm_compute in E. injection E as <-. eexists. split; [right; right; left; reflexivity|]. split; [reflexivity|]. left. reflexivity. }
  assert (P : preclean_checks (read_again t') = Err (ExternalHref "none")) by (vm_compute in E; injection E as <-; vm_compute; reflexivity).
  destruct G as (d & Hd & Td & Hx). split; [exists d, (At (AN AXlinkHref) (VPre Vid_none) true); auto|]. split; [|split; [exact P|now apply C45_checks_first]].
  intros A. destruct (ae_internal _ _ (A d _ Hd Td)) with (x := At (AN AXlinkHref) (VPre Vid_none) true) as (k & [Q|Q]); auto; try discriminate Q. cbn. intuition discriminate.
Qed.
Print Assumptions C49_none_reference_refuted.
(** An acceptable document with hrefs of all kinds, and its output. *)
Definition accept_doc : tree := doc [el 1 ESvg [at_ ARequiredFeatures (VStr "")] [
  eli 2 ELinearGradient "a" [at_ AXlinkHref (VLink 3)] []; eli 3 ELinearGradient "b" [] [stop_ 4 0; stop_ 5 1];
  el 6 EImage [at_ AXlinkHref (VStr "photo.png")] []; el 7 EG [] [el 8 ERect [at_ AWidth (px 2); at_ AHeight (px 2); at_ AFill (VFunc 2)] []];
  eli 9 EPath "p" [at_ AD (VPath [])] []; el 10 EText [] [el 11 ETextPath [at_ AXlinkHref (VLink 9)] [txt 12 "t"]]]].
Example C49_instance : NoDup (keys accept_doc) /\ acceptable accept_doc /\ (forall d, In d (flat accept_doc) -> NoDup (map a_name (attrs d))) /\ parsed accept_doc /\
  exists t', clean_doc lib all_on accept_doc = Some (Ok t') /\ acceptable t' /\ map key (flat t') <> map key (flat accept_doc).
Proof.
  split; [vm_compute; repeat (constructor; [cbn; intuition discriminate|]); constructor|]. split; [apply acceptable_b_spec; reflexivity|].
  assert (F : fine accept_doc) by (apply fine_b_spec; [vm_compute; reflexivity|wfa]). split; [exact (proj1 (Forall_forall _ _) (fine_wfa _ F))|].
  split. { intros d e x Hd Te Hx. cbn in Hd. repeat (destruct Hd as [<-|Hd]; [cbn in Te, Hx; try discriminate Te; repeat (destruct Hx as [<-|Hx]; [split; cbn; intros Q; intuition (try discriminate; eauto)|]); destruct Hx|]). destruct Hd. }
  destruct (clean_doc lib all_on accept_doc) as [[t'| |]|] eqn:E; [|vm_compute in E; discriminate..]. exists t'. split; [reflexivity|]. vm_compute in E. injection E as <-. split; [apply acceptable_b_spec; reflexivity|]. vm_compute. discriminate.
Qed.

(** * C50. Every node of the output is of a kind (element name, text, comment, ...) that is in the input, or is one of four kinds of elements. *)
Lemma tag_dec (a b : tagt) : {a = b} + {a <> b}.
Proof.
  decide equality; try apply string_dec. destruct (eid_eqb_spec e e0); auto.
Qed.
Theorem C50_no_new_kinds x o t t' : clean_doc x o t = Some (Ok t') -> forall d', In d' (flat t') -> may_appear (tag d') \/ exists d, In d (flat t) /\ tag d = tag d'.
Proof.
  intros E d' Hd'. destruct (in_dec tag_dec (tag d') [TEl EPath; TEl EDefs; TEl EG; TEl ELinearGradient]) as [H|N1]; [now left|]. right. destruct (in_dec tag_dec (tag d') (map tag (flat t))) as [H|N2]; [apply in_map_iff in H; destruct H as (d & A & B); eauto|exfalso].
  destruct (cleaned (fun g => g = tag d') false true x o t t') as (C & H); [|auto|exact E| |exact (proj1 (H d' Hd') eq_refl)].
  - cbn in N1. intuition congruence.
  - exists (fun _ => Strict). intros d Hd. split; [|discriminate]. intros Q. apply N2. rewrite <- Q. now apply in_map.
Qed.
Print Assumptions C50_no_new_kinds.
(** Which of the four: a defs element may always be added, a group only by group-by-style, a linear gradient only by
    regroup-gradient-stops, and a path only by convert-shapes in place of a basic shape. *)
Definition convertible : list eid := [ERect; ECircle; EEllipse; ELine; EPolyline; EPolygon].
Definition brought_by (o : cleaning_options) (t : tree) (g : tagt) : Prop :=
  g = TEl EDefs \/ (g = TEl EG /\ o_group_by_style o = true) \/ (g = TEl ELinearGradient /\ o_regroup_gradient_stops o = true) \/
  (g = TEl EPath /\ o_convert_shapes o = true /\ exists d, In d (flat t) /\ In (tag d) (map TEl convertible)).
Theorem C50_new_kinds_by_option x o t t' : clean_doc x o t = Some (Ok t') -> forall d', In d' (flat t') ->
  brought_by o t (tag d') \/ exists d, In d (flat t) /\ tag d = tag d'.
Proof.
  intros E d' Hd'. destruct (in_dec tag_dec (tag d') (map tag (flat t))) as [H|N2]; [apply in_map_iff in H; destruct H as (d & Td & Hd); right; eauto|]. left. unfold brought_by.
  assert (Run : forall X : tagt -> Prop, X (tag d') -> (forall d, In d (flat t) -> ~ X (tag d)) -> (o_convert_shapes o = true -> forall d, Mild.shape_el d -> X (TEl EPath) -> X (tag d)) -> ~ X (TEl EDefs) ->
    (o_group_by_style o = true -> ~ X (TEl EG)) -> (o_regroup_gradient_stops o = true -> ~ X (TEl ELinearGradient)) -> False).
  { intros X Xd N Xs Xe Xg Xl. destruct (cleaned_by X false true x o t t') as (C & H); auto.
    - exists (fun _ => Strict). intros d Hd. split; [exact (N d Hd)|discriminate].
    - exact (proj1 (H d' Hd') Xd). }
  destruct (tag_dec (tag d') (TEl EDefs)) as [Q1|Q1]; [now left|right].
  destruct (tag_dec (tag d') (TEl EPath)) as [Q4|Q4].
  { right; right. split; [exact Q4|]. destruct (o_convert_shapes o) eqn:Oc.
    2:{ exfalso. apply (Run (fun g => g = tag d')); auto; try congruence. intros d Hd Q. apply N2. rewrite <- Q. now apply in_map. }
    split; [reflexivity|]. destruct (existsb (fun d => if in_dec tag_dec (tag d) (map TEl convertible) then true else false) (flat t)) eqn:Ex.
    - apply existsb_exists in Ex. destruct Ex as (d & Hd & Q). exists d. split; [exact Hd|]. now destruct (in_dec tag_dec (tag d) (map TEl convertible)).
    - exfalso. apply (Run (fun g => g = TEl EPath \/ In g (map TEl convertible))); auto.
      + intros d Hd [Q|Q]; [apply N2; rewrite Q4, <- Q; now apply in_map|]. assert (Z : existsb (fun d => if in_dec tag_dec (tag d) (map TEl convertible) then true else false) (flat t) = true); [|congruence].
        apply existsb_exists. exists d. split; [exact Hd|]. destruct (in_dec tag_dec (tag d) (map TEl convertible)); [reflexivity|contradiction].
      + intros _ d (e & Te & He) _. right. rewrite Te. apply in_map. cbn in *. tauto.
      + cbn. intuition discriminate.
      + cbn. intuition discriminate.
      + cbn. intuition discriminate. }
  destruct (tag_dec (tag d') (TEl EG)) as [Q2|Q2].
  { left. split; [exact Q2|]. destruct (o_group_by_style o) eqn:Og; [reflexivity|exfalso]. apply (Run (fun g => g = tag d')); auto; try congruence.
    intros d Hd Q. apply N2. rewrite <- Q. now apply in_map. }
  destruct (tag_dec (tag d') (TEl ELinearGradient)) as [Q3|Q3].
  { right; left. split; [exact Q3|]. destruct (o_regroup_gradient_stops o) eqn:Og; [reflexivity|exfalso]. apply (Run (fun g => g = tag d')); auto; try congruence.
    intros d Hd Q. apply N2. rewrite <- Q. now apply in_map. }
  exfalso. apply (Run (fun g => g = tag d')); auto; try congruence.
  intros d Hd Q. apply N2. rewrite <- Q. now apply in_map.
Qed.
Print Assumptions C50_new_kinds_by_option.
Example C50_instance : exists t', clean_doc lib all_on accept_doc = Some (Ok t') /\ exists d', In d' (flat t') /\ tag d' = TText "t".
Proof.
  destruct (clean_doc lib all_on accept_doc) as [[t'| |]|] eqn:E; [|vm_compute in E; discriminate..]. exists t'. split; [reflexivity|]. vm_compute in E. injection E as <-. cbn. eexists. split; [|exact (eq_refl : tag (ND 12 (TText "t") "" []) = _)]. intuition.
Qed.

(** * C12 for a whole run. *)
Lemma runs_app x o l1 l2 : forall t r, runs x o (l1 ++ l2) t r -> forall t', r = Some (Ok t') -> exists t1, runs x o l1 t (Some (Ok t1)) /\ runs x o l2 t1 (Some (Ok t')).
Proof.
  induction l1 as [|p l1 IH]; intros t r H t' Q; cbn [app] in H; [exists t; split; [constructor|now rewrite <- Q]|]. inversion H as [|? ? ? t0 ? E R| | |]; subst; try discriminate. destruct (IH _ _ R t' eq_refl) as (t1 & A & B). exists t1. split; [now apply (runs_next x o p l1 t t0)|exact B].
Qed.
Lemma gone_for_good x o t t' p e pre post : pipeline = (pre ++ p :: post)%list -> (forall q, In q pre -> calm q = fun _ => True) -> (forall u, perform x o p u = Some (Ok (remove_element e u))) -> enabled o p = true -> calm p = (fun _ => True) ->
  ~ In e [EPath; EDefs; EG; ELinearGradient] -> well_formed t -> clean_doc x o t = Some (Ok t') -> forall d, In d (flat t') -> tag d <> TEl e.
Proof.
  intros Ep Cpre Pp En Cp Ne W E. rewrite well_formed_fine in W. destruct (preclean_checks t) as [[]|err|] eqn:P; [|unfold clean_doc in E; rewrite P in E; discriminate..].
  pose proof (proj2 (C45_pipeline x o t P _) eq_refl) as R. rewrite E in R. rewrite Ep, filter_app in R. cbn [filter] in R. rewrite En in R. destruct (runs_app _ _ _ _ _ _ R t' eq_refl) as (t1 & R1 & R2).
  assert (F1 : fine t1). { apply (runs_prefix x o _ _ _ R1 t1 eq_refl W). intros pre' q post' t2 Q _. assert (Hq : In q pre). { assert (H : In q (filter (enabled o) pre)) by (rewrite Q; apply in_or_app; right; now left). apply filter_In in H. apply H. } rewrite (Cpre q Hq). exact I. }
  inversion R2 as [|? ? ? t2 ? E2 R3| | |]; subst; try discriminate. rewrite Pp in E2. injection E2 as <-.
  destruct (C12_remove_element e t1 (fine_wf _ F1) (fine_root _ F1)) as (G & _).
  assert (X : ~ (TEl EPath = TEl e) /\ ~ (TEl EDefs = TEl e) /\ ~ (TEl EG = TEl e) /\ ~ (TEl ELinearGradient = TEl e)) by (repeat split; intros Q; injection Q as <-; apply Ne; cbn; tauto).
  destruct X as (X1 & X2 & X3 & X4). destruct (AL_runs (fun g => g = TEl e) false true True (conj (fun _ d _ Q => False_ind _ (X1 Q)) X2) x o _ (fun _ => eq_refl) (fun _ => Logic.I) (fun _ => X3) (fun _ => X4) _ _ R3 t' eq_refl) as (C & H).
  - exists (fun _ => Strict). intros d Hd. split; [exact (G d Hd)|discriminate].
  - intros d Hd. exact (proj1 (H d Hd)).
Qed.
Theorem C12_cleaned x o t t' : well_formed t -> clean_doc x o t = Some (Ok t') ->
  (o_remove_title o = true -> forall d, In d (flat t') -> tag d <> TEl ETitle) /\
  (o_remove_desc o = true -> forall d, In d (flat t') -> tag d <> TEl EDesc) /\
  (o_remove_metadata o = true -> forall d, In d (flat t') -> tag d <> TEl EMetadata).
Proof.
  intros W E. repeat split; intros En.
  - apply (gone_for_good x o t t' PTitle ETitle [PLinear; PRadial; PStops; PInherit; PFix; PGroupDefs; PRound] (skipn 8 pipeline)); auto; [|cbn; intuition discriminate]. intros q Hq. cbn in Hq. intuition (subst; reflexivity).
  - apply (gone_for_good x o t t' PDesc EDesc [PLinear; PRadial; PStops; PInherit; PFix; PGroupDefs; PRound; PTitle] (skipn 9 pipeline)); auto; [|cbn; intuition discriminate]. intros q Hq. cbn in Hq. intuition (subst; reflexivity).
  - apply (gone_for_good x o t t' PMetadata EMetadata [PLinear; PRadial; PStops; PInherit; PFix; PGroupDefs; PRound; PTitle; PDesc] (skipn 10 pipeline)); auto; [|cbn; intuition discriminate]. intros q Hq. cbn in Hq. intuition (subst; reflexivity).
Qed.
Print Assumptions C12_cleaned.
(** [link_doc] has a title (C08_instance: it is cleaned). *)
Example C12_cleaned_instance : (exists d, In d (flat link_doc) /\ tag d = TEl ETitle) /\ exists t', clean_doc lib all_on link_doc = Some (Ok t').
Proof. split; [exists (ND 2 (TEl ETitle) "" []); split; [vm_compute; auto|reflexivity]|]. destruct (clean_doc lib all_on link_doc) as [[t'| |]|] eqn:E; [eauto|vm_compute in E; discriminate..]. Qed.
