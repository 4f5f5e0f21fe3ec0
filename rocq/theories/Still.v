(** What no pass brings into a document: tools. *)
From Coq Require Import List Bool NArith Arith ZArith String Lia QArith Qcanon.
From Verif Require Paths.
From Verif Require Import Names Num Value Dom DomFacts DomOps Outcome DomRemove SpecDom SpecWritten Gradients Stops Shapes NPass APass VLoop Transforms Links Inherit Round RmDefault UnusedCoords RmText Needless TasksSimple WfAll Mild.
Import ListNotations.
Local Open Scope nat_scope.

Definition special (a : aid) : bool :=
  match a with AXlinkHref | ARequiredFeatures | ASystemLanguage => true | _ => is_graphical_event a || is_document_event a || is_animation_event a end.
Definition dull (y : attr) : Prop := match a_name y with AN a => special a = false | ANx _ => True end.
(** [CV]: basic shapes are converted to paths. *)
Section tools.
Context {CV : Prop}.
Record K (d d' : ndata) : Prop := {
  K_key : key d' = key d;
  K_tag : tag d' = tag d \/ (tag d' = TEl EPath /\ CV /\ shape_el d);
  K_attrs : forall y, In y (attrs d') -> (exists z, In z (attrs d) /\ a_name z = a_name y /\ a_val z = a_val y) \/ dull y
}.
Lemma K_refl d : K d d. Proof. split; auto. intros y Hy. left. eauto. Qed.
Lemma K_trans d1 d2 d3 : K d1 d2 -> K d2 d3 -> K d1 d3.
Proof.
  intros [K1 T1 A1] [K2 T2 A2]. split; [congruence| |].
  - destruct T2 as [E|[E (Z & e & S & I)]]; [destruct T1 as [E'|[E' S']]; [left; congruence|right; split; [congruence|exact S']]|]. destruct T1 as [E'|[E' S']]; [right; split; [exact E|split; [exact Z|exists e; split; [congruence|exact I]]]|right; auto].
  - intros y Hy. destruct (A2 y Hy) as [(z & Hz & N & V)|H]; [|now right]. destruct (A1 z Hz) as [(w & Hw & N' & V')|H]; [left; exists w; split; [exact Hw|split; congruence]|right]. unfold dull in *. now rewrite <- N.
Qed.
(** Changes of one node. *)
Lemma K_with d x l : K d x -> (forall y, In y l -> (exists z, In z (attrs x) /\ a_name z = a_name y /\ a_val z = a_val y) \/ dull y) -> K d (with_attrs x l).
Proof. intros H L. apply (K_trans d x); [exact H|]. split; auto. Qed.
Lemma K_filter d x p : K d x -> K d (with_attrs x (filter p (attrs x))).
Proof. intros H. apply K_with; [exact H|]. intros y Hy. apply filter_In in Hy. left. exists y. tauto. Qed.
Lemma K_rm d x a : K d x -> K d (d_rm x a). Proof. apply K_filter. Qed.
Lemma K_put d x a v (vis : bool) l : K d x -> (forall y, In y l -> In y (attrs x) \/ y = At (AN a) v vis) -> special a = false -> K d (with_attrs x l).
Proof.
  intros H L N. apply K_with; [exact H|]. intros y Hy. destruct (L y Hy) as [Hy'| ->]; [left; eauto|right; exact N].
Qed.
Lemma K_set d x a v : K d x -> special a = false -> K d (d_set x a v).
Proof. intros H N. apply (K_put d x a v true); auto. apply set_attr_from. Qed.
Lemma K_set_hidden d x a v : K d x -> special a = false -> K d (d_set_hidden x a v).
Proof. intros H N. apply (K_put d x a v false); auto. apply set_hidden_from. Qed.
Lemma K_map d x f : K d x -> (forall y, In y (attrs x) -> (a_name y = a_name (f y) /\ a_val y = a_val (f y)) \/ dull (f y)) -> K d (with_attrs x (map f (attrs x))).
Proof. intros H F. apply K_with; [exact H|]. intros y Hy. apply in_map_iff in Hy. destruct Hy as (z & <- & Hz). destruct (F z Hz) as [[A B]|A]; [left; exists z; auto|now right]. Qed.
Lemma K_map_value d x a v : K d x -> special a = false -> K d (map_value x a v).
Proof.
  intros H N. apply K_map; [exact H|]. intros y Hy. destruct (has_name (AN a) y) eqn:E; [|now left]. right. apply has_name_eq in E. unfold dull. cbn. now rewrite E.
Qed.
Lemma K_retag d x : CV -> K d x -> shape_el x -> K d (with_tag x (TEl EPath)).
Proof. intros Z H S. apply (K_trans d x); [exact H|]. split; auto. cbn. intros y Hy. left. eauto. Qed.
Lemma K_fold {A} d (f : ndata -> A -> ndata) l : (forall x y, K d x -> K d (f x y)) -> forall x, K d x -> K d (fold_left f l x).
Proof. intros H. induction l as [|y l IH]; intros x Hx; cbn; auto. Qed.
Lemma K_rm_list d l : forall x, K d x -> K d (d_rm_list x l).
Proof. apply K_fold. intros. now apply K_rm. Qed.
Ltac K_go :=
  lazymatch goal with
  | H : K ?d ?x |- K ?d ?x => exact H
  | |- K ?d ?d => exact (K_refl d)
  | |- K _ (d_rm ?x _) => apply K_rm; K_go
  | |- K _ (d_set ?x _ _) => apply K_set; [K_go|try reflexivity]
  | |- K _ (d_set_hidden ?x _ _) => apply K_set_hidden; [K_go|try reflexivity]
  | |- K _ (map_value ?x _ _) => apply K_map_value; [K_go|try reflexivity]
  | |- K _ (match ?x with _ => _ end) => destruct x eqn:?; K_go
  | _ => idtac
  end.
Lemma F2_K l : Forall2 K l l. Proof. induction l; constructor; auto using K_refl. Qed.
Notation shk := (shr K).
Definition anyn (_ : ndata) : Prop := True.
Lemma any_K d d' : K d d' -> anyn d -> anyn d'. Proof. intros _ _. exact I. Qed.
Lemma any_all t : forall d, In d (flat t) -> anyn d. Proof. intros d _. exact I. Qed.
Lemma k_kpass f t t' : (forall d l r, f d l = Ok r -> K d (fst r) /\ Forall2 K l (snd r)) -> kpass f t = Ok t' -> shk t t'.
Proof. intros H. apply (shr_kpass (okn := anyn) (fun d _ => K_refl d) K_trans any_K); [intros d l r _ _; apply H|apply any_all]. Qed.
Lemma k_apass f t t' : (forall a d d', f a d = Ok d' -> K d d') -> apass f [] t = Ok t' -> shk t t'.
Proof. intros H E. apply (shr_apass (okn := anyn) any_K f (fun a d d' _ _ => H a d d') t [] t' (Forall_nil _) (any_all t) E). Qed.
Lemma k_vloop f ks t t' : (forall t d d', f t d = Ok d' -> K d d') -> NoDup (keys t) -> vloop f ks t = Ok t' -> shk t t'.
Proof. intros H N E. exact (shr_vloop (okn := anyn) (fun d _ => K_refl d) K_trans any_K K_key f ks (fun t d d' _ _ => H t d d') t t' N (any_all t) E). Qed.
Lemma shk_id t : shk t t. Proof. apply (shr_refl (okn := anyn) (fun d _ => K_refl d)). apply any_all. Qed.
Lemma upd_shk k f t : (forall d, In d (flat t) -> key d = k -> K d (f d)) -> shk t (upd k f t).
Proof. apply (shr_upd (okn := anyn) (fun d _ => K_refl d)). apply any_all. Qed.
(** resolve_gradients *)
Lemma check_K t a def d x x' : special a = false -> K d x -> check_attr t a def x = Ok x' -> K d x'.
Proof.
  intros N Mx. unfold check_attr. destruct (d_has x a); [intros E; injection E as <-; exact Mx|]. destruct (lookup _ t a x) as [v| |] eqn:L; [|destruct def as [v|]|discriminate]; intros E; injection E as <-; try exact Mx; apply K_set_hidden; auto.
Qed.
Ltac checks := repeat match goal with
  | H : bind (check_attr _ _ _ _) _ = Ok _ |- _ => let d := fresh "d" in let E := fresh "E" in apply bind_ok in H; destruct H as (d & E & H)
  end.
Ltac step := match goal with | X : check_attr ?t _ _ ?d2 = Ok ?d3 |- K ?d ?d3 => refine (check_K t _ _ d d2 d3 _ _ X); [reflexivity|clear X] end.
Lemma linear_K t d d' : resolve_linear_node t d = Ok d' -> K d d'.
Proof. intros H. unfold resolve_linear_node in H. checks. repeat step. apply K_refl. Qed.
Lemma radial_K t d d' : resolve_radial_node t d = Ok d' -> K d d'.
Proof. intros H. unfold resolve_radial_node in H. cbv zeta in H. checks. repeat step. apply K_refl. Qed.
Lemma k_linear t t' : NoDup (keys t) -> resolve_linear_gradient_attributes t = Some (Ok t') -> shk t t'.
Proof. intros N. unfold resolve_linear_gradient_attributes. destruct (gen_order _ t); [|discriminate]. intros E. injection E as E. exact (k_vloop _ _ t t' linear_K N E). Qed.
Lemma k_radial t t' : NoDup (keys t) -> resolve_radial_gradient_attributes t = Some (Ok t') -> shk t t'.
Proof. intros N. unfold resolve_radial_gradient_attributes. destruct (gen_order _ t); [|discriminate]. intros E. injection E as E. exact (k_vloop _ _ t t' radial_K N E). Qed.
(** resolve_stop_attributes *)
Lemma stop_K i d d' : resolve_stop i d = Ok d' -> K d d'.
Proof.
  unfold resolve_stop. intros H. apply bind_ok in H. destruct H as (d1 & H1 & H). injection H as <-.
  assert (X : K d d1). { destruct (d_get d AOffset) as [[]|]; try (destruct (Nat.eqb i 0); [injection H1 as <-; K_go|discriminate]). injection H1 as <-. K_go. }
  clear H1. destruct (d_has d1 AStopColor); K_go.
Qed.
Lemma k_stops t t' : resolve_stop_attributes t = Ok t' -> shk t t'.
Proof.
  apply k_kpass. clear. intros d l r. unfold resolve_stop_visit. destruct (is_grad d).
  - intros H. apply bind_ok in H. destruct H as (l' & H & E). injection E as <-. cbn. split; [apply K_refl|]. revert H. generalize 0. revert l'. induction l as [|x l IH]; intros l' i H; cbn in H; [injection H as <-; constructor|].
    apply bind_ok in H. destruct H as (x' & H1 & H). apply bind_ok in H. destruct H as (r & H2 & H). injection H as <-. constructor; [exact (stop_K _ _ _ H1)|exact (IH _ _ H2)].
  - intros E. injection E as <-. split; [apply K_refl|apply F2_K].
Qed.
(** fix_invalid_attributes *)
Lemma k_fix t t' : fix_invalid_attributes t = Ok t' -> shk t t'.
Proof.
  intros H. unfold fix_invalid_attributes in H. apply bind_ok in H. destruct H as (t1 & H & E). injection E as <-. unfold fix_marker. assert (S : shk t t1).
  { revert H. apply k_kpass. clear. intros d l r. unfold fix_visit.
    assert (D : Ok (d, l) = Ok r -> K d (fst r) /\ Forall2 K l (snd r)) by (intros E; injection E as <-; split; [apply K_refl|apply F2_K]).
    assert (Gs : bind (fix_stops q0 l) (fun l' => Ok (d, l')) = Ok r -> K d (fst r) /\ Forall2 K l (snd r)).
    { intros H. apply bind_ok in H. destruct H as (l' & H & E). injection E as <-. cbn. split; [apply K_refl|]. revert H. generalize q0. clear. revert l'. induction l as [|x l IH]; intros l' q H; cbn in H; [injection H as <-; constructor|].
      destruct (d_get x AOffset) as [[]|]; try discriminate. destruct l0 as [n [] ]; try discriminate. apply bind_ok in H. destruct H as (r & H2 & H). injection H as <-. constructor; [K_go|exact (IH _ _ H2)]. }
    assert (FL : forall a x, special a = false -> K d x -> K d (fix_len x a)) by (intros a x Na Mx; unfold fix_len; K_go; auto).
    assert (RL : forall a x, K d x -> K d (rm_negative_len x a)) by (intros a x Mx; unfold rm_negative_len; K_go).
    destruct (tag d) as [|e| | | |]; auto. destruct e; auto; intros E; injection E as <-; cbn; (split; [|apply F2_K]).
    1, 2: unfold fix_poly_attributes; K_go.
    unfold fix_rect_attributes. apply RL, RL. repeat (apply FL; [reflexivity|]). apply K_refl. }
  apply (shr_trans K K_trans _ _ _ S). apply shr_tmap. intros d _. K_go.
Qed.
(** round_numbers *)
Lemma k_round o t : shk t (round_numbers o t).
Proof.
  apply shr_tmap. intros d Hd. destruct (is_svg_el d); [|apply K_refl]. apply K_map; [apply K_refl|]. intros y Hy. unfold round_attr, dull. destruct (a_name y) as [a|a] eqn:En; [|left; rewrite En; auto]. cbn. destruct (special a) eqn:S; [left|now right]. split; [reflexivity|].
  destruct a; try discriminate S; reflexivity.
Qed.
(** transforms *)
Lemma tcoords_K d x ax ay m : special ax = false -> special ay = false -> K d x -> K d (transform_coords ax ay m x).
Proof. intros Fx Fy Mx. unfold transform_coords. K_go; assumption. Qed.
Lemma scale_K d x a k : special a = false -> K d x -> K d (scale_coord a k x).
Proof. intros F Mx. unfold scale_coord. destruct (d_get x a) as [[]|]; auto. K_go. exact F. Qed.
Lemma scales_K d x l m : Forall (fun a => special a = false) l -> K d x -> K d (scale_coords l m x).
Proof. intros F Mx. unfold scale_coords. destruct (has_scale m); [|exact Mx]. revert x Mx. induction F as [|a l Fa F IH]; intros x Mx; cbn; [exact Mx|]. apply IH. now apply scale_K. Qed.
Lemma recalc_num_K d x a k anc : special a = false -> K d x -> K d (recalc_num a k anc x).
Proof. intros F Mx. unfold recalc_num. destruct (if d_has x a then _ else _) as [[]|]; auto. destruct (qeqb _ _); [exact Mx|]. K_go. exact F. Qed.
Lemma recalc_K d x k anc : K d x -> K d (recalc_stroke k anc x).
Proof.
  intros Mx. unfold recalc_stroke. apply recalc_num_K; [reflexivity|]. assert (R1 : K d (recalc_num AStrokeWidth k anc x)) by (apply recalc_num_K; [reflexivity|exact Mx]).
  unfold recalc_dasharray. destruct (if d_has _ _ then _ else _) as [[]|]; auto. K_go.
Qed.
Lemma shape_K anc d d' : apply_shape anc d = Ok d' -> K d d'.
Proof.
  pose proof (K_refl d) as R0. unfold apply_shape. destruct (d_has d ATransform); [|intros X; injection X as <-; exact R0].
  assert (P : forall e, Transforms.process_shape e anc d = Ok d' -> (forall m, K d (shape_coords e m d)) -> K d d').
  { intros e. unfold Transforms.process_shape. destruct (d_get d ATransform) as [[]|]; try discriminate. destruct (_ || _); intros X H; injection X as <-; [exact R0|]. destruct (has_scale _); [apply recalc_K|]; apply K_rm, H. }
  destruct (tag d) as [|e| | | |]; try discriminate. destruct e; try (intros X; injection X as <-; exact R0); intros X; apply (P _ X); intros m; cbn [shape_coords].
  all: try apply scales_K; try (repeat constructor; reflexivity); repeat (apply tcoords_K; [reflexivity|reflexivity|]); exact R0.
Qed.
Lemma k_shapes t t' : apply_transform_to_shapes t = Ok t' -> shk t t'.
Proof. apply k_apass. intros a d d'. apply shape_K. Qed.
Lemma path_K o anc d d' : process_path_node o anc d = Ok d' -> K d d'.
Proof.
  pose proof (K_refl d) as R0. unfold process_path_node. destruct (is_tag EPath d); [|intros X; injection X as <-; exact R0].
  assert (P : forall m ts x y, K d x -> path_data o m ts x = Ok y -> K d y).
  { intros m ts x y Rx. unfold path_data. destruct (d_get x AD) as [[]|]; try (intros X; injection X as <-; exact Rx). destruct (Paths.process_path _ _ _ _); [|discriminate]. intros X. injection X as <-. K_go. }
  destruct (_ && _); [|now apply P]. destruct (d_get d ATransform) as [[]|]; try discriminate. destruct (_ && _); [|now apply P]. apply P. destruct (has_scale _); [apply recalc_K|]; now apply K_rm.
Qed.
Lemma k_paths o t t' : Transforms.process_paths o t = Ok t' -> shk t t'.
Proof. apply k_apass. intros a d d'. apply path_K. Qed.
Lemma k_grad_transforms t t' : NoDup (keys t) -> apply_transform_to_gradients t = Ok t' -> shk t t'.
Proof.
  intros N E. refine (k_vloop _ _ t t' _ N E). clear. intros t d d'. unfold apply_gradient. assert (D : Ok d = Ok d' -> K d d') by (intros E; injection E as <-; apply K_refl).
  destruct (is_grad d && _); [|exact D]. destruct (linked_by_gradient _ _); [exact D|]. destruct (match d_get d AXlinkHref with Some _ => _ | None => _ end); [exact D|]. destruct (d_get d AGradientTransform) as [[]|]; try discriminate.
  destruct (negb _); [exact D|]. destruct (negb _); [exact D|]. destruct (is_tag _ _); intros E; injection E as <-; apply K_rm; try apply scales_K; try (repeat constructor; reflexivity); repeat (apply tcoords_K; [reflexivity|reflexivity|]); apply K_refl.
Qed.
(** convert_shapes_to_paths *)
Lemma convert_K (Cv : CV) d d' : convert_shape d = Ok d' -> K d d'.
Proof.
  pose proof (K_refl d) as R0. unfold convert_shape. assert (D : Ok d = Ok d' -> K d d') by (intros E; injection E as <-; exact R0). destruct (tag d) as [|e| | | |] eqn:Tg; auto. destruct e; auto.
  - intros E. injection E as <-. unfold convert_line. destruct (negb _); [exact R0|]. apply K_rm_list, K_retag; [exact Cv|K_go|exists ELine; cbn; auto].
  - unfold convert_poly. destruct (points_to_path d) as [r|]; [|exact D]. intros E. apply bind_ok in E. destruct E as (p & _ & E). injection E as <-. apply K_rm, K_set; [apply K_retag; [exact Cv|exact R0|exists EPolygon; cbn; auto 9]|reflexivity].
  - unfold convert_poly. destruct (points_to_path d) as [r|]; [|exact D]. intros E. apply bind_ok in E. destruct E as (p & _ & E). injection E as <-. apply K_rm, K_set; [apply K_retag; [exact Cv|exact R0|exists EPolyline; cbn; auto 9]|reflexivity].
  - intros E. injection E as <-. unfold convert_rect. destruct (_ || _); [exact R0|]. destruct (_ || _); [exact R0|]. destruct (negb _); [exact R0|]. apply K_rm_list, K_retag; [exact Cv|K_go|exists ERect; cbn; auto].
Qed.
Lemma k_convert (Cv : CV) t t' : convert_shapes_to_paths t = Ok t' -> shk t t'.
Proof.
  unfold convert_shapes_to_paths, npass. apply k_kpass. intros d l r E. apply bind_ok in E. destruct E as (d' & E1 & E). injection E as <-. split; [exact (convert_K Cv _ _ E1)|apply F2_K].
Qed.
(** remove_default_attributes *)
Lemma hide_same y : a_name y = a_name (hide y) /\ a_val y = a_val (hide y). Proof. split; reflexivity. Qed.
Lemma k_default dv t t' : remove_default_attributes dv t = Ok t' -> shk t t'.
Proof.
  apply k_apass. intros a d d' X. injection X as <-. unfold default_node. destruct (tag d); try apply K_refl. unfold hide_if. apply K_map; [apply K_refl|]. intros y Hy. destruct (default_attr _ _ _ _ _ _); left; split; reflexivity.
Qed.
(** remove_text_attributes *)
Lemma rm_all_K d l : forall x, K d x -> K d (rm_all l x).
Proof. induction l as [|a l IH]; intros x Rx; cbn; [exact Rx|]. apply IH, K_rm, Rx. Qed.
Lemma text_child_shk t0 t : shk t (fst (rm_text_child t0 t)).
Proof.
  induction t as [d ch IH] using tree_ind'. rewrite Forall_forall in IH. pose proof (K_rm _ _ ALineHeight (K_refl d)) as R0. cbn [rm_text_child]. destruct (negb (is_svg_el (d_rm d ALineHeight))).
  - constructor; [exact R0|]. rewrite <- (map_id ch) at 2. apply shrl_map. intros c Hc. apply shk_id.
  - destruct ch as [|c0 ch0] eqn:Ec; [constructor; [|constructor]; destruct (_ && _); [now apply rm_all_K|exact R0]|]. rewrite <- Ec in *. clear c0 ch0 Ec. constructor; [destruct (_ && _); [now apply rm_all_K|exact R0]|]. rewrite map_map. apply shrl_map. intros c Hc. now apply IH.
Qed.
Lemma space_child_shk t : shk t (rm_space_child t).
Proof.
  induction t as [d ch IH] using tree_ind'. rewrite Forall_forall in IH. pose proof (K_refl d) as R0. cbn [rm_space_child]. assert (S : shrl K ch (map rm_space_child ch)) by (apply shrl_map; exact IH).
  destruct (preserves d); [|now constructor]. destruct ch as [|c0 ch0]; [constructor; [now apply K_rm|constructor]|]. constructor; [|exact S]. destruct (existsb _ _); [exact R0|now apply K_rm].
Qed.
Lemma k_text t t' : remove_text_attributes t = Ok t' -> shk t t'.
Proof.
  assert (S1 : shk t (rm_text_root t)). { destruct t as [d ch]. constructor; [apply K_refl|]. apply shrl_map. intros c Hc. apply text_child_shk. }
  assert (S2 : shk (rm_text_root t) (remove_xml_space (rm_text_root t))). { destruct (rm_text_root t) as [d ch]. constructor; [apply K_refl|]. apply shrl_map. intros c Hc. apply space_child_shk. }
  pose proof (shr_trans K K_trans _ _ _ S1 S2) as S. unfold remove_text_attributes. destruct (svg_element _) as [s|]; [|discriminate]. intros X. injection X as <-. destruct (has_text s); [exact S|].
  apply (shr_trans K K_trans _ _ _ S). apply shr_tmap. intros d Hd. pose proof (K_refl d) as R0. destruct (is_tag EFontFace d); [exact (rm_all_K d text_attributes d R0)|exact R0].
Qed.
(** remove_needless_attributes *)
Lemma needless_K d x anc leaf : K d x -> K d (needless_node anc leaf x).
Proof.
  intros R0. unfold needless_node. assert (R1 : K d (Needless.process_shape x)). { unfold Needless.process_shape, retain. destruct (tag x) as [|e| | | |]; auto. destruct e; auto using K_filter. } apply (K_rm _ _ AColor) in R1. revert R1. generalize (d_rm (Needless.process_shape x) AColor). intros x1 R1.
  set (x2 := if tag_sat is_container x1 then x1 else d_rm x1 AEnableBackground). assert (R2 : K d x2) by (unfold x2; K_go). clearbody x2.
  set (x3 := if leaf then process_fill x2 else x2). assert (R3 : K d x3) by (unfold x3, process_fill; K_go). clearbody x3.
  set (x4 := if leaf then process_stroke anc x3 else x3). assert (R4 : K d x4).
  { unfold x4. destruct leaf; [|exact R3]. unfold process_stroke. pose proof (rm_all_K d stroke_attributes _ (K_rm _ _ AStroke R3)) as A. pose proof (rm_all_K d stroke_attributes _ R3) as B. K_go. }
  unfold process_overflow. destruct (tag x4) as [|e| | | |]; try (now apply K_rm). destruct e; auto using K_rm.
Qed.
Lemma clip_shk ks : forall t, shk t (process_clip_path ks t).
Proof.
  unfold process_clip_path. induction ks as [|k ks IH]; intros t; cbn; [apply shk_id|]. destruct (is_used k t); [now apply IH|].
  assert (S : shk t (upd k strip_paint t)) by (apply upd_shk; intros d Hd _; apply K_filter, K_refl). exact (shr_trans K K_trans _ _ _ S (IH _)).
Qed.
Lemma k_needless t : shk t (remove_needless_attributes t).
Proof.
  unfold remove_needless_attributes. generalize (keys t) as ks. intros ks. revert t. induction ks as [|k ks IH]; intros t; cbn; [apply shk_id|].
  assert (S : shk t (needless_visit t k)).
  { unfold needless_visit. destruct (find_place [] k t) as [[anc s]|]; [|apply shk_id]. destruct (is_svg_el (data s)); [|apply shk_id].
    set (t1 := if is_tag EClipPath (data s) then _ else t). assert (S1 : shk t t1) by (unfold t1; destruct (is_tag _ _); [apply clip_shk|apply shk_id]). clearbody t1.
    apply (shr_trans K K_trans _ _ _ S1). apply upd_shk. intros d Hd _. apply needless_K, K_refl. }
  exact (shr_trans K K_trans _ _ _ S (IH _)).
Qed.
End tools.
