(** Where the attributes of a cleaned document come from: every pass but the last ones. *)
From Coq Require Import List Bool NArith Arith ZArith String Lia QArith Qcanon.
From Verif Require Paths.
From Verif Require Import Names Num Value Dom DomFacts DomOps Outcome DomRemove SpecDom SpecWritten Gradients Stops Shapes NPass APass VLoop Transforms Links Inherit Round RmDefault UnusedCoords RmText Needless GradUnits JoinStyle Move MoveFacts RmUnusedDefs GroupDefs Dupl MergeGradients Regroup Img ResolveUse Ungroup GroupStyle RmInvisible TasksSimple WfAll WfGrad Mild MildMerge MildUse StyleTable Ends GroupDefsEnd SpecValues Cli Clean SpecClean.
Import ListNotations.
Local Open Scope nat_scope.

Definition newa (d : ndata) (y : attr) : Prop :=
  (exists z, In z (attrs d) /\ a_name z = a_name y /\ (a_val z = a_val y \/ ((exists a, a_name y = AN a) /\ computed (a_val y) = true))) \/
  ((exists a, a_name y = AN a /\ made a = true) /\ computed (a_val y) = true).
Record K (d d' : ndata) : Prop := {
  K_key : key d' = key d;
  K_id : nid d' = nid d;
  K_svg : is_svg_el d' = is_svg_el d;
  K_attrs : forall y, In y (attrs d') -> newa d y
}.
Lemma newa_in d y : In y (attrs d) -> newa d y. Proof. left. exists y. auto. Qed.
Lemma newa_made d a v vis : made a = true -> computed v = true -> newa d (At (AN a) v vis). Proof. right. split; [exists a; auto|auto]. Qed.
Lemma K_refl d : K d d. Proof. split; auto. intros y Hy. now apply newa_in. Qed.
Lemma newa_trans d1 d2 y : K d1 d2 -> newa d2 y -> newa d1 y.
Proof.
  intros [_ _ _ A1] [(z & Hz & N & V)|H]; [|now right]. destruct (A1 z Hz) as [(w & Hw & N' & V')|[(a & Ea & M) C]].
  - left. exists w. split; [exact Hw|]. split; [congruence|]. destruct V as [V|V]; [|auto]. rewrite <- V. destruct V' as [V'|[(a & Q) C]]; [now left|right]. split; [exists a; congruence|exact C].
  - right. split; [exists a; split; [congruence|exact M]|]. destruct V as [V|[_ V]]; [congruence|exact V].
Qed.
Lemma K_trans d1 d2 d3 : K d1 d2 -> K d2 d3 -> K d1 d3.
Proof. intros H1 H2. split; [rewrite (K_key _ _ H2); apply K_key, H1|rewrite (K_id _ _ H2); apply K_id, H1|rewrite (K_svg _ _ H2); apply K_svg, H1|]. intros y Hy. apply (newa_trans _ _ _ H1). now apply (K_attrs _ _ H2). Qed.
(** Changes of one node. *)
Lemma K_with d x l : K d x -> (forall y, In y l -> newa x y) -> K d (with_attrs x l).
Proof. intros H L. apply (K_trans d x); [exact H|]. split; auto. Qed.
Lemma K_filter d x p : K d x -> K d (with_attrs x (filter p (attrs x))).
Proof. intros H. apply K_with; [exact H|]. intros y Hy. apply filter_In in Hy. apply newa_in, Hy. Qed.
Lemma K_rm d x a : K d x -> K d (d_rm x a). Proof. apply K_filter. Qed.
Lemma K_put d x a v (vis : bool) l : K d x -> (forall y, In y l -> In y (attrs x) \/ y = At (AN a) v vis) -> made a = true -> computed v = true -> K d (with_attrs x l).
Proof. intros H L N C. apply K_with; [exact H|]. intros y Hy. destruct (L y Hy) as [Hy'| ->]; [now apply newa_in|now apply newa_made]. Qed.
Lemma K_set d x a v : K d x -> made a = true -> computed v = true -> K d (d_set x a v).
Proof. intros H N C. apply (K_put d x a v true); auto. apply set_attr_from. Qed.
Lemma K_set_hidden d x a v : K d x -> made a = true -> computed v = true -> K d (d_set_hidden x a v).
Proof. intros H N C. apply (K_put d x a v false); auto. apply set_hidden_from. Qed.
Lemma K_map d x f : K d x -> (forall y, In y (attrs x) -> a_name y = a_name (f y) /\ (a_val y = a_val (f y) \/ ((exists a, a_name y = AN a) /\ computed (a_val (f y)) = true))) -> K d (with_attrs x (map f (attrs x))).
Proof. intros H F. apply K_with; [exact H|]. intros y Hy. apply in_map_iff in Hy. destruct Hy as (z & <- & Hz). destruct (F z Hz) as [A B]. left. exists z. rewrite <- A. auto. Qed.
Lemma K_map_value d x a v : K d x -> computed v = true -> K d (map_value x a v).
Proof. intros H N. apply K_map; [exact H|]. intros y Hy. destruct (has_name (AN a) y) eqn:E; cbn; auto. apply has_name_eq in E. split; [reflexivity|right; eauto]. Qed.
Lemma set_present x a v y : d_has x a = true -> In y (attrs (d_set x a v)) -> In y (attrs x) \/ (y = At (AN a) v true /\ exists z, In z (attrs x) /\ a_name z = AN a).
Proof.
  intros H Hy. cbn in Hy. apply set_attr_from in Hy. destruct Hy as [Hy|Hy]; [auto|right]. split; [exact Hy|]. unfold d_has, has_attr in H. destruct (get_attr (attrs x) a) as [z|] eqn:G; [|discriminate H]. exists z. unfold get_attr in G. apply find_some in G. destruct G as [Hz E]. split; [exact Hz|now apply has_name_eq].
Qed.
Lemma K_set_present d x a v : K d x -> d_has x a = true -> computed v = true -> K d (d_set x a v).
Proof.
  intros H N C. apply (K_trans d x); [exact H|]. split; [reflexivity|reflexivity|reflexivity|]. intros y Hy. destruct (set_present _ _ _ _ N Hy) as [Hy'|[-> (z & Hz & E)]]; [now apply newa_in|]. left. exists z. cbn. split; [exact Hz|]. split; [exact E|right; eauto].
Qed.
Lemma K_retag d x e : K d x -> is_svg_el x = true -> K d (with_tag x (TEl e)).
Proof. intros H S. apply (K_trans d x); [exact H|]. split; auto. intros y Hy. now apply newa_in. Qed.
Lemma K_fold {A} d (f : ndata -> A -> ndata) l : (forall x y, K d x -> K d (f x y)) -> forall x, K d x -> K d (fold_left f l x).
Proof. intros H. induction l as [|y l IH]; intros x Hx; cbn; auto. Qed.
Lemma K_rm_list d l : forall x, K d x -> K d (d_rm_list x l).
Proof. apply K_fold. intros. now apply K_rm. Qed.
Ltac K_go :=
  lazymatch goal with
  | H : K ?d ?x |- K ?d ?x => exact H
  | |- K ?d ?d => exact (K_refl d)
  | |- K _ (d_rm ?x _) => apply K_rm; K_go
  | |- K _ (d_set ?x _ _) => first [apply K_set; [K_go|reflexivity|reflexivity]|idtac]
  | |- K _ (d_set_hidden ?x _ _) => first [apply K_set_hidden; [K_go|reflexivity|reflexivity]|idtac]
  | |- K _ (map_value ?x _ _) => first [apply K_map_value; [K_go|reflexivity]|idtac]
  | |- K _ (match ?x with _ => _ end) => destruct x eqn:?; K_go
  | _ => idtac
  end.
Lemma F2_K l : Forall2 K l l. Proof. induction l; constructor; auto using K_refl. Qed.
Notation shk := (shr K).
Definition anyn (_ : ndata) : Prop := True.
Lemma any_K d d' : K d d' -> anyn d -> anyn d'. Proof. intros _ _. exact I. Qed.
Lemma any_all t : forall d, In d (flat t) -> anyn d. Proof. intros d _. exact I. Qed.
Lemma k_kpass f t t' : (forall d l r, f d l = Ok r -> K d (fst r) /\ Forall2 K l (snd r)) -> kpass f t = Ok t' -> shk t t'.
Proof. intros H. apply (shr_kpass (okn := anyn) (fun d _ => K_refl d) K_trans any_K); [intros d l r _ _; apply H|apply any_all]. Qed.
Lemma k_apass f t t' : (forall a d d', f a d = Ok d' -> K d d') -> apass f [] t = Ok t' -> shk t t'.
Proof. intros H E. apply (shr_apass (okn := anyn) any_K f (fun a d d' _ _ => H a d d') t [] t' (Forall_nil _) (any_all t) E). Qed.
Lemma k_vloop f ks t t' : (forall t d d', f t d = Ok d' -> K d d') -> NoDup (keys t) -> vloop f ks t = Ok t' -> shk t t'.
Proof. intros H N E. exact (shr_vloop (okn := anyn) (fun d _ => K_refl d) K_trans any_K K_key f ks (fun t d d' _ _ => H t d d') t t' N (any_all t) E). Qed.
Lemma shk_id t : shk t t. Proof. apply (shr_refl (okn := anyn) (fun d _ => K_refl d)). apply any_all. Qed.
Lemma upd_shk k f t : (forall d, In d (flat t) -> key d = k -> K d (f d)) -> shk t (upd k f t).
Proof. apply (shr_upd (okn := anyn) (fun d _ => K_refl d)). apply any_all. Qed.
(** resolve_stop_attributes *)
Lemma stop_K i d d' : resolve_stop i d = Ok d' -> K d d'.
Proof.
  unfold resolve_stop. intros H. apply bind_ok in H. destruct H as (d1 & H1 & H). injection H as <-.
  assert (X : K d d1). { destruct (d_get d AOffset) as [[]|]; try (destruct (Nat.eqb i 0); [injection H1 as <-; K_go|discriminate]). injection H1 as <-. K_go. }
  clear H1. destruct (d_has d1 AStopColor); K_go.
Qed.
Lemma k_stops t t' : resolve_stop_attributes t = Ok t' -> shk t t'.
Proof.
  apply k_kpass. clear. intros d l r. unfold resolve_stop_visit. destruct (is_grad d).
  - intros H. apply bind_ok in H. destruct H as (l' & H & E). injection E as <-. cbn. split; [apply K_refl|]. revert H. generalize 0. revert l'. induction l as [|x l IH]; intros l' i H; cbn in H; [injection H as <-; constructor|].
    apply bind_ok in H. destruct H as (x' & H1 & H). apply bind_ok in H. destruct H as (r & H2 & H). injection H as <-. constructor; [exact (stop_K _ _ _ H1)|exact (IH _ _ H2)].
  - intros E. injection E as <-. split; [apply K_refl|apply F2_K].
Qed.
(** fix_invalid_attributes *)
Lemma k_fix t t' : fix_invalid_attributes t = Ok t' -> shk t t'.
Proof.
  intros H. unfold fix_invalid_attributes in H. apply bind_ok in H. destruct H as (t1 & H & E). injection E as <-. unfold fix_marker. assert (S : shk t t1).
  { revert H. apply k_kpass. clear. intros d l r. unfold fix_visit.
    assert (D : Ok (d, l) = Ok r -> K d (fst r) /\ Forall2 K l (snd r)) by (intros E; injection E as <-; split; [apply K_refl|apply F2_K]).
    assert (Gs : bind (fix_stops q0 l) (fun l' => Ok (d, l')) = Ok r -> K d (fst r) /\ Forall2 K l (snd r)).
    { intros H. apply bind_ok in H. destruct H as (l' & H & E). injection E as <-. cbn. split; [apply K_refl|]. revert H. generalize q0. clear. revert l'. induction l as [|x l IH]; intros l' q H; cbn in H; [injection H as <-; constructor|].
      destruct (d_get x AOffset) as [[]|]; try discriminate. destruct l0 as [n [] ]; try discriminate. apply bind_ok in H. destruct H as (r & H2 & H). injection H as <-. constructor; [K_go|exact (IH _ _ H2)]. }
    assert (FL : forall a x, made a = true -> K d x -> K d (fix_len x a)) by (intros a x Na Mx; unfold fix_len; destruct (d_has x a); [destruct (negative _); [|exact Mx]|]; apply K_set; auto).
    assert (RL : forall a x, K d x -> K d (rm_negative_len x a)) by (intros a x Mx; unfold rm_negative_len; K_go).
    destruct (tag d) as [|e| | | |]; auto. destruct e; auto; intros E; injection E as <-; cbn; (split; [|apply F2_K]).
    1, 2: unfold fix_poly_attributes; K_go.
    unfold fix_rect_attributes. apply RL, RL. repeat (apply FL; [reflexivity|]). apply K_refl. }
  apply (shr_trans K K_trans _ _ _ S). apply shr_tmap. intros d _. K_go.
Qed.
(** round_numbers *)
Lemma k_round o t : shk t (round_numbers o t).
Proof.
  apply shr_tmap. intros d Hd. destruct (is_svg_el d); [|apply K_refl]. apply K_map; [apply K_refl|]. intros y Hy. unfold round_attr. destruct (a_name y) as [a|a] eqn:En; [|auto]. cbn. split; [reflexivity|]. unfold round_value. destruct (a_val y); repeat match goal with |- context [if ?b then _ else _] => destruct b end; eauto.
Qed.
(** transforms *)
Lemma tcoords_K d x ax ay m : made ax = true -> made ay = true -> K d x -> K d (transform_coords ax ay m x).
Proof. intros Fx Fy Mx. unfold transform_coords. K_go. all: repeat (apply K_set; [|assumption|reflexivity]); exact Mx. Qed.
Lemma scale_K d x a k : K d x -> K d (scale_coord a k x).
Proof. intros Mx. unfold scale_coord. destruct (d_get x a) as [[]|]; auto. apply K_map_value; [exact Mx|reflexivity]. Qed.
Lemma scales_K d x l m : K d x -> K d (scale_coords l m x).
Proof. intros Mx. unfold scale_coords. destruct (has_scale m); [|exact Mx]. revert x Mx. induction l as [|a l IH]; intros x Mx; cbn; [exact Mx|]. apply IH. now apply scale_K. Qed.
Lemma recalc_num_K d x a k anc : made a = true -> K d x -> K d (recalc_num a k anc x).
Proof. intros F Mx. unfold recalc_num. destruct (if d_has x a then _ else _) as [[]|]; auto. destruct (qeqb _ _); [exact Mx|]. apply K_set; [exact Mx|exact F|reflexivity]. Qed.
Lemma recalc_K d x k anc : K d x -> K d (recalc_stroke k anc x).
Proof.
  intros Mx. unfold recalc_stroke. apply recalc_num_K; [reflexivity|]. assert (R1 : K d (recalc_num AStrokeWidth k anc x)) by (apply recalc_num_K; [reflexivity|exact Mx]).
  unfold recalc_dasharray. destruct (if d_has _ _ then _ else _) as [[]|]; auto. K_go.
Qed.
Lemma shape_K anc d d' : apply_shape anc d = Ok d' -> K d d'.
Proof.
  pose proof (K_refl d) as R0. unfold apply_shape. destruct (d_has d ATransform); [|intros X; injection X as <-; exact R0].
  assert (P : forall e, Transforms.process_shape e anc d = Ok d' -> (forall m, K d (shape_coords e m d)) -> K d d').
  { intros e. unfold Transforms.process_shape. destruct (d_get d ATransform) as [[]|]; try discriminate. destruct (_ || _); intros X H; injection X as <-; [exact R0|]. destruct (has_scale _); [apply recalc_K|]; apply K_rm, H. }
  destruct (tag d) as [|e| | | |]; try discriminate. destruct e; try (intros X; injection X as <-; exact R0); intros X; apply (P _ X); intros m; cbn [shape_coords].
  all: try apply scales_K; repeat (apply tcoords_K; [reflexivity|reflexivity|]); exact R0.
Qed.
Lemma k_shapes t t' : apply_transform_to_shapes t = Ok t' -> shk t t'.
Proof. apply k_apass. intros a d d'. apply shape_K. Qed.
Lemma path_K o anc d d' : process_path_node o anc d = Ok d' -> K d d'.
Proof.
  pose proof (K_refl d) as R0. unfold process_path_node. destruct (is_tag EPath d); [|intros X; injection X as <-; exact R0].
  assert (P : forall m ts x y, K d x -> path_data o m ts x = Ok y -> K d y).
  { intros m ts x y Rx. unfold path_data. destruct (d_get x AD) as [[]|]; try (intros X; injection X as <-; exact Rx). destruct (Paths.process_path _ _ _ _); [|discriminate]. intros X. injection X as <-. K_go. }
  destruct (_ && _); [|now apply P]. destruct (d_get d ATransform) as [[]|]; try discriminate. destruct (_ && _); [|now apply P]. apply P. destruct (has_scale _); [apply recalc_K|]; now apply K_rm.
Qed.
Lemma k_paths o t t' : Transforms.process_paths o t = Ok t' -> shk t t'.
Proof. apply k_apass. intros a d d'. apply path_K. Qed.
Lemma k_grad_transforms t t' : NoDup (keys t) -> apply_transform_to_gradients t = Ok t' -> shk t t'.
Proof.
  intros N E. refine (k_vloop _ _ t t' _ N E). clear. intros t d d'. unfold apply_gradient. assert (D : Ok d = Ok d' -> K d d') by (intros E; injection E as <-; apply K_refl).
  destruct (is_grad d && _); [|exact D]. destruct (linked_by_gradient _ _); [exact D|]. destruct (match d_get d AXlinkHref with Some _ => _ | None => _ end); [exact D|]. destruct (d_get d AGradientTransform) as [[]|]; try discriminate.
  destruct (negb _); [exact D|]. destruct (negb _); [exact D|]. destruct (is_tag _ _); intros E; injection E as <-; apply K_rm; try apply scales_K; repeat (apply tcoords_K; [reflexivity|reflexivity|]); apply K_refl.
Qed.
(** convert_shapes_to_paths *)
Lemma convert_K d d' : convert_shape d = Ok d' -> K d d'.
Proof.
  pose proof (K_refl d) as R0. unfold convert_shape. assert (D : Ok d = Ok d' -> K d d') by (intros E; injection E as <-; exact R0). destruct (tag d) as [|e| | | |] eqn:Tg; auto. assert (Sd : is_svg_el d = true) by (unfold is_svg_el, tag_id; now rewrite Tg). destruct e; auto.
  - intros E. injection E as <-. unfold convert_line. destruct (negb _); [exact R0|]. apply K_rm_list, K_retag; [K_go|exact Sd].
  - unfold convert_poly. destruct (points_to_path d) as [r|]; [|exact D]. intros E. apply bind_ok in E. destruct E as (p & _ & E). injection E as <-. apply K_rm, K_set; [apply K_retag; [exact R0|exact Sd]|reflexivity|reflexivity].
  - unfold convert_poly. destruct (points_to_path d) as [r|]; [|exact D]. intros E. apply bind_ok in E. destruct E as (p & _ & E). injection E as <-. apply K_rm, K_set; [apply K_retag; [exact R0|exact Sd]|reflexivity|reflexivity].
  - intros E. injection E as <-. unfold convert_rect. destruct (_ || _); [exact R0|]. destruct (_ || _); [exact R0|]. destruct (negb _); [exact R0|]. apply K_rm_list, K_retag; [K_go|exact Sd].
Qed.
Lemma k_convert t t' : convert_shapes_to_paths t = Ok t' -> shk t t'.
Proof.
  unfold convert_shapes_to_paths, npass. apply k_kpass. intros d l r E. apply bind_ok in E. destruct E as (d' & E1 & E). injection E as <-. split; [now apply convert_K|apply F2_K].
Qed.
(** remove_default_attributes *)
Lemma hide_same y : a_name y = a_name (hide y) /\ a_val y = a_val (hide y). Proof. split; reflexivity. Qed.
Lemma k_default dv t t' : remove_default_attributes dv t = Ok t' -> shk t t'.
Proof.
  apply k_apass. intros a d d' X. injection X as <-. unfold default_node. destruct (tag d); try apply K_refl. unfold hide_if. apply K_map; [apply K_refl|]. intros y Hy. destruct (default_attr _ _ _ _ _ _); auto.
Qed.
(** remove_text_attributes *)
Lemma rm_all_K d l : forall x, K d x -> K d (rm_all l x).
Proof. induction l as [|a l IH]; intros x Rx; cbn; [exact Rx|]. apply IH, K_rm, Rx. Qed.
Lemma text_child_shk t0 t : shk t (fst (rm_text_child t0 t)).
Proof.
  induction t as [d ch IH] using tree_ind'. rewrite Forall_forall in IH. pose proof (K_rm _ _ ALineHeight (K_refl d)) as R0. cbn [rm_text_child]. destruct (negb (is_svg_el (d_rm d ALineHeight))).
  - constructor; [exact R0|]. rewrite <- (map_id ch) at 2. apply shrl_map. intros c Hc. apply shk_id.
  - destruct ch as [|c0 ch0] eqn:Ec; [constructor; [|constructor]; destruct (_ && _); [now apply rm_all_K|exact R0]|]. rewrite <- Ec in *. clear c0 ch0 Ec. constructor; [destruct (_ && _); [now apply rm_all_K|exact R0]|]. rewrite map_map. apply shrl_map. intros c Hc. now apply IH.
Qed.
Lemma space_child_shk t : shk t (rm_space_child t).
Proof.
  induction t as [d ch IH] using tree_ind'. rewrite Forall_forall in IH. pose proof (K_refl d) as R0. cbn [rm_space_child]. assert (S : shrl K ch (map rm_space_child ch)) by (apply shrl_map; exact IH).
  destruct (preserves d); [|now constructor]. destruct ch as [|c0 ch0]; [constructor; [now apply K_rm|constructor]|]. constructor; [|exact S]. destruct (existsb _ _); [exact R0|now apply K_rm].
Qed.
Lemma k_text t t' : remove_text_attributes t = Ok t' -> shk t t'.
Proof.
  assert (S1 : shk t (rm_text_root t)). { destruct t as [d ch]. constructor; [apply K_refl|]. apply shrl_map. intros c Hc. apply text_child_shk. }
  assert (S2 : shk (rm_text_root t) (remove_xml_space (rm_text_root t))). { destruct (rm_text_root t) as [d ch]. constructor; [apply K_refl|]. apply shrl_map. intros c Hc. apply space_child_shk. }
  pose proof (shr_trans K K_trans _ _ _ S1 S2) as S. unfold remove_text_attributes. destruct (svg_element _) as [s|]; [|discriminate]. intros X. injection X as <-. destruct (has_text s); [exact S|].
  apply (shr_trans K K_trans _ _ _ S). apply shr_tmap. intros d Hd. pose proof (K_refl d) as R0. destruct (is_tag EFontFace d); [exact (rm_all_K d text_attributes d R0)|exact R0].
Qed.
(** remove_needless_attributes *)
Lemma needless_K d x anc leaf : K d x -> K d (needless_node anc leaf x).
Proof.
  intros R0. unfold needless_node. assert (R1 : K d (Needless.process_shape x)). { unfold Needless.process_shape, retain. destruct (tag x) as [|e| | | |]; auto. destruct e; auto using K_filter. } apply (K_rm _ _ AColor) in R1. revert R1. generalize (d_rm (Needless.process_shape x) AColor). intros x1 R1.
  set (x2 := if tag_sat is_container x1 then x1 else d_rm x1 AEnableBackground). assert (R2 : K d x2) by (unfold x2; K_go). clearbody x2.
  set (x3 := if leaf then process_fill x2 else x2). assert (R3 : K d x3) by (unfold x3, process_fill; K_go). clearbody x3.
  set (x4 := if leaf then process_stroke anc x3 else x3). assert (R4 : K d x4).
  { unfold x4. destruct leaf; [|exact R3]. unfold process_stroke. pose proof (rm_all_K d stroke_attributes _ (K_rm _ _ AStroke R3)) as A. pose proof (rm_all_K d stroke_attributes _ R3) as B. K_go. }
  unfold process_overflow. destruct (tag x4) as [|e| | | |]; try (now apply K_rm). destruct e; auto using K_rm.
Qed.
Lemma clip_shk ks : forall t, shk t (process_clip_path ks t).
Proof.
  unfold process_clip_path. induction ks as [|k ks IH]; intros t; cbn; [apply shk_id|]. destruct (is_used k t); [now apply IH|].
  assert (S : shk t (upd k strip_paint t)) by (apply upd_shk; intros d Hd _; apply K_filter, K_refl). exact (shr_trans K K_trans _ _ _ S (IH _)).
Qed.
Lemma k_needless t : shk t (remove_needless_attributes t).
Proof.
  unfold remove_needless_attributes. generalize (keys t) as ks. intros ks. revert t. induction ks as [|k ks IH]; intros t; cbn; [apply shk_id|].
  assert (S : shk t (needless_visit t k)).
  { unfold needless_visit. destruct (find_place [] k t) as [[anc s]|]; [|apply shk_id]. destruct (is_svg_el (data s)); [|apply shk_id].
    set (t1 := if is_tag EClipPath (data s) then _ else t). assert (S1 : shk t t1) by (unfold t1; destruct (is_tag _ _); [apply clip_shk|apply shk_id]). clearbody t1.
    apply (shr_trans K K_trans _ _ _ S1). apply upd_shk. intros d Hd _. apply needless_K, K_refl. }
  exact (shr_trans K K_trans _ _ _ S (IH _)).
Qed.
