(** Every pass keeps a document well-formed: the passes that change nodes in place or remove nodes. *)
From Coq Require Import List Bool NArith Arith ZArith String Lia QArith Qcanon Permutation.
From Verif Require Paths.
From Verif Require Import Names Num Value Dom DomFacts DomOps Outcome DomRemove Stops Transforms VLoop Shapes NPass APass TasksSimple TasksSimpleProofs IdNum Gradients Inherit Round WfAll.
Import ListNotations.
Local Open Scope nat_scope.

Ltac ext_go :=
  lazymatch goal with
  | |- ext _ ?d ?d => apply ext_refl
  | |- ext _ _ (d_rm ?x _) => apply (ext_trans _ _ x); [ext_go|apply ext_rm]
  | |- ext _ _ (d_set ?x _ _) => apply (ext_trans _ _ x); [ext_go|apply ext_set; try (apply no_link; reflexivity)]
  | |- ext _ _ (d_set_hidden ?x _ _) => apply (ext_trans _ _ x); [ext_go|apply ext_set_hidden; try (apply no_link; reflexivity)]
  | |- ext _ _ (map_value ?x _ _) => apply (ext_trans _ _ x); [ext_go|apply ext_map_value; try (apply no_link; reflexivity)]
  | |- ext _ _ (with_id ?x _) => apply (ext_trans _ _ x); [ext_go|apply ext_id]
  | |- ext _ _ (match ?x with _ => _ end) => destruct x eqn:?; ext_go
  | _ => idtac
  end.
Lemma ext_rm_list L l : forall d, ext L d (d_rm_list d l).
Proof. unfold d_rm_list. induction l as [|a l IH]; intros d; [apply ext_refl|]. cbn. eapply ext_trans; [apply ext_rm|apply IH]. Qed.
Lemma in_app_l {A} (l m : list A) x : In x l -> In x (l ++ m). Proof. intros; apply in_or_app; auto. Qed.
Lemma in_app_r {A} (l m : list A) x : In x m -> In x (l ++ m). Proof. intros; apply in_or_app; auto. Qed.
Lemma links_in_keys t d k : fine t -> In d (flat t) -> In k (node_links d) -> In k (keys t).
Proof. intros F Hd Hk. apply (wf_links t (fine_wf t F)). now apply (node_links_in t d). Qed.

(** resolve_gradients *)
Lemma lookup_link t a n : forall d v k, fine t -> incl (node_links d) (keys t) -> lookup n t a d = Found v -> link_of v = Some k -> In k (keys t).
Proof.
  assert (G : forall d v k, incl (node_links d) (keys t) -> d_get d a = Some v -> link_of v = Some k -> In k (keys t)) by (intros d v k I E L; apply I; exact (d_get_link d a v k E L)).
  induction n as [|n IH]; intros d v k F I; cbn; destruct (d_get d a) as [w|] eqn:E; try (intros X; injection X as <-; now apply (G d)).
  - destruct (d_get d AXlinkHref) as [[]|]; discriminate.
  - destruct (d_get d AXlinkHref) as [[]|]; try discriminate. destruct (find_data _ t) as [x|] eqn:D; [|discriminate]. intros H. apply (IH x v k F); [|exact H]. intros j Hj. apply find_data_some in D. exact (links_in_keys t x j F (proj1 D) Hj).
Qed.
Lemma ext_check t a def d d0 d' : fine t -> incl (node_links d0) (keys t) -> ext (keys t) d0 d -> (forall v k, def = Some v -> link_of v = Some k -> In k (keys t)) -> check_attr t a def d = Ok d' -> ext (keys t) d0 d'.
Proof.
  intros F I X Hd. unfold check_attr. destruct (d_has d a); [intros E; injection E as <-; exact X|].
  assert (Id : incl (node_links d) (keys t)) by (intros k Hk; apply X, in_app_or in Hk; destruct Hk as [Hk|Hk]; auto).
  destruct (lookup _ t a d) as [v| |] eqn:L; [|destruct def as [v|]|discriminate]; intros E; injection E as <-; try exact X; (apply (ext_trans _ _ d); [exact X|]); apply ext_set_hidden; intros k Hk; apply in_app_r; [exact (lookup_link _ _ _ _ _ _ F Id L Hk)|exact (Hd v k eq_refl Hk)].
Qed.
Ltac checks := repeat match goal with
  | H : bind (check_attr _ _ _ _) _ = Ok _ |- _ => let d := fresh "d" in let E := fresh "E" in apply bind_ok in H; destruct H as (d & E & H)
  end.
Ltac no_default := let v := fresh in let k := fresh in intros v k X; try discriminate X; injection X as <-; discriminate.
Lemma ext_linear t d d' : fine t -> In d (flat t) -> resolve_linear_node t d = Ok d' -> ext (keys t) d d'.
Proof.
  intros F Hd H. unfold resolve_linear_node in H. checks.
  assert (I : incl (node_links d) (keys t)) by (intros k Hk; exact (links_in_keys t d k F Hd Hk)).
  repeat match goal with | X : check_attr _ _ _ ?d2 = Ok ?d3 |- ext _ _ ?d3 => apply (ext_check t _ _ d2 d d3 F I) in X; [exact X| |no_default]; clear X end. apply ext_refl.
Qed.
Lemma ext_radial t d d' : fine t -> In d (flat t) -> resolve_radial_node t d = Ok d' -> ext (keys t) d d'.
Proof.
  intros F Hd H. unfold resolve_radial_node in H. checks.
  assert (I : incl (node_links d) (keys t)) by (intros k Hk; exact (links_in_keys t d k F Hd Hk)).
  assert (D : forall x a v k, ext (keys t) d x -> d_get x a = Some v -> link_of v = Some k -> In k (keys t)).
  { intros x a v k X Eg L. apply (d_get_link _ _ _ _ Eg) in L. apply X, in_app_or in L. destruct L; auto. }
  assert (X4 : ext (keys t) d d4).
  { repeat match goal with | X : check_attr _ _ _ ?d2 = Ok ?d3 |- ext _ _ ?d3 => apply (ext_check t _ _ d2 d d3 F I) in X; [exact X| |no_default]; clear X end. apply ext_refl. }
  assert (X5 : ext (keys t) d d5) by (apply (ext_check t _ _ d4 d d5 F I) in E4; [exact E4|exact X4|]; intros v k; apply (D d4 ACx v k X4)).
  assert (X6 : ext (keys t) d d6) by (apply (ext_check t _ _ d5 d d6 F I) in E5; [exact E5|exact X5|]; intros v k; apply (D d4 ACy v k X4)).
  apply (ext_check t _ _ d6 d d' F I) in H; [exact H|exact X6|no_default].
Qed.
Lemma fine_linear t t' : fine t -> resolve_linear_gradient_attributes t = Some (Ok t') -> fine t'.
Proof. intros F. unfold resolve_linear_gradient_attributes. destruct (gen_order _ t); [|discriminate]. intros H. injection H as H. exact (fine_vloop _ _ ext_linear t t' F H). Qed.
Lemma fine_radial t t' : fine t -> resolve_radial_gradient_attributes t = Some (Ok t') -> fine t'.
Proof. intros F. unfold resolve_radial_gradient_attributes. destruct (gen_order _ t); [|discriminate]. intros H. injection H as H. exact (fine_vloop _ _ ext_radial t t' F H). Qed.

(** resolve_stop_attributes, fix_invalid_attributes *)
Lemma ext_resolve_stop L i d d' : resolve_stop i d = Ok d' -> ext L d d'.
Proof.
  unfold resolve_stop. intros H. apply bind_ok in H. destruct H as (d1 & H1 & H). injection H as <-.
  assert (X : ext L d d1). { destruct (d_get d AOffset) as [[]|]; try (destruct (Nat.eqb i 0); [injection H1 as <-; ext_go|discriminate]). injection H1 as <-. ext_go. }
  apply (ext_trans _ _ _ _ X). clear. destruct (d_has d1 AStopColor); ext_go.
Qed.
Lemma fine_stops t t' : fine t -> resolve_stop_attributes t = Ok t' -> fine t'.
Proof.
  intros F. apply fine_kpass; [exact F|]. generalize (keys t). clear. intros L d l r. unfold resolve_stop_visit. destruct (is_grad d).
  - intros H. apply bind_ok in H. destruct H as (l' & H & E). injection E as <-. cbn. split; [apply ext_refl|]. revert H. generalize 0. revert l'. induction l as [|x l IH]; intros l' i H; cbn in H; [injection H as <-; constructor|].
    apply bind_ok in H. destruct H as (x' & H1 & H). apply bind_ok in H. destruct H as (r & H2 & H). injection H as <-. constructor; [exact (ext_resolve_stop _ _ _ _ H1)|exact (IH _ _ H2)].
  - intros E. injection E as <-. cbn. split; [apply ext_refl|]. induction l; constructor; auto using ext_refl.
Qed.
Lemma ext_forall2 L l : Forall2 (ext L) l l. Proof. induction l; constructor; auto using ext_refl. Qed.
Lemma fine_fix t t' : fine t -> fix_invalid_attributes t = Ok t' -> fine t'.
Proof.
  intros F H. unfold fix_invalid_attributes in H. apply bind_ok in H. destruct H as (t1 & H & E). injection E as <-. unfold fix_marker. apply fine_tmap; [|intros d _; ext_go].
  revert H. apply fine_kpass; [exact F|]. generalize (keys t). clear. intros L d l r. unfold fix_visit.
  assert (D : Ok (d, l) = Ok r -> ext L d (fst r) /\ Forall2 (ext L) l (snd r)) by (intros E; injection E as <-; split; [apply ext_refl|apply ext_forall2]).
  assert (Gs : bind (fix_stops q0 l) (fun l' => Ok (d, l')) = Ok r -> ext L d (fst r) /\ Forall2 (ext L) l (snd r)).
  { intros H. apply bind_ok in H. destruct H as (l' & H & E). injection E as <-. cbn. split; [apply ext_refl|]. revert H. generalize q0. clear. revert l'. induction l as [|x l IH]; intros l' q H; cbn in H; [injection H as <-; constructor|].
    destruct (d_get x AOffset) as [[]|]; try discriminate. destruct l0 as [n [] ]; try discriminate. apply bind_ok in H. destruct H as (r & H2 & H). injection H as <-. constructor; [ext_go|exact (IH _ _ H2)]. }
  assert (FL : forall a x, ext L x (fix_len x a)) by (intros a x; unfold fix_len; ext_go).
  assert (RL : forall a x, ext L x (rm_negative_len x a)) by (intros a x; unfold rm_negative_len; ext_go).
  destruct (tag d) as [|e| | | |]; auto. destruct e; auto; intros E; injection E as <-; cbn; (split; [|apply ext_forall2]).
  1, 2: unfold fix_poly_attributes; ext_go; auto.
  unfold fix_rect_attributes. repeat (eapply ext_trans; [|apply RL || apply FL]). apply ext_refl.
Qed.

(** resolve_inherit *)
Lemma each_ext L f (l : list aid) : (forall a d d', f a d = Ok d' -> ext L d d') -> forall d d', each f l d = Ok d' -> ext L d d'.
Proof. intros H. induction l as [|a l IH]; intros d d' E; cbn in E; [injection E as <-; apply ext_refl|]. apply bind_ok in E. destruct E as (d1 & E1 & E). exact (ext_trans _ _ _ _ (H _ _ _ E1) (IH _ _ E)). Qed.
Lemma ext_impl anc a b d d' : resolve_impl anc a b d = Ok d' -> ext (flat_map node_links anc) d d'.
Proof.
  unfold resolve_impl. destruct (find _ anc) as [n|] eqn:N; [|discriminate]. apply find_some in N. destruct N as [Hn _]. destruct (d_get n b) as [v|] eqn:V; intros E; injection E as <-; [|apply ext_refl].
  apply ext_set. intros k Hk. apply in_app_r, in_flat_map. exists n. split; [exact Hn|]. exact (d_get_link n b v k V Hk).
Qed.
Lemma fine_inherit t t' : fine t -> resolve_inherit t = Ok t' -> fine t'.
Proof.
  intros F H0. unfold resolve_inherit in H0. apply bind_ok in H0. destruct H0 as (t1 & H0 & H1). destruct (links_allowed t t1); [|discriminate]. injection H1 as <-. revert H0. apply fine_apass; [exact F|]. intros anc d d'. unfold inherit_node. destruct (is_svg_el d); [|intros E; injection E as <-; apply ext_refl]. intros H. apply bind_ok in H. destruct H as (d1 & H1 & H2).
  apply (ext_trans _ _ d1); [revert H1; apply each_ext; intros; eapply ext_impl; eauto|]. revert H2. apply each_ext. intros a x x'. unfold resolve_color. destruct (d_get x AColor) as [v|] eqn:V; [|apply ext_impl]. intros E. injection E as <-. apply ext_set. intros k Hk. apply in_app_l. exact (d_get_link x _ v k V Hk).
Qed.

(** round_numbers *)
Lemma round_link o a v : link_of (round_value o a v) = link_of v.
Proof. unfold round_value. destruct (is_coord_attr a); [now destruct v|]. destruct (is_prop_attr a); [now destruct v|]. destruct (is_ts_attr a); [now destruct v|]. destruct (aid_eqb a AD); [now destruct v|]. destruct (aid_eqb a AViewBox || aid_eqb a APoints); now destruct v. Qed.
Lemma fine_round o t : fine t -> fine (round_numbers o t).
Proof.
  intros F. apply fine_tmap; [exact F|]. intros d _. destruct (is_svg_el d); [|apply ext_refl]. apply ext_map.
  - intros a _. unfold round_attr. destruct (a_name a) eqn:E; [cbn; congruence|exact E].
  - intros a k Ha. unfold round_attr. destruct (a_name a); cbn; [rewrite round_link|]; intros E; apply in_app_l; exact (link_in d a k Ha E).
Qed.

(** remove_element, remove_unreferenced_ids, trim_ids, remove_version, remove_empty_defs, fix_xmlns_attribute,
    remove_default_transform, remove_invalid_stops *)
Lemma fine_element e t : fine t -> fine (remove_element e t). Proof. apply fine_drain. Qed.
Lemma fine_ids t : fine t -> fine (remove_unreferenced_ids t).
Proof. intros F. apply fine_tmap; [exact F|]. intros d _. ext_go. Qed.
Lemma fine_version t t' : fine t -> remove_version t = Ok t' -> fine t'.
Proof. intros F. unfold remove_version, on_svg. destruct (svg_element t); [|discriminate]. intros E. injection E as <-. apply fine_upd; [exact F|]. intros; ext_go. Qed.
Lemma fine_empty_defs t t' : fine t -> remove_empty_defs t = Ok t' -> fine t'.
Proof. intros F. unfold remove_empty_defs, on_svg. destruct (svg_element t); [|discriminate]. destruct (find _ _); intros E; injection E as <-; [now apply fine_remove|exact F]. Qed.
Lemma fine_xmlns b t t' : fine t -> fix_xmlns_attribute b t = Ok t' -> fine t'.
Proof.
  intros F. unfold fix_xmlns_attribute, on_svg. destruct (svg_element t); [|discriminate]. destruct (negb _ && _ && _); [|destruct (_ && _)]; intros E; injection E as <-; try exact F; (apply fine_upd; [exact F|]); intros; ext_go.
Qed.
Lemma fine_default_transform t : fine t -> fine (remove_default_transform t).
Proof. intros F. apply fine_tmap; [exact F|]. intros d _. ext_go. Qed.
Lemma fine_invalid_stops t : fine t -> fine (remove_invalid_stops t).
Proof. apply fine_remove_nodes. Qed.
Lemma smap_list_ext {S} (f : S -> ndata -> ndata * S) L : (forall s d, ext L d (fst (f s d))) -> forall l s, Forall2 (ext L) l (fst (smap_list f s l)).
Proof.
  intros H. induction l as [|d l IH]; intros s; cbn; [constructor|]. pose proof (H s d) as X. destruct (f s d) as [d' s1]. specialize (IH s1). destruct (smap_list f s1 l). cbn in *. now constructor.
Qed.
Lemma fine_trim t t' : fine t -> trim_ids t = Ok t' -> fine t'.
Proof.
  intros F. unfold trim_ids. destruct (smap trim_node (Some num_new) t) as [t1 [n|]] eqn:E; [|discriminate]. intros H. injection H as <-. apply (fine_forall2 t); [exact F|].
  pose proof (proj1 (flat_smap trim_node t (Some num_new))) as G. rewrite E in G. cbn [fst] in G. rewrite G. apply smap_list_ext. clear. intros [n|] d; cbn; [|apply ext_refl]. destruct (is_svg_el d && has_id d); cbn; [apply ext_id|apply ext_refl].
Qed.

(** transforms and paths *)
Lemma ext_coords L a b ts d : ext L d (transform_coords a b ts d). Proof. unfold transform_coords. ext_go. Qed.
Lemma ext_scale L a k d : ext L d (scale_coord a k d). Proof. unfold scale_coord. ext_go. Qed.
Lemma ext_scales L l ts d : ext L d (scale_coords l ts d).
Proof. unfold scale_coords. destruct (has_scale ts); [|apply ext_refl]. revert d. induction l as [|a l IH]; intros d; [apply ext_refl|]. cbn. eapply ext_trans; [apply ext_scale|apply IH]. Qed.
Lemma ext_stroke L k anc d : ext L d (recalc_stroke k anc d).
Proof.
  unfold recalc_stroke. assert (N : forall a x, ext L x (recalc_num a k anc x)).
  { intros a x. unfold recalc_num. set (v := if d_has x a then _ else _). destruct v as [[]|]; ext_go. }
  eapply ext_trans; [|apply N]. apply (ext_trans _ _ (recalc_num AStrokeWidth k anc d)); [apply N|]. unfold recalc_dasharray. set (v := if d_has _ _ then _ else _). destruct v as [[]|]; ext_go.
Qed.
Lemma ext_shape L e ts d : ext L d (shape_coords e ts d).
Proof. unfold shape_coords. destruct e; try apply ext_refl; (eapply ext_trans; [|first [apply ext_scales | apply ext_coords]]); apply ext_coords. Qed.
Lemma fine_shape_transforms t t' : fine t -> apply_transform_to_shapes t = Ok t' -> fine t'.
Proof.
  intros F. apply fine_apass; [exact F|]. intros anc d d'. unfold apply_shape. destruct (d_has d ATransform); [|intros E; injection E as <-; apply ext_refl].
  assert (P : forall e, process_shape e anc d = Ok d' -> ext (flat_map node_links anc) d d').
  { intros e. unfold process_shape. destruct (d_get d ATransform) as [[]|]; try discriminate. destruct (_ || _ || _); intros E; injection E as <-; [apply ext_refl|].
    assert (X : ext (flat_map node_links anc) d (d_rm (shape_coords e t0 d) ATransform)) by (eapply ext_trans; [apply ext_shape|apply ext_rm]). destruct (has_scale t0); [|exact X]. exact (ext_trans _ _ _ _ X (ext_stroke _ _ _ _)). }
  assert (D : Ok d = Ok d' -> ext (flat_map node_links anc) d d') by (intros E; injection E as <-; apply ext_refl).
  destruct (tag d) as [|e| | | |]; try discriminate. destruct e; first [exact D | apply P].
Qed.
Lemma ext_set_with L d g a v : tag d <> TRoot -> link_of v = None -> ext L d (with_tag (d_set d a v) g).
Proof. intros T1 Hv. apply (ext_trans _ _ (d_set d a v)); [apply ext_set; now apply no_link|]. apply ext_tag. exact T1. Qed.
Lemma fine_shapes t t' : fine t -> convert_shapes_to_paths t = Ok t' -> fine t'.
Proof.
  intros F. assert (X : forall d d', convert_shape d = Ok d' -> ext (keys t) d d').
  { intros d d'. unfold convert_shape. assert (D : Ok d = Ok d' -> ext (keys t) d d') by (intros E; injection E as <-; apply ext_refl). destruct (tag d) as [|e| | | |] eqn:T1; auto. destruct e; auto.
    - intros E. injection E as <-. unfold convert_line. destruct (negb _); [apply ext_refl|]. eapply ext_trans; [|apply ext_rm_list]. apply ext_set_with; [congruence|reflexivity].
    - unfold convert_poly. destruct (points_to_path d) as [r|]; [|exact D]. intros E. apply bind_ok in E. destruct E as (p & _ & E). injection E as <-. eapply ext_trans; [|apply ext_rm]. apply (ext_trans _ _ (with_tag d (TEl EPath))); [apply ext_tag; congruence|]. apply ext_set, no_link. reflexivity.
    - unfold convert_poly. destruct (points_to_path d) as [r|]; [|exact D]. intros E. apply bind_ok in E. destruct E as (p & _ & E). injection E as <-. eapply ext_trans; [|apply ext_rm]. apply (ext_trans _ _ (with_tag d (TEl EPath))); [apply ext_tag; congruence|]. apply ext_set, no_link. reflexivity.
    - intros E. injection E as <-. unfold convert_rect. destruct (_ || _); [apply ext_refl|]. destruct (_ || _); [apply ext_refl|]. destruct (negb _); [apply ext_refl|]. eapply ext_trans; [|apply ext_rm_list]. apply ext_set_with; [congruence|reflexivity]. }
  apply fine_npass; [exact F|intros d d' _; apply X|]. intros d d' E. exact (proj1 (X d d' E)).
Qed.
Lemma fine_paths o t t' : fine t -> Transforms.process_paths o t = Ok t' -> fine t'.
Proof.
  intros F. apply fine_apass; [exact F|]. intros anc d d'. unfold process_path_node. destruct (is_tag EPath d); [|intros E; injection E as <-; apply ext_refl].
  assert (P : forall m ts x x', path_data o m ts x = Ok x' -> ext (flat_map node_links anc) x x').
  { intros m ts x x'. unfold path_data. destruct (d_get x AD) as [[]|]; try (intros E; injection E as <-; apply ext_refl). destruct (Paths.process_path _ _ _ _); [|discriminate]. intros E. injection E as <-. ext_go. }
  destruct (pso_transform o && d_has d ATransform); [|apply P]. destruct (d_get d ATransform) as [[]|]; try discriminate. destruct (valid_ts t0 && valid_attrs anc d); [|apply P]. intros E. apply P in E. eapply ext_trans; [|exact E].
  destruct (has_scale t0); [|apply ext_rm]. eapply ext_trans; [apply ext_rm|apply ext_stroke].
Qed.
Lemma fine_grad_transforms t t' : fine t -> apply_transform_to_gradients t = Ok t' -> fine t'.
Proof.
  apply fine_vloop. clear. intros t d d' _ _. unfold apply_gradient. assert (D : Ok d = Ok d' -> ext (keys t) d d') by (intros E; injection E as <-; apply ext_refl).
  destruct (is_grad d && _); [|exact D]. destruct (linked_by_gradient _ _); [exact D|]. destruct (match d_get d AXlinkHref with Some _ => _ | None => _ end); [exact D|]. destruct (d_get d AGradientTransform) as [[]|]; try discriminate.
  destruct (negb _); [exact D|]. destruct (negb _); [exact D|]. destruct (is_tag _ _); intros E; injection E as <-; (eapply ext_trans; [|apply ext_rm]); eauto using ext_trans, ext_coords, ext_scales.
Qed.
