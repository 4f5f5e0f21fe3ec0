(** Every pass keeps a document well-formed: attribute passes at the end of the pipeline. *)
From Coq Require Import List Bool NArith Arith ZArith String Lia QArith Qcanon Permutation.
From Verif Require Import Names Num Value Dom DomFacts DomOps Outcome DomRemove VLoop Transforms APass Cli RmDefault UnusedCoords RmText Needless GradUnits JoinStyle WfAll WfPasses.
Import ListNotations.
Local Open Scope nat_scope.

Lemma fine_fold_ok {A} (f : tree -> A -> result tree) : (forall t a t', fine t -> f t a = Ok t' -> fine t') -> forall l r t', (forall t, r = Ok t -> fine t) -> fold_left (fun r k => bind r (fun t => f t k)) l r = Ok t' -> fine t'.
Proof.
  intros H. induction l as [|a l IH]; intros r t' F E; cbn in E; [now apply F|]. apply (IH _ t') in E; [exact E|]. intros t Et. apply bind_ok in Et. destruct Et as (t0 & E0 & Et). exact (H t0 a t (F t0 E0) Et).
Qed.
Lemma fine_fold {A} (f : tree -> A -> tree) : (forall t a, fine t -> fine (f t a)) -> forall l t, fine t -> fine (fold_left f l t).
Proof. intros H. induction l as [|a l IH]; intros t F; [exact F|]. cbn. auto. Qed.

(** remove_default_attributes *)
Lemma fine_default dv t t' : fine t -> remove_default_attributes dv t = Ok t' -> fine t'.
Proof.
  intros F. apply fine_apass; [exact F|]. intros anc d d' E. injection E as <-. unfold default_node. destruct (tag d); try apply ext_refl. unfold hide_if. apply ext_map.
  - intros x _. destruct (default_attr _ _ _ _ _ _); reflexivity.
  - intros x k Hx. destruct (default_attr _ _ _ _ _ _); cbn; intros E; apply in_app_l; exact (link_in d x k Hx E).
Qed.
(** remove_unused_coordinates *)
Lemma ext_hide L d a : ext L d (with_attrs d (hide_attr (attrs d) a)).
Proof. unfold hide_attr. apply ext_map; [intros x _; now destruct (has_name _ _)|]. intros x k Hx. destruct (has_name _ _); cbn; intros E; apply in_app_l; exact (link_in d x k Hx E). Qed.
Lemma ext_hide_all L l : forall d, ext L d (hide_all l d).
Proof. unfold hide_all. induction l as [|a l IH]; intros d; [apply ext_refl|]. cbn. eapply ext_trans; [apply ext_hide|apply IH]. Qed.
Lemma fine_coords t t' : fine t -> remove_unused_coordinates t = Ok t' -> fine t'.
Proof. apply fine_vloop. intros s d d' _ _. unfold coords_visit. destruct (forallb _ _); [|discriminate]. intros E. injection E as <-. apply ext_hide_all. Qed.
(** remove_text_attributes *)
Lemma ext_rm_all L l : forall d, ext L d (rm_all l d).
Proof. unfold rm_all. induction l as [|a l IH]; intros d; [apply ext_refl|]. cbn. eapply ext_trans; [apply ext_rm|apply IH]. Qed.
Lemma flat_ch L (f : tree -> tree) ch : Forall (fun c => Forall2 (ext L) (flat c) (flat (f c))) ch -> Forall2 (ext L) (flat_map flat ch) (flat_map flat (map f ch)).
Proof. induction 1; cbn; [constructor|]. now apply Forall2_app. Qed.
Lemma ext_text_child L t0 : forall s, Forall2 (ext L) (flat s) (flat (fst (rm_text_child t0 s))).
Proof.
  induction s as [d ch IH] using tree_ind'. cbn [rm_text_child]. destruct (negb (is_svg_el (d_rm d ALineHeight))).
  - cbn. constructor; [apply ext_rm|apply ext_forall2].
  - destruct ch as [|c ch]; cbn [fst flat].
    + constructor; [|constructor]. apply (ext_trans _ _ (d_rm d ALineHeight)); [apply ext_rm|]. destruct (_ && _); [apply ext_rm_all|apply ext_refl].
    + constructor; [apply (ext_trans _ _ (d_rm d ALineHeight)); [apply ext_rm|]; destruct (_ && _); [apply ext_rm_all|apply ext_refl]|].
      rewrite map_map. apply flat_ch. exact IH.
Qed.
Lemma ext_space_child L : forall s, Forall2 (ext L) (flat s) (flat (rm_space_child s)).
Proof.
  induction s as [d ch IH] using tree_ind'. cbn [rm_space_child]. apply flat_ch in IH. destruct (preserves d); [|constructor; [apply ext_refl|exact IH]].
  destruct ch as [|c ch]; [constructor; [apply ext_rm|constructor]|]. constructor; [destruct (existsb _ _); [apply ext_refl|apply ext_rm]|exact IH].
Qed.
Lemma fine_text t t' : fine t -> remove_text_attributes t = Ok t' -> fine t'.
Proof.
  intros F. unfold remove_text_attributes.
  assert (F1 : fine (rm_text_root t)). { apply (fine_forall2 t); [exact F|]. destruct t as [d ch]. cbn [rm_text_root flat]. constructor; [apply ext_refl|]. apply flat_ch. apply Forall_forall. intros c _. apply ext_text_child. }
  assert (F2 : fine (remove_xml_space (rm_text_root t))). { apply (fine_forall2 (rm_text_root t)); [exact F1|]. destruct (rm_text_root t) as [d ch]. cbn [remove_xml_space flat]. constructor; [apply ext_refl|]. apply flat_ch. apply Forall_forall. intros c _. apply ext_space_child. }
  destruct (svg_element _); [|discriminate]. intros E. injection E as <-. destruct (has_text t0); [exact F2|]. apply fine_tmap; [exact F2|]. intros d _. destruct (is_tag _ _); [exact (ext_rm_all _ text_attributes d)|apply ext_refl].
Qed.
(** remove_needless_attributes *)
Lemma ext_needless L anc leaf d : ext L d (needless_node anc leaf d).
Proof.
  assert (P1 : forall x, ext L x (Needless.process_shape x)) by (intros x; unfold Needless.process_shape, retain; destruct (tag x) as [|e| | | |]; try apply ext_refl; destruct e; try apply ext_refl; apply ext_filter).
  assert (P2 : forall x, ext L x (process_fill x)).
  { intros x. unfold process_fill. set (d1 := if value_is x AFill _ then _ else _). apply (ext_trans _ _ d1); [unfold d1; ext_go|]. ext_go. }
  assert (P3 : forall x, ext L x (process_stroke anc x)).
  { intros x. assert (R : forall y, ext L y (rm_all stroke_attributes y)) by (intros; apply ext_rm_all). unfold process_stroke. destruct (is_invisible x).
    - assert (Z : ext L x (rm_all stroke_attributes (d_rm x AStroke))) by (eapply ext_trans; [apply ext_rm|apply R]). destruct (find _ _); [|exact Z]. destruct (value_is _ _ _); [exact Z|]. eapply ext_trans; [exact Z|]. apply ext_set, no_link. reflexivity.
    - destruct (value_is x AStroke _); [|apply ext_refl]. destruct (find _ _); [apply R|]. eapply ext_trans; [apply R|apply ext_rm]. }
  assert (P4 : forall x, ext L x (process_overflow x)) by (intros x; unfold process_overflow; destruct (tag x) as [|e| | | |]; try apply ext_rm; destruct e; try apply ext_refl; apply ext_rm).
  unfold needless_node. eapply ext_trans; [|apply P4].
  assert (B : forall x : ndata, ext L d x -> ext L d (if leaf then process_stroke anc x else x)) by (intros x Hx; destruct leaf; [eapply ext_trans; eauto|exact Hx]).
  apply B. assert (C : forall x : ndata, ext L d x -> ext L d (if leaf then process_fill x else x)) by (intros x Hx; destruct leaf; [eapply ext_trans; eauto|exact Hx]). apply C.
  assert (Z : ext L d (d_rm (Needless.process_shape d) AColor)) by (eapply ext_trans; [apply P1|apply ext_rm]). destruct (tag_sat _ _); [exact Z|]. eapply ext_trans; [exact Z|apply ext_rm].
Qed.
Lemma fine_needless t : fine t -> fine (remove_needless_attributes t).
Proof.
  apply fine_fold. clear. intros t k F. unfold needless_visit. destruct (find_place [] k t) as [[anc s]|]; [|exact F]. destruct (is_svg_el _); [|exact F]. apply fine_upd; [|intros; apply ext_needless].
  destruct (is_tag _ _); [|exact F]. unfold process_clip_path. revert t F. generalize (map root_key (kids s)). intros l t F. revert l t F. apply (fine_fold (A:=nat)). intros t a F. destruct (is_used a t); [exact F|]. apply fine_upd; [exact F|]. intros d _ _. apply ext_filter.
Qed.
(** remove_gradient_attributes *)
Lemma ext_invisible L a d d' : make_invisible a d = Ok d' -> ext L d d'.
Proof. unfold make_invisible. destruct (d_has d a); [|discriminate]. intros E. injection E as <-. apply ext_hide. Qed.
Lemma fine_gradient_attrs t t' : fine t -> remove_gradient_attributes t = Some (Ok t') -> fine t'.
Proof.
  intros F. unfold remove_gradient_attributes, rm_equal. destruct (units_sequence _ _ _) as [ks|]; [|discriminate]. cbn [option_map]. intros H. injection H as H. apply bind_ok in H. destruct H as (t1 & H1 & H2).
  assert (F1 : fine t1).
  { revert H1. apply fine_vloop; [|exact F]. intros s d d' _ _. unfold units_visit. destruct (link_key d); [|intros E; injection E as <-; apply ext_refl]. destruct (find_data _ _); [|intros E; injection E as <-; apply ext_refl]. destruct (opt_value_eqb _ _); [apply ext_invisible|intros E; injection E as <-; apply ext_refl]. }
  clear H1. unfold group_to_parent in H2. apply (fine_fold_ok group_visit) in H2; [exact H2| |intros s E; injection E as <-; exact F1]. clear. intros t k t' F. unfold group_visit. intros H. apply bind_ok in H. destruct H as (t1 & H & E). injection E as <-.
  assert (S : forall v, link_of v = None -> fine (upd k (fun d => d_set d AGradientUnits v) t)) by (intros v Hv; apply fine_upd; [exact F|]; intros; now apply ext_set, no_link).
  assert (M : forall v w s d d', link_of w = None -> fine s -> In d (flat s) -> move_units v w d = Ok d' -> ext (keys s) d d').
  { intros v w s d d' Hw _ _. unfold move_units. destruct (d_get d AGradientUnits) as [x|]; [|intros E; injection E as <-; apply ext_refl]. destruct (value_eqb x v); [apply ext_invisible|]. intros E. injection E as <-. now apply ext_set, no_link. }
  assert (F1 : fine t1).
  { destruct (Nat.eqb _ _); [|destruct (Nat.eqb _ 0); [|destruct (Nat.leb _ _)]]; revert H; apply fine_vloop; try (now apply S); try (intros; eapply ext_invisible; eauto; fail); intros s d d'; apply M; reflexivity. }
  apply fine_upd; [exact F1|]. intros d _ _. unfold hide_default_units. destruct (opt_value_eqb _ _); [apply ext_hide|apply ext_refl].
Qed.
(** join_style_attributes *)
Lemma fine_join wr mode t : fine t -> fine (join_style_attributes wr mode t).
Proof.
  intros F. assert (G : fine (tmap (fun d => if wants_join mode d then join_node wr d else d) t)).
  { apply fine_tmap; [exact F|]. intros d _. destruct (wants_join mode d); [|apply ext_refl]. unfold join_node. set (l := map fst _). set (v := VStr _). apply (ext_trans _ _ (d_set d AStyle v)); [apply ext_set, no_link; reflexivity|].
    replace (with_attrs d (fold_left rm_attr l (set_attr (attrs d) AStyle v))) with (rm_all l (d_set d AStyle v)); [apply ext_rm_all|].
    unfold d_set. generalize (set_attr (attrs d) AStyle v). clear. unfold rm_all. induction l as [|a l IH]; intros m; [reflexivity|]. cbn [fold_left]. exact (IH (rm_attr m a)). }
  destruct mode; assumption.
Qed.
