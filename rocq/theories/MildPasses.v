(** Documents with references: the passes that change nodes in place. *)
From Coq Require Import List Bool NArith Arith ZArith String Lia QArith Qcanon.
From Verif Require Paths.
From Verif Require Import Names Num Value Dom DomFacts DomOps Outcome DomRemove SpecDom SpecWritten Gradients Stops Shapes NPass APass VLoop Transforms Links Inherit Round RmDefault UnusedCoords RmText Needless TasksSimple WfAll Mild.
Import ListNotations.
Local Open Scope nat_scope.

Ltac M_go :=
  lazymatch goal with
  | H : M ?d ?x |- M ?d ?x => exact H
  | |- M ?d ?d => exact (M_refl d)
  | |- M _ (d_rm ?x _) => apply M_rm; M_go
  | |- M _ (d_set ?x _ _) => apply M_set; [M_go|try discriminate|try (intros _; repeat split; discriminate)]
  | |- M _ (d_set_hidden ?x _ _) => apply M_set_hidden; [M_go|try discriminate|try (intros _; repeat split; discriminate)]
  | |- M _ (map_value ?x _ _) => apply M_map_value; [M_go|try discriminate|try (intros _; repeat split; discriminate)]
  | |- M _ (match ?x with _ => _ end) => destruct x eqn:?; M_go
  | _ => idtac
  end.
Lemma F2_refl l : Forall2 M l l. Proof. induction l; constructor; auto using M_refl. Qed.
Section P.
Variable GK : nat -> Prop.
Notation okg := (okg GK). Notation shr := (shr M).
Definition okt (t : tree) : Prop := forall d, In d (flat t) -> okg d.
Lemma okt_shr t t' : okt t -> shr t t' -> okt t'.
Proof. intros O S. exact (okn_shr M okg (M_okg GK) t t' O S). Qed.
Lemma d_get_in d a v : d_get d a = Some v -> exists x, In x (attrs d) /\ a_name x = AN a /\ a_val x = v.
Proof. unfold d_get, get_value. destruct (get_attr (attrs d) a) as [x|] eqn:E; [|discriminate]. intros X. injection X as <-. apply get_attr_some in E. exists x. tauto. Qed.
Lemma og_get d a v : okg d -> gradient_node d -> a <> AXlinkHref -> d_get d a = Some v -> flatv v.
Proof.
  intros O G N E. apply d_get_in in E. destruct E as (x & Hx & En & <-). destruct (og_attrs _ _ O G x Hx) as [[X _]|X]; [unfold hname in X; congruence|exact X].
Qed.
(** resolve_gradients *)
Lemma lookup_flat t a n : okt t -> a <> AXlinkHref -> forall d v, okg d -> gradient_node d -> lookup n t a d = Found v -> flatv v.
Proof.
  intros O N. induction n as [|n IH]; intros d v Od G; cbn; destruct (d_get d a) as [w|] eqn:E; try (intros X; injection X as <-; now apply (og_get d a)).
  - destruct (d_get d AXlinkHref) as [[]|]; discriminate.
  - destruct (d_get d AXlinkHref) as [v0|] eqn:Eh; [|discriminate]. destruct v0; try discriminate. destruct (find_data _ t) as [x|] eqn:D; [|discriminate]. apply find_data_some in D. destruct D as [Hx Kx].
    apply IH; [exact (O x Hx)|]. apply (og_key GK x (O x Hx)). apply d_get_in in Eh. destruct Eh as (y & Hy & En & Ev). destruct (og_attrs _ _ Od G y Hy) as [(_ & k' & A & B)|[X _]]; [congruence|]. rewrite Ev in X. discriminate.
Qed.
Lemma check_M t a def d x x' : okt t -> okg d -> a <> AXlinkHref -> M d x -> (forall v, def = Some v -> gradient_node d -> flatv v) -> check_attr t a def x = Ok x' -> M d x'.
Proof.
  intros O Od N Mx Hd. unfold check_attr. destruct (d_has x a); [intros E; injection E as <-; exact Mx|]. destruct (lookup _ t a x) as [v| |] eqn:L; [|destruct def as [v|]|discriminate]; intros E; injection E as <-; try exact Mx; (apply M_set_hidden; [exact Mx|exact N|]); intros G.
  - exact (lookup_flat t a _ O N x v (M_okg GK _ _ Mx Od) (proj2 (M_grad _ _ Mx) G) L).
  - now apply (Hd v).
Qed.
Ltac checks := repeat match goal with
  | H : bind (check_attr _ _ _ _) _ = Ok _ |- _ => let d := fresh "d" in let E := fresh "E" in apply bind_ok in H; destruct H as (d & E & H)
  end.
Ltac flat_default := let v := fresh in intros v X; try discriminate X; injection X as <-; intros _; repeat split; discriminate.
Ltac step := match goal with | X : check_attr ?t _ _ ?d2 = Ok ?d3, O : okt ?t |- M ?d ?d3 => refine (check_M t _ _ d d2 d3 O _ _ _ _ X); [assumption|discriminate|clear X|try flat_default] end.
Lemma linear_M t d d' : okt t -> okg d -> resolve_linear_node t d = Ok d' -> M d d'.
Proof. intros O Od H. unfold resolve_linear_node in H. checks. repeat step. apply M_refl. Qed.
Lemma radial_M t d d' : okt t -> okg d -> resolve_radial_node t d = Ok d' -> M d d'.
Proof.
  intros O Od H. unfold resolve_radial_node in H. cbv zeta in H. checks.
  assert (X4 : M d d4) by (repeat step; apply M_refl). clear E E0 E1 E2 E3.
  assert (D : forall a v, a <> AXlinkHref -> d_get d4 a = Some v -> gradient_node d -> flatv v) by (intros a v N Ev G; apply (og_get d4 a v (M_okg GK _ _ X4 Od)); [now apply (M_grad _ _ X4)|exact N|exact Ev]).
  step. step; [|intros v; apply D; discriminate]. step; [exact X4|]. intros v. apply D. discriminate.
Qed.
Lemma mild_linear t t' : NoDup (keys t) -> okt t -> resolve_linear_gradient_attributes t = Some (Ok t') -> shr t t'.
Proof. intros N O. unfold resolve_linear_gradient_attributes. destruct (gen_order _ t); [|discriminate]. intros E. injection E as E. exact (shr_vloop (fun d _ => M_refl d) M_trans (M_okg GK) M_key _ _ linear_M t t' N O E). Qed.
Lemma mild_radial t t' : NoDup (keys t) -> okt t -> resolve_radial_gradient_attributes t = Some (Ok t') -> shr t t'.
Proof. intros N O. unfold resolve_radial_gradient_attributes. destruct (gen_order _ t); [|discriminate]. intros E. injection E as E. exact (shr_vloop (fun d _ => M_refl d) M_trans (M_okg GK) M_key _ _ radial_M t t' N O E). Qed.
(** resolve_stop_attributes *)
Lemma stop_M i d d' : resolve_stop i d = Ok d' -> M d d'.
Proof.
  unfold resolve_stop. intros H. apply bind_ok in H. destruct H as (d1 & H1 & H). injection H as <-.
  assert (X : M d d1). { destruct (d_get d AOffset) as [[]|]; try (destruct (Nat.eqb i 0); [injection H1 as <-; M_go|discriminate]). injection H1 as <-. M_go. }
  clear H1. destruct (d_has d1 AStopColor); M_go.
Qed.
Lemma mild_kpass f t t' : (forall d l r, f d l = Ok r -> M d (fst r) /\ Forall2 M l (snd r)) -> okt t -> kpass f t = Ok t' -> shr t t'.
Proof. intros H O. apply (shr_kpass (fun d _ => M_refl d) M_trans (M_okg GK)); auto. Qed.
Lemma mild_apass f t t' : (forall a d d', Forall okg a -> okg d -> f a d = Ok d' -> M d d') -> okt t -> apass f [] t = Ok t' -> shr t t'.
Proof. intros H O. apply (shr_apass (M_okg GK)); auto. Qed.
Lemma mild_stops t t' : okt t -> resolve_stop_attributes t = Ok t' -> shr t t'.
Proof.
  apply mild_kpass. clear. intros d l r. unfold resolve_stop_visit. destruct (is_grad d).
  - intros H. apply bind_ok in H. destruct H as (l' & H & E). injection E as <-. cbn. split; [apply M_refl|]. revert H. generalize 0. revert l'. induction l as [|x l IH]; intros l' i H; cbn in H; [injection H as <-; constructor|].
    apply bind_ok in H. destruct H as (x' & H1 & H). apply bind_ok in H. destruct H as (r & H2 & H). injection H as <-. constructor; [exact (stop_M _ _ _ H1)|exact (IH _ _ H2)].
  - intros E. injection E as <-. split; [apply M_refl|apply F2_refl].
Qed.
(** fix_invalid_attributes *)
Lemma mild_fix t t' : okt t -> fix_invalid_attributes t = Ok t' -> shr t t'.
Proof.
  intros O H. unfold fix_invalid_attributes in H. apply bind_ok in H. destruct H as (t1 & H & E). injection E as <-. unfold fix_marker. assert (S : shr t t1).
  { revert H. apply mild_kpass; [|exact O]. clear. intros d l r. unfold fix_visit.
    assert (D : Ok (d, l) = Ok r -> M d (fst r) /\ Forall2 M l (snd r)) by (intros E; injection E as <-; split; [apply M_refl|apply F2_refl]).
    assert (Gs : bind (fix_stops q0 l) (fun l' => Ok (d, l')) = Ok r -> M d (fst r) /\ Forall2 M l (snd r)).
    { intros H. apply bind_ok in H. destruct H as (l' & H & E). injection E as <-. cbn. split; [apply M_refl|]. revert H. generalize q0. clear. revert l'. induction l as [|x l IH]; intros l' q H; cbn in H; [injection H as <-; constructor|].
      destruct (d_get x AOffset) as [[]|]; try discriminate. destruct l0 as [n [] ]; try discriminate. apply bind_ok in H. destruct H as (r & H2 & H). injection H as <-. constructor; [M_go|exact (IH _ _ H2)]. }
    assert (FL : forall a x, a <> AXlinkHref -> M d x -> M d (fix_len x a)) by (intros a x Na Mx; unfold fix_len; M_go; auto).
    assert (RL : forall a x, M d x -> M d (rm_negative_len x a)) by (intros a x Mx; unfold rm_negative_len; M_go).
    destruct (tag d) as [|e| | | |]; auto. destruct e; auto; intros E; injection E as <-; cbn; (split; [|apply F2_refl]).
    1, 2: unfold fix_poly_attributes; M_go.
    unfold fix_rect_attributes. apply RL, RL. repeat (apply FL; [discriminate|]). apply M_refl. }
  apply (shr_trans M M_trans _ _ _ S). apply shr_tmap. intros d _. M_go.
Qed.
(** resolve_inherit *)
Lemma keyword_has k d a : In a (keyword_attrs k d) -> exists x, In x (attrs d) /\ a_name x = AN a /\ a_val x = VPre k.
Proof.
  intros H. unfold keyword_attrs in H. apply in_flat_map in H. destruct H as (x & Hx & H). destruct (a_name x) as [n|n] eqn:En; [|destruct H]. destruct (a_val x) as [| | | | | | | | | |] eqn:Ev; try (destruct H; fail). destruct (vid_eqb v k) eqn:Q; [|destruct H]. destruct H as [<-|[]].
  exists x. split; [exact Hx|]. split; [exact En|]. rewrite Ev. f_equal. destruct (vid_eqb_spec v k); [assumption|discriminate].
Qed.
(** The xlink:href of a use element is a link, and so on. *)
Definition no_kw (d : ndata) : Prop := use_or_g d -> forall x k, In x (attrs d) -> hname x -> a_val x <> VPre k.
Lemma inherit_M anc d d' : no_kw d -> okg d -> inherit_node anc d = Ok d' -> M d d'.
Proof.
  intros Nk O E. unfold inherit_node in E. destruct (is_svg_el d); [|injection E as <-; apply M_refl]. apply bind_ok in E. destruct E as (d1 & E1 & E2).
  assert (Q : forall k a, (k = Vid_inherit \/ k = Vid_currentColor) -> In a (keyword_attrs k d) -> forall v vis, mok d (At (AN a) v vis)).
  { intros k a Hk Ha v vis. destruct (keyword_has _ _ _ Ha) as (x & Hx & En & Ev). split.
    - intros G. exfalso. destruct (og_attrs _ _ O G x Hx) as [(_ & j & X & _)|[_ [X1 X2]]]; [congruence|]. destruct Hk; subst k; congruence.
    - intros G X. apply (Nk G x k Hx); [|exact Ev]. unfold hname in *. cbn in X. congruence. }
  assert (St : forall k f, (k = Vid_inherit \/ k = Vid_currentColor) -> (forall a x x', f a x = Ok x' -> x' = x \/ exists v, x' = d_set x a v) -> forall x x', M d x -> each f (keyword_attrs k d) x = Ok x' -> M d x').
  { intros k f Hk H1. pose proof (Q k) as Qk. revert Qk. generalize (keyword_attrs k d) as l. induction l as [|a l IH]; intros Qk x x' Mx E; cbn in E; [injection E as <-; auto|].
    apply bind_ok in E. destruct E as (y & Ey & E). apply (IH (fun c Hc => fun Hx => Qk c Hc (or_intror Hx)) y x'); [|exact E]. destruct (H1 a x y Ey) as [-> |(v & ->)]; [exact Mx|]. apply M_with; [exact Mx|]. intros z Hz. apply set_attr_from in Hz. destruct Hz as [Hz| ->]; [now left|right]. apply Qk; [exact Hk|now left]. }
  assert (I1 : forall p a x x', resolve_impl anc a p x = Ok x' -> x' = x \/ exists v, x' = d_set x a v).
  { intros p a x x'. unfold resolve_impl. destruct (find _ anc) as [n|]; [destruct (d_get n p)|]; intros X; inversion X; eauto. }
  pose proof (St _ _ (or_introl eq_refl) (fun a => I1 a a) d d1 (M_refl d) E1) as R1. refine (St _ _ (or_intror eq_refl) _ d1 d' R1 E2).
  intros a x x'. unfold resolve_color. destruct (d_get x AColor); [intros X; injection X as <-; eauto|]. apply I1.
Qed.
Lemma mild_inherit t t' : okt t -> (forall d, In d (flat t) -> no_kw d) -> resolve_inherit t = Ok t' -> shr t t'.
Proof.
  intros O K E. unfold resolve_inherit in E. apply bind_ok in E. destruct E as (u & E & Q). destruct (links_allowed _ _); [|discriminate]. injection Q as <-.
  refine (shr_apass (R := M) (okn := fun d => okg d /\ no_kw d) _ inherit_node _ t [] u (Forall_nil _) (fun d Hd => conj (O d Hd) (K d Hd)) E).
  - intros d d' Md [O1 K1]. split; [exact (M_okg GK _ _ Md O1)|]. intros G x k Hx Hn. apply (M_uog _ _ Md) in G. destruct (M_attrs _ _ Md x Hx) as [X|[_ X]]; [exact (K1 G x k X Hn)|]. exfalso. now apply X.
  - intros a d d' _ [O1 K1]. now apply inherit_M.
Qed.
(** round_numbers *)
Lemma round_flat o a v : flatv v -> flatv (round_value o a v).
Proof.
  intros H. unfold round_value. destruct (is_coord_attr a); [destruct v; auto; repeat split; discriminate|]. destruct (is_prop_attr a); [destruct v; auto; repeat split; discriminate|]. destruct (is_ts_attr a); [destruct v; auto; repeat split; discriminate|]. destruct (aid_eqb a AD); [destruct v; auto; repeat split; discriminate|]. destruct (_ || _); [destruct v; auto; repeat split; discriminate|auto].
Qed.
Lemma round_href o x : hname x -> round_attr o x = x.
Proof. unfold hname, round_attr. destruct x as [n v vis]. cbn. intros ->. reflexivity. Qed.
Lemma mild_round o t : okt t -> shr t (round_numbers o t).
Proof.
  intros O. apply shr_tmap. intros d Hd. destruct (is_svg_el d); [|apply M_refl]. apply M_map; [apply M_refl|]. intros y Hy. destruct (aname_eqb_spec (a_name y) (AN AXlinkHref)) as [En|Nn]; [left; now rewrite round_href|right].
  assert (Nm : a_name (round_attr o y) = a_name y) by (unfold round_attr; destruct (a_name y) eqn:Q; cbn; auto). assert (Nh : ~ hname (round_attr o y)) by (unfold hname; now rewrite Nm). split; [|auto]. intros G.
  destruct (og_attrs _ _ (O d Hd) G y Hy) as [[X _]|X]; [contradiction|]. unfold round_attr. destruct (a_name y); [|exact X]. cbn. now apply round_flat.
Qed.
(** transforms *)
Lemma tcoords_M d x ax ay m : ax <> AXlinkHref -> ay <> AXlinkHref -> M d x -> M d (transform_coords ax ay m x).
Proof. intros Fx Fy Mx. unfold transform_coords. M_go; assumption. Qed.
Lemma scale_M d x a k : a <> AXlinkHref -> M d x -> M d (scale_coord a k x).
Proof. intros F Mx. unfold scale_coord. destruct (d_get x a) as [[]|]; auto. M_go. exact F. Qed.
Lemma scales_M d x l m : Forall (fun a => a <> AXlinkHref) l -> M d x -> M d (scale_coords l m x).
Proof. intros F Mx. unfold scale_coords. destruct (has_scale m); [|exact Mx]. revert x Mx. induction F as [|a l Fa F IH]; intros x Mx; cbn; [exact Mx|]. apply IH. now apply scale_M. Qed.
Lemma recalc_num_M d x a k anc : a <> AXlinkHref -> M d x -> M d (recalc_num a k anc x).
Proof. intros F Mx. unfold recalc_num. destruct (if d_has x a then _ else _) as [[]|]; auto. destruct (qeqb _ _); [exact Mx|]. M_go. exact F. Qed.
Lemma recalc_M d x k anc : M d x -> M d (recalc_stroke k anc x).
Proof.
  intros Mx. unfold recalc_stroke. apply recalc_num_M; [discriminate|]. assert (R1 : M d (recalc_num AStrokeWidth k anc x)) by (apply recalc_num_M; [discriminate|exact Mx]).
  unfold recalc_dasharray. destruct (if d_has _ _ then _ else _) as [[]|]; auto. M_go.
Qed.
Lemma shape_M anc d d' : apply_shape anc d = Ok d' -> M d d'.
Proof.
  pose proof (M_refl d) as R0. unfold apply_shape. destruct (d_has d ATransform); [|intros X; injection X as <-; exact R0].
  assert (P : forall e, Transforms.process_shape e anc d = Ok d' -> (forall m, M d (shape_coords e m d)) -> M d d').
  { intros e. unfold Transforms.process_shape. destruct (d_get d ATransform) as [[]|]; try discriminate. destruct (_ || _); intros X H; injection X as <-; [exact R0|]. destruct (has_scale _); [apply recalc_M|]; apply M_rm, H. }
  destruct (tag d) as [|e| | | |]; try discriminate. destruct e; try (intros X; injection X as <-; exact R0); intros X; apply (P _ X); intros m; cbn [shape_coords].
  all: try apply scales_M; try (repeat constructor; discriminate); repeat (apply tcoords_M; [discriminate|discriminate|]); exact R0.
Qed.
Lemma mild_shapes t t' : okt t -> apply_transform_to_shapes t = Ok t' -> shr t t'.
Proof. apply mild_apass. intros a d d' _ _. apply shape_M. Qed.
Lemma path_M o anc d d' : process_path_node o anc d = Ok d' -> M d d'.
Proof.
  pose proof (M_refl d) as R0. unfold process_path_node. destruct (is_tag EPath d); [|intros X; injection X as <-; exact R0].
  assert (P : forall m ts x y, M d x -> path_data o m ts x = Ok y -> M d y).
  { intros m ts x y Rx. unfold path_data. destruct (d_get x AD) as [[]|]; try (intros X; injection X as <-; exact Rx). destruct (Paths.process_path _ _ _ _); [|discriminate]. intros X. injection X as <-. M_go. }
  destruct (_ && _); [|now apply P]. destruct (d_get d ATransform) as [[]|]; try discriminate. destruct (_ && _); [|now apply P]. apply P. destruct (has_scale _); [apply recalc_M|]; now apply M_rm.
Qed.
Lemma mild_paths o t t' : okt t -> Transforms.process_paths o t = Ok t' -> shr t t'.
Proof. apply mild_apass. intros a d d' _ _. apply path_M. Qed.
Lemma mild_grad_transforms t t' : NoDup (keys t) -> okt t -> apply_transform_to_gradients t = Ok t' -> shr t t'.
Proof.
  intros N O E. refine (shr_vloop (fun d _ => M_refl d) M_trans (M_okg GK) M_key _ _ _ t t' N O E). clear. intros t d d' _ _. unfold apply_gradient. assert (D : Ok d = Ok d' -> M d d') by (intros E; injection E as <-; apply M_refl).
  destruct (is_grad d && _); [|exact D]. destruct (linked_by_gradient _ _); [exact D|]. destruct (match d_get d AXlinkHref with Some _ => _ | None => _ end); [exact D|]. destruct (d_get d AGradientTransform) as [[]|]; try discriminate.
  destruct (negb _); [exact D|]. destruct (negb _); [exact D|]. destruct (is_tag _ _); intros E; injection E as <-; apply M_rm; try apply scales_M; try (repeat constructor; discriminate); repeat (apply tcoords_M; [discriminate|discriminate|]); apply M_refl.
Qed.
(** convert_shapes_to_paths *)
Lemma convert_M d d' : convert_shape d = Ok d' -> M d d'.
Proof.
  pose proof (M_refl d) as R0. unfold convert_shape. assert (D : Ok d = Ok d' -> M d d') by (intros E; injection E as <-; exact R0). destruct (tag d) as [|e| | | |] eqn:Tg; auto. destruct e; auto.
  - intros E. injection E as <-. unfold convert_line. destruct (negb _); [exact R0|]. apply M_rm_list, M_retag; [M_go|exists ELine; cbn; auto].
  - unfold convert_poly. destruct (points_to_path d) as [r|]; [|exact D]. intros E. apply bind_ok in E. destruct E as (p & _ & E). injection E as <-. apply M_rm, M_set; [apply M_retag; [exact R0|exists EPolygon; cbn; auto 9]|discriminate|intros _; repeat split; discriminate].
  - unfold convert_poly. destruct (points_to_path d) as [r|]; [|exact D]. intros E. apply bind_ok in E. destruct E as (p & _ & E). injection E as <-. apply M_rm, M_set; [apply M_retag; [exact R0|exists EPolyline; cbn; auto 9]|discriminate|intros _; repeat split; discriminate].
  - intros E. injection E as <-. unfold convert_rect. destruct (_ || _); [exact R0|]. destruct (_ || _); [exact R0|]. destruct (negb _); [exact R0|]. apply M_rm_list, M_retag; [M_go|exists ERect; cbn; auto].
Qed.
Lemma mild_convert t t' : okt t -> convert_shapes_to_paths t = Ok t' -> shr t t'.
Proof.
  unfold convert_shapes_to_paths, npass. apply mild_kpass. intros d l r E. apply bind_ok in E. destruct E as (d' & E1 & E). injection E as <-. split; [now apply convert_M|apply F2_refl].
Qed.
(** remove_default_attributes *)
Lemma default_href dv svg anc d e x : hname x -> default_attr dv svg anc d e x = false.
Proof. unfold hname, default_attr. intros ->. change (is_default e AXlinkHref (a_val x) = false). unfold is_default. now destruct (is_gradient e). Qed.
Lemma mild_default dv t t' : okt t -> remove_default_attributes dv t = Ok t' -> shr t t'.
Proof.
  apply mild_apass. intros a d d' _ Od X. injection X as <-. unfold default_node. destruct (tag d); try apply M_refl. unfold hide_if. apply M_map; [apply M_refl|]. intros y Hy. destruct (default_attr _ _ _ _ _ _) eqn:Q; [right|now left].
  assert (Nh : ~ hname (hide y)) by (intros X; rewrite (default_href _ _ _ _ _ y X) in Q; discriminate). split; [|auto]. intros G. destruct (og_attrs _ _ Od G y Hy) as [[X _]|X]; [contradiction|exact X].
Qed.
(** remove_text_attributes *)
Lemma rm_all_M d l : forall x, M d x -> M d (rm_all l x).
Proof. induction l as [|a l IH]; intros x Rx; cbn; [exact Rx|]. apply IH, M_rm, Rx. Qed.
Lemma shr_id t : shr t t. Proof. apply (shr_refl (okn := fun _ => True) (fun d _ => M_refl d)). auto. Qed.
Lemma text_child_shr t0 t : shr t (fst (rm_text_child t0 t)).
Proof.
  induction t as [d ch IH] using tree_ind'. rewrite Forall_forall in IH. pose proof (M_rm _ _ ALineHeight (M_refl d)) as R0. cbn [rm_text_child]. destruct (negb (is_svg_el (d_rm d ALineHeight))).
  - constructor; [exact R0|]. rewrite <- (map_id ch) at 2. apply shrl_map. intros c Hc. apply shr_id.
  - destruct ch as [|c0 ch0] eqn:Ec; [constructor; [|constructor]; destruct (_ && _); [now apply rm_all_M|exact R0]|]. rewrite <- Ec in *. clear c0 ch0 Ec. constructor; [destruct (_ && _); [now apply rm_all_M|exact R0]|]. rewrite map_map. apply shrl_map. intros c Hc. now apply IH.
Qed.
Lemma space_child_shr t : shr t (rm_space_child t).
Proof.
  induction t as [d ch IH] using tree_ind'. rewrite Forall_forall in IH. pose proof (M_refl d) as R0. cbn [rm_space_child]. assert (S : shrl M ch (map rm_space_child ch)) by (apply shrl_map; exact IH).
  destruct (preserves d); [|now constructor]. destruct ch as [|c0 ch0]; [constructor; [now apply M_rm|constructor]|]. constructor; [|exact S]. destruct (existsb _ _); [exact R0|now apply M_rm].
Qed.
Lemma mild_text t t' : remove_text_attributes t = Ok t' -> shr t t'.
Proof.
  assert (S1 : shr t (rm_text_root t)). { destruct t as [d ch]. constructor; [apply M_refl|]. apply shrl_map. intros c Hc. apply text_child_shr. }
  assert (S2 : shr (rm_text_root t) (remove_xml_space (rm_text_root t))). { destruct (rm_text_root t) as [d ch]. constructor; [apply M_refl|]. apply shrl_map. intros c Hc. apply space_child_shr. }
  pose proof (shr_trans M M_trans _ _ _ S1 S2) as S. unfold remove_text_attributes. destruct (svg_element _) as [s|]; [|discriminate]. intros X. injection X as <-. destruct (has_text s); [exact S|].
  apply (shr_trans M M_trans _ _ _ S). apply shr_tmap. intros d Hd. pose proof (M_refl d) as R0. destruct (is_tag EFontFace d); [exact (rm_all_M d text_attributes d R0)|exact R0].
Qed.
(** remove_needless_attributes *)
Lemma needless_M d x anc leaf : M d x -> M d (needless_node anc leaf x).
Proof.
  intros R0. unfold needless_node. assert (R1 : M d (Needless.process_shape x)). { unfold Needless.process_shape, retain. destruct (tag x) as [|e| | | |]; auto. destruct e; auto using M_filter. } apply (M_rm _ _ AColor) in R1. revert R1. generalize (d_rm (Needless.process_shape x) AColor). intros x1 R1.
  set (x2 := if tag_sat is_container x1 then x1 else d_rm x1 AEnableBackground). assert (R2 : M d x2) by (unfold x2; M_go). clearbody x2.
  set (x3 := if leaf then process_fill x2 else x2). assert (R3 : M d x3) by (unfold x3, process_fill; M_go). clearbody x3.
  set (x4 := if leaf then process_stroke anc x3 else x3). assert (R4 : M d x4).
  { unfold x4. destruct leaf; [|exact R3]. unfold process_stroke. pose proof (rm_all_M d stroke_attributes _ (M_rm _ _ AStroke R3)) as A. pose proof (rm_all_M d stroke_attributes _ R3) as B. M_go. }
  unfold process_overflow. destruct (tag x4) as [|e| | | |]; try (now apply M_rm). destruct e; auto using M_rm.
Qed.
Lemma upd_shr k f t : (forall d, In d (flat t) -> key d = k -> M d (f d)) -> shr t (upd k f t).
Proof. apply (shr_upd (okn := fun _ => True) (fun d _ => M_refl d)). auto. Qed.
Lemma clip_shr ks : forall t, shr t (process_clip_path ks t).
Proof.
  unfold process_clip_path. induction ks as [|k ks IH]; intros t; cbn; [apply shr_id|]. destruct (is_used k t); [now apply IH|].
  assert (S : shr t (upd k strip_paint t)) by (apply upd_shr; intros d Hd _; apply M_filter, M_refl). exact (shr_trans M M_trans _ _ _ S (IH _)).
Qed.
Lemma mild_needless t : shr t (remove_needless_attributes t).
Proof.
  unfold remove_needless_attributes. generalize (keys t) as ks. intros ks. revert t. induction ks as [|k ks IH]; intros t; cbn; [apply shr_id|].
  assert (S : shr t (needless_visit t k)).
  { unfold needless_visit. destruct (find_place [] k t) as [[anc s]|]; [|apply shr_id]. destruct (is_svg_el (data s)); [|apply shr_id].
    set (t1 := if is_tag EClipPath (data s) then _ else t). assert (S1 : shr t t1) by (unfold t1; destruct (is_tag _ _); [apply clip_shr|apply shr_id]). clearbody t1.
    apply (shr_trans M M_trans _ _ _ S1). apply upd_shr. intros d Hd _. apply needless_M, M_refl. }
  exact (shr_trans M M_trans _ _ _ S (IH _)).
Qed.
End P.
