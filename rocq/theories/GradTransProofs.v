(** Proofs about [apply_transform_to_gradients]. *)
From Coq Require Import List Bool NArith Arith ZArith String Lia QArith Qcanon.
From Verif Require Import Names Num Value Dom DomFacts DomOps Outcome DomRemove Stops SpecStops AttrFacts StopsProofs Shapes SpecShapes NPass SpecDom Transforms SpecStyle SpecTransforms TransformsProofs.
From Verif Require Import Props_shapes Props_transforms VLoop Gradients SpecGradients GradProofs SpecWritten.
Import ListNotations.
Local Open Scope nat_scope.

Lemma existsb_map {A B} (p : B -> bool) (f : A -> B) l : existsb p (map f l) = existsb (fun x => p (f x)) l.
Proof. induction l as [|x l IH]; cbn; [reflexivity|now rewrite IH]. Qed.
Lemma existsb_ext_in {A} (p q : A -> bool) l : (forall x, In x l -> p x = q x) -> existsb p l = existsb q l.
Proof. induction l as [|x l IH]; intros H; cbn; [reflexivity|]. rewrite H by now left. f_equal. apply IH. intros y Hy. apply H. now right. Qed.
(** ** Attribute lists without duplicates *)
Lemma set_attr_names l a v : incl (map a_name (set_attr l a v)) (AN a :: map a_name l) /\ (NoDup (map a_name l) -> NoDup (map a_name (set_attr l a v))).
Proof.
  induction l as [|x l [I N]]; cbn.
  - split; [apply incl_refl|]. intros _. repeat constructor. auto.
  - destruct (has_name (AN a) x) eqn:E; cbn.
    + apply has_name_true in E. split; [intros y Hy; cbn in *; tauto|]. intros H. now rewrite <- E.
    + apply has_name_false in E. split.
      * intros y [<-|Hy]; [cbn; auto|]. apply I in Hy. cbn in *. tauto.
      * intros H. inversion H as [|? ? H1 H2]; subst. constructor; [|auto]. intros X. apply I in X. destruct X as [X|X]; [congruence|auto].
Qed.
Lemma nodup_set d a v : attrs_nodup d -> attrs_nodup (d_set d a v).
Proof. apply set_attr_names. Qed.
Lemma NoDup_map_filter {A B} (f : A -> B) p l : NoDup (map f l) -> NoDup (map f (filter p l)).
Proof.
  induction l as [|x l IH]; cbn; [auto|]. intros H. inversion H as [|? ? H1 H2]; subst. destruct (p x); [|auto]. cbn. constructor; [|auto].
  intros X. apply H1. apply in_map_iff in X. destruct X as (y & E & Hy). apply filter_In in Hy. apply in_map_iff. exists y. tauto.
Qed.
Lemma nodup_rm d a : attrs_nodup d -> attrs_nodup (d_rm d a).
Proof. apply NoDup_map_filter. Qed.
Lemma nodup_vis d : attrs_nodup d -> attrs_nodup (vis d).
Proof. apply NoDup_map_filter. Qed.
Lemma nodup_map_value d a v : attrs_nodup d -> attrs_nodup (map_value d a v).
Proof.
  unfold attrs_nodup, map_value. cbn. rewrite map_map.
  assert (E : map (fun x => a_name (if has_name (AN a) x then At (a_name x) v (a_vis x) else x)) (attrs d) = map a_name (attrs d)).
  { apply map_ext. intros x. now destruct (has_name (AN a) x). }
  now rewrite E.
Qed.
Lemma nodup_sc a k d : attrs_nodup d -> attrs_nodup (scale_coord a k d).
Proof. intros H. unfold scale_coord. destruct (d_get d a) as [[| | |l| | | | | | | ]|]; auto. now apply nodup_map_value. Qed.
Lemma nodup_tc ax ay t d : attrs_nodup d -> attrs_nodup (transform_coords ax ay t d).
Proof. intros H. unfold transform_coords. now do 2 apply nodup_set. Qed.
Lemma nodup_scs l t d : attrs_nodup d -> attrs_nodup (scale_coords l t d).
Proof. intros H. unfold scale_coords. destruct (has_scale t); [|exact H]. revert d H. induction l as [|a l IH]; intros d H; cbn; [exact H|]. apply IH. now apply nodup_sc. Qed.
(** ** Visible attributes *)
Lemma vis_get d a : attrs_nodup d -> get_attr (attrs (vis d)) a = match get_attr (attrs d) a with Some x => if a_vis x then Some x else None | None => None end.
Proof.
  unfold attrs_nodup, vis, get_attr. cbn. induction (attrs d) as [|x l IH]; cbn; [reflexivity|]. intros H. inversion H as [|? ? H1 H2]; subst.
  destruct (has_name (AN a) x) eqn:E.
  - destruct (a_vis x) eqn:V; cbn; [now rewrite E|]. rewrite (IH H2). destruct (find _ l) as [y|] eqn:F; [|reflexivity]. apply find_some in F. destruct F as [Hy Ny].
    apply has_name_true in E, Ny. exfalso. apply H1. apply in_map_iff. exists y. split; [congruence|exact Hy].
  - destruct (a_vis x); cbn; [rewrite E|]; auto.
Qed.
Lemma vis_dget d a : attrs_nodup d -> d_get (vis d) a = match get_attr (attrs d) a with Some x => if a_vis x then Some (a_val x) else None | None => None end.
Proof. intros H. unfold d_get, get_value. rewrite vis_get by exact H. destruct (get_attr (attrs d) a) as [x|]; [|reflexivity]. now destruct (a_vis x). Qed.
Lemma vis_dget_some d a v : attrs_nodup d -> d_get (vis d) a = Some v -> d_get d a = Some v.
Proof. intros H. rewrite vis_dget by exact H. unfold d_get, get_value. destruct (get_attr (attrs d) a) as [x|]; [|discriminate]. destruct (a_vis x); [auto|discriminate]. Qed.
Lemma vis_ext d d' a : attrs_nodup d -> attrs_nodup d' -> get_attr (attrs d') a = get_attr (attrs d) a -> d_get (vis d') a = d_get (vis d) a.
Proof. intros H H' E. now rewrite !vis_dget, E. Qed.
Lemma vis_tag d : tag (vis d) = tag d. Proof. reflexivity. Qed.
Lemma vis_node_in t d : In d (flat t) -> In (vis d) (flat (written t)).
Proof. intros H. unfold written. rewrite flat_tmap. now apply in_map. Qed.

(** ** One gradient *)
Definition grad_change (t : tree) (d : ndata) : ndata := match apply_gradient t d with Ok d' => d' | _ => d end.
Lemma is_grad_iff d : is_grad d = true <-> gradient_node d.
Proof.
  unfold is_grad, tag_sat, gradient_node. destruct (tag d) as [|e| | | |]; try (split; [discriminate|intros [X|X]; discriminate]).
  destruct e; cbn; split; intros H; try discriminate; auto; destruct H as [H|H]; discriminate.
Qed.
(** The conditions under which the transform of a gradient is applied. *)
Definition used_by_gradient (t : tree) (d : ndata) : Prop := exists x, In x (flat t) /\ gradient_node x /\ refers_to x (key d).
Definition plain (d : ndata) (a : aid) (n : Qc) : Prop := d_get d a = Some (VLen (Len n UNone)).
Definition plain_gradient (d : ndata) : Prop :=
  (forall ax ay, In (ax, ay) (positions d) -> (exists x, plain d ax x) /\ (exists y, plain d ay y)) /\
  (forall a, In a (sizes d) -> exists n, plain d a n).
Definition complete (d : ndata) : Prop :=
  (forall ax ay, In (ax, ay) (positions d) -> (exists l, d_get d ax = Some (VLen l)) /\ (exists l, d_get d ay = Some (VLen l))) /\
  (forall a, In a (sizes d) -> exists l, d_get d a = Some (VLen l)).
(** The coordinates of [d'] are the images of those of [d]. *)
Definition vector_moved (k e f : Qc) (d d' : ndata) : Prop :=
  (forall ax ay x y, In (ax, ay) (positions d) -> plain d ax x -> plain d ay y -> plain d' ax (k * x + e)%Qc /\ plain d' ay (k * y + f)%Qc) /\
  (forall a n, In a (sizes d) -> plain d a n -> plain d' a (k * n)%Qc).
Definition target_has_transform (t : tree) (d : ndata) : Prop :=
  exists k x, d_get d AXlinkHref = Some (VLink k) /\ In x (flat t) /\ key x = k /\ d_has x AGradientTransform = true.
Definition gradient_applicable (t : tree) (d : ndata) (k e f : Qc) : Prop :=
  gradient_node d /\ uniform d AGradientTransform k e f /\ ~ used_by_gradient t d /\ ~ target_has_transform t d /\ plain_gradient d.
Definition gradient_applied (k e f : Qc) (d d' : ndata) : Prop :=
  same_node d d' /\ d_has d' AGradientTransform = false /\ vector_moved k e f d d' /\ same_except (AGradientTransform :: geometry_attrs d) d d'.

Lemma linked_iff t d : linked_by_gradient (key d) t = true <-> used_by_gradient t d.
Proof.
  unfold linked_by_gradient, used_by_gradient. rewrite existsb_exists. split.
  - intros (x & Hx & E). apply andb_true_iff in E. destruct E as [E1 E2]. apply is_grad_iff in E1. apply existsb_exists in E2. destruct E2 as (a & Ha & E2). apply refers_iff in E2.
    exists x. split; [exact Hx|]. split; [exact E1|]. exists a. auto.
  - intros (x & Hx & G & (a & Ha & E)). exists x. split; [exact Hx|]. apply is_grad_iff in G. rewrite G. cbn. apply existsb_exists. exists a. split; [exact Ha|]. now apply refers_iff.
Qed.
Definition target_has (t : tree) (d : ndata) : bool :=
  match d_get d AXlinkHref with
  | Some (VLink k) => match find_data k t with Some x => d_has x AGradientTransform | None => false end
  | _ => false
  end.
Lemma target_iff t d : NoDup (keys t) -> target_has t d = true <-> target_has_transform t d.
Proof.
  intros N. unfold target_has, target_has_transform. split.
  - destruct (d_get d AXlinkHref) as [v|]; [|discriminate]. destruct v; try discriminate. destruct (find_data k t) as [x|] eqn:F; [|discriminate]. intros H.
    apply find_data_some in F. destruct F. eauto 8.
  - intros (k & x & -> & Hx & <- & H). now rewrite (find_data_in t x N Hx).
Qed.
Lemma plain_valid_coord d a : (exists l, d_get d a = Some (VLen l)) -> valid_coord d a = true <-> exists n, plain d a n.
Proof.
  intros (l & E). unfold valid_coord, plain. rewrite E. destruct (unit_eqb_spec (unit l) UNone) as [U|U]; split; try discriminate; try reflexivity.
  - intros _. exists (num l). destruct l; cbn in *; now subst.
  - intros (n & X). injection X as ->. cbn in U. congruence.
Qed.
Lemma plain_gradient_iff d : gradient_node d -> complete d -> plain_gradient d <-> valid_coords d = true.
Proof.
  intros G [C1 C2]. unfold plain_gradient, valid_coords, coord_attrs in *. unfold positions, sizes in *. destruct G as [T|T]; rewrite T in *; rewrite forallb_forall.
  - destruct (C1 _ _ (or_introl eq_refl)) as [D1 D2]. destruct (C1 _ _ (or_intror (or_introl eq_refl))) as [D3 D4]. split.
    + intros [H _] a Ha. destruct (H _ _ (or_introl eq_refl)) as [H1 H2]. destruct (H _ _ (or_intror (or_introl eq_refl))) as [H3 H4].
      cbn in Ha. repeat (destruct Ha as [<-|Ha]; [now apply plain_valid_coord|]). contradiction.
    + intros H. split; [|intros a []]. intros ax ay Hp. cbn in Hp. repeat (destruct Hp as [E|Hp]; [injection E as <- <-; split; (apply plain_valid_coord; [assumption|]); apply H; cbn; tauto|]). contradiction.
  - destruct (C1 _ _ (or_introl eq_refl)) as [D1 D2]. destruct (C1 _ _ (or_intror (or_introl eq_refl))) as [D3 D4]. pose proof (C2 _ (or_introl eq_refl)) as D5. split.
    + intros [H Hs] a Ha. destruct (H _ _ (or_introl eq_refl)) as [H1 H2]. destruct (H _ _ (or_intror (or_introl eq_refl))) as [H3 H4]. pose proof (Hs AR (or_introl eq_refl)) as H5.
      cbn in Ha. repeat (destruct Ha as [<-|Ha]; [now apply plain_valid_coord|]). contradiction.
    + intros H. split; [|intros a [<-|[]]; (apply plain_valid_coord; [assumption|]); apply H; cbn; tauto].
      intros ax ay Hp. cbn in Hp. repeat (destruct Hp as [E|Hp]; [injection E as <- <-; split; (apply plain_valid_coord; [assumption|]); apply H; cbn; tauto|]). contradiction.
Qed.

Definition grad_coords (ts : transform) (d : ndata) : ndata :=
  if is_tag ELinearGradient d then transform_coords AX2 AY2 ts (transform_coords AX1 AY1 ts d)
  else scale_coords [AR] ts (transform_coords AFx AFy ts (transform_coords ACx ACy ts d)).
Lemma apply_gradient_eq t d : apply_gradient t d =
  if is_grad d && d_has d AGradientTransform then
    if linked_by_gradient (key d) t then Ok d else if target_has t d then Ok d
    else match d_get d AGradientTransform with
         | Some (VTransform ts) => if negb (valid_ts ts) then Ok d else if negb (valid_coords d) then Ok d else Ok (d_rm (grad_coords ts d) AGradientTransform)
         | _ => Panic
         end
  else Ok d.
Proof.
  unfold apply_gradient, grad_coords, target_has. destruct (is_grad d && d_has d AGradientTransform); [|reflexivity].
  destruct (linked_by_gradient (key d) t); [reflexivity|]. destruct (match d_get d AXlinkHref with Some (VLink k) => _ | _ => false end); [reflexivity|].
  destruct (d_get d AGradientTransform) as [[]|]; try reflexivity. destruct (negb (valid_ts t0)); [reflexivity|]. destruct (negb (valid_coords d)); [reflexivity|].
  now destruct (is_tag ELinearGradient d).
Qed.

Lemma plain_len d a x : plain d a x -> num (get_len d a) = x.
Proof. intros H. unfold get_len. rewrite H. reflexivity. Qed.
Lemma tc_plain ax ay k e f d x y : ax <> ay -> plain d ax x -> plain d ay y ->
  plain (transform_coords ax ay (Tr k q0 q0 k e f) d) ax (k * x + e)%Qc /\ plain (transform_coords ax ay (Tr k q0 q0 k e f) d) ay (k * y + f)%Qc.
Proof.
  intros H Hx Hy. split; unfold plain; rewrite tc_get, t_apply_uniform, (plain_len _ _ _ Hx), (plain_len _ _ _ Hy).
  - destruct (aid_eqb_spec ay ax); [congruence|]. now rewrite aid_eqb_refl.
  - now rewrite aid_eqb_refl.
Qed.
Lemma plain_ext d d' a x : d_get d' a = d_get d a -> plain d a x -> plain d' a x.
Proof. unfold plain. congruence. Qed.
Lemma grad_coords_moved k e f d : gradient_node d -> vector_moved k e f d (grad_coords (Tr k q0 q0 k e f) d).
Proof.
  intros [T|T]; unfold vector_moved, positions, sizes, grad_coords, is_tag; rewrite T.
  - change (eid_eqb ELinearGradient ELinearGradient) with true. cbv iota. split; [|intros a n []]. intros ax ay x y Hp Hx Hy.
    cbn in Hp. destruct Hp as [F|[F|[]]]; injection F as <- <-.
    + destruct (tc_plain AX1 AY1 k e f d x y ltac:(discriminate) Hx Hy) as [A B].
      split; (eapply plain_ext; [|eassumption]); rewrite (tc_get AX2 AY2); reflexivity.
    + apply tc_plain; [discriminate| |]; (eapply plain_ext; [|eassumption]); rewrite tc_get; reflexivity.
  - change (eid_eqb ERadialGradient ELinearGradient) with false. cbv iota. split.
    + intros ax ay x y Hp Hx Hy. cbn in Hp. destruct Hp as [F|[F|[]]]; injection F as <- <-.
      * destruct (tc_plain ACx ACy k e f d x y ltac:(discriminate) Hx Hy) as [A B].
        split; (eapply plain_ext; [|eassumption]); rewrite scoords_get by (repeat constructor; cbn; intuition discriminate); cbn [existsb]; rewrite (tc_get AFx AFy); reflexivity.
      * assert (A : plain (transform_coords AFx AFy (Tr k q0 q0 k e f) (transform_coords ACx ACy (Tr k q0 q0 k e f) d)) AFx (k * x + e)%Qc /\
                    plain (transform_coords AFx AFy (Tr k q0 q0 k e f) (transform_coords ACx ACy (Tr k q0 q0 k e f) d)) AFy (k * y + f)%Qc).
        { apply tc_plain; [discriminate| |]; (eapply plain_ext; [|eassumption]); rewrite tc_get; reflexivity. }
        destruct A as [A B]. split; (eapply plain_ext; [|eassumption]); rewrite scoords_get by (repeat constructor; cbn; intuition discriminate); reflexivity.
    + intros a n [<-|[]] Hn. unfold plain. rewrite scoords_get by (repeat constructor; cbn; intuition discriminate). rewrite !tc_get. unfold plain in Hn. cbn. rewrite Hn. reflexivity.
Qed.
Lemma grad_coords_same ts d : gradient_node d -> same_node d (grad_coords ts d) /\ same_except (geometry_attrs d) d (grad_coords ts d).
Proof.
  intros [T|T]; unfold geometry_attrs, position_attrs, positions, sizes, grad_coords, is_tag; rewrite T; cbn [app flat_map fst snd].
  - change (eid_eqb ELinearGradient ELinearGradient) with true. cbv iota. split; [eapply same_node_trans; apply tc_node|].
    eapply same_except_trans; (eapply same_except_weaken; [|apply tc_se]); intros x Hx; cbn in *; tauto.
  - change (eid_eqb ERadialGradient ELinearGradient) with false. cbv iota. split; [eapply same_node_trans; [eapply same_node_trans; apply tc_node|apply scoords_node]|].
    eapply same_except_trans; [eapply same_except_trans; (eapply same_except_weaken; [|apply tc_se])|eapply same_except_weaken; [|apply scoords_se]]; intros x Hx; cbn in *; tauto.
Qed.
Lemma grad_coords_nodup ts d : attrs_nodup d -> attrs_nodup (grad_coords ts d).
Proof. intros H. unfold grad_coords. destruct (is_tag ELinearGradient d); [now do 2 apply nodup_tc|]. apply nodup_scs. now do 2 apply nodup_tc. Qed.

(** What a visit does, in terms of the document. *)
Lemma apply_gradient_ok t d : NoDup (keys t) -> (gradient_node d -> complete d) -> (forall v, gradient_node d -> d_get d AGradientTransform = Some v -> exists ts, v = VTransform ts) ->
  exists d', apply_gradient t d = Ok d' /\
  ((exists k e f, gradient_applicable t d k e f /\ gradient_applied k e f d d' /\ d' = d_rm (grad_coords (Tr k q0 q0 k e f) d) AGradientTransform) \/
   ((forall k e f, ~ gradient_applicable t d k e f) /\ d' = d)).
Proof.
  intros N Co Ty. rewrite apply_gradient_eq. destruct (is_grad d) eqn:G; cbn [andb].
  2: { exists d. split; [reflexivity|]. right. split; [|reflexivity]. intros k e f (X & _). apply is_grad_iff in X. congruence. }
  apply is_grad_iff in G. rewrite d_has_get. destruct (d_get d AGradientTransform) as [v|] eqn:GT.
  2: { exists d. split; [reflexivity|]. right. split; [|reflexivity]. intros k e f (_ & (_ & X) & _). congruence. }
  destruct (Ty v G eq_refl) as (ts & ->). destruct (linked_by_gradient (key d) t) eqn:L.
  { exists d. split; [reflexivity|]. right. split; [|reflexivity]. intros k e f (_ & _ & X & _). apply X. now apply linked_iff. }
  destruct (target_has t d) eqn:TH.
  { exists d. split; [reflexivity|]. right. split; [|reflexivity]. intros k e f (_ & _ & _ & X & _). apply X. now apply target_iff. }
  destruct (valid_ts ts) eqn:V; cbn [negb].
  2: { exists d. split; [reflexivity|]. right. split; [|reflexivity]. intros k e f (_ & (K & U) & _). rewrite GT in U. injection U as ->.
       assert (X : valid_ts (Tr k q0 q0 k e f) = true) by (apply valid_ts_iff; eauto). congruence. }
  destruct (valid_coords d) eqn:VC; cbn [negb].
  2: { exists d. split; [reflexivity|]. right. split; [|reflexivity]. intros k e f (_ & _ & _ & _ & P). apply plain_gradient_iff in P; [congruence|exact G|now apply Co]. }
  apply valid_ts_iff in V. destruct V as (k & e & f & K & ->). eexists. split; [reflexivity|]. left. exists k, e, f. split; [|split; [|reflexivity]].
  - split; [exact G|]. split; [split; auto|]. split; [intros X; apply linked_iff in X; congruence|]. split; [intros X; apply target_iff in X; [congruence|exact N]|]. apply plain_gradient_iff; auto.
  - destruct (grad_coords_same (Tr k q0 q0 k e f) d G) as [S E]. destruct (grad_coords_moved k e f d G) as [M1 M2]. split; [exact S|]. split; [apply d_has_rm_same|]. split.
    + split.
      * intros ax ay x y Hp Hx Hy. destruct (M1 ax ay x y Hp Hx Hy) as [A B].
        assert (Z : ax <> AGradientTransform /\ ay <> AGradientTransform).
        { unfold positions in Hp. destruct G as [T|T]; rewrite T in Hp; cbn in Hp; repeat (destruct Hp as [F|Hp]; [injection F as <- <-; split; discriminate|]); contradiction. }
        split; (eapply plain_ext; [|eassumption]); apply d_get_rm_other; intros F; symmetry in F; tauto.
      * intros a n Ha Hn. eapply plain_ext; [|exact (M2 a n Ha Hn)]. apply d_get_rm_other. intros <-. unfold sizes in Ha. destruct G as [T|T]; rewrite T in Ha; cbn in Ha; intuition discriminate.
    + eapply same_except_trans; [eapply same_except_weaken; [|exact E]|eapply same_except_weaken; [|apply se_rm]]; intros z Hz; cbn in *; tauto.
Qed.
Lemma grad_change_key t d : NoDup (keys t) -> key (grad_change t d) = key d.
Proof.
  intros N. unfold grad_change. destruct (apply_gradient t d) as [d'| |] eqn:E; try reflexivity. rewrite apply_gradient_eq in E.
  destruct (is_grad d && _); [|congruence]. destruct (linked_by_gradient _ t); [congruence|]. destruct (target_has t d); [congruence|].
  destruct (d_get d AGradientTransform) as [[| | | | | | | | |ts| ]|]; try congruence. destruct (negb (valid_ts ts)); [congruence|]. destruct (negb (valid_coords d)); [congruence|].
  injection E as <-. unfold grad_coords. destruct (is_tag ELinearGradient d); [reflexivity|]. cbn. destruct (scoords_node [AR] ts (transform_coords AFx AFy ts (transform_coords ACx ACy ts d))) as [K _]. exact K.
Qed.
(** References of a gradient are not changed. *)
Lemma not_link_attr t d a x : WFA t -> complete_gradients t -> In d (flat t) -> gradient_node d -> In a (AGradientTransform :: geometry_attrs d) ->
  In x (attrs d) -> a_name x = AN a -> link_of (a_val x) = None.
Proof.
  intros W Ty Hd G Ha Hx Nx. assert (Nd : attrs_nodup d) by (eapply (proj1 (Forall_forall _ _) W); eauto).
  assert (E : d_get d a = Some (a_val x)) by (unfold d_get, get_value; now rewrite (get_attr_in _ _ _ Nd Hx Nx)).
  destruct (Ty d Hd G) as (T1 & T2 & T3 & _). destruct Ha as [<-|Ha].
  - destruct (T3 _ E) as (ts & ->). reflexivity.
  - unfold geometry_attrs in Ha. apply in_app_or in Ha. destruct Ha as [Ha|Ha].
    + unfold position_attrs in Ha. apply in_flat_map in Ha. destruct Ha as ((ax, ay) & Hp & Ha). destruct (T1 ax ay Hp) as [Tx Ty']. destruct Ha as [<-|[<-|[]]]; cbn in E.
      * destruct Tx as (l & Tx). rewrite Tx in E. injection E as <-. reflexivity.
      * destruct Ty' as (l & Ty'). rewrite Ty' in E. injection E as <-. reflexivity.
    + destruct (T2 a Ha) as (l & T2'). rewrite T2' in E. injection E as <-. reflexivity.
Qed.
Lemma applied_value t d d' k e f a x : WFA t -> complete_gradients t -> In d (flat t) -> gradient_node d -> attrs_nodup d' -> plain_gradient d ->
  gradient_applied k e f d d' -> In a (AGradientTransform :: geometry_attrs d) -> In x (attrs d') -> a_name x = AN a -> link_of (a_val x) = None.
Proof.
  intros W Ty Hd G Nd' [P P2] (S & H & (M1 & M2) & E) Ha Hx Nx.
  assert (Ex : d_get d' a = Some (a_val x)) by (unfold d_get, get_value; now rewrite (get_attr_in _ _ _ Nd' Hx Nx)). destruct Ha as [<-|Ha].
  - rewrite d_has_get, Ex in H. discriminate.
  - unfold geometry_attrs in Ha. apply in_app_or in Ha. destruct Ha as [Ha|Ha].
    + unfold position_attrs in Ha. apply in_flat_map in Ha. destruct Ha as ((ax, ay) & Hp & Ha). destruct (P ax ay Hp) as [(p & Cp) (q & Cq)]. destruct (M1 ax ay p q Hp Cp Cq) as [A B].
      unfold plain in A, B. cbn in Ha. destruct Ha as [<-|[<-|[]]]; [rewrite Ex in A; apply (f_equal (fun o => match o with Some v => link_of v | None => None end)) in A; exact A|rewrite Ex in B; apply (f_equal (fun o => match o with Some v => link_of v | None => None end)) in B; exact B].
    + destruct (P2 a Ha) as (n & Hn). pose proof (M2 a n Ha Hn) as X. unfold plain in X. rewrite Ex in X. apply (f_equal (fun o => match o with Some v => link_of v | None => None end)) in X. exact X.
Qed.
Lemma applied_refers t d d' k e f j : WFA t -> complete_gradients t -> In d (flat t) -> gradient_node d -> attrs_nodup d' -> plain_gradient d ->
  gradient_applied k e f d d' -> refers_to d' j <-> refers_to d j.
Proof.
  intros W Ty Hd G Nd' P A. pose proof A as (_ & _ & _ & E). split; intros (x & Hx & L).
  - exists x. split; [|exact L]. apply E; [|exact Hx]. intros X. apply in_map_iff in X. destruct X as (a & Ea & Ha).
    rewrite (applied_value t d d' k e f a x) in L; auto; discriminate.
  - exists x. split; [|exact L]. apply E; [|exact Hx]. intros X. apply in_map_iff in X. destruct X as (a & Ea & Ha).
    rewrite (not_link_attr t d a x) in L; auto; discriminate.
Qed.
Section Pass.
Variable t : tree.
Hypothesis (W : WF t) (A : WFA t) (Ty : complete_gradients t).
Let N : NoDup (keys t) := wf_keys t W.
Lemma change_cases d : In d (flat t) ->
  apply_gradient t d = Ok (grad_change t d) /\ attrs_nodup (grad_change t d) /\
  ((exists k e f, gradient_applicable t d k e f /\ gradient_applied k e f d (grad_change t d) /\ grad_change t d = d_rm (grad_coords (Tr k q0 q0 k e f) d) AGradientTransform) \/
   ((forall k e f, ~ gradient_applicable t d k e f) /\ grad_change t d = d)).
Proof.
  intros Hd. assert (Nd : attrs_nodup d) by (eapply (proj1 (Forall_forall _ _) A); eauto).
  destruct (apply_gradient_ok t d N) as (d' & E & C). { intros G. split; apply (Ty d Hd G). } { intros v G. now apply (Ty d Hd G). }
  unfold grad_change. rewrite E. split; [reflexivity|]. split; [|exact C].
  destruct C as [(k & e & f & _ & _ & ->)|[_ ->]]; [|exact Nd]. now apply nodup_rm, grad_coords_nodup.
Qed.
Lemma change_refers d j : In d (flat t) -> refers_to (grad_change t d) j <-> refers_to d j.
Proof.
  intros Hd. destruct (change_cases d Hd) as (_ & Nd & [(k & e & f & Ap & Ad & _)|[_ ->]]); [|reflexivity]. destruct Ap as (G & _ & _ & _ & P). eapply applied_refers; eauto.
Qed.
Lemma change_node d : In d (flat t) -> same_node d (grad_change t d).
Proof. intros Hd. destruct (change_cases d Hd) as (_ & _ & [(k & e & f & _ & (S & _) & _)|[_ ->]]); [exact S|apply same_node_refl]. Qed.
Lemma change_used d : In d (flat t) -> used_by_gradient t d -> grad_change t d = d.
Proof. intros Hd U. destruct (change_cases d Hd) as (_ & _ & [(k & e & f & (_ & _ & X & _) & _)|[_ ->]]); [contradiction|reflexivity]. Qed.

Lemma refers_existsb d j : existsb (refers j) (attrs d) = true <-> refers_to d j.
Proof. rewrite existsb_exists. split; intros (x & Hx & E); exists x; (split; [exact Hx|]); now apply refers_iff. Qed.
Lemma linked_visited done j : linked_by_gradient j (visited (grad_change t) done t) = linked_by_gradient j t.
Proof.
  unfold linked_by_gradient, visited. rewrite flat_tmap, existsb_map. apply existsb_ext_in. intros x Hx. destruct (mem (key x) done); [|reflexivity].
  destruct (change_node x Hx) as (_ & T & _). f_equal; [unfold is_grad, tag_sat; now rewrite T|].
  apply eq_true_iff_eq. rewrite !refers_existsb. now apply change_refers.
Qed.
Lemma target_visited done d : In d (flat t) -> gradient_node d -> target_has (visited (grad_change t) done t) d = target_has t d.
Proof.
  intros Hd G. unfold target_has. destruct (d_get d AXlinkHref) as [v|] eqn:E; [|reflexivity]. destruct v; try reflexivity.
  unfold visited. rewrite find_data_tmap by (intros x; destruct (mem _ _); [now apply grad_change_key|reflexivity]).
  destruct (find_data k t) as [x|] eqn:F; [|reflexivity]. cbn. apply find_data_some in F. destruct F as [Hx <-]. destruct (mem (key x) done); [|reflexivity].
  rewrite change_used; [reflexivity|exact Hx|]. exists d. split; [exact Hd|]. split; [exact G|]. now apply href_refers.
Qed.
Lemma gradients_pass : apply_transform_to_gradients t = Ok (tmap (grad_change t) t).
Proof.
  unfold apply_transform_to_gradients. rewrite (vloop_closed apply_gradient (grad_change t) t N (fun d => grad_change_key t d N) (keys t) N (incl_refl _)).
  - f_equal. unfold visited. apply tmap_ext. intros x Hx. assert (M : mem (key x) (keys t) = true); [|now rewrite M]. unfold mem. apply mem_in. apply in_map, Hx.
  - intros done k rest d _ Hd _. destruct (change_cases d Hd) as (E & _). rewrite <- E. rewrite !apply_gradient_eq. rewrite linked_visited.
    destruct (is_grad d) eqn:G; cbn [andb]; [|reflexivity]. apply is_grad_iff in G. now rewrite target_visited.
Qed.
(** ** Effective values in the saved document *)
Hypothesis (R : resolved t) (GH : gradient_hrefs t).
Let t' := tmap (grad_change t) t.
Lemma vis_href d : In d (flat t) -> gradient_node d -> d_get (vis d) AXlinkHref = d_get d AXlinkHref.
Proof.
  intros Hd G. assert (Nd : attrs_nodup d) by (eapply (proj1 (Forall_forall _ _) A); eauto). rewrite vis_dget by exact Nd. unfold d_get, get_value.
  destruct (get_attr (attrs d) AXlinkHref) as [x|] eqn:E; [|reflexivity]. apply get_attr_some in E. destruct (Ty d Hd G) as (_ & _ & _ & T4). now rewrite (T4 x (proj1 E) (proj2 E)).
Qed.
Lemma along_unchanged a r y : along_href (written t) a y r -> forall d, y = vis d -> In d (flat t) -> gradient_node d -> grad_change t d = d ->
  along_href (written t') a (vis d) r.
Proof.
  intros H. induction H as [y v E|y E H|y k z r E H Hz Kz Hr IH]; intros d -> Hd G C; [now apply ah_own|now apply ah_end|].
  unfold written in Hz. rewrite flat_tmap in Hz. apply in_map_iff in Hz. destruct Hz as (x & <- & Hx). cbn in Kz.
  assert (E' : d_get d AXlinkHref = Some (VLink k)) by now rewrite <- vis_href.
  destruct (GH d _ Hd G E') as (k' & x' & Ek & Hx' & Kx' & Gx). injection Ek as <-. assert (x' = x) by (apply (data_unique t); congruence). subst x'.
  assert (C' : grad_change t x = x). { apply change_used; [exact Hx|]. exists d. split; [exact Hd|]. split; [exact G|]. rewrite Kz. now apply href_refers. }
  apply (ah_next _ _ _ k (vis x)); [exact E|exact H| |exact Kz|now apply IH].
  apply vis_node_in. unfold t'. rewrite flat_tmap. apply in_map_iff. exists x. auto.
Qed.
Lemma effective_unchanged a v d : In d (flat t) -> gradient_node d -> grad_change t d = d -> effective (written t) (vis d) a v -> effective (written t') (vis d) a v.
Proof.
  intros Hd G C H. induction H as [a v H|a H Ha|a v -> H _ IH|a v -> H _ IH].
  - apply eff_found. eapply along_unchanged; eauto.
  - apply eff_default; [|exact Ha]. eapply along_unchanged; eauto.
  - apply eff_fx; [reflexivity| |exact IH]. eapply along_unchanged; eauto.
  - apply eff_fy; [reflexivity| |exact IH]. eapply along_unchanged; eauto.
Qed.
Lemma along_changed a r d : In d (flat t) -> gradient_node d -> get_attr (attrs (grad_change t d)) a = get_attr (attrs d) a ->
  get_attr (attrs (grad_change t d)) AXlinkHref = get_attr (attrs d) AXlinkHref ->
  along_href (written t) a (vis d) r -> along_href (written t') a (vis (grad_change t d)) r.
Proof.
  intros Hd G Ea Eh H. assert (Nd : attrs_nodup d) by (eapply (proj1 (Forall_forall _ _) A); eauto). destruct (change_cases d Hd) as (_ & Nd' & _).
  apply (vis_ext _ _ _ Nd Nd') in Ea, Eh. inversion H as [y v E|y E X|y k z r0 E X Hz Kz Hr]; subst.
  - apply ah_own. congruence.
  - apply ah_end; congruence.
  - unfold written in Hz. rewrite flat_tmap in Hz. apply in_map_iff in Hz. destruct Hz as (x & <- & Hx). cbn in X.
    assert (E' : d_get d AXlinkHref = Some (VLink (key x))) by (rewrite <- vis_href; auto).
    destruct (GH d _ Hd G E') as (k' & x' & Ek & Hx' & Kx' & Gx). injection Ek as Ek. assert (x' = x) by (apply (data_unique t); congruence). subst x'.
    assert (C' : grad_change t x = x). { apply change_used; [exact Hx|]. exists d. split; [exact Hd|]. split; [exact G|]. now apply href_refers. }
    apply (ah_next _ _ _ (key x) (vis x)); [congruence|rewrite Eh; exact X| |reflexivity|].
    + apply vis_node_in. unfold t'. rewrite flat_tmap. apply in_map_iff. exists x. auto.
    + eapply along_unchanged; eauto.
Qed.
Lemma applied_get d k e f b : attrs_nodup d -> attrs_nodup (grad_change t d) -> gradient_applied k e f d (grad_change t d) -> ~ In b (AGradientTransform :: geometry_attrs d) ->
  get_attr (attrs (grad_change t d)) b = get_attr (attrs d) b.
Proof. intros Nd Nd' (_ & _ & _ & E) Hb. eapply same_except_get; eauto. Qed.
Lemma geometry_not d b : gradient_node d -> In b [AXlinkHref; AGradientUnits; ASpreadMethod] -> ~ In b (AGradientTransform :: geometry_attrs d).
Proof.
  intros [T|T] Hb; unfold geometry_attrs, position_attrs, positions, sizes; rewrite T; cbn in *; intuition (subst; discriminate).
Qed.
(** Visible values of the changed gradient. *)
Lemma vis_set d a v b : attrs_nodup d -> d_get (vis (d_set d a v)) b = if aid_eqb a b then Some v else d_get (vis d) b.
Proof.
  intros Nd. rewrite !vis_dget by auto using nodup_set. destruct (aid_eqb_spec a b) as [<-|H].
  - unfold d_set. cbn [attrs with_attrs]. now rewrite get_set_same.
  - unfold d_set. cbn [attrs with_attrs]. now rewrite get_set_other.
Qed.
Lemma vis_rm d a b : attrs_nodup d -> a <> b -> d_get (vis (d_rm d a)) b = d_get (vis d) b.
Proof. intros Nd H. apply vis_ext; [exact Nd|now apply nodup_rm|]. unfold d_rm. cbn [attrs with_attrs]. now apply get_rm_other. Qed.
Lemma vis_tc ax ay ts d b : attrs_nodup d -> b = ax \/ b = ay -> d_get (vis (transform_coords ax ay ts d)) b = d_get (transform_coords ax ay ts d) b.
Proof.
  intros Nd Hb. unfold transform_coords. rewrite !vis_set by auto using nodup_set. rewrite !d_get_set. destruct (aid_eqb_spec ay b); [reflexivity|]. destruct (aid_eqb_spec ax b); [reflexivity|]. destruct Hb; congruence.
Qed.
Lemma vis_tc_other ax ay ts d b : attrs_nodup d -> b <> ax -> b <> ay -> d_get (vis (transform_coords ax ay ts d)) b = d_get (vis d) b.
Proof.
  intros Nd Hx Hy. unfold transform_coords. rewrite !vis_set by auto using nodup_set. destruct (aid_eqb_spec ay b); [congruence|]. destruct (aid_eqb_spec ax b); [congruence|reflexivity].
Qed.
Lemma vis_sc_other a k d b : attrs_nodup d -> b <> a -> d_get (vis (scale_coord a k d)) b = d_get (vis d) b.
Proof.
  intros Nd H. apply vis_ext; [exact Nd|now apply nodup_sc|]. unfold scale_coord. destruct (d_get d a) as [[| | |l| | | | | | | ]|]; try reflexivity. apply map_value_get_other. congruence.
Qed.
Lemma vis_scs_other ts d b : attrs_nodup d -> b <> AR -> d_get (vis (scale_coords [AR] ts d)) b = d_get (vis d) b.
Proof. intros Nd H. unfold scale_coords. destruct (has_scale ts); [|reflexivity]. cbn. now apply vis_sc_other. Qed.
Lemma visible_positions ts d ax ay : attrs_nodup d -> gradient_node d -> In (ax, ay) (positions d) ->
  forall b, b = ax \/ b = ay -> d_get (vis (d_rm (grad_coords ts d) AGradientTransform)) b = d_get (d_rm (grad_coords ts d) AGradientTransform) b.
Proof.
  intros Nd G Hp b Hb. assert (Hb' : b <> AGradientTransform).
  { unfold positions in Hp. destruct G as [T|T]; rewrite T in Hp; cbn in Hp; repeat (destruct Hp as [F|Hp]; [injection F as <- <-; destruct Hb; subst; discriminate|]); contradiction. }
  rewrite vis_rm by (auto using grad_coords_nodup). rewrite d_get_rm_other by congruence. unfold positions in Hp. unfold grad_coords, is_tag.
  destruct G as [T|T]; rewrite T in *.
  - change (eid_eqb ELinearGradient ELinearGradient) with true. cbv iota. cbn in Hp. destruct Hp as [F|[F|[]]]; injection F as <- <-.
    + rewrite vis_tc_other by (auto using nodup_tc; destruct Hb; subst; discriminate). rewrite (vis_tc AX1 AY1) by auto. rewrite (tc_get AX2 AY2). destruct Hb; subst; reflexivity.
    + apply vis_tc; auto using nodup_tc.
  - change (eid_eqb ERadialGradient ELinearGradient) with false. cbv iota. cbn in Hp.
    assert (b <> AR) by (destruct Hp as [F|[F|[]]]; injection F as <- <-; destruct Hb; subst; discriminate).
    rewrite vis_scs_other by auto using nodup_tc. rewrite scoords_get by (repeat constructor; cbn; intuition discriminate). cbn [existsb]. destruct (aid_eqb_spec b AR); [contradiction|]. cbn [orb].
    destruct Hp as [F|[F|[]]]; injection F as <- <-.
    + rewrite vis_tc_other by (auto using nodup_tc; destruct Hb; subst; discriminate). rewrite (vis_tc ACx ACy) by auto. rewrite (tc_get AFx AFy). destruct Hb; subst; reflexivity.
    + apply vis_tc; auto using nodup_tc.
Qed.
Definition radius_written (d : ndata) : Prop :=
  d_get d AGradientTransform = None \/ (exists e f, d_get d AGradientTransform = Some (VTransform (Tr q1 q0 q0 q1 e f))) \/ (forall x, In x (attrs d) -> a_name x = AN AR -> a_vis x = true).
Lemma visible_radius ts d : attrs_nodup d -> tag d = TEl ERadialGradient -> (forall x, In x (attrs d) -> a_name x = AN AR -> a_vis x = true) ->
  d_get (vis (d_rm (grad_coords ts d) AGradientTransform)) AR = d_get (d_rm (grad_coords ts d) AGradientTransform) AR.
Proof.
  intros Nd T V. rewrite vis_rm by (auto using grad_coords_nodup || discriminate). rewrite d_get_rm_other by discriminate. unfold grad_coords, is_tag. rewrite T.
  change (eid_eqb ERadialGradient ELinearGradient) with false. cbv iota. set (d1 := transform_coords AFx AFy ts (transform_coords ACx ACy ts d)).
  assert (N1 : attrs_nodup d1) by (unfold d1; auto using nodup_tc).
  assert (G1 : forall b, b = AR -> get_attr (attrs d1) b = get_attr (attrs d) b).
  { intros b ->. unfold d1, transform_coords, d_set. cbn [attrs with_attrs]. rewrite !get_set_other by discriminate. reflexivity. }
  assert (V1 : d_get (vis d1) AR = d_get d1 AR).
  { rewrite vis_dget by exact N1. unfold d_get, get_value. rewrite G1 by reflexivity. destruct (get_attr (attrs d) AR) as [x|] eqn:E; [|reflexivity]. apply get_attr_some in E. now rewrite (V x (proj1 E) (proj2 E)). }
  clearbody d1. unfold scale_coords. destruct (has_scale ts); [|exact V1]. cbn [fold_left]. unfold scale_coord. destruct (d_get d1 AR) as [[| | |l| | | | | | | ]|] eqn:E; try (rewrite E; exact V1).
  rewrite vis_dget by now apply nodup_map_value. unfold d_get, get_value.
  destruct (get_attr (attrs d1) AR) as [x|] eqn:Ex; [|unfold d_get, get_value in E; rewrite Ex in E; discriminate].
  rewrite (map_value_get_same _ _ _ _ Ex). cbn [a_vis a_val]. rewrite vis_dget in V1 by exact N1. rewrite Ex in V1. destruct (a_vis x); [reflexivity|discriminate].
Qed.
Lemma changed_paint d k e f : In d (flat t) -> gradient_applicable t d k e f -> gradient_applied k e f d (grad_change t d) ->
  grad_change t d = d_rm (grad_coords (Tr k q0 q0 k e f) d) AGradientTransform -> (tag d = TEl ERadialGradient -> radius_written d) ->
  moved_gradient (written t) (vis d) (written t') (vis (grad_change t d)).
Proof.
  intros Hd Ap Ad Eq Rw. pose proof Ap as (G & (K & U) & NU & NT & [P1 P2]). pose proof Ad as (Sn & Hn & [M1 M2] & Se).
  assert (Nd : attrs_nodup d) by (eapply (proj1 (Forall_forall _ _) A); eauto). destruct (change_cases d Hd) as (_ & Nd' & _).
  assert (Eh : get_attr (attrs (grad_change t d)) AXlinkHref = get_attr (attrs d) AXlinkHref) by (eapply applied_get; eauto; apply geometry_not; cbn; tauto).
  assert (IA : forall a, In a [AGradientUnits; ASpreadMethod; AGradientTransform] \/ (exists p, In p (positions d) /\ (a = fst p \/ a = snd p)) \/ In a (sizes d) -> In a (gradient_attrs d)).
  { unfold positions, sizes, gradient_attrs. intros a. destruct G as [T|T]; rewrite T; intros [H|[(p & Hp & Ha)|H]]; cbn [In linear_attrs radial_attrs] in *.
    1,4: tauto. 2,4: tauto. all: repeat (destruct Hp as [<-|Hp]; [cbn in Ha; destruct Ha as [->| ->]; cbn; tauto|]); contradiction. }
  exists k, e, f. split; [exact K|]. split; [|split; [|split; [|split]]].
  - rewrite <- U. apply R; auto. apply IA. cbn; tauto.
  - change None with (gradient_default AGradientTransform). apply eff_default; [|cbn; intuition discriminate].
    assert (GN : d_get (vis (grad_change t d)) AGradientTransform = None).
    { destruct (d_get (vis (grad_change t d)) AGradientTransform) as [v|] eqn:E; [|reflexivity]. apply vis_dget_some in E; [|exact Nd']. rewrite d_has_get, E in Hn. discriminate. }
    pose proof (vis_ext _ _ _ Nd Nd' Eh) as Eh'. rewrite (vis_href d Hd G) in Eh'. destruct (d_get d AXlinkHref) as [v|] eqn:E; [|now apply ah_end].
    destruct (GH d _ Hd G E) as (j & x & -> & Hx & Kx & Gx).
    assert (C' : grad_change t x = x). { apply change_used; [exact Hx|]. exists d. split; [exact Hd|]. split; [exact G|]. rewrite Kx. now apply href_refers. }
    apply (ah_next _ _ _ j (vis x)); [exact GN|exact Eh'| |exact Kx|].
    + apply vis_node_in. unfold t'. rewrite flat_tmap. apply in_map_iff. exists x. auto.
    + assert (Gx' : d_get x AGradientTransform = None).
      { destruct (d_get x AGradientTransform) as [v|] eqn:Ev; [|reflexivity]. exfalso. apply NT. exists j, x. split; [exact E|]. split; [exact Hx|]. split; [exact Kx|]. now rewrite d_has_get, Ev. }
      assert (Rx := R x AGradientTransform Hx Gx). rewrite Gx' in Rx. assert (In AGradientTransform (gradient_attrs x)) as I by (unfold gradient_attrs; destruct Gx as [T|T]; rewrite T; cbn; tauto).
      specialize (Rx I). inversion Rx as [|Y _| |]; [|discriminate|discriminate]. subst. eapply along_unchanged; eauto.
  - intros ax ay Hp. change (positions (vis d)) with (positions d) in Hp. destruct (P1 ax ay Hp) as [(x & Hx) (y & Hy)]. destruct (M1 ax ay x y Hp Hx Hy) as [Ax Ay]. exists x, y.
    split; [|split; [|split]].
    + rewrite <- Hx. apply R; auto. apply IA. right. left. exists (ax, ay). auto.
    + rewrite <- Hy. apply R; auto. apply IA. right. left. exists (ax, ay). auto.
    + apply eff_found, ah_own. rewrite <- Ax. rewrite Eq. eapply visible_positions; eauto.
    + apply eff_found, ah_own. rewrite <- Ay. rewrite Eq. eapply visible_positions; eauto.
  - intros a Ha. change (sizes (vis d)) with (sizes d) in Ha. destruct (P2 a Ha) as (n & Hna). pose proof (M2 a n Ha Hna) as Mn. exists n.
    assert (Rn : effective (written t) (vis d) a (Some (VLen (Len n UNone)))). { rewrite <- Hna. apply R; auto. } split; [exact Rn|].
    assert (TR : tag d = TEl ERadialGradient /\ a = AR). { unfold sizes in Ha. destruct G as [T|T]; rewrite T in Ha; cbn in Ha; [contradiction|]. intuition. } destruct TR as [TR ->].
    destruct (Rw TR) as [En|[(e' & f' & Eu)|V]].
    + exfalso. rewrite U in En. discriminate En.
    + rewrite U in Eu. injection Eu as -> _ _. assert (Q : (q1 * n)%Qc = n) by (change (1 * n = n)%Qc; apply Qcmult_1_l). rewrite Q.
      inversion Rn as [v X|X Y| |]; subst; try discriminate.
      apply eff_found. apply along_changed; auto. rewrite Eq. unfold d_rm. cbn [attrs with_attrs]. rewrite get_rm_other by discriminate. unfold grad_coords, is_tag. rewrite TR.
        change (eid_eqb ERadialGradient ELinearGradient) with false. cbv iota. unfold scale_coords. unfold has_scale. cbn [ta]. rewrite qeqb_refl. cbv iota beta. cbn [negb].
        unfold transform_coords, d_set. cbn [attrs with_attrs]. now rewrite !get_set_other by discriminate.
    + apply eff_found, ah_own. rewrite <- Mn. rewrite Eq. now apply visible_radius.
  - intros a v Ha Hv. assert (Ea : get_attr (attrs (grad_change t d)) a = get_attr (attrs d) a) by (eapply applied_get; eauto; apply geometry_not; auto; cbn in *; tauto).
    inversion Hv as [w X|X Y|w Y|w Y]; subst.
    + apply eff_found. now apply along_changed.
    + apply eff_default; [now apply along_changed|exact Y].
    + cbn in Ha; intuition discriminate.
    + cbn in Ha; intuition discriminate.
Qed.
End Pass.
