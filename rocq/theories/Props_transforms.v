(** Properties C24, C25, C40 (document level): applying transforms. Specification: SpecTransforms.v. *)
From Coq Require Import List Bool NArith Arith ZArith String Lia QArith Qcanon.
From Verif Require Import Names Num Value Dom DomFacts DomOps Outcome DomRemove Stops SpecStops AttrFacts StopsProofs Shapes SpecShapes NPass SpecDom APass Paths SpecPath Transforms SpecStyle SpecTransforms TransformsProofs.
From Verif Require Import Props_shapes.
Import ListNotations.
Local Open Scope nat_scope.

Lemma t_apply_uniform k e f x y : t_apply (Tr k q0 q0 k e f) x y = ((k * x + e)%Qc, (k * y + f)%Qc).
Proof. unfold t_apply. cbn. f_equal; change q0 with 0%Qc; ring. Qed.

Ltac aids := repeat match goal with |- context [aid_eqb ?a ?b] => destruct (aid_eqb_spec a b); [try discriminate|try congruence] end.
Lemma tc_moved ax ay k e f d x y : ax <> ay -> coord d ax x -> coord d ay y ->
  coord (transform_coords ax ay (Tr k q0 q0 k e f) d) ax (k * x + e)%Qc /\ coord (transform_coords ax ay (Tr k q0 q0 k e f) d) ay (k * y + f)%Qc.
Proof.
  intros N Hx Hy. split; apply coord_get; rewrite tc_get, t_apply_uniform, (get_len_of _ _ _ Hx), (get_len_of _ _ _ Hy).
  - destruct (aid_eqb_spec ay ax); [congruence|]. now rewrite aid_eqb_refl.
  - now rewrite aid_eqb_refl.
Qed.
Definition geometry_attrs (d : ndata) : list aid := position_attrs d ++ sizes d.

Lemma shape_coords_moved e k x0 y0 d : tag d = TEl e -> In e [ERect; ECircle; EEllipse; ELine] ->
  moved k x0 y0 d (shape_coords e (Tr k q0 q0 k x0 y0) d).
Proof.
  intros T I. cbn in I. unfold moved, positions, sizes. rewrite T. split.
  - intros ax ay x y Hp Hx Hy. repeat (destruct I as [<-|I]; [|]); try contradiction; cbn in Hp; cbn [shape_coords].
    + destruct Hp as [E|[]]; injection E as <- <-. destruct (tc_moved AX AY k x0 y0 d x y ltac:(discriminate) Hx Hy) as [A B].
      split; (eapply coord_ext; [|eassumption]); rewrite scoords_get by (repeat constructor; cbn; intuition discriminate); reflexivity.
    + destruct Hp as [E|[]]; injection E as <- <-. destruct (tc_moved ACx ACy k x0 y0 d x y ltac:(discriminate) Hx Hy) as [A B].
      split; (eapply coord_ext; [|eassumption]); rewrite scoords_get by (repeat constructor; cbn; intuition discriminate); reflexivity.
    + destruct Hp as [E|[]]; injection E as <- <-. destruct (tc_moved ACx ACy k x0 y0 d x y ltac:(discriminate) Hx Hy) as [A B].
      split; (eapply coord_ext; [|eassumption]); rewrite scoords_get by (repeat constructor; cbn; intuition discriminate); reflexivity.
    + destruct Hp as [E|[E|[]]]; injection E as <- <-.
      * destruct (tc_moved AX1 AY1 k x0 y0 d x y ltac:(discriminate) Hx Hy) as [A B].
        split; (eapply coord_ext; [|eassumption]); rewrite (tc_get AX2 AY2); reflexivity.
      * apply tc_moved; [discriminate| |]; (eapply coord_ext; [|eassumption]); rewrite tc_get; reflexivity.
  - intros a Ha. repeat (destruct I as [<-|I]; [|]); try contradiction; cbn in Ha; cbn [shape_coords]; try contradiction;
    rewrite scoords_get by (repeat constructor; cbn; intuition discriminate); rewrite tc_get; unfold scale_of; cbn [ta];
    repeat (destruct Ha as [<-|Ha]; [reflexivity|]); contradiction.
Qed.
Lemma shape_coords_same e t d : tag d = TEl e -> In e [ERect; ECircle; EEllipse; ELine] ->
  same_node d (shape_coords e t d) /\ same_except (geometry_attrs d) d (shape_coords e t d).
Proof.
  intros T I. unfold geometry_attrs, position_attrs, positions, sizes. rewrite T. cbn in I.
  repeat (destruct I as [<-|I]; [|]); try contradiction; cbn [shape_coords app flat_map fst snd]; split.
  all: try (eapply same_node_trans; [apply tc_node|apply scoords_node]).
  all: try (eapply same_except_trans; [eapply same_except_weaken; [|apply tc_se]|eapply same_except_weaken; [|apply scoords_se]]; intros x Hx; cbn in *; tauto).
  - eapply same_node_trans; apply tc_node.
  - eapply same_except_trans; [eapply same_except_weaken; [|apply tc_se]|eapply same_except_weaken; [|apply tc_se]]; intros x Hx; cbn in *; tauto.
Qed.
Lemma same_except_get l d d' a : attrs_nodup d -> attrs_nodup d' -> same_except l d d' -> ~ In a l -> get_attr (attrs d') a = get_attr (attrs d) a.
Proof.
  intros N N' H Ha. assert (X : forall x, a_name x = AN a -> ~ In (a_name x) (map AN l)).
  { intros x -> Hx. apply in_map_iff in Hx. destruct Hx as (b & E & Hb). injection E as <-. auto. }
  destruct (get_attr (attrs d) a) as [x|] eqn:E.
  - apply get_attr_some in E. destruct E as [Hx Nx]. apply get_attr_in; [exact N'| |exact Nx]. now apply H; [apply X|].
  - apply get_attr_none. intros x Hx Nx. apply (H x (X x Nx)) in Hx. exact (proj1 (get_attr_none _ _) E x Hx Nx).
Qed.

(** When the transform of a shape can be applied. *)
Definition applicable (anc : list ndata) (d : ndata) (k e f : Qc) : Prop :=
  is_shape d /\ uniform d ATransform k e f /\ no_references anc d /\ plain_positions d.
Definition applied (k e f : Qc) (anc : list ndata) (d : ndata) (anc' : list ndata) (d' : ndata) : Prop :=
  same_node d d' /\ d_has d' ATransform = false /\ moved k e f d d' /\ stroke_scaled k anc d anc' d' /\
  same_except (ATransform :: geometry_attrs d ++ stroke_attrs) d d'.

Lemma plain_valid d : is_shape d -> plain_positions d <-> valid_coords d = true.
Proof.
  intros (e & T & I). unfold plain_positions, valid_coords, positions, coord_attrs. rewrite T. cbn in I.
  repeat (destruct I as [<-|I]; [|]); try contradiction; rewrite forallb_forall; split; intros H;
    try (intros ax ay Hp; cbn in Hp; repeat (destruct Hp as [E|Hp]; [injection E as <- <-; split; apply valid_coord_iff; apply H; cbn; tauto|]); contradiction);
    intros a Ha; apply valid_coord_iff; pose proof (H _ _ (or_introl eq_refl)) as [H1 H2]; try pose proof (H _ _ (or_intror (or_introl eq_refl))) as [H3 H4];
    cbn in Ha; repeat (destruct Ha as [<-|Ha]; [assumption|]); contradiction.
Qed.
Lemma process_ok e anc d d' : tag d = TEl e -> In e [ERect; ECircle; EEllipse; ELine] -> process_shape e anc d = Ok d' ->
  (exists k x y, applicable anc d k x y /\ applied k x y anc d anc d') \/ ((forall k x y, ~ applicable anc d k x y) /\ d' = d).
Proof.
  intros T I. assert (S : is_shape d) by (exists e; auto). unfold process_shape. destruct (d_get d ATransform) as [[| | | | | | | | |t| ]|] eqn:G; try discriminate.
  destruct (valid_ts t) eqn:V1; cbn [negb orb].
  2: { intros H. right. split; [|congruence]. intros k x y (_ & (K & U) & _). rewrite G in U. injection U as ->. assert (X : valid_ts (Tr k q0 q0 k x y) = true) by (apply valid_ts_iff; eauto). congruence. }
  destruct (valid_attrs anc d) eqn:V2; cbn [negb orb].
  2: { intros H. right. split; [|congruence]. intros k x y (_ & _ & R & _). apply valid_attrs_iff in R. congruence. }
  destruct (valid_coords d) eqn:V3; cbn [negb orb].
  2: { intros H. right. split; [|congruence]. intros k x y (_ & _ & _ & P). apply (plain_valid d S) in P. congruence. }
  intros H. injection H as H. left. apply valid_ts_iff in V1. destruct V1 as (k & x & y & K & ->). exists k, x, y. split.
  { split; [exact S|]. split; [split; [exact K|exact G]|]. split; [now apply valid_attrs_iff|now apply plain_valid]. }
  set (t := Tr k q0 q0 k x y) in *. destruct (shape_coords_same e t d T I) as [N E]. set (d1 := d_rm (shape_coords e t d) ATransform) in *.
  assert (M : moved k x y d d1).
  { pose proof (shape_coords_moved e k x y d T I) as [M1 M2]. fold t in M1, M2. split.
    - intros ax ay p q Hp Hx Hy. destruct (M1 ax ay p q Hp Hx Hy) as [A B]. assert (Z : ax <> ATransform /\ ay <> ATransform).
      { unfold positions in Hp. rewrite T in Hp. cbn in I. repeat (destruct I as [<-|I]; [|]); try contradiction; cbn in Hp; repeat (destruct Hp as [F|Hp]; [injection F as <- <-; split; discriminate|]); contradiction. }
      split; (eapply coord_ext; [|eassumption]); apply d_get_rm_other; intros F; symmetry in F; tauto.
    - intros a Ha. rewrite <- M2 by exact Ha. apply d_get_rm_other. intros <-. unfold sizes in Ha. rewrite T in Ha. cbn in I.
      repeat (destruct I as [<-|I]; [|]); try contradiction; cbn in Ha; intuition discriminate. }
  assert (N1 : same_node d d1) by (eapply same_node_trans; [exact N|apply sn_with]).
  assert (E1 : same_except (ATransform :: geometry_attrs d) d d1).
  { eapply same_except_trans; [eapply same_except_weaken; [|exact E]|eapply same_except_weaken; [|apply se_rm]]; intros z Hz; cbn in *; tauto. }
  assert (G1 : forall a, In a stroke_attrs -> d_get d1 a = d_get d a).
  { intros a Ha. unfold d1. rewrite d_get_rm_other by (intros <-; cbn in Ha; intuition discriminate).
    cbn in I. repeat (destruct I as [<-|I]; [|]); try contradiction; cbn [shape_coords]; rewrite ?scoords_get by (repeat constructor; cbn; intuition discriminate); rewrite !tc_get;
    cbn in Ha; repeat (destruct Ha as [<-|Ha]; [reflexivity|]); contradiction. }
  assert (SG : d_has d1 ATransform = false) by apply d_has_rm_same.
  destruct (has_scale t) eqn:HS.
  - subst d'. destruct (recalc_node (scale_of t) anc d1) as [N2 E2]. split; [eapply same_node_trans; eauto|]. split.
    { rewrite d_has_get, recalc_get by (cbn; intuition discriminate). rewrite <- d_has_get. exact SG. }
    split; [|split].
    + destruct M as [M1 M2]. split.
      * intros ax ay p q Hp Hx Hy. destruct (M1 ax ay p q Hp Hx Hy) as [A B].
        assert (Z : ~ In ax stroke_attrs /\ ~ In ay stroke_attrs).
        { unfold positions in Hp. rewrite T in Hp. cbn in I. repeat (destruct I as [<-|I]; [|]); try contradiction; cbn in Hp; repeat (destruct Hp as [F|Hp]; [injection F as <- <-; split; cbn; intuition discriminate|]); contradiction. }
        split; (eapply coord_ext; [|eassumption]); apply recalc_get; tauto.
      * intros a Ha. rewrite <- M2 by exact Ha. apply recalc_get. unfold sizes in Ha. rewrite T in Ha. cbn in I.
        repeat (destruct I as [<-|I]; [|]); try contradiction; cbn in *; intuition (subst; discriminate).
    + destruct (recalc_scaled (scale_of t) anc d1) as [R1 R2]. split.
      * intros a Ha. rewrite R1 by exact Ha. f_equal. apply computed_ext. apply G1. cbn in *; tauto.
      * rewrite R2. f_equal. apply computed_ext. apply G1. cbn. tauto.
    + eapply same_except_trans; [eapply same_except_weaken; [|exact E1]|eapply same_except_weaken; [|exact E2]]; intros z Hz; cbn in *; rewrite in_app_iff; cbn; tauto.
  - subst d'. apply has_scale_false in HS. cbn in HS. split; [exact N1|]. split; [exact SG|]. split; [exact M|]. split.
    + rewrite HS. split.
      * intros a Ha. rewrite (computed_ext _ _ d d1) by (apply G1; cbn in *; tauto). destruct (computed stroke_default anc d a); cbn; [now rewrite scaled_len_1|reflexivity].
      * rewrite (computed_ext _ _ d d1) by (apply G1; cbn in *; tauto). destruct (computed stroke_default anc d AStrokeDasharray); cbn; [now rewrite scaled_list_1|reflexivity].
    + eapply same_except_weaken; [|exact E1]. intros z Hz. cbn in *. rewrite in_app_iff. tauto.
Qed.
Lemma apply_shape_ok anc d d' : apply_shape anc d = Ok d' ->
  (exists k x y, applicable anc d k x y /\ applied k x y anc d anc d') \/ ((forall k x y, ~ applicable anc d k x y) /\ d' = d).
Proof.
  intros H. unfold apply_shape in H. rewrite d_has_get in H. destruct (d_get d ATransform) as [v|] eqn:G.
  2: { right. split; [|congruence]. intros k x y (_ & (_ & U) & _). congruence. }
  destruct (tag d) as [|e| | | |] eqn:T; try discriminate.
  assert (Z : ~ In e [ERect; ECircle; EEllipse; ELine] -> Ok d = Ok d' -> (exists k x y, applicable anc d k x y /\ applied k x y anc d anc d') \/ ((forall k x y, ~ applicable anc d k x y) /\ d' = d)).
  { intros N E. right. split; [|congruence]. intros k x y ((e' & T' & I) & _). rewrite T in T'. injection T' as <-. auto. }
  destruct e; try (apply Z; [cbn; intuition discriminate|exact H]); (eapply process_ok; [exact T|cbn; tauto|exact H]).
Qed.
Lemma apply_shape_key anc d d' : apply_shape anc d = Ok d' -> key d' = key d.
Proof. intros H. apply apply_shape_ok in H. destruct H as [(k & x & y & _ & (N & _) & _)|[_ ->]]; [exact N|reflexivity]. Qed.
Lemma Forall2_with_in {A B} (P : A -> B -> Prop) l m : Forall2 P l m -> Forall2 (fun x y => In x l /\ P x y) l m.
Proof.
  intros H. assert (G : forall l0, incl l l0 -> Forall2 (fun x y => In x l0 /\ P x y) l m).
  { intros l0. induction H as [|x y l m H F IH]; intros I; constructor; [split; [apply I; left; reflexivity|exact H]|]. apply IH. intros z Hz. apply I. right. exact Hz. }
  apply G, incl_refl.
Qed.

(** C25. Shapes inside of shapes are not rendered in SVG; the theorem is about documents without them. *)
Definition no_nested_shapes (t : tree) : Prop :=
  forall c x, In c (ctx [] t) -> is_shape (snd c) -> In x (fst c) -> ~ is_shape x.
Theorem C25_same_geometry : forall t t', apply_transform_to_shapes t = Ok t' -> no_nested_shapes t ->
  skeleton t' = skeleton t /\
  Forall2 (fun c c' => (forall k e f, applicable (fst c) (snd c) k e f -> applied k e f (fst c) (snd c) (fst c') (snd c')) /\
                       ((forall k e f, ~ applicable (fst c) (snd c) k e f) -> snd c' = snd c)) (ctx [] t) (ctx [] t').
Proof.
  intros t t' H NN. destruct (apass_ok _ apply_shape_key t [] [] t' (Forall2_nil _) H) as [S F]. split; [exact S|].
  eapply Forall2_impl; [|exact (Forall2_with_in _ _ _ F)]. cbn. intros [anc d] [anc' d'] (Hin & V & A). cbn [fst snd] in *.
  assert (K : is_shape d -> anc' = anc).
  { intros Sd. assert (NS : forall x, In x anc -> ~ is_shape x) by (intros x Hx; exact (NN (anc, d) x Hin Sd Hx)).
    clear - A NS. induction A as [|x y l m (a & Hx) A IH]; [reflexivity|]. f_equal.
    - apply apply_shape_ok in Hx. destruct Hx as [(k & e & f & (Sx & _) & _)|[_ E]]; [|exact E]. exfalso. apply (NS x); [left; reflexivity|exact Sx].
    - apply IH. intros z Hz. apply NS. right. exact Hz. }
  apply apply_shape_ok in V. split.
  - intros k e f Ap. pose proof Ap as (Sd & U & _). specialize (K Sd). subst anc'. destruct V as [(k' & e' & f' & Ap' & V)|[V _]]; [|exfalso; exact (V _ _ _ Ap)].
    destruct U as [_ U]. destruct Ap' as (_ & [_ U'] & _). rewrite U in U'. assert (E1 : k' = k /\ e' = e /\ f' = f) by (split; [|split]; congruence). destruct E1 as (-> & -> & ->). exact V.
  - intros N. destruct V as [(k & e & f & Ap & V)|[_ V]]; [|exact V]. pose proof Ap as (Sd & _). specialize (K Sd). subst anc'. exfalso. exact (N _ _ _ Ap).
Qed.
Print Assumptions C25_same_geometry.
(** The pass stops with a panic exactly for a transform attribute on a non-SVG node, or (not produced by
    the parser) a transform attribute of a shape whose value is not a transform. *)
Theorem C25_total : forall t,
  (forall d, In d (flat t) -> d_has d ATransform = true -> is_svg_el d = true /\ exists ts, d_get d ATransform = Some (VTransform ts)) ->
  exists t', apply_transform_to_shapes t = Ok t'.
Proof.
  intros t H. apply apass_defined. intros d a Hd. unfold apply_shape. destruct (d_has d ATransform) eqn:E; [|eauto].
  destruct (H d Hd E) as [S (ts & G)]. unfold is_svg_el in S. destruct (tag d) as [|e| | | |]; try discriminate.
  destruct e; eauto; unfold process_shape; rewrite G; destruct (_ || _ || _); eauto.
Qed.
Print Assumptions C25_total.
Theorem C25_foreign_element_panics_refuted : exists t, WF t /\ svg_element t <> None /\ apply_transform_to_shapes t = Panic.
Proof.
  exists (doc [el 1 ESvg [] [T (ND 2 (TOtherEl "x:y") "" [at_ ATransform (VTransform t_id)]) []]]). split; [|split; [discriminate|reflexivity]].
  split; [vm_compute; repeat constructor; cbn; intuition discriminate|intros k []].
Qed.
Definition ts_doc : tree :=
  doc [el 1 ESvg [at_ AStrokeWidth (px 3)] [el 2 EG [at_ AStrokeDasharray (VLenList [Len (zq 1) UNone])]
        [el 3 ERect [at_ AX (px 1); at_ AWidth (px 10); at_ AHeight (px 20); at_ ATransform (VTransform (Tr (zq 2) q0 q0 (zq 2) (zq 5) (zq 6)))] [];
         el 4 ECircle [at_ AR (px 1); at_ AFill (VFunc 1); at_ ATransform (VTransform (Tr (zq 2) q0 q0 (zq 2) (zq 5) (zq 6)))] []]]].
Example C25_instance : (exists t', apply_transform_to_shapes ts_doc = Ok t' /\
    map (fun d => d_has d ATransform) (flat t') = [false; false; false; false; true] /\
    match find_data 3 t' with Some d => opt_value_eqb (d_get d AX) (Some (px 7)) && opt_value_eqb (d_get d AStrokeWidth) (Some (px 6)) &&
      opt_value_eqb (d_get d AStrokeDasharray) (Some (VLenList [Len (zq 2) UNone])) | None => false end = true) /\ no_nested_shapes ts_doc.
Proof.
  split.
  - eexists. split; [vm_compute; reflexivity|]. split; vm_compute; reflexivity.
  - intros c x Hc (e & T & I) Hx (e' & T' & I'). cbn in Hc. repeat (destruct Hc as [<-|Hc]); try contradiction; cbn in Hx, T; injection T as <- || discriminate;
    repeat (destruct Hx as [<-|Hx]); try contradiction; cbn in T'; try discriminate; injection T' as <-; cbn in I, I'; intuition discriminate.
Qed.

(** The areas of the shapes, as sets of points, are mapped to each other. *)
Definition rect_area (x y w h : Qc) (p : point) : Prop := (x <= fst p /\ fst p <= x + w /\ y <= snd p /\ snd p <= y + h)%Qc.
Definition disc_area (x y r : Qc) (p : point) : Prop :=
  ((fst p - x) * (fst p - x) + (snd p - y) * (snd p - y) <= r * r)%Qc.
Lemma Qcmult_lt_cancel a b k : (q0 < k)%Qc -> (k * a <= k * b)%Qc <-> (a <= b)%Qc.
Proof.
  intros K. split; intros H.
  - destruct (Qc_dec_lt b a) as [L|L]; [exfalso|exact L]. assert (k * b < k * a)%Qc by (unfold q0 in K; qnra). qlra.
  - unfold q0 in K. qnra.
Qed.
Lemma rect_area_moved k e f x y w h p : (q0 < k)%Qc -> rect_area (k * x + e) (k * y + f) (k * w) (k * h) (map_point k e f p) <-> rect_area x y w h p.
Proof.
  intros K. unfold rect_area, map_point. cbn [fst snd].
  rewrite <- (Qcmult_lt_cancel x (fst p) k K), <- (Qcmult_lt_cancel (fst p) (x + w) k K), <- (Qcmult_lt_cancel y (snd p) k K), <- (Qcmult_lt_cancel (snd p) (y + h) k K).
  split; intros (A & B & C & D); repeat split; qlra.
Qed.
Lemma disc_area_moved k e f x y r p : (q0 < k)%Qc -> disc_area (k * x + e) (k * y + f) (k * r) (map_point k e f p) <-> disc_area x y r p.
Proof.
  intros K. unfold disc_area, map_point. cbn [fst snd].
  rewrite <- (Qcmult_lt_cancel _ (r * r) (k * k)) by (unfold q0 in *; qnra).
  match goal with |- (?a <= ?b)%Qc <-> (?c <= ?d)%Qc => replace a with c by ring; replace b with d by ring; reflexivity end.
Qed.
(** C25 for the area of a rect and of a circle. *)
Theorem C25_same_area : forall t t', apply_transform_to_shapes t = Ok t' -> no_nested_shapes t ->
  Forall2 (fun c c' => forall k e f, applicable (fst c) (snd c) k e f ->
    (forall x y w h, tag (snd c) = TEl ERect -> coord (snd c) AX x -> coord (snd c) AY y -> coord (snd c) AWidth w -> coord (snd c) AHeight h ->
       exists x' y' w' h', coord (snd c') AX x' /\ coord (snd c') AY y' /\ coord (snd c') AWidth w' /\ coord (snd c') AHeight h' /\
         forall p, rect_area x' y' w' h' (map_point k e f p) <-> rect_area x y w h p) /\
    (forall x y r, tag (snd c) = TEl ECircle -> coord (snd c) ACx x -> coord (snd c) ACy y -> coord (snd c) AR r ->
       exists x' y' r', coord (snd c') ACx x' /\ coord (snd c') ACy y' /\ coord (snd c') AR r' /\
         forall p, disc_area x' y' r' (map_point k e f p) <-> disc_area x y r p)) (ctx [] t) (ctx [] t').
Proof.
  intros t t' H NN. destruct (C25_same_geometry t t' H NN) as [_ F]. eapply Forall2_impl; [|exact F]. cbn. intros [anc d] [anc' d'] [A _] k e f Ap. cbn [fst snd] in *.
  pose proof Ap as (_ & (K & _) & _). destruct (A k e f Ap) as (_ & _ & (M1 & M2) & _).
  assert (SC : forall a n, In a (sizes d) -> coord d a n -> coord d' a (k * n)%Qc).
  { intros a n Ha Hn. unfold coord in *. rewrite M2 by exact Ha. destruct (d_get d a) as [[| | |l| | | | | | | ]|]; cbn; subst; cbn; auto; change q0 with 0%Qc; apply Qcmult_0_r. }
  split.
  - intros x y w h T Hx Hy Hw Hh. destruct (M1 AX AY x y) as [X Y]; [unfold positions; rewrite T; left; reflexivity|exact Hx|exact Hy|].
    exists (k * x + e)%Qc, (k * y + f)%Qc, (k * w)%Qc, (k * h)%Qc. split; [exact X|]. split; [exact Y|]. split; [apply SC; [unfold sizes; rewrite T; cbn; tauto|assumption]|]. split; [apply SC; [unfold sizes; rewrite T; cbn; tauto|assumption]|]. intros p. now apply rect_area_moved.
  - intros x y r T Hx Hy Hr. destruct (M1 ACx ACy x y) as [X Y]; [unfold positions; rewrite T; left; reflexivity|exact Hx|exact Hy|].
    exists (k * x + e)%Qc, (k * y + f)%Qc, (k * r)%Qc. split; [exact X|]. split; [exact Y|]. split; [apply SC; [unfold sizes; rewrite T; cbn; tauto|assumption]|]. intros p. now apply disc_area_moved.
Qed.
Print Assumptions C25_same_area.

(** * C40, document level *)
Definition is_path (d : ndata) : Prop := tag d = TEl EPath.
Definition path_applicable (o : paths_opts) (anc : list ndata) (d : ndata) (k e f : Qc) : Prop :=
  is_path d /\ pso_transform o = true /\ uniform d ATransform k e f /\ no_references anc d.
Definition carries_markers (d : ndata) : Prop := exists a, In a [AMarker; AMarkerStart; AMarkerMid; AMarkerEnd] /\ d_has d a = true.
(** The data of the path: processed as [process_path] says (see the theorems C37 to C41 on it). *)
Definition path_processed (o : paths_opts) (ts : option (transform * Qc)) (d d' : ndata) : Prop :=
  (forall p, d_get d AD = Some (VPath p) -> exists m p', (m = true <-> carries_markers d) /\ process_path (pso_path o) m ts p = Some p' /\ d_get d' AD = Some (VPath p')) /\
  ((forall p, d_get d AD <> Some (VPath p)) -> d_get d' AD = d_get d AD).
Lemma marker_iff d : has_marker d = true <-> carries_markers d.
Proof. unfold has_marker. rewrite existsb_exists. reflexivity. Qed.
Lemma path_data_ok o m ts d d' : path_data o m ts d = Ok d' ->
  same_node d d' /\ same_except [AD] d d' /\ (forall b, b <> AD -> d_get d' b = d_get d b) /\
  (forall p, d_get d AD = Some (VPath p) -> exists p', process_path (pso_path o) m ts p = Some p' /\ d_get d' AD = Some (VPath p')) /\
  ((forall p, d_get d AD <> Some (VPath p)) -> d_get d' AD = d_get d AD).
Proof.
  unfold path_data. destruct (d_get d AD) as [[| | | | | | | | | |p]|] eqn:G; intros H;
    try (injection H as <-; split; [apply same_node_refl|]; split; [apply same_except_refl|]; split; [reflexivity|]; split; [discriminate|auto]).
  destruct (process_path (pso_path o) m ts p) as [p'|] eqn:E; [|discriminate]. injection H as <-. split; [repeat split|]. split; [apply se_map|]. split; [|split].
  - intros b Hb. apply d_get_map_other. congruence.
  - intros q Hq. injection Hq as <-. exists p'. split; [exact E|]. eapply d_get_map_same. exact G.
  - intros X. exfalso. eapply X. reflexivity.
Qed.
Definition path_applied (o : paths_opts) (k e f : Qc) (anc : list ndata) (d : ndata) (anc' : list ndata) (d' : ndata) : Prop :=
  same_node d d' /\ d_has d' ATransform = false /\ stroke_scaled k anc d anc' d' /\ path_processed o (Some (Tr k q0 q0 k e f, k)) d d' /\
  same_except (ATransform :: AD :: stroke_attrs) d d'.
Lemma path_node_ok o anc d d' : process_path_node o anc d = Ok d' ->
  (exists k e f, path_applicable o anc d k e f /\ path_applied o k e f anc d anc d') \/
  ((forall k e f, ~ path_applicable o anc d k e f) /\ is_path d /\ same_node d d' /\ path_processed o None d d' /\ same_except [AD] d d') \/
  (~ is_path d /\ d' = d).
Proof.
  unfold process_path_node. destruct (is_tag EPath d) eqn:P.
  2: { intros H. right. right. split; [|congruence]. intros T. unfold is_tag in P. rewrite T in P. discriminate. }
  assert (IP : is_path d). { unfold is_tag in P. unfold is_path. destruct (tag d); try discriminate. destruct (eid_eqb_spec e EPath); [congruence|discriminate]. }
  assert (ND : path_data o (has_marker d) None d = Ok d' -> same_node d d' /\ path_processed o None d d' /\ same_except [AD] d d').
  { intros H. apply path_data_ok in H. destruct H as (A & B & _ & C & D). split; [exact A|]. split; [|exact B]. split; [|exact D].
    intros p Hp. destruct (C p Hp) as (p' & X & Y). exists (has_marker d), p'. split; [apply marker_iff|auto]. }
  destruct (pso_transform o) eqn:PT; cbn [andb].
  2: { intros H. right. left. split; [intros k e f (_ & X & _); congruence|]. split; [exact IP|now apply ND]. }
  rewrite d_has_get. destruct (d_get d ATransform) as [v|] eqn:G.
  2: { intros H. right. left. split; [intros k e f (_ & _ & (_ & U) & _); congruence|]. split; [exact IP|now apply ND]. }
  destruct v as [| | | | | | | | |t| ]; try discriminate. destruct (valid_ts t) eqn:V1; cbn [andb].
  2: { intros H. right. left. split; [|split; [exact IP|now apply ND]]. intros k e f (_ & _ & (K & U) & _). rewrite G in U. injection U as ->.
       assert (X : valid_ts (Tr k q0 q0 k e f) = true) by (apply valid_ts_iff; eauto). congruence. }
  destruct (valid_attrs anc d) eqn:V2.
  2: { intros H. right. left. split; [|split; [exact IP|now apply ND]]. intros k e f (_ & _ & _ & R). apply valid_attrs_iff in R. congruence. }
  intros H. left. apply valid_ts_iff in V1. destruct V1 as (k & e & f & K & ->). exists k, e, f.
  split; [repeat split; auto; now apply valid_attrs_iff|].
  set (t := Tr k q0 q0 k e f) in *. set (d1 := d_rm d ATransform) in *. set (d2 := if has_scale t then recalc_stroke (scale_of t) anc d1 else d1) in *.
  assert (X : same_node d d2 /\ same_except (ATransform :: stroke_attrs) d d2 /\ stroke_scaled k anc d anc d2 /\ (forall b, ~ In b stroke_attrs -> d_get d2 b = d_get d1 b)).
  { assert (G1 : forall b, In b stroke_attrs -> d_get d1 b = d_get d b). { intros b Hb. apply d_get_rm_other. intros <-. cbn in Hb. intuition discriminate. }
    unfold d2. destruct (has_scale t) eqn:HS.
    - destruct (recalc_node (scale_of t) anc d1) as [N2 E2]. split; [exact N2|]. split; [|split].
      + eapply same_except_trans; [eapply same_except_weaken; [|apply se_rm]|eapply same_except_weaken; [|exact E2]]; intros z Hz; cbn in *; tauto.
      + destruct (recalc_scaled (scale_of t) anc d1) as [R1 R2]. split.
        * intros a Ha. rewrite R1 by exact Ha. f_equal. apply computed_ext, G1. cbn in *; tauto.
        * rewrite R2. f_equal. apply computed_ext, G1. cbn; tauto.
      + intros b Hb. now apply recalc_get.
    - apply has_scale_false in HS. cbn in HS. split; [apply sn_with|]. split; [|split; [|reflexivity]].
      + eapply same_except_weaken; [|apply se_rm]. intros z [<-|[]]. left. reflexivity.
      + rewrite HS. split.
        * intros a Ha. rewrite (computed_ext _ _ d d1) by (apply G1; cbn in *; tauto). destruct (computed stroke_default anc d a); cbn; [now rewrite scaled_len_1|reflexivity].
        * rewrite (computed_ext _ _ d d1) by (apply G1; cbn in *; tauto). destruct (computed stroke_default anc d AStrokeDasharray); cbn; [now rewrite scaled_list_1|reflexivity]. }
  destruct X as (N2 & E2 & S2 & G2). apply path_data_ok in H. destruct H as (N3 & E3 & G3 & C & D).
  assert (GD : d_get d2 AD = d_get d AD). { rewrite G2 by (cbn; intuition discriminate). apply d_get_rm_other. discriminate. }
  split; [eapply same_node_trans; eauto|]. split; [|split; [|split]].
  - rewrite d_has_get, G3 by discriminate. rewrite G2 by (cbn; intuition discriminate). unfold d1. now rewrite d_get_rm_same.
  - destruct S2 as [S2a S2b]. split.
    + intros a Ha. rewrite (computed_ext _ _ d2 d') by (apply G3; cbn in Ha; intros ->; intuition discriminate). now apply S2a.
    + rewrite (computed_ext _ _ d2 d') by (apply G3; discriminate). exact S2b.
  - split.
    + intros p Hp. rewrite <- GD in Hp. destruct (C p Hp) as (p' & X & Y). exists (has_marker d), p'. split; [apply marker_iff|auto].
    + intros X. rewrite <- GD in X. rewrite <- GD. now apply D.
  - eapply same_except_trans; [eapply same_except_weaken; [|exact E2]|eapply same_except_weaken; [|exact E3]]; intros z Hz; cbn in *; tauto.
Qed.
Lemma path_node_key o anc d d' : process_path_node o anc d = Ok d' -> key d' = key d.
Proof. intros H. apply path_node_ok in H. destruct H as [(k & e & f & _ & (N & _) & _)|[(_ & _ & (N & _) & _)|[_ ->]]]; auto. Qed.
Definition no_nested_paths (t : tree) : Prop := forall c x, In c (ctx [] t) -> is_path (snd c) -> In x (fst c) -> ~ is_path x.
(** C40. Every path element: its transform is applied to the path data and to the stroke, or it is kept
    and only the path data are processed; nothing else changes. *)
Theorem C40_process_paths : forall o t t', process_paths o t = Ok t' -> no_nested_paths t ->
  skeleton t' = skeleton t /\
  Forall2 (fun c c' =>
     (forall k e f, path_applicable o (fst c) (snd c) k e f -> path_applied o k e f (fst c) (snd c) (fst c') (snd c')) /\
     (is_path (snd c) -> (forall k e f, ~ path_applicable o (fst c) (snd c) k e f) ->
        same_node (snd c) (snd c') /\ path_processed o None (snd c) (snd c') /\ same_except [AD] (snd c) (snd c')) /\
     (~ is_path (snd c) -> snd c' = snd c)) (ctx [] t) (ctx [] t').
Proof.
  intros o t t' H NN. destruct (apass_ok _ (path_node_key o) t [] [] t' (Forall2_nil _) H) as [S F]. split; [exact S|].
  eapply Forall2_impl; [|exact (Forall2_with_in _ _ _ F)]. cbn. intros [anc d] [anc' d'] (Hin & V & A). cbn [fst snd] in *.
  assert (K : is_path d -> anc' = anc).
  { intros Sd. assert (NS : forall x, In x anc -> ~ is_path x) by (intros x Hx; exact (NN (anc, d) x Hin Sd Hx)).
    clear - A NS. induction A as [|x y l m (a & Hx) A IH]; [reflexivity|]. f_equal.
    - apply path_node_ok in Hx. destruct Hx as [(k & e & f & (Sx & _) & _)|[(_ & Sx & _)|[_ E]]]; [| |exact E]; exfalso; apply (NS x); (left; reflexivity) || exact Sx.
    - apply IH. intros z Hz. apply NS. right. exact Hz. }
  apply path_node_ok in V. split; [|split].
  - intros k e f Ap. pose proof Ap as (Sd & _ & U & _). specialize (K Sd). subst anc'. destruct V as [(k' & e' & f' & Ap' & V)|[(V & _)|[V _]]]; [|exfalso; exact (V _ _ _ Ap)|exfalso; exact (V Sd)].
    destruct U as [_ U]. destruct Ap' as (_ & _ & [_ U'] & _). rewrite U in U'. assert (E1 : k' = k /\ e' = e /\ f' = f) by (split; [|split]; congruence). destruct E1 as (-> & -> & ->). exact V.
  - intros Sd N. specialize (K Sd). subst anc'. destruct V as [(k & e & f & Ap & _)|[(_ & _ & V)|[V _]]]; [exfalso; exact (N _ _ _ Ap)|exact V|contradiction].
  - intros N. destruct V as [(k & e & f & (Sd & _) & _)|[(_ & Sd & _)|[_ V]]]; [contradiction|contradiction|exact V].
Qed.
Print Assumptions C40_process_paths.
Example C40_document_instance : exists t', process_paths (PSO (PO false false) true)
    (doc [el 1 ESvg [] [el 2 EPath [at_ AD (VPath [Seg true (MoveTo q1 q1); Seg true (LineTo (zq 3) (zq 4))]); at_ ATransform (VTransform (Tr (zq 2) q0 q0 (zq 2) q0 q0))] []]]) = Ok t' /\
  map (fun d => (d_has d ATransform, d_has d AStrokeWidth)) (flat t') = [(false, false); (false, false); (false, true)].
Proof. eexists. split; vm_compute; reflexivity. Qed.
