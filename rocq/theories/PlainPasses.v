(** Documents without references: the passes that change nodes in place. *)
From Coq Require Import List Bool NArith Arith ZArith String Lia QArith Qcanon.
From Verif Require Paths Props_paths.
From Verif Require Import Names Num Value Dom DomFacts DomOps Outcome DomRemove SpecDom SpecPath Stops Shapes NPass APass VLoop Transforms Links Inherit Round RmDefault UnusedCoords RmText Needless TasksSimple WfAll PlainTree.
Import ListNotations.
Local Open Scope nat_scope.

Definition guarded (ks : nat) (kd : option nat) : list nat := ks :: match kd with Some k => [k] | None => [] end.
Record Inv (b : bool) (N : list nat) (ks : nat) (kd : option nat) (t : tree) : Prop := {
  i_keys : NoDup (keys t);
  i_nodes : forall d, In d (flat t) -> okn b N d;
  i_groups : forall s c, In s (subs t) -> is_tag EG (data s) = true -> In c (kids s) -> is_svg_el (data c) = true;
  i_svg : exists s, svg_element t = Some s /\ root_key s = ks /\ d_has (data s) ADisplay = false /\
    forall k, kd = Some k -> exists c, In c (kids s) /\ root_key c = k /\ is_tag EDefs (data c) = true /\ d_has (data c) ADisplay = false
}.
Lemma Inv_shr b N ks kd t t' : Inv b N ks kd t -> shr b (guarded ks kd) t t' -> Inv b N ks kd t'.
Proof.
  intros [F O G (s & Es & Ks & Ds & C)] S. split; [exact (shr_nodup _ _ _ _ S F)|exact (okn_shr b N _ t t' O S)| |].
  - intros s' c' Hs T1 Hc. destruct (shr_subs _ _ _ _ _ S Hs) as (x & Hx & Sx). destruct (shr_kids _ _ _ _ _ Sx Hc) as (c & Hc0 & Sc). rewrite (tag_rel_el _ _ (R_tag _ _ _ (shr_data _ _ _ _ Sc))). apply (G x c Hx); [|exact Hc0].
    now rewrite <- (tag_rel_is EG _ _ (or_introl eq_refl) (R_tag _ _ _ (shr_data _ _ _ _ Sx))).
  - destruct (shr_svg _ _ _ _ _ S Es) as (s' & Es' & Ss); [left; now symmetry|]. exists s'. split; [exact Es'|]. split; [rewrite (shr_root _ _ _ _ Ss); exact Ks|]. split; [apply (R_has _ _ _ ADisplay (shr_data _ _ _ _ Ss)); [now left|exact Ds]|].
    intros k Ek. destruct (C k Ek) as (c & Hc & Kc & Tc & Dc). destruct (shr_kid _ _ _ _ _ Ss Hc) as (c' & Hc' & Sc); [right; rewrite Ek; left; now symmetry|]. exists c'. split; [exact Hc'|]. split; [rewrite (shr_root _ _ _ _ Sc); exact Kc|]. split.
    + rewrite (tag_rel_is EDefs _ _ (or_intror (or_intror eq_refl)) (R_tag _ _ _ (shr_data _ _ _ _ Sc))). exact Tc.
    + apply (R_has _ _ _ ADisplay (shr_data _ _ _ _ Sc)); [now left|exact Dc].
Qed.
Lemma Inv_drop b N ks kd t : Inv b N ks kd t -> Inv b N ks None t.
Proof. intros [F O G (s & Es & Ks & Ds & _)]. split; auto. exists s. repeat split; auto. discriminate. Qed.
Lemma okn_weak N d : okn true N d -> okn false N d.
Proof.
  intros [A Q T1 I]. split; auto. intros x Hx. destruct (A x Hx) as [L Ty]. split; [exact L|]. destruct (a_name x) as [a|s]; [|exact Logic.I]. destruct a; cbn in *; auto; discriminate.
Qed.
Lemma Inv_weak N ks kd t : Inv true N ks kd t -> Inv false N ks kd t.
Proof. intros [F O G S]. split; auto. intros d Hd. apply okn_weak. auto. Qed.
Lemma svg_some b N ks kd t : Inv b N ks kd t -> exists s, svg_element t = Some s.
Proof. intros [_ _ _ (s & E & _)]. eauto. Qed.

Ltac R_go :=
  lazymatch goal with
  | H : R ?b ?d ?x |- R ?b ?d ?x => exact H
  | |- R _ _ (d_rm ?x _) => apply R_rm; R_go
  | |- R _ _ (d_set ?x _ _) => apply R_set; [R_go|try reflexivity|try exact Logic.I|try (intros [X|X]; discriminate X)]
  | |- R _ _ (d_set_hidden ?x _ _) => apply R_set_hidden; [R_go|try reflexivity|try exact Logic.I|try (intros [X|X]; discriminate X)]
  | |- R _ _ (map_value ?x _ _) => apply R_map_value; [R_go|try reflexivity|try exact Logic.I]
  | |- R _ _ (match ?x with _ => _ end) => destruct x eqn:?; R_go
  | O : okn _ _ ?d |- R _ ?d ?d => exact (R_refl _ O)
  | _ => idtac
  end.
Section P.
Variables (b : bool) (N : list nat) (K : list nat).
Notation okn := (okn b N). Notation R := (R b). Notation shr := (shr b K).
Definition okt (t : tree) : Prop := forall d, In d (flat t) -> okn d.

Lemma ok_get d a v : okn d -> d_get d a = Some v -> good b (At (AN a) v true).
Proof.
  intros O E. unfold d_get, get_value in E. destruct (get_attr (attrs d) a) as [x|] eqn:X; [|discriminate]. injection E as <-. apply get_attr_some in X. destruct X as [Hx Ex]. destruct (ok_attrs _ _ _ O x Hx) as [L Ty]. rewrite Ex in Ty. now split.
Qed.
(** resolve_inherit *)
Definition free (a : aid) : Prop := a <> ATransform /\ a <> AOpacity /\ a <> APoints /\ (b = true -> a <> AD).
Lemma free_typed a v : free a -> typed b (AN a) v.
Proof. intros (A & B & C & D). destruct a; cbn; try exact Logic.I; try congruence. intros E. now specialize (D E). Qed.
Lemma keyword_free k d a : okn d -> In a (keyword_attrs k d) -> free a /\ d_has d a = true.
Proof.
  intros O H. unfold keyword_attrs in H. apply in_flat_map in H. destruct H as (x & Hx & H). destruct (a_name x) as [n|n] eqn:En; [|destruct H]. destruct (a_val x) as [| | | | | | | | | |] eqn:Ev; try (destruct H; fail). destruct (vid_eqb v k); [|destruct H]. destruct H as [<-|[]].
  split; [|apply in_has; rewrite <- En; now apply in_map]. destruct (ok_attrs _ _ _ O x Hx) as [_ Ty]. rewrite En, Ev in Ty. split; [|split; [|split]].
  - intros ->. destruct Ty as (? & X). discriminate X.
  - intros ->. destruct Ty as (? & X). discriminate X.
  - intros ->. destruct Ty as (? & X & _). discriminate X.
  - intros Eb ->. destruct (Ty Eb) as (? & X & _). discriminate X.
Qed.
Lemma impl_R anc d a par x x' : Forall okn anc -> R d x -> free a -> (special (AN a) -> d_has x a = true) -> resolve_impl anc a par x = Ok x' -> R d x'.
Proof.
  intros Ha Rx Fa Sp. unfold resolve_impl. destruct (find _ anc) as [n|] eqn:E; [|discriminate]. destruct (d_get n par) as [v|] eqn:G; intros X; injection X as <-; [|exact Rx].
  apply find_some in E. destruct E as [Hn _]. destruct (ok_get n par v (proj1 (Forall_forall _ _) Ha n Hn) G) as [L _]. apply R_set; [exact Rx|exact L|now apply free_typed|exact Sp].
Qed.
Lemma set_has d a v c : d_has d c = true -> d_has (d_set d a v) c = true.
Proof.
  intros H. apply in_has. apply in_has in H. unfold d_set. cbn. revert H. induction (attrs d) as [|x l IH]; cbn; [intros []|]. destruct (has_name (AN a) x) eqn:E; cbn; [|intros [X|X]; auto].
  intros [X|X]; [left|now right]. apply has_name_true in E. cbn. congruence.
Qed.
Lemma each_R d f l : (forall a x x', In a l -> R d x -> f a x = Ok x' -> R d x' /\ forall c, d_has x c = true -> d_has x' c = true) ->
  forall x x', R d x -> each f l x = Ok x' -> R d x' /\ forall c, d_has x c = true -> d_has x' c = true.
Proof.
  induction l as [|a l IH]; intros H x x' Rx E; cbn in E; [injection E as <-; auto|]. apply bind_ok in E. destruct E as (y & E1 & E2). destruct (H a x y (or_introl eq_refl) Rx E1) as [Ry Hy]. destruct (IH (fun c z z' Hc => H c z z' (or_intror Hc)) y x' Ry E2) as [A B]. split; auto.
Qed.
Lemma inherit_R anc d d' : Forall okn anc -> okn d -> inherit_node anc d = Ok d' -> R d d'.
Proof.
  intros Ha O E. unfold inherit_node in E. destruct (is_svg_el d); [|injection E as <-; now apply (R_refl _ O)]. apply bind_ok in E. destruct E as (d1 & E1 & E2).
  assert (St : forall k f, (forall a x x', f a x = Ok x' -> x' = x \/ exists v, x' = d_set x a v) -> (forall a x x', R d x -> free a -> (special (AN a) -> d_has x a = true) -> f a x = Ok x' -> R d x') ->
    forall x x', R d x -> (forall c, d_has d c = true -> d_has x c = true) -> each f (keyword_attrs k d) x = Ok x' -> R d x' /\ forall c, d_has d c = true -> d_has x' c = true).
  { intros k f H1 H2. assert (H3 : forall a, In a (keyword_attrs k d) -> free a /\ d_has d a = true) by (intros a; now apply keyword_free). revert H3. generalize (keyword_attrs k d) as l. induction l as [|a l IH]; intros H3 x x' Rx Hx E; cbn in E; [injection E as <-; auto|].
    apply bind_ok in E. destruct E as (y & Ey & E). destruct (H3 a (or_introl eq_refl)) as [Fa Da]. apply (IH (fun c Hc => H3 c (or_intror Hc)) y x'); [| |exact E].
    - apply (H2 a x y); auto.
    - intros c Hc. destruct (H1 a x y Ey) as [-> |(v & ->)]; auto. apply set_has. auto. }
  assert (I1 : forall p a x x', resolve_impl anc a p x = Ok x' -> x' = x \/ exists v, x' = d_set x a v).
  { intros p a x x'. unfold resolve_impl. destruct (find _ anc) as [n|]; [destruct (d_get n p)|]; intros X; inversion X; eauto. }
  destruct (St _ _ (fun a => I1 a a) (fun a x x' Rx Fa Sp => impl_R anc d a a x x' Ha Rx Fa Sp) d d1 (R_refl _ O) (fun c H => H) E1) as [R1 H1].
  refine (proj1 (St _ _ _ _ d1 d' R1 H1 E2)).
  - intros a x x'. unfold resolve_color. destruct (d_get x AColor); [intros X; injection X as <-; eauto|]. apply I1.
  - intros a x x' Rx Fa Sp. unfold resolve_color. destruct (d_get x AColor) as [v|] eqn:G; [|now apply impl_R]. intros X. injection X as <-. assert (Ox : okn x) by (exact (R_okn _ _ _ _ Rx O)). apply R_set; auto; [|now apply free_typed]. now destruct (ok_get x AColor v Ox G).
Qed.
Lemma inherit_no_panic anc d : inherit_node anc d <> Panic.
Proof.
  unfold inherit_node. destruct (is_svg_el d); [|discriminate].
  assert (E : forall f l x, (forall a x, f a x <> Panic) -> each f l x <> Panic). { intros f l. induction l as [|a l IH]; intros x H; cbn; [discriminate|]. pose proof (H a x). destruct (f a x); cbn; try discriminate; [now apply IH|contradiction]. }
  assert (I : forall anc a p x, resolve_impl anc a p x <> Panic). { clear. intros anc a p x. unfold resolve_impl. destruct (find _ _) as [n|]; [destruct (d_get n p)|]; discriminate. }
  pose proof (E (fun a => resolve_impl anc a a) (keyword_attrs Vid_inherit d) d (fun a x => I anc a a x)) as P. destruct (each _ _ _); cbn; try discriminate; [|contradiction].
  apply E. intros ? x. unfold resolve_color. destruct (d_get x AColor); [discriminate|apply I].
Qed.
Lemma apass_no_panic f : forall t anc, (forall a d, In d (flat t) -> f a d <> Panic) -> apass f anc t <> Panic.
Proof.
  induction t as [d ch IH] using tree_ind'. intros anc H. rewrite apass_T. pose proof (H anc d (or_introl eq_refl)). destruct (f anc d) as [d'|e|]; cbn [bind]; try discriminate; [|contradiction].
  assert (P : aforest f (d' :: anc) ch <> Panic). { assert (H' : forall a x, In x (flat_map flat ch) -> f a x <> Panic) by (intros a x Hx; apply H; now right). clear - IH H'. induction IH as [|c ch Hc _ IH2]; [discriminate|]. rewrite aforest_cons.
    pose proof (Hc (d' :: anc) (fun a x Hx => H' a x (in_or_app _ _ _ (or_introl Hx)))). destruct (apass f (d' :: anc) c); cbn; try discriminate; [|contradiction]. specialize (IH2 (fun a x Hx => H' a x (in_or_app _ _ _ (or_intror Hx)))). destruct (aforest f (d' :: anc) ch); cbn; try discriminate. contradiction. }
  destruct (aforest f (d' :: anc) ch); cbn; try discriminate. contradiction.
Qed.
Lemma put_ok_plain t d x : link_of (a_val x) = None -> put_ok t d x = true.
Proof. unfold put_ok. now intros ->. Qed.
Lemma plain_inherit t : okt t -> resolve_inherit t <> Panic /\ forall t', resolve_inherit t = Ok t' -> shr t t'.
Proof.
  intros O. unfold resolve_inherit. pose proof (apass_no_panic inherit_node t [] (fun a d _ => inherit_no_panic a d)) as P. destruct (apass inherit_node [] t) as [u|e|] eqn:E; cbn [bind]; [|split; [discriminate|intros ? X; discriminate X]|contradiction].
  pose proof (shr_apass (b := b) (N := N) (K := K) inherit_node inherit_R t [] u (Forall_nil _) O E) as S.
  assert (L : links_allowed t u = true). { apply forallb_forall. intros d' Hd'. destruct (find_data (key d') t) as [d|]; [|reflexivity]. apply forallb_forall. intros x Hx. apply orb_true_iff. right. apply put_ok_plain. apply (ok_attrs _ _ _ (okn_shr _ _ _ _ _ O S d' Hd') x Hx). }
  rewrite L. split; [discriminate|]. intros t' X. injection X as <-. exact S.
Qed.

(** fix_invalid_attributes *)
Lemma fix_len_R d x a : a <> APoints -> a <> AOpacity -> a <> ATransform -> a <> AD -> a <> ADisplay -> R d x -> R d (fix_len x a).
Proof.
  intros A1 A2 A3 A4 A5 Rx. assert (S : R d (d_set x a (number q0))). { apply R_set; [exact Rx|reflexivity|apply free_typed; repeat split; auto|]. intros [X|X]; congruence. }
  unfold fix_len. destruct (d_has x a); [destruct (negative _)|]; auto.
Qed.
Lemma rm_neg_R d x a : R d x -> R d (rm_negative_len x a).
Proof. intros Rx. unfold rm_negative_len. destruct (negative _); [now apply R_rm|exact Rx]. Qed.
Lemma fix_rect_R d x : R d x -> R d (fix_rect_attributes x).
Proof. intros Rx. unfold fix_rect_attributes. apply rm_neg_R, rm_neg_R. repeat (apply fix_len_R; [discriminate..|]). exact Rx. Qed.
Lemma fix_poly_R d : okn d -> fix_poly_attributes d = d.
Proof.
  intros O. unfold fix_poly_attributes. destruct (d_get d APoints) as [[]|] eqn:E; try reflexivity. destruct (ok_get _ _ _ O E) as [_ (l0 & X & Ne & Ev)]. cbn in X. injection X as ->.
  assert (Od : Nat.odd (List.length l0) = false) by (unfold Nat.odd; now rewrite Ev). rewrite Od. now destruct l0.
Qed.
Lemma F2_refl l : Forall okn l -> Forall2 R l l.
Proof. intros H. induction H as [|x l Hx H IH]; constructor; auto. exact (R_refl _ Hx). Qed.
Lemma kpass_no_panic f t : (forall d l, okn d -> Forall okn l -> f d l <> Panic) -> (forall d l r, okn d -> Forall okn l -> f d l = Ok r -> R d (fst r) /\ Forall2 R l (snd r)) -> okt t -> kpass f t <> Panic.
Proof.
  intros H1 H2 O. unfold kpass.
  assert (G : forall s d, okn d -> (forall x, In x (flat_map flat (kids s)) -> okn x) -> kmap f d s <> Panic).
  { induction s as [d0 ch IH] using tree_ind'. intros d Od Ol. cbn [kids] in Ol. rewrite kmap_T.
    assert (Om : Forall okn (map data ch)). { apply Forall_forall. intros x Hx. apply in_map_iff in Hx. destruct Hx as (c & <- & Hc). apply Ol. apply in_flat_map. exists c. split; [exact Hc|destruct c; now left]. }
    pose proof (H1 _ _ Od Om) as P. destruct (f d (map data ch)) as [r|e|] eqn:Er; cbn [bind]; try discriminate; [|contradiction]. destruct (H2 _ _ _ Od Om Er) as [_ H3].
    assert (Q : kforest f (snd r) ch <> Panic).
    { clear Er P. revert H3 Om. generalize (snd r). clear r Od. induction IH as [|c ch Hc F IH2]; intros ds H3 Om; inversion H3 as [|? d1 ? ds' X1 X2]; subst; [discriminate|]. inversion Om as [|? ? Oc Or]; subst. cbn. fold (kforest f).
      assert (Q1 : kmap f d1 c <> Panic). { apply Hc; [exact (R_okn _ _ _ _ X1 Oc)|]. intros x Hx. apply Ol. cbn. apply in_or_app. left. destruct c. now right. }
      destruct (kmap f d1 c); cbn; try discriminate; [|contradiction]. assert (Q2 : kforest f ds' ch <> Panic). { apply IH2; auto. intros x Hx. apply Ol. cbn. apply in_or_app. now right. } destruct (kforest f ds' ch); cbn; try discriminate. contradiction. }
    destruct (kforest f (snd r) ch); cbn; try discriminate. contradiction. }
  apply G; [apply O; destruct t; now left|]. intros x Hx. apply O. destruct t. now right.
Qed.
Lemma fix_visit_R d l r : okn d -> Forall okn l -> fix_visit d l = Ok r -> R d (fst r) /\ Forall2 R l (snd r).
Proof.
  intros O Ol. pose proof (R_refl _ O) as R0. pose proof (F2_refl l Ol) as R1. pose proof (ok_quiet _ _ _ O) as (Q1 & Q2 & _). unfold fix_visit. destruct (tag d) as [|e| | | |]; try (intros X; injection X as <-; now split).
  destruct e; try congruence; try (intros X; injection X as <-; split; [cbn [fst]|exact R1]; auto using fix_rect_R); rewrite (fix_poly_R d O); auto.
Qed.
Lemma fix_visit_total d l : okn d -> fix_visit d l <> Panic.
Proof.
  intros O. pose proof (ok_quiet _ _ _ O) as (Q1 & Q2 & _). unfold fix_visit. destruct (tag d) as [|e| | | |]; try discriminate. destruct e; try congruence; discriminate.
Qed.
Lemma plain_fix t : okt t -> fix_invalid_attributes t <> Panic /\ forall t', fix_invalid_attributes t = Ok t' -> shr t t'.
Proof.
  intros O. unfold fix_invalid_attributes. pose proof (kpass_no_panic fix_visit t (fun d l H _ => fix_visit_total d l H) fix_visit_R O) as P. destruct (kpass fix_visit t) as [u|e|] eqn:E; cbn [bind]; [|split; [discriminate|intros ? X; discriminate X]|contradiction].
  split; [discriminate|]. intros t' X. injection X as <-. pose proof (shr_kpass (K := K) fix_visit t u fix_visit_R O E) as S. apply (shr_trans _ _ _ _ _ S). apply shr_tmap. intros d Hd. pose proof (okn_shr _ _ _ _ _ O S d Hd). destruct (d_has d AMarker); R_go.
Qed.
(** round_numbers *)
Lemma round_value_link o a v : link_of v = None -> link_of (round_value o a v) = None.
Proof.
  intros H. unfold round_value. destruct (is_coord_attr a); [destruct v; auto|]. destruct (is_prop_attr a); [destruct v; auto|]. destruct (is_ts_attr a); [destruct v; auto|]. destruct (aid_eqb a AD); [destruct v; auto|]. destruct (_ || _); [destruct v; auto|auto].
Qed.
Lemma round_good o x : good b x -> good b (round_attr o x).
Proof.
  intros [L Ty]. unfold round_attr. destruct (a_name x) as [a|n] eqn:E; [|split; [exact L|rewrite E; exact Logic.I]]. split; cbn; [now apply round_value_link|]. destruct a; try exact Logic.I; cbn in Ty |- *.
  all: try (destruct Ty as (m & ->); cbn; eexists; reflexivity).
  - intros Eb. destruct (Ty Eb) as (p & -> & M). cbn. eexists. split; [reflexivity|]. destruct p as [|s p]; [exact Logic.I|]. destruct M as (y & z & M). cbn. rewrite M. cbn. eauto.
  - destruct Ty as (l & -> & Ne & Ev). cbn. eexists. split; [reflexivity|]. split; [now destruct l|]. now rewrite map_length.
Qed.
Lemma plain_round o t : okt t -> shr t (round_numbers o t).
Proof.
  intros O. apply shr_tmap. intros d Hd. pose proof (R_refl _ (O d Hd)) as R0. destruct (is_svg_el d); [|exact R0]. apply R_map; [exact R0| |].
  - intros y _. unfold round_attr. destruct (a_name y) eqn:E; cbn; auto.
  - intros y _. apply round_good.
Qed.
(** shapes *)
Lemma tcoords_R d x ax ay m : free ax -> free ay -> ax <> ADisplay -> ay <> ADisplay -> R d x -> R d (transform_coords ax ay m x).
Proof.
  intros Fx Fy Dx Dy Rx. unfold transform_coords. apply R_set; [apply R_set; [exact Rx|reflexivity|now apply free_typed|]|reflexivity|now apply free_typed|]; intros [X|X]; try congruence; [destruct Fx|destruct Fy]; congruence.
Qed.
Lemma scale_R d x a k : free a -> R d x -> R d (scale_coord a k x).
Proof. intros F Rx. unfold scale_coord. destruct (d_get x a) as [[]|]; auto. apply R_map_value; [exact Rx|reflexivity|now apply free_typed]. Qed.
Lemma scales_R d x l m : Forall free l -> R d x -> R d (scale_coords l m x).
Proof. intros F Rx. unfold scale_coords. destruct (has_scale m); [|exact Rx]. revert x Rx. induction F as [|a l Fa F IH]; intros x Rx; cbn; [exact Rx|]. apply IH. now apply scale_R. Qed.
Lemma recalc_num_R d x a k anc : free a -> a <> ADisplay -> R d x -> R d (recalc_num a k anc x).
Proof.
  intros F D Rx. unfold recalc_num. destruct (if d_has x a then _ else _) as [[]|]; auto. destruct (qeqb _ _); [exact Rx|]. apply R_set; [exact Rx|reflexivity|now apply free_typed|]. intros [X|X]; [congruence|]. destruct F. congruence.
Qed.
Ltac fr := repeat split; discriminate.
Lemma recalc_R d x k anc : R d x -> R d (recalc_stroke k anc x).
Proof.
  intros Rx. unfold recalc_stroke. apply recalc_num_R; [fr|discriminate|]. assert (R1 : R d (recalc_num AStrokeWidth k anc x)) by (apply recalc_num_R; [fr|discriminate|exact Rx]).
  unfold recalc_dasharray. destruct (if d_has _ _ then _ else _) as [[]|]; auto. R_go.
Qed.
Lemma shape_R anc d d' : Forall okn anc -> okn d -> apply_shape anc d = Ok d' -> R d d'.
Proof.
  intros _ O. pose proof (R_refl _ O) as R0. unfold apply_shape. destruct (d_has d ATransform); [|intros X; injection X as <-; exact R0].
  assert (P : forall e, Transforms.process_shape e anc d = Ok d' -> (forall m, R d (shape_coords e m d)) -> R d d').
  { intros e. unfold Transforms.process_shape. destruct (d_get d ATransform) as [[]|]; try discriminate. destruct (_ || _); intros X H; injection X as <-; [exact R0|]. destruct (has_scale _); [apply recalc_R|]; apply R_rm, H. }
  destruct (tag d) as [|e| | | |]; try discriminate. destruct e; try (intros X; injection X as <-; exact R0); intros X; apply (P _ X); intros m; cbn [shape_coords].
  all: try apply scales_R; try (repeat constructor; fr); repeat (apply tcoords_R; [fr|fr|discriminate|discriminate|]); exact R0.
Qed.
Lemma apply_shape_total anc d : okn d -> apply_shape anc d <> Panic.
Proof.
  intros O. unfold apply_shape. destruct (d_has d ATransform) eqn:H; [|discriminate]. pose proof (ok_trans _ _ _ O H) as El.
  assert (P : forall e, Transforms.process_shape e anc d <> Panic).
  { intros e. unfold Transforms.process_shape. unfold d_has, has_attr in H. destruct (get_attr (attrs d) ATransform) as [x|] eqn:G; [|discriminate]. assert (E : d_get d ATransform = Some (a_val x)) by (unfold d_get, get_value; now rewrite G). rewrite E. destruct (ok_get _ _ _ O E) as [_ (m & X)]. cbn in X. rewrite X. destruct (_ || _); discriminate. }
  unfold is_svg_el in El. destruct (tag d) as [|e| | | |]; try discriminate. destruct e; try discriminate; apply P.
Qed.
Lemma plain_shapes t : okt t -> apply_transform_to_shapes t <> Panic /\ forall t', apply_transform_to_shapes t = Ok t' -> shr t t'.
Proof.
  intros O. split; [apply apass_no_panic; intros a d Hd; apply apply_shape_total; auto|]. intros t' E. exact (shr_apass (b := b) (N := N) (K := K) apply_shape shape_R t [] t' (Forall_nil _) O E).
Qed.

(** convert_shapes_to_paths *)
Lemma points_from_ok : forall n l, List.length l = n -> Nat.even n = true -> forall f, exists p, points_from f l = Ok p /\ (f = true -> l <> [] -> exists s q x y, p = s :: q /\ sdata s = MoveTo x y).
Proof.
  induction n as [n IH] using (well_founded_induction lt_wf). intros l E Ev f. destruct l as [|x [|y l]]; cbn in E; subst n; [exists []; split; [reflexivity|congruence]|discriminate|].
  destruct (IH (List.length l)) with (l := l) (f := false) as (p & Hp & _); [lia|reflexivity|exact Ev|]. cbn [points_from]. rewrite Hp. cbn [bind]. eexists. split; [reflexivity|]. intros -> _. cbn. exists (Seg true (MoveTo x y)), p, x, y. split; reflexivity.
Qed.
Lemma poly_ok d c : okn d -> (tag d = TEl EPolyline \/ tag d = TEl EPolygon) -> exists d', convert_poly c d = Ok d' /\ R d d'.
Proof.
  intros O Tg. pose proof (R_refl _ O) as R0. unfold convert_poly, points_to_path. destruct (d_get d APoints) as [v|] eqn:G; [|eauto]. destruct (ok_get _ _ _ O G) as [_ (l & X & Ne & Ev)]. cbn in X. subst v.
  destruct (points_from_ok _ l eq_refl Ev true) as (p & Hp & Sh). rewrite Hp. cbn [bind]. eexists. split; [reflexivity|]. destruct (Sh eq_refl Ne) as (s & q & x & y & -> & M).
  apply R_rm, R_set; [|reflexivity| |intros [X|X]; discriminate X].
  - apply R_retag; [exact R0|]. destruct Tg as [-> | ->]; eexists; (split; [reflexivity|repeat split; discriminate]).
  - cbn. intros _. eexists. split; [reflexivity|]. destruct c; cbn; eauto.
Qed.
Lemma retag_free d e p l : okn d -> tag d = TEl e -> e <> EG -> e <> ESvg -> e <> EDefs -> starts_with_move p -> R d (d_rm_list (with_tag (d_set d AD (VPath p)) (TEl EPath)) l).
Proof.
  intros O Tg A B C M. pose proof (R_refl _ O) as R0. apply R_rm_list. apply R_retag; [|exists e; cbn; auto]. apply R_set; [exact R0|reflexivity| |intros [X|X]; discriminate X]. cbn. eauto.
Qed.
Lemma convert_ok d : okn d -> exists d', convert_shape d = Ok d' /\ R d d'.
Proof.
  intros O. pose proof (R_refl _ O) as R0. unfold convert_shape. destruct (tag d) as [|e| | | |] eqn:Tg; eauto. destruct e; eauto using poly_ok.
  - eexists. split; [reflexivity|]. unfold convert_line. destruct (negb _); [exact R0|]. apply (retag_free d ELine); auto; try discriminate. cbn. eauto.
  - eexists. split; [reflexivity|]. unfold convert_rect. destruct (_ || _); [exact R0|]. destruct (_ || _); [exact R0|]. destruct (negb _); [exact R0|]. apply (retag_free d ERect); auto; try discriminate. cbn. eauto.
Qed.
Lemma plain_convert t : okt t -> convert_shapes_to_paths t <> Panic /\ forall t', convert_shapes_to_paths t = Ok t' -> shr t t'.
Proof.
  intros O. unfold convert_shapes_to_paths, npass.
  assert (H : forall d l r, okn d -> Forall okn l -> bind (convert_shape d) (fun d' => Ok (d', l)) = Ok r -> R d (fst r) /\ Forall2 R l (snd r)).
  { intros d l r Od Ol. destruct (convert_ok d Od) as (d' & -> & Rd). cbn. intros X. injection X as <-. split; [exact Rd|now apply F2_refl]. }
  split; [|intros t'; apply (shr_kpass (K := K) _ t t' H O)]. apply kpass_no_panic; [|exact H|exact O]. intros d l Od _. destruct (convert_ok d Od) as (d' & -> & _). discriminate.
Qed.
(** remove_default_attributes *)
Lemma plain_default dv t : okt t -> remove_default_attributes dv t <> Panic /\ forall t', remove_default_attributes dv t = Ok t' -> shr t t'.
Proof.
  intros O. split; [apply apass_no_panic; discriminate|]. intros t' E. refine (shr_apass (b := b) (N := N) (K := K) _ _ t [] t' (Forall_nil _) O E). intros a d d' _ Od X. injection X as <-. pose proof (R_refl _ Od) as R0. unfold default_node. destruct (tag d); auto. unfold hide_if.
  apply R_map; [exact R0| |]; intros y _; destruct (default_attr _ _ _ _ _ _); auto.
Qed.
(** remove_text_attributes *)
Lemma rm_all_R d l x : R d x -> R d (rm_all l x).
Proof. revert x. induction l as [|a l IH]; intros x Rx; cbn; [exact Rx|]. apply IH, R_rm, Rx. Qed.
Lemma okt_kid d ch c : okt (T d ch) -> In c ch -> okt c.
Proof. intros O Hc x Hx. apply O. right. apply in_flat_map. eauto. Qed.
Lemma text_child_shr t0 t : okt t -> shr t (fst (rm_text_child t0 t)).
Proof.
  induction t as [d ch IH] using tree_ind'. intros O. rewrite Forall_forall in IH. pose proof (R_rm _ d d ALineHeight (R_refl _ (O d (or_introl eq_refl)))) as R0. cbn [rm_text_child]. destruct (negb (is_svg_el (d_rm d ALineHeight))).
  - constructor; [exact R0|]. rewrite <- (map_id ch) at 2. apply shrl_map. intros c Hc. apply (shr_refl b N). exact (okt_kid d ch c O Hc).
  - destruct ch as [|c0 ch0] eqn:Ec; [constructor; [|constructor]; destruct (_ && _); [now apply rm_all_R|exact R0]|]. rewrite <- Ec in *. clear c0 ch0 Ec. constructor; [destruct (_ && _); [now apply rm_all_R|exact R0]|]. rewrite map_map. apply shrl_map. intros c Hc. apply IH; [exact Hc|exact (okt_kid d ch c O Hc)].
Qed.
Lemma space_child_shr t : okt t -> shr t (rm_space_child t).
Proof.
  induction t as [d ch IH] using tree_ind'. intros O. rewrite Forall_forall in IH. pose proof (R_refl _ (O d (or_introl eq_refl))) as R0. cbn [rm_space_child].
  assert (M : shrl b K ch (map rm_space_child ch)) by (apply shrl_map; intros c Hc; apply IH; [exact Hc|exact (okt_kid d ch c O Hc)]).
  destruct (preserves d); [|now constructor]. destruct ch as [|c0 ch0]; [constructor; [now apply R_rm|constructor]|]. constructor; [|exact M]. destruct (existsb _ _); [exact R0|now apply R_rm].
Qed.
Lemma plain_text t s : okt t -> svg_element t = Some s -> In (root_key s) K -> remove_text_attributes t <> Panic /\ forall t', remove_text_attributes t = Ok t' -> shr t t'.
Proof.
  intros O Es HK. assert (S1 : shr t (rm_text_root t)). { destruct t as [d ch]. constructor; [apply (R_refl _ (O d (or_introl eq_refl)))|]. apply shrl_map. intros c Hc. apply text_child_shr. exact (okt_kid d ch c O Hc). }
  pose proof (okn_shr b N K _ _ O S1) as O1. assert (S2 : shr (rm_text_root t) (remove_xml_space (rm_text_root t))). { destruct (rm_text_root t) as [d ch]. constructor; [apply (R_refl _ (O1 d (or_introl eq_refl)))|]. apply shrl_map. intros c Hc. apply space_child_shr. exact (okt_kid d ch c O1 Hc). }
  pose proof (shr_trans b K _ _ _ S1 S2) as S. pose proof (okn_shr b N K _ _ O S) as O2. destruct (shr_svg _ _ _ _ _ S Es HK) as (s' & Es' & _). unfold remove_text_attributes. rewrite Es'. split; [discriminate|]. intros t' X. injection X as <-. destruct (has_text s'); [exact S|].
  apply (shr_trans b K _ _ _ S). apply shr_tmap. intros d Hd. pose proof (R_refl _ (O2 d Hd)) as R0. destruct (is_tag EFontFace d); [exact (rm_all_R d text_attributes d R0)|exact R0].
Qed.
(** remove_needless_attributes *)
Lemma value_is_R d x l : R d x -> R d (with_attrs x (filter l (attrs x))). Proof. apply R_filter. Qed.
Lemma needless_R d x anc leaf : R d x -> R d (needless_node anc leaf x).
Proof.
  intros R0. unfold needless_node. assert (R1 : R d (Needless.process_shape x)). { unfold Needless.process_shape, retain. destruct (tag x) as [|e| | | |]; auto. destruct e; auto using R_filter. } apply (R_rm _ _ _ AColor) in R1. revert R1. generalize (d_rm (Needless.process_shape x) AColor). intros x1 R1.
  set (x2 := if tag_sat is_container x1 then x1 else d_rm x1 AEnableBackground). assert (R2 : R d x2) by (unfold x2; R_go). clearbody x2.
  set (x3 := if leaf then process_fill x2 else x2). assert (R3 : R d x3) by (unfold x3, process_fill; R_go). clearbody x3.
  set (x4 := if leaf then process_stroke anc x3 else x3). assert (R4 : R d x4).
  { unfold x4. destruct leaf; [|exact R3]. unfold process_stroke. pose proof (rm_all_R d stroke_attributes _ (R_rm _ _ _ AStroke R3)) as A. pose proof (rm_all_R d stroke_attributes _ R3) as B. R_go. }
  unfold process_overflow. destruct (tag x4) as [|e| | | |]; try (now apply R_rm). destruct e; auto using R_rm.
Qed.
Lemma clip_shr ks : forall t, okt t -> shr t (process_clip_path ks t).
Proof.
  unfold process_clip_path. induction ks as [|k ks IH]; intros t O; cbn; [now apply (shr_refl b N)|]. destruct (is_used k t); [now apply IH|].
  assert (S : shr t (upd k strip_paint t)) by (apply (shr_upd (N := N)); [exact O|]; intros d Hd _; apply R_filter, (R_refl _ (O d Hd))). apply (shr_trans _ _ _ _ _ S). apply IH. exact (okn_shr b N K _ _ O S).
Qed.
Lemma plain_needless t : okt t -> shr t (remove_needless_attributes t).
Proof.
  unfold remove_needless_attributes. generalize (keys t) as ks. intros ks. revert t. induction ks as [|k ks IH]; intros t O; cbn; [now apply (shr_refl b N)|].
  assert (S : shr t (needless_visit t k)).
  { unfold needless_visit. destruct (find_place [] k t) as [[anc s]|]; [|now apply (shr_refl b N)]. destruct (is_svg_el (data s)); [|now apply (shr_refl b N)].
    set (t1 := if is_tag EClipPath (data s) then _ else t). assert (S1 : shr t t1) by (unfold t1; destruct (is_tag _ _); [now apply clip_shr|now apply (shr_refl b N)]). clearbody t1. pose proof (okn_shr b N K _ _ O S1) as O1.
    apply (shr_trans _ _ _ _ _ S1). apply (shr_upd (N := N)); [exact O1|]. intros d Hd _. apply needless_R, (R_refl _ (O1 d Hd)). }
  apply (shr_trans _ _ _ _ _ S). apply IH. exact (okn_shr b N K _ _ O S).
Qed.
(** remove_unused_coordinates *)
Lemma hide_all_R d l : forall x, R d x -> R d (hide_all l x).
Proof. unfold hide_all. induction l as [|a l IH]; intros x Rx; cbn; [exact Rx|]. apply IH. now apply R_hide. Qed.
Lemma has_of_get d a v : d_get d a = Some v -> d_has d a = true.
Proof. unfold d_get, get_value, d_has, has_attr. destruct (get_attr _ _); [reflexivity|discriminate]. Qed.
Lemma get_of_has d a : d_has d a = true -> exists v, d_get d a = Some v.
Proof. unfold d_get, get_value, d_has, has_attr. destruct (get_attr _ _); [eauto|discriminate]. Qed.
Lemma coords_total t d : okn d -> coords_visit t d <> Panic.
Proof.
  intros O. pose proof (ok_quiet _ _ _ O) as (_ & Q & _). unfold coords_visit. replace (forallb _ _) with true; [discriminate|]. symmetry. unfold unused_coords. destruct (tag d) as [|e| | | |]; try reflexivity. destruct e; try reflexivity; try congruence.
  - destruct (d_has d ARx) eqn:H; [|reflexivity]. destruct (get_of_has _ _ H) as (v & ->). cbn. destruct (d_get d ARy) as [w|] eqn:G; cbn; [|reflexivity]. destruct (value_eqb v w); cbn; [|reflexivity]. now rewrite (has_of_get _ _ _ G).
  - destruct (child_of_root t d); [|reflexivity]. destruct (d_has d AX) eqn:H1; destruct (d_has d AY) eqn:H2; cbn; rewrite ?H1, ?H2; reflexivity.
Qed.
Lemma coords_R t d d' : okn d -> coords_visit t d = Ok d' -> R d d'.
Proof. intros O. unfold coords_visit. destruct (forallb _ _); [|discriminate]. intros X. injection X as <-. apply hide_all_R, (R_refl _ O). Qed.
Lemma vloop_no_panic f ks : (forall t d, okt t -> okn d -> f t d <> Panic) -> (forall t d d', okt t -> okn d -> f t d = Ok d' -> R d d') -> forall t, NoDup (keys t) -> okt t -> vloop f ks t <> Panic.
Proof.
  intros H H2. induction ks as [|k ks IH]; intros t Nd O; cbn; [discriminate|]. destruct (find_data k t) as [d|] eqn:D; [|now apply IH]. destruct (find_data_some _ _ _ D) as [Hd Ed]. pose proof (H t d O (O d Hd)) as P. destruct (f t d) as [d'|e|] eqn:E; cbn [bind]; try discriminate; [|contradiction].
  pose proof (H2 t d d' O (O d Hd) E) as Rd. assert (S : shr t (upd k (fun _ => d') t)). { apply (shr_upd (N := N)); [exact O|]. intros x Hx Ex. assert (x = d) by (apply (data_unique t); auto; congruence). now subst. }
  apply IH; [|exact (okn_shr b N K _ _ O S)]. unfold upd. rewrite keys_tmap; [exact Nd|]. intros x. destruct (Nat.eqb_spec (key x) k) as [->|]; [|reflexivity]. rewrite (R_key _ _ _ Rd). congruence.
Qed.
Lemma plain_coords t : NoDup (keys t) -> okt t -> remove_unused_coordinates t <> Panic /\ forall t', remove_unused_coordinates t = Ok t' -> shr t t'.
Proof.
  intros Nd O. unfold remove_unused_coordinates. split; [apply vloop_no_panic; auto; [intros; now apply coords_total|intros u d d' _; apply coords_R]|].
  intros t'. apply (shr_vloop (b := b) (N := N) (K := K)); auto. intros u d d' _. apply coords_R.
Qed.
End P.
(** process_paths *)
Lemma path_R N o anc d d' : Forall (okn false N) anc -> okn false N d -> process_path_node o anc d = Ok d' -> R false d d'.
Proof.
  intros _ O. pose proof (R_refl _ O) as R0. unfold process_path_node. destruct (is_tag EPath d); [|intros X; injection X as <-; exact R0].
  assert (P : forall m ts x y, R false d x -> path_data o m ts x = Ok y -> R false d y).
  { intros m ts x y Rx. unfold path_data. destruct (d_get x AD) as [[]|]; try (intros X; injection X as <-; exact Rx). destruct (Paths.process_path _ _ _ _); [|discriminate]. intros X. injection X as <-. apply R_map_value; [exact Rx|reflexivity|]. cbn. discriminate. }
  destruct (_ && _); [|now apply P]. destruct (d_get d ATransform) as [[]|]; try discriminate. destruct (_ && _); [|now apply P]. apply P. destruct (has_scale _); [apply recalc_R|]; now apply R_rm.
Qed.
Lemma rm_get_other d a c v : d_get (d_rm d a) c = Some v -> d_get d c = Some v.
Proof.
  unfold d_get, get_value, get_attr, d_rm, rm_attr. cbn. induction (attrs d) as [|x l IH]; cbn; [discriminate|]. destruct (has_name (AN a) x) eqn:Ea; cbn.
  - destruct (has_name (AN c) x) eqn:Ec; [|exact IH]. intros X. exfalso. assert (a = c) by (apply has_name_true in Ea; apply has_name_true in Ec; congruence). subst c. clear - X. induction l as [|y l IH]; cbn in X; [discriminate|]. destruct (has_name (AN a) y) eqn:E; cbn in X; [auto|]. rewrite E in X. auto.
  - destruct (has_name (AN c) x); [auto|exact IH].
Qed.
Lemma path_total N o anc d : okn true N d -> process_path_node o anc d <> Panic.
Proof.
  intros O. unfold process_path_node. destruct (is_tag EPath d); [|discriminate].
  assert (P : forall m ts x, R true d x -> path_data o m ts x <> Panic).
  { intros m ts x Rx. unfold path_data. destruct (d_get x AD) as [v|] eqn:G; [|discriminate]. destruct (ok_get true N x AD v (R_okn _ _ _ _ Rx O) G) as [_ Ty]. cbn in Ty. destruct (Ty eq_refl) as (p & -> & M). pose proof (Props_paths.C41_no_panic (pso_path o) m ts p M) as Q. destruct (Paths.process_path _ _ _ p); [discriminate|contradiction]. }
  pose proof (R_refl _ O) as R0. destruct (pso_transform o && d_has d ATransform) eqn:H; [|now apply P]. apply andb_true_iff in H. destruct H as [_ H]. destruct (get_of_has _ _ H) as (v & G). rewrite G. destruct (ok_get _ _ _ _ _ O G) as [_ (m & X)]. cbn in X. subst v. destruct (_ && _); [|now apply P]. apply P. destruct (has_scale m); [apply recalc_R|]; now apply R_rm.
Qed.
Lemma plain_paths N K o t : okt true N t -> process_paths o t <> Panic /\ forall t', process_paths o t = Ok t' -> shr false K t t'.
Proof.
  intros O. split; [apply apass_no_panic; intros a d Hd; apply (path_total N); auto|]. intros t' E. refine (shr_apass (b := false) (N := N) (K := K) _ (fun a d d' => path_R N o a d d') t [] t' (Forall_nil _) _ E). intros d Hd. apply okn_weak. auto.
Qed.
