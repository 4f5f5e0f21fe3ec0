(** Property C36: conversion of basic shapes to paths. Specification: SpecShapes.v, SpecPath.v. *)
From Coq Require Import List Bool NArith Arith ZArith String Lia QArith Qcanon.
From Verif Require Import Names Num Value Dom DomFacts DomOps Outcome DomRemove Stops SpecStops SpecDom AttrFacts StopsProofs SpecPath Shapes SpecShapes NPass.
Import ListNotations.
Local Open Scope nat_scope.

Lemma get_len_coord d a n : coord d a n <-> get_len d a = Len n UNone.
Proof.
  unfold coord, get_len. destruct (d_get d a) as [[| | |l| | | | | | | ]|]; split; congruence.
Qed.
Lemma is_num_coord d a : is_num (get_len d a) = true -> coord d a (num (get_len d a)).
Proof. intros H. apply get_len_coord. unfold is_num in H. destruct (unit_eqb_spec (unit (get_len d a)) UNone) as [E|]; [|discriminate]. destruct (get_len d a). cbn in *. now subst. Qed.
Lemma coord_num d a n : coord d a n -> is_num (get_len d a) = true /\ num (get_len d a) = n.
Proof. intros H. apply get_len_coord in H. rewrite H. auto. Qed.
Lemma radius_num d a : no_radius d a <-> num (get_len d a) = q0.
Proof. unfold no_radius, get_len. destruct (d_get d a) as [[| | |l| | | | | | | ]|]; try (split; [reflexivity|auto]). reflexivity. Qed.

Lemma aid_dec (a b : aid) : {a = b} + {a <> b}.
Proof. destruct (aid_eqb_spec a b); auto. Qed.
Lemma rm_list_cons d a l : d_rm_list d (a :: l) = d_rm_list (d_rm d a) l. Proof. reflexivity. Qed.
Arguments d_rm_list : simpl never.
Lemma rm_list_in d l x : ~ In (a_name x) (map AN l) -> In x (attrs (d_rm_list d l)) <-> In x (attrs d).
Proof.
  revert d. induction l as [|a l IH]; intros d H; [..|rewrite rm_list_cons]; cbn in *; [reflexivity|]. rewrite IH by tauto. cbn. apply rm_attr_other_in. intros E. apply H. left. congruence.
Qed.
Lemma rm_list_get d l b : ~ In b l -> get_attr (attrs (d_rm_list d l)) b = get_attr (attrs d) b.
Proof. revert d. induction l as [|a l IH]; intros d H; [..|rewrite rm_list_cons]; cbn in *; [reflexivity|]. rewrite IH by tauto. cbn. apply get_rm_other. tauto. Qed.
Lemma rm_list_gone d l b : In b l -> d_has (d_rm_list d l) b = false.
Proof.
  revert d. induction l as [|a l IH]; intros d H; [..|rewrite rm_list_cons]; cbn in *; [contradiction|]. destruct (in_dec aid_dec b l) as [I|I]; [auto|].
  destruct H as [->|H]; [|contradiction]. apply d_has_false. rewrite rm_list_get by exact I. apply get_rm_same.
Qed.
Lemma rm_list_key d l : key (d_rm_list d l) = key d /\ nid (d_rm_list d l) = nid d /\ tag (d_rm_list d l) = tag d.
Proof. revert d. induction l as [|a l IH]; intros d; [..|rewrite rm_list_cons]; cbn; [auto|]. destruct (IH (d_rm d a)) as (A & B & C). rewrite A, B, C. auto. Qed.

Lemma path_instead_of p o d l : tag d <> TEl EPath -> geometry d = l -> ~ In AD l -> starts_with_move p -> outline p = flush o ->
  path_instead o d (d_rm_list (with_tag (d_set d AD (VPath p)) (TEl EPath)) l).
Proof.
  intros _ G N M O. destruct (rm_list_key (with_tag (d_set d AD (VPath p)) (TEl EPath)) l) as (A & B & C).
  unfold path_instead. rewrite A, B, C, G. repeat split; auto.
  - exists p. split; [|auto]. rewrite rm_list_get by exact N. cbn. apply get_set_same.
  - intros a Ha. now apply rm_list_gone.
  - intros Hx. rewrite rm_list_in in Hx by (intros X; apply H; right; exact X). cbn in Hx. apply set_attr_other_in in Hx; [exact Hx|]. intros E. apply H. left. congruence.
  - intros Hx. rewrite rm_list_in by (intros X; apply H; right; exact X). cbn. apply set_attr_other_in; [|exact Hx]. intros E. apply H. left. congruence.
Qed.

Lemma points_ok l : forall b, Nat.even (List.length l) = true ->
  points_from b l = Ok (match pairs l with [] => [] | p :: ps => Seg true (if b then MoveTo (fst p) (snd p) else LineTo (fst p) (snd p)) :: map (fun p => Seg true (LineTo (fst p) (snd p))) ps end).
Proof.
  assert (G : forall n l b, List.length l <= n -> Nat.even (List.length l) = true -> points_from b l = Ok (match pairs l with [] => [] | p :: ps => Seg true (if b then MoveTo (fst p) (snd p) else LineTo (fst p) (snd p)) :: map (fun p => Seg true (LineTo (fst p) (snd p))) ps end)).
  { induction n as [|n IH]; intros m b L E; destruct m as [|x [|y m]]; cbn in *; try discriminate; try reflexivity; try lia.
    rewrite (IH m false) by (auto; lia). cbn. destruct (pairs m) as [|p ps]; reflexivity. }
  intros b. apply (G (List.length l)). lia.
Qed.
Lemma points_panic l b : Nat.odd (List.length l) = true -> points_from b l = Panic.
Proof.
  assert (G : forall n l b, List.length l <= n -> Nat.odd (List.length l) = true -> points_from b l = Panic).
  { induction n as [|n IH]; intros m c L E; destruct m as [|x [|y m]]; cbn in *; try discriminate; try reflexivity; try lia.
    rewrite (IH m false); [reflexivity|lia|exact E]. }
  apply (G (List.length l)). lia.
Qed.
Lemma trace_chain s ps : trace s (map (fun p => Seg true (LineTo (fst p) (snd p))) ps) = map Draw (chain (cur s) ps).
Proof. revert s. induction ps as [|[x y] ps IH]; intros s; [reflexivity|]. cbn. now rewrite IH. Qed.
Lemma last_cons {A} (q : A) l d : List.last (q :: l) d = List.last l q.
Proof. revert q d. induction l as [|x l IH]; intros q d; [reflexivity|]. change (List.last (q :: x :: l) d) with (List.last (x :: l) d). now rewrite !IH. Qed.
Lemma trace_chain_app s ps r : trace s (map (fun p => Seg true (LineTo (fst p) (snd p))) ps ++ r) =
  map Draw (chain (cur s) ps) ++ trace (Pen (List.last ps (cur s)) (start s) (match ps with [] => SpecPath.last s | _ => NoCtrl end)) r.
Proof.
  revert s. induction ps as [|[x y] ps IH]; intros s; [destruct s; reflexivity|]. cbn [map app trace]. rewrite IH, last_cons. cbn. f_equal. f_equal. f_equal. now destruct ps.
Qed.
Lemma subpaths_draws c l : subpaths (fun _ => true) c (map Draw l) = flush (c ++ l).
Proof. revert c. induction l as [|p l IH]; intros c; cbn; [now rewrite app_nil_r|]. rewrite IH, <- app_assoc. reflexivity. Qed.
Lemma subpaths_draws_break c l : subpaths (fun _ => true) c (map Draw l ++ [Break]) = flush (c ++ l).
Proof. revert c. induction l as [|p l IH]; intros c; cbn; [now rewrite !app_nil_r|]. rewrite IH, <- app_assoc. reflexivity. Qed.
Lemma chain_snoc p ps q : chain p (ps ++ [q]) = chain p ps ++ [PLine (List.last ps p) q].
Proof.
  revert p. induction ps as [|r ps IH]; intros p; [reflexivity|]. cbn [app chain]. now rewrite IH, last_cons.
Qed.
Lemma outline_polyline p ps : outline (Seg true (MoveTo (fst p) (snd p)) :: map (fun p => Seg true (LineTo (fst p) (snd p))) ps) = flush (chain p ps).
Proof. unfold outline. cbn. rewrite trace_chain. destruct p. cbn. apply subpaths_draws. Qed.
Lemma outline_polygon p ps : outline (Seg true (MoveTo (fst p) (snd p)) :: map (fun p => Seg true (LineTo (fst p) (snd p))) ps ++ [Seg true ClosePath]) = flush (chain p (ps ++ [p])).
Proof.
  unfold outline. cbn. rewrite trace_chain_app. destruct p as [x y]. cbn. rewrite chain_snoc.
  change (map Draw (chain (x, y) ps) ++ [Draw (PLine (List.last ps (x, y)) (x, y)); Break]) with (map Draw (chain (x, y) ps) ++ map Draw [PLine (List.last ps (x, y)) (x, y)] ++ [Break]).
  rewrite app_assoc, <- (map_app Draw). exact (subpaths_draws_break [] (chain (x, y) ps ++ [PLine (List.last ps (x, y)) (x, y)])).
Qed.

Lemma pairs_cons l : Nat.even (List.length l) = true -> l <> [] -> exists p ps, pairs l = p :: ps.
Proof. destruct l as [|x [|y l]]; cbn; intros; try congruence. eauto. Qed.

Lemma convert_line_ok d : tag d = TEl ELine -> (exists o, shape d o /\ path_instead o d (convert_line d)) \/ ((forall o, ~ shape d o) /\ convert_line d = d).
Proof.
  intros T. unfold convert_line.
  destruct (is_num (get_len d AX1) && is_num (get_len d AY1) && is_num (get_len d AX2) && is_num (get_len d AY2)) eqn:E; cbn [negb].
  - left. rewrite !andb_true_iff in E. destruct E as [[[E1 E2] E3] E4].
    exists [PLine (num (get_len d AX1), num (get_len d AY1)) (num (get_len d AX2), num (get_len d AY2))]. split.
    + apply shape_line; auto using is_num_coord.
    + apply path_instead_of; [congruence|unfold geometry; now rewrite T|cbn; intuition discriminate|cbn; eauto|reflexivity].
  - right. split; [|reflexivity]. intros o H. destruct H as [x1 y1 x2 y2 _ H1 H2 H3 H4|? ? ? ? T'|? ? ? T'|? ? ? T']; try congruence.
    apply coord_num in H1, H2, H3, H4. destruct H1 as [A1 _], H2 as [A2 _], H3 as [A3 _], H4 as [A4 _]. rewrite A1, A2, A3, A4 in E. discriminate.
Qed.
Lemma convert_rect_ok d : tag d = TEl ERect -> (exists o, shape d o /\ path_instead o d (convert_rect d)) \/ ((forall o, ~ shape d o) /\ convert_rect d = d).
Proof.
  intros T. unfold convert_rect.
  destruct (qeqb_spec (num (get_len d ARx)) q0) as [R1|R1]; cbn [negb orb].
  2: { right. split; [|reflexivity]. intros o H. destruct H as [? ? ? ? T'|? ? ? ? T' _ _ _ _ H1 H2|? ? ? T'|? ? ? T']; try congruence. apply radius_num in H1. congruence. }
  destruct (qeqb_spec (num (get_len d ARy)) q0) as [R2|R2]; cbn [negb orb].
  2: { right. split; [|reflexivity]. intros o H. destruct H as [? ? ? ? T'|? ? ? ? T' _ _ _ _ H1 H2|? ? ? T'|? ? ? T']; try congruence. apply radius_num in H2. congruence. }
  destruct (qeqb_spec (num (get_len d AWidth)) q0) as [W|W]; cbn [negb orb].
  { right. split; [|reflexivity]. intros o H. destruct H as [? ? ? ? T'|? ? ? ? T' _ _ H1 H2 _ _ W1 W2|? ? ? T'|? ? ? T']; try congruence. apply coord_num in H1. destruct H1 as [_ <-]. congruence. }
  destruct (qeqb_spec (num (get_len d AHeight)) q0) as [H0|H0]; cbn [negb orb].
  { right. split; [|reflexivity]. intros o H. destruct H as [? ? ? ? T'|? ? ? ? T' _ _ H1 H2 _ _ W1 W2|? ? ? T'|? ? ? T']; try congruence. apply coord_num in H2. destruct H2 as [_ <-]. congruence. }
  destruct (is_num (get_len d AX) && is_num (get_len d AY) && is_num (get_len d AWidth) && is_num (get_len d AHeight)) eqn:E; cbn [negb].
  - left. rewrite !andb_true_iff in E. destruct E as [[[E1 E2] E3] E4].
    eexists. split.
    + apply shape_rect; [exact T|apply is_num_coord, E1|apply is_num_coord, E2|apply is_num_coord, E3|apply is_num_coord, E4|apply radius_num, R1|apply radius_num, R2|exact W|exact H0].
    + apply path_instead_of; [congruence|unfold geometry; now rewrite T|cbn; intuition discriminate|cbn; eauto|reflexivity].
  - right. split; [|reflexivity]. intros o H. destruct H as [? ? ? ? T'|? ? ? ? T' H1 H2 H3 H4 _ _ _ _|? ? ? T'|? ? ? T']; try congruence.
    apply coord_num in H1, H2, H3, H4. destruct H1 as [A1 _], H2 as [A2 _], H3 as [A3 _], H4 as [A4 _]. rewrite A1, A2, A3, A4 in E. discriminate.
Qed.
Lemma convert_poly_ok close d d' : tag d = TEl (if close : bool then EPolygon else EPolyline) -> ~ empty_points d -> convert_poly close d = Ok d' ->
  (exists o, shape d o /\ path_instead o d d') \/ ((forall o, ~ shape d o) /\ d' = d).
Proof.
  intros T NE. unfold convert_poly, points_to_path. destruct (d_get d APoints) as [[| | | | | |l| | | | ]|] eqn:G;
    try (intros H; right; split; [intros o S; destruct S as [? ? ? ? T'|? ? ? ? T'|? ? ? T' G'|? ? ? T' G']; destruct close; congruence|congruence]).
  intros H. assert (L : l <> []) by (intros ->; apply NE; exact G).
  destruct (Nat.even (List.length l)) eqn:E; [|rewrite points_panic in H by (unfold Nat.odd; now rewrite E); discriminate].
  rewrite points_ok in H by exact E. destruct (pairs_cons l E L) as (p & ps & EP). rewrite EP in H. cbn [bind] in H. left.
  assert (X : forall P o, outline P = flush o -> starts_with_move P -> path_instead o d (d_rm (d_set (with_tag d (TEl EPath)) AD (VPath P)) APoints)).
  { intros P o O M. change (d_rm (d_set (with_tag d (TEl EPath)) AD (VPath P)) APoints) with (d_rm_list (with_tag (d_set d AD (VPath P)) (TEl EPath)) [APoints]).
    apply path_instead_of; [destruct close; congruence|unfold geometry; rewrite T; now destruct close|cbn; intuition discriminate|exact M|exact O]. }
  destruct close.
  - exists (chain p (ps ++ [p])). injection H as <-. split; [eapply shape_polygon; eauto|]. apply X; [apply outline_polygon|cbn; eauto].
  - exists (chain p ps). injection H as <-. split; [eapply shape_polyline; eauto|]. apply X; [apply outline_polyline|cbn; eauto].
Qed.
Lemma convert_key d d' : convert_shape d = Ok d' -> key d' = key d.
Proof.
  unfold convert_shape. destruct (tag d) as [|[]| | | |]; try congruence.
  - intros H. injection H as <-. unfold convert_line. destruct (negb _); [reflexivity|]. rewrite (proj1 (rm_list_key _ _)). reflexivity.
  - unfold convert_poly. destruct (points_to_path d) as [[p|e|]|]; cbn; intros H; try discriminate; injection H as <-; reflexivity.
  - unfold convert_poly. destruct (points_to_path d) as [[p|e|]|]; cbn; intros H; try discriminate; injection H as <-; reflexivity.
  - intros H. injection H as <-. unfold convert_rect. destruct (negb _ || _); [reflexivity|]. destruct (_ || _); [reflexivity|]. destruct (negb _); [reflexivity|]. rewrite (proj1 (rm_list_key _ _)). reflexivity.
Qed.

(** C36. Each node that is a convertible shape becomes a path with the same outline, and each other
    node is unchanged. (Empty point lists are removed by fix_invalid_attributes, C18.) *)
Theorem C36_same_outline : forall t t', convert_shapes_to_paths t = Ok t' ->
  (forall d, In d (flat t) -> ~ empty_points d) ->
  skeleton t' = skeleton t /\
  Forall2 (fun d d' => (forall o, shape d o -> path_instead o d d') /\ ((forall o, ~ shape d o) -> d' = d)) (flat t) (flat t').
Proof.
  intros t t' H NE. destruct (npass_ok _ _ _ convert_key H) as [S F]. split; [exact S|]. clear H S.
  assert (U : forall d o o', shape d o -> shape d o' -> o = o').
  { intros d o o' H1 H2. destruct H1, H2; try congruence;
    repeat match goal with H : coord ?d ?a ?x, H' : coord ?d ?a ?y |- _ => apply get_len_coord in H; apply get_len_coord in H'; rewrite H in H'; injection H' as -> end; try congruence.
    all: match goal with H : d_get _ _ = Some (VNumList ?l), H' : d_get _ _ = Some (VNumList ?m) |- _ => assert (l = m) by congruence; subst end; congruence. }
  assert (C : forall d d', In d (flat t) -> convert_shape d = Ok d' -> (exists o, shape d o /\ path_instead o d d') \/ ((forall o, ~ shape d o) /\ d' = d)).
  { intros d d' Hd E. unfold convert_shape in E.
    assert (Z : forall e, tag d = TEl e -> ~ In e [ELine; ERect; EPolyline; EPolygon] -> Ok d = Ok d' -> (exists o, shape d o /\ path_instead o d d') \/ ((forall o, ~ shape d o) /\ d' = d)).
    { intros e T N X. right. split; [|congruence]. intros o Ho. apply N. cbn. destruct Ho as [? ? ? ? T'|? ? ? ? T'|? ? ? T'|? ? ? T']; rewrite T in T'; injection T' as ->; auto 6. }
    destruct (tag d) as [|e| | | |] eqn:T; try (right; split; [intros o Ho; destruct Ho; congruence|congruence]).
    destruct e; try (apply (Z _ eq_refl); [cbn; intuition discriminate|exact E]); injection E as <- || idtac.
    - now apply convert_line_ok.
    - eapply (convert_poly_ok true); [exact T|now apply NE|exact E].
    - eapply (convert_poly_ok false); [exact T|now apply NE|exact E].
    - now apply convert_rect_ok. }
  assert (G : forall l l', incl l (flat t) -> Forall2 (fun d d' => convert_shape d = Ok d') l l' ->
    Forall2 (fun d d' => (forall o, shape d o -> path_instead o d d') /\ ((forall o, ~ shape d o) -> d' = d)) l l').
  { intros l l' I F'. induction F' as [|d d' l l' H F' IH]; constructor.
    - destruct (C d d' (I d (or_introl eq_refl)) H) as [(o & A & B)|[A B]]; split; try tauto.
      + intros o' Ho. now rewrite (U d o' o Ho A).
      + intros X. exfalso. now apply (X o).
      + intros o Ho. exfalso. now apply (A o).
    - apply IH. intros x Hx. apply I. right. exact Hx. }
  apply G; [apply incl_refl|exact F].
Qed.
Print Assumptions C36_same_outline.

(** The pass fails exactly when a polyline or polygon has an odd number of coordinates; this cannot
    happen after fix_invalid_attributes (C36_total). *)
Theorem C36_fails_iff : forall t,
  (convert_shapes_to_paths t = Panic <-> exists d, In d (flat t) /\ odd_points d) /\
  (forall e, convert_shapes_to_paths t <> Err e).
Proof.
  intros t. assert (NE : forall d e, convert_shape d <> Err e).
  { assert (P : forall l b e, points_from b l <> Err e).
    { assert (G : forall n l b e, List.length l <= n -> points_from b l <> Err e).
      { induction n as [|n IH]; intros l b e L; destruct l as [|x [|y l]]; cbn in *; try discriminate; try lia.
        destruct (points_from false l) eqn:E; cbn; try discriminate. intros X. eapply IH; [|exact E]. lia. }
      intros l b e. apply (G (List.length l)). lia. }
    intros d e. unfold convert_shape. destruct (tag d) as [|[]| | | |]; try discriminate; unfold convert_poly, points_to_path;
    destruct (d_get d APoints) as [[| | | | | |l| | | | ]|]; try discriminate; destruct (points_from true l) eqn:E; cbn; try discriminate; intros X; exact (P _ _ _ E). }
  destruct (npass_total convert_shape t (fun d e _ => NE d e)) as [A B]. split; [|exact B]. unfold convert_shapes_to_paths. rewrite A.
  assert (Q : forall d, convert_shape d = Panic <-> odd_points d).
  { intros d. assert (Z : forall c, convert_poly c d = Panic <-> exists l, d_get d APoints = Some (VNumList l) /\ Nat.odd (List.length l) = true).
    { intros c. unfold convert_poly, points_to_path. destruct (d_get d APoints) as [[| | | | | |l| | | | ]|]; try (split; [discriminate|intros (l' & E & _); discriminate]).
      destruct (Nat.even (List.length l)) eqn:E.
      - rewrite points_ok by exact E. cbn. split; [discriminate|]. intros (l' & X & Y). injection X as <-. unfold Nat.odd in Y. rewrite E in Y. discriminate.
      - rewrite points_panic by (unfold Nat.odd; now rewrite E). split; [|reflexivity]. intros _. exists l. split; [reflexivity|]. unfold Nat.odd. now rewrite E. }
    unfold odd_points, convert_shape. destruct (tag d) as [|[]| | | |]; try (split; [discriminate|intros [[X|X] _]; discriminate]);
    rewrite Z; intuition. }
  split; intros (d & Hd & H); exists d; (split; [exact Hd|]); now apply Q.
Qed.
Print Assumptions C36_fails_iff.

Corollary C36_total : forall t, valid_doc t -> exists t', convert_shapes_to_paths t = Ok t'.
Proof.
  intros t V. destruct (C36_fails_iff t) as [P E]. destruct (convert_shapes_to_paths t) as [t'|e|] eqn:R; [eauto|exfalso; eapply E; eauto|].
  exfalso. destruct (proj1 P eq_refl) as (d & Hd & T & l & G & O). rewrite <- map_data_subs in Hd. apply in_map_iff in Hd. destruct Hd as (s & <- & Hs).
  destruct (vd_poly t V s Hs T l G) as [_ Ev]. unfold Nat.odd in O. rewrite Ev in O. discriminate.
Qed.
Print Assumptions C36_total.

Definition shapes_doc : tree :=
  doc [el 1 ESvg [] [el 2 ERect [at_ AX (px 1); at_ AWidth (px 10); at_ AHeight (px 20); at_ AFill (VColor 1 2 3)] [];
                     el 3 EPolygon [at_ APoints (VNumList [zq 1; zq 2; zq 3; zq 4; zq 5; zq 6])] [];
                     el 4 ERect [at_ AWidth (px 10); at_ AHeight (px 20); at_ ARx (px 3)] [];
                     el 5 ELine [at_ AX1 (VLen (Len (zq 1) UPercent))] []]].
Example C36_instance : exists t', convert_shapes_to_paths shapes_doc = Ok t' /\
  (forall d, In d (flat shapes_doc) -> ~ empty_points d) /\ valid_doc shapes_doc /\
  map tag (flat t') = [TRoot; TEl ESvg; TEl EPath; TEl EPath; TEl ERect; TEl ELine].
Proof.
  eexists. split; [reflexivity|]. split; [|split; [|reflexivity]].
  - intros d H. cbn in H. unfold empty_points. repeat (destruct H as [<-|H]; [discriminate|]). contradiction.
  - constructor; intros s H; repeat (destruct H as [<-|H]); try contradiction; cbn [tag data el doc]; try reflexivity; intros T; try discriminate; try (destruct T; discriminate).
    + repeat split. intros a Ha l. cbn in Ha. repeat destruct Ha as [<-|Ha]; try contradiction; intros X; try discriminate; injection X as <-; vm_compute; discriminate.
    + repeat split. intros a Ha l. cbn in Ha. repeat destruct Ha as [<-|Ha]; try contradiction; intros X; try discriminate; injection X as <-; vm_compute; discriminate.
    + intros l X. injection X as <-. split; [discriminate|reflexivity].
Qed.
