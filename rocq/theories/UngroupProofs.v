(** Proofs about ungroup_groups: one group. *)
From Coq Require Import List Bool NArith Arith ZArith String Lia QArith Qcanon Permutation.
From Verif Require Import Names Num Value Dom DomFacts DomOps Outcome Stops AttrFacts MoveFacts SpecDom SpecStyle SpecText Visit Transforms Regroup ResolveUse SpecPaint PaintFacts SpecUse Img UseProofs UseStep Push Melt Ungroup SpecUngroup TasksSimpleProofs MergeProofs UseEnd.
Import ListNotations.
Local Open Scope nat_scope.

Lemma lk_in l x : NoDup (map a_name l) -> In x l -> lk (a_name x) l = Some (a_val x).
Proof.
  induction l as [|y l IH]; [intros _ []|]. cbn [map]. intros N H. inversion N as [|? ? N1 N2]; subst. unfold lk in *. cbn [find]. destruct H as [->|H].
  - now rewrite (proj2 (has_name_true (a_name x) x) eq_refl).
  - destruct (has_name (a_name x) y) eqn:E; [|now apply IH]. apply has_name_true in E. exfalso. apply N1. rewrite E. now apply in_map.
Qed.
Lemma lk_cons n x l : lk n (x :: l) = if has_name n x then Some (a_val x) else lk n l.
Proof. unfold lk. cbn [find]. now destruct (has_name n x). Qed.
Lemma hn n m x : a_name x = m -> has_name n x = aname_eqb m n. Proof. intros <-. reflexivity. Qed.
Lemma lk_map_value n a v l : lk n (map (fun x => if has_name (AN a) x then At (a_name x) v (a_vis x) else x) l) = match lk n l with Some w => Some (if aname_eqb n (AN a) then v else w) | None => None end.
Proof.
  induction l as [|x l IH]; [reflexivity|]. cbn [map]. rewrite !lk_cons.
  assert (A : a_name (if has_name (AN a) x then At (a_name x) v (a_vis x) else x) = a_name x) by now destruct (has_name (AN a) x).
  rewrite (hn n _ _ A), (hn n _ x eq_refl). destruct (aname_eqb_spec (a_name x) n) as [E|E]; [|exact IH].
  rewrite (hn (AN a) _ x E). now destruct (aname_eqb n (AN a)).
Qed.
Lemma lk_set n a v l : lk n (set_attr l a v) = if aname_eqb n (AN a) then Some v else lk n l.
Proof.
  induction l as [|x l IH]; cbn [set_attr].
  - rewrite lk_cons. unfold has_name. cbn [a_name a_val]. destruct (aname_eqb_spec (AN a) n), (aname_eqb_spec n (AN a)); congruence.
  - unfold has_name at 1. destruct (aname_eqb_spec (a_name x) (AN a)) as [E|E]; rewrite !lk_cons; unfold has_name; cbn [a_name a_val].
    + rewrite E. destruct (aname_eqb_spec (AN a) n), (aname_eqb_spec n (AN a)); congruence.
    + rewrite IH. destruct (aname_eqb_spec (a_name x) n), (aname_eqb_spec n (AN a)); congruence.
Qed.
Lemma names_map_value a v l : map a_name (map (fun x => if has_name (AN a) x then At (a_name x) v (a_vis x) else x) l) = map a_name l.
Proof. rewrite map_map. apply map_ext. intros x. now destruct (has_name (AN a) x). Qed.
(** ** Attributes of the group and of a child *)
Definition mix (a : aid) (o1 o2 : option value) : option value :=
  match o1, o2 with
  | None, _ => o2
  | Some v, None => Some v
  | Some v, Some w =>
      if aid_eqb a AOpacity then match v, w with VNum x, VNum y => Some (VNum (x * y)%Qc) | _, _ => None end
      else if aid_eqb a ATransform then match v, w with VTransform m, VTransform n => Some (VTransform (t_append m n)) | _, _ => Some w end
      else if aid_eqb a ADisplay then Some v else Some w
  end.
Record mixed (l : list attr) (c c' : ndata) : Prop := {
  x_key : key c' = key c; x_tag : tag c' = tag c; x_id : nid c' = nid c;
  x_nodup : attrs_nodup c -> attrs_nodup c';
  x_other : forall s, lk (ANx s) (attrs c') = lk (ANx s) (attrs c);
  x_get : forall a, lk (AN a) (attrs c') = mix a (lk (AN a) l) (lk (AN a) (attrs c))
}.
Lemma aeq a : aid_eqb a a = true. Proof. destruct (aid_eqb_spec a a); congruence. Qed.
Lemma give_one t x c c' : give_attr t x c = Ok c' -> mixed [x] c c'.
Proof.
  unfold give_attr. destruct (a_name x) as [a|s0] eqn:E.
  - assert (P : forall cc, (if put_ok t c x then Ok (with_attrs c (put_attr (attrs c) x)) else Panic) = Ok cc -> (d_has c a = true -> a <> AOpacity /\ a <> ATransform /\ a = ADisplay) -> mixed [x] c cc).
    { intros cc H D. destruct (put_ok t c x); [|discriminate]. inversion H; subst cc. split; try reflexivity.
      - intros N. now apply nodup_put.
      - intros s. cbn [attrs with_attrs]. rewrite lk_put, (hn _ _ _ E). destruct (aname_eqb_spec (AN a) (ANx s)); [discriminate|reflexivity].
      - intros b. cbn [attrs with_attrs]. rewrite lk_put, lk_cons, (hn _ _ _ E). destruct (aname_eqb_spec (AN a) (AN b)) as [Q|Q]; [|reflexivity]. inversion Q; subst b. cbn [mix]. destruct (lk (AN a) (attrs c)) eqn:L; [|reflexivity].
        assert (Hc : d_has c a = true) by (apply has_lk; congruence). destruct (D Hc) as (D1 & D2 & ->). reflexivity. }
    assert (K : d_has c a = true -> a <> AOpacity -> a <> ATransform -> a <> ADisplay -> mixed [x] c c).
    { intros Hc D1 D2 D3. split; auto. intros b. rewrite lk_cons, (hn _ _ _ E). destruct (aname_eqb_spec (AN a) (AN b)) as [Q|Q]; [|reflexivity]. inversion Q; subst b. apply has_lk in Hc. destruct (lk (AN a) (attrs c)); [|congruence]. cbn [mix]. destruct (aid_eqb_spec a AOpacity), (aid_eqb_spec a ATransform), (aid_eqb_spec a ADisplay); congruence. }
    destruct (aid_eqb_spec a AOpacity) as [Qo|Qo]; cbn [andb].
    { subst a. destruct (d_has c AOpacity) eqn:Hc.
      - rewrite get_lk. destruct (a_val x) eqn:V; try discriminate. destruct (lk (AN AOpacity) (attrs c)) as [w|] eqn:W; [|discriminate]. destruct w; try discriminate. intros H. injection H as <-. split; try reflexivity.
        + intros N. now apply set_attr_nodup.
        + intros s. cbn [attrs with_attrs d_set]. now rewrite lk_set.
        + intros b. unfold d_set. cbn [attrs with_attrs]. rewrite lk_set, lk_cons, (hn _ _ _ E). destruct (aname_eqb_spec (AN b) (AN AOpacity)) as [Q|Q], (aname_eqb_spec (AN AOpacity) (AN b)) as [Q'|Q']; try congruence; try reflexivity. inversion Q; subst b. rewrite V, W. reflexivity.
      - change (aid_eqb AOpacity ATransform) with false. change (aid_eqb AOpacity ADisplay) with false. cbn [andb]. intros H. apply (P _ H). congruence. }
    destruct (aid_eqb_spec a ATransform) as [Qt|Qt]; cbn [andb].
    { subst a. destruct (d_has c ATransform) eqn:Hc.
      - pose proof (proj1 (has_lk c ATransform) Hc) as W. rewrite get_lk. intros H.
        assert (Z : forall v, (forall m n, a_val x = VTransform m -> v = VTransform n -> False) -> lk (AN ATransform) (attrs c) = Some v -> mixed [x] c c).
        { intros v Bad L. split; auto. intros b. rewrite lk_cons, (hn _ _ _ E). destruct (aname_eqb_spec (AN ATransform) (AN b)) as [Q|Q]; [|reflexivity]. inversion Q; subst b. rewrite L. cbn [mix aid_eqb]. change (aid_eqb ATransform AOpacity) with false. change (aid_eqb ATransform ATransform) with true. cbn. destruct (a_val x) eqn:Vx; try reflexivity. destruct v; try reflexivity. exfalso. eapply Bad; reflexivity. }
        destruct (lk (AN ATransform) (attrs c)) as [v|] eqn:L; [|congruence]. destruct (a_val x) as [| | | | | | | | |m|] eqn:Vx; try (inversion H; subst c'; apply (Z v); [intros; discriminate|reflexivity]). destruct v as [| | | | | | | | |n|]; try (inversion H; subst c'; eapply Z; [|reflexivity]; intros; discriminate).
        injection H as <-. split; try reflexivity.
        + intros N. unfold attrs_nodup in *. rewrite <- (names_map_value ATransform (VTransform (t_append m n)) (attrs c)) in N. exact N.
        + intros s. unfold map_value. cbn [attrs with_attrs]. rewrite lk_map_value. destruct (lk (ANx s) (attrs c)); reflexivity.
        + intros b. unfold map_value. cbn [attrs with_attrs]. rewrite lk_map_value, lk_cons, (hn _ _ _ E). destruct (aname_eqb_spec (AN b) (AN ATransform)) as [Q|Q], (aname_eqb_spec (AN ATransform) (AN b)) as [Q'|Q']; try congruence; [inversion Q; subst b; rewrite L, Vx; reflexivity|]. cbn [mix]. destruct (lk (AN b) (attrs c)); reflexivity.
      - change (aid_eqb ATransform ADisplay) with false. intros H. apply (P _ H). congruence. }
    destruct (aid_eqb_spec a ADisplay) as [Qd|Qd]; [intros H; apply (P _ H); auto|]. destruct (d_has c a) eqn:Hc; intros H; [inversion H; subst c'; now apply K|apply (P _ H); congruence].
  - intros H. inversion H; subst c'. split; auto. intros a. rewrite lk_cons, (hn _ _ _ E). reflexivity.
Qed.
Lemma give_fold_bad t l r : (forall d, r <> Ok d) -> fold_left (fun r x => bind r (give_attr t x)) l r = r.
Proof. revert r. induction l as [|x l IH]; intros r H; [reflexivity|]. cbn [fold_left]. destruct r as [d| |]; [destruct (H d eq_refl)| |]; cbn [bind]; apply IH; intros; discriminate. Qed.
Lemma give_attrs_cons t x l c : give_attrs t (x :: l) c = bind (give_attr t x c) (give_attrs t l).
Proof. unfold give_attrs at 1. cbn [fold_left bind]. destruct (give_attr t x c) as [d| |]; cbn [bind]; [reflexivity| |]; apply give_fold_bad; intros; discriminate. Qed.
Lemma give_mixed t l : NoDup (map a_name l) -> forall c c', give_attrs t l c = Ok c' -> mixed l c c'.
Proof.
  induction l as [|x l IH]; intros N c c'; [intros H; inversion H; subst; split; auto|]. cbn [map] in N. inversion N as [|? ? N1 N2]; subst. rewrite give_attrs_cons. destruct (give_attr t x c) as [c1| |] eqn:G; cbn [bind]; try discriminate. intros H. apply (IH N2) in H. apply give_one in G. destruct H as [A1 A2 A3 A4 A5 A6], G as [B1 B2 B3 B4 B5 B6]. split; [congruence|congruence|congruence|auto|intros s; rewrite A5; apply B5|].
  intros a. rewrite A6, B6, !lk_cons. destruct (has_name (AN a) x) eqn:E; [|reflexivity]. apply has_name_true in E. assert (L : lk (AN a) l = None) by (apply lk_none; intros y Hy Q; apply N1; rewrite E, <- Q; now apply in_map). now rewrite L.
Qed.
(** Other attributes of the child stay as they are. *)
Lemma get_put_other l x a : a_name x <> AN a -> get_attr (put_attr l x) a = get_attr l a.
Proof.
  intros H. apply has_name_false in H. unfold put_attr, get_attr. destruct (existsb _ l).
  - induction l as [|y l IH]; [reflexivity|]. cbn [map find]. destruct (has_name (a_name x) y) eqn:E; [|now rewrite IH].
    rewrite H. apply has_name_true in E. replace (has_name (AN a) y) with false; [exact IH|]. symmetry. apply has_name_false. rewrite E. now apply has_name_false.
  - induction l as [|y l IH]; cbn [app find]; [now rewrite H|]. now rewrite IH.
Qed.
Lemma get_map_other d b v a : a <> b -> get_attr (attrs (map_value d b v)) a = get_attr (attrs d) a.
Proof.
  intros H. unfold map_value, get_attr. cbn [attrs with_attrs]. induction (attrs d) as [|y l IH]; [reflexivity|]. cbn [map find].
  destruct (has_name (AN b) y) eqn:E; [|now rewrite IH]. apply has_name_true in E. rewrite (proj2 (has_name_false _ _)), (proj2 (has_name_false _ _)); [exact IH|cbn; congruence..].
Qed.
Lemma give_keeps t l a : forall c c', lk (AN a) l = None -> give_attrs t l c = Ok c' -> get_attr (attrs c') a = get_attr (attrs c) a.
Proof.
  induction l as [|x l IH]; intros c c' L; [intros H; now inversion H|]. rewrite lk_cons in L. destruct (has_name (AN a) x) eqn:Hx; [discriminate|]. apply has_name_false in Hx. rewrite give_attrs_cons.
  destruct (give_attr t x c) as [c1| |] eqn:G; cbn [bind]; try discriminate. intros H. rewrite (IH c1 c' L H). clear IH H. unfold give_attr in G. destruct (a_name x) as [b|s] eqn:Ex; [|now injection G as <-].
  assert (Nb : a <> b) by congruence. assert (P : (if put_ok t c x then Ok (with_attrs c (put_attr (attrs c) x)) else Panic) = Ok c1 -> get_attr (attrs c1) a = get_attr (attrs c) a).
  { destruct (put_ok t c x); [|discriminate]. intros Q. injection Q as <-. cbn [attrs with_attrs]. apply get_put_other. congruence. }
  destruct (aid_eqb b AOpacity && d_has c b); [destruct (a_val x); try discriminate; destruct (d_get c b) as [w|]; try discriminate; destruct w; try discriminate; injection G as <-; unfold d_set; cbn [attrs with_attrs]; apply get_set_other; congruence|].
  destruct (aid_eqb b ATransform && d_has c b).
  - injection G as <-. destruct (a_val x); try reflexivity. destruct (d_get c b) as [w|]; try reflexivity. destruct w; try reflexivity. now apply get_map_other.
  - destruct (aid_eqb b ADisplay); [now apply P|]. destruct (d_has c b); [now injection G as <-|now apply P].
Qed.
(** The child gets the attributes, without a panic. *)
Definition can_give (t : tree) (l : list attr) (c : ndata) : Prop :=
  forall x, In x l ->
    (forall c', key c' = key c -> nid c' = nid c -> put_ok t c' x = true) /\
    (a_name x = AN AOpacity -> exists v, a_val x = VNum v) .
Lemma give_ok t l : forall c, (forall v, d_get c AOpacity = Some v -> exists x, v = VNum x) -> can_give t l c -> exists c', give_attrs t l c = Ok c'.
Proof.
  induction l as [|x l IH]; intros c O H; [now exists c|]. rewrite give_attrs_cons. destruct (H x (or_introl eq_refl)) as [P V].
  assert (G : exists c1, give_attr t x c = Ok c1).
  { unfold give_attr. specialize (P c eq_refl eq_refl). rewrite P. destruct (a_name x) as [a|s]; [|eauto]. destruct (aid_eqb_spec a AOpacity) as [->|Q]; cbn [andb].
    - destruct (d_has c AOpacity) eqn:D; [|cbn [andb]; change (aid_eqb AOpacity ATransform) with false; change (aid_eqb AOpacity ADisplay) with false; cbn; eauto]. destruct (V eq_refl) as (v & ->). apply has_get in D. destruct (d_get c AOpacity) as [w|]; [|congruence]. destruct (O w eq_refl) as (y & ->). eauto.
    - destruct (aid_eqb a ATransform && d_has c a); [eauto|]. destruct (aid_eqb a ADisplay); [eauto|]. destruct (d_has c a); eauto. }
  destruct G as (c1 & G). rewrite G. cbn [bind]. pose proof (give_one _ _ _ _ G) as M. apply IH.
  - intros v E. rewrite get_lk, (x_get _ _ _ M), lk_cons in E. change (lk (AN AOpacity) []) with (@None value) in E. destruct (has_name (AN AOpacity) x) eqn:E1.
    + apply has_name_true in E1. destruct (V E1) as (v1 & E2). rewrite E2 in E. destruct (lk (AN AOpacity) (attrs c)) as [w|] eqn:W.
      * rewrite <- get_lk in W. destruct (O w W) as (y & ->). cbn in E. injection E as <-. eauto.
      * cbn in E. inversion E. eauto.
    + cbn [mix] in E. rewrite <- get_lk in E. now apply O.
  - intros y Hy. destruct (H y (or_intror Hy)) as [Py Vy]. split; [|exact Vy]. intros c' K I. apply Py; [rewrite K; apply (x_key _ _ _ M)|rewrite I; apply (x_id _ _ _ M)].
Qed.
