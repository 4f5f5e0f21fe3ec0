(** Proofs about resolve_use: attributes. *)
From Coq Require Import List Bool NArith Arith ZArith String Lia QArith Qcanon Permutation.
From Verif Require Import Names Num Value Dom DomFacts DomOps Outcome Move MoveFacts SpecDom SpecStyle SpecText Visit AttrFacts StopsProofs Regroup SpecPaint PaintFacts Img ResolveUse SpecUse MergeProofs GradTransProofs.
Import ListNotations.
Local Open Scope nat_scope.

Definition lk (n : aname) (l : list attr) : option value := option_map a_val (find (has_name n) l).
Lemma lookup_lk n d : lookup n d = lk n (attrs d). Proof. reflexivity. Qed.
Lemma get_lk d a : d_get d a = lk (AN a) (attrs d). Proof. now rewrite <- lookup_lk, lookup_get. Qed.
Lemma lk_none n l : lk n l = None <-> forall x, In x l -> a_name x <> n.
Proof.
  unfold lk. split.
  - intros H x Hx E. destruct (find _ _) eqn:F; [discriminate|]. pose proof (find_none _ _ F x Hx) as Q. unfold has_name in Q. destruct (aname_eqb_spec (a_name x) n); congruence.
  - intros H. destruct (find _ _) eqn:F; [|reflexivity]. apply find_some in F. destruct F as [F1 F2]. unfold has_name in F2. destruct (aname_eqb_spec (a_name a) n); [|discriminate]. destruct (H a F1 e).
Qed.
Lemma lk_some n l v : lk n l = Some v -> exists x, In x l /\ a_name x = n /\ a_val x = v.
Proof. unfold lk. intros H. destruct (find _ _) eqn:F; [|discriminate]. apply find_some in F. destruct F as [F1 F2]. unfold has_name in F2. destruct (aname_eqb_spec (a_name a) n); [|discriminate]. exists a. cbn in H. split; [exact F1|split; [exact e|congruence]]. Qed.
Lemma has_lk d a : d_has d a = true <-> lk (AN a) (attrs d) <> None.
Proof. unfold d_has, has_attr, get_attr, lk. destruct (find _ _); cbn; split; intros; congruence. Qed.
Lemma has_lk_none d a : d_has d a = false <-> lk (AN a) (attrs d) = None.
Proof. unfold d_has, has_attr, get_attr, lk. destruct (find _ _); cbn; split; intros; congruence. Qed.
Lemma lk_put n l x : lk n (put_attr l x) = if has_name n x then Some (a_val x) else lk n l.
Proof.
  unfold put_attr, lk. destruct (existsb (has_name (a_name x)) l) eqn:E.
  - induction l as [|y l IH]; [discriminate|]. cbn in E. cbn [map find]. destruct (has_name (a_name x) y) eqn:H.
    + unfold has_name in *. destruct (aname_eqb_spec (a_name y) (a_name x)) as [Y|Y]; [|discriminate]. rewrite Y. destruct (aname_eqb_spec (a_name x) n) as [X|X]; [reflexivity|].
      destruct (existsb (fun a => aname_eqb (a_name a) (a_name x)) l) eqn:E'; [apply IH; reflexivity|]. clear IH E. induction l as [|z l IH]; [reflexivity|]. cbn in E'. apply orb_false_iff in E'. destruct E' as [E1 E2]. cbn [map find]. rewrite E1. destruct (aname_eqb (a_name z) n); [reflexivity|auto].
    + cbn in E. specialize (IH E). unfold has_name in *. destruct (aname_eqb_spec (a_name y) n) as [Y|Y].
      * destruct (aname_eqb_spec (a_name x) n) as [X|X]; [|reflexivity]. exfalso. destruct (aname_eqb_spec (a_name y) (a_name x)); congruence.
      * exact IH.
  - unfold has_name in *. induction l as [|y l IH]; cbn; [destruct (aname_eqb _ _); reflexivity|]. cbn in E. apply orb_false_iff in E. destruct E as [E1 E2]. destruct (aname_eqb_spec (a_name y) n) as [Y|Y]; [|exact (IH E2)].
    destruct (aname_eqb_spec (a_name x) n) as [X|X]; [|reflexivity]. exfalso. destruct (aname_eqb_spec (a_name y) (a_name x)); congruence.
Qed.
Lemma lk_fold n l : forall acc, NoDup (map a_name l) -> lk n (fold_left put_attr l acc) = match lk n l with Some v => Some v | None => lk n acc end.
Proof.
  induction l as [|x l IH]; intros acc N; [reflexivity|]. inversion N as [|? ? N1 N2]; subst. cbn [fold_left]. rewrite (IH _ N2), lk_put. unfold lk at 3. cbn [find]. fold (lk n l). destruct (has_name n x) eqn:H; cbn [option_map].
  - assert (X : lk n l = None). { apply lk_none. intros y Hy E. apply N1. unfold has_name in H. destruct (aname_eqb_spec (a_name x) n); [|discriminate]. rewrite e, <- E. now apply in_map. } now rewrite X.
  - unfold lk. reflexivity.
Qed.
Lemma put_names l x : map a_name (put_attr l x) = if existsb (has_name (a_name x)) l then map a_name l else map a_name l ++ [a_name x].
Proof.
  unfold put_attr. destruct (existsb _ l); [|now rewrite map_app]. rewrite map_map. apply map_ext. intros y. unfold has_name. destruct (aname_eqb_spec (a_name y) (a_name x)); congruence.
Qed.
Lemma nodup_put l x : NoDup (map a_name l) -> NoDup (map a_name (put_attr l x)).
Proof.
  intros N. rewrite put_names. destruct (existsb _ l) eqn:E; [exact N|]. apply NoDup_app_intro; [exact N|repeat constructor; intros []|]. intros n Hn [<-|[]]. apply in_map_iff in Hn. destruct Hn as (y & Y & Hy).
  assert (X : existsb (has_name (a_name x)) l = true) by (apply existsb_exists; exists y; split; [exact Hy|]; unfold has_name; destruct (aname_eqb_spec (a_name y) (a_name x)); congruence). congruence.
Qed.
Lemma nodup_puts l : forall acc, NoDup (map a_name acc) -> NoDup (map a_name (fold_left put_attr l acc)).
Proof. induction l as [|x l IH]; intros acc N; [exact N|]. cbn. apply IH. now apply nodup_put. Qed.
Lemma in_put l x y : In y (put_attr l x) -> y = x \/ In y l.
Proof.
  unfold put_attr. destruct (existsb _ l).
  - intros H. apply in_map_iff in H. destruct H as (z & E & Hz). destruct (has_name _ z); subst; auto.
  - intros H. apply in_app_or in H. destruct H as [H|[H|[]]]; auto.
Qed.
Lemma in_puts l : forall acc y, In y (fold_left put_attr l acc) -> In y l \/ In y acc.
Proof. induction l as [|x l IH]; intros acc y H; [now right|]. cbn in H. apply IH in H. destruct H as [H|H]; [left; now right|]. apply in_put in H. destruct H as [->|H]; [left; now left|now right]. Qed.

Lemma dg_rm_other d a b : b <> a -> d_get (d_rm d a) b = d_get d b.
Proof. intros H. unfold d_get, get_value, d_rm, with_attrs. cbn [attrs]. now rewrite get_rm_other by congruence. Qed.
Lemma dg_rm_same d a : d_get (d_rm d a) a = None.
Proof. unfold d_get, get_value, d_rm, with_attrs. cbn [attrs]. now rewrite get_rm_same. Qed.
Lemma dg_set_other d a b v : b <> a -> d_get (d_set d a v) b = d_get d b.
Proof. intros H. unfold d_get, get_value, d_set, with_attrs. cbn [attrs]. now rewrite get_set_other by congruence. Qed.
Lemma dg_set_same d a v : d_get (d_set d a v) a = Some v.
Proof. unfold d_get, get_value, d_set, with_attrs. cbn [attrs]. now rewrite get_set_same. Qed.
Lemma nodup_rm d a : attrs_nodup d -> attrs_nodup (d_rm d a).
Proof. unfold attrs_nodup, d_rm, rm_attr, with_attrs. cbn. apply filter_nodup. Qed.
Lemma t_append_mul m n : t_append m n = t_mul m n.
Proof. unfold t_append, t_mul. apply t_eq; ring. Qed.

(** The attributes after x and y have been moved into the transform. *)
Section Attrs.
  Variable uu : aid -> len -> Qc.
  Variables du dl : ndata.
  Hypothesis Ndu : attrs_nodup du.
  Hypothesis Ndl : attrs_nodup dl.
  Hypothesis Hunits : forall a v, In a [AX; AY] -> d_get du a = Some (VLen v) -> unit v = UNone.
  Hypothesis Hattrs : forall x, In x (attrs du) -> In (a_name x) [AN AX; AN AY; AN AXlinkHref] \/ elsewhere (a_name x) = true.
  Hypothesis Hdis : forall a, d_has du a = true -> d_has dl a = true -> In a [AX; AY; AXlinkHref; AClass].
  Hypothesis Hmoved : d_has du AX = true \/ d_has du AY = true -> d_has dl ATransform = false.

  Definition moved_use : ndata :=
    if d_has du AX || d_has du AY then
      d_rm (d_rm (d_set (d_rm du AXlinkHref) ATransform (VTransform (t_append (get_ts du) (Tr q1 q0 q0 q1 (num (get_len du AX)) (num (get_len du AY)))))) AX) AY
    else d_rm du AXlinkHref.
  Lemma get_rm_href a : a <> AXlinkHref -> d_get (d_rm du AXlinkHref) a = d_get du a.
  Proof. intros H. now apply dg_rm_other. Qed.
  Lemma has_rm_href a : a <> AXlinkHref -> d_has (d_rm du AXlinkHref) a = d_has du a.
  Proof.
    intros H. pose proof (get_rm_href a H) as E. unfold d_get, get_value, d_has, has_attr in *. destruct (get_attr (attrs (d_rm du AXlinkHref)) a), (get_attr (attrs du) a); congruence.
  Qed.
  Lemma shift_moved : shift_use (d_rm du AXlinkHref) = Some moved_use.
  Proof.
    unfold shift_use, moved_use. rewrite !has_rm_href by discriminate. destruct (d_has du AX || d_has du AY); [|reflexivity].
    assert (X : forall a, In a [AX; AY] -> get_len (d_rm du AXlinkHref) a = get_len du a /\ unit (get_len du a) = UNone).
    { intros a Ha. unfold get_len. rewrite get_rm_href by (cbn in Ha; intuition congruence). split; [reflexivity|]. destruct (d_get du a) as [v|] eqn:E; [|reflexivity]. destruct v; try reflexivity. exact (Hunits a _ Ha E). }
    destruct (X AX) as [E1 U1]; [cbn; auto|]. destruct (X AY) as [E2 U2]; [cbn; auto|]. rewrite E1, E2, U1, U2. cbn [unit_eqb andb]. unfold get_ts. rewrite get_rm_href by discriminate. reflexivity.
  Qed.
  Lemma nodup_moved : attrs_nodup moved_use.
  Proof.
    assert (H1 : attrs_nodup (d_rm du AXlinkHref)) by now apply nodup_rm.
    unfold moved_use. destruct (_ || _); [|exact H1]. do 2 apply nodup_rm. now apply nodup_set.
  Qed.
  Lemma get_moved a : ~ In a [AX; AY; AXlinkHref; ATransform] -> d_get moved_use a = d_get du a.
  Proof.
    intros H. cbn in H. unfold moved_use. destruct (_ || _); [|apply get_rm_href; intros ->; tauto].
    transitivity (d_get (d_rm du AXlinkHref) a); [|apply get_rm_href; intros ->; tauto].
    rewrite !dg_rm_other by (intros ->; tauto). rewrite dg_set_other by (intros ->; tauto). apply dg_rm_other. intros ->; tauto.
  Qed.
  Lemma ts_moved : ts_of moved_use = use_ts uu du.
  Proof.
    unfold use_ts. unfold moved_use. destruct (d_has du AX || d_has du AY) eqn:E.
    - unfold ts_of at 1. assert (X : d_get (d_rm (d_rm (d_set (d_rm du AXlinkHref) ATransform (VTransform (t_append (get_ts du) (Tr q1 q0 q0 q1 (num (get_len du AX)) (num (get_len du AY)))))) AX) AY) ATransform =
        Some (VTransform (t_append (get_ts du) (Tr q1 q0 q0 q1 (num (get_len du AX)) (num (get_len du AY)))))).
      { rewrite !dg_rm_other by discriminate. apply dg_set_same. }
      rewrite X, t_append_mul. unfold t_shift. f_equal. f_equal.
      + unfold coordinate, get_len. destruct (d_get du AX) as [v|] eqn:F; [|reflexivity]. destruct v; try reflexivity. now rewrite (Hunits AX _ (or_introl eq_refl) F).
      + unfold coordinate, get_len. destruct (d_get du AY) as [v|] eqn:F; [|reflexivity]. destruct v; try reflexivity. now rewrite (Hunits AY _ (or_intror (or_introl eq_refl)) F).
    - apply orb_false_iff in E. destruct E as [E1 E2]. apply has_lk_none in E1, E2. unfold coordinate. rewrite !get_lk, E1, E2, t_shift_0, t_mul_id_r. unfold ts_of. now rewrite get_rm_href by discriminate.
  Qed.
  Lemma moved_in x : In x (attrs moved_use) -> (In x (attrs du) /\ a_name x <> AN AXlinkHref) \/ exists m, x = At (AN ATransform) (VTransform m) true.
  Proof.
    assert (R : forall x, In x (rm_attr (attrs du) AXlinkHref) -> In x (attrs du) /\ a_name x <> AN AXlinkHref).
    { intros y Hy. apply filter_In in Hy. destruct Hy as [A B]. split; [exact A|]. unfold has_name in B. destruct (aname_eqb_spec (a_name y) (AN AXlinkHref)); [discriminate|exact n]. }
    unfold moved_use. destruct (_ || _).
    - intros H. unfold d_rm, d_set, with_attrs in H. cbn [attrs] in H. apply filter_In in H. destruct H as [H _]. apply filter_In in H. destruct H as [H _]. apply set_attr_in in H. destruct H as [H|H]; [left; now apply R|right; eauto].
    - intros H. left. now apply R.
  Qed.
  Lemma moved_names x : In x (attrs moved_use) -> elsewhere (a_name x) = true.
  Proof.
    intros H. assert (X : In (a_name x) [AN AX; AN AY; AN AXlinkHref] \/ elsewhere (a_name x) = true). { destruct (moved_in x H) as [[Y _]|(m & ->)]; [now apply Hattrs|right; reflexivity]. }
    destruct X as [X|X]; [|exact X]. exfalso. assert (Z : a_name x <> AN AXlinkHref) by (destruct (moved_in x H) as [[_ Y]|(m & ->)]; [exact Y|discriminate]).
    assert (Y : forall a, In a [AX; AY] -> a_name x <> AN a).
    { intros a Ha E. assert (Q : lk (AN a) (attrs moved_use) = None); [|apply (proj1 (lk_none _ _)) with (x := x) in Q; auto]. rewrite <- get_lk. unfold moved_use. destruct (d_has du AX || d_has du AY) eqn:D.
      - destruct Ha as [<-|[<-|[]]]; [rewrite dg_rm_other by discriminate|]; apply dg_rm_same.
      - apply orb_false_iff in D. destruct D as [D1 D2]. rewrite get_rm_href by (cbn in Ha; intuition congruence). rewrite get_lk. destruct Ha as [<-|[<-|[]]]; now apply has_lk_none. }
    cbn in X. destruct X as [X|[X|[X|[]]]]; [apply (Y AX); cbn; auto|apply (Y AY); cbn; auto|now apply Z].
  Qed.
  Lemma has_get d a : d_has d a = true <-> d_get d a <> None.
  Proof. rewrite get_lk. apply has_lk. Qed.
  Lemma has_get_none d a : d_has d a = false <-> d_get d a = None.
  Proof. rewrite get_lk. apply has_lk_none. Qed.
  Lemma moved_transform : d_get moved_use ATransform <> None -> d_get dl ATransform = None.
  Proof.
    intros H. destruct (d_has du AX || d_has du AY) eqn:D.
    - apply has_get_none. apply Hmoved. now apply orb_true_iff in D.
    - unfold moved_use in H. rewrite D in H. rewrite get_rm_href in H by discriminate. apply has_get_none. destruct (d_has dl ATransform) eqn:E; [|reflexivity]. exfalso. apply has_get in H. specialize (Hdis _ H E). cbn in Hdis. intuition discriminate.
  Qed.
  (** The merged element. *)
  Definition merged : ndata := with_attrs dl (fold_left put_attr (attrs moved_use) (attrs dl)).
  Lemma lookup_merged n : lookup n merged = match lookup n moved_use with Some v => Some v | None => lookup n dl end.
  Proof. rewrite !lookup_lk. unfold merged, with_attrs. cbn [attrs]. apply lk_fold, nodup_moved. Qed.
  Lemma get_merged a : d_get merged a = match d_get moved_use a with Some v => Some v | None => d_get dl a end.
  Proof. rewrite <- !lookup_get. apply lookup_merged. Qed.
  Lemma nodup_merged : attrs_nodup merged. Proof. apply nodup_puts, Ndl. Qed.
  Lemma like_merged : like dl merged.
  Proof.
    repeat split. intros n Hn. rewrite lookup_merged. assert (X : lookup n moved_use = None); [|now rewrite X]. rewrite lookup_lk. apply lk_none. intros x Hx E. apply moved_names in Hx. congruence.
  Qed.
  Lemma style_merged c : same_style (dl :: du :: c) (merged :: c).
  Proof.
    intros a Ha. cbn [nearest]. rewrite get_merged. assert (X : ~ In a [AX; AY; AXlinkHref; ATransform]) by (cbn; intros [<-|[<-|[<-|[<-|[]]]]]; discriminate). rewrite (get_moved a X).
    destruct (d_get dl a) as [v|] eqn:E1, (d_get du a) as [w|] eqn:E2; try reflexivity. exfalso. assert (Q : In a [AX; AY; AXlinkHref; AClass]) by (apply Hdis; apply has_get; congruence). cbn in Q. destruct Q as [<-|[<-|[<-|[<-|[]]]]]; discriminate.
  Qed.
  Lemma ts_merged m : t_mul m (ts_of merged) = t_mul (t_mul m (use_ts uu du)) (ts_of dl).
  Proof.
    rewrite <- ts_moved. destruct (d_get moved_use ATransform) as [v|] eqn:E.
    - assert (X : d_get dl ATransform = None) by (apply moved_transform; congruence). unfold ts_of. rewrite get_merged, X, E, t_mul_id_r. reflexivity.
    - assert (Y : ts_of moved_use = t_id) by (unfold ts_of; now rewrite E). rewrite Y, t_mul_id_r. unfold ts_of. rewrite get_merged, E. reflexivity.
  Qed.
  Lemma both_none a : ~ In a [AX; AY; AXlinkHref; AClass] -> d_get du a <> None -> d_get dl a = None.
  Proof. intros N H. apply has_get_none. destruct (d_has dl a) eqn:E; [|reflexivity]. exfalso. apply N. apply Hdis; [now apply has_get|exact E]. Qed.
  Ltac outside := cbn; intuition discriminate.
  Lemma opacity_merged : opacity_of merged = (opacity_of du * opacity_of dl)%Qc.
  Proof.
    unfold opacity_of. rewrite get_merged, get_moved by outside. change q1 with 1%Qc. destruct (d_get du AOpacity) as [v|] eqn:E; [|destruct (d_get dl AOpacity) as [w|]; [destruct w; try ring|ring]].
    rewrite both_none; [destruct v; ring|outside|congruence].
  Qed.
  Lemma effect_out a : In a effect_attrs -> ~ In a [AX; AY; AXlinkHref; ATransform] /\ ~ In a [AX; AY; AXlinkHref; AClass].
  Proof. intros H. cbn in H. repeat (destruct H as [<-|H]; [split; outside|]). destruct H. Qed.
  Lemma given_nil d l : given d l = [] -> forall a, In a l -> d_get d a = None.
  Proof. unfold given. induction l as [|x l IH]; intros H a Ha; [destruct Ha|]. cbn in H. apply app_eq_nil in H. destruct H as [H1 H2]. destruct Ha as [->|Ha]; [destruct (d_get d a); [discriminate|reflexivity]|auto]. Qed.
  Lemma given_merged_l l : (forall a, In a l -> In a effect_attrs) -> given du l = [] -> given merged l = given dl l.
  Proof. intros I H. apply given_ext. intros a Ha. destruct (effect_out a (I a Ha)) as [A B]. rewrite get_merged, (get_moved a A), (given_nil du l H a Ha). reflexivity. Qed.
  Lemma given_merged_r l : (forall a, In a l -> In a effect_attrs) -> given dl l = [] -> given merged l = given du l.
  Proof. intros I H. apply given_ext. intros a Ha. destruct (effect_out a (I a Ha)) as [A B]. rewrite get_merged, (get_moved a A), (given_nil dl l H a Ha). destruct (d_get du a); reflexivity. Qed.
  Lemma displayed_merged : displayed merged <-> displayed du /\ displayed dl.
  Proof.
    unfold displayed. rewrite get_merged, get_moved by outside. destruct (d_get du ADisplay) as [v|] eqn:E.
    - rewrite (both_none ADisplay) by (try outside; congruence). intuition congruence.
    - intuition congruence.
  Qed.
End Attrs.
