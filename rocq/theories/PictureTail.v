(** Passes that change what cannot be seen: ids, version, name space, default transforms; removal of remarks. *)
From Coq Require Import List Bool NArith Arith ZArith String QArith Qcanon Lia.
From Verif Require Import Names Num Value Dom DomFacts DomOps IdNum Outcome SpecDom SpecStyle SpecText SpecPaint PaintFacts Visit TasksSimple TasksSimpleProofs SpecPicture PictureSim PictureTwin Push.
Import ListNotations.
Local Open Scope nat_scope.

Lemma void_filter d p : (forall x, In x (attrs d) -> p x = false -> void_attr d x = true) -> bare_data (with_attrs d (filter p (attrs d))) = bare_data d.
Proof.
  intros H. unfold bare_data. cbn [key tag attrs with_attrs]. f_equal. assert (E : forall x, void_attr (with_attrs d (filter p (attrs d))) x = void_attr d x) by (intros x; reflexivity).
  rewrite (filter_ext _ (fun x => negb (void_attr d x))) by (intros x; now rewrite E). clear E. revert H. generalize (attrs d) as l. induction l as [|x l IH]; intros H; [reflexivity|]. cbn [filter]. destruct (p x) eqn:P.
  - cbn [filter]. rewrite IH by (intros y Hy; apply H; now right). reflexivity.
  - rewrite (H x (or_introl eq_refl) P). cbn [negb]. apply IH. intros y Hy. apply H. now right.
Qed.
Lemma hn_iff n x : has_name n x = true <-> a_name x = n. Proof. unfold has_name. destruct (aname_eqb_spec (a_name x) n); intuition congruence. Qed.
Lemma get_first d a v : NoDup (map a_name (attrs d)) -> d_get d a = Some v -> forall x, In x (attrs d) -> a_name x = AN a -> a_val x = v.
Proof.
  unfold d_get, get_value, get_attr. generalize (attrs d) as l. induction l as [|y l IH]; cbn; [tauto|]. intros N E x. inversion N; subst. destruct (has_name (AN a) y) eqn:P.
  - inversion E; subst. apply hn_iff in P. intros [<-|I] Q; [reflexivity|]. exfalso. apply H1. rewrite P, <- Q. now apply in_map.
  - intros [<-|I] Q; [apply hn_iff in Q; congruence|]. eauto.
Qed.
Lemma get_rm d a : d_get (d_rm d a) a = None.
Proof.
  unfold d_get, get_value, get_attr, d_rm, rm_attr. cbn [attrs with_attrs]. destruct (find _ _) as [x|] eqn:F; [|reflexivity]. apply find_some in F. destruct F as [F1 F2]. apply filter_In in F1. destruct F1 as [_ F1]. rewrite F2 in F1. discriminate.
Qed.
Lemma lookup_rm n a d : n <> AN a -> lookup n (d_rm d a) = lookup n d.
Proof. intros N. unfold d_rm, rm_attr. apply lookup_filter; [reflexivity|]. intros x _ H. apply negb_true_iff. apply hn_iff in H. destruct (has_name (AN a) x) eqn:Q; [|reflexivity]. apply hn_iff in Q. congruence. Qed.
Lemma cosmetic_transform d : attrs_nodup d -> is_default_transform (d_get d ATransform) = true -> cosmetic d (d_rm d ATransform).
Proof.
  intros N D. destruct (d_get d ATransform) as [v|] eqn:G; [|discriminate]. cbn in D. destruct v as [| | | | | | | | |m|]; try discriminate. destruct (transform_eqb_spec m t_id) as [->|]; [|discriminate]. split.
  - constructor; try reflexivity.
    + unfold ts_of. now rewrite G, get_rm.
    + intros n H _. now apply lookup_rm.
  - unfold d_rm, rm_attr. apply void_filter. intros x Hx P. apply negb_false_iff in P. unfold void_attr. rewrite P. apply hn_iff in P. rewrite (get_first d _ _ N G x Hx P). destruct (transform_eqb_spec t_id t_id) as [_|Q]; [reflexivity|now destruct Q].
Qed.
Lemma cosmetic_svg_rm d a : tag d = TEl ESvg -> In a [AVersion; ABaseProfile; AXmlnsXlink] -> cosmetic d (d_rm d a).
Proof.
  intros S I. split.
  - constructor; try reflexivity.
    + unfold ts_of. rewrite <- !lookup_get, lookup_rm; [reflexivity|]. intros E. inversion E; subst. cbn in I. intuition discriminate.
    + intros n H Q. apply lookup_rm. intros ->. apply is_tag_iff in S. destruct Q as [Q|Q]; [congruence|]. apply Q. cbn in *. intuition congruence.
  - unfold d_rm, rm_attr. apply void_filter. intros x Hx P. apply negb_false_iff in P. unfold void_attr. apply is_tag_iff in S. rewrite S. cbn in I. destruct I as [<-|[<-|[<-|[]]]]; rewrite P, ?orb_true_r; reflexivity.
Qed.
Lemma set_absent l a v : has_attr l a = false -> set_attr l a v = l ++ [At (AN a) v true].
Proof. unfold has_attr, get_attr. induction l as [|x l IH]; [reflexivity|]. cbn. destruct (has_name (AN a) x); [discriminate|]. intros H. now rewrite IH. Qed.
Lemma find_app_some {A} (p : A -> bool) l l' : find p (l ++ l') = match find p l with Some x => Some x | None => find p l' end.
Proof. induction l as [|x l IH]; [reflexivity|]. cbn. destruct (p x); auto. Qed.
Lemma cosmetic_xmlns d v : tag d = TEl ESvg -> d_has d AXmlnsXlink = false -> cosmetic d (d_set d AXmlnsXlink v).
Proof.
  intros S H. unfold d_set. rewrite (set_absent _ _ _ H).
  assert (L : forall n, n <> AN AXmlnsXlink -> lookup n (with_attrs d (attrs d ++ [At (AN AXmlnsXlink) v true])) = lookup n d).
  { intros n N. unfold lookup. cbn [attrs with_attrs]. rewrite find_app_some. destruct (find _ (attrs d)); [reflexivity|]. cbn. destruct (has_name n _) eqn:Q; [|reflexivity]. apply hn_iff in Q. cbn in Q. congruence. }
  split.
  - constructor; try reflexivity.
    + unfold ts_of. rewrite <- !lookup_get, L; [reflexivity|discriminate].
    + intros n N Q. apply L. intros ->. apply is_tag_iff in S. destruct Q as [Q|Q]; [congruence|]. apply Q. cbn. auto.
  - unfold bare_data. cbn [key tag attrs with_attrs]. f_equal. rewrite filter_app. cbn [filter]. unfold void_attr at 2. replace (is_tag ESvg (with_attrs d (attrs d ++ [At (AN AXmlnsXlink) v true]))) with true by (symmetry; now apply is_tag_iff).
    replace (has_name (AN AXmlnsXlink) (At (AN AXmlnsXlink) v true)) with true by (symmetry; now apply hn_iff). cbn [andb]. rewrite !orb_true_r. cbn [negb]. rewrite app_nil_r. reflexivity.
Qed.
Lemma twin_upd k f t : (forall d, In d (flat t) -> key d = k -> cosmetic d (f d)) -> twin cosmetic t (upd k f t).
Proof. intros H. unfold upd. apply twin_tmap. intros d Hd. destruct (Nat.eqb_spec (key d) k); [now apply H|apply cosmetic_refl]. Qed.
Lemma twin_ids t : twin cosmetic t (remove_unreferenced_ids t).
Proof. unfold remove_unreferenced_ids. apply twin_tmap. intros d _. destruct (_ && _); [apply cosmetic_id|apply cosmetic_refl]. Qed.
Lemma smap_twin {S} (f : S -> ndata -> ndata * S) : (forall s d, cosmetic d (fst (f s d))) -> forall t s, twin cosmetic t (fst (smap f s t)).
Proof.
  intros H t. induction t as [d ch IH] using tree_ind'. intros s. rewrite smap_T. cbn [fst]. constructor; [apply H|]. generalize (snd (f s d)) as s1. clear s. induction ch as [|c ch IH2]; intros s1; [constructor|].
  cbn [smap_forest]. destruct (smap f s1 c) as [c' s2] eqn:E. fold (smap_forest f s2 ch). destruct (smap_forest f s2 ch) as [r s3] eqn:E2. cbn [fst]. constructor.
  - pose proof (Forall_inv IH s1) as X. now rewrite E in X.
  - pose proof (IH2 (Forall_inv_tail IH) s2) as X. now rewrite E2 in X.
Qed.
Lemma twin_trim t t' : trim_ids t = Ok t' -> twin cosmetic t t'.
Proof.
  unfold trim_ids. pose proof (smap_twin trim_node) as P. assert (Q : forall s d, cosmetic d (fst (trim_node s d))). { intros s d. unfold trim_node. destruct s; [|apply cosmetic_refl]. destruct (_ && _); [apply cosmetic_id|apply cosmetic_refl]. }
  specialize (P Q t (Some num_new)). destruct (smap trim_node (Some num_new) t) as [t1 [n|]]; [|discriminate]. intros E. inversion E; subst. exact P.
Qed.
Lemma svg_is t s d : NoDup (keys t) -> svg_element t = Some s -> In d (flat t) -> key d = root_key s -> d = data s /\ tag d = TEl ESvg.
Proof.
  intros N E Hd K. unfold svg_element in E. apply find_some in E. destruct E as [I S]. assert (Hs : In s (subs t)). { apply (kid_sub t s t); [apply subs_self|exact I]. }
  assert (d = data s). { apply (data_unique t); auto. now apply data_of_sub. } subst d. split; [reflexivity|now apply is_tag_iff].
Qed.
Lemma twin_version t t' : NoDup (keys t) -> remove_version t = Ok t' -> twin cosmetic t t'.
Proof.
  intros N. unfold remove_version, on_svg. destruct (svg_element t) as [s|] eqn:E; [|discriminate]. intros X. inversion X; subst. apply twin_upd. intros d Hd K. destruct (svg_is t s d N E Hd K) as [_ S].
  eapply cosmetic_trans; apply cosmetic_svg_rm; auto; cbn; auto.
Qed.
Lemma twin_refl t : twin cosmetic t t. Proof. rewrite <- (tmap_id (fun d => d) t) by auto. rewrite (tmap_id (fun d => d) t) at 1 by auto. apply twin_tmap. intros. apply cosmetic_refl. Qed.
Lemma twin_xmlns b t t' : NoDup (keys t) -> fix_xmlns_attribute b t = Ok t' -> twin cosmetic t t'.
Proof.
  intros N. unfold fix_xmlns_attribute, on_svg. destruct (svg_element t) as [s|] eqn:E; [|discriminate]. cbv zeta. destruct (_ && _ && _).
  - intros X. inversion X; subst. apply twin_upd. intros d Hd K. destruct (svg_is t s d N E Hd K) as [_ S]. apply cosmetic_svg_rm; cbn; auto.
  - destruct (has_links t && negb (d_has (data s) AXmlnsXlink)) eqn:Q; intros X; inversion X; subst; [|apply twin_refl]. apply andb_true_iff in Q. destruct Q as [_ Q]. apply negb_true_iff in Q.
    apply twin_upd. intros d Hd K. destruct (svg_is t s d N E Hd K) as [-> S]. now apply cosmetic_xmlns.
Qed.
Lemma twin_default t : WFA t -> twin cosmetic t (remove_default_transform t).
Proof.
  intros W. unfold remove_default_transform. apply twin_tmap. intros d Hd. destruct (is_default_transform _) eqn:D; [|apply cosmetic_refl]. apply cosmetic_transform; [|exact D]. exact (proj1 (Forall_forall _ _) W d Hd).
Qed.
