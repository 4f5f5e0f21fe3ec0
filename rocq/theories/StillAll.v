(** What no pass brings into a document: every pass. *)
From Coq Require Import List Bool NArith Arith ZArith String Lia QArith Qcanon.
From Verif Require Paths.
From Verif Require Import Names Num Value Dom DomFacts DomOps Outcome DomRemove SpecDom SpecWritten Gradients Stops Shapes NPass APass VLoop Transforms Links Inherit Round RmDefault UnusedCoords RmText Needless GradUnits JoinStyle Move MoveFacts RmUnusedDefs GroupDefs Dupl MergeGradients Regroup Img ResolveUse Ungroup GroupStyle RmInvisible TasksSimple WfAll WfGrad Mild MildMerge MildUse Still StyleTable Ends GroupDefsEnd Cli Clean SpecClean.
Import ListNotations.
Local Open Scope nat_scope.

Definition exempt_el (e : eid) : bool := match e with EA | EImage | EFontFaceUri | EFeImage => true | _ => false end.
Inductive class : Type := Strict | Exempt | Foreign.
Definition cls (d : ndata) : class := match tag d with TEl e => if exempt_el e then Exempt else Strict | _ => Foreign end.
Section still.
Variable X : tagt -> Prop.
Variables chk inv : bool.
Variable CV : Prop.
Local Notation K := (@Still.K CV).
Hypothesis Xok : (CV -> forall d, shape_el d -> X (TEl EPath) -> X (tag d)) /\ ~ X (TEl EDefs).

Definition L (v : value) : Prop := link_of v <> None \/ (inv = true /\ (v = VPre Vid_none \/ exists r g b, v = VColor r g b)).
Definition oka (c : class) (y : attr) : Prop :=
  match c, a_name y with
  | Foreign, _ | _, ANx _ => True
  | _, AN a => if special a then match a with AXlinkHref => c = Exempt \/ L (a_val y) | ARequiredFeatures | ASystemLanguage => a_val y = VStr "" | _ => False end else True
  end.
Section classes.
Variable Cl : nat -> class.
Definition okn (d : ndata) : Prop := ~ X (tag d) /\ (chk = true -> cls d = Cl (key d) /\ forall y, In y (attrs d) -> oka (cls d) y).
Definition alln (t : tree) : Prop := forall d, In d (flat t) -> okn d.

Lemma dull_oka c y : dull y -> oka c y. Proof. unfold dull, oka. destruct c; auto; destruct (a_name y); auto; now intros ->. Qed.
Lemma same_oka c z y : a_name z = a_name y -> a_val z = a_val y -> oka c z -> oka c y. Proof. unfold oka. now intros -> ->. Qed.
Lemma strict_oka c y : oka Strict y -> oka c y.
Proof. destruct c; auto; [|intros _; exact I]. unfold oka. destruct (a_name y) as [a|]; [|auto]. destruct (special a); [|auto]. destruct a; auto. Qed.
Lemma alln_T d ch : alln (T d ch) <-> okn d /\ forall c, In c ch -> alln c.
Proof.
  unfold alln. cbn. split.
  - intros H. split; [apply H; auto|]. intros c Hc x Hx. apply H. right. apply in_flat_map. eauto.
  - intros [H1 H2] x [<-|Hx]; [exact H1|]. apply in_flat_map in Hx. destruct Hx as (c & Hc & Hx). exact (H2 c Hc x Hx).
Qed.
Lemma alln_incl t t' : incl (flat t') (flat t) -> alln t -> alln t'. Proof. intros I H d Hd. apply H, I, Hd. Qed.
Lemma alln_tmap f t : (forall d, In d (flat t) -> okn d -> okn (f d)) -> alln t -> alln (tmap f t).
Proof. intros F H d Hd. rewrite flat_tmap in Hd. apply in_map_iff in Hd. destruct Hd as (x & <- & Hx). auto. Qed.
Lemma alln_upd k f t : (forall d, In d (flat t) -> key d = k -> okn d -> okn (f d)) -> alln t -> alln (upd k f t).
Proof. intros F. apply alln_tmap. intros d Hd O. destruct (Nat.eqb_spec (key d) k); auto. Qed.
Lemma okn_from d d' : okn d -> tag d' = tag d -> key d' = key d -> (chk = true -> forall y, In y (attrs d') -> (exists z, In z (attrs d) /\ a_name z = a_name y /\ a_val z = a_val y) \/ oka (cls d) y) -> okn d'.
Proof.
  intros [T1 A1] Et Ek A. split; [now rewrite Et|]. intros C. destruct (A1 C) as [A2 A3]. assert (Ec : cls d' = cls d) by (unfold cls; now rewrite Et). rewrite Ec, Ek. split; [exact A2|]. intros y Hy. destruct (A C y Hy) as [(z & Hz & N & V)|H]; [|exact H]. exact (same_oka _ z y N V (A3 z Hz)).
Qed.
Lemma K_okn d d' : K d d' -> okn d -> okn d'.
Proof.
  intros [Kk Kt Ka] O. destruct Kt as [Et|[Et [Cv S]]].
  - apply (okn_from d d' O Et Kk). intros _ y Hy. destruct (Ka y Hy) as [H|H]; [auto|right; now apply dull_oka].
  - destruct O as [T1 A1]. split; [rewrite Et; intros Q; apply T1; exact (proj1 Xok Cv d S Q)|]. intros C. destruct (A1 C) as [A2 A3]. assert (Ec : cls d' = cls d). { destruct S as (e & Te & I). unfold cls. rewrite Et, Te. cbn in I. intuition (subst; reflexivity). }
    rewrite Ec, Kk. split; [exact A2|]. intros y Hy. destruct (Ka y Hy) as [(z & Hz & N & V)|H]; [exact (same_oka _ z y N V (A3 z Hz))|now apply dull_oka].
Qed.
Lemma shk_alln t t' : shr K t t' -> alln t -> alln t'.
Proof.
  revert t'. induction t as [d ch IH] using tree_ind'. intros t' S. inversion S as [? d' ? ch' Kd Sl]; subst. rewrite !alln_T. intros [O H]. split; [exact (K_okn _ _ Kd O)|]. rewrite Forall_forall in IH. clear S Kd O. induction Sl as [|c l l' Sl IHl|c c' l l' Sc Sl IHl]; [intros ? []| |].
  - apply IHl. { intros y Hy. apply IH. now right. } intros y Hy. apply H. now right.
  - intros x [<-|Hx]; [apply (IH c); [now left|exact Sc|apply H; now left]|]. apply IHl; auto. { intros y Hy. apply IH. now right. } intros y Hy. apply H. now right.
Qed.
(** Loops over nodes *)
Lemma n_vloop f ks : (forall t d d', f t d = Ok d' -> okn d -> okn d') -> forall t t', vloop f ks t = Ok t' -> alln t -> alln t'.
Proof.
  intros F. induction ks as [|k ks IH]; intros t t' E H; cbn in E; [now injection E as <-|]. destruct (find_data k t) as [d|] eqn:Ed; [|exact (IH _ _ E H)]. apply bind_ok in E. destruct E as (d' & E1 & E). apply find_data_some in Ed. destruct Ed as [Hd Kd].
  apply (IH _ _ E). apply alln_upd; [|exact H]. intros _ _ _ _. exact (F _ _ _ E1 (H d Hd)).
Qed.
Lemma n_vloopK f ks t t' : (forall t d d', f t d = Ok d' -> K d d') -> vloop f ks t = Ok t' -> alln t -> alln t'.
Proof. intros F. apply n_vloop. intros u d d' E. apply K_okn. exact (F _ _ _ E). Qed.
Lemma n_apass f t : (forall a d d', f a d = Ok d' -> okn d -> okn d') -> forall a t', apass f a t = Ok t' -> alln t -> alln t'.
Proof.
  intros F. induction t as [d ch IH] using tree_ind'. intros a t' E H. cbn [apass] in E. apply bind_ok in E. destruct E as (d' & E1 & E). apply bind_ok in E. destruct E as (ch' & E2 & E). injection E as <-. apply alln_T in H. destruct H as [O H]. apply alln_T. split; [exact (F _ _ _ E1 O)|]. rewrite Forall_forall in IH.
  clear E1 O. revert ch' E2. induction ch as [|c ch IHc]; intros ch' E2; [injection E2 as <-; intros ? []|]. apply bind_ok in E2. destruct E2 as (c' & E3 & E2). apply bind_ok in E2. destruct E2 as (r & E4 & E2). injection E2 as <-. intros x [<-|Hx]; [apply (IH c (or_introl eq_refl) _ _ E3), H; now left|].
  apply (IHc (fun y Hy => IH y (or_intror Hy)) (fun y Hy => H y (or_intror Hy)) r E4 x Hx).
Qed.
Lemma n_linear t t' : resolve_linear_gradient_attributes t = Some (Ok t') -> alln t -> alln t'.
Proof. unfold resolve_linear_gradient_attributes. destruct (gen_order _ t); [|discriminate]. intros E. injection E as E. exact (n_vloopK _ _ t t' linear_K E). Qed.
Lemma n_radial t t' : resolve_radial_gradient_attributes t = Some (Ok t') -> alln t -> alln t'.
Proof. unfold resolve_radial_gradient_attributes. destruct (gen_order _ t); [|discriminate]. intros E. injection E as E. exact (n_vloopK _ _ t t' radial_K E). Qed.
(** Parts of documents *)
Lemma okn_new k e s l : ~ X (TEl e) -> (if exempt_el e then Exempt else Strict) = Cl k -> (forall y, In y l -> oka (if exempt_el e then Exempt else Strict) y) -> okn (ND k (TEl e) s l).
Proof. intros N Ek A. split; cbn; [exact N|]. intros _. split; [exact Ek|]. exact A. Qed.
Lemma alln_sub t s : In s (subs t) -> alln t -> alln s.
Proof. intros H. apply alln_incl. intros d Hd. exact (sub_flat_in s t d H Hd). Qed.
Lemma alln_find k t s : find_sub k t = Some s -> alln t -> alln s.
Proof. intros E. apply find_sub_some in E. apply alln_sub, E. Qed.
Lemma okn_find k t d : find_data k t = Some d -> alln t -> okn d.
Proof. intros E H. apply find_data_some in E. apply H, E. Qed.
Lemma alln_kids s c : alln s -> In c (kids s) -> alln c.
Proof. destruct s as [d ch]. rewrite alln_T. intros [_ H]. apply H. Qed.
Lemma alln_data s : alln s -> okn (data s).
Proof. destruct s as [d ch]. rewrite alln_T. intros [H _]. exact H. Qed.
Lemma kids_of_alln k t c : alln t -> In c (kids_of k t) -> alln c.
Proof. intros H. unfold kids_of. destruct (find_sub k t) as [s|] eqn:E; [|intros []]. apply alln_kids. exact (alln_find _ _ _ E H). Qed.
Lemma alln_set_kids k f t : (forall ch, (forall c, In c ch -> alln c) -> forall c, In c (f ch) -> alln c) -> alln t -> alln (set_kids k f t).
Proof.
  intros F. induction t as [d ch IH] using tree_ind'. rewrite Forall_forall in IH. rewrite alln_T. intros [O H]. cbn [set_kids]. destruct (Nat.eqb _ _); apply alln_T; (split; [exact O|]); [now apply F|]. intros c Hc. apply in_map_iff in Hc. destruct Hc as (x & <- & Hx). apply IH; auto.
Qed.
Lemma okn_filter p d : okn d -> okn (with_attrs d (filter p (attrs d))). Proof. apply K_okn, K_filter, K_refl. Qed.
Lemma alln_unlink ks t : alln t -> alln (unlink ks t). Proof. apply alln_tmap. intros d _. apply okn_filter. Qed.
Lemma alln_detach k t : alln t -> alln (detach k t). Proof. apply alln_incl, flat_detach_incl. Qed.
Lemma alln_remove k t : alln t -> alln (remove k t). Proof. intros H. now apply alln_detach, alln_unlink. Qed.
Lemma alln_remove_nodes ks : forall t, alln t -> alln (remove_nodes ks t). Proof. unfold remove_nodes. induction ks as [|k ks IH]; intros t H; cbn; [exact H|]. now apply IH, alln_remove. Qed.
Lemma alln_drain p t : alln t -> alln (fst (drain p t)).
Proof.
  intros H. unfold drain. assert (G : forall ks st, alln (fst st) -> alln (fst (fold_left (drain_step p) ks st))); [|now apply G]. induction ks as [|k ks IH]; intros [u n] Hu; cbn [fold_left]; [exact Hu|]. apply IH. cbn. destruct (find_sub k u) as [s|]; [|exact Hu]. destruct (p u s); [now apply alln_remove|exact Hu].
Qed.
Lemma alln_move k p t : alln t -> alln (move k p t).
Proof.
  intros H. unfold move. destruct (find_sub k t) as [s|] eqn:E; [|exact H]. apply alln_set_kids; [|now apply alln_detach]. intros ch Hch c Hc. apply in_app_or in Hc. destruct Hc as [Hc|[<-|[]]]; [auto|exact (alln_find _ _ _ E H)].
Qed.
(** resolve_inherit *)
Lemma okn_set d a v : okn d -> (chk = true -> oka (cls d) (At (AN a) v true)) -> okn (d_set d a v).
Proof.
  intros O A. apply (okn_from d); [exact O|reflexivity|reflexivity|]. intros C y Hy. cbn in Hy. apply set_attr_from in Hy. destruct Hy as [Hy| ->]; [left; eauto|right; exact (A C)].
Qed.
Definition free (d : ndata) (a : aid) : Prop := chk = true -> special a = false \/ cls d = Foreign \/ (a = AXlinkHref /\ cls d = Exempt).
Lemma free_oka d a v vis : free d a -> chk = true -> oka (cls d) (At (AN a) v vis).
Proof. intros F C. unfold oka. cbn. destruct (F C) as [-> |[-> |[-> ->]]]; cbn; auto. now destruct (cls d). Qed.
Lemma keyword_free w d a : (w = Vid_inherit \/ w = Vid_currentColor) -> okn d -> In a (keyword_attrs w d) -> free d a.
Proof.
  intros W [_ A] H C. destruct (A C) as [_ A']. clear A. apply in_flat_map in H. destruct H as (y & Hy & H). specialize (A' y Hy). unfold oka in A'. destruct (cls d) eqn:Ec; [| |auto].
  all: destruct (a_name y) as [b|] eqn:En; [|destruct H]; destruct (a_val y) eqn:Ev; try destruct H; destruct (vid_eqb_spec v w) as [-> |Q]; [|destruct H]; destruct H as [-> |[]]; (destruct (special a) eqn:S; [|now left]); right; right; destruct a; try (exfalso; exact A'); try discriminate A'; (split; [reflexivity|]).
  all: destruct A' as [A'|[A'|[_ [A'|(r & g & b & A')]]]]; [exact A'|contradiction A'; reflexivity| |discriminate A']; injection A' as ->; destruct W; discriminate.
Qed.
Lemma n_each f l : (forall a d d', f a d = Ok d' -> tag d' = tag d /\ (okn d -> free d a -> okn d')) -> forall d d', each f l d = Ok d' -> okn d -> (forall a, In a l -> free d a) -> okn d' /\ tag d' = tag d.
Proof.
  intros F. induction l as [|a l IH]; intros d d' E O Fr; cbn in E; [injection E as <-; auto|]. apply bind_ok in E. destruct E as (x & E1 & E). destruct (F _ _ _ E1) as [Tx Ox]. destruct (IH _ _ E) as [A B].
  - apply Ox; [exact O|]. apply Fr. now left.
  - intros b Hb. unfold free, cls. rewrite Tx. apply Fr. now right.
  - split; [exact A|congruence].
Qed.
Lemma resolve_impl_n anc c p d d' : resolve_impl anc c p d = Ok d' -> tag d' = tag d /\ (okn d -> free d c -> okn d').
Proof.
  unfold resolve_impl. destruct (find _ anc) as [n|]; [|discriminate]. destruct (d_get n p) as [v|]; intros E; injection E as <-; (split; [reflexivity|]); auto. intros O F. apply okn_set; [exact O|]. now apply free_oka.
Qed.
Lemma n_inherit t t' : resolve_inherit t = Ok t' -> alln t -> alln t'.
Proof.
  intros E. unfold resolve_inherit in E. apply bind_ok in E. destruct E as (u & E & E'). destruct (links_allowed t u); [|discriminate]. injection E' as <-. revert E. apply n_apass. intros anc d d'. unfold inherit_node. destruct (is_svg_el d); [|intros E; now injection E as <-]. intros E O. apply bind_ok in E. destruct E as (x & E1 & E2).
  destruct (n_each _ _ (fun a d d' => resolve_impl_n anc a a d d') _ _ E1 O) as [Ox Tx]; [intros a; apply keyword_free; auto|].
  refine (proj1 (n_each _ _ _ _ _ E2 Ox _)).
  - intros a y y'. unfold resolve_color. destruct (d_get y AColor) as [v|]; [intros Q; injection Q as <-; split; [reflexivity|]; intros Oy F; apply okn_set; [exact Oy|now apply free_oka]|]. apply resolve_impl_n.
  - intros a Ha. unfold free, cls. rewrite Tx. apply (keyword_free Vid_currentColor d a); auto.
Qed.
(** group_defs *)
Lemma inheritable_dull a : is_inheritable a = true -> special a = false.
Proof. destruct a; cbn; try reflexivity; discriminate. Qed.
Lemma okn_add d l : okn d -> okn (add_missing l d).
Proof.
  intros O. unfold add_missing. assert (G : forall ys x, (forall y, In y ys -> inheritable_attr y = true) -> okn x -> okn (fold_left add_attr ys x)).
  { induction ys as [|y ys IH]; intros x I Ox; cbn; [exact Ox|]. apply IH; [intros; apply I; now right|]. unfold add_attr. assert (Iy := I y (or_introl eq_refl)). unfold inheritable_attr in Iy. destruct (a_name y) as [a|] eqn:En; [|exact Ox]. destruct (d_has x a); [exact Ox|].
    apply (okn_from x); [exact Ox|reflexivity|reflexivity|]. intros _ z Hz. cbn in Hz. apply in_app_or in Hz. destruct Hz as [Hz|[<-|[]]]; [left; eauto|right]. apply dull_oka. unfold dull. rewrite En. now apply inheritable_dull. }
  apply G; [|exact O]. intros y Hy. apply in_flat_map in Hy. destruct Hy as (p & _ & Hy). apply filter_In in Hy. apply Hy.
Qed.
Lemma n_resolve k t : alln t -> alln (resolve_attrs k t).
Proof.
  intros H. unfold resolve_attrs. destruct (context k t) as [[anc n]|]; [|exact H]. destruct (resolves n); [|exact H]. revert H. apply alln_tmap. intros d _ O. destruct (existsb _ _); [now apply okn_add|exact O].
Qed.
Lemma alln_leaf k e s l : ~ X (TEl e) -> (if exempt_el e then Exempt else Strict) = Cl k -> (forall y, In y l -> oka (if exempt_el e then Exempt else Strict) y) -> alln (T (ND k (TEl e) s l) []).
Proof. intros N Ek A. apply alln_T. split; [now apply okn_new|intros ? []]. Qed.
Lemma n_main svg t : Cl (fresh t) = Strict -> alln t -> alln (snd (main_defs svg t)).
Proof.
  intros Ef H. assert (P : forall c u, alln c -> alln u -> alln (set_kids (root_key svg) (fun l => c :: l) u)) by (intros c u Hc; apply alln_set_kids; intros ch Hch x [<-|Hx]; auto).
  unfold main_defs. destruct (first_defs t) as [d|]; [|apply P; [apply alln_leaf; [apply Xok|now rewrite Ef|intros ? []]|exact H]].
  assert (Q : alln (match find_sub (key d) t with Some s => set_kids (root_key svg) (fun l => s :: l) (detach (key d) t) | None => t end)).
  { destruct (find_sub (key d) t) as [s|] eqn:E; [|exact H]. apply P; [exact (alln_find _ _ _ E H)|now apply alln_detach]. }
  destruct (kids svg) as [|c l]; [exact Q|]. destruct (Nat.eqb _ _); [exact H|exact Q].
Qed.
Lemma n_fold {A} (f : tree -> A -> tree) l : (forall t x, alln t -> alln (f t x)) -> forall t, alln t -> alln (fold_left f l t).
Proof. intros F. induction l as [|x l IH]; intros t H; cbn; auto. Qed.
Lemma n_groupdefs t t' : Cl (fresh t) = Strict -> group_defs t = Ok t' -> alln t -> alln t'.
Proof.
  intros Ef Q H. unfold group_defs in Q. destruct (svg_element t) as [svg|]; [|discriminate]. pose proof (n_main svg t Ef H) as H1. destruct (main_defs svg t) as [m t1]. cbn in H1. destruct (moves_ok _ _ _); [|discriminate]. injection Q as <-.
  apply alln_remove_nodes, n_fold; [intros u k; apply alln_move|]. apply n_fold; [|exact H1]. intros u k Hu. apply alln_move. now apply n_resolve.
Qed.
(** remove_unused_defs *)
Lemma n_defs_round t ch ch' : defs_round t ch = Some ch' -> (forall c, In c ch -> alln c) -> forall c, In c ch' -> alln c.
Proof.
  unfold defs_round. destruct (existsb _ _); [|discriminate]. intros E. injection E as <-. intros H c Hc. apply in_app_or in Hc. destruct Hc as [Hc|Hc]; apply in_flat_map in Hc; destruct Hc as (x & Hx & Hc); specialize (H x Hx).
  - unfold left_over in Hc. destruct (unused t x); [|destruct Hc as [<-|[]]; exact H]. destruct (kids x); [destruct Hc|]. destruct Hc as [<-|[]]. apply alln_T. split; [now apply alln_data|intros ? []].
  - unfold RmUnusedDefs.moved in Hc. destruct (unused t x); [|destruct Hc]. exact (alln_kids x c H Hc).
Qed.
Lemma n_defs_loop k n : forall t t', defs_loop n k t = Some t' -> alln t -> alln t'.
Proof.
  induction n as [|n IH]; intros t t' E H; cbn in E; destruct (defs_round t (kids_of k t)) as [ch|] eqn:R; try discriminate; try (now injection E as <-).
  apply (IH _ _ E). apply alln_set_kids; [|exact H]. intros _ _. refine (n_defs_round _ _ _ R _). intros c. now apply kids_of_alln.
Qed.
Lemma n_unused t t' : remove_unused_defs t = Some (Ok t') -> alln t -> alln t'.
Proof. unfold remove_unused_defs. destruct (first_defs t) as [d|]; [|discriminate]. destruct (defs_loop _ _ t) as [u|] eqn:E; [|discriminate]. intros Q. injection Q as <-. exact (n_defs_loop _ _ _ _ E). Qed.
(** rm_dupl *)
Lemma refers_link k y : refers k y = true -> link_of (a_val y) <> None.
Proof. unfold refers. destruct (link_of (a_val y)); [discriminate|discriminate]. Qed.
Lemma link_value_of a k : link_of (link_value a k) <> None. Proof. unfold link_value. destruct (aid_eqb _ _); discriminate. Qed.
(** An attribute that is a link may be given another value that is allowed for links. *)
Lemma relinked c y a v vis : a_name y = AN a -> link_of (a_val y) <> None -> oka c y -> L v -> oka c (At (AN a) v vis).
Proof.
  unfold oka. intros -> N. cbn. destruct c; [| |auto]; (destruct (special a); [|auto]); destruct a; auto; intros Q; rewrite Q in N; contradiction N; reflexivity.
Qed.
Lemma n_relink k2 n1 t t' : relink k2 n1 t = Ok t' -> alln t -> alln t'.
Proof.
  unfold relink. destruct (forallb _ _); [|discriminate]. destruct (forallb _ _); [|discriminate]. intros E. injection E as <-. apply alln_tmap. intros d _ O. destruct (String.eqb _ _); [exact O|]. apply (okn_from d); [exact O|reflexivity|reflexivity|]. intros C y Hy. cbn in Hy. apply in_map_iff in Hy. destruct Hy as (z & <- & Hz). unfold relink_attr. destruct (refers k2 z) eqn:R; [|left; eauto]. destruct (a_name z) as [a|] eqn:En; [|left; eauto].
  right. apply (relinked (cls d) z); [exact En|exact (refers_link _ _ R)|exact (proj2 (proj2 O C) z Hz)|]. left. apply link_value_of.
Qed.
Lemma n_inner cmp k1 rest : forall t l t', dupl_inner cmp k1 rest t = Ok (l, t') -> alln t -> alln t'.
Proof.
  induction rest as [|k2 r IH]; intros t l t' E H; cbn in E; [now injection E as _ <-|]. destruct (find_sub k1 t) as [s1|]; [|exact (IH _ _ _ E H)]. destruct (find_sub k2 t) as [s2|]; [|exact (IH _ _ _ E H)]. apply bind_ok in E. destruct E as (b & _ & E). destruct b.
  - apply bind_ok in E. destruct E as (t1 & E1 & E). apply (IH _ _ _ E). apply alln_remove. exact (n_relink _ _ _ _ E1 H).
  - apply bind_ok in E. destruct E as ([l1 t1] & E1 & E). injection E as _ <-. exact (IH _ _ _ E1 H).
Qed.
Lemma n_rm_loop cmp l t t' : rm_loop cmp l t = Ok t' -> alln t -> alln t'.
Proof.
  unfold rm_loop. generalize (List.length l) as n. intros n. revert l t. induction n as [|n IH]; intros [|k1 rest] t E H; cbn in E; try (now injection E as <-). apply bind_ok in E. destruct E as ([l1 t1] & E1 & E). apply (IH _ _ E). exact (n_inner _ _ _ _ _ _ E1 H).
Qed.
(** merge_gradients *)
Lemma n_take l d : okn d -> okn (take_attrs l d).
Proof.
  intros O. apply (okn_from d); [exact O|reflexivity|reflexivity|]. intros _ y Hy. left. cbn [attrs with_attrs] in Hy. unfold take_attrs in Hy. cbn in Hy. revert Hy.
  assert (G : forall as_ ys, (forall y, In y ys -> exists z, In z (attrs d) /\ a_name z = a_name y /\ a_val z = a_val y) -> forall y, In y (fold_left (show_linked l) as_ ys) -> exists z, In z (attrs d) /\ a_name z = a_name y /\ a_val z = a_val y).
  { induction as_ as [|a as_ IH]; intros ys Q; cbn; [exact Q|]. apply IH. unfold show_linked. destruct (get_attr _ _) as [x|]; [|exact Q]. destruct (a_vis x); [|exact Q]. intros w Hw. unfold show_attr in Hw. apply in_map_iff in Hw. destruct Hw as (z & <- & Hz). destruct (Q z Hz) as (z0 & A & B & C). exists z0. destruct (has_name _ z); cbn; auto. }
  apply G. intros z Hz. unfold rm_attr in Hz. apply filter_In in Hz. exists z. tauto.
Qed.
Lemma n_merge_visit st k : alln (fst st) -> alln (fst (merge_visit st k)).
Proof.
  destruct st as [t ks]. cbn [fst]. intros H. unfold merge_visit. destruct (find_sub k t) as [s|]; [|exact H]. destruct (d_get (data s) AXlinkHref) as [v|]; [|exact H]. destruct v as [| | | | | | |j| | |]; try exact H. destruct (find_sub j t) as [l|] eqn:El; [|exact H]. destruct (_ && _); [|exact H]. cbn [fst].
  apply alln_upd; [intros d _ _; apply n_take|]. destruct (kids s); [|exact H]. apply alln_set_kids; [intros _ _ c; apply alln_kids; exact (alln_find _ _ _ El H)|]. apply alln_set_kids; [intros _ _ c []|exact H].
Qed.
Lemma n_merge_round t : alln t -> alln (fst (merge_round t)).
Proof.
  intros H. unfold merge_round. generalize (map key (filter is_gradient (flat t))) as ks. intros ks. assert (G : forall st, alln (fst st) -> alln (fst (fold_left merge_visit ks st))); [|now apply G]. induction ks as [|k ks IH]; intros st Hs; cbn; [exact Hs|]. now apply IH, n_merge_visit.
Qed.
Lemma n_merge n : forall t t', merge_gradients n t = Some t' -> alln t -> alln t'.
Proof.
  induction n as [|n IH]; intros t t' E H; cbn in E; [discriminate|]. pose proof (n_merge_round t H) as R. destruct (merge_round t) as [t1 [|k ks]]; cbn in R; [now injection E as <-|]. apply (IH _ _ E). now apply (alln_remove_nodes (k :: ks)).
Qed.
(** ungroup_groups *)
Lemma put_from l x y : In y (put_attr l x) -> In y l \/ y = x.
Proof.
  unfold put_attr. destruct (existsb _ _); intros H; [apply in_map_iff in H; destruct H as (z & <- & Hz); destruct (has_name _ z); auto|apply in_app_or in H; destruct H as [H|[<-|[]]]; auto].
Qed.
Lemma okn_put d x : okn d -> (chk = true -> oka (cls d) x) -> okn (with_attrs d (put_attr (attrs d) x)).
Proof. intros O A. apply (okn_from d); [exact O|reflexivity|reflexivity|]. intros C y Hy. cbn in Hy. apply put_from in Hy. destruct Hy as [Hy| ->]; [left; eauto|right; auto]. Qed.
Lemma okn_set_dull d a v : okn d -> special a = false -> okn (d_set d a v). Proof. intros O S. apply (K_okn d); [|exact O]. apply K_set; [apply K_refl|exact S]. Qed.
Lemma okn_map_dull d a v : okn d -> special a = false -> okn (map_value d a v). Proof. intros O S. apply (K_okn d); [|exact O]. apply K_map_value; [apply K_refl|exact S]. Qed.
Lemma n_give_attr t x c c' : (chk = true -> oka Strict x) -> give_attr t x c = Ok c' -> okn c -> okn c'.
Proof.
  intros A E O. unfold give_attr in E. destruct (a_name x) as [a|]; [|now injection E as <-].
  assert (P : (if put_ok t c x then Ok (with_attrs c (put_attr (attrs c) x)) else Panic) = Ok c' -> okn c') by (destruct (put_ok t c x); [|discriminate]; intros Q; injection Q as <-; apply okn_put; [exact O|]; intros C; apply strict_oka; auto).
  destruct (aid_eqb_spec a AOpacity) as [Ea|Ea]; cbn [andb] in E; [destruct (d_has c a)|]; cbn [andb] in E.
  - destruct (a_val x); try discriminate. destruct (d_get c a) as [[]|]; try discriminate. injection E as <-. apply okn_set_dull; [exact O|now rewrite Ea].
  - rewrite Ea in E. cbn in E. exact (P E).
  - destruct (aid_eqb_spec a ATransform) as [Et|Et]; cbn [andb] in E; [destruct (d_has c a)|]; cbn [andb] in E.
    + injection E as <-. destruct (a_val x); try exact O. destruct (d_get c a) as [[]|]; try exact O. apply okn_map_dull; [exact O|now rewrite Et].
    + rewrite Et in E. cbn in E. exact (P E).
    + destruct (aid_eqb a ADisplay); [exact (P E)|]. destruct (d_has c a); [now injection E as <-|exact (P E)].
Qed.
Lemma give_attrs_panic t l : fold_left (fun r x => bind r (give_attr t x)) l Panic = Panic. Proof. induction l; cbn; auto. Qed.
Lemma give_attrs_err t l e : fold_left (fun r x => bind r (give_attr t x)) l (Err e) = Err e. Proof. induction l; cbn; auto. Qed.
Lemma n_give_attrs t l : (chk = true -> forall x, In x l -> oka Strict x) -> forall c c', give_attrs t l c = Ok c' -> okn c -> okn c'.
Proof.
  intros A. unfold give_attrs. induction l as [|x l IH]; intros c c' E O; cbn [fold_left] in E; [now injection E as <-|]. cbn [bind] in E. destruct (give_attr t x c) as [c1|e|] eqn:G; [|rewrite give_attrs_err in E; discriminate|rewrite give_attrs_panic in E; discriminate].
  apply (IH (fun C x Hx => A C x (or_intror Hx)) c1 c' E). exact (n_give_attr t x c c1 (fun C => A C x (or_introl eq_refl)) G O).
Qed.
Lemma n_give_all t l : (chk = true -> forall x, In x l -> oka Strict x) -> forall ch ch', give_all t l ch = Ok ch' -> (forall c, In c ch -> alln c) -> forall c, In c ch' -> alln c.
Proof.
  intros A. induction ch as [|c ch IH]; intros ch' E H; cbn in E; [injection E as <-; intros ? []|]. apply bind_ok in E. destruct E as (d & E1 & E). apply bind_ok in E. destruct E as (r & E2 & E). injection E as <-. intros x [<-|Hx]; [|exact (IH r E2 (fun y Hy => H y (or_intror Hy)) x Hx)].
  assert (Hc := H c (or_introl eq_refl)). apply alln_T. split; [exact (n_give_attrs t l A _ _ E1 (alln_data c Hc))|]. intros y Hy. exact (alln_kids c y Hc Hy).
Qed.
Lemma alln_img g t : (forall c l, g c = Some l -> alln c -> forall x, In x l -> alln x) -> alln t -> alln (img g t).
Proof.
  intros G. induction t as [d ch IH] using tree_ind'. rewrite Forall_forall in IH. rewrite alln_T. intros [O H]. cbn [img]. apply alln_T. split; [exact O|]. intros x Hx. apply in_flat_map in Hx. destruct Hx as (c & Hc & Hx). destruct (g c) as [l|] eqn:Eg; [exact (G c l Eg (H c Hc) x Hx)|]. destruct Hx as [<-|[]]. apply IH; auto.
Qed.
Lemma n_push m s t : alln t -> alln (push_ts m s t).
Proof.
  apply alln_tmap. intros d _ O. destruct (Nat.eqb _ _); [apply (K_okn d); [apply K_rm, K_refl|exact O]|]. destruct (existsb _ _); [|exact O]. unfold add_ts. now apply okn_set_dull.
Qed.
Lemma n_prep_one o t k r : prep_one o t k = Ok r -> alln t -> alln (fst r).
Proof.
  unfold prep_one. intros E H. destruct (find_sub k t) as [s|]; [|now injection E as <-]. destruct (ancestors k [] t) as [anc|]; [|now injection E as <-]. destruct (_ && _); [|now injection E as <-]. apply bind_ok in E. destruct E as (b & _ & E). destruct (_ || _); [now injection E as <-|]. apply bind_ok in E. destruct E as (ok & _ & E). destruct ok; [|now injection E as <-].
  destruct (d_get _ _) as [[]|]; try discriminate. injection E as <-. now apply n_push.
Qed.
Lemma n_prep_loop o rc ks : forall t t', prep_loop o rc ks t = Ok t' -> alln t -> alln t'.
Proof.
  induction ks as [|k ks IH]; intros t t' E H; cbn in E; [now injection E as <-|]. apply bind_ok in E. destruct E as (r & E1 & E). pose proof (n_prep_one _ _ _ _ E1 H) as R. destruct (_ && _); [now injection E as <-|]. exact (IH _ _ E R).
Qed.
Lemma n_prepare o self rc p t t' : prepare o self rc p t = Ok t' -> alln t -> alln t'.
Proof.
  unfold prepare. destruct (valid_elems o); [intros E; now injection E as <-|]. destruct (find_sub p t); [apply n_prep_loop|intros E; now injection E as <-].
Qed.
Lemma find_group_flat t s p g : find_group t s = Some (p, g) -> exists d, In d (flat s) /\ key d = g /\ tag d = TEl EG.
Proof.
  induction s as [d ch IH] using tree_ind'. rewrite Forall_forall in IH. cbn [find_group flat]. intros H.
  assert (G : exists x, In x (flat_map flat ch) /\ key x = g /\ tag x = TEl EG); [|destruct G as (x & A & B); exists x; split; [now right|exact B]].
  revert H. induction ch as [|c ch IHc]; [discriminate|]. intros H. destruct (is_tag EG (data c)) eqn:T; cbn [andb] in H.
  - destruct (can_ungroup t d c).
    + injection H as _ <-. exists (data c). split; [cbn; apply in_or_app; left; destruct c; now left|]. split; [reflexivity|]. unfold is_tag in T. destruct (tag (data c)); try discriminate. f_equal. destruct (eid_eqb_spec e EG); [assumption|discriminate].
    + destruct (find_group t c) as [r|] eqn:F; [injection H as ->; destruct (IH c (or_introl eq_refl) F) as (x & A & B); exists x; split; [cbn; apply in_or_app; now left|exact B]|]. destruct (IHc (fun y Hy => IH y (or_intror Hy)) H) as (x & A & B). exists x. split; [cbn; apply in_or_app; now right|exact B].
  - destruct (find_group t c) as [r|] eqn:F; [injection H as ->; destruct (IH c (or_introl eq_refl) F) as (x & A & B); exists x; split; [cbn; apply in_or_app; now left|exact B]|]. destruct (IHc (fun y Hy => IH y (or_intror Hy)) H) as (x & A & B). exists x. split; [cbn; apply in_or_app; now right|exact B].
Qed.
Lemma strict_key t d k d' : alln t -> In d (flat t) -> key d = k -> cls d = Strict -> chk = true -> okn d' -> key d' = k -> forall y, In y (attrs d') -> oka Strict y.
Proof.
  intros H Hd Kd Sd C [_ O'] K' y Hy. destruct (H d Hd) as [_ O]. destruct (O C) as [A _]. destruct (O' C) as [A' B']. replace Strict with (cls d') by congruence. exact (B' y Hy).
Qed.
Lemma svg_flat t s d : svg_element t = Some s -> In d (flat s) -> In d (flat t).
Proof. intros E H. unfold svg_element in E. apply find_some in E. destruct E as [E _]. destruct t as [x ch]. cbn in *. right. apply in_flat_map. eauto. Qed.
Lemma n_ungroup_one o self t s p g t' : svg_element t = Some s -> find_group t s = Some (p, g) -> ungroup_one o self t p g = Ok t' -> alln t -> alln t'.
Proof.
  intros Es Eg E H. unfold ungroup_one in E. destruct (find_sub g t) as [x|] eqn:Ex; [|now injection E as <-]. apply bind_ok in E. destruct E as (ch & E1 & E). apply (n_prepare _ _ _ _ _ _ E). apply alln_remove. pose proof (alln_find _ _ _ Ex H) as Hx.
  destruct (find_group_flat _ _ _ _ Eg) as (d & Hd & Kd & Td). apply find_sub_some in Ex. destruct Ex as [_ Kx].
  assert (A : chk = true -> forall y, In y (attrs (data x)) -> oka Strict y). { intros C. apply (strict_key t d g (data x) H (svg_flat _ _ _ Es Hd) Kd); [unfold cls; now rewrite Td|exact C|now apply alln_data|exact Kx]. }
  assert (Hch := n_give_all t _ A _ _ E1 (fun c Hc => alln_kids x c Hx Hc)).
  apply alln_img; [|exact H]. intros c l Q Hc y Hy. destruct (Nat.eqb _ _); [|discriminate]. injection Q as <-. destruct Hy as [<-|Hy]; [|auto]. apply alln_T. split; [now apply alln_data|intros ? []].
Qed.
Lemma n_ungroup_loop n o self : forall t t', ungroup_loop n o self t = Some (Ok t') -> alln t -> alln t'.
Proof.
  induction n as [|n IH]; intros t t' E H; cbn in E; (destruct (svg_element t) as [s|] eqn:Es; [|discriminate]); destruct (find_group t s) as [[p g]|] eqn:Eg; try discriminate; try (now injection E as <-).
  destruct (ungroup_one o self t p g) as [u| |] eqn:Eu; try discriminate. apply (IH _ _ E). exact (n_ungroup_one _ _ _ _ _ _ _ Es Eg Eu H).
Qed.
Lemma n_ungroup o self t t' : ungroup_groups o self t = Some (Ok t') -> alln t -> alln t'.
Proof.
  unfold ungroup_groups. destruct (svg_element t) as [s|]; [|discriminate]. destruct (prepare _ _ _ _ _) as [u| |] eqn:E; try discriminate. intros Q H. apply (n_ungroup_loop _ _ _ _ _ Q). exact (n_prepare _ _ _ _ _ _ E H).
Qed.
(** remove_invisible *)
Lemma n_display x : alln (fst x) -> alln (fst (process_display x)).
Proof. destruct x as [t b]. cbn. apply alln_remove_nodes. Qed.
Lemma n_clip_rounds stops ks : forall t em, alln t -> alln (fst (clip_rounds stops ks t em)).
Proof.
  induction ks as [|k ks IH]; intros t em H; cbn [clip_rounds]; [exact H|]. destruct (find_sub k t) as [s|]; [|now apply IH]. cbv zeta. destruct (stops && _); [cbn [fst]; now apply alln_remove_nodes|]. apply IH. now apply alln_remove_nodes.
Qed.
Lemma n_remove_linked ks : forall t, alln t -> alln (fold_left remove_linked ks t).
Proof. apply n_fold. intros t k H. unfold remove_linked. now apply alln_remove, alln_remove_nodes. Qed.
Lemma n_clip stops x : alln (fst x) -> alln (fst (process_clip_paths stops x)).
Proof. destruct x as [t b]. intros H. unfold process_clip_paths. pose proof (n_clip_rounds stops (tag_keys EClipPath t) t [] H) as R. destruct (clip_rounds _ _ _ _) as [t1 em]. cbn [fst] in *. now apply n_remove_linked. Qed.
Lemma n_filter x : alln (fst x) -> alln (fst (process_empty_filter x)).
Proof. destruct x as [t b]. cbn. apply n_remove_linked. Qed.
Lemma okn_sets (f : ndata -> aid -> ndata) l d : (forall x a, In a l -> cls x = cls d -> cls (f x a) = cls x /\ (okn x -> okn (f x a))) -> okn d -> okn (fold_left f l d).
Proof.
  intros F O. assert (G : forall l' x, incl l' l -> cls x = cls d -> okn x -> okn (fold_left f l' x)); [|apply G; [apply incl_refl|reflexivity|exact O]]. induction l' as [|a l' IH]; intros x I C Ox; cbn; [exact Ox|]. destruct (F x a (I a (or_introl eq_refl)) C) as [A B]. apply IH; [intros y Hy; apply I; now right|congruence|auto].
Qed.
Lemma link_attrs_oka k d a v vis : okn d -> In a (link_attrs k d) -> L v -> chk = true -> oka (cls d) (At (AN a) v vis).
Proof.
  intros O H Lv C. apply in_flat_map in H. destruct H as (y & Hy & H). destruct (a_name y) as [b|] eqn:En; [|destruct H]. destruct (refers k y) eqn:R; [|destruct H]. destruct H as [-> |[]]. exact (relinked (cls d) y a v vis En (refers_link _ _ R) (proj2 (proj2 O C) y Hy) Lv).
Qed.
Lemma cls_set d a v : cls (d_set d a v) = cls d. Proof. reflexivity. Qed.
Lemma n_no_paint k d : inv = true -> okn d -> okn (no_paint k d).
Proof.
  intros I O. unfold no_paint. apply okn_sets; [|exact O]. intros x a Ha Cx. split; [reflexivity|]. intros Ox. apply okn_set; [exact Ox|]. intros C. rewrite Cx. apply (link_attrs_oka k d a); auto. right. auto.
Qed.
Lemma n_solid k r g b o d : inv = true -> okn d -> okn (solid k (VColor r g b) o d).
Proof.
  intros I O. unfold solid. apply okn_sets; [|exact O]. intros x a Ha Cx. assert (P : okn x -> okn (d_set x a (VColor r g b))). { intros Ox. apply okn_set; [exact Ox|]. intros C. rewrite Cx. apply (link_attrs_oka k d a); auto. right. split; [exact I|]. right. eauto. }
  unfold one_color. destruct (qeqb o q1); [auto|]. destruct a; auto; (split; [reflexivity|]); intros Ox; apply okn_set_dull; auto.
Qed.
Lemma n_solids ks : inv = true -> forall t t', fold_left (fun r k => bind r (fun t => paint_solid t k)) ks (Ok t) = Ok t' -> alln t -> alln t'.
Proof.
  intros I. assert (P : forall l, fold_left (fun r k => bind r (fun t => paint_solid t k)) l Panic = Panic) by (induction l as [|k l IHl]; cbn; auto). assert (Q : forall e l, fold_left (fun r k => bind r (fun t => paint_solid t k)) l (Err e) = Err e) by (induction l as [|k l IHl]; cbn; auto).
  induction ks as [|k ks IH]; intros t t' E H; cbn [fold_left] in E; [now injection E as <-|]. cbn [bind] in E. destruct (paint_solid t k) as [u|e|] eqn:Ep; [|rewrite Q in E; discriminate|rewrite P in E; discriminate]. apply (IH _ _ E). unfold paint_solid in Ep. destruct (find_sub k t) as [[x [|c ch]]|]; try (now injection Ep as <-).
  destruct (d_get _ _) as [[]|]; try discriminate. destruct (d_get _ _) as [[]|]; try discriminate. injection Ep as <-. revert H. apply alln_tmap. intros d _ O. destruct (is_grad d); [exact O|]. now apply n_solid.
Qed.
Lemma n_gradients x x' : inv = true -> process_gradients x = Ok x' -> alln (fst x) -> alln (fst x').
Proof.
  destruct x as [t b]. intros I E H. cbn [fst] in H. unfold process_gradients in E. apply bind_ok in E. destruct E as (t1 & E1 & E). injection E as <-. cbn [fst]. apply alln_remove_nodes. apply (n_solids _ I _ _ E1). unfold unpaint. apply n_fold; [|exact H]. intros u k. apply alln_tmap. intros d _. now apply n_no_paint.
Qed.
Lemma n_invisible stops t t' : inv = true -> remove_invisible stops t = Some (Ok t') -> alln t -> alln t'.
Proof.
  intros I E H. unfold remove_invisible in E. destruct (process_gradients _) as [x7| |] eqn:G; try discriminate. assert (H7 : alln (fst x7)).
  { apply (n_gradients _ _ I G). unfold process_use, process_fe_color_matrix, drained. cbn [fst]. repeat apply alln_drain. apply n_filter, n_clip. unfold RmInvisible.process_paths, drained. cbn [fst]. apply alln_drain, n_display. exact H. }
  assert (H8 : alln (fst (process_rect x7))) by (unfold process_rect, drained; cbn [fst]; now apply alln_drain).
  destruct (snd (process_rect x7)); [exact (n_unused _ _ E H8)|]. now injection E as <-.
Qed.
(** resolve_use *)
Lemma n_after u s t : alln s -> alln t -> alln (insert_after u s t).
Proof. intros A B d Hd. apply flat_after in Hd. apply in_app_or in Hd. destruct Hd; auto. Qed.
Lemma K_shift d d' : shift_use d = Some d' -> K d d'.
Proof. unfold shift_use. destruct (_ || _); [|intros E; injection E as <-; apply K_refl]. destruct (_ && _); [|discriminate]. intros E. injection E as <-. repeat apply K_rm. apply K_set; [apply K_refl|reflexivity]. Qed.
Lemma okn_puts l : forall d, (chk = true -> forall x, In x l -> oka (cls d) x) -> okn d -> okn (with_attrs d (fold_left put_attr l (attrs d))).
Proof.
  induction l as [|x l IH]; intros d A O; cbn; [destruct d; exact O|].
  specialize (IH (with_attrs d (put_attr (attrs d) x))). apply IH; [intros C y Hy; apply A; [exact C|now right]|]. apply okn_put; [exact O|]. intros C. apply A; [exact C|now left].
Qed.
Lemma n_use_one t u k t' : (chk = true -> Cl u = Strict) -> resolve_one t (u, k) = Ok t' -> alln t -> alln t'.
Proof.
  intros S E H. unfold resolve_one in E. assert (H1 : alln (upd u (fun d => d_rm d AXlinkHref) t)) by (apply alln_upd; [|exact H]; intros d _ _; apply K_okn, K_rm, K_refl). revert H1 E. generalize (upd u (fun d => d_rm d AXlinkHref) t). intros t1 H1 E.
  destruct (find_data u t1) as [du|] eqn:Eu; [|now injection E as <-]. destruct (find_sub k t1) as [l|] eqn:El; [|now injection E as <-]. destruct (shift_use du) as [du'|] eqn:Ed; [|now injection E as <-]. destruct (forallb _ _); [|discriminate]. injection E as <-.
  pose proof (okn_find _ _ _ Eu H1) as Ou. pose proof (K_shift _ _ Ed) as Kd. pose proof (K_okn _ _ Kd Ou) as Ou'. pose proof (alln_find _ _ _ El H1) as Hl. apply find_data_some in Eu.
  apply alln_remove, n_after; [|now apply alln_detach]. apply alln_T. split; [|intros c; now apply alln_kids]. apply okn_puts; [|now apply alln_data]. intros C y Hy. apply strict_oka. destruct Ou' as [_ Ou']. destruct (Ou' C) as [A B]. replace Strict with (cls du'); [now apply B|]. rewrite A, (K_key _ _ Kd), (proj2 Eu). auto.
Qed.
Lemma n_use t t' : resolve_use t = Ok t' -> alln t -> alln t'.
Proof.
  intros E H. unfold resolve_use in E. assert (S : forall p, In p (use_pairs t) -> chk = true -> Cl (fst p) = Strict).
  { intros p Hp C. apply in_flat_map in Hp. destruct Hp as (d & Hd & Hp). destruct (use_target t d) as [k|] eqn:U; [|destruct Hp]. destruct Hp as [<-|[]]. cbn [fst]. destruct (H d Hd) as [_ O]. destruct (O C) as [A _]. rewrite <- A. unfold use_target in U. unfold cls. destruct (is_tag EUse d) eqn:T; [|discriminate U]. unfold is_tag in T. destruct (tag d) as [|e| | | |]; try discriminate T. destruct (eid_eqb_spec e EUse) as [Q|N]; [now rewrite Q|discriminate T]. }
  revert S E. generalize (use_pairs t) as ps. intros ps. revert t H. induction ps as [|[u k] ps IH]; intros t H S E; cbn [fold_left] in E; [now injection E as <-|].
  destruct (resolve_one t (u, k)) as [t1|e|] eqn:R.
  - apply (IH t1); [exact (n_use_one _ _ _ _ (S (u, k) (or_introl eq_refl)) R H)|intros p Hp; apply S; now right|exact E].
  - exfalso. clear -E. induction ps; cbn in E; [discriminate|auto].
  - exfalso. clear -E. induction ps; cbn in E; [discriminate|auto].
Qed.
(** remove_gradient_attributes, remove_unused_coordinates *)
Lemma K_hide d a : K d (with_attrs d (hide_attr (attrs d) a)).
Proof. apply K_map; [apply K_refl|]. intros y _. destruct (has_name _ y); left; split; reflexivity. Qed.
Lemma K_make a d d' : make_invisible a d = Ok d' -> K d d'.
Proof. unfold make_invisible. destruct (d_has d a); [|discriminate]. intros E. injection E as <-. apply K_hide. Qed.
Lemma K_units t d d' : units_visit t d = Ok d' -> K d d'.
Proof.
  unfold units_visit. assert (D : Ok d = Ok d' -> K d d') by (intros E; injection E as <-; apply K_refl). destruct (link_key d); [|exact D]. destruct (find_data _ t); [|exact D]. destruct (opt_value_eqb _ _); [apply K_make|exact D].
Qed.
Lemma K_move v w d d' : move_units v w d = Ok d' -> K d d'.
Proof. unfold move_units. destruct (d_get d AGradientUnits) as [x|]; [|intros E; injection E as <-; apply K_refl]. destruct (value_eqb x v); [apply K_make|]. intros E. injection E as <-. apply K_set; [apply K_refl|reflexivity]. Qed.
Lemma n_group_visit t k t' : group_visit t k = Ok t' -> alln t -> alln t'.
Proof.
  intros E H. unfold group_visit in E. cbv zeta in E. apply bind_ok in E. destruct E as (t1 & E1 & E). injection E as <-.
  assert (S : forall v, alln (upd k (fun d => d_set d AGradientUnits v) t)) by (intros v; apply alln_upd; [|exact H]; intros d _ _ O; now apply okn_set_dull).
  assert (V : forall f ks u, (forall d d', f d = Ok d' -> K d d') -> vloop (fun _ => f) ks u = Ok t1 -> alln u -> alln t1) by (intros f ks u F; apply n_vloopK; intros _; exact F).
  assert (H1 : alln t1). { destruct (Nat.eqb _ _); [exact (V _ _ _ (K_make _) E1 (S _))|]. destruct (Nat.eqb _ _); [exact (V _ _ _ (K_make _) E1 (S _))|]. destruct (Nat.leb _ _); exact (V _ _ _ (K_move _ _) E1 (S _)). }
  revert H1. apply alln_upd. intros d _ _. apply K_okn. unfold hide_default_units. destruct (opt_value_eqb _ _); [apply K_hide|apply K_refl].
Qed.
Lemma n_grad_attrs t t' : remove_gradient_attributes t = Some (Ok t') -> alln t -> alln t'.
Proof.
  intros E H. unfold remove_gradient_attributes, rm_equal in E. destruct (units_sequence _ _ _) as [ks|]; [|discriminate]. cbn [option_map] in E. injection E as E. apply bind_ok in E. destruct E as (t1 & E1 & E). apply (n_vloopK _ _ _ _ K_units) in E1; [|exact H]. clear H. unfold group_to_parent in E. revert E. generalize (unit_parents t1) as us. intros us. revert t1 E1.
  induction us as [|k us IH]; intros u Hu E; cbn [fold_left] in E; [now injection E as <-|]. cbn [bind] in E. destruct (group_visit u k) as [w|e|] eqn:G; [exact (IH w (n_group_visit _ _ _ G Hu) E)| |].
  - exfalso. clear -E. induction us; cbn in E; [discriminate|auto].
  - exfalso. clear -E. induction us; cbn in E; [discriminate|auto].
Qed.
Lemma n_coords t t' : remove_unused_coordinates t = Ok t' -> alln t -> alln t'.
Proof.
  apply n_vloopK. intros u d d'. unfold coords_visit. destruct (forallb _ _); [|discriminate]. intros E. injection E as <-. unfold hide_all. apply K_fold; [|apply K_refl]. intros x a Kx. apply (K_trans d x); [exact Kx|apply K_hide].
Qed.
(** The last steps *)
Lemma okn_id d s : okn d -> okn (with_id d s). Proof. intros O. apply (okn_from d); [exact O|reflexivity|reflexivity|]. intros _ y Hy. left. eauto. Qed.
Lemma n_ids t : alln t -> alln (remove_unreferenced_ids t).
Proof. apply alln_tmap. intros d _ O. destruct (_ && _); [now apply okn_id|exact O]. Qed.
Lemma n_smap {S} (f : S -> ndata -> ndata * S) t : (forall s d, okn d -> okn (fst (f s d))) -> forall s, alln t -> alln (fst (smap f s t)).
Proof.
  intros F. induction t as [d ch IH] using tree_ind'. rewrite Forall_forall in IH. intros s. rewrite alln_T, smap_T. cbn [fst]. intros [O H]. apply alln_T. split; [now apply F|]. generalize (snd (f s d)) as s1. clear O. induction ch as [|c ch IHc]; intros s1; [intros ? []|].
  cbn [smap_forest]. pose proof (IH c (or_introl eq_refl) s1 (H c (or_introl eq_refl))) as Hc. destruct (smap f s1 c) as [c' s2]. specialize (IHc (fun y Hy => IH y (or_intror Hy)) (fun y Hy => H y (or_intror Hy)) s2). change ((fix go (s0 : S) (l : list tree) {struct l} : list tree * S := match l with [] => ([], s0) | c0 :: l' => let (c'0, s') := smap f s0 c0 in let (r, s'') := go s' l' in (c'0 :: r, s'') end) s2 ch) with (smap_forest f s2 ch) in *. destruct (smap_forest f s2 ch) as [r s3]. cbn [fst] in *. intros x [<-|Hx]; auto.
Qed.
Lemma n_trim t t' : trim_ids t = Ok t' -> alln t -> alln t'.
Proof.
  unfold trim_ids. intros E H. pose proof (n_smap trim_node t) as P. specialize (P (fun s d O => ltac:(unfold trim_node; destruct s; [destruct (_ && _); [exact (okn_id _ _ O)|exact O]|exact O])) (Some IdNum.num_new) H). destruct (smap trim_node _ t) as [u [n|]]; [|discriminate]. now injection E as <-.
Qed.
Lemma n_version t t' : remove_version t = Ok t' -> alln t -> alln t'.
Proof. unfold remove_version, on_svg. destruct (svg_element t); [|discriminate]. intros E. injection E as <-. apply alln_upd. intros d _ _. apply K_okn. repeat apply K_rm. apply K_refl. Qed.
Lemma n_xmlns b t t' : fix_xmlns_attribute b t = Ok t' -> alln t -> alln t'.
Proof.
  unfold fix_xmlns_attribute, on_svg. destruct (svg_element t); [|discriminate]. destruct (_ && _ && _); [intros E; injection E as <-; apply alln_upd; intros d _ _; apply K_okn, K_rm, K_refl|]. destruct (_ && _); intros E; injection E as <-; [|auto]. apply alln_upd. intros d _ _ O. now apply okn_set_dull.
Qed.
Lemma n_empty_defs t t' : remove_empty_defs t = Ok t' -> alln t -> alln t'.
Proof. unfold remove_empty_defs, on_svg. destruct (svg_element t); [|discriminate]. destruct (find _ _); intros E; injection E as <-; [apply alln_remove|auto]. Qed.
Lemma n_def_transform t : alln t -> alln (remove_default_transform t).
Proof. apply alln_tmap. intros d _ O. destruct (is_default_transform _); [|exact O]. apply (K_okn d); [apply K_rm, K_refl|exact O]. Qed.
Lemma n_splice k t : alln t -> alln (splice k t).
Proof.
  induction t as [d ch IH] using tree_ind'. rewrite Forall_forall in IH. rewrite alln_T. intros [O H]. cbn [splice]. apply alln_T. split; [exact O|]. intros x Hx. apply in_flat_map in Hx. destruct Hx as (c & Hc & Hx). destruct (Nat.eqb _ _); [exact (alln_kids c x (H c Hc) Hx)|]. destruct Hx as [<-|[]]. apply IH; auto.
Qed.
Lemma n_ungroup_defs t : alln t -> alln (ungroup_defs t).
Proof.
  intros H. unfold ungroup_defs. generalize (tl (keys t)) as ks. intros ks. assert (G : forall st, alln (fst st) -> alln (fst (fold_left ungroup_defs_step ks st))); [|now apply G]. induction ks as [|k ks IH]; intros st Hs; cbn [fold_left]; [exact Hs|]. apply IH. destruct st as [u go]. cbn [fst] in Hs. unfold ungroup_defs_step. destruct (negb go); [exact Hs|]. destruct (find_sub k u); [|exact Hs]. destruct (_ && _); [|exact Hs]. cbn [fst]. now apply alln_unlink, n_splice.
Qed.
Lemma rm_list_from l : forall as_ y, In y (fold_left rm_attr l as_) -> In y as_.
Proof. induction l as [|a l IH]; intros as_ y H; cbn in H; [exact H|]. apply IH in H. unfold rm_attr in H. apply filter_In in H. apply H. Qed.
Lemma n_join wr m t : alln t -> alln (join_style_attributes wr m t).
Proof.
  unfold join_style_attributes. assert (G : alln t -> alln (tmap (fun d => if wants_join m d then join_node wr d else d) t)); [|destruct m; auto]. apply alln_tmap. intros d _ O. destruct (wants_join m d); [|exact O]. apply (okn_from d); [exact O|reflexivity|reflexivity|]. intros _ y Hy. cbn in Hy. apply rm_list_from in Hy. apply set_attr_from in Hy. destruct Hy as [Hy| ->]; [left; eauto|right; now apply dull_oka].
Qed.
(** group_by_style *)
Lemma n_strip ks l t : alln t -> alln (strip ks l t).
Proof. apply alln_tmap. intros d _ O. destruct (among _ _); [|exact O]. apply (K_okn d); [apply K_rm_list, K_refl|exact O]. Qed.
Lemma n_give_group t x d d' : dull x -> give_group t d x = Ok d' -> okn d -> okn d'.
Proof.
  intros Dx E O. assert (P : (if put_ok t d x then Ok (with_attrs d (put_attr (attrs d) x)) else Panic) = Ok d' -> okn d').
  { destruct (put_ok t d x); [|discriminate]. intros Q. injection Q as <-. apply okn_put; [exact O|]. intros _. now apply dull_oka. }
  unfold give_group in E. destruct (a_name x) as [a|]; [|now apply P]. destruct (aid_eqb_spec a ATransform) as [Ha|Na]; [rewrite Ha in E; clear Ha|destruct a; now try apply P].
  destruct (a_val x); destruct (d_get d ATransform) as [[]|]; try (now apply P); injection E as <-; try exact O. now apply okn_map_dull.
Qed.
Lemma n_give_groups t l : (forall x, In x l -> dull x) -> forall r d', fold_left (fun r x => bind r (fun d' => give_group t d' x)) l r = Ok d' -> (forall d, r = Ok d -> okn d) -> okn d'.
Proof.
  intros Dl. induction l as [|x l IH]; intros r d' E H; cbn [fold_left] in E; [auto|]. apply (IH (fun y Hy => Dl y (or_intror Hy)) _ _ E). intros d Q. apply bind_ok in Q. destruct Q as (d0 & Q1 & Q). exact (n_give_group t x d0 d (Dl x (or_introl eq_refl)) Q (H d0 Q1)).
Qed.
Lemma n_hoist g ks l t t' : (forall x, In x l -> dull x) -> hoist g ks l t = Ok t' -> alln t -> alln t'.
Proof.
  intros Dl E H. unfold hoist in E. apply (n_strip ks (attr_ids l)) in H. revert H E. generalize (strip ks (attr_ids l) t). intros t1 H E. cbv zeta in E. destruct (find_data g t1) as [d|] eqn:D; [|now injection E as <-]. apply bind_ok in E. destruct E as (d' & E1 & E). injection E as <-.
  assert (O : okn d'). { apply (n_give_groups _ _ Dl _ _ E1). intros y Q. injection Q as <-. exact (okn_find _ _ _ D H). }
  revert H. apply alln_tmap. intros y _ Oy. destruct (Nat.eqb _ _); auto.
Qed.
Lemma n_gather (XG : ~ X (TEl EG)) p ks g t : Cl g = Strict -> alln t -> alln (gather p ks g t).
Proof.
  intros Eg. apply alln_set_kids. intros ch. induction ch as [|c l IH]; intros H x Hx; cbn [pull] in Hx; [destruct Hx|]. destruct (picked ks c) eqn:Ep.
  - destruct Hx as [<-|Hx]; [|apply filter_In in Hx; apply H; right; apply Hx]. apply alln_T. split; [apply okn_new; [exact XG|now rewrite Eg|intros ? []]|]. intros y Hy. apply filter_In in Hy. apply H, Hy.
  - destruct Hx as [<-|Hx]; [apply H; now left|]. apply IH; auto. intros y Hy. apply H. now right.
Qed.
Lemma n_to_end p ks t : alln t -> alln (to_end p ks t).
Proof. apply alln_set_kids. intros ch H x Hx. apply in_app_or in Hx. destruct Hx as [Hx|Hx]; apply filter_In in Hx; apply H, Hx. Qed.
(** regroup_gradient_stops *)
Lemma okn_link d k : okn d -> okn (d_set d AXlinkHref (VLink k)).
Proof. intros O. apply okn_set; [exact O|]. intros _. apply strict_oka. cbn. right. left. discriminate. Qed.
Lemma n_remove_kids j t : alln t -> alln (remove_kids j t).
Proof. intros H. unfold remove_kids. apply alln_set_kids; [intros ? ? ? []|]. now apply alln_unlink. Qed.
Lemma n_share (XL : ~ X (TEl ELinearGradient)) k1 js t t' : Cl (fresh t) = Strict -> share k1 js t = Ok t' -> alln t -> alln t'.
Proof.
  intros Ef E H. unfold share in E. cbv zeta in E. destruct (forallb _ _); [|discriminate]. injection E as <-. apply n_fold.
  - intros u j Hu. apply alln_upd; [intros d _ _; apply okn_link|now apply n_remove_kids].
  - intros d Hd. apply flat_before in Hd. apply in_app_or in Hd. destruct Hd as [Hd|Hd]; revert d Hd.
    + apply alln_T. split; [apply okn_new; [exact XL|now rewrite Ef|intros ? []]|]. intros c. now apply kids_of_alln.
    + apply alln_upd; [intros d _ _; apply okn_link|]. apply alln_set_kids; [intros ? ? ? []|exact H].
Qed.
End classes.
(** Documents *)
Definition AL (t : tree) : Prop := exists C, alln C t.
Lemma AL_fresh t : AL t -> exists C, C (fresh t) = Strict /\ alln C t.
Proof.
  intros (C & H). exists (fun k => if Nat.eqb k (fresh t) then Strict else C k). split; [now rewrite Nat.eqb_refl|]. intros d Hd. destruct (H d Hd) as [A B]. split; [exact A|]. destruct (Nat.eqb_spec (key d) (fresh t)) as [Q|Q]; [|exact B]. exfalso. apply (fresh_not t). rewrite <- Q. unfold keys. now apply in_map.
Qed.
Lemma AL_of (f : tree -> tree -> Prop) : (forall C t t', f t t' -> alln C t -> alln C t') -> forall t t', f t t' -> AL t -> AL t'.
Proof. intros F t t' E (C & H). exists C. exact (F C t t' E H). Qed.
Lemma movable_dull anc d cs x : cand_of anc d cs x -> dull x.
Proof.
  intros (c & _ & _ & Q). unfold candidate in Q. unfold dull. destruct (a_name x) as [a|]; [|exact I]. apply andb_prop in Q. destruct Q as [_ Q]. destruct (aid_eqb_spec a ATransform) as [Ha|N]; [now rewrite Ha|now apply inheritable_dull].
Qed.
Lemma AL_gather (XG : ~ X (TEl EG)) p ks t : AL t -> AL (gather p ks (fresh t) t).
Proof. intros H. destruct (AL_fresh t H) as (C & Ef & H'). exists C. now apply n_gather. Qed.
Lemma AL_hoist g ks l t t' : (forall x, In x l -> dull x) -> hoist g ks l t = Ok t' -> AL t -> AL t'.
Proof. intros Dl E (C & H). exists C. exact (n_hoist C g ks l t t' Dl E H). Qed.
Lemma AL_style_one (XG : ~ X (TEl EG)) t k ks all t' : style_one t k ks all = Ok t' -> AL t -> AL t'.
Proof.
  intros E H. unfold style_one in E. destruct (find_sub k t) as [s|] eqn:Es; [|now injection E as <-]. destruct (ancestors k [] t) as [anc|]; [|now injection E as <-]. destruct (_ && _); [|now injection E as <-]. set (cs := filter (picked ks) (kids s)) in E.
  assert (D : forall r, In r (table anc (data s) (map data cs)) -> forall x, In x (r_attrs r) -> dull x).
  { intros r Hr x Hx. destruct (table_ok anc (data s) (map data cs)) as ((Q & _) & _). exact (movable_dull _ _ _ _ (ro_cand _ _ _ (Q r Hr) x Hx)). }
  destruct (table anc (data s) (map data cs)) as [|r rs]; [now injection E as <-|]. cbv zeta in E. apply bind_ok in E. destruct E as ([[t1 p] rest] & E1 & E).
  assert (Q : AL t1 /\ incl rest (r :: rs)).
  { destruct (_ =? _); [|injection E1 as <- _ <-; auto using incl_refl]. destruct all; apply bind_ok in E1; destruct E1 as (t2 & H2 & E1); injection E1 as <- _ <-; (split; [|apply incl_tl, incl_refl]); apply (AL_hoist _ _ _ _ _ (D r (or_introl eq_refl)) H2).
    - destruct H as (C & H). exists C. now apply n_to_end.
    - now apply AL_gather. }
  destruct Q as [H1 I1]. destruct rest as [|r2 rest]; [now injection E as <-|]. destruct (longest_range (r_flags r2)) as [[i n]|]; [|discriminate]. apply (AL_hoist _ _ _ _ _ (D r2 (I1 r2 (or_introl eq_refl))) E). now apply AL_gather.
Qed.
Lemma AL_visit_style (XG : ~ X (TEl EG)) : forall s t t', visit_style s t = Ok t' -> AL t -> AL t'.
Proof.
  induction s as [d ch IH] using tree_ind'. intros t t' E F. cbn [visit_style] in E. apply bind_ok in E. destruct E as ([[t1 ks] all] & E1 & E). refine (AL_style_one XG _ _ _ _ _ E _). clear E. revert F E1. generalize (@nil nat) at 3. generalize true. revert t. induction IH as [|c l Hc _ IHl]; intros t b l0 F E; [injection E as <- _ _; exact F|].
  destruct (negb _); [exact (IHl _ _ _ F E)|]. destruct (_ || _); [exact (IHl _ _ _ F E)|]. apply bind_ok in E. destruct E as (t2 & E2 & E). refine (IHl _ _ _ _ E). destruct (kids c); [injection E2 as <-; exact F|exact (Hc _ _ E2 F)].
Qed.
Lemma AL_style (XG : ~ X (TEl EG)) t t' : group_by_style t = Ok t' -> AL t -> AL t'.
Proof. unfold group_by_style. destruct (svg_element t); [|discriminate]. apply AL_visit_style, XG. Qed.
Lemma AL_regroup_loop (XL : ~ X (TEl ELinearGradient)) n : forall l t p, regroup_loop n l t = Ok p -> AL t -> AL (snd p).
Proof.
  induction n as [|n IH]; intros l t p E H; cbn [regroup_loop] in E; [now injection E as <-|]. destruct l as [|k1 rest]; [now injection E as <-|]. cbv zeta in E. destruct (filter (equal_stops t k1) rest) as [|j js]; [exact (IH _ _ _ E H)|]. apply bind_ok in E. destruct E as (t1 & E1 & E). apply bind_ok in E. destruct E as (q & E2 & E). injection E as <-. cbn [snd]. apply (IH _ _ _ E2). destruct (AL_fresh t H) as (C & Ef & H'). exists C. exact (n_share C XL _ _ _ _ Ef E1 H').
Qed.
Lemma AL_regroup (XL : ~ X (TEl ELinearGradient)) t t' : regroup_gradient_stops t = Some (Ok t') -> AL t -> AL t'.
Proof.
  intros E H. unfold regroup_gradient_stops in E. destruct (regroup_loop _ _ t) as [[b t1]| |] eqn:R; try discriminate. pose proof (AL_regroup_loop XL _ _ _ _ R H) as H1. cbn [snd] in H1. destruct b; [|now injection E as <-]. destruct H1 as (C & H1). exists C. exact (n_linear C _ _ E H1).
Qed.
Lemma AL_groupdefs t t' : group_defs t = Ok t' -> AL t -> AL t'.
Proof. intros E H. destruct (AL_fresh t H) as (C & Ef & H'). exists C. exact (n_groupdefs C _ _ Ef E H'). Qed.
(** Every pass *)
Lemma AL_perform x o p t t' : (p = PInvisible -> inv = true) -> (p = PConvertShapes -> CV) -> (p = PGroupStyle -> ~ X (TEl EG)) -> (p = PRegroupStops -> ~ X (TEl ELinearGradient)) -> perform x o p t = Some (Ok t') -> AL t -> AL t'.
Proof.
  intros I IC XG XL E H. assert (S : shr K t t' -> AL t') by (intros S; destruct H as (C & H); exists C; exact (shk_alln C _ _ S H)).
  destruct p; cbn [perform] in E; try (injection E as E).
  - destruct H as (C & H). exists C. exact (n_linear C _ _ E H).
  - destruct H as (C & H). exists C. exact (n_radial C _ _ E H).
  - exact (S (k_stops _ _ E)).
  - destruct H as (C & H). exists C. exact (n_inherit C _ _ E H).
  - exact (S (k_fix _ _ E)).
  - exact (AL_groupdefs _ _ E H).
  - apply S. rewrite <- E. apply k_round.
  - destruct H as (C & H). exists C. rewrite <- E. now apply alln_drain.
  - destruct H as (C & H). exists C. rewrite <- E. now apply alln_drain.
  - destruct H as (C & H). exists C. rewrite <- E. now apply alln_drain.
  - destruct H as (C & H). exists C. exact (n_unused C _ _ E H).
  - destruct H as (C & H). exists C. rewrite <- E. now apply alln_remove_nodes.
  - destruct H as (C & H). exists C. revert E H. apply n_vloopK. clear. intros t d d'. unfold apply_gradient. assert (D : Ok d = Ok d' -> K d d') by (intros E; injection E as <-; apply K_refl).
    destruct (is_grad d && _); [|exact D]. destruct (linked_by_gradient _ _); [exact D|]. destruct (match d_get d AXlinkHref with Some _ => _ | None => _ end); [exact D|]. destruct (d_get d AGradientTransform) as [[]|]; try discriminate.
    destruct (negb _); [exact D|]. destruct (negb _); [exact D|]. destruct (is_tag _ _); intros E; injection E as <-; apply K_rm; try apply scales_K; try (repeat constructor; reflexivity); repeat (apply tcoords_K; [reflexivity|reflexivity|]); apply K_refl.
  - destruct H as (C & H). exists C. exact (n_rm_loop C _ _ _ _ E H).
  - destruct H as (C & H). exists C. exact (n_rm_loop C _ _ _ _ E H).
  - destruct H as (C & H). exists C. exact (n_rm_loop C _ _ _ _ E H).
  - unfold merge_all in E. destruct (MergeGradients.merge_gradients _ t) as [u|] eqn:M; [|discriminate]. cbn in E. injection E as <-. destruct H as (C & H). exists C. exact (n_merge C _ _ _ M H).
  - destruct H as (C & H). exists C. exact (n_ungroup C _ _ _ _ E H).
  - exact (S (k_shapes _ _ E)).
  - exact (S (k_convert (IC eq_refl) _ _ E)).
  - exact (S (k_paths _ _ _ E)).
  - destruct H as (C & H). exists C. exact (n_invisible C _ _ _ (I eq_refl) E H).
  - exact (AL_regroup (XL eq_refl) _ _ E H).
  - destruct H as (C & H). exists C. exact (n_use C _ _ E H).
  - exact (S (k_default _ _ _ E)).
  - exact (S (k_text _ _ E)).
  - apply S. rewrite <- E. apply k_needless.
  - destruct H as (C & H). exists C. exact (n_grad_attrs C _ _ E H).
  - destruct H as (C & H). exists C. exact (n_coords C _ _ E H).
  - exact (AL_style (XG eq_refl) _ _ E H).
  - destruct H as (C & H). exists C. rewrite <- E. now apply n_ids.
  - destruct H as (C & H). exists C. exact (n_trim C _ _ E H).
  - destruct H as (C & H). exists C. exact (n_version C _ _ E H).
  - destruct H as (C & H). exists C. rewrite <- E. now apply n_ungroup_defs.
  - destruct H as (C & H). exists C. exact (n_empty_defs C _ _ E H).
  - destruct H as (C & H). exists C. exact (n_xmlns C _ _ _ E H).
  - destruct H as (C & H). exists C. rewrite <- E. now apply n_def_transform.
  - destruct H as (C & H). exists C. rewrite <- E. now apply n_join.
Qed.
Lemma AL_runs x o l : (In PInvisible l -> inv = true) -> (In PConvertShapes l -> CV) -> (In PGroupStyle l -> ~ X (TEl EG)) -> (In PRegroupStops l -> ~ X (TEl ELinearGradient)) -> forall t r, runs x o l t r -> forall t', r = Some (Ok t') -> AL t -> AL t'.
Proof.
  intros I IC XG XL t r H. induction H as [t|p l t t1 r E H IH| | |]; intros t' Q A; try discriminate; [now injection Q as <-|]. apply (IH (fun Y => I (or_intror Y)) (fun Y => IC (or_intror Y)) (fun Y => XG (or_intror Y)) (fun Y => XL (or_intror Y)) t' Q). apply (AL_perform x o p t t1); [intros ->; apply I; now left|intros ->; apply IC; now left|intros ->; apply XG; now left|intros ->; apply XL; now left|exact E|exact A].
Qed.
End still.
