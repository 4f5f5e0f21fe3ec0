(** Where the attributes of a cleaned document come from: whole passes. *)
From Coq Require Import List Bool NArith Arith ZArith String Lia QArith Qcanon.
From Verif Require Paths.
From Verif Require Import Names Num Value Dom DomFacts DomOps Outcome DomRemove SpecDom SpecWritten Gradients Stops Shapes NPass APass VLoop Transforms Links Inherit Round RmDefault UnusedCoords RmText Needless GradUnits JoinStyle Move MoveFacts RmUnusedDefs GroupDefs Dupl MergeGradients Regroup Img ResolveUse Ungroup GroupStyle RmInvisible TasksSimple WfAll WfGrad Mild MildMerge MildUse StyleTable Ends GroupDefsEnd GroupDefsProofs SpecValues StillValues Cli Clean SpecClean.
Import ListNotations.
Local Open Scope nat_scope.

Section values.
Variable P : aname -> value -> Prop.
Hypothesis P_made : forall a v, made a = true -> computed v = true -> P (AN a) v.
Hypothesis P_computed : forall a v w, P (AN a) v -> computed w = true -> P (AN a) w.
Hypothesis P_color : forall a v, P (AN a) (VPre Vid_currentColor) -> P (AN AColor) v -> P (AN a) v.
Hypothesis P_focus : forall v, (P (AN ACx) v -> P (AN AFx) v) /\ (P (AN ACy) v -> P (AN AFy) v).
(** For the passes that redirect references. *)
Variables relinking hrefs : bool.
Hypothesis P_relink : relinking = true -> forall a v w, P (AN a) v -> reference v -> reference w -> P (AN a) w.
Hypothesis P_href : hrefs = true -> forall k, P (AN AXlinkHref) (VLink k).
Definition okn (d : ndata) : Prop := forall y, In y (attrs d) -> P (a_name y) (a_val y).
Definition alln (t : tree) : Prop := forall d, In d (flat t) -> okn d.

Lemma alln_T d ch : alln (T d ch) <-> okn d /\ forall c, In c ch -> alln c.
Proof.
  unfold alln. cbn. split.
  - intros H. split; [apply H; auto|]. intros c Hc x Hx. apply H. right. apply in_flat_map. eauto.
  - intros [H1 H2] x [<-|Hx]; [exact H1|]. apply in_flat_map in Hx. destruct Hx as (c & Hc & Hx). exact (H2 c Hc x Hx).
Qed.
Lemma alln_incl t t' : incl (flat t') (flat t) -> alln t -> alln t'. Proof. intros I H d Hd. apply H, I, Hd. Qed.
Lemma alln_tmap f t : (forall d, In d (flat t) -> okn d -> okn (f d)) -> alln t -> alln (tmap f t).
Proof. intros F H d Hd. rewrite flat_tmap in Hd. apply in_map_iff in Hd. destruct Hd as (x & <- & Hx). auto. Qed.
Lemma alln_upd k f t : (forall d, In d (flat t) -> key d = k -> okn d -> okn (f d)) -> alln t -> alln (upd k f t).
Proof. intros F. apply alln_tmap. intros d Hd O. destruct (Nat.eqb_spec (key d) k); auto. Qed.
Lemma okn_from d d' : okn d -> (forall y, In y (attrs d') -> (exists z, In z (attrs d) /\ a_name z = a_name y /\ a_val z = a_val y) \/ P (a_name y) (a_val y)) -> okn d'.
Proof. intros O A y Hy. destruct (A y Hy) as [(z & Hz & N & V)|H]; [|exact H]. rewrite <- N, <- V. now apply O. Qed.
Lemma newa_P d y : okn d -> newa d y -> P (a_name y) (a_val y).
Proof. intros O [(z & Hz & N & [V|[(a & Q) C]])|[(a & -> & M) C]]; [rewrite <- N, <- V; now apply O|rewrite Q in *; apply (P_computed _ (a_val z)); [rewrite <- N; now apply O|exact C]|now apply P_made]. Qed.
Lemma K_okn d d' : K d d' -> okn d -> okn d'.
Proof. intros [_ _ _ Ka] O y Hy. exact (newa_P d y O (Ka y Hy)). Qed.
Lemma shk_alln t t' : shr K t t' -> alln t -> alln t'.
Proof.
  revert t'. induction t as [d ch IH] using tree_ind'. intros t' S. inversion S as [? d' ? ch' Kd Sl]; subst. rewrite !alln_T. intros [O H]. split; [exact (K_okn _ _ Kd O)|]. rewrite Forall_forall in IH. clear S Kd O. induction Sl as [|c l l' Sl IHl|c c' l l' Sc Sl IHl]; [intros ? []| |].
  - apply IHl. { intros y Hy. apply IH. now right. } intros y Hy. apply H. now right.
  - intros x [<-|Hx]; [apply (IH c); [now left|exact Sc|apply H; now left]|]. apply IHl; auto. { intros y Hy. apply IH. now right. } intros y Hy. apply H. now right.
Qed.
(** Loops over nodes *)
Lemma n_vloop f ks : (forall t d d', f t d = Ok d' -> alln t -> okn d -> okn d') -> forall t t', vloop f ks t = Ok t' -> alln t -> alln t'.
Proof.
  intros F. induction ks as [|k ks IH]; intros t t' E H; cbn in E; [now injection E as <-|]. destruct (find_data k t) as [d|] eqn:Ed; [|exact (IH _ _ E H)]. apply bind_ok in E. destruct E as (d' & E1 & E). apply find_data_some in Ed. destruct Ed as [Hd Kd].
  apply (IH _ _ E). apply alln_upd; [|exact H]. intros _ _ _ _. exact (F _ _ _ E1 H (H d Hd)).
Qed.
Lemma n_vloopK f ks t t' : (forall t d d', f t d = Ok d' -> K d d') -> vloop f ks t = Ok t' -> alln t -> alln t'.
Proof. intros F. apply n_vloop. intros u d d' E _. apply K_okn. exact (F _ _ _ E). Qed.
Lemma n_apass f t : (forall a d d', f a d = Ok d' -> Forall okn a -> okn d -> okn d') -> forall a t', apass f a t = Ok t' -> Forall okn a -> alln t -> alln t'.
Proof.
  intros F. induction t as [d ch IH] using tree_ind'. intros a t' E Ha H. cbn [apass] in E. apply bind_ok in E. destruct E as (d' & E1 & E). apply bind_ok in E. destruct E as (ch' & E2 & E). injection E as <-. apply alln_T in H. destruct H as [O H]. apply alln_T. split; [exact (F _ _ _ E1 Ha O)|]. rewrite Forall_forall in IH.
  assert (Ha' : Forall okn (d' :: a)) by (constructor; [exact (F _ _ _ E1 Ha O)|exact Ha]). clear E1 O Ha. revert ch' E2. induction ch as [|c ch IHc]; intros ch' E2; [injection E2 as <-; intros ? []|]. apply bind_ok in E2. destruct E2 as (c' & E3 & E2). apply bind_ok in E2. destruct E2 as (r & E4 & E2). injection E2 as <-. intros x [<-|Hx]; [apply (IH c (or_introl eq_refl) _ _ E3 Ha'), H; now left|].
  apply (IHc (fun y Hy => IH y (or_intror Hy)) (fun y Hy => H y (or_intror Hy)) r E4 x Hx).
Qed.
Lemma okn_get d a v : okn d -> d_get d a = Some v -> P (AN a) v.
Proof.
  intros O E. unfold d_get, get_value in E. destruct (get_attr (attrs d) a) as [y|] eqn:G; [|discriminate]. injection E as <-. unfold get_attr in G. apply find_some in G. destruct G as [Hy N]. apply has_name_eq in N. rewrite <- N. now apply O.
Qed.
Lemma okn_put1 d l x : okn d -> (forall y, In y l -> In y (attrs d) \/ y = x) -> P (a_name x) (a_val x) -> okn (with_attrs d l).
Proof. intros O L Hx y Hy. destruct (L y Hy) as [H| ->]; [now apply O|exact Hx]. Qed.
Lemma okn_set d a v : okn d -> P (AN a) v -> okn (d_set d a v).
Proof. intros O A. apply (okn_put1 d _ (At (AN a) v true) O); [|exact A]. apply set_attr_from. Qed.
Lemma okn_set_hidden d a v : okn d -> P (AN a) v -> okn (d_set_hidden d a v).
Proof. intros O A. apply (okn_put1 d _ (At (AN a) v false) O); [|exact A]. apply set_hidden_from. Qed.
(** resolve_gradients *)
Lemma n_lookup t a : alln t -> forall n d v, okn d -> lookup n t a d = Found v -> P (AN a) v.
Proof.
  intros H. induction n as [|n IH]; intros d v O; cbn [lookup]; (destruct (d_get d a) as [w|] eqn:G; [intros E; injection E as <-; exact (okn_get d a w O G)|]); repeat match goal with |- context [match ?x with _ => _ end] => destruct x eqn:?; try discriminate end.
  apply IH. match goal with F : find_data _ t = Some _ |- _ => apply find_data_some in F; apply H, F end.
Qed.
Lemma n_check t a def x x' : (forall v, def = Some v -> P (AN a) v) -> check_attr t a def x = Ok x' -> alln t -> okn x -> okn x'.
Proof.
  intros D E H O. unfold check_attr in E. destruct (d_has x a); [injection E as <-; exact O|]. destruct (lookup _ t a x) as [v| |] eqn:L; [|destruct def as [v|]|discriminate]; injection E as <-; try exact O.
  - apply okn_set_hidden; [exact O|]. exact (n_lookup t a H _ x v O L).
  - apply okn_set_hidden; [exact O|]. now apply D.
Qed.
Lemma made_P a v w : made a = true -> computed v = true -> Some v = Some w -> P (AN a) w.
Proof. intros M C E. injection E as <-. now apply P_made. Qed.
Ltac checks := repeat match goal with
  | H : bind (check_attr _ _ _ _) _ = Ok _ |- _ => let d := fresh "d" in let E := fresh "E" in apply bind_ok in H; destruct H as (d & E & H)
  end.
Ltac step := match goal with
  | X : check_attr ?t ?a (Some ?v) ?d2 = Ok ?d3 |- okn ?d3 => refine (n_check t a (Some v) d2 d3 _ X _ _); [exact (fun w => made_P a v w eq_refl eq_refl)|assumption|clear X]
  | X : check_attr ?t ?a None ?d2 = Ok ?d3 |- okn ?d3 => refine (n_check t a None d2 d3 _ X _ _); [discriminate|assumption|clear X]
  end.
Lemma linear_n t d d' : resolve_linear_node t d = Ok d' -> alln t -> okn d -> okn d'.
Proof. intros H A O. unfold resolve_linear_node in H. checks. repeat step. exact O. Qed.
Lemma radial_n t d d' : resolve_radial_node t d = Ok d' -> alln t -> okn d -> okn d'.
Proof.
  intros H A O. unfold resolve_radial_node in H. cbv zeta in H. checks. step.
  match goal with X : check_attr _ ACx _ _ = Ok _, Y : check_attr _ AR _ _ = Ok ?x |- _ => assert (O1 : okn x) by (repeat match goal with Z : check_attr _ AFx _ _ = Ok _ |- _ => clear Z | Z : check_attr _ AFy _ _ = Ok _ |- _ => clear Z end; repeat step; exact O) end.
  match goal with X : check_attr ?t AFx (d_get ?x ACx) ?x = Ok ?y, Y : check_attr ?t AFy (d_get ?x ACy) ?y = Ok ?z |- _ =>
    assert (O2 : okn y) by (refine (n_check t AFx _ x y _ X A O1); intros w Ew; apply (proj1 (P_focus w)); exact (okn_get x ACx w O1 Ew));
    refine (n_check t AFy _ y z _ Y A O2); intros w Ew; apply (proj2 (P_focus w)); exact (okn_get x ACy w O1 Ew) end.
Qed.
Lemma n_linear t t' : resolve_linear_gradient_attributes t = Some (Ok t') -> alln t -> alln t'.
Proof. unfold resolve_linear_gradient_attributes. destruct (gen_order _ t); [|discriminate]. intros E. injection E as E. exact (n_vloop _ _ linear_n t t' E). Qed.
Lemma n_radial t t' : resolve_radial_gradient_attributes t = Some (Ok t') -> alln t -> alln t'.
Proof. unfold resolve_radial_gradient_attributes. destruct (gen_order _ t); [|discriminate]. intros E. injection E as E. exact (n_vloop _ _ radial_n t t' E). Qed.
(** Parts of documents *)
Lemma okn_new k e s : okn (ND k e s []). Proof. intros y []. Qed.
Lemma alln_sub t s : In s (subs t) -> alln t -> alln s.
Proof. intros H. apply alln_incl. intros d Hd. exact (sub_flat_in s t d H Hd). Qed.
Lemma alln_find k t s : find_sub k t = Some s -> alln t -> alln s.
Proof. intros E. apply find_sub_some in E. apply alln_sub, E. Qed.
Lemma okn_find k t d : find_data k t = Some d -> alln t -> okn d.
Proof. intros E H. apply find_data_some in E. apply H, E. Qed.
Lemma alln_kids s c : alln s -> In c (kids s) -> alln c.
Proof. destruct s as [d ch]. rewrite alln_T. intros [_ H]. apply H. Qed.
Lemma alln_data s : alln s -> okn (data s).
Proof. destruct s as [d ch]. rewrite alln_T. intros [H _]. exact H. Qed.
Lemma kids_of_alln k t c : alln t -> In c (kids_of k t) -> alln c.
Proof. intros H. unfold kids_of. destruct (find_sub k t) as [s|] eqn:E; [|intros []]. apply alln_kids. exact (alln_find _ _ _ E H). Qed.
Lemma alln_set_kids k f t : (forall ch, (forall c, In c ch -> alln c) -> forall c, In c (f ch) -> alln c) -> alln t -> alln (set_kids k f t).
Proof.
  intros F. induction t as [d ch IH] using tree_ind'. rewrite Forall_forall in IH. rewrite alln_T. intros [O H]. cbn [set_kids]. destruct (Nat.eqb _ _); apply alln_T; (split; [exact O|]); [now apply F|]. intros c Hc. apply in_map_iff in Hc. destruct Hc as (x & <- & Hx). apply IH; auto.
Qed.
Lemma okn_filter p d : okn d -> okn (with_attrs d (filter p (attrs d))). Proof. apply K_okn, K_filter, K_refl. Qed.
Lemma alln_unlink ks t : alln t -> alln (unlink ks t). Proof. apply alln_tmap. intros d _. apply okn_filter. Qed.
Lemma alln_detach k t : alln t -> alln (detach k t). Proof. apply alln_incl, flat_detach_incl. Qed.
Lemma alln_remove k t : alln t -> alln (remove k t). Proof. intros H. now apply alln_detach, alln_unlink. Qed.
Lemma alln_remove_nodes ks : forall t, alln t -> alln (remove_nodes ks t). Proof. unfold remove_nodes. induction ks as [|k ks IH]; intros t H; cbn; [exact H|]. now apply IH, alln_remove. Qed.
Lemma alln_drain p t : alln t -> alln (fst (drain p t)).
Proof.
  intros H. unfold drain. assert (G : forall ks st, alln (fst st) -> alln (fst (fold_left (drain_step p) ks st))); [|now apply G]. induction ks as [|k ks IH]; intros [u n] Hu; cbn [fold_left]; [exact Hu|]. apply IH. cbn. destruct (find_sub k u) as [s|]; [|exact Hu]. destruct (p u s); [now apply alln_remove|exact Hu].
Qed.
Lemma alln_move k p t : alln t -> alln (move k p t).
Proof.
  intros H. unfold move. destruct (find_sub k t) as [s|] eqn:E; [|exact H]. apply alln_set_kids; [|now apply alln_detach]. intros ch Hch c Hc. apply in_app_or in Hc. destruct Hc as [Hc|[<-|[]]]; [auto|exact (alln_find _ _ _ E H)].
Qed.
(** resolve_inherit *)
Definition held (w : vid) (d : ndata) (a : aid) : Prop := P (AN a) (VPre w).
Lemma keyword_held w d a : okn d -> In a (keyword_attrs w d) -> held w d a.
Proof.
  intros O H. apply in_flat_map in H. destruct H as (y & Hy & H). specialize (O y Hy). destruct (a_name y) as [b|] eqn:En; [|destruct H]. destruct (a_val y) eqn:Ev; try destruct H. destruct (vid_eqb_spec v w) as [-> |Q]; [|destruct H]. destruct H as [-> |[]]. exact O.
Qed.
Lemma n_each (Q : aid -> Prop) f l : (forall a d d', f a d = Ok d' -> Q a -> okn d -> okn d') -> forall d d', each f l d = Ok d' -> okn d -> (forall a, In a l -> Q a) -> okn d'.
Proof.
  intros F. induction l as [|a l IH]; intros d d' E O Fr; cbn in E; [injection E as <-; auto|]. apply bind_ok in E. destruct E as (x & E1 & E). apply (IH _ _ E); [exact (F _ _ _ E1 (Fr a (or_introl eq_refl)) O)|intros b Hb; apply Fr; now right].
Qed.
Lemma resolve_impl_n anc c p d d' : resolve_impl anc c p d = Ok d' -> Forall okn anc -> (forall v, P (AN p) v -> P (AN c) v) -> okn d -> okn d'.
Proof.
  unfold resolve_impl. destruct (find _ anc) as [n|] eqn:Fn; [|discriminate]. destruct (d_get n p) as [v|] eqn:G; intros E; injection E as <-; auto. intros A S O. apply okn_set; [exact O|]. apply S. apply find_some in Fn. rewrite Forall_forall in A. exact (okn_get n p v (A n (proj1 Fn)) G).
Qed.
Lemma n_inherit t t' : resolve_inherit t = Ok t' -> alln t -> alln t'.
Proof.
  intros E. unfold resolve_inherit in E. apply bind_ok in E. destruct E as (u & E & E'). destruct (links_allowed t u); [|discriminate]. injection E' as <-. refine (n_apass _ t _ [] u E (Forall_nil _)). intros anc d d'. unfold inherit_node. destruct (is_svg_el d); [|intros Q _; now injection Q as <-]. intros Q A O. apply bind_ok in Q. destruct Q as (x & E1 & E2).
  assert (Ox : okn x) by (refine (n_each (fun _ => True) _ _ _ _ _ E1 O (fun _ _ => I)); intros a y y' Ey _; refine (resolve_impl_n _ _ _ _ _ Ey A _); auto).
  refine (n_each (fun a => P (AN a) (VPre Vid_currentColor)) _ _ _ _ _ E2 Ox _).
  - intros a y y'. unfold resolve_color. destruct (d_get y AColor) as [v|] eqn:G; intros Q Ha Oy; [injection Q as <-; apply okn_set; [exact Oy|]; exact (P_color _ _ Ha (okn_get y AColor v Oy G))|]. refine (resolve_impl_n _ _ _ _ _ Q A _ Oy). intros v. now apply P_color.
  - intros a Ha. exact (keyword_held Vid_currentColor d a O Ha).
Qed.
(** group_defs *)
Lemma okn_add d l : Forall okn l -> okn d -> okn (add_missing l d).
Proof.
  intros A O. unfold add_missing. assert (G : forall ys x, (forall y, In y ys -> P (a_name y) (a_val y)) -> okn x -> okn (fold_left add_attr ys x)).
  { induction ys as [|y ys IH]; intros x I Ox; cbn; [exact Ox|]. apply IH; [intros; apply I; now right|]. unfold add_attr. assert (Iy := I y (or_introl eq_refl)). destruct (a_name y) as [a|] eqn:En; [|exact Ox]. destruct (d_has x a); [exact Ox|].
    apply (okn_put1 x _ y Ox); [|now rewrite En]. intros z Hz. apply in_app_or in Hz. destruct Hz as [Hz|[<-|[]]]; auto. }
  apply G; [|exact O]. intros y Hy. apply in_flat_map in Hy. destruct Hy as (p & Hp & Hy). apply filter_In in Hy. rewrite Forall_forall in A. exact (A p Hp y (proj1 Hy)).
Qed.
Lemma n_resolve k t : alln t -> alln (resolve_attrs k t).
Proof.
  intros H. unfold resolve_attrs. destruct (context k t) as [[anc n]|] eqn:C; [|exact H]. destruct (resolves n); [|exact H]. apply context_some in C. destruct C as [C _].
  assert (A : Forall okn (n :: anc)). { constructor; [apply H; exact (ctx_in_flat _ _ _ C)|]. apply Forall_forall. intros x Hx. destruct (ctx_anc_in _ _ _ _ C Hx) as [[]|Hx']. now apply H. }
  apply alln_tmap; [|exact H]. intros d _ O. destruct (existsb _ _); [now apply okn_add|exact O].
Qed.
Lemma n_main svg t : alln t -> alln (snd (main_defs svg t)).
Proof.
  intros H. assert (Hp : forall c u, alln c -> alln u -> alln (set_kids (root_key svg) (fun l => c :: l) u)) by (intros c u Hc; apply alln_set_kids; intros ch Hch x [<-|Hx]; auto).
  unfold main_defs. destruct (first_defs t) as [d|]; [|apply Hp; [apply alln_T; split; [apply okn_new|intros ? []]|exact H]].
  assert (Q : alln (match find_sub (key d) t with Some s => set_kids (root_key svg) (fun l => s :: l) (detach (key d) t) | None => t end)).
  { destruct (find_sub (key d) t) as [s|] eqn:E; [|exact H]. apply Hp; [exact (alln_find _ _ _ E H)|now apply alln_detach]. }
  destruct (kids svg) as [|c l]; [exact Q|]. destruct (Nat.eqb _ _); [exact H|exact Q].
Qed.
Lemma n_fold {A} (f : tree -> A -> tree) l : (forall t x, alln t -> alln (f t x)) -> forall t, alln t -> alln (fold_left f l t).
Proof. intros F. induction l as [|x l IH]; intros t H; cbn; auto. Qed.
Lemma n_groupdefs t t' : group_defs t = Ok t' -> alln t -> alln t'.
Proof.
  intros Q H. unfold group_defs in Q. destruct (svg_element t) as [svg|]; [|discriminate]. pose proof (n_main svg t H) as H1. destruct (main_defs svg t) as [m t1]. cbn in H1. destruct (moves_ok _ _ _); [|discriminate]. injection Q as <-.
  apply alln_remove_nodes, n_fold; [intros u k; apply alln_move|]. apply n_fold; [|exact H1]. intros u k Hu. apply alln_move. now apply n_resolve.
Qed.
(** remove_unused_defs *)
Lemma n_defs_round t ch ch' : defs_round t ch = Some ch' -> (forall c, In c ch -> alln c) -> forall c, In c ch' -> alln c.
Proof.
  unfold defs_round. destruct (existsb _ _); [|discriminate]. intros E. injection E as <-. intros H c Hc. apply in_app_or in Hc. destruct Hc as [Hc|Hc]; apply in_flat_map in Hc; destruct Hc as (x & Hx & Hc); specialize (H x Hx).
  - unfold left_over in Hc. destruct (unused t x); [|destruct Hc as [<-|[]]; exact H]. destruct (kids x); [destruct Hc|]. destruct Hc as [<-|[]]. apply alln_T. split; [now apply alln_data|intros ? []].
  - unfold RmUnusedDefs.moved in Hc. destruct (unused t x); [|destruct Hc]. exact (alln_kids x c H Hc).
Qed.
Lemma n_defs_loop k n : forall t t', defs_loop n k t = Some t' -> alln t -> alln t'.
Proof.
  induction n as [|n IH]; intros t t' E H; cbn in E; destruct (defs_round t (kids_of k t)) as [ch|] eqn:R; try discriminate; try (now injection E as <-).
  apply (IH _ _ E). apply alln_set_kids; [|exact H]. intros _ _. refine (n_defs_round _ _ _ R _). intros c. now apply kids_of_alln.
Qed.
Lemma n_unused t t' : remove_unused_defs t = Some (Ok t') -> alln t -> alln t'.
Proof. unfold remove_unused_defs. destruct (first_defs t) as [d|]; [|discriminate]. destruct (defs_loop _ _ t) as [u|] eqn:E; [|discriminate]. intros Q. injection Q as <-. exact (n_defs_loop _ _ _ _ E). Qed.
(** rm_dupl *)
Lemma link_value_reference a k : reference (link_value a k). Proof. exists k. unfold link_value. destruct (aid_eqb _ _); auto. Qed.
Section relinks.
Hypothesis RL : relinking = true.
Lemma n_relink k2 n1 t t' : relink k2 n1 t = Ok t' -> alln t -> alln t'.
Proof.
  unfold relink. destruct (forallb _ _); [|discriminate]. destruct (forallb _ _); [|discriminate]. intros E. injection E as <-. apply alln_tmap. intros d _ O. destruct (String.eqb _ _); [exact O|]. intros y Hy. cbn in Hy. apply in_map_iff in Hy. destruct Hy as (z & <- & Hz). specialize (O z Hz). unfold relink_attr. destruct (refers k2 z) eqn:R; [|exact O]. destruct (a_name z) as [a|] eqn:En; [|now rewrite En]. cbn. apply (P_relink RL a (a_val z)); [exact O| |apply link_value_reference].
  unfold refers in R. destruct (a_val z) as [] eqn:V; cbn in R; try discriminate; unfold reference; eauto.
Qed.
Lemma n_inner cmp k1 rest : forall t l t', dupl_inner cmp k1 rest t = Ok (l, t') -> alln t -> alln t'.
Proof.
  induction rest as [|k2 r IH]; intros t l t' E H; cbn in E; [now injection E as _ <-|]. destruct (find_sub k1 t) as [s1|]; [|exact (IH _ _ _ E H)]. destruct (find_sub k2 t) as [s2|]; [|exact (IH _ _ _ E H)]. apply bind_ok in E. destruct E as (b & _ & E). destruct b.
  - apply bind_ok in E. destruct E as (t1 & E1 & E). apply (IH _ _ _ E). apply alln_remove. exact (n_relink _ _ _ _ E1 H).
  - apply bind_ok in E. destruct E as ([l1 t1] & E1 & E). injection E as _ <-. exact (IH _ _ _ E1 H).
Qed.
Lemma n_rm_loop cmp l t t' : rm_loop cmp l t = Ok t' -> alln t -> alln t'.
Proof.
  unfold rm_loop. generalize (List.length l) as n. intros n. revert l t. induction n as [|n IH]; intros [|k1 rest] t E H; cbn in E; try (now injection E as <-). apply bind_ok in E. destruct E as ([l1 t1] & E1 & E). apply (IH _ _ E). exact (n_inner _ _ _ _ _ _ E1 H).
Qed.
End relinks.
(** merge_gradients *)
Lemma n_take l d : okn d -> okn (take_attrs l d).
Proof.
  intros O. apply (okn_from d); [exact O|]. intros y Hy. left. cbn [attrs with_attrs] in Hy. unfold take_attrs in Hy. cbn in Hy. revert Hy.
  assert (G : forall as_ ys, (forall y, In y ys -> exists z, In z (attrs d) /\ a_name z = a_name y /\ a_val z = a_val y) -> forall y, In y (fold_left (show_linked l) as_ ys) -> exists z, In z (attrs d) /\ a_name z = a_name y /\ a_val z = a_val y).
  { induction as_ as [|a as_ IH]; intros ys Q; cbn; [exact Q|]. apply IH. unfold show_linked. destruct (get_attr _ _) as [x|]; [|exact Q]. destruct (a_vis x); [|exact Q]. intros w Hw. unfold show_attr in Hw. apply in_map_iff in Hw. destruct Hw as (z & <- & Hz). destruct (Q z Hz) as (z0 & A & B & C). exists z0. destruct (has_name _ z); cbn; auto. }
  apply G. intros z Hz. unfold rm_attr in Hz. apply filter_In in Hz. exists z. tauto.
Qed.
Lemma n_merge_visit st k : alln (fst st) -> alln (fst (merge_visit st k)).
Proof.
  destruct st as [t ks]. cbn [fst]. intros H. unfold merge_visit. destruct (find_sub k t) as [s|]; [|exact H]. destruct (d_get (data s) AXlinkHref) as [v|]; [|exact H]. destruct v as [| | | | | | |j| | |]; try exact H. destruct (find_sub j t) as [l|] eqn:El; [|exact H]. destruct (_ && _); [|exact H]. cbn [fst].
  apply alln_upd; [intros d _ _; apply n_take|]. destruct (kids s); [|exact H]. apply alln_set_kids; [intros _ _ c; apply alln_kids; exact (alln_find _ _ _ El H)|]. apply alln_set_kids; [intros _ _ c []|exact H].
Qed.
Lemma n_merge_round t : alln t -> alln (fst (merge_round t)).
Proof.
  intros H. unfold merge_round. generalize (map key (filter is_gradient (flat t))) as ks. intros ks. assert (G : forall st, alln (fst st) -> alln (fst (fold_left merge_visit ks st))); [|now apply G]. induction ks as [|k ks IH]; intros st Hs; cbn; [exact Hs|]. now apply IH, n_merge_visit.
Qed.
Lemma n_merge n : forall t t', merge_gradients n t = Some t' -> alln t -> alln t'.
Proof.
  induction n as [|n IH]; intros t t' E H; cbn in E; [discriminate|]. pose proof (n_merge_round t H) as R. destruct (merge_round t) as [t1 [|k ks]]; cbn in R; [now injection E as <-|]. apply (IH _ _ E). now apply (alln_remove_nodes (k :: ks)).
Qed.
(** ungroup_groups *)
Lemma put_from l x y : In y (put_attr l x) -> In y l \/ y = x.
Proof.
  unfold put_attr. destruct (existsb _ _); intros H; [apply in_map_iff in H; destruct H as (z & <- & Hz); destruct (has_name _ z); auto|apply in_app_or in H; destruct H as [H|[<-|[]]]; auto].
Qed.
Lemma okn_put d x : okn d -> P (a_name x) (a_val x) -> okn (with_attrs d (put_attr (attrs d) x)).
Proof. intros O A. apply (okn_put1 d _ x O); [|exact A]. intros y. apply put_from. Qed.
Lemma okn_set_made d a v : okn d -> made a = true -> computed v = true -> okn (d_set d a v). Proof. intros O S C. apply okn_set; auto. Qed.
Lemma okn_map_made d a v : okn d -> computed v = true -> okn (map_value d a v). Proof. intros O S. apply (K_okn d); [|exact O]. apply K_map_value; [apply K_refl|exact S]. Qed.
Lemma n_give_attr t x c c' : P (a_name x) (a_val x) -> give_attr t x c = Ok c' -> okn c -> okn c'.
Proof.
  intros A E O. unfold give_attr in E. destruct (a_name x) as [a|] eqn:En; [|now injection E as <-].
  assert (Pt : (if put_ok t c x then Ok (with_attrs c (put_attr (attrs c) x)) else Panic) = Ok c' -> okn c') by (destruct (put_ok t c x); [|discriminate]; intros Q; injection Q as <-; apply okn_put; [exact O|]; now rewrite En).
  destruct (aid_eqb_spec a AOpacity) as [Ea|Ea]; cbn [andb] in E; [destruct (d_has c a)|]; cbn [andb] in E.
  - destruct (a_val x); try discriminate. destruct (d_get c a) as [[]|]; try discriminate. injection E as <-. apply okn_set_made; [exact O|now rewrite Ea|reflexivity].
  - rewrite Ea in E. cbn in E. exact (Pt E).
  - destruct (aid_eqb_spec a ATransform) as [Et|Et]; cbn [andb] in E; [destruct (d_has c a)|]; cbn [andb] in E.
    + injection E as <-. destruct (a_val x); try exact O. destruct (d_get c a) as [[]|]; try exact O. apply okn_map_made; [exact O|reflexivity].
    + rewrite Et in E. cbn in E. exact (Pt E).
    + destruct (aid_eqb a ADisplay); [exact (Pt E)|]. destruct (d_has c a); [now injection E as <-|exact (Pt E)].
Qed.
Lemma give_attrs_panic t l : fold_left (fun r x => bind r (give_attr t x)) l Panic = Panic. Proof. induction l; cbn; auto. Qed.
Lemma give_attrs_err t l e : fold_left (fun r x => bind r (give_attr t x)) l (Err e) = Err e. Proof. induction l; cbn; auto. Qed.
Lemma n_give_attrs t l : (forall x, In x l -> P (a_name x) (a_val x)) -> forall c c', give_attrs t l c = Ok c' -> okn c -> okn c'.
Proof.
  intros A. unfold give_attrs. induction l as [|x l IH]; intros c c' E O; cbn [fold_left] in E; [now injection E as <-|]. cbn [bind] in E. destruct (give_attr t x c) as [c1|e|] eqn:G; [|rewrite give_attrs_err in E; discriminate|rewrite give_attrs_panic in E; discriminate].
  apply (IH (fun x Hx => A x (or_intror Hx)) c1 c' E). exact (n_give_attr t x c c1 (A x (or_introl eq_refl)) G O).
Qed.
Lemma n_give_all t l : (forall x, In x l -> P (a_name x) (a_val x)) -> forall ch ch', give_all t l ch = Ok ch' -> (forall c, In c ch -> alln c) -> forall c, In c ch' -> alln c.
Proof.
  intros A. induction ch as [|c ch IH]; intros ch' E H; cbn in E; [injection E as <-; intros ? []|]. apply bind_ok in E. destruct E as (d & E1 & E). apply bind_ok in E. destruct E as (r & E2 & E). injection E as <-. intros x [<-|Hx]; [|exact (IH r E2 (fun y Hy => H y (or_intror Hy)) x Hx)].
  assert (Hc := H c (or_introl eq_refl)). apply alln_T. split; [exact (n_give_attrs t l A _ _ E1 (alln_data c Hc))|]. intros y Hy. exact (alln_kids c y Hc Hy).
Qed.
Lemma alln_img g t : (forall c l, g c = Some l -> alln c -> forall x, In x l -> alln x) -> alln t -> alln (img g t).
Proof.
  intros G. induction t as [d ch IH] using tree_ind'. rewrite Forall_forall in IH. rewrite alln_T. intros [O H]. cbn [img]. apply alln_T. split; [exact O|]. intros x Hx. apply in_flat_map in Hx. destruct Hx as (c & Hc & Hx). destruct (g c) as [l|] eqn:Eg; [exact (G c l Eg (H c Hc) x Hx)|]. destruct Hx as [<-|[]]. apply IH; auto.
Qed.
Lemma n_push m s t : alln t -> alln (push_ts m s t).
Proof.
  apply alln_tmap. intros d _ O. destruct (Nat.eqb _ _); [apply (K_okn d); [apply K_rm, K_refl|exact O]|]. destruct (existsb _ _); [|exact O]. unfold add_ts. apply okn_set_made; [exact O|reflexivity|now destruct (d_get d ATransform) as [[]|]].
Qed.
Lemma n_prep_one o t k r : prep_one o t k = Ok r -> alln t -> alln (fst r).
Proof.
  unfold prep_one. intros E H. destruct (find_sub k t) as [s|]; [|now injection E as <-]. destruct (ancestors k [] t) as [anc|]; [|now injection E as <-]. destruct (_ && _); [|now injection E as <-]. apply bind_ok in E. destruct E as (b & _ & E). destruct (_ || _); [now injection E as <-|]. apply bind_ok in E. destruct E as (ok & _ & E). destruct ok; [|now injection E as <-].
  destruct (d_get _ _) as [[]|]; try discriminate. injection E as <-. now apply n_push.
Qed.
Lemma n_prep_loop o rc ks : forall t t', prep_loop o rc ks t = Ok t' -> alln t -> alln t'.
Proof.
  induction ks as [|k ks IH]; intros t t' E H; cbn in E; [now injection E as <-|]. apply bind_ok in E. destruct E as (r & E1 & E). pose proof (n_prep_one _ _ _ _ E1 H) as R. destruct (_ && _); [now injection E as <-|]. exact (IH _ _ E R).
Qed.
Lemma n_prepare o self rc p t t' : prepare o self rc p t = Ok t' -> alln t -> alln t'.
Proof.
  unfold prepare. destruct (valid_elems o); [intros E; now injection E as <-|]. destruct (find_sub p t); [apply n_prep_loop|intros E; now injection E as <-].
Qed.
Lemma n_ungroup_one o self t p g t' : ungroup_one o self t p g = Ok t' -> alln t -> alln t'.
Proof.
  intros E H. unfold ungroup_one in E. destruct (find_sub g t) as [x|] eqn:Ex; [|now injection E as <-]. apply bind_ok in E. destruct E as (ch & E1 & E). apply (n_prepare _ _ _ _ _ _ E). apply alln_remove. pose proof (alln_find _ _ _ Ex H) as Hx.
  assert (A : forall y, In y (attrs (data x)) -> P (a_name y) (a_val y)) by (exact (alln_data x Hx)).
  assert (Hch := n_give_all t _ A _ _ E1 (fun c Hc => alln_kids x c Hx Hc)).
  apply alln_img; [|exact H]. intros c l Q Hc y Hy. destruct (Nat.eqb _ _); [|discriminate]. injection Q as <-. destruct Hy as [<-|Hy]; [|auto]. apply alln_T. split; [now apply alln_data|intros ? []].
Qed.
Lemma n_ungroup_loop n o self : forall t t', ungroup_loop n o self t = Some (Ok t') -> alln t -> alln t'.
Proof.
  induction n as [|n IH]; intros t t' E H; cbn in E; (destruct (svg_element t) as [s|] eqn:Es; [|discriminate]); destruct (find_group t s) as [[p g]|] eqn:Eg; try discriminate; try (now injection E as <-).
  destruct (ungroup_one o self t p g) as [u| |] eqn:Eu; try discriminate. apply (IH _ _ E). exact (n_ungroup_one _ _ _ _ _ _ Eu H).
Qed.
Lemma n_ungroup o self t t' : ungroup_groups o self t = Some (Ok t') -> alln t -> alln t'.
Proof.
  unfold ungroup_groups. destruct (svg_element t) as [s|]; [|discriminate]. destruct (prepare _ _ _ _ _) as [u| |] eqn:E; try discriminate. intros Q H. apply (n_ungroup_loop _ _ _ _ _ Q). exact (n_prepare _ _ _ _ _ _ E H).
Qed.
(** remove_invisible *)
Lemma n_display x : alln (fst x) -> alln (fst (process_display x)).
Proof. destruct x as [t b]. cbn. apply alln_remove_nodes. Qed.
Lemma n_clip_rounds stops ks : forall t em, alln t -> alln (fst (clip_rounds stops ks t em)).
Proof.
  induction ks as [|k ks IH]; intros t em H; cbn [clip_rounds]; [exact H|]. destruct (find_sub k t) as [s|]; [|now apply IH]. cbv zeta. destruct (stops && _); [cbn [fst]; now apply alln_remove_nodes|]. apply IH. now apply alln_remove_nodes.
Qed.
Lemma n_remove_linked ks : forall t, alln t -> alln (fold_left remove_linked ks t).
Proof. apply n_fold. intros t k H. unfold remove_linked. now apply alln_remove, alln_remove_nodes. Qed.
Lemma n_clip stops x : alln (fst x) -> alln (fst (process_clip_paths stops x)).
Proof. destruct x as [t b]. intros H. unfold process_clip_paths. pose proof (n_clip_rounds stops (tag_keys EClipPath t) t [] H) as R. destruct (clip_rounds _ _ _ _) as [t1 em]. cbn [fst] in *. now apply n_remove_linked. Qed.
Lemma n_filter x : alln (fst x) -> alln (fst (process_empty_filter x)).
Proof. destruct x as [t b]. cbn. apply n_remove_linked. Qed.
Lemma okn_sets (f : ndata -> aid -> ndata) l : (forall x a, In a l -> okn x -> okn (f x a)) -> forall d, okn d -> okn (fold_left f l d).
Proof.
  intros F. induction l as [|a l IH]; intros d O; cbn; [exact O|]. apply IH; [intros x b Hb; apply F; now right|]. apply F; [now left|exact O].
Qed.
Lemma link_attrs_P k d a v : okn d -> In a (link_attrs k d) -> computed v = true -> P (AN a) v.
Proof.
  intros O H C. apply in_flat_map in H. destruct H as (y & Hy & H). destruct (a_name y) as [b|] eqn:En; [|destruct H]. destruct (refers k y) eqn:R; [|destruct H]. destruct H as [-> |[]]. apply (P_computed _ (a_val y)); [rewrite <- En; now apply O|exact C].
Qed.
Lemma n_no_paint k d : okn d -> okn (no_paint k d).
Proof. intros O. unfold no_paint. apply okn_sets; [|exact O]. intros x a Ha Ox. apply okn_set; [exact Ox|]. apply (link_attrs_P k d a); auto. Qed.
Lemma n_solid k r g b o d : okn d -> okn (solid k (VColor r g b) o d).
Proof.
  intros O. unfold solid. apply okn_sets; [|exact O]. intros x a Ha Ox. assert (Q : okn (d_set x a (VColor r g b))). { apply okn_set; [exact Ox|]. apply (link_attrs_P k d a); auto. }
  unfold one_color. destruct (qeqb o q1); [auto|]. destruct a; auto; apply okn_set_made; auto.
Qed.
Lemma n_solids ks : forall t t', fold_left (fun r k => bind r (fun t => paint_solid t k)) ks (Ok t) = Ok t' -> alln t -> alln t'.
Proof.
  assert (Pn : forall l, fold_left (fun r k => bind r (fun t => paint_solid t k)) l Panic = Panic) by (induction l as [|k l IHl]; cbn; auto). assert (Q : forall e l, fold_left (fun r k => bind r (fun t => paint_solid t k)) l (Err e) = Err e) by (induction l as [|k l IHl]; cbn; auto).
  induction ks as [|k ks IH]; intros t t' E H; cbn [fold_left] in E; [now injection E as <-|]. cbn [bind] in E. destruct (paint_solid t k) as [u|e|] eqn:Ep; [|rewrite Q in E; discriminate|rewrite Pn in E; discriminate]. apply (IH _ _ E). unfold paint_solid in Ep. destruct (find_sub k t) as [[x [|c ch]]|]; try (now injection Ep as <-).
  destruct (d_get _ _) as [[]|]; try discriminate. destruct (d_get _ _) as [[]|]; try discriminate. injection Ep as <-. revert H. apply alln_tmap. intros d _ O. destruct (is_grad d); [exact O|]. now apply n_solid.
Qed.
Lemma n_gradients x x' : process_gradients x = Ok x' -> alln (fst x) -> alln (fst x').
Proof.
  destruct x as [t b]. intros E H. cbn [fst] in H. unfold process_gradients in E. apply bind_ok in E. destruct E as (t1 & E1 & E). injection E as <-. cbn [fst]. apply alln_remove_nodes. apply (n_solids _ _ _ E1). unfold unpaint. apply n_fold; [|exact H]. intros u k. apply alln_tmap. intros d _. now apply n_no_paint.
Qed.
Lemma n_invisible stops t t' : remove_invisible stops t = Some (Ok t') -> alln t -> alln t'.
Proof.
  intros E H. unfold remove_invisible in E. destruct (process_gradients _) as [x7| |] eqn:G; try discriminate. assert (H7 : alln (fst x7)).
  { apply (n_gradients _ _ G). unfold process_use, process_fe_color_matrix, drained. cbn [fst]. repeat apply alln_drain. apply n_filter, n_clip. unfold RmInvisible.process_paths, drained. cbn [fst]. apply alln_drain, n_display. exact H. }
  assert (H8 : alln (fst (process_rect x7))) by (unfold process_rect, drained; cbn [fst]; now apply alln_drain).
  destruct (snd (process_rect x7)); [exact (n_unused _ _ E H8)|]. now injection E as <-.
Qed.
(** resolve_use *)
Lemma n_after u s t : alln s -> alln t -> alln (insert_after u s t).
Proof. intros A B d Hd. apply flat_after in Hd. apply in_app_or in Hd. destruct Hd; auto. Qed.
Lemma K_shift d d' : shift_use d = Some d' -> K d d'.
Proof. unfold shift_use. destruct (_ || _); [|intros E; injection E as <-; apply K_refl]. destruct (_ && _); [|discriminate]. intros E. injection E as <-. repeat apply K_rm. apply K_set; [apply K_refl|reflexivity|reflexivity]. Qed.
Lemma okn_puts l : forall d, (forall x, In x l -> P (a_name x) (a_val x)) -> okn d -> okn (with_attrs d (fold_left put_attr l (attrs d))).
Proof.
  induction l as [|x l IH]; intros d A O; cbn; [destruct d; exact O|].
  specialize (IH (with_attrs d (put_attr (attrs d) x))). apply IH; [intros y Hy; apply A; now right|]. apply okn_put; [exact O|]. apply A. now left.
Qed.
Lemma n_use_one t u k t' : resolve_one t (u, k) = Ok t' -> alln t -> alln t'.
Proof.
  intros E H. unfold resolve_one in E. assert (H1 : alln (upd u (fun d => d_rm d AXlinkHref) t)) by (apply alln_upd; [|exact H]; intros d _ _; apply K_okn, K_rm, K_refl). revert H1 E. generalize (upd u (fun d => d_rm d AXlinkHref) t). intros t1 H1 E.
  destruct (find_data u t1) as [du|] eqn:Eu; [|now injection E as <-]. destruct (find_sub k t1) as [l|] eqn:El; [|now injection E as <-]. destruct (shift_use du) as [du'|] eqn:Ed; [|now injection E as <-]. destruct (forallb _ _); [|discriminate]. injection E as <-.
  pose proof (okn_find _ _ _ Eu H1) as Ou. pose proof (K_okn _ _ (K_shift _ _ Ed) Ou) as Ou'. pose proof (alln_find _ _ _ El H1) as Hl.
  apply alln_remove, n_after; [|now apply alln_detach]. apply alln_T. split; [|intros c; now apply alln_kids]. apply okn_puts; [|now apply alln_data]. exact Ou'.
Qed.
Lemma n_use t t' : resolve_use t = Ok t' -> alln t -> alln t'.
Proof.
  intros E H. unfold resolve_use in E. revert E. generalize (use_pairs t) as ps. intros ps. revert t H. induction ps as [|[u k] ps IH]; intros t H E; cbn [fold_left] in E; [now injection E as <-|].
  destruct (resolve_one t (u, k)) as [t1|e|] eqn:R.
  - apply (IH t1); [exact (n_use_one _ _ _ _ R H)|exact E].
  - exfalso. clear -E. induction ps; cbn in E; [discriminate|auto].
  - exfalso. clear -E. induction ps; cbn in E; [discriminate|auto].
Qed.
(** remove_gradient_attributes, remove_unused_coordinates *)
Lemma K_hide d a : K d (with_attrs d (hide_attr (attrs d) a)).
Proof. apply K_map; [apply K_refl|]. intros y _. destruct (has_name _ y); auto. Qed.
Lemma K_make a d d' : make_invisible a d = Ok d' -> K d d'.
Proof. unfold make_invisible. destruct (d_has d a); [|discriminate]. intros E. injection E as <-. apply K_hide. Qed.
Lemma K_units t d d' : units_visit t d = Ok d' -> K d d'.
Proof.
  unfold units_visit. assert (D : Ok d = Ok d' -> K d d') by (intros E; injection E as <-; apply K_refl). destruct (link_key d); [|exact D]. destruct (find_data _ t); [|exact D]. destruct (opt_value_eqb _ _); [apply K_make|exact D].
Qed.
Lemma K_move v w d d' : computed w = true -> move_units v w d = Ok d' -> K d d'.
Proof. intros C. unfold move_units. destruct (d_get d AGradientUnits) as [x|]; [|intros E; injection E as <-; apply K_refl]. destruct (value_eqb x v); [apply K_make|]. intros E. injection E as <-. apply K_set; [apply K_refl|reflexivity|exact C]. Qed.
Lemma n_group_visit t k t' : group_visit t k = Ok t' -> alln t -> alln t'.
Proof.
  intros E H. unfold group_visit in E. cbv zeta in E. apply bind_ok in E. destruct E as (t1 & E1 & E). injection E as <-.
  assert (S : forall v, computed v = true -> alln (upd k (fun d => d_set d AGradientUnits v) t)) by (intros v C; apply alln_upd; [|exact H]; intros d _ _ O; now apply okn_set_made).
  assert (V : forall f ks u, (forall d d', f d = Ok d' -> K d d') -> vloop (fun _ => f) ks u = Ok t1 -> alln u -> alln t1) by (intros f ks u F; apply n_vloopK; intros _; exact F).
  assert (H1 : alln t1). { destruct (Nat.eqb _ _); [refine (V _ _ _ (K_make _) E1 (S _ _)); reflexivity|]. destruct (Nat.eqb _ _); [refine (V _ _ _ (K_make _) E1 (S _ _)); reflexivity|]. destruct (Nat.leb _ _); refine (V _ _ _ (fun d d0 => K_move _ _ d d0 _) E1 (S _ _)); reflexivity. }
  revert H1. apply alln_upd. intros d _ _. apply K_okn. unfold hide_default_units. destruct (opt_value_eqb _ _); [apply K_hide|apply K_refl].
Qed.
Lemma n_grad_attrs t t' : remove_gradient_attributes t = Some (Ok t') -> alln t -> alln t'.
Proof.
  intros E H. unfold remove_gradient_attributes, rm_equal in E. destruct (units_sequence _ _ _) as [ks|]; [|discriminate]. cbn [option_map] in E. injection E as E. apply bind_ok in E. destruct E as (t1 & E1 & E). apply (n_vloopK _ _ _ _ K_units) in E1; [|exact H]. clear H. unfold group_to_parent in E. revert E. generalize (unit_parents t1) as us. intros us. revert t1 E1.
  induction us as [|k us IH]; intros u Hu E; cbn [fold_left] in E; [now injection E as <-|]. cbn [bind] in E. destruct (group_visit u k) as [w|e|] eqn:G; [exact (IH w (n_group_visit _ _ _ G Hu) E)| |].
  - exfalso. clear -E. induction us; cbn in E; [discriminate|auto].
  - exfalso. clear -E. induction us; cbn in E; [discriminate|auto].
Qed.
Lemma n_coords t t' : remove_unused_coordinates t = Ok t' -> alln t -> alln t'.
Proof.
  apply n_vloopK. intros u d d'. unfold coords_visit. destruct (forallb _ _); [|discriminate]. intros E. injection E as <-. unfold hide_all. apply K_fold; [|apply K_refl]. intros x a Kx. apply (K_trans d x); [exact Kx|apply K_hide].
Qed.
(** The last steps *)
Lemma okn_id d s : okn d -> okn (with_id d s). Proof. intros O. exact O. Qed.
Lemma n_ids t : alln t -> alln (remove_unreferenced_ids t).
Proof. apply alln_tmap. intros d _ O. destruct (_ && _); [now apply okn_id|exact O]. Qed.
Lemma n_smap {S} (f : S -> ndata -> ndata * S) t : (forall s d, okn d -> okn (fst (f s d))) -> forall s, alln t -> alln (fst (smap f s t)).
Proof.
  intros F. induction t as [d ch IH] using tree_ind'. rewrite Forall_forall in IH. intros s. rewrite alln_T, smap_T. cbn [fst]. intros [O H]. apply alln_T. split; [now apply F|]. generalize (snd (f s d)) as s1. clear O. induction ch as [|c ch IHc]; intros s1; [intros ? []|].
  cbn [smap_forest]. pose proof (IH c (or_introl eq_refl) s1 (H c (or_introl eq_refl))) as Hc. destruct (smap f s1 c) as [c' s2]. specialize (IHc (fun y Hy => IH y (or_intror Hy)) (fun y Hy => H y (or_intror Hy)) s2). change ((fix go (s0 : S) (l : list tree) {struct l} : list tree * S := match l with [] => ([], s0) | c0 :: l' => let (c'0, s') := smap f s0 c0 in let (r, s'') := go s' l' in (c'0 :: r, s'') end) s2 ch) with (smap_forest f s2 ch) in *. destruct (smap_forest f s2 ch) as [r s3]. cbn [fst] in *. intros x [<-|Hx]; auto.
Qed.
Lemma n_trim t t' : trim_ids t = Ok t' -> alln t -> alln t'.
Proof.
  unfold trim_ids. intros E H. pose proof (n_smap trim_node t) as Pm. specialize (Pm (fun s d O => ltac:(unfold trim_node; destruct s; [destruct (_ && _); [exact (okn_id _ _ O)|exact O]|exact O])) (Some IdNum.num_new) H). destruct (smap trim_node _ t) as [u [n|]]; [|discriminate]. now injection E as <-.
Qed.
Lemma n_version t t' : remove_version t = Ok t' -> alln t -> alln t'.
Proof. unfold remove_version, on_svg. destruct (svg_element t); [|discriminate]. intros E. injection E as <-. apply alln_upd. intros d _ _. apply K_okn. repeat apply K_rm. apply K_refl. Qed.
Lemma n_empty_defs t t' : remove_empty_defs t = Ok t' -> alln t -> alln t'.
Proof. unfold remove_empty_defs, on_svg. destruct (svg_element t); [|discriminate]. destruct (find _ _); intros E; injection E as <-; [apply alln_remove|auto]. Qed.
Lemma n_def_transform t : alln t -> alln (remove_default_transform t).
Proof. apply alln_tmap. intros d _ O. destruct (is_default_transform _); [|exact O]. apply (K_okn d); [apply K_rm, K_refl|exact O]. Qed.
Lemma n_splice k t : alln t -> alln (splice k t).
Proof.
  induction t as [d ch IH] using tree_ind'. rewrite Forall_forall in IH. rewrite alln_T. intros [O H]. cbn [splice]. apply alln_T. split; [exact O|]. intros x Hx. apply in_flat_map in Hx. destruct Hx as (c & Hc & Hx). destruct (Nat.eqb _ _); [exact (alln_kids c x (H c Hc) Hx)|]. destruct Hx as [<-|[]]. apply IH; auto.
Qed.
Lemma n_ungroup_defs t : alln t -> alln (ungroup_defs t).
Proof.
  intros H. unfold ungroup_defs. generalize (tl (keys t)) as ks. intros ks. assert (G : forall st, alln (fst st) -> alln (fst (fold_left ungroup_defs_step ks st))); [|now apply G]. induction ks as [|k ks IH]; intros st Hs; cbn [fold_left]; [exact Hs|]. apply IH. destruct st as [u go]. cbn [fst] in Hs. unfold ungroup_defs_step. destruct (negb go); [exact Hs|]. destruct (find_sub k u); [|exact Hs]. destruct (_ && _); [|exact Hs]. cbn [fst]. now apply alln_unlink, n_splice.
Qed.
(** group_by_style *)
Lemma n_strip ks l t : alln t -> alln (strip ks l t).
Proof. apply alln_tmap. intros d _ O. destruct (among _ _); [|exact O]. apply (K_okn d); [apply K_rm_list, K_refl|exact O]. Qed.
Lemma n_give_group t x d d' : P (a_name x) (a_val x) -> give_group t d x = Ok d' -> okn d -> okn d'.
Proof.
  intros Dx E O. assert (Pt : (if put_ok t d x then Ok (with_attrs d (put_attr (attrs d) x)) else Panic) = Ok d' -> okn d').
  { destruct (put_ok t d x); [|discriminate]. intros Q. injection Q as <-. apply okn_put; [exact O|exact Dx]. }
  unfold give_group in E. destruct (a_name x) as [a|]; [|now apply Pt]. destruct (aid_eqb_spec a ATransform) as [Ha|Na]; [rewrite Ha in E; clear Ha|destruct a; now try apply Pt].
  destruct (a_val x); destruct (d_get d ATransform) as [[]|]; try (now apply Pt); injection E as <-; try exact O. now apply okn_map_made.
Qed.
Lemma n_give_groups t l : (forall x, In x l -> P (a_name x) (a_val x)) -> forall r d', fold_left (fun r x => bind r (fun d' => give_group t d' x)) l r = Ok d' -> (forall d, r = Ok d -> okn d) -> okn d'.
Proof.
  intros Dl. induction l as [|x l IH]; intros r d' E H; cbn [fold_left] in E; [auto|]. apply (IH (fun y Hy => Dl y (or_intror Hy)) _ _ E). intros d Q. apply bind_ok in Q. destruct Q as (d0 & Q1 & Q). exact (n_give_group t x d0 d (Dl x (or_introl eq_refl)) Q (H d0 Q1)).
Qed.
Lemma n_hoist g ks l t t' : (forall x, In x l -> P (a_name x) (a_val x)) -> hoist g ks l t = Ok t' -> alln t -> alln t'.
Proof.
  intros Dl E H. unfold hoist in E. apply (n_strip ks (attr_ids l)) in H. revert H E. generalize (strip ks (attr_ids l) t). intros t1 H E. cbv zeta in E. destruct (find_data g t1) as [d|] eqn:D; [|now injection E as <-]. apply bind_ok in E. destruct E as (d' & E1 & E). injection E as <-.
  assert (O : okn d'). { apply (n_give_groups _ _ Dl _ _ E1). intros y Q. injection Q as <-. exact (okn_find _ _ _ D H). }
  revert H. apply alln_tmap. intros y _ Oy. destruct (Nat.eqb _ _); auto.
Qed.
Lemma n_gather p ks g t : alln t -> alln (gather p ks g t).
Proof.
  apply alln_set_kids. intros ch. induction ch as [|c l IH]; intros H x Hx; cbn [pull] in Hx; [destruct Hx|]. destruct (picked ks c) eqn:Ep.
  - destruct Hx as [<-|Hx]; [|apply filter_In in Hx; apply H; right; apply Hx]. apply alln_T. split; [apply okn_new|]. intros y Hy. apply filter_In in Hy. apply H, Hy.
  - destruct Hx as [<-|Hx]; [apply H; now left|]. apply IH; auto. intros y Hy. apply H. now right.
Qed.
Lemma n_to_end p ks t : alln t -> alln (to_end p ks t).
Proof. apply alln_set_kids. intros ch H x Hx. apply in_app_or in Hx. destruct Hx as [Hx|Hx]; apply filter_In in Hx; apply H, Hx. Qed.
(** regroup_gradient_stops *)
Section shares.
Hypothesis RH : hrefs = true.
Lemma okn_link d k : okn d -> okn (d_set d AXlinkHref (VLink k)).
Proof. intros O y Hy. cbn in Hy. apply set_attr_from in Hy. destruct Hy as [Hy| ->]; [now apply O|exact (P_href RH k)]. Qed.
Lemma n_remove_kids j t : alln t -> alln (remove_kids j t).
Proof. intros H. unfold remove_kids. apply alln_set_kids; [intros ? ? ? []|]. now apply alln_unlink. Qed.
Lemma n_share k1 js t t' : share k1 js t = Ok t' -> alln t -> alln t'.
Proof.
  intros E H. unfold share in E. cbv zeta in E. destruct (forallb _ _); [|discriminate]. injection E as <-. apply n_fold.
  - intros u j Hu. apply alln_upd; [intros d _ _; apply okn_link|now apply n_remove_kids].
  - intros d Hd. apply flat_before in Hd. apply in_app_or in Hd. destruct Hd as [Hd|Hd]; revert d Hd.
    + apply alln_T. split; [apply okn_new|]. intros c. now apply kids_of_alln.
    + apply alln_upd; [intros d _ _; apply okn_link|]. apply alln_set_kids; [intros ? ? ? []|exact H].
Qed.
End shares.
(** Documents *)
Lemma cand_P anc d cs x : Forall okn cs -> cand_of anc d cs x -> P (a_name x) (a_val x).
Proof. intros F (c & Hc & Hx & _). rewrite Forall_forall in F. exact (F c Hc x Hx). Qed.
Lemma n_style_one t k ks all t' : style_one t k ks all = Ok t' -> alln t -> alln t'.
Proof.
  intros E H. unfold style_one in E. destruct (find_sub k t) as [s|] eqn:Es; [|now injection E as <-]. destruct (ancestors k [] t) as [anc|]; [|now injection E as <-]. destruct (_ && _); [|now injection E as <-]. set (cs := filter (picked ks) (kids s)) in E. assert (Fc : Forall okn (map data cs)). { apply Forall_forall. intros y Hy. apply in_map_iff in Hy. destruct Hy as (c & <- & Hc). apply filter_In in Hc. apply alln_data. exact (alln_kids s c (alln_find _ _ _ Es H) (proj1 Hc)). }
  assert (D : forall r, In r (table anc (data s) (map data cs)) -> forall x, In x (r_attrs r) -> P (a_name x) (a_val x)).
  { intros r Hr x Hx. destruct (table_ok anc (data s) (map data cs)) as ((Q & _) & _). exact (cand_P _ _ _ _ Fc (ro_cand _ _ _ (Q r Hr) x Hx)). }
  destruct (table anc (data s) (map data cs)) as [|r rs]; [now injection E as <-|]. cbv zeta in E. apply bind_ok in E. destruct E as ([[t1 p] rest] & E1 & E).
  assert (Q : alln t1 /\ incl rest (r :: rs)).
  { destruct (_ =? _); [|injection E1 as <- _ <-; auto using incl_refl]. destruct all; apply bind_ok in E1; destruct E1 as (t2 & H2 & E1); injection E1 as <- _ <-; (split; [|apply incl_tl, incl_refl]); apply (n_hoist _ _ _ _ _ (D r (or_introl eq_refl)) H2).
    - now apply n_to_end.
    - now apply n_gather. }
  destruct Q as [H1 I1]. destruct rest as [|r2 rest]; [now injection E as <-|]. destruct (longest_range (r_flags r2)) as [[i n]|]; [|discriminate]. apply (n_hoist _ _ _ _ _ (D r2 (I1 r2 (or_introl eq_refl))) E). now apply n_gather.
Qed.
Lemma n_visit_style : forall s t t', visit_style s t = Ok t' -> alln t -> alln t'.
Proof.
  induction s as [d ch IH] using tree_ind'. intros t t' E F. cbn [visit_style] in E. apply bind_ok in E. destruct E as ([[t1 ks] all] & E1 & E). refine (n_style_one _ _ _ _ _ E _). clear E. revert F E1. generalize (@nil nat) at 3. generalize true. revert t. induction IH as [|c l Hc _ IHl]; intros t b l0 F E; [injection E as <- _ _; exact F|].
  destruct (negb _); [exact (IHl _ _ _ F E)|]. destruct (_ || _); [exact (IHl _ _ _ F E)|]. apply bind_ok in E. destruct E as (t2 & E2 & E). refine (IHl _ _ _ _ E). destruct (kids c); [injection E2 as <-; exact F|exact (Hc _ _ E2 F)].
Qed.
Lemma n_style t t' : group_by_style t = Ok t' -> alln t -> alln t'.
Proof. unfold group_by_style. destruct (svg_element t); [|discriminate]. apply n_visit_style. Qed.
Section shares2.
Hypothesis RH : hrefs = true.
Lemma n_regroup_loop n : forall l t p, regroup_loop n l t = Ok p -> alln t -> alln (snd p).
Proof.
  induction n as [|n IH]; intros l t p E H; cbn [regroup_loop] in E; [now injection E as <-|]. destruct l as [|k1 rest]; [now injection E as <-|]. cbv zeta in E. destruct (filter (equal_stops t k1) rest) as [|j js]; [exact (IH _ _ _ E H)|]. apply bind_ok in E. destruct E as (t1 & E1 & E). apply bind_ok in E. destruct E as (q & E2 & E). injection E as <-. cbn [snd]. apply (IH _ _ _ E2). exact (n_share RH _ _ _ _ E1 H).
Qed.
Lemma n_regroup t t' : regroup_gradient_stops t = Some (Ok t') -> alln t -> alln t'.
Proof.
  intros E H. unfold regroup_gradient_stops in E. destruct (regroup_loop _ _ t) as [[b t1]| |] eqn:R; try discriminate. pose proof (n_regroup_loop _ _ _ _ R H) as H1. cbn [snd] in H1. destruct b; [|now injection E as <-]. exact (n_linear _ _ E H1).
Qed.
End shares2.
(** Every pass *)
Lemma n_perform x o p t t' : (In p [PDuplLinear; PDuplRadial; PDuplBlur] -> relinking = true) -> (p = PRegroupStops -> hrefs = true) -> p <> PXmlns -> p <> PJoinStyle -> perform x o p t = Some (Ok t') -> alln t -> alln t'.
Proof.
  intros RL RH Nx Nj E H. assert (S : shr K t t' -> alln t') by (intros S; exact (shk_alln _ _ S H)).
  destruct p; cbn [perform] in E; try (injection E as E).
  - exact (n_linear _ _ E H).
  - exact (n_radial _ _ E H).
  - exact (S (k_stops _ _ E)).
  - exact (n_inherit _ _ E H).
  - exact (S (k_fix _ _ E)).
  - exact (n_groupdefs _ _ E H).
  - apply S. rewrite <- E. apply k_round.
  - rewrite <- E. now apply alln_drain.
  - rewrite <- E. now apply alln_drain.
  - rewrite <- E. now apply alln_drain.
  - exact (n_unused _ _ E H).
  - rewrite <- E. now apply alln_remove_nodes.
  - revert E H. apply n_vloopK. clear. intros t d d'. unfold apply_gradient. assert (D : Ok d = Ok d' -> K d d') by (intros E; injection E as <-; apply K_refl).
    destruct (is_grad d && _); [|exact D]. destruct (linked_by_gradient _ _); [exact D|]. destruct (match d_get d AXlinkHref with Some _ => _ | None => _ end); [exact D|]. destruct (d_get d AGradientTransform) as [[]|]; try discriminate.
    destruct (negb _); [exact D|]. destruct (negb _); [exact D|]. destruct (is_tag _ _); intros E; injection E as <-; apply K_rm; try apply scales_K; try (repeat constructor; reflexivity); repeat (apply tcoords_K; [reflexivity|reflexivity|]); apply K_refl.
  - refine (n_rm_loop (RL _) _ _ _ _ E H). cbn. auto.
  - refine (n_rm_loop (RL _) _ _ _ _ E H). cbn. auto.
  - refine (n_rm_loop (RL _) _ _ _ _ E H). cbn. auto.
  - unfold merge_all in E. destruct (MergeGradients.merge_gradients _ t) as [u|] eqn:M; [|discriminate]. cbn in E. injection E as <-. exact (n_merge _ _ _ M H).
  - exact (n_ungroup _ _ _ _ E H).
  - exact (S (k_shapes _ _ E)).
  - exact (S (k_convert _ _ E)).
  - exact (S (k_paths _ _ _ E)).
  - exact (n_invisible _ _ _ E H).
  - exact (n_regroup (RH eq_refl) _ _ E H).
  - exact (n_use _ _ E H).
  - exact (S (k_default _ _ _ E)).
  - exact (S (k_text _ _ E)).
  - apply S. rewrite <- E. apply k_needless.
  - exact (n_grad_attrs _ _ E H).
  - exact (n_coords _ _ E H).
  - exact (n_style _ _ E H).
  - rewrite <- E. now apply n_ids.
  - exact (n_trim _ _ E H).
  - exact (n_version _ _ E H).
  - rewrite <- E. now apply n_ungroup_defs.
  - exact (n_empty_defs _ _ E H).
  - contradiction Nx; reflexivity.
  - rewrite <- E. now apply n_def_transform.
  - contradiction Nj; reflexivity.
Qed.
Lemma n_runs x o l : (forall p, In p l -> In p [PDuplLinear; PDuplRadial; PDuplBlur] -> relinking = true) -> (In PRegroupStops l -> hrefs = true) -> ~ In PXmlns l -> ~ In PJoinStyle l -> forall t r, runs x o l t r -> forall t', r = Some (Ok t') -> alln t -> alln t'.
Proof.
  intros RL RH Nx Nj t r H. induction H as [t|p l t t1 r E H IH| | |]; intros t' Q A; try discriminate; [now injection Q as <-|]. apply (IH (fun p X => RL p (or_intror X)) (fun X => RH (or_intror X)) (fun X => Nx (or_intror X)) (fun X => Nj (or_intror X)) t' Q). apply (n_perform x o p t t1); [exact (RL p (or_introl eq_refl))|intros ->; apply RH; now left|intros ->; apply Nx; now left|intros ->; apply Nj; now left|exact E|exact A].
Qed.
End values.
