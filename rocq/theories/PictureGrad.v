(** Passes that change gradients and stops only, after the preparation. *)
From Coq Require Import List Bool NArith Arith ZArith String QArith Qcanon Lia.
From Verif Require Import Names Num Value Dom DomFacts DomOps IdNum Outcome DomRemove Stops Transforms TransformsProofs VLoop TasksSimple TasksSimpleProofs SpecDom SpecStyle SpecText SpecPaint PaintFacts Visit SpecUse SpecUngroup SpecGroupStyle WfAll SpecPicture SpecPrepared PictureSim PictureTwin PictureServers PicturePrep PictureRemarks Push.
From Verif Require Import Props_stops.
From Verif Require MergeProofs MoveFacts Img.
Import ListNotations.
Local Open Scope nat_scope.

(** ** Transforms of gradients *)
Section Trans.
  Variable t0 : tree.
  Notation R := (side t0).
  Notation twin := (twin R).
  Lemma tw_vloop2 f ks : (forall u d d', stale t0 u -> In d (flat u) -> f u d = Ok d' -> R d d') -> forall t t', NoDup (keys t) -> stale t0 t -> vloop f ks t = Ok t' -> twin t t'.
  Proof.
    intros H. induction ks as [|k ks IH]; intros t t' N S; cbn [vloop]; [intros E; injection E as <-; apply tw_refl|]. destruct (find_data k t) as [d|] eqn:Fd; [|now apply IH].
    intros E. apply bind_ok in E. destruct E as (d1 & E1 & E). destruct (find_data_some _ _ _ Fd) as [Hd K]. pose proof (tw_upd t0 k d d1 t N Hd K (H t d d1 S Hd E1)) as W. apply (tw_trans _ _ _ _ W). apply IH in E; [exact E|now rewrite (tw_keys _ _ _ W)|exact (tw_stale _ _ _ W S)].
  Qed.
  Lemma side_rm d a : server d -> In a server_attrs -> R d (d_rm d a).
  Proof.
    intros V I. constructor; try reflexivity; [| |tauto].
    - intros b Hb. apply d_get_rm_other. congruence.
    - intros H y Hy. apply H. unfold d_rm, rm_attr in Hy. cbn [attrs with_attrs] in Hy. apply filter_In in Hy. apply Hy.
  Qed.
  Lemma side_map d a v : server d -> In a server_attrs -> fits t0 (AN a) v -> R d (map_value d a v).
  Proof.
    intros V I O. constructor; try reflexivity; [| |tauto].
    - intros b Hb. apply d_get_map_other. congruence.
    - intros H y Hy. unfold map_value in Hy. cbn [attrs with_attrs] in Hy. apply in_map_iff in Hy. destruct Hy as (x & <- & Hx). destruct (has_name (AN a) x) eqn:Hn; [|now apply H]. apply has_name_true in Hn. unfold settled. cbn [a_name a_val]. first [exact O|rewrite Hn; exact O].
  Qed.
  Ltac calm := split; [right; split; [reflexivity|intros [X|X]; discriminate X]|intros _ Qn; discriminate Qn].
  Definition from (d d' : ndata) : Prop := server d /\ R d d'.
  Lemma from_server d d' : from d d' -> server d'. Proof. intros [V S]. apply (server_tag d' d); [symmetry; apply S|exact V]. Qed.
  Lemma from_put d d' a v : from d d' -> In a server_attrs -> fits t0 (AN a) v -> from d (d_set d' a v).
  Proof. intros F I O. split; [apply F|]. apply (side_trans _ _ d'); [apply F|]. apply side_put; auto. exact (from_server _ _ F). Qed.
  Lemma from_rm d d' a : from d d' -> In a server_attrs -> from d (d_rm d' a).
  Proof. intros F I. split; [apply F|]. apply (side_trans _ _ d'); [apply F|]. apply side_rm; auto. exact (from_server _ _ F). Qed.
  Lemma from_coords d d' ax ay ts : from d d' -> In ax server_attrs -> In ay server_attrs -> ax <> AGradientTransform -> ay <> AGradientTransform -> from d (transform_coords ax ay ts d').
  Proof.
    intros F I J N1 N2. unfold transform_coords. cbv zeta. assert (O : forall a n, a <> AGradientTransform -> fits t0 (AN a) (number n)) by (intros a n Na; split; [right; split; [reflexivity|intros [X|X]; discriminate X]|intros _ Qn; injection Qn as Qn; contradiction]). apply from_put; auto. apply from_put; auto.
  Qed.
  Lemma from_scale d d' ts : from d d' -> from d (scale_coords [AR] ts d').
  Proof.
    intros F. unfold scale_coords. destruct (has_scale ts); [|exact F]. cbn [fold_left]. unfold scale_coord. destruct (d_get d' AR) as [[]|]; try exact F. split; [apply F|]. apply (side_trans _ _ d'); [apply F|]. apply side_map; [exact (from_server _ _ F)|cbn; tauto|calm].
  Qed.
  Lemma gradient_side u d d' : apply_gradient u d = Ok d' -> R d d'.
  Proof.
    unfold apply_gradient. assert (D : Ok d = Ok d' -> R d d') by (intros E; injection E as <-; apply side_refl). destruct (is_grad d && _) eqn:G; [|exact D]. apply andb_true_iff in G. destruct G as [G _]. apply is_grad_iff in G.
    assert (F : from d d) by (split; [now left|apply side_refl]). destruct (linked_by_gradient _ _); [exact D|]. destruct (match d_get d AXlinkHref with Some _ => _ | None => _ end); [exact D|]. destruct (d_get d AGradientTransform) as [[]|]; try discriminate.
    destruct (negb _); [exact D|]. destruct (negb _); [exact D|]. destruct (is_tag _ _); intros E; injection E as <-; apply from_rm; try (cbn; tauto); try apply from_scale; repeat (apply from_coords; try (cbn; tauto); try discriminate); exact F.
  Qed.
  Lemma tw_grad_transforms t t' : NoDup (keys t) -> stale t0 t -> apply_transform_to_gradients t = Ok t' -> twin t t'.
  Proof. intros N S. unfold apply_transform_to_gradients. apply tw_vloop2; auto. intros u d d' _ _. apply gradient_side. Qed.
  (** With transforms where they are meant to be, there is always an answer. *)
  Lemma gradient_run u d : trans_all t0 -> stale t0 u -> In d (flat u) -> exists d', apply_gradient u d = Ok d'.
  Proof.
    intros T S Hd. unfold apply_gradient. destruct (is_grad d && _) eqn:G; [|eauto]. apply andb_true_iff in G. destruct G as [_ G]. destruct (linked_by_gradient _ _); [eauto|]. destruct (match d_get d AXlinkHref with Some _ => _ | None => _ end); [eauto|].
    rewrite d_has_get in G. destruct (d_get d AGradientTransform) as [v|] eqn:E; [|discriminate]. destruct (get_at d _ _ E) as (y & Hy & Ny & <-). destruct (S d y Hd Hy) as [_ Q]. destruct (Q T Ny) as (m & ->). destruct (negb _); [eauto|]. destruct (negb _); [eauto|]. destruct (is_tag _ _); eauto.
  Qed.
  Lemma grad_transforms_run t : trans_all t0 -> NoDup (keys t) -> stale t0 t -> exists t', apply_transform_to_gradients t = Ok t'.
  Proof.
    intros T. unfold apply_transform_to_gradients. generalize (keys t) at 2 as ks. intros ks. revert t. induction ks as [|k ks IH]; intros t N S; cbn [vloop]; [eauto|]. destruct (find_data k t) as [d|] eqn:Fd; [|now apply IH].
    destruct (find_data_some _ _ _ Fd) as [Hd K]. destruct (gradient_run t d T S Hd) as (d1 & E1). rewrite E1. cbn [bind]. pose proof (tw_upd t0 k d d1 t N Hd K (gradient_side _ _ _ E1)) as W. apply IH; [now rewrite (tw_keys _ _ _ W)|exact (tw_stale _ _ _ W S)].
  Qed.
End Trans.

(** ** Stops that are repeated *)
Lemma pruned_servers p t : servers_apart t -> servers_apart (pruned p t).
Proof.
  intros [A1 A2 A3]. split.
  - intros s' c' Hs' G Hc'. destruct (pruned_subs p t s' Hs') as (s & Hs & ->). rewrite pruned_data in G. rewrite pruned_kids in Hc'. apply in_keep in Hc'. destruct Hc' as (c & Hc & _ & ->). rewrite pruned_data. exact (A1 s c Hs G Hc).
  - intros a s' q H V Hq. destruct (pruned_places0 p t [] a s' H) as (s & Hs & ->). rewrite pruned_data in V. exact (A2 a s q Hs V Hq).
  - intros s' k Hs' Ts Hk Rf. destruct (pruned_subs p t s' Hs') as (s & Hs & ->). rewrite pruned_data in Ts. apply (A3 s k Hs Ts); [|now apply (pr_referenced p t)]. apply (sublist_incl _ _ (keys_prune_sublist _ s)) in Hk. exact Hk.
Qed.
Section Repeated.
  Variable t : tree.
  Hypothesis N : NoDup (keys t).
  Hypothesis A : servers_apart t.
  Notation p := (mem_key (stop_keys t)).
  (** What goes is a child of a gradient only. *)
  Lemma gone_in d : p d = true -> In (key d) (stop_keys t).
  Proof. unfold mem_key. apply mem_in. Qed.
  Lemma gone_parent s c : In s (subs t) -> In c (kids s) -> p (data c) = true -> gradient_el (data s).
  Proof.
    intros Hs Hc P. apply gone_in in P. destruct (stop_keys_child t _ P) as (s2 & c2 & Hs2 & G & Hc2 & K). assert (s = s2) by (apply (kid_parent t N s s2 c c2); auto). subst s2. exact G.
  Qed.
  Lemma gone_stop s : In s (subs t) -> p (data s) = true -> tag (data s) = TEl EStop.
  Proof.
    intros Hs P. apply gone_in in P. destruct (stop_keys_child t _ P) as (s2 & c & Hs2 & G & Hc & K). assert (s = c) by (apply (sub_unique t); auto; exact (kid_sub s2 c t Hs2 Hc)). subst c. exact (sa_stops t A s2 s Hs2 G Hc).
  Qed.
  Lemma gone_data d : In d (flat t) -> p d = true -> tag d = TEl EStop.
  Proof. intros Hd P. destruct (in_place d t [] Hd) as (a & s & Ps & <-). apply gone_stop; [exact (MoveFacts.place_sub _ _ _ _ Ps)|exact P]. Qed.
  Lemma gone_free s k : In s (subs t) -> p (data s) = true -> In k (keys s) -> ~ referenced t k.
  Proof. intros Hs P. apply (sa_links t A s k Hs). now apply gone_stop. Qed.
  Lemma gone_clear c : In c (subs t) -> clear c -> pruned p c = c /\ p (data c) = false.
  Proof.
    induction c as [d ch IH] using tree_ind'. intros Hc C. split.
    - rewrite pruned_T. f_equal. assert (I : forall x, In x ch -> In x (subs t) /\ clear x) by (intros x Hx; split; [exact (kid_sub (T d ch) x t Hc Hx)|intros z Hz; apply C; right; apply in_flat_map; eauto]). clear Hc C.
      induction ch as [|x ch IH2]; [reflexivity|]. cbn [flat_map]. destruct (I x (or_introl eq_refl)) as [I1 I2]. destruct (Forall_inv IH I1 I2) as [E1 E2]. unfold keep at 1. rewrite E2, E1. cbn [app]. f_equal. apply IH2; [exact (Forall_inv_tail IH)|]. intros y Hy. apply I. now right.
    - destruct (p (data (T d ch))) eqn:P; [|reflexivity]. exfalso. apply (C d (or_introl eq_refl)). right. exact (gone_stop _ Hc P).
  Qed.
  Lemma gone_shape s : In s (subs t) -> shape_el (data s) -> flat_map bare (flat_map (keep p) (kids s)) = flat_map bare (kids s).
  Proof.
    intros Hs K. f_equal. pose proof (apart_clean t A s Hs K) as C. assert (I : forall x, In x (kids s) -> In x (subs t)) by (intros x Hx; exact (kid_sub s x t Hs Hx)). revert C I. generalize (kids s) as ch. induction ch as [|x ch IH]; intros C I; [reflexivity|]. cbn [flat_map]. destruct (gone_clear x) as [E1 E2]; [apply I; now left|apply C; now left|]. unfold keep at 1. rewrite E2, E1. cbn [app]. f_equal. apply IH; intros; [apply C|apply I]; now right.
  Qed.
  Lemma gone_switch s c : In s (subs t) -> tag (data s) = TEl ESwitch -> In c (kids s) -> p (data c) = false.
  Proof. intros Hs K Hc. destruct (p (data c)) eqn:P; [|reflexivity]. destruct (gone_parent s c Hs Hc P) as [X|X]; congruence. Qed.
  Lemma gone_dull d : In d (flat t) -> p d = true -> ~ painted_el d.
  Proof. intros Hd P. apply server_not. right. now apply gone_data. Qed.
  Lemma gone_defs d : In d (flat t) -> p d = true -> tag d <> TEl EDefs. Proof. intros Hd P. rewrite (gone_data d Hd P). discriminate. Qed.
  Lemma gone_group s c : In s (subs t) -> In c (kids s) -> p (data c) = true -> tag (data s) <> TEl EG.
  Proof. intros Hs Hc P X. destruct (gone_parent s c Hs Hc P); congruence. Qed.
  Lemma invalid_stops_pruned : remove_invalid_stops t = pruned p t.
  Proof.
    rewrite (remove_stops_eq t N). f_equal. apply MergeProofs.unlink_none. intros d k Hd Hk Rf. unfold below in Hk. apply in_flat_map in Hk. destruct Hk as (s & Hs & Hk). destruct (p (data s)) eqn:P; [|destruct Hk]. apply (gone_free s k (sub_of_kids _ _ Hs) P Hk). exists d. auto.
  Qed.
  Lemma stops_same uu : same_picture uu t (remove_invalid_stops t).
  Proof. rewrite invalid_stops_pruned. exact (pruned_looks p t N gone_free gone_shape gone_switch gone_dull uu). Qed.
End Repeated.
