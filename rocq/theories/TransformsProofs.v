From Coq Require Import List Bool NArith Arith ZArith String Lia QArith Qcanon.
From Verif Require Import Names Num Value Dom DomFacts DomOps Outcome DomRemove Stops SpecStops AttrFacts StopsProofs Shapes SpecShapes NPass SpecDom APass Paths SpecPath Transforms SpecStyle SpecTransforms.
From Verif Require Import Props_shapes.
Import ListNotations.
Local Open Scope nat_scope.

Lemma sb_trans l d1 d2 d3 : same_but l d1 d2 -> same_but l d2 d3 -> same_but l d1 d3.
Proof. intros [A1 B1] [A2 B2]. split; [eapply same_node_trans; eauto|]. intros b Hb. rewrite B2, B1; auto. Qed.
Lemma d_get_map_other d a b v : a <> b -> d_get (map_value d a v) b = d_get d b.
Proof. intros H. apply get_ext. now apply map_value_get_other. Qed.
Lemma d_get_map_same d a v w : d_get d a = Some w -> d_get (map_value d a v) a = Some v.
Proof.
  unfold d_get, get_value. intros H. destruct (get_attr (attrs d) a) as [x|] eqn:E; [|discriminate]. now rewrite (map_value_get_same _ _ _ _ E).
Qed.
Lemma se_map d a v : same_except [a] d (map_value d a v).
Proof.
  intros x Hx. unfold map_value. cbn. rewrite in_map_iff. assert (N : a_name x <> AN a) by (intros E; apply Hx; cbn; left; congruence). split.
  - intros (y & E & Hy). destruct (has_name (AN a) y) eqn:Q; [|now subst]. subst x. cbn in N. apply has_name_true in Q. congruence.
  - intros H. exists x. apply has_name_false in N. rewrite N. auto.
Qed.
Lemma d_get_rm d a b : d_get (d_rm d a) b = if aid_eqb a b then None else d_get d b.
Proof. destruct (aid_eqb_spec a b) as [<-|H]; [apply d_get_rm_same|now apply d_get_rm_other]. Qed.
Lemma d_get_set d a v b : d_get (d_set d a v) b = if aid_eqb a b then Some v else d_get d b.
Proof. destruct (aid_eqb_spec a b) as [<-|H]; [apply d_get_set_same|now apply d_get_set_other]. Qed.

Lemma tc_get ax ay t d b : d_get (transform_coords ax ay t d) b =
  if aid_eqb ay b then Some (number (snd (t_apply t (num (get_len d ax)) (num (get_len d ay)))))
  else if aid_eqb ax b then Some (number (fst (t_apply t (num (get_len d ax)) (num (get_len d ay))))) else d_get d b.
Proof. unfold transform_coords. now rewrite !d_get_set. Qed.
Lemma tc_se ax ay t d : same_except [ax; ay] d (transform_coords ax ay t d).
Proof.
  unfold transform_coords. eapply same_except_trans; [eapply same_except_weaken; [|apply se_set]|eapply same_except_weaken; [|apply se_set]]; intros x [<-|[]]; cbn; auto.
Qed.
Lemma tc_node ax ay t d : same_node d (transform_coords ax ay t d).
Proof. repeat split. Qed.
Lemma sc_get a k d b : d_get (scale_coord a k d) b = if aid_eqb a b then option_map (scaled_len k) (d_get d a) else d_get d b.
Proof.
  unfold scale_coord. destruct (aid_eqb_spec a b) as [<-|H].
  - destruct (d_get d a) as [[| | |l| | | | | | | ]|] eqn:E; cbn; auto. rewrite (d_get_map_same _ _ _ _ E). now rewrite Qcmult_comm.
  - destruct (d_get d a) as [[| | |l| | | | | | | ]|] eqn:E; auto. now apply d_get_map_other.
Qed.
Lemma sc_se a k d : same_except [a] d (scale_coord a k d).
Proof. unfold scale_coord. destruct (d_get d a) as [[| | |l| | | | | | | ]|]; try apply same_except_refl. apply se_map. Qed.
Lemma sc_node a k d : same_node d (scale_coord a k d).
Proof. unfold scale_coord. destruct (d_get d a) as [[| | |l| | | | | | | ]|]; try apply same_node_refl. repeat split. Qed.
Lemma scs_get l k d b : NoDup l -> d_get (fold_left (fun d a => scale_coord a k d) l d) b = if existsb (aid_eqb b) l then option_map (scaled_len k) (d_get d b) else d_get d b.
Proof.
  intros N. revert d. induction N as [|a l Ha N IH]; intros d; cbn; [reflexivity|]. rewrite IH, sc_get.
  destruct (aid_eqb_spec b a) as [->|H]; cbn.
  - rewrite aid_eqb_refl. assert (X : existsb (aid_eqb a) l = false); [|now rewrite X].
    apply not_true_iff_false. intros X. apply existsb_exists in X. destruct X as (y & Hy & E). destruct (aid_eqb_spec a y); [subst; auto|discriminate].
  - destruct (aid_eqb_spec a b); [congruence|reflexivity].
Qed.
Lemma scs_se l k d : same_except l d (fold_left (fun d a => scale_coord a k d) l d).
Proof.
  revert d. induction l as [|a l IH]; intros d; cbn; [apply same_except_refl|].
  eapply same_except_trans; [eapply same_except_weaken; [|apply sc_se]|eapply same_except_weaken; [|apply IH]]; intros x Hx; cbn in *; tauto.
Qed.
Lemma scs_node l k d : same_node d (fold_left (fun d a => scale_coord a k d) l d).
Proof. revert d. induction l as [|a l IH]; intros d; cbn; [apply same_node_refl|]. eapply same_node_trans; [apply sc_node|apply IH]. Qed.
Lemma scaled_len_1 v : scaled_len q1 v = v.
Proof. destruct v as [| | |[n u]| | | | | | | ]; cbn; auto. f_equal. f_equal. change q1 with (Q2Qc 1). change (1 * n = n)%Qc. apply Qcmult_1_l. Qed.
Lemma scaled_list_1 v : scaled_list q1 v = v.
Proof. destruct v as [| | | |l| | | | | | ]; cbn; auto. f_equal. rewrite <- (map_id l) at 2. apply map_ext. intros [n u]. cbn. f_equal. change (1 * n = n)%Qc. apply Qcmult_1_l. Qed.
Lemma has_scale_false t : has_scale t = false -> scale_of t = q1.
Proof. unfold has_scale, scale_of. destruct (qeqb_spec (ta t) q1); [auto|discriminate]. Qed.
Lemma scoords_get l t d b : NoDup l -> d_get (scale_coords l t d) b = if existsb (aid_eqb b) l then option_map (scaled_len (scale_of t)) (d_get d b) else d_get d b.
Proof.
  intros N. unfold scale_coords. destruct (has_scale t) eqn:E; [now apply scs_get|]. apply has_scale_false in E. rewrite E.
  destruct (existsb _ l); [|reflexivity]. destruct (d_get d b); cbn; [now rewrite scaled_len_1|reflexivity].
Qed.
Lemma scoords_se l t d : same_except l d (scale_coords l t d).
Proof. unfold scale_coords. destruct (has_scale t); [apply scs_se|apply same_except_refl]. Qed.
Lemma scoords_node l t d : same_node d (scale_coords l t d).
Proof. unfold scale_coords. destruct (has_scale t); [apply scs_node|apply same_node_refl]. Qed.

(** * Stroke *)
Lemma find_value_nearest a l : find_value a l = nearest a l.
Proof. induction l as [|d l IH]; [reflexivity|]. cbn. rewrite d_has_get, IH. now destruct (d_get d a). Qed.
Lemma recalc_num_get a k anc d b : stroke_num_default a = stroke_default a ->
  d_get (recalc_num a k anc d) b = if aid_eqb a b then
     match computed stroke_default anc d a with
     | Some (VLen l) => if qeqb (num l) q0 then d_get d b else Some (VLen (Len (num l * k)%Qc (unit l)))
     | _ => d_get d b end
  else d_get d b.
Proof.
  intros Hd. unfold recalc_num, computed. rewrite d_has_get, find_value_nearest, Hd. cbn [nearest].
  assert (E : match d_get d a with Some _ => true | None => false end = true -> d_get d a <> None) by (destruct (d_get d a); congruence).
  assert (V : (if match d_get d a with Some _ => true | None => false end then d_get d a else match nearest a anc with Some v => Some v | None => stroke_default a end) =
     match match d_get d a with Some v => Some v | None => nearest a anc end with Some v => Some v | None => stroke_default a end) by now destruct (d_get d a).
  rewrite V. clear V E. destruct (match match d_get d a with Some v => Some v | None => nearest a anc end with Some v => Some v | None => stroke_default a end) as [[| | |l| | | | | | | ]|];
    try (now destruct (aid_eqb a b)). destruct (qeqb (num l) q0); [now destruct (aid_eqb a b)|]. rewrite d_get_set. reflexivity.
Qed.
Lemma recalc_num_computed a k anc d : stroke_num_default a = stroke_default a ->
  computed stroke_default anc (recalc_num a k anc d) a = option_map (scaled_len k) (computed stroke_default anc d a).
Proof.
  intros Hd. unfold computed at 1. cbn [nearest]. rewrite recalc_num_get by exact Hd. rewrite aid_eqb_refl.
  assert (C : computed stroke_default anc d a = match match d_get d a with Some v => Some v | None => nearest a anc end with Some v => Some v | None => stroke_default a end) by reflexivity.
  destruct (computed stroke_default anc d a) as [v|] eqn:E.
  - destruct v as [| | |l| | | | | | | ]; try (rewrite <- C; reflexivity). destruct (qeqb_spec (num l) q0) as [Z|Z].
    + rewrite <- C. cbn. f_equal. f_equal. destruct l as [n u]. cbn in *. subst n. f_equal. change q0 with 0%Qc. now rewrite Qcmult_0_r.
    + cbn. now rewrite Qcmult_comm.
  - rewrite <- C. reflexivity.
Qed.
Lemma recalc_dash_get k anc d b : d_get (recalc_dasharray k anc d) b = if aid_eqb AStrokeDasharray b then
     match computed stroke_default anc d AStrokeDasharray with
     | Some (VLenList l) => Some (VLenList (map (fun x => Len (num x * k)%Qc (unit x)) l))
     | _ => d_get d b end
  else d_get d b.
Proof.
  unfold recalc_dasharray, computed. rewrite d_has_get, find_value_nearest. cbn [nearest stroke_default].
  assert (V : (if match d_get d AStrokeDasharray with Some _ => true | None => false end then d_get d AStrokeDasharray else nearest AStrokeDasharray anc) =
     match match d_get d AStrokeDasharray with Some v => Some v | None => nearest AStrokeDasharray anc end with Some v => Some v | None => None end).
  { destruct (d_get d AStrokeDasharray); [reflexivity|]. now destruct (nearest AStrokeDasharray anc). }
  rewrite V. clear V. destruct (match match d_get d AStrokeDasharray with Some v => Some v | None => nearest AStrokeDasharray anc end with Some v => Some v | None => None end) as [[| | | |l| | | | | | ]|];
    try (now destruct (aid_eqb AStrokeDasharray b)). rewrite d_get_set. reflexivity.
Qed.
Lemma recalc_dash_computed k anc d :
  computed stroke_default anc (recalc_dasharray k anc d) AStrokeDasharray = option_map (scaled_list k) (computed stroke_default anc d AStrokeDasharray).
Proof.
  unfold computed at 1. cbn [nearest]. rewrite recalc_dash_get. rewrite aid_eqb_refl.
  assert (C : computed stroke_default anc d AStrokeDasharray = match match d_get d AStrokeDasharray with Some v => Some v | None => nearest AStrokeDasharray anc end with Some v => Some v | None => stroke_default AStrokeDasharray end) by reflexivity.
  destruct (computed stroke_default anc d AStrokeDasharray) as [v|] eqn:E.
  - destruct v as [| | | |l| | | | | | ]; try (rewrite <- C; reflexivity). cbn. f_equal. f_equal. apply map_ext. intros x. now rewrite Qcmult_comm.
  - rewrite <- C. reflexivity.
Qed.
Lemma computed_ext def anc d d' a : d_get d' a = d_get d a -> computed def anc d' a = computed def anc d a.
Proof. intros H. unfold computed. cbn. now rewrite H. Qed.
Lemma recalc_node k anc d : same_node d (recalc_stroke k anc d) /\ same_except stroke_attrs d (recalc_stroke k anc d).
Proof.
  assert (N : forall a d, same_node d (recalc_num a k anc d) /\ same_except [a] d (recalc_num a k anc d)).
  { intros a x. unfold recalc_num. destruct (if d_has x a then _ else _) as [[| | |l| | | | | | | ]|]; try (split; [apply same_node_refl|apply same_except_refl]).
    destruct (qeqb (num l) q0); (split; [|apply se_set || apply same_except_refl]); repeat split. }
  assert (D : forall d, same_node d (recalc_dasharray k anc d) /\ same_except [AStrokeDasharray] d (recalc_dasharray k anc d)).
  { intros x. unfold recalc_dasharray. destruct (if d_has x AStrokeDasharray then _ else _) as [[| | | |l| | | | | | ]|]; try (split; [apply same_node_refl|apply same_except_refl]).
    split; [repeat split|apply se_set]. }
  unfold recalc_stroke. destruct (N AStrokeWidth d) as [A1 B1]. destruct (D (recalc_num AStrokeWidth k anc d)) as [A2 B2].
  destruct (N AStrokeDashoffset (recalc_dasharray k anc (recalc_num AStrokeWidth k anc d))) as [A3 B3]. split.
  - eapply same_node_trans; [exact A1|]. eapply same_node_trans; [exact A2|exact A3].
  - eapply same_except_trans; [|eapply same_except_trans]; (eapply same_except_weaken; [|eassumption]); intros x [<-|[]]; cbn; auto.
Qed.
Lemma recalc_get k anc d b : ~ In b stroke_attrs -> d_get (recalc_stroke k anc d) b = d_get d b.
Proof.
  intros H. cbn in H. unfold recalc_stroke. rewrite recalc_num_get, recalc_dash_get, recalc_num_get by reflexivity.
  destruct (aid_eqb_spec AStrokeDashoffset b); [tauto|]. destruct (aid_eqb_spec AStrokeDasharray b); [tauto|]. destruct (aid_eqb_spec AStrokeWidth b); [tauto|reflexivity].
Qed.
Lemma recalc_scaled k anc d : stroke_scaled k anc d anc (recalc_stroke k anc d).
Proof.
  unfold recalc_stroke. set (d1 := recalc_num AStrokeWidth k anc d). set (d2 := recalc_dasharray k anc d1).
  assert (E1 : forall b, b <> AStrokeWidth -> d_get d1 b = d_get d b).
  { intros b Hb. unfold d1. rewrite recalc_num_get by reflexivity. destruct (aid_eqb_spec AStrokeWidth b); congruence. }
  assert (E2 : forall b, b <> AStrokeDasharray -> d_get d2 b = d_get d1 b).
  { intros b Hb. unfold d2. rewrite recalc_dash_get. destruct (aid_eqb_spec AStrokeDasharray b); congruence. }
  assert (E3 : forall b, b <> AStrokeDashoffset -> d_get (recalc_num AStrokeDashoffset k anc d2) b = d_get d2 b).
  { intros b Hb. rewrite recalc_num_get by reflexivity. destruct (aid_eqb_spec AStrokeDashoffset b); congruence. }
  split.
  - intros a [<-|[<-|[]]].
    + rewrite (computed_ext _ _ d1) by (rewrite E3, E2; (reflexivity || discriminate)). now apply recalc_num_computed.
    + rewrite recalc_num_computed by reflexivity. f_equal. apply computed_ext. rewrite E2, E1; (reflexivity || discriminate).
  - rewrite (computed_ext _ _ d2) by (rewrite E3; (reflexivity || discriminate)). unfold d2. rewrite recalc_dash_computed. f_equal. apply computed_ext. apply E1. discriminate.
Qed.

(** * Conditions *)
Lemma valid_ts_iff t : valid_ts t = true <-> exists k e f, (q0 < k)%Qc /\ t = Tr k q0 q0 k e f.
Proof.
  unfold valid_ts. rewrite !andb_true_iff. split.
  - intros [[[A B] C] D]. destruct (qeqb_spec (tb t) q0), (qeqb_spec (tc t) q0), (qeqb_spec (ta t) (td t)), (qltb_spec q0 (ta t)); try discriminate.
    exists (ta t), (te t), (tf t). split; [assumption|]. destruct t; cbn in *. congruence.
  - intros (k & e & f & H & ->). cbn. rewrite !qeqb_refl. repeat split. destruct (qltb_spec q0 k); [reflexivity|contradiction].
Qed.
Lemma valid_attr_iff a l : valid_attr a l = true <-> forall j, nearest a l <> Some (VFunc j).
Proof.
  induction l as [|d l IH]; cbn; [split; [discriminate|reflexivity]|]. destruct (d_get d a) as [[]|]; try (split; [discriminate|reflexivity]); try exact IH.
  split; [discriminate|]. intros H. exfalso. eapply H. reflexivity.
Qed.
Lemma valid_attrs_iff anc d : valid_attrs anc d = true <-> no_references anc d.
Proof.
  unfold valid_attrs, no_references. rewrite forallb_forall. split.
  - intros H a j Ha. now apply valid_attr_iff, H.
  - intros H a Ha. apply valid_attr_iff. intros j. now apply H.
Qed.
Lemma valid_coord_iff d a : valid_coord d a = true <-> exists n, coord d a n.
Proof.
  unfold valid_coord, coord. destruct (d_get d a) as [[| | |l| | | | | | | ]|]; try (split; [eauto|reflexivity]).
  destruct (unit_eqb_spec (unit l) UNone) as [E|E]; split; try discriminate; try reflexivity.
  - intros _. exists (num l). destruct l; cbn in *; now subst.
  - intros (n & ->). cbn in E. congruence.
Qed.
Lemma get_len_of d a n : coord d a n -> num (get_len d a) = n.
Proof. intros H. apply get_len_coord in H. now rewrite H. Qed.
Lemma coord_get d a n : d_get d a = Some (number n) -> coord d a n.
Proof. unfold coord. intros ->. reflexivity. Qed.
Lemma coord_ext d d' a n : d_get d' a = d_get d a -> coord d a n -> coord d' a n.
Proof. unfold coord. now intros ->. Qed.
