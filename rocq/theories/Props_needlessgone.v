(** C32 and C52, the other half: the needless attributes are really gone. *)
From Coq Require Import List Bool NArith Arith ZArith String Lia QArith Qcanon.
From Verif Require MoveFacts.
From Verif Require Import Names Num Value Dom DomFacts DomOps Outcome DomRemove Stops SpecDom AttrFacts SpecStyle SpecWritten SpecDefaults GradTransProofs RmText SpecText TextProofs Props_text Needless SpecNeedless Visit NeedlessProofs Props_needless.
Import ListNotations.
Local Open Scope nat_scope.

(** ** What a single visit removes *)
Definition lacks (d : ndata) (n : aname) : Prop := forall x, In x (attrs d) -> a_name x <> n.
Definition painted_names : list aname := map AN (AOpacity :: fill_properties ++ stroke_properties).
(** No new names but fill and stroke. *)
Definition no_new (d d' : ndata) : Prop := tag d' = tag d /\ forall n, n <> AN AFill -> n <> AN AStroke -> lacks d n -> lacks d' n.
Lemma nn_refl d : no_new d d. Proof. split; auto. Qed.
Lemma nn_trans a b c : no_new a b -> no_new b c -> no_new a c.
Proof. intros [T1 H1] [T2 H2]. split; [congruence|]. auto. Qed.
Lemma nn_rm d a : no_new d (d_rm d a).
Proof. split; [reflexivity|]. intros n _ _ H x Hx. unfold d_rm in Hx. cbn in Hx. apply filter_In in Hx. apply H, Hx. Qed.
Lemma nn_rm_all l : forall d, no_new d (rm_all l d).
Proof. induction l as [|a l IH]; intros d; [apply nn_refl|]. exact (nn_trans _ _ _ (nn_rm d a) (IH (d_rm d a))). Qed.
Lemma nn_set d a v : a = AFill \/ a = AStroke -> no_new d (d_set d a v).
Proof. intros A. split; [reflexivity|]. intros n N1 N2 H x Hx. unfold d_set in Hx. cbn in Hx. apply set_attr_in in Hx. destruct Hx as [Hx| ->]; [now apply H|]. cbn. destruct A as [-> | ->]; congruence. Qed.
Lemma nn_fill d : no_new d (process_fill d).
Proof.
  unfold process_fill. set (d1 := if value_is d _ _ then _ else d). assert (H : no_new d d1) by (unfold d1; destruct (value_is _ _ _); [exact (nn_trans _ _ _ (nn_rm d AFillRule) (nn_rm _ AFillOpacity))|apply nn_refl]).
  clearbody d1. cbn zeta. destruct (value_is d1 _ _); [|exact H]. refine (nn_trans _ _ _ H _). refine (nn_trans _ _ _ (nn_set d1 AFill (VPre Vid_none) (or_introl eq_refl)) _). exact (nn_trans _ _ _ (nn_rm _ AFillRule) (nn_rm _ AFillOpacity)).
Qed.
Lemma nn_stroke anc d : no_new d (process_stroke anc d).
Proof.
  unfold process_stroke. destruct (is_invisible d); cbn zeta.
  - pose proof (nn_trans _ _ _ (nn_rm d AStroke) (nn_rm_all stroke_attributes _)) as H. set (d1 := rm_all _ _) in *. clearbody d1. destruct (find _ anc) as [n|]; [|exact H]. destruct (value_is n _ _); [exact H|].
    exact (nn_trans _ _ _ H (nn_set d1 AStroke _ (or_intror eq_refl))).
  - destruct (value_is d _ _); [|apply nn_refl]. pose proof (nn_rm_all stroke_attributes d) as H. destruct (find _ anc); [exact H|]. exact (nn_trans _ _ _ H (nn_rm _ AStroke)).
Qed.
Lemma nn_overflow d : no_new d (process_overflow d).
Proof. unfold process_overflow. destruct (tag d) as [|[]| | | |]; first [apply nn_refl|apply nn_rm]. Qed.
Lemma lacks_rm d a : lacks (d_rm d a) (AN a).
Proof. intros x Hx E. unfold d_rm in Hx. cbn in Hx. apply filter_In in Hx. destruct Hx as [_ Hx]. unfold has_name in Hx. rewrite E in Hx. destruct (aname_eqb_spec (AN a) (AN a)); [discriminate|contradiction]. Qed.
Lemma retained l d n : (forall a, n = AN a -> is_basic_shapes_attr a = false /\ ~ In a l) -> lacks (retain l d) n.
Proof.
  intros H x Hx E. unfold retain in Hx. cbn in Hx. apply filter_In in Hx. destruct Hx as [_ Hx]. rewrite E in Hx. destruct n as [a|s]; [|discriminate]. destruct (H a eq_refl) as [H1 H2]. rewrite H1 in Hx. cbn in Hx.
  apply existsb_exists in Hx. destruct Hx as (b & Hb & Eb). destruct (aid_eqb_spec a b); [subst; contradiction|discriminate].
Qed.
Lemma uncommon a : ~ common_attr a -> is_basic_shapes_attr a = false.
Proof.
  intros H. destruct (is_basic_shapes_attr a) eqn:E; [|reflexivity]. exfalso. apply H. unfold is_basic_shapes_attr in E. apply orb_true_iff in E. destruct E as [E|E].
  - apply orb_true_iff in E. destruct E as [E|E]; [|right; right; right; left; exact E]. apply orb_true_iff in E. destruct E as [E|E]; [|right; right; left; exact E]. apply orb_true_iff in E. destruct E as [E|E]; [left; exact E|right; left; exact E].
  - right. right. right. right. apply existsb_exists in E. destruct E as (b & Hb & Eb). destruct (aid_eqb_spec a b); [now subst|discriminate].
Qed.
Lemma effectless_names e n : without_effect e n -> n <> AN AFill /\ n <> AN AStroke.
Proof.
  intros [| | |a B G C|s B]; (split; try discriminate); intros E; injection E as ->; apply C; unfold common_attr; cbn; tauto.
Qed.
Lemma shape_lacks e d n : tag d = TEl e -> basic_shape e -> (forall a, n = AN a -> ~ In a (geometry e) /\ ~ common_attr a) -> lacks (process_shape d) n.
Proof.
  intros E B H. assert (R : lacks (retain (geometry e) d) n) by (apply retained; intros a Ha; destruct (H a Ha); split; [now apply uncommon|assumption]).
  unfold process_shape. rewrite E. unfold basic_shape in B. cbn in B. destruct B as [<-|[<-|[<-|[<-|[<-|[<-|[]]]]]]]; exact R.
Qed.
Lemma nn_pre1 d : no_new (process_shape d) (pre_node d).
Proof. unfold pre_node. cbn zeta. pose proof (nn_rm (process_shape d) AColor) as H. destruct (tag_sat _ _); [exact H|exact (nn_trans _ _ _ H (nn_rm _ AEnableBackground))]. Qed.
Lemma node_lacks anc leaf e d n : tag d = TEl e -> without_effect e n -> lacks (needless_node anc leaf d) n.
Proof.
  intros E H. destruct (effectless_names e n H) as [N1 N2]. rewrite needless_eq.
  assert (Ts : tag (process_shape d) = TEl e) by (rewrite (proj1 (proj2 (proj1 (shape_sk d)))); exact E).
  set (x := pre_node d). assert (Tx : tag x = TEl e) by (unfold x; rewrite (proj1 (nn_pre1 d)); exact Ts).
  assert (C : no_new x (if leaf then process_stroke anc (process_fill x) else x)) by (destruct leaf; [exact (nn_trans _ _ _ (nn_fill x) (nn_stroke anc _))|apply nn_refl]).
  set (y := if leaf then _ else x) in *. assert (Ty : tag y = TEl e) by (rewrite (proj1 C); exact Tx).
  destruct H as [|B|V|a B G C0|s B].
  - apply (proj2 (nn_overflow y)); try discriminate. apply (proj2 C); try discriminate. unfold x, pre_node. cbn zeta. destruct (tag_sat _ _); [apply lacks_rm|]. apply (proj2 (nn_rm _ AEnableBackground)); try discriminate. apply lacks_rm.
  - apply (proj2 (nn_overflow y)); try discriminate. apply (proj2 C); try discriminate. unfold x, pre_node. cbn zeta. unfold tag_sat at 1. change (tag (d_rm (process_shape d) AColor)) with (tag (process_shape d)). rewrite Ts, B. apply lacks_rm.
  - unfold process_overflow. rewrite Ty. unfold establishes_viewport in V. cbn in V. destruct e; first [apply lacks_rm|exfalso; apply V; tauto].
  - apply (proj2 (nn_overflow y)); auto. apply (proj2 C); auto. apply (proj2 (nn_pre1 d)); auto. apply (shape_lacks e); auto. intros b Eb. injection Eb as <-. auto.
  - apply (proj2 (nn_overflow y)); auto. apply (proj2 C); auto. apply (proj2 (nn_pre1 d)); auto. apply (shape_lacks e); auto. intros b Eb. discriminate.
Qed.

(** ** Fill and stroke of a node without children *)
Lemma get_overflow d a : a <> AOverflow -> d_get (process_overflow d) a = d_get d a.
Proof. intros H. unfold process_overflow. destruct (tag d) as [|[]| | | |]; first [reflexivity|unfold d_get, get_value, d_rm; cbn; now rewrite get_rm_other by congruence]. Qed.
Lemma get_rm_none d a : d_get (d_rm d a) a = None.
Proof. unfold d_get, get_value, d_rm. cbn. now rewrite get_rm_same. Qed.
Lemma get_rm_ne d a b : a <> b -> d_get (d_rm d b) a = d_get d a.
Proof. intros H. unfold d_get, get_value, d_rm. cbn. now rewrite get_rm_other by congruence. Qed.
Lemma value_is_false d a v : value_is d a v = false -> d_get d a <> Some v.
Proof. unfold value_is. destruct (d_get d a) as [w|]; [|discriminate]. destruct (value_eqb_spec w v); congruence. Qed.
Lemma fill_done d : (d_get (process_fill d) AFill = Some (VPre Vid_none) -> d_get (process_fill d) AFillRule = None /\ d_get (process_fill d) AFillOpacity = None) /\ d_get (process_fill d) AFillOpacity <> Some (VNum q0).
Proof.
  unfold process_fill. destruct (value_is d AFill (VPre Vid_none)) eqn:E; cbn zeta.
  - set (d1 := d_rm (d_rm d AFillRule) AFillOpacity). assert (X : value_is d1 AFillOpacity (VNum q0) = false) by (unfold value_is, d1; now rewrite get_rm_none). rewrite X. unfold d1.
    split; [intros _; split|]; rewrite ?get_rm_none; try discriminate; try reflexivity. rewrite get_rm_ne by discriminate. apply get_rm_none.
  - destruct (value_is d AFillOpacity (VNum q0)) eqn:F.
    + split; [intros _; split|]; rewrite ?get_rm_none; try discriminate; try reflexivity. rewrite get_rm_ne by discriminate. apply get_rm_none.
    + apply value_is_false in E, F. split; [congruence|exact F].
Qed.
Definition stroke_done (anc : list ndata) (d : ndata) : Prop :=
  (d_get d AStroke = Some (VPre Vid_none) -> (forall a, In a stroke_properties -> a <> AStroke -> d_get d a = None) /\ exists n, In n anc /\ d_get n AStroke <> None) /\
  (~ own_marker d -> (forall u, d_get d AStrokeWidth <> Some (VLen (Len q0 u))) /\ d_get d AStrokeOpacity <> Some (VNum q0)).
Lemma all_stroke a : In a stroke_properties -> a <> AStroke -> In a stroke_attributes.
Proof. cbn. intuition congruence. Qed.
Lemma has_some n a : d_has n a = true -> d_get n a <> None.
Proof. unfold d_has, has_attr, d_get, get_value. destruct (get_attr (attrs n) a); discriminate. Qed.
Lemma no_own_marker d : ~ own_marker d -> existsb (d_has d) [AMarker; AMarkerStart; AMarkerMid; AMarkerEnd] = false.
Proof. intros H. destruct (existsb _ _) eqn:E; [|reflexivity]. exfalso. apply H. apply existsb_exists in E. destruct E as (a & Ha & E). exists a. split; [exact Ha|]. now apply has_some. Qed.
Lemma rm_all_gone l d a : In a l -> d_get (rm_all l d) a = None.
Proof. intros H. unfold d_get, get_value. now rewrite get_rm_all_in. Qed.
Lemma set_other d a b v : a <> b -> d_get (d_set d b v) a = d_get d a.
Proof. intros H. unfold d_get, get_value, d_set. cbn. now rewrite get_set_other by congruence. Qed.
Lemma stroke_is_done anc d : stroke_done anc (process_stroke anc d).
Proof.
  assert (R : forall d0 a, In a stroke_attributes -> d_get (rm_all stroke_attributes d0) a = None) by (intros; now apply rm_all_gone).
  assert (NS : ~ In AStroke stroke_attributes) by (cbn; intuition discriminate).
  unfold process_stroke. destruct (is_invisible d) eqn:I; cbn zeta.
  - set (d1 := rm_all stroke_attributes (d_rm d AStroke)).
    assert (D1 : forall a, In a stroke_attributes -> d_get d1 a = None) by (intros a; apply R).
    assert (DS : d_get d1 AStroke = None). { unfold d1, d_get, get_value. rewrite get_rm_all by exact NS. unfold d_rm. cbn. now rewrite get_rm_same. }
    assert (W : d_get d1 AStrokeWidth = None /\ d_get d1 AStrokeOpacity = None) by (split; apply D1; cbn; tauto).
    clearbody d1. assert (Plain : stroke_done anc d1). { split; [rewrite DS; discriminate|]. intros _. destruct W as [-> ->]. split; [intros u|]; discriminate. }
    destruct (find _ anc) as [n|] eqn:F; [|exact Plain]. destruct (value_is n _ _); [exact Plain|]. apply find_some in F. destruct F as [Fn Hn]. split.
    + intros _. split; [|exists n; split; [exact Fn|now apply has_some]]. intros a Ha Na. rewrite set_other by exact Na. apply D1. now apply all_stroke.
    + intros _. rewrite !set_other by discriminate. destruct W as [-> ->]. split; [intros u|]; discriminate.
  - destruct (value_is d AStroke (VPre Vid_none)) eqn:E.
    + set (d1 := rm_all stroke_attributes d). assert (D1 : forall a, In a stroke_attributes -> d_get d1 a = None) by (intros a; apply R). clearbody d1.
      assert (W : d_get d1 AStrokeWidth = None /\ d_get d1 AStrokeOpacity = None) by (split; apply D1; cbn; tauto).
      destruct (find _ anc) as [n|] eqn:F.
      * apply find_some in F. destruct F as [Fn Hn]. split.
        -- intros _. split; [|exists n; split; [exact Fn|now apply has_some]]. intros a Ha Na. apply D1. now apply all_stroke.
        -- intros _. destruct W as [-> ->]. split; [intros u|]; discriminate.
      * split; [rewrite get_rm_none; discriminate|]. intros _. rewrite !get_rm_ne by discriminate. destruct W as [-> ->]. split; [intros u|]; discriminate.
    + apply value_is_false in E. split; [intros X; contradiction|]. intros M. unfold is_invisible in I. rewrite (no_own_marker d M) in I. apply orb_false_iff in I. destruct I as [I1 I2]. split; [|now apply value_is_false].
      intros u X. rewrite X in I1. cbn [num] in I1. rewrite qeqb_refl in I1. discriminate.
Qed.
Lemma own_overflow d : own_marker (process_overflow d) <-> own_marker d.
Proof. unfold own_marker. split; intros (a & Ha & H); exists a; (split; [exact Ha|]); rewrite get_overflow in * by (cbn in Ha; intuition (subst; discriminate)); exact H. Qed.
Lemma leaf_done anc d : let d' := needless_node anc true d in
  (d_get d' AFill = Some (VPre Vid_none) -> d_get d' AFillRule = None /\ d_get d' AFillOpacity = None) /\ d_get d' AFillOpacity <> Some (VNum q0) /\ stroke_done anc d'.
Proof.
  cbn zeta. rewrite needless_eq. set (x := pre_node d). clearbody x. set (y := process_fill x). pose proof (fill_done x) as F. fold y in F. clearbody y.
  pose proof (stroke_is_done anc y) as S. set (z := process_stroke anc y) in *.
  assert (Fz : forall a, In a fill_properties -> d_get z a = d_get y a) by (intros a Ha; unfold d_get, get_value, z; now rewrite stroke_other).
  rewrite <- !Fz in F by (cbn; tauto). clearbody z. rewrite !get_overflow by discriminate. destruct F as [F1 F2]. split; [exact F1|]. split; [exact F2|].
  destruct S as [S1 S2]. split.
  - rewrite get_overflow by discriminate. intros H. destruct (S1 H) as [A B]. split; [|exact B]. intros a Ha Na. rewrite get_overflow by (cbn in Ha; intuition (subst; discriminate)). now apply A.
  - intros M. rewrite !get_overflow by discriminate. apply S2. intros X. apply M. now apply own_overflow.
Qed.

(** ** Children of clip paths *)
Definition bare (k : nat) (t : tree) : Prop := forall d n, In d (flat t) -> key d = k -> In n painted_names -> lacks d n.
Definition unpainted (d : ndata) : Prop := forall n, In n painted_names -> lacks d n.
Lemma strip_bare d : unpainted (strip_paint d).
Proof.
  intros n Hn x Hx E. unfold strip_paint in Hx. cbn in Hx. apply filter_In in Hx. destruct Hx as [_ Hx]. unfold paint_attr in Hx. rewrite E in Hx. unfold painted_names in Hn. apply in_map_iff in Hn. destruct Hn as (a & <- & Ha).
  cbn in Ha. repeat (destruct Ha as [<-|Ha]; [discriminate|]). contradiction.
Qed.
Lemma unpainted_get d a : unpainted d -> In a (AOpacity :: fill_properties ++ stroke_properties) -> d_get d a = None.
Proof.
  intros H Ha. unfold d_get, get_value, get_attr. destruct (find _ (attrs d)) as [x|] eqn:F; [|reflexivity]. apply find_some in F. destruct F as [Fx Nx]. exfalso.
  unfold has_name in Nx. destruct (aname_eqb_spec (a_name x) (AN a)) as [E|E]; [|discriminate]. exact (H (AN a) (in_map AN _ _ Ha) x Fx E).
Qed.
Lemma unpainted_nn d d' : no_new d d' -> d_get d' AFill = None -> d_get d' AStroke = None -> unpainted d -> unpainted d'.
Proof.
  intros [_ N] F S U n Hn. assert (L : forall a, d_get d' a = None -> lacks d' (AN a)).
  { intros a G x Hx E. unfold d_get, get_value, get_attr in G. destruct (find _ (attrs d')) as [y|] eqn:Fy; [discriminate|]. pose proof (find_none _ _ Fy x Hx) as Q. unfold has_name in Q. rewrite E in Q. destruct (aname_eqb_spec (AN a) (AN a)); [discriminate|contradiction]. }
  destruct (aname_eqb_spec n (AN AFill)) as [->|N1]; [now apply L|]. destruct (aname_eqb_spec n (AN AStroke)) as [->|N2]; [now apply L|]. apply N; auto.
Qed.
Lemma unpainted_needless anc leaf d : unpainted d -> unpainted (needless_node anc leaf d).
Proof.
  intros U. assert (Ux : unpainted (pre_node d)).
  { intros n Hn x Hx. assert (In x (attrs d)); [|now apply (U n Hn)]. assert (Y : forall l, In x (attrs (retain l d)) -> In x (attrs d)) by (intros l H; unfold retain in H; cbn in H; apply filter_In in H; apply H).
    assert (Z : In x (attrs (process_shape d)) -> In x (attrs d)) by (unfold process_shape; destruct (tag d) as [|[]| | | |]; auto; apply Y).
    apply Z. unfold pre_node in Hx. cbn zeta in Hx. destruct (tag_sat _ _); unfold d_rm in Hx; cbn in Hx; repeat (apply filter_In in Hx; destruct Hx as [Hx _]); exact Hx. }
  rewrite needless_eq. set (x := pre_node d) in *. clearbody x.
  assert (E : (if leaf then process_stroke anc (process_fill x) else x) = x).
  { destruct leaf; [|reflexivity]. assert (G : forall a, In a (AOpacity :: fill_properties ++ stroke_properties) -> d_get x a = None) by (intros a; now apply unpainted_get).
    assert (Fx : process_fill x = x) by (unfold process_fill, value_is; rewrite !G by (cbn; tauto); cbn zeta; rewrite ?G by (cbn; tauto); reflexivity). rewrite Fx.
    unfold process_stroke, is_invisible, value_is. rewrite !G by (cbn; tauto). destruct (existsb _ _); reflexivity. }
  rewrite E. refine (unpainted_nn x _ (nn_overflow x) _ _ Ux); rewrite get_overflow by discriminate; apply unpainted_get; auto; cbn; tauto.
Qed.
Lemma bare_upd k j f t : (forall d, key (f d) = key d) -> (forall d, unpainted d -> unpainted (f d)) -> bare k t -> bare k (upd j f t).
Proof.
  intros K U B d n Hd Ek. unfold upd in Hd. rewrite flat_tmap in Hd. apply in_map_iff in Hd. destruct Hd as (x & <- & Hx).
  assert (Kx : key x = k) by (destruct (Nat.eqb (key x) j); [rewrite K in Ek|]; exact Ek).
  destruct (Nat.eqb (key x) j); [|exact (fun Hn => B x n Hx Kx Hn)]. intros Hn. apply U; [|exact Hn]. intros m Hm. exact (B x m Hx Kx Hm).
Qed.
Lemma bare_clip k ks : forall t, bare k t -> bare k (process_clip_path ks t).
Proof.
  unfold process_clip_path. induction ks as [|j ks IH]; intros t B; [exact B|]. cbn [fold_left]. apply IH. destruct (is_used j t); [exact B|]. apply bare_upd; [reflexivity| |exact B]. intros d _. apply strip_bare.
Qed.
Lemma clip_bare k ks : forall t, In k ks -> is_used k t = false -> bare k (process_clip_path ks t).
Proof.
  unfold process_clip_path. induction ks as [|j ks IH]; intros t H U; [contradiction|]. cbn [fold_left]. destruct (Nat.eq_dec j k) as [->|Ne].
  - rewrite U. apply (bare_clip k ks). intros d n Hd Ek Hn. unfold upd in Hd. rewrite flat_tmap in Hd. apply in_map_iff in Hd. destruct Hd as (x & <- & Hx). destruct (Nat.eqb_spec (key x) k) as [E|E]; [now apply strip_bare|contradiction].
  - destruct H as [H|H]; [contradiction|]. apply IH; [exact H|]. destruct (is_used j t); [exact U|]. refine (unused_less k t _ _ U).
    intros z Hz. unfold upd in Hz. rewrite <- (tmap_id (fun d => d) t) by reflexivity. refine (targets_less (fun d => d) _ t _ z Hz). intros d _. destruct (Nat.eqb _ _); [apply fl_filter|apply fl_refl].
Qed.
Lemma bare_visit k t j : bare k t -> bare k (needless_visit t j).
Proof.
  intros B. unfold needless_visit. destruct (find_place [] j t) as [[anc s]|]; [|exact B]. destruct (is_svg_el (data s)); [|exact B]. cbn zeta. apply bare_upd.
  - intros d. apply needless_sk.
  - intros d. apply unpainted_needless.
  - destruct (is_tag EClipPath (data s)); [now apply bare_clip|exact B].
Qed.
Lemma bare_visits k ks : forall t, bare k t -> bare k (fold_left needless_visit ks t).
Proof. induction ks as [|j ks IH]; intros t B; [exact B|]. cbn [fold_left]. apply IH. now apply bare_visit. Qed.
Section clip.
Variable t : tree.
Hypothesis N : NoDup (keys t).
Lemma prefix_inv l1 l2 : keys t = l1 ++ l2 -> exists g, fold_left needless_visit l1 t = tmap g t /\ inv t l1 g.
Proof.
  intros E. assert (G : forall rest done g, (exists l, keys t = done ++ rest ++ l) -> inv t done g -> exists g', fold_left needless_visit rest (tmap g t) = tmap g' t /\ inv t (done ++ rest) g').
  { induction rest as [|k rest IH]; intros done g [l El] I; [exists g; split; [reflexivity|]; now rewrite app_nil_r|].
    destruct (visit_step t N done k (rest ++ l) g El I) as (g' & E' & I'). cbn [fold_left]. rewrite E'. destruct (IH (done ++ [k]) g') as (g2 & E2 & I2).
    - exists l. rewrite <- app_assoc. exact El.
    - exact I'.
    - exists g2. split; [exact E2|]. rewrite <- app_assoc in I2. exact I2. }
  destruct (G l1 [] (fun d => d)) as (g & Eg & I); [exists l2; exact E| |exists g; split; [rewrite <- Eg; f_equal; symmetry; apply tmap_id; reflexivity|exact I]].
  intros anc s P. exists false. split; [discriminate|]. cbn. split; [intros []|auto].
Qed.
Lemma clip_child_bare anc s c : In (anc, s) (places [] t) -> tag (data s) = TEl EClipPath -> In c (kids s) -> is_used (root_key c) t = false -> bare (root_key c) (remove_needless_attributes t).
Proof.
  intros P Ts Hc U. unfold remove_needless_attributes.
  assert (Hk : In (root_key s) (keys t)) by (rewrite <- (places_keys t []); apply in_map_iff; exists (anc, s); auto).
  apply in_split in Hk. destruct Hk as (l1 & l2 & El). destruct (prefix_inv l1 (root_key s :: l2) El) as (g & Eg & I).
  rewrite El, fold_left_app. cbn [fold_left]. rewrite Eg. apply bare_visits.
  pose proof (inv_sk t l1 g I) as Sg.
  assert (Ng : NoDup (keys (tmap g t))). { unfold keys. rewrite flat_tmap, map_map. rewrite (map_ext_in _ key); [exact N|]. intros d Hd. apply (Sg d Hd). }
  assert (Rk : root_key (tmap g s) = root_key s). { unfold root_key. rewrite tmap_data. apply (Sg _ (place_in _ _ _ _ P)). }
  assert (F : find_place [] (root_key s) (tmap g t) = Some (map g anc, tmap g s)) by (rewrite <- Rk; apply find_place_in; [exact Ng|now apply places_g]).
  assert (Tg : tag (g (data s)) = TEl EClipPath) by (rewrite (proj1 (proj2 (Sg _ (place_in _ _ _ _ P)))); exact Ts).
  unfold needless_visit. rewrite F. rewrite tmap_data. unfold is_svg_el at 1, is_tag at 1. rewrite Tg. cbn zeta. change (eid_eqb EClipPath EClipPath) with true. cbn iota.
  apply bare_upd; [intros d; apply needless_sk|intros d; apply unpainted_needless|]. apply clip_bare.
  - rewrite kids_tmap, map_map. apply in_map_iff. exists c. split; [|exact Hc]. unfold root_key. rewrite tmap_data. apply (Sg (data c)). exact (place_in _ _ _ _ (place_kid t [] anc s c P Hc)).
  - refine (unused_less _ t _ _ U). rewrite <- (tmap_id (fun d => d) t) at 2 by reflexivity. apply targets_less. intros d Hd. destruct (in_place d t [] Hd) as (an & s0 & P0 & <-). destruct (I an s0 P0) as (b & _ & I1 & I2). cbn zeta in *.
    assert (L : fewer_links (data s0) (stripped_if b (data s0))) by (destruct b; [apply fl_filter|apply fl_refl]).
    destruct (in_dec Nat.eq_dec (root_key s0) l1) as [H|H]; [rewrite (I1 H)|rewrite (I2 H); exact L]. eapply fl_trans; [exact L|apply node_fn_sk].
Qed.
End clip.

(** After the pass no SVG element has an attribute without effect; an element without children that is
    not filled has no other fill property and one that has no stroke has no other stroke property (and
    says so only below a stroke); a zero opacity or stroke width is not spelled out any more; and the children of a
    clip path that nothing refers to have no paint at all. *)
Theorem C52_needless t : WF t ->
  (forall anc s e, In (anc, s) (places [] (remove_needless_attributes t)) -> tag (data s) = TEl e ->
     (forall x, In x (attrs (data s)) -> ~ without_effect e (a_name x)) /\
     (kids s = [] ->
        (d_get (data s) AFill = Some (VPre Vid_none) -> d_get (data s) AFillRule = None /\ d_get (data s) AFillOpacity = None) /\
        d_get (data s) AFillOpacity <> Some (VNum q0) /\
        (d_get (data s) AStroke = Some (VPre Vid_none) -> (forall a, In a stroke_properties -> a <> AStroke -> d_get (data s) a = None) /\ exists n, In n anc /\ d_get n AStroke <> None) /\
        (~ own_marker (data s) -> (forall u, d_get (data s) AStrokeWidth <> Some (VLen (Len q0 u))) /\ d_get (data s) AStrokeOpacity <> Some (VNum q0)))) /\
  (forall s c d x, In s (subs t) -> tag (data s) = TEl EClipPath -> In c (kids s) -> is_used (root_key c) t = false ->
     In d (flat (remove_needless_attributes t)) -> key d = root_key c -> In x (attrs d) -> ~ In (a_name x) (map AN (AOpacity :: fill_properties ++ stroke_properties))).
Proof.
  intros W. pose proof (wf_keys t W) as N. split.
  - intros anc s e P Te. destruct (pass_inv t N) as (g & Eg & I). rewrite Eg in P. pose proof (inv_sk t (keys t) g I) as Sg.
    pose proof (places_tmap g t []) as PT. change (map g []) with (@nil ndata) in PT. rewrite PT in P. apply in_map_iff in P. destruct P as ((anc0 & s0) & E & P0). cbn [fst snd] in E. injection E as <- <-.
    rewrite tmap_data in *. destruct (I anc0 s0 P0) as (b & _ & I1 & _). cbn zeta in I1.
    assert (Hk : In (root_key s0) (keys t)) by (rewrite <- (places_keys t []); apply in_map_iff; exists (anc0, s0); auto).
    rewrite (I1 Hk) in *. set (x := stripped_if b (data s0)) in *.
    assert (Tx : tag x = TEl e) by (rewrite <- Te; symmetry; apply node_fn_sk). unfold node_fn. assert (Sx : is_svg_el x = true) by (unfold is_svg_el; now rewrite Tx). rewrite Sx. clear I1.
    split.
    + intros y Hy C. exact (node_lacks _ _ e x (a_name y) Tx C y Hy eq_refl).
    + intros K. rewrite kids_tmap in K. assert (L : is_leaf s0 = true) by (unfold is_leaf; destruct (kids s0); [reflexivity|discriminate]). rewrite L.
      destruct (leaf_done (map g anc0) x) as (A & B & C1 & C2). auto.
  - intros s c d x Hs Ts Hc U Hd Ek Hx Hn. destruct (MoveFacts.sub_place s t [] Hs) as (anc & P). exact (clip_child_bare t N anc s c P Ts Hc U d (a_name x) Hd Ek Hn x Hx eq_refl).
Qed.
Example C52_needless_instance : exists t t', WF t /\ remove_needless_attributes t = t' /\ t' <> t /\
  (exists s c, In s (subs t) /\ tag (data s) = TEl EClipPath /\ In c (kids s) /\ is_used (root_key c) t = false /\ d_get (data c) AFill <> None).
Proof.
  exists (doc [el 1 ESvg [] [eli 2 EClipPath "c" [] [el 3 ERect [at_ AFill (VColor 1 1 1); at_ AX (px 1)] []]; el 4 EPath [at_ AClipPath (VFunc 2); at_ AStroke (VPre Vid_none); at_ AStrokeLinecap (VStr "round")] []]]).
  eexists. split; [split; [cbn; repeat constructor; cbn; intuition discriminate|cbn; intros k [<-|[]]; cbn; tauto]|]. split; [reflexivity|]. split; [vm_compute; discriminate|].
  eexists _, _. split; [cbn; right; right; left; reflexivity|]. split; [reflexivity|]. split; [cbn; left; reflexivity|]. split; [reflexivity|]. cbn. discriminate.
Qed.
