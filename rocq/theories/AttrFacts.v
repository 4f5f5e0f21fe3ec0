(** More laws of attribute lists. *)
From Coq Require Import List Bool NArith Arith String Lia.
From Verif Require Import Names Num Value Dom DomFacts Stops SpecStops.
Import ListNotations.

Lemma same_except_refl l d : same_except l d d.
Proof. intros x _. reflexivity. Qed.
Lemma same_except_trans l d1 d2 d3 : same_except l d1 d2 -> same_except l d2 d3 -> same_except l d1 d3.
Proof. intros H1 H2 x Hx. rewrite (H2 x Hx). apply (H1 x Hx). Qed.
Lemma same_except_weaken l m d d' : incl l m -> same_except l d d' -> same_except m d d'.
Proof. intros I H x Hx. apply H. intros X. apply Hx. apply in_map_iff in X. destruct X as (a & <- & X). apply in_map, I, X. Qed.
Lemma set_attr_other_in l a v x : a_name x <> AN a -> In x (set_attr l a v) <-> In x l.
Proof.
  intros H. induction l as [|y l IH]; cbn.
  - split; [intros [<-|[]]; cbn in H; congruence|contradiction].
  - destruct (has_name (AN a) y) eqn:E; cbn.
    + apply has_name_true in E. split; intros [X|X]; auto; subst; cbn in *; congruence.
    + rewrite IH. tauto.
Qed.
Lemma set_hidden_other_in l a v x : a_name x <> AN a -> In x (set_hidden l a v) <-> In x l.
Proof.
  intros H. induction l as [|y l IH]; cbn.
  - split; [intros [<-|[]]; cbn in H; congruence|contradiction].
  - destruct (has_name (AN a) y) eqn:E; cbn.
    + apply has_name_true in E. split; intros [X|X]; auto; subst; cbn in *; congruence.
    + rewrite IH. tauto.
Qed.
Lemma rm_attr_other_in l a x : a_name x <> AN a -> In x (rm_attr l a) <-> In x l.
Proof. intros H. unfold rm_attr. rewrite filter_In. apply has_name_false in H. rewrite H. tauto. Qed.
Lemma hide_attr_other_in l a x : a_name x <> AN a -> In x (hide_attr l a) <-> In x l.
Proof.
  intros H. unfold hide_attr. rewrite in_map_iff. split.
  - intros (y & E & Hy). destruct (has_name (AN a) y) eqn:N; [|congruence]. subst. cbn in H. apply has_name_true in N. congruence.
  - intros Hx. exists x. apply has_name_false in H. rewrite H. auto.
Qed.
Lemma se_set d a v : same_except [a] d (d_set d a v).
Proof. intros x Hx. apply set_attr_other_in. cbn in Hx. intros E. apply Hx. left. congruence. Qed.
Lemma se_hidden d a v : same_except [a] d (d_set_hidden d a v).
Proof. intros x Hx. apply set_hidden_other_in. cbn in Hx. intros E. apply Hx. left. congruence. Qed.
Lemma se_rm d a : same_except [a] d (d_rm d a).
Proof. intros x Hx. apply rm_attr_other_in. cbn in Hx. intros E. apply Hx. left. congruence. Qed.

Lemma get_hidden_same l a v : get_attr (set_hidden l a v) a = Some (At (AN a) v false).
Proof.
  induction l as [|x l IH]; cbn.
  - unfold get_attr. cbn. now rewrite (proj2 (has_name_true _ _)).
  - destruct (has_name (AN a) x) eqn:E; unfold get_attr in *; cbn.
    + now rewrite (proj2 (has_name_true _ _)).
    + now rewrite E.
Qed.
Lemma get_hidden_other l a b v : a <> b -> get_attr (set_hidden l a v) b = get_attr l b.
Proof.
  intros H. induction l as [|x l IH]; unfold get_attr in *; cbn.
  - rewrite (proj2 (has_name_false _ _)); [reflexivity|cbn; congruence].
  - destruct (has_name (AN a) x) eqn:E; cbn.
    + apply has_name_true in E. rewrite !(proj2 (has_name_false (AN b) _)) by (cbn; congruence). reflexivity.
    + destruct (has_name (AN b) x); [reflexivity|exact IH].
Qed.
Lemma d_get_hidden_same d a v : d_get (d_set_hidden d a v) a = Some v.
Proof. unfold d_get, get_value, d_set_hidden. cbn. now rewrite get_hidden_same. Qed.
Lemma d_get_hidden_other d a b v : a <> b -> d_get (d_set_hidden d a v) b = d_get d b.
Proof. intros H. unfold d_get, get_value, d_set_hidden. cbn. now rewrite get_hidden_other. Qed.
Lemma d_has_hidden_other d a b v : a <> b -> d_has (d_set_hidden d a v) b = d_has d b.
Proof. intros H. rewrite !d_has_get, d_get_hidden_other; auto. Qed.
Lemma d_has_false d a : d_has d a = false <-> get_attr (attrs d) a = None.
Proof. unfold d_has, has_attr. destruct (get_attr _ a); split; congruence. Qed.
Lemma d_get_none d a : d_get d a = None <-> get_attr (attrs d) a = None.
Proof. unfold d_get, get_value. destruct (get_attr _ a); split; congruence. Qed.
Lemma same_node_refl d : same_node d d. Proof. repeat split. Qed.
Lemma same_node_trans a b c : same_node a b -> same_node b c -> same_node a c.
Proof. intros (A1 & A2 & A3) (B1 & B2 & B3). repeat split; congruence. Qed.
Lemma sn_with d l : same_node d (with_attrs d l). Proof. repeat split. Qed.
(** Setting an attribute to the value it has (visibly) changes nothing. *)
Lemma set_attr_same l a v : get_attr l a = Some (At (AN a) v true) -> set_attr l a v = l.
Proof.
  induction l as [|x l IH]; intros H; [discriminate|]. unfold get_attr in *. cbn in *.
  destruct (has_name (AN a) x) eqn:E; [congruence|]. now rewrite IH.
Qed.
Lemma with_attrs_self d : with_attrs d (attrs d) = d. Proof. now destruct d. Qed.
Lemma d_set_same d a v : get_attr (attrs d) a = Some (At (AN a) v true) -> d_set d a v = d.
Proof. intros H. unfold d_set. rewrite set_attr_same by exact H. apply with_attrs_self. Qed.
Lemma rm_attr_absent l a : get_attr l a = None -> rm_attr l a = l.
Proof.
  intros H. unfold rm_attr. assert (F : forall x, In x l -> negb (has_name (AN a) x) = true).
  { intros x Hx. rewrite (proj2 (has_name_false _ _)); [reflexivity|]. now apply (proj1 (get_attr_none l a) H). }
  clear H. induction l as [|x l IH]; [reflexivity|]. cbn. rewrite F by (left; reflexivity). f_equal. apply IH. intros y Hy. apply F. right. exact Hy.
Qed.
