(** Facts on hiding attributes. *)
From Coq Require Import List Bool NArith Arith ZArith String Lia QArith Qcanon.
From Verif Require Import Names Num Value Dom DomFacts DomOps Outcome DomRemove Stops SpecStops AttrFacts StopsProofs NPass SpecDom SpecWritten GradTransProofs UnusedCoords SpecCoords.
Import ListNotations.
Local Open Scope nat_scope.

Definition hidden_ (x : attr) : attr := At (a_name x) (a_val x) false.
Definition named (l : list aid) (x : attr) : bool := existsb (fun a => has_name (AN a) x) l.
Definition hide_in (l : list aid) (x : attr) : attr := if named l x then hidden_ x else x.
Lemma named_iff l x : named l x = true <-> exists a, a_name x = AN a /\ In a l.
Proof.
  unfold named. rewrite existsb_exists. split.
  - intros (a & Ha & H). exists a. split; [|exact Ha]. unfold has_name in H. destruct (aname_eqb_spec (a_name x) (AN a)); [assumption|discriminate].
  - intros (a & E & Ha). exists a. split; [exact Ha|]. unfold has_name. rewrite E. destruct (aname_eqb_spec (AN a) (AN a)); congruence.
Qed.
Lemma hide_in_name l x : a_name (hide_in l x) = a_name x. Proof. unfold hide_in. destruct (named l x); reflexivity. Qed.
Lemma hide_in_val l x : a_val (hide_in l x) = a_val x. Proof. unfold hide_in. destruct (named l x); reflexivity. Qed.
Lemma hide_all_eq l : forall d, hide_all l d = with_attrs d (map (hide_in l) (attrs d)).
Proof.
  induction l as [|a l IH]; intros d.
  - cbn. unfold hide_in. cbn. destruct d; cbn. unfold with_attrs; cbn. f_equal. now rewrite map_id.
  - cbn [hide_all fold_left]. fold (hide_all l (with_attrs d (hide_attr (attrs d) a))). rewrite IH. unfold with_attrs. cbn [key tag nid attrs]. f_equal.
    unfold hide_attr. rewrite map_map. apply map_ext. intros x. unfold hide_in, named. cbn [existsb].
    destruct (has_name (AN a) x) eqn:E; cbn [orb]; [|reflexivity].
    assert (Q : forall b, has_name b (At (a_name x) (a_val x) false) = has_name b x) by reflexivity.
    destruct (existsb _ l); reflexivity.
Qed.
Lemma hide_all_get l d b : get_attr (attrs (hide_all l d)) b = option_map (fun x => if existsb (aid_eqb b) l then hidden_ x else x) (get_attr (attrs d) b).
Proof.
  rewrite hide_all_eq. cbn [attrs with_attrs]. unfold get_attr. induction (attrs d) as [|x m IH]; [reflexivity|]. cbn [map find].
  assert (E : has_name (AN b) (hide_in l x) = has_name (AN b) x) by (unfold has_name; now rewrite hide_in_name). rewrite E.
  destruct (has_name (AN b) x) eqn:Hn; [|exact IH]. cbn [option_map]. f_equal. unfold hide_in.
  assert (Q : named l x = existsb (aid_eqb b) l); [|now rewrite Q]. apply eq_true_iff_eq. rewrite named_iff, existsb_exists.
  unfold has_name in Hn. destruct (aname_eqb_spec (a_name x) (AN b)) as [En|]; [|discriminate]. split.
  - intros (a & E1 & Ha). exists a. split; [exact Ha|]. assert (a = b) by congruence. subst. apply aid_eqb_refl.
  - intros (a & Ha & E1). exists a. destruct (aid_eqb_spec b a); [subst; auto|discriminate].
Qed.
Lemma hide_all_dget l d b : d_get (hide_all l d) b = d_get d b.
Proof. unfold d_get, get_value. rewrite hide_all_get. destruct (get_attr (attrs d) b) as [x|]; [|reflexivity]. cbn. destruct (existsb _ l); reflexivity. Qed.
Lemma hide_all_nodup l d : attrs_nodup d -> attrs_nodup (hide_all l d).
Proof. unfold attrs_nodup. rewrite hide_all_eq. cbn. rewrite map_map. intros H. erewrite map_ext; [exact H|]. apply hide_in_name. Qed.
Lemma hide_all_node l d : key (hide_all l d) = key d /\ tag (hide_all l d) = tag d /\ nid (hide_all l d) = nid d.
Proof. rewrite hide_all_eq. auto. Qed.
Lemma hide_all_only l d : hidden_only (fun a => In a l) d (hide_all l d).
Proof.
  destruct (hide_all_node l d) as (A & B & C). split; [exact A|]. split; [exact B|]. split; [exact C|]. rewrite hide_all_eq. cbn.
  induction (attrs d) as [|x m IH]; constructor; [|exact IH]. unfold hide_in. destruct (named l x) eqn:E; [|auto]. right. split; [reflexivity|].
  apply named_iff in E. destruct E as (a & E & Ha). eauto.
Qed.
Lemma hide_all_refers l d k : existsb (refers k) (attrs (hide_all l d)) = existsb (refers k) (attrs d).
Proof. rewrite hide_all_eq. cbn. rewrite existsb_map. apply existsb_ext_in. intros x _. unfold refers. now rewrite hide_in_val. Qed.
Lemma hide_all_vis l d b : attrs_nodup d -> d_get (vis (hide_all l d)) b = if existsb (aid_eqb b) l then None else d_get (vis d) b.
Proof.
  intros N. rewrite !vis_dget by (try apply hide_all_nodup; exact N). rewrite hide_all_get. destruct (get_attr (attrs d) b) as [x|]; cbn; [|destruct (existsb _ l); reflexivity].
  destruct (existsb _ l); reflexivity.
Qed.
