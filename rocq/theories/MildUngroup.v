(** Documents with references: groups are dissolved. *)
From Coq Require Import List Bool NArith Arith ZArith String Lia QArith Qcanon Permutation.
From Verif Require Import Names Num Value Dom DomFacts DomOps Outcome DomRemove SpecDom SpecWritten Stops TasksSimple Transforms Links Move MoveFacts Img ResolveUse Ungroup WfAll WfStruct UseStep WfUse WfGrad PlainMove PlainUngroup Mild MildPasses MildMove.
Import ListNotations.
Local Open Scope nat_scope.

Section G.
Variable U : nat -> Prop.
Notation nest := (nest U).
Definition plain_g (t : tree) : Prop := forall d x, In d (flat t) -> tag d = TEl EG -> In x (attrs d) -> ~ hname x.
Lemma plain_g_desc t t' : plain_g t -> desc t t' -> plain_g t'.
Proof.
  intros G [D _] d x Hd Td Hx Hn. destruct (D d Hd) as (d0 & H0 & M0). assert (T0 : tag d0 = TEl EG) by (apply (M_tag_back _ _ _ M0 Td); discriminate). destruct (M_attrs _ _ M0 x Hx) as [X|[_ X]]; [exact (G d0 x H0 T0 X Hn)|]. apply X; [now right|exact Hn].
Qed.
Lemma M_give t d c x c' : ~ gradient_node d -> ~ hname x -> M d c -> give_attr t x c = Ok c' -> M d c'.
Proof.
  intros Ng Nh H E. unfold give_attr in E. destruct (a_name x) as [a|n] eqn:En; [|injection E as <-; exact H]. cbv zeta in E.
  assert (Na : a <> AXlinkHref) by (intros ->; now apply Nh). assert (P : M d (with_attrs c (put_attr (attrs c) x))).
  { apply M_with; [exact H|]. assert (Q : forall y, In y (put_attr (attrs c) x) -> In y (attrs c) \/ y = x).
    { intros y. unfold put_attr. destruct (existsb _ _); [|intros Hy; apply in_app_or in Hy; destruct Hy as [Hy|[<-|[]]]; auto]. intros Hy. apply in_map_iff in Hy. destruct Hy as (z & <- & Hz). destruct (has_name _ _); auto. }
    intros y Hy. destruct (Q y Hy) as [X| ->]; [now left|right]. split; [intros G; contradiction|auto]. }
  destruct (_ && _). { destruct (a_val x); try discriminate. destruct (d_get c a) as [[]|]; try discriminate. injection E as <-. apply M_set; auto. intros G; contradiction. }
  destruct (_ && _). { injection E as <-. destruct (a_val x); auto. destruct (d_get c a) as [[]|]; auto. apply M_map_value; auto. intros G; contradiction. }
  assert (Q : (if put_ok t c x then Ok (with_attrs c (put_attr (attrs c) x)) else Panic) = Ok c' -> M d c') by (destruct (put_ok _ _ _); intros X; [injection X as <-; exact P|discriminate]).
  destruct (aid_eqb a ADisplay); [auto|]. destruct (d_has c a); [injection E as <-; exact H|auto].
Qed.
Lemma M_gives t d l : ~ gradient_node d -> (forall x, In x l -> ~ hname x) -> forall c c', M d c -> give_attrs t l c = Ok c' -> M d c'.
Proof.
  intros Ng. unfold give_attrs. induction l as [|x l IH]; intros Nh c c' H E; [cbn in E; injection E as <-; exact H|]. cbn [fold_left bind] in E. destruct (give_attr t x c) as [c1|e|] eqn:E1.
  - apply (IH (fun y Hy => Nh y (or_intror Hy)) c1 c'); [|exact E]. exact (M_give t d c x c1 Ng (Nh x (or_introl eq_refl)) H E1).
  - exfalso. clear - E. induction l; cbn in E; [discriminate|auto].
  - exfalso. clear - E. induction l; cbn in E; [discriminate|auto].
Qed.
Lemma M_give_all t l : (forall x, In x l -> ~ hname x) -> forall ch ch', (forall c, In c ch -> ~ gradient_node (data c)) -> give_all t l ch = Ok ch' -> forall c', In c' ch' -> exists c, In c ch /\ M (data c) (data c') /\ kids c' = kids c.
Proof.
  intros Nh. induction ch as [|c ch IH]; intros ch' G E c' Hc; cbn in E; [injection E as <-; destruct Hc|]. apply bind_ok in E. destruct E as (d & E1 & E). apply bind_ok in E. destruct E as (r & E2 & E). injection E as <-. destruct Hc as [<-|Hc].
  - exists c. split; [now left|]. split; [|reflexivity]. exact (M_gives t (data c) l (G c (or_introl eq_refl)) Nh _ _ (M_refl _) E1).
  - destruct (IH r (fun x Hx => G x (or_intror Hx)) E2 c' Hc) as (x & A & B). exists x. split; [now right|exact B].
Qed.
Lemma below_lift t s ch : NoDup (keys t) -> In s (subs t) -> (forall c', In c' ch -> exists c, In c (kids s) /\ M (data c) (data c') /\ kids c' = kids c) -> below t (lift (root_key s) ch t).
Proof.
  intros ND Hs C u' Hu. unfold lift in *. set (h := fun c : tree => if Nat.eqb (root_key c) (root_key s) then Some (T (data c) [] :: ch) else None) in *.
  assert (Rp : forall u r l x, In u (subs t) -> In r (reps h u) -> h r = Some l -> In x l -> In s (subs u) /\ (x = T (data s) [] \/ In x ch)).
  { intros u r l x Hu0 Hr El Hx. apply reps_spec in Hr. destruct Hr as [Hr _]. unfold h in El. destruct (Nat.eqb_spec (root_key r) (root_key s)) as [E|]; [|discriminate]. injection El as <-. apply in_sub_flat in Hr. assert (r = s) by (apply (sub_unique t); auto; exact (subs_trans t u r Hu0 Hr)). subst r. split; [exact Hr|]. destruct Hx as [<-|Hx]; auto. }
  assert (Kc : forall x, In x ch -> exists c, In c (kids s) /\ M (data c) (data x) /\ kids x = kids c /\ incl (keys x) (keys c)).
  { intros x Hx. destruct (C x Hx) as (c & Hc & Mc & Kc). exists c. repeat (split; [assumption|]). rewrite (keys_kids x), (keys_kids c), Kc. unfold root_key. rewrite (M_key _ _ Mc). intros z Hz; exact Hz. }
  apply subs_img in Hu. destruct Hu as [(u & Hu & -> & _)|(r & l & x & Hr & El & Hx & Hu)].
  - exists u. split; [exact Hu|]. rewrite data_img. split; [apply M_refl|]. intros k Hk. unfold keys in Hk. apply in_map_iff in Hk. destruct Hk as (d & <- & Hd). apply flat_img in Hd. destruct Hd as [Hd|(r & l & x & Hr & El & Hx & Hd)]; [now apply in_map|].
    destruct (Rp u r l x Hu Hr El Hx) as [Hsu [->|Hc]].
    + destruct Hd as [<-|[]]. apply key_in_sub. exact Hsu.
    + destruct (Kc x Hc) as (c & Hc1 & _ & _ & I). assert (X : In (key d) (keys c)) by (apply I, in_map, Hd). apply sub_of_key in X. destruct X as (z & Hz & <-). apply key_in_sub. apply (subs_trans u s); [exact Hsu|]. exact (subs_trans s c z (kid_in s c Hc1) Hz).
  - destruct (Rp t r l x (subs_self t) Hr El Hx) as [_ [->|Hc]].
    + destruct Hu as [<-|[]]. exists s. split; [exact Hs|]. split; [apply M_refl|]. intros k [<-|[]]. apply key_in_sub, subs_self.
    + destruct (Kc x Hc) as (c & Hc1 & Mc & Kk & I). assert (Hct : In c (subs t)) by (exact (subs_trans t s c Hs (kid_in s c Hc1))). destruct x as [dx cx]. cbn [kids data] in *. destruct Hu as [<-|Hu].
      * exists c. auto.
      * exists u'. split; [|split; [apply M_refl|intros z Hz; exact Hz]]. apply (subs_trans t c); [exact Hct|]. destruct c as [dc cc]. cbn in Kk. subst cx. now right.
Qed.
Lemma below_push m s t : below t (push_ts m s t).
Proof. apply below_shr. apply shr_tmap. intros d _. destruct (Nat.eqb _ _); [apply M_rm, M_refl|]. destruct (existsb _ _); [|apply M_refl]. unfold add_ts. apply M_set; [apply M_refl|discriminate|]. intros _. repeat split; discriminate. Qed.
Lemma below_prep_one o t k r : prep_one o t k = Ok r -> below t (fst r).
Proof.
  intros E. unfold prep_one in E. destruct (find_sub k t) as [s|]; [|injection E as <-; apply below_refl]. destruct (ancestors k [] t); [|injection E as <-; apply below_refl]. destruct (_ && _); [|injection E as <-; apply below_refl].
  apply bind_ok in E. destruct E as (b & _ & E). destruct (_ || _); [injection E as <-; apply below_refl|]. apply bind_ok in E. destruct E as (ok & _ & E). destruct ok; [|injection E as <-; apply below_refl]. destruct (d_get _ _) as [[]|]; try discriminate. injection E as <-. apply below_push.
Qed.
Lemma below_prepare o self rec p t t' : prepare o self rec p t = Ok t' -> below t t'.
Proof.
  intros E. unfold prepare in E. destruct (valid_elems o); [injection E as <-; apply below_refl|]. destruct (find_sub p t) as [s|]; [|injection E as <-; apply below_refl]. revert E. generalize (if self then keys s else tl (keys s)). intros ks. revert t. induction ks as [|k ks IH]; intros t E; cbn in E; [injection E as <-; apply below_refl|].
  apply bind_ok in E. destruct E as (r & E1 & E). apply below_prep_one in E1. destruct (_ && _); [injection E as <-; exact E1|]. exact (below_trans _ _ _ E1 (IH _ E)).
Qed.
Lemma below_ungroup_one o self t p g t' s : fine t -> nest t -> plain_g t -> find_sub g t = Some s -> is_tag EG (data s) = true -> ungroup_one o self t p g = Ok t' -> below t t'.
Proof.
  intros F N G Es Ts E. unfold ungroup_one in E. rewrite Es in E. apply bind_ok in E. destruct E as (ch & E1 & E). apply find_sub_some in Es. destruct Es as [Hs <-]. apply is_tag_tag in Ts.
  apply below_trans with (2 := below_prepare _ _ _ _ _ _ E). apply below_trans with (2 := below_remove _ _). apply below_lift; [exact (fine_nodup t F)|exact Hs|].
  intros c' Hc'. refine (M_give_all t _ _ _ _ _ E1 c' Hc').
  - intros x Hx. exact (G (data s) x (data_of_sub _ _ Hs) Ts Hx).
  - intros c Hc Gc. assert (Hct : In c (subs t)) by (exact (subs_trans t s c Hs (kid_in s c Hc))). destruct (N (data c) (data s) (data_of_sub _ _ Hct) (data_of_sub _ _ Hs) Gc) as [X|(_ & X & _)]; [exists s; split; [exact Hs|]; split; [reflexivity|]; apply key_in_sub; now apply kid_in| |contradiction].
    assert (data s = data c) as Q by (apply (data_unique t); auto using data_of_sub; exact (fine_nodup t F)). rewrite <- Q in Gc. unfold gradient_node in Gc. rewrite Ts in Gc. destruct Gc; discriminate.
Qed.
Lemma below_ungroup o self t t' : fine t -> nest t -> plain_g t -> ungroup_groups o self t = Some (Ok t') -> below t t'.
Proof.
  intros F N G E. unfold ungroup_groups in E. destruct (svg_element t) as [s|]; [|discriminate]. destruct (prepare _ _ _ _ t) as [t1| |] eqn:E1; try discriminate. pose proof (fine_prepare _ _ _ _ _ _ F E1) as F1. apply below_prepare in E1. apply below_trans with (1 := E1).
  pose proof (below_desc _ _ E1) as D1. pose proof (nest_desc U _ _ N D1) as N1'. pose proof (plain_g_desc _ _ G D1) as G1. revert E. generalize (List.length (keys t)). intros n. clear N G F E1 D1 t. rename N1' into N1. revert t1 F1 N1 G1. induction n as [|n IH]; intros t F N G E; cbn in E; (destruct (svg_element t) as [v|] eqn:Es; [|discriminate]); (destruct (find_group t v) as [[p g]|] eqn:Eg; [|injection E as <-; apply below_refl]); [discriminate|].
  destruct (ungroup_one o self t p g) as [t1| |] eqn:E1; try discriminate. destruct (find_group_spec _ _ _ _ Eg) as (u & c & Hu & _ & Hc & Kc & Tc). apply svg_sub in Es.
  assert (Hct : In c (subs t)) by (apply (subs_trans t u); [apply (subs_trans t v); [now apply kid_in|exact Hu]|now apply kid_in]).
  assert (Ef : find_sub g t = Some c) by (destruct (find_sub g t) as [c0|] eqn:Q; [apply find_sub_some in Q; f_equal; apply (sub_unique t); [exact (fine_nodup t F)|apply Q|exact Hct|destruct Q; congruence]|apply find_sub_none in Q; exfalso; apply Q; rewrite <- Kc; now apply key_in_sub]).
  pose proof (below_ungroup_one o self t p g t1 c F N G Ef Tc E1) as B. apply below_trans with (1 := B). pose proof (below_desc _ _ B) as D. refine (IH t1 _ (nest_desc U _ _ N D) (plain_g_desc _ _ G D) E). refine (fine_ungroup_one _ _ _ _ _ _ F _ E1).
  intros Q. pose proof (fine_nodup t F) as ND. rewrite keys_kids in ND. inversion ND as [|? ? X _]; subst. apply X. rewrite <- Q. apply find_group_sub in Eg. apply in_flat_map in Eg. destruct Eg as (w & Hw & Kw). apply in_flat_map. exists v. split; [exact Es|]. rewrite keys_kids. right. apply in_flat_map. eauto.
Qed.
End G.
