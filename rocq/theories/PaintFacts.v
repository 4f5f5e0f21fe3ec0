(** Facts about [paint] and [same]. *)
From Coq Require Import List Bool NArith Arith ZArith String QArith Qcanon Lia.
From Verif Require Import Names Num Value Dom DomFacts DomOps SpecStyle SpecText SpecPaint.
Import ListNotations.
Local Open Scope nat_scope.

Scheme paint_mut := Induction for paint Sort Prop
  with paints_mut := Induction for paints Sort Prop
  with choices_mut := Induction for choices Sort Prop.
Combined Scheme paint_all from paint_mut, paints_mut, choices_mut.

Lemma shape_not_group d : shape_el d -> ~ group_el d.
Proof. intros (e & E & I) [H|H]; rewrite E in H; inversion H; subst; cbn in I; intuition discriminate. Qed.
Lemma shape_not e d : shape_el d -> In e [EG; EA; ESwitch; ESvg; EUse] -> tag d <> TEl e.
Proof. intros (e' & E & I) J H. rewrite E in H. inversion H; subst. cbn in I, J. intuition (subst; discriminate). Qed.
Lemma group_not e d : group_el d -> In e [ESwitch; ESvg; EUse] -> tag d <> TEl e.
Proof. intros [E|E] J H; rewrite E in H; inversion H; subst; cbn in J; intuition discriminate. Qed.
Lemma painted_shape d : shape_el d -> painted_el d. Proof. intros; now left. Qed.
Lemma painted_group d : group_el d -> painted_el d. Proof. intros; right; now left. Qed.
Lemma painted_switch d : tag d = TEl ESwitch -> painted_el d. Proof. intros; right; right; now left. Qed.
Lemma painted_svg d : tag d = TEl ESvg -> painted_el d. Proof. intros; right; right; right; now left. Qed.
Lemma painted_use d : tag d = TEl EUse -> painted_el d. Proof. intros; right; right; right; now right. Qed.
#[export] Hint Resolve painted_shape painted_group painted_switch painted_svg painted_use : paint.

Lemma displayed_dec d : {displayed d} + {~ displayed d}.
Proof.
  unfold displayed. destruct (d_get d ADisplay) as [v|]; [|left; discriminate].
  destruct v; try (left; discriminate). destruct v; try (left; discriminate). right. intros H. now apply H.
Qed.
Lemma displayed_get d : ~ displayed d <-> d_get d ADisplay = Some (VPre Vid_none).
Proof. unfold displayed. split; [|intros H X; now apply X]. intros H. destruct (d_get d ADisplay) as [v|]; [|destruct H; discriminate]. destruct v; try (destruct H; discriminate). destruct v; try (destruct H; discriminate). reflexivity. Qed.

Ltac kinds :=
  match goal with
  | H1 : shape_el ?d, H2 : group_el ?d |- _ => destruct (shape_not_group d H1 H2)
  | H1 : shape_el ?d, H2 : tag ?d = TEl ?e |- _ => destruct (shape_not e d H1 ltac:(cbn; tauto) H2)
  | H1 : group_el ?d, H2 : tag ?d = TEl ?e |- _ => destruct (group_not e d H1 ltac:(cbn; tauto) H2)
  | H1 : tag ?d = TEl ?e, H2 : tag ?d = TEl ?f |- _ => rewrite H1 in H2; discriminate H2
  end.

Section Unique.
  Variable uu : aid -> len -> Qc.
  Variable t : tree.
  Hypothesis N : NoDup (keys t).
  Lemma hidden_no d : ~ painted_el d \/ ~ displayed d -> painted_el d -> displayed d -> False. Proof. tauto. Qed.
  Ltac no_hidden :=
    match goal with
    | H : ~ painted_el (data (Dom.T ?d ?c)) \/ _ |- _ => cbn [data] in H
    | H : ~ painted_el ?d \/ ~ displayed ?d, D : displayed ?d |- _ => exfalso; apply (hidden_no d H); [auto with paint|exact D]
    end.
  Ltac absent := match goal with H : forall s, In s (subs t) -> _ <> _, H1 : In ?s (subs t) |- _ => exfalso; eapply (H s H1); eauto; congruence end.
  Ltac viewed := match goal with H : _ \/ _ /\ _ |- _ => destruct H as [X|[X Y]]; [congruence|contradiction] end.
  Lemma paint_unique :
    (forall m anc s l, paint uu t m anc s l -> forall l', paint uu t m anc s l' -> l = l') /\
    (forall m anc s l, paints uu t m anc s l -> forall l', paints uu t m anc s l' -> l = l') /\
    (forall m anc s l, choices uu t m anc s l -> forall l', choices uu t m anc s l' -> l = l').
  Proof.
    apply paint_all.
    - intros m anc s H l' P. inversion P; subst; repeat no_hidden; reflexivity.
    - intros m anc d ch S D l' P. inversion P; subst; repeat no_hidden; try kinds; reflexivity.
    - intros m anc d ch l G D P IH l' P'. inversion P'; subst; repeat no_hidden; try kinds. erewrite IH; eauto.
    - intros m anc d ch l G D P IH l' P'. inversion P'; subst; repeat no_hidden; try kinds. erewrite IH; eauto.
    - intros m anc d ch l G D P IH l' P'. inversion P'; subst; repeat no_hidden; try kinds. erewrite IH; eauto.
    - intros m anc d ch s l G D E Hs T1 T2 P IH l' P'. inversion P'; subst; repeat no_hidden; try kinds.
      + assert (s0 = s) by (apply (sub_unique t); auto; congruence). subst s0. erewrite IH; eauto.
      + assert (s0 = s) by (apply (sub_unique t); auto; congruence). subst s0. viewed.
      + assert (s0 = s) by (apply (sub_unique t); auto; congruence). subst s0. contradiction.
      + absent.
    - intros m anc d ch s l G D E Hs T1 P IH l' P'. inversion P'; subst; repeat no_hidden; try kinds.
      + assert (s0 = s) by (apply (sub_unique t); auto; congruence). subst s0. destruct T1 as [X|[X _]]; contradiction.
      + assert (s0 = s) by (apply (sub_unique t); auto; congruence). subst s0. erewrite IH; eauto.
      + assert (s0 = s) by (apply (sub_unique t); auto; congruence). subst s0. destruct T1 as [X|[_ X]]; [congruence|contradiction].
      + absent.
    - intros m anc d ch s G D E Hs T1 T2 l' P'. inversion P'; subst; repeat no_hidden; try kinds.
      + assert (s0 = s) by (apply (sub_unique t); auto; congruence). subst s0. contradiction.
      + assert (s0 = s) by (apply (sub_unique t); auto; congruence). subst s0. viewed.
      + reflexivity.
      + absent.
    - intros m anc d ch G D E l' P'. inversion P'; subst; repeat no_hidden; try kinds; try reflexivity; exfalso; eapply E; eauto.
    - intros m anc l' P. inversion P. reflexivity.
    - intros m anc s l p q _ IH1 _ IH2 l' P. inversion P; subst. f_equal; [apply IH1|apply IH2]; assumption.
    - intros m anc l' P. inversion P. reflexivity.
    - intros m anc s l q E _ IH l' P. inversion P; subst; [auto|contradiction].
    - intros m anc s l p q E _ IH1 _ IH2 l' P. inversion P; subst; [contradiction|]. f_equal; [f_equal; apply IH1|apply IH2]; assumption.
  Qed.
End Unique.
(** A document has at most one picture. *)
Lemma picture_unique uu t l l' : NoDup (keys t) -> picture uu t l -> picture uu t l' -> l = l'.
Proof. intros N (s & E & P) (s' & E' & P'). assert (s' = s) by congruence. subst s'. exact (proj1 (paint_unique uu t N) _ _ _ _ P _ P'). Qed.

(** Lists. *)
Lemma paints_app uu t m anc l1 : forall l2 p1 p2, paints uu t m anc l1 p1 -> paints uu t m anc l2 p2 -> paints uu t m anc (l1 ++ l2) (p1 ++ p2).
Proof. induction l1 as [|s l1 IH]; intros l2 p1 p2 H1 H2; inversion H1; subst; cbn; [exact H2|]. rewrite <- app_assoc. constructor; eauto. Qed.
Lemma paints_one uu t m anc s p : paint uu t m anc s p -> paints uu t m anc [s] p.
Proof. intros H. rewrite <- (app_nil_r p). constructor; [exact H|constructor]. Qed.
Lemma paints_one_inv uu t m anc s p : paints uu t m anc [s] p -> paint uu t m anc s p.
Proof. intros H. inversion H; subst. inversion H6; subst. now rewrite app_nil_r. Qed.

(** Transforms. *)
Lemma t_eq a b c d e f a' b' c' d' e' f' : a = a' -> b = b' -> c = c' -> d = d' -> e = e' -> f = f' -> Tr a b c d e f = Tr a' b' c' d' e' f'.
Proof. congruence. Qed.
Lemma t_mul_assoc a b c : t_mul a (t_mul b c) = t_mul (t_mul a b) c.
Proof. unfold t_mul. cbn [ta tb tc td te tf]. apply t_eq; ring. Qed.
Lemma t_mul_id_l a : t_mul t_id a = a.
Proof. destruct a as [x1 x2 x3 x4 x5 x6]. unfold t_mul, t_id. cbn [ta tb tc td te tf]. change q0 with 0%Qc. change q1 with 1%Qc. apply t_eq; ring. Qed.
Lemma t_mul_id_r a : t_mul a t_id = a.
Proof. destruct a as [x1 x2 x3 x4 x5 x6]. unfold t_mul, t_id. cbn [ta tb tc td te tf]. change q0 with 0%Qc. change q1 with 1%Qc. apply t_eq; ring. Qed.
Lemma t_shift_0 : t_shift q0 q0 = t_id. Proof. reflexivity. Qed.

(** Attributes. *)
Lemma same_style_refl c : same_style c c. Proof. intros a _. reflexivity. Qed.
Lemma same_style_sym c c' : same_style c c' -> same_style c' c. Proof. intros H a I. symmetry. auto. Qed.
Lemma same_style_trans c1 c2 c3 : same_style c1 c2 -> same_style c2 c3 -> same_style c1 c3.
Proof. intros H1 H2 a I. rewrite H1; auto. Qed.
Lemma same_style_cons d c c' : same_style c c' -> same_style (d :: c) (d :: c').
Proof. intros H a I. cbn. destruct (d_get d a); auto. Qed.
Lemma like_refl d : like d d. Proof. repeat split. Qed.
#[export] Hint Resolve same_style_refl same_style_cons like_refl same_refl : paint.
Lemma same_layer_of d m l l' : same l l' -> same [layer d m l] [layer d m l'].
Proof. intros H. apply same_layer; auto. Qed.
Lemma same_cons p l l' : same l l' -> same (p :: l) (p :: l').
Proof. intros H. change (same ([p] ++ l) ([p] ++ l')). apply same_app; [apply same_refl|exact H]. Qed.
Lemma lookup_get d a : lookup (AN a) d = d_get d a.
Proof. unfold lookup, d_get, get_value, get_attr. destruct (find _ _); reflexivity. Qed.
Lemma like_get d d' a : like d d' -> elsewhere (AN a) = false -> d_get d' a = d_get d a.
Proof. intros (_ & _ & _ & H) E. rewrite <- !lookup_get. auto. Qed.
Lemma given_ext d d' l : (forall a, In a l -> d_get d' a = d_get d a) -> given d' l = given d l.
Proof. intros H. unfold given. induction l as [|a l IH]; [reflexivity|]. cbn. rewrite H by now left. rewrite IH; [reflexivity|]. intros b Hb. apply H. now right. Qed.
Lemma given_none d l : (forall a, In a l -> d_get d a = None) -> given d l = [].
Proof. intros H. unfold given. induction l as [|a l IH]; [reflexivity|]. cbn. rewrite H by now left. apply IH. intros b Hb. apply H. now right. Qed.
