(** Numbers: Rust's f64 is modelled by exact rationals [Qc] (Leibniz equality), so [FuzzyEq]
    comparisons are exact equality. Rounding error of f64 is not modelled. *)
From Coq Require Import QArith Qcanon Qround Bool ZArith Lia Lqa Setoid.
Local Open Scope Qc_scope.

Definition qeqb (x y : Qc) : bool := Qeq_bool (this x) (this y).
Definition qleb (x y : Qc) : bool := Qle_bool (this x) (this y).
Definition qltb (x y : Qc) : bool := negb (Qle_bool (this y) (this x)).
(** Integer literal. *)
Definition zq (z : Z) : Qc := Q2Qc (inject_Z z).
(** Decimal literal [n / d]. *)
Definition fq (n : Z) (d : positive) : Qc := Q2Qc (n # d).

Lemma qeqb_spec x y : reflect (x = y) (qeqb x y).
Proof.
  unfold qeqb. destruct (Qeq_bool (this x) (this y)) eqn:E; constructor.
  - apply Qc_is_canon. now apply Qeq_bool_eq.
  - intros ->. now rewrite (Qeq_eq_bool (this y) (this y) (Qeq_refl _)) in E.
Qed.
Lemma qeqb_refl x : qeqb x x = true.
Proof. destruct (qeqb_spec x x); congruence. Qed.
Lemma qleb_spec x y : reflect (x <= y) (qleb x y).
Proof.
  unfold qleb. destruct (Qle_bool (this x) (this y)) eqn:E; constructor.
  - now apply Qle_bool_iff.
  - intros H. apply Qle_bool_iff in H. congruence.
Qed.
Lemma qltb_spec x y : reflect (x < y) (qltb x y).
Proof.
  unfold qltb. destruct (Qle_bool (this y) (this x)) eqn:E; constructor.
  - intros H. apply Qle_bool_iff in E. unfold Qclt in H. lra.
  - unfold Qclt. apply Qnot_le_lt. intros H. apply Qle_bool_iff in H. congruence.
Qed.

Lemma this_add x y : (this (x + y) == this x + this y)%Q.
Proof. apply Qred_correct. Qed.
Lemma this_mul x y : (this (x * y) == this x * this y)%Q.
Proof. apply Qred_correct. Qed.
Lemma this_opp x : (this (- x) == - this x)%Q.
Proof. apply Qred_correct. Qed.
Lemma this_sub x y : (this (x - y) == this x - this y)%Q.
Proof. unfold Qcminus. rewrite this_add, this_opp. reflexivity. Qed.
Lemma this_inv x : (this (/ x) == / this x)%Q.
Proof. apply Qred_correct. Qed.
Lemma this_div x y : (this (x / y) == this x / this y)%Q.
Proof. unfold Qcdiv. rewrite this_mul, this_inv. reflexivity. Qed.
Lemma this_Q2Qc q : (this (Q2Qc q) == q)%Q.
Proof. apply Qred_correct. Qed.
Lemma this_zq z : (this (zq z) == inject_Z z)%Q.
Proof. apply Qred_correct. Qed.
Lemma this_fq n d : (this (fq n d) == n # d)%Q.
Proof. apply Qred_correct. Qed.

Lemma Qc_eq_this x y : x = y <-> (this x == this y)%Q.
Proof. split; [now intros -> |apply Qc_is_canon]. Qed.

(** Turn a linear arithmetic problem on [Qc] into one on [Q]. *)
Ltac to_Q :=
  repeat match goal with
  | H : @eq Qc _ _ |- _ => rewrite Qc_eq_this in H
  | H : ~ (@eq Qc _ _) |- _ => rewrite Qc_eq_this in H
  | H : ?x <= ?y |- _ => change (Qle (this x) (this y)) in H
  | H : ?x < ?y |- _ => change (Qlt (this x) (this y)) in H
  | |- @eq Qc _ _ => rewrite Qc_eq_this
  | |- ?x <= ?y => change (Qle (this x) (this y))
  | |- ?x < ?y => change (Qlt (this x) (this y))
  end;
  repeat match goal with
  | H : context [this (?a + ?b)] |- _ => rewrite (this_add a b) in H
  | H : context [this (?a - ?b)] |- _ => rewrite (this_sub a b) in H
  | H : context [this (?a * ?b)] |- _ => rewrite (this_mul a b) in H
  | H : context [this (?a / ?b)] |- _ => rewrite (this_div a b) in H
  | H : context [this (/ ?a)] |- _ => rewrite (this_inv a) in H
  | H : context [this (- ?a)] |- _ => rewrite (this_opp a) in H
  | H : context [this (Q2Qc ?a)] |- _ => rewrite (this_Q2Qc a) in H
  | H : context [this (zq ?a)] |- _ => rewrite (this_zq a) in H
  | H : context [this (fq ?a ?b)] |- _ => rewrite (this_fq a b) in H
  | |- context [this (?a + ?b)] => rewrite (this_add a b)
  | |- context [this (?a - ?b)] => rewrite (this_sub a b)
  | |- context [this (?a * ?b)] => rewrite (this_mul a b)
  | |- context [this (?a / ?b)] => rewrite (this_div a b)
  | |- context [this (/ ?a)] => rewrite (this_inv a)
  | |- context [this (- ?a)] => rewrite (this_opp a)
  | |- context [this (Q2Qc ?a)] => rewrite (this_Q2Qc a)
  | |- context [this (zq ?a)] => rewrite (this_zq a)
  | |- context [this (fq ?a ?b)] => rewrite (this_fq a b)
  end.
Ltac qlra := to_Q; unfold inject_Z in *; lra.
Ltac qnra := to_Q; unfold inject_Z in *; nra.

Lemma qltbP x y : BoolSpec (x < y) (y <= x) (qltb x y).
Proof. destruct (qltb_spec x y) as [H|H]; constructor; [exact H|]. apply Qcnot_lt_le. exact H. Qed.
Lemma qlebP x y : BoolSpec (x <= y) (y < x) (qleb x y).
Proof. destruct (qleb_spec x y) as [H|H]; constructor; [exact H|]. apply Qcnot_le_lt. exact H. Qed.

Definition q0 : Qc := zq 0.
Definition q1 : Qc := zq 1.

Lemma Qc_dec_lt x y : {x < y} + {y <= x}.
Proof. destruct (Qclt_le_dec x y); [left|right]; assumption. Qed.

Example qlra_test x y : x < y -> y <= zq 3 -> x + q1 < zq 4.
Proof. unfold q1. intros. qlra. Qed.
