(** A cubic curve whose control points lie between its ends is the line between its ends. *)
From Coq Require Import QArith Qcanon Qreals Reals Lra Psatz.
From Verif Require Import Num SpecPath SpecCurve.
Local Open Scope R_scope.

Lemma real_add x y : real (x + y)%Qc = real x + real y.
Proof. unfold real. rewrite (Qeq_eqR _ _ (this_add x y)). apply Q2R_plus. Qed.
Lemma real_sub x y : real (x - y)%Qc = real x - real y.
Proof. unfold real. rewrite (Qeq_eqR _ _ (this_sub x y)). apply Q2R_minus. Qed.
Lemma real_mul x y : real (x * y)%Qc = real x * real y.
Proof. unfold real. rewrite (Qeq_eqR _ _ (this_mul x y)). apply Q2R_mult. Qed.
Lemma real_le x y : (x <= y)%Qc -> real x <= real y.
Proof. intros H. apply Qle_Rle. exact H. Qed.
Lemma real_0 : real q0 = 0.
Proof. unfold real. cbn. lra. Qed.
Lemma real_1 : real q1 = 1.
Proof. unfold real. cbn. unfold Q2R. cbn. lra. Qed.

(** The Bernstein polynomial of the parameters. *)
Definition bern (u v t : R) : R := 3 * (1 - t) ^ 2 * t * u + 3 * (1 - t) * t ^ 2 * v + t ^ 3.
Lemma bezier_between p d u v t : bezier t p (p + u * d) (p + v * d) (p + d) = p + bern u v t * d.
Proof. unfold bezier, bern. ring. Qed.
Lemma bern_range u v t : 0 <= u <= 1 -> 0 <= v <= 1 -> 0 <= t <= 1 -> 0 <= bern u v t <= 1.
Proof.
  intros Hu Hv Ht. unfold bern.
  assert (A : 0 <= (1 - t) ^ 2 * t) by (apply Rmult_le_pos; [apply pow2_ge_0|lra]).
  assert (B : 0 <= (1 - t) * t ^ 2) by (apply Rmult_le_pos; [lra|apply pow2_ge_0]).
  assert (C : 0 <= t ^ 3) by (apply pow_le; lra).
  assert (D : 0 <= (1 - t) ^ 3) by (apply pow_le; lra).
  assert (E : (1 - t) ^ 3 + 3 * ((1 - t) ^ 2 * t) + 3 * ((1 - t) * t ^ 2) + t ^ 3 = 1) by ring.
  assert (F : 0 <= (1 - t) ^ 2 * t * u <= (1 - t) ^ 2 * t * 1).
  { split; [apply Rmult_le_pos; lra|apply Rmult_le_compat_l; lra]. }
  assert (G : 0 <= (1 - t) * t ^ 2 * v <= (1 - t) * t ^ 2 * 1).
  { split; [apply Rmult_le_pos; lra|apply Rmult_le_compat_l; lra]. }
  lra.
Qed.
Lemma bern_onto u v w : 0 <= w <= 1 -> exists t, 0 <= t <= 1 /\ bern u v t = w.
Proof.
  intros Hw.
  destruct (Req_dec w 0) as [->|H0]; [exists 0; split; [lra|unfold bern; ring]|].
  destruct (Req_dec w 1) as [->|H1]; [exists 1; split; [lra|unfold bern; ring]|].
  assert (Hc : continuity (fun t => bern u v t - w)).
  { unfold bern. apply derivable_continuous. reg. }
  destruct (IVT (fun t => bern u v t - w) 0 1 Hc) as (t & Ht & E); try lra.
  - unfold bern. ring_simplify. lra.
  - unfold bern. ring_simplify. lra.
  - exists t. split; [lra|lra].
Qed.
Theorem cubic_between_is_segment a c1 c2 b : between a b c1 -> between a b c2 ->
  forall X Y, on_cubic a c1 c2 b X Y <-> on_segment a b X Y.
Proof.
  intros (u & Hu0 & Hu1 & ->) (v & Hv0 & Hv1 & ->) X Y.
  apply real_le in Hu0, Hu1, Hv0, Hv1. rewrite real_0 in *. rewrite real_1 in *.
  unfold on_cubic, on_segment. cbn [fst snd]. rewrite !real_add, !real_mul, !real_sub.
  set (x0 := real (fst a)). set (x1 := real (fst b)). set (y0 := real (snd a)). set (y1 := real (snd b)).
  assert (Hb : forall p q t, bezier t p (p + real u * (q - p)) (p + real v * (q - p)) q = p + bern (real u) (real v) t * (q - p)).
  { intros p q t. rewrite <- bezier_between. f_equal. ring. }
  split.
  - intros (t & Ht & -> & ->). exists (bern (real u) (real v) t).
    split; [apply bern_range; lra|]. rewrite !Hb. split; ring.
  - intros (w & Hw & -> & ->). destruct (bern_onto (real u) (real v) w Hw) as (t & Ht & E).
    exists t. rewrite !Hb, E. split; [exact Ht|]. split; ring.
Qed.
