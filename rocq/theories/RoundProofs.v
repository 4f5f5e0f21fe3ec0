From Coq Require Import List Bool ZArith QArith Qcanon Qround Qabs Lia Lqa.
From Verif Require Import Names Num Value Dom DomFacts Round SpecRound.
Import ListNotations.
Local Open Scope Q_scope.

Lemma Qabs_case_le q b : -b <= q -> q <= b -> Qabs q <= b.
Proof. intros. apply Qabs_case; intros; lra. Qed.
Lemma qround_pos x : 0 <= x -> qround x = Qfloor (x + (1 # 2)).
Proof. intros H. unfold qround. apply Qle_bool_iff in H. now rewrite H. Qed.
Lemma qround_neg x : x < 0 -> qround x = (- Qfloor (- x + (1 # 2)))%Z.
Proof.
  intros H. unfold qround. destruct (Qle_bool 0 x) eqn:E; [|reflexivity]. apply Qle_bool_iff in E. lra.
Qed.
Lemma floor_bounds x : inject_Z (Qfloor x) <= x /\ x < inject_Z (Qfloor x) + 1.
Proof.
  split; [apply Qfloor_le|]. pose proof (Qlt_floor x) as H. rewrite inject_Z_plus in H. exact H.
Qed.
Lemma qround_spec x : let r := inject_Z (qround x) in
  (0 <= x /\ r <= x + (1 # 2) /\ x - (1 # 2) < r) \/ (x < 0 /\ x - (1 # 2) <= r /\ r < x + (1 # 2)).
Proof.
  cbv zeta. destruct (Qlt_le_dec x 0) as [H|H].
  - right. rewrite (qround_neg x H), inject_Z_opp. destruct (floor_bounds (- x + (1 # 2))). repeat split; auto; lra.
  - left. rewrite (qround_pos x H). destruct (floor_bounds (x + (1 # 2))). repeat split; auto; lra.
Qed.
(** Uniqueness: the characterisation determines the integer. *)
Lemma qround_unique x k : 
  ((0 <= x /\ inject_Z k <= x + (1 # 2) /\ x - (1 # 2) < inject_Z k) \/
   (x < 0 /\ x - (1 # 2) <= inject_Z k /\ inject_Z k < x + (1 # 2))) -> k = qround x.
Proof.
  intros H. pose proof (qround_spec x) as K. cbv zeta in K.
  assert (inject_Z k < inject_Z (qround x) + 1 /\ inject_Z (qround x) < inject_Z k + 1) as [A B]
    by (destruct H as [(?&?&?)|(?&?&?)], K as [(?&?&?)|(?&?&?)]; split; lra).
  change 1 with (inject_Z 1) in A, B. rewrite <- inject_Z_plus in A, B. rewrite <- Zlt_Qlt in A, B. lia.
Qed.
Lemma qround_Z k : qround (inject_Z k) = k.
Proof.
  symmetry. apply qround_unique. destruct (Qlt_le_dec (inject_Z k) 0); [right|left]; repeat split; auto; lra.
Qed.
Lemma qround_mono x y : x <= y -> (qround x <= qround y)%Z.
Proof.
  intros H. pose proof (qround_spec x) as K. pose proof (qround_spec y) as L. cbv zeta in K, L.
  destruct (Z_le_gt_dec (qround x) (qround y)) as [|G]; [assumption|exfalso].
  assert (Hg : inject_Z (qround y) + 1 <= inject_Z (qround x)).
  { change 1 with (inject_Z 1). rewrite <- inject_Z_plus, <- Zle_Qle. lia. }
  destruct K as [(?&?&?)|(?&?&?)], L as [(?&?&?)|(?&?&?)]; try lra.
Qed.
Lemma qround_opp x : qround (- x) = (- qround x)%Z.
Proof.
  symmetry. apply qround_unique. rewrite inject_Z_opp. pose proof (qround_spec x) as K. cbv zeta in K.
  destruct K as [(?&?&?)|(?&?&?)]; [|left; repeat split; lra].
  destruct (Qlt_le_dec 0 x); [right; repeat split; lra|].
  assert (E : x == 0) by lra. assert (qround x = 0%Z).
  { symmetry. apply qround_unique. left. rewrite E. change (inject_Z 0) with 0. repeat split; lra. }
  rewrite H2 in *. left. change (inject_Z 0) with 0. repeat split; lra.
Qed.
#[global] Instance qround_comp : Proper (Qeq ==> eq) qround.
Proof.
  intros x y E. apply qround_unique. pose proof (qround_spec x) as K. cbv zeta in K.
  destruct K as [(?&?&?)|(?&?&?)]; [left|right]; repeat split; lra.
Qed.

Lemma pow_vec_nth p : (1 <= p <= 12)%nat -> nth_error pow_vec p = Some (10 ^ Z.of_nat p)%Z.
Proof.
  intros H. do 13 (destruct p as [|p]; [try lia; reflexivity|]). lia.
Qed.
Lemma pow_pos p : 0 < inject_Z (10 ^ Z.of_nat p).
Proof. change 0 with (inject_Z 0). rewrite <- Zlt_Qlt. apply Z.pow_pos_nonneg; lia. Qed.

Lemma round_number_val p n : (1 <= p <= 12)%nat ->
  this (round_number p n) == inject_Z (qround (this n * inject_Z (10 ^ Z.of_nat p))) / inject_Z (10 ^ Z.of_nat p).
Proof. intros H. unfold round_number. rewrite pow_vec_nth by assumption. apply this_Q2Qc. Qed.

Lemma div_scale a b m : 0 < m -> a / m - b == (a - b * m) / m.
Proof. intros H. field. lra. Qed.
Lemma abs_div a m : 0 < m -> Qabs (a / m) == Qabs a / m.
Proof.
  intros H. unfold Qdiv. rewrite Qabs_Qmult. rewrite (Qabs_pos (/ m)); [reflexivity|].
  apply Qlt_le_weak, Qinv_lt_0_compat, H.
Qed.
Lemma div_le a b m : 0 < m -> a <= b -> a / m <= b / m.
Proof. intros H L. apply Qmult_le_compat_r; [exact L|]. apply Qlt_le_weak, Qinv_lt_0_compat, H. Qed.
Lemma div_inj a b m : 0 < m -> a / m == b / m -> a == b.
Proof. intros H E. rewrite <- (Qdiv_mult_l a m) by lra. rewrite <- (Qdiv_mult_l b m) by lra.
  unfold Qdiv in *. rewrite (Qmult_comm a m), (Qmult_comm b m), <- !Qmult_assoc, !(Qmult_comm m).
  rewrite E. reflexivity. Qed.
Lemma div_le_inv a b m : 0 < m -> a / m <= b / m -> a <= b.
Proof.
  intros H L. assert (a / m * m <= b / m * m) by (apply Qmult_le_compat_r; lra).
  rewrite (Qmult_comm (a / m)), (Qmult_comm (b / m)), !Qmult_div_r in H0 by lra. exact H0.
Qed.

Lemma round_number_rounded p n : (1 <= p <= 12)%nat -> rounded p n (round_number p n).
Proof.
  intros Hp. set (m := inject_Z (10 ^ Z.of_nat p)). assert (Hm : 0 < m) by apply pow_pos.
  pose proof (round_number_val p n Hp) as E. fold m in E.
  pose proof (qround_spec (this n * m)) as K. cbv zeta in K.
  set (k := qround (this n * m)) in *.
  assert (Hd : this (round_number p n) - this n == (inject_Z k - this n * m) / m) by (rewrite E; now apply div_scale).
  assert (Hn : this n == this n * m / m) by (field; lra).
  constructor; fold m.
  - exists k. exact E.
  - rewrite Hd, abs_div by exact Hm. apply div_le; [exact Hm|]. apply Qabs_case_le; destruct K as [(?&?&?)|(?&?&?)]; lra.
  - rewrite Hd, abs_div by exact Hm. intros T. apply div_inj in T; [|exact Hm].
    rewrite E, Hn. rewrite !abs_div by exact Hm. apply div_le; [exact Hm|].
    revert T. apply Qabs_case; intros G T; destruct K as [(?&?&?)|(?&?&?)]; try lra.
    + rewrite !Qabs_pos; lra.
    + rewrite !Qabs_neg; lra.
Qed.
Lemma rounded_unique p n r : (1 <= p <= 12)%nat -> rounded p n r -> r = round_number p n.
Proof.
  intros Hp [[k E] Hn Ht]. set (m := inject_Z (10 ^ Z.of_nat p)) in *. assert (Hm : 0 < m) by apply pow_pos.
  apply Qc_is_canon. rewrite (round_number_val p n Hp). fold m. rewrite E.
  enough (k = qround (this n * m)) by (subst; reflexivity). apply qround_unique.
  assert (Hd : this r - this n == (inject_Z k - this n * m) / m) by (rewrite E; now apply div_scale).
  assert (Hnn : this n == this n * m / m) by (field; lra).
  rewrite Hd, abs_div in Hn, Ht by exact Hm. rewrite E in Ht. rewrite Hnn in Ht at 2. rewrite !abs_div in Ht by exact Hm.
  apply div_le_inv in Hn; [|exact Hm]. set (y := this n * m) in *. set (K := inject_Z k) in *.
  assert (Ht' : Qabs (K - y) == 1 # 2 -> Qabs y <= Qabs K).
  { intros T. apply (div_le_inv _ _ m Hm). apply Ht. rewrite T. reflexivity. }
  assert (B : - (1 # 2) <= K - y /\ K - y <= (1 # 2)).
  { revert Hn. apply Qabs_case; intros; lra. }
  destruct (Qlt_le_dec y 0) as [N|N]; [right|left]; (split; [exact N|]).
  - split; [lra|]. destruct (Qlt_le_dec K (y + (1 # 2))) as [L|L]; [exact L|exfalso].
    assert (T : Qabs (K - y) == 1 # 2) by (rewrite Qabs_pos; lra). specialize (Ht' T).
    rewrite (Qabs_neg y) in Ht' by lra.
    revert Ht'. apply Qabs_case; intros; try lra.
    (* y in [-1/2,0), K = y + 1/2 in [0,1/2): K = 0 *)
    assert (K < 1) by lra. assert (Kz : k = 0%Z).
    { unfold K in *. change 1 with (inject_Z 1) in H0. change 0 with (inject_Z 0) in H. rewrite <- Zlt_Qlt in H0. rewrite <- Zle_Qle in H. lia. }
    assert (K0 : K == 0) by (unfold K; rewrite Kz; reflexivity). lra.
  - split; [lra|]. destruct (Qlt_le_dec (y - (1 # 2)) K) as [L|L]; [exact L|exfalso].
    assert (T : Qabs (K - y) == 1 # 2) by (rewrite Qabs_neg; lra). specialize (Ht' T).
    rewrite (Qabs_pos y) in Ht' by lra.
    revert Ht'. apply Qabs_case; intros; try lra.
    assert (-1 < K) by lra. assert (Kz : k = 0%Z).
    { unfold K in *. change (-1) with (inject_Z (-1)) in H0. change 0 with (inject_Z 0) in H. rewrite <- Zlt_Qlt in H0. rewrite <- Zle_Qle in H. lia. }
    assert (K0 : K == 0) by (unfold K; rewrite Kz; reflexivity). lra.
Qed.
Lemma round_idem p n : (1 <= p <= 12)%nat -> round_number p (round_number p n) = round_number p n.
Proof.
  intros Hp. symmetry. apply rounded_unique; [exact Hp|]. destruct (round_number_rounded p n Hp) as [Hm _ _].
  constructor; [exact Hm| |].
  - assert (Z0 : this (round_number p n) - this (round_number p n) == 0) by ring. rewrite Z0. cbn.
    apply Qle_shift_div_l; [apply pow_pos|]. lra.
  - intros _. apply Qle_refl.
Qed.
Lemma round_mono p x y : (1 <= p <= 12)%nat -> (x <= y)%Qc -> (round_number p x <= round_number p y)%Qc.
Proof.
  intros Hp H. unfold Qcle in *. rewrite !round_number_val by assumption. apply div_le; [apply pow_pos|].
  rewrite <- Zle_Qle. apply qround_mono. apply Qmult_le_compat_r; [exact H|]. apply Qlt_le_weak, pow_pos.
Qed.
Lemma round_opp p x : (1 <= p <= 12)%nat -> round_number p (- x)%Qc = (- round_number p x)%Qc.
Proof.
  intros Hp. apply Qc_is_canon. rewrite this_opp, !round_number_val by assumption.
  assert (E : this (- x)%Qc * inject_Z (10 ^ Z.of_nat p) == - (this x * inject_Z (10 ^ Z.of_nat p))) by (rewrite this_opp; ring).
  rewrite E, qround_opp, inject_Z_opp. unfold Qdiv. ring.
Qed.
Lemma round_zero p : round_number p q0 = q0.
Proof.
  unfold round_number. destruct (nth_error pow_vec p) as [m|]; [|reflexivity].
  apply Qc_is_canon. rewrite this_Q2Qc. change (this q0) with 0. 
  assert (E : 0 * inject_Z m == inject_Z 0) by (cbn; ring). rewrite E, qround_Z. unfold Qdiv. rewrite Qmult_0_l. reflexivity.
Qed.
