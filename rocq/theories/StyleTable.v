(** What the table of group_by_style contains. *)
From Coq Require Import List Bool NArith Arith ZArith String Lia QArith Qcanon Permutation.
From Verif Require Import Names Num Value Dom DomFacts Outcome Stops Shapes Transforms Move Regroup ResolveUse GroupStyle.
Import ListNotations.
Local Open Scope nat_scope.

Lemma attr_eqb_iff x y : attr_eqb x y = true <-> x = y.
Proof.
  unfold attr_eqb. rewrite !andb_true_iff. split.
  - intros [[A B] C]. apply has_name_true in A. destruct (value_eqb_spec (a_val x) (a_val y)) as [V|]; [|discriminate]. apply Bool.eqb_prop in C. destruct x, y; cbn in *; congruence.
  - intros <-. split; [split|]; [now apply has_name_true|destruct (value_eqb_spec (a_val x) (a_val x)); congruence|apply Bool.eqb_reflx].
Qed.
Lemma existsb_attr x l : existsb (fun y => attr_eqb y x) l = true <-> In x l.
Proof. rewrite existsb_exists. split; [intros (y & H & E); apply attr_eqb_iff in E; now subst|intros H; exists x; split; [exact H|now apply attr_eqb_iff]]. Qed.

(** ** The columns *)
(** What a row of the table says about the children [cs]. *)
Record row_ok (cand : attr -> Prop) (cs : list ndata) (r : row) : Prop := {
  ro_len : List.length (r_flags r) = List.length cs;
  ro_nodup : NoDup (r_attrs r);
  ro_cand : forall x, In x (r_attrs r) -> cand x;
  ro_set : forall i c, nth_error cs i = Some c -> nth_error (r_flags r) i = Some true -> incl (r_attrs r) (attrs c)
}.
Lemma nth_repeat {A} (x : A) n i y : nth_error (repeat x n) i = Some y -> y = x.
Proof. intros H. apply nth_error_In in H. now apply repeat_spec in H. Qed.
Lemma repeat_nth {A} (x : A) n i : i < n -> nth_error (repeat x n) i = Some x.
Proof. intros H. destruct (nth_error (repeat x n) i) eqn:E; [f_equal; now apply nth_repeat in E|]. apply nth_error_None in E. rewrite repeat_length in E. lia. Qed.
Lemma clear_length f : forall n, List.length (clear_short n f) = n + List.length f.
Proof. induction f as [|[|] f IH]; intros n; cbn; [rewrite repeat_length; lia|rewrite IH; lia|]. rewrite app_length, repeat_length. cbn. rewrite IH. lia. Qed.
(** Flags are only cleared. *)
Lemma clear_nth f : forall n i, nth_error (clear_short n f) i = Some true -> nth_error (repeat true n ++ f) i = Some true.
Proof.
  induction f as [|[|] f IH]; intros n i; cbn [clear_short].
  - now rewrite app_nil_r.
  - intros H. apply IH in H. change (repeat true (S n)) with (true :: repeat true n) in H. assert (E : true :: repeat true n = repeat true n ++ [true]) by (clear; induction n; cbn; [reflexivity|now f_equal]). rewrite E in H. now rewrite <- app_assoc in H.
  - intros H. destruct (Nat.lt_ge_cases i n) as [L|L].
    + rewrite nth_error_app1 by (rewrite repeat_length; exact L). now apply repeat_nth.
    + rewrite nth_error_app2 in * by (rewrite repeat_length; exact L). rewrite repeat_length in *. destruct (i - n) as [|j]; [discriminate|]. cbn in *. exact (IH 0 j H).
Qed.
Definition rows_ok (cand : attr -> Prop) (cs : list ndata) (l : list row) : Prop :=
  (forall r, In r l -> row_ok cand cs r) /\ NoDup (flat_map r_attrs l).

Lemma nodup_flat_filter {A B} (f : A -> bool) (g : A -> list B) l : NoDup (flat_map g l) -> NoDup (flat_map g (filter f l)).
Proof.
  induction l as [|x l IH]; [auto|]. cbn. intros N. apply NoDup_app_inv in N. destruct N as (N1 & N2 & N3). destruct (f x); [|auto]. cbn. apply NoDup_app_intro; auto. intros y Hy K. apply (N3 y Hy). apply in_flat_map in K. destruct K as (z & Hz & K). apply filter_In in Hz. apply in_flat_map. exists z. tauto.
Qed.
Lemma add_unique_in l x y : In y (add_unique l x) <-> In y l \/ y = x.
Proof. unfold add_unique. destruct (existsb _ l) eqn:E; [apply existsb_attr in E; split; [auto|intros [H| ->]; auto]|]. rewrite in_app_iff. cbn. intuition. Qed.
Lemma add_unique_nodup l x : NoDup l -> NoDup (add_unique l x).
Proof.
  intros N. unfold add_unique. destruct (existsb _ l) eqn:E; [exact N|]. apply NoDup_app_intro; [exact N|constructor; [intros []|constructor]|]. intros y Hy [<-|[]]. apply existsb_attr in Hy. congruence.
Qed.
Lemma unique_fold l : forall acc, NoDup acc -> NoDup (fold_left add_unique l acc) /\ forall x, In x (fold_left add_unique l acc) <-> In x acc \/ In x l.
Proof.
  induction l as [|y l IH]; intros acc N; cbn [fold_left]; [split; [exact N|intros x; cbn; tauto]|]. destruct (IH (add_unique acc y) (add_unique_nodup _ _ N)) as (A & B). split; [exact A|]. intros x. rewrite B, add_unique_in. cbn. intuition.
Qed.
Lemma candidates_ok anc d cs : NoDup (candidates anc d cs) /\ forall x, In x (candidates anc d cs) <-> exists c, In c cs /\ In x (attrs c) /\ candidate anc d c x = true.
Proof.
  destruct (unique_fold (flat_map (fun c => filter (candidate anc d c) (attrs c)) cs) [] (NoDup_nil _)) as (A & B). split; [exact A|]. intros x. unfold candidates. rewrite B, in_flat_map. split.
  - intros [[]|(c & Hc & H)]. apply filter_In in H. exists c. tauto.
  - intros (c & Hc & H1 & H2). right. exists c. split; [exact Hc|]. apply filter_In. auto.
Qed.
Definition cand_of anc d cs (x : attr) : Prop := exists c, In c cs /\ In x (attrs c) /\ candidate anc d c x = true.
Definition rows0 anc d cs : list row := map (fun x => Row [x] (map (fun c => existsb (fun y => attr_eqb y x) (attrs c)) cs)) (candidates anc d cs).
Lemma rows0_ok anc d cs : rows_ok (cand_of anc d cs) cs (rows0 anc d cs) /\ forall r, In r (rows0 anc d cs) -> exists x, r_attrs r = [x].
Proof.
  destruct (candidates_ok anc d cs) as (A & B). split; [split|].
  - intros r Hr. apply in_map_iff in Hr. destruct Hr as (x & <- & Hx). split; cbn.
    + apply map_length.
    + constructor; [intros []|constructor].
    + intros y [<-|[]]. now apply B.
    + intros i c Hc Hf y [<-|[]]. apply (map_nth_error (fun c => existsb (fun y => attr_eqb y x) (attrs c))) in Hc. rewrite Hc in Hf. injection Hf as Hf. now apply existsb_attr in Hf.
  - unfold rows0. rewrite flat_map_concat_map, map_map. cbn. rewrite <- flat_map_concat_map. replace (flat_map (fun x => [x]) (candidates anc d cs)) with (candidates anc d cs); [exact A|]. clear. induction (candidates anc d cs); cbn; congruence.
  - intros r Hr. apply in_map_iff in Hr. destruct Hr as (x & <- & Hx). now exists x.
Qed.
Lemma insert_perm {A} (w : A -> nat) x l : Permutation (insert_desc w x l) (x :: l).
Proof. induction l as [|y l IH]; [reflexivity|]. cbn [insert_desc]. destruct (w x <? w y); [|reflexivity]. eapply Permutation_trans; [apply perm_skip, IH|apply perm_swap]. Qed.
Lemma sort_perm {A} (w : A -> nat) l : Permutation (sort_desc w l) l.
Proof. induction l as [|y l IH]; [reflexivity|]. cbn. eapply Permutation_trans; [apply insert_perm|apply perm_skip, IH]. Qed.
Lemma flags_eqb_true f : forall g, flags_eqb f g = true -> f = g.
Proof. induction f as [|a f IH]; intros [|b g]; cbn; try discriminate; [reflexivity|]. rewrite andb_true_iff. intros [A B]. apply Bool.eqb_prop in A. f_equal; auto. Qed.
Section Join.
  Variable cand : attr -> Prop.
  Variable cs : list ndata.
  Lemma join_from_ok l : forall r, row_ok cand cs r -> (forall x, In x l -> row_ok cand cs x /\ exists y, r_attrs x = [y]) -> NoDup (r_attrs r ++ flat_map r_attrs l) ->
    (forall x, In x (join_from r l) -> row_ok cand cs x) /\ flat_map r_attrs (join_from r l) = r_attrs r ++ flat_map r_attrs l.
  Proof.
    induction l as [|x l IH]; intros r R H N; cbn [join_from].
    - split; [intros y [<-|[]]; exact R|reflexivity].
    - destruct (H x (or_introl eq_refl)) as (Rx & y & Ey). assert (H' : forall x, In x l -> row_ok cand cs x /\ exists y, r_attrs x = [y]) by (intros z Hz; apply H; now right). destruct (flags_eqb _ _) eqn:E.
      + apply flags_eqb_true in E. rewrite Ey. cbn [firstn]. cbn [flat_map] in N. rewrite Ey, app_assoc in N. cbn [flat_map]. rewrite Ey, app_assoc. apply IH; auto. split; cbn.
        * apply (ro_len _ _ _ R).
        * apply NoDup_app_inv in N. tauto.
        * intros z Hz. apply in_app_or in Hz. destruct Hz as [Hz|[<-|[]]]; [now apply (ro_cand _ _ _ R)|apply (ro_cand _ _ _ Rx); rewrite Ey; now left].
        * intros i c Hc Hf z Hz. apply in_app_or in Hz. destruct Hz as [Hz|[<-|[]]]; [now apply (ro_set _ _ _ R i c)|]. rewrite E in Hf. apply (ro_set _ _ _ Rx i c); auto. rewrite Ey. now left.
      + cbn [flat_map] in *. destruct (IH x Rx H') as (A & B). { apply NoDup_app_inv in N. tauto. } split; [intros z [<-|Hz]; auto|]. now rewrite B.
  Qed.
End Join.
Definition rows_before anc d cs := sort_rows (simplify (rows0 anc d cs)).
Lemma before_ok anc d cs : rows_ok (cand_of anc d cs) cs (rows_before anc d cs) /\ forall r, In r (rows_before anc d cs) -> (exists x, r_attrs r = [x]) /\ enough r = true /\ exists f, r_flags r = clear_short 0 f.
Proof.
  destruct (rows0_ok anc d cs) as ((A & B) & C). unfold rows_before, sort_rows, simplify. set (l1 := filter enough (rows0 anc d cs)). set (l2 := map (fun r => Row (r_attrs r) (clear_short 0 (r_flags r))) l1).
  assert (In2 : forall r, In r (sort_desc (fun r => longest 0 (r_flags r)) (filter enough l2)) -> enough r = true /\ exists r0, In r0 (rows0 anc d cs) /\ r = Row (r_attrs r0) (clear_short 0 (r_flags r0))).
  { intros r Hr. apply (Permutation_in _ (sort_perm _ _)) in Hr. apply filter_In in Hr. destruct Hr as (Hr & E). split; [exact E|]. apply in_map_iff in Hr. destruct Hr as (r0 & <- & H0). apply filter_In in H0. exists r0. tauto. }
  split; [split|].
  - intros r Hr. destruct (In2 r Hr) as (_ & r0 & H0 & ->). pose proof (A r0 H0) as R0. split; cbn.
    + rewrite clear_length. apply (ro_len _ _ _ R0).
    + apply (ro_nodup _ _ _ R0).
    + apply (ro_cand _ _ _ R0).
    + intros i c Hc Hf. apply clear_nth in Hf. now apply (ro_set _ _ _ R0 i c).
  - eapply Permutation_NoDup; [apply Permutation_sym, Permutation_flat_map, sort_perm|]. apply nodup_flat_filter. unfold l2. rewrite flat_map_concat_map, map_map. cbn. rewrite <- flat_map_concat_map. apply nodup_flat_filter. exact B.
  - intros r Hr. destruct (In2 r Hr) as (E & r0 & H0 & ->). split; [exact (C r0 H0)|]. split; [exact E|]. exists (r_flags r0). reflexivity.
Qed.
Lemma join_flags l : forall r x, In x (join_from r l) -> r_flags x = r_flags r \/ exists y, In y l /\ r_flags x = r_flags y.
Proof.
  induction l as [|z l IH]; intros r x; cbn [join_from]; [intros [<-|[]]; auto|]. destruct (flags_eqb _ _).
  - intros H. apply IH in H. cbn in H. destruct H as [H|(y & Hy & H)]; [now left|right; exists y; split; [now right|exact H]].
  - intros [<-|H]; [now left|]. apply IH in H. destruct H as [H|(y & Hy & H)]; right; [exists z; split; [now left|exact H]|exists y; split; [now right|exact H]].
Qed.
Lemma table_ok anc d cs : rows_ok (cand_of anc d cs) cs (table anc d cs) /\ forall r, In r (table anc d cs) -> enough r = true /\ exists f, r_flags r = clear_short 0 f.
Proof.
  destruct (before_ok anc d cs) as ((A & B) & C). unfold table. fold (rows0 anc d cs). fold (rows_before anc d cs). destruct (rows_before anc d cs) as [|r l]; [split; [split; [intros r []|constructor]|intros r []]|].
  cbn [join_rows]. destruct (join_from_ok (cand_of anc d cs) cs l r) as (J1 & J2); [apply A; now left|intros x Hx; split; [apply A; now right|apply C; now right]|exact B|]. split; [split; [exact J1|rewrite J2; exact B]|].
  intros x Hx. apply join_flags in Hx. assert (K : forall y, In y (r :: l) -> r_flags x = r_flags y -> enough x = true /\ exists f, r_flags x = clear_short 0 f). { intros y Hy E. destruct (C y Hy) as (_ & H1 & f & H2). unfold enough in *. rewrite E. split; [exact H1|]. exists f. congruence. }
  destruct Hx as [E|(y & Hy & E)]; [apply (K r); auto; now left|apply (K y); auto; now right].
Qed.

(** ** The longest run *)
Lemma count_app a b : count_flags (a ++ b) = count_flags a + count_flags b.
Proof. unfold count_flags. now rewrite filter_app, app_length. Qed.
Lemma count_repeat b n : count_flags (repeat b n) = if b then n else 0.
Proof. unfold count_flags. induction n; cbn; [now destruct b|]. destruct b; cbn; lia. Qed.
Lemma runs_ok f : forall i n s m, n <= i -> In (s, m) (runs i n f) -> i - n <= s /\ 1 <= m /\ forall j, s <= j < s + m -> (i - n <= j < i \/ i <= j /\ nth_error f (j - i) = Some true).
Proof.
  induction f as [|[|] f IH]; intros i n s m L; cbn [runs].
  - destruct (Nat.eqb_spec n 0); [intros []|]. intros [H|[]]. inversion H; subst. split; [lia|split; [lia|]]. intros j Hj. left. lia.
  - intros H. apply IH in H; [|lia]. destruct H as (A & B & C). split; [lia|split; [lia|]]. intros j Hj. destruct (C j Hj) as [K|(K1 & K2)]; [destruct (Nat.eq_dec j i) as [->|Ne]; [right; split; [lia|now rewrite Nat.sub_diag]|left; lia]|right]. split; [lia|]. replace (j - i) with (S (j - S i)) by lia. exact K2.
  - intros H. apply in_app_or in H. destruct H as [H|H].
    + destruct (Nat.eqb_spec n 0); [destruct H|]. destruct H as [H|[]]. inversion H; subst. split; [lia|split; [lia|]]. intros j Hj. left. lia.
    + apply IH in H; [|lia]. destruct H as (A & B & C). split; [lia|split; [lia|]]. intros j Hj. destruct (C j Hj) as [K|(K1 & K2)]; [lia|]. right. split; [lia|]. replace (j - i) with (S (j - S i)) by lia. exact K2.
Qed.
Lemma runs_some f : forall i n, 1 <= n + count_flags f -> runs i n f <> [].
Proof.
  induction f as [|[|] f IH]; intros i n; cbn [runs].
  - cbn. intros L. destruct (Nat.eqb_spec n 0); [lia|discriminate].
  - intros L. apply IH. unfold count_flags in *. cbn in L. lia.
  - intros L. destruct (Nat.eqb_spec n 0) as [->|]; [|discriminate]. cbn [app]. apply IH. unfold count_flags in *. cbn in L. lia.
Qed.
Lemma hd_sorted {A} (w : A -> nat) l x y : hd_error (sort_desc w l) = Some x -> In y l -> w y <= w x.
Proof.
  revert x y. induction l as [|z l IH]; intros x y; [discriminate|]. change (sort_desc w (z :: l)) with (insert_desc w z (sort_desc w l)). destruct (sort_desc w l) as [|u v] eqn:E.
  - intros H [<-|Hy]; cbn in H; inversion H; subst; [lia|]. apply (Permutation_in _ (Permutation_sym (sort_perm w l))) in Hy. rewrite E in Hy. destruct Hy.
  - cbn [insert_desc]. intros H. destruct (Nat.ltb_spec (w z) (w u)) as [L|L]; cbn in H; inversion H; subst; intros [<-|Hy]; try lia; [now apply (IH x y)|]. specialize (IH u y eq_refl Hy). lia.
Qed.
(** In the flags of the table, the runs are long enough: a short run is at the end, and then it is the only one or there is a long one. *)
Lemma runs_count f : forall i n k, n <= i -> (forall s m, In (s, m) (runs i n f) -> m < 2) -> (forall s m, In (s, m) (runs i n f) -> 3 <= m \/ s + m = k) -> i + List.length f = k -> n + count_flags f < 2.
Proof.
  induction f as [|[|] f IH]; intros i n k Ln H1 H2 E; cbn [runs List.length] in *.
  - unfold count_flags. cbn. destruct (Nat.eqb_spec n 0); [lia|]. specialize (H1 (i - n) n (or_introl eq_refl)). lia.
  - specialize (IH (S i) (S n) k ltac:(lia) H1 H2 ltac:(lia)). unfold count_flags in *. cbn. lia.
  - destruct (Nat.eqb_spec n 0) as [->|Nz].
    + cbn [app] in *. specialize (IH (S i) 0 k ltac:(lia) H1 H2 ltac:(lia)). unfold count_flags in *. cbn. lia.
    + specialize (H1 (i - n) n (or_introl eq_refl)). specialize (H2 (i - n) n (or_introl eq_refl)). exfalso. destruct H2; lia.
Qed.
Lemma clear_runs f : forall n i, n <= i -> forall s m, In (s, m) (runs (i - n) 0 (clear_short n f)) -> 3 <= m \/ s + m = i + List.length f.
Proof.
  assert (Rt : forall l n i a, runs i a (repeat true n ++ l) = runs (i + n) (a + n) l).
  { intros l n. induction n as [|n IH]; intros i a; cbn; [now rewrite !Nat.add_0_r|]. rewrite IH. f_equal; lia. }
  assert (Rf : forall l n i, runs i 0 (repeat false n ++ l) = runs (i + n) 0 l).
  { intros l n. induction n as [|n IH]; intros i; cbn; [now rewrite !Nat.add_0_r|]. rewrite IH. f_equal; lia. }
  induction f as [|[|] f IH]; intros n i L s m; cbn [clear_short List.length].
  - pose proof (Rt [] n (i - n) 0) as Z. rewrite app_nil_r in Z. rewrite Z. cbn. destruct (Nat.eqb_spec n 0); [intros []|]. intros [H|[]]. inversion H; subst. right. lia.
  - replace (i - n) with (S i - S n) by lia. intros H. apply IH in H; [|lia]. destruct H; [now left|right; lia].
  - destruct (orb _ _) eqn:B; cbn [negb].
    + rewrite Rf. replace (i - n + n) with i by lia. cbn. intros H. specialize (IH 0 (S i) ltac:(lia) s m). rewrite Nat.sub_0_r in IH. destruct (IH H); [now left|right; lia].
    + rewrite Rt. cbn. replace (i - n + n) with i by lia. intros H. apply in_app_or in H. destruct H as [H|H].
      * apply orb_false_iff in B. destruct B as [B1 B2]. apply Nat.eqb_neq in B1. apply Nat.eqb_neq in B2. destruct (Nat.eqb_spec n 0); [destruct H|]. destruct H as [H|[]]. inversion H; subst. left. lia.
      * specialize (IH 0 (S i) ltac:(lia) s m). rewrite Nat.sub_0_r in IH. destruct (IH H); [now left|right; lia].
Qed.
Lemma longest_range_ok r f : enough r = true -> r_flags r = clear_short 0 f -> exists i n, longest_range (r_flags r) = Some (i, n) /\ 2 <= n /\ i + n <= List.length (r_flags r) /\ forall j, i <= j < i + n -> nth_error (r_flags r) j = Some true.
Proof.
  intros E F. unfold enough in E. apply Nat.leb_le in E. unfold longest_range. destruct (hd_error _) as [[i n]|] eqn:H.
  - exists i, n. split; [reflexivity|]. assert (I : In (i, n) (runs 0 0 (r_flags r))). { apply (Permutation_in _ (sort_perm snd _)). destruct (sort_desc _ _); [discriminate|]. inversion H. now left. }
    destruct (runs_ok _ _ _ _ _ (le_n 0) I) as (A & B & C). assert (C' : forall j, i <= j < i + n -> nth_error (r_flags r) j = Some true). { intros j Hj. destruct (C j Hj) as [K|(_ & K)]; [lia|]. now rewrite Nat.sub_0_r in K. }
    split; [|split; [|exact C']].
    + destruct (Nat.le_gt_cases 2 n) as [L|L]; [exact L|exfalso]. assert (K : 0 + count_flags (r_flags r) < 2); [|cbn in K; lia]. apply (runs_count (r_flags r) 0 0 (List.length (r_flags r))); [apply le_n|..|reflexivity].
      * intros s m Hm. pose proof (hd_sorted snd _ _ (s, m) H Hm) as Z. cbn in Z. lia.
      * intros s m Hm. rewrite F in Hm. pose proof (clear_runs f 0 0 (le_n 0) s m) as Z. cbn in Z. rewrite F, clear_length. cbn. now apply Z.
    + specialize (C' (i + n - 1) ltac:(lia)). assert (i + n - 1 < List.length (r_flags r)); [|lia]. apply nth_error_Some. congruence.
  - exfalso. destruct (runs 0 0 (r_flags r)) as [|x l] eqn:R; [apply (runs_some (r_flags r) 0 0 ltac:(cbn; lia)); exact R|]. destruct (sort_desc snd (x :: l)) eqn:S; [|discriminate]. pose proof (sort_perm snd (x :: l)) as P. rewrite S in P. apply Permutation_nil in P. discriminate.
Qed.
