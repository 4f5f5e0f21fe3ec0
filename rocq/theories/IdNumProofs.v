(** Proofs about the id generator. *)
From Coq Require Import List Bool ZArith Lia Ascii String.
From Verif Require Import IdNum SpecId.
Import ListNotations.
Local Open Scope Z_scope.

(** Reachable digit arrays with the number of ids generated before them. *)
Inductive state : list Z -> Z -> Prop :=
| St1 e : 0 <= e <= 51 -> state [255; 255; 255; 255; e] e
| St2 d e : 0 <= d <= 51 -> 0 <= e <= 61 -> state [255; 255; 255; d; e] (52 + 62 * d + e)
| St3 c d e : 0 <= c <= 51 -> 0 <= d <= 61 -> 0 <= e <= 61 ->
    state [255; 255; c; d; e] (3276 + 3844 * c + 62 * d + e)
| St4 b c d e : 0 <= b <= 51 -> 0 <= c <= 61 -> 0 <= d <= 61 -> 0 <= e <= 61 ->
    state [255; b; c; d; e] (203164 + 238328 * b + 3844 * c + 62 * d + e)
| St5 a b c d e : 0 <= a <= 61 -> 0 <= b <= 61 -> 0 <= c <= 61 -> 0 <= d <= 61 -> 0 <= e <= 51 ->
    state [a; b; c; d; e] (12596220 + 12393056 * a + 199888 * b + 3224 * c + 52 * d + e).

(** The number of ids before the generator panics, and before its first invalid id. *)
Definition capacity : Z := 12596220 + 12393056 * 62.
Definition valid_capacity : Z := 12596220 + 12393056 * 52.

Ltac ev := repeat (cbn [shift set_nth nth orb andb Nat.eqb find];
  match goal with
  | |- context [?x =? ?y] => destruct (Z.eqb_spec x y); [try lia|try lia]
  end).

Lemma step d r : state d r -> 
  match plus_one d with
  | Some d' => state d' (r + 1)
  | None => r = capacity - 1
  end.
Proof.
  intros H. unfold plus_one, find_head, capacity.
  destruct H; cbn [find nth]; ev; cbn [shift set_nth nth orb andb Nat.eqb find]; subst; try lia;
  match goal with
  | |- state [255; 255; 255; 255; ?e] ?r => replace r with e by lia; constructor; lia
  | |- state [255; 255; 255; ?d; ?e] ?r => replace r with (52 + 62 * d + e) by lia; constructor; lia
  | |- state [255; 255; ?c; ?d; ?e] ?r => replace r with (3276 + 3844 * c + 62 * d + e) by lia; constructor; lia
  | |- state [255; ?b; ?c; ?d; ?e] ?r => replace r with (203164 + 238328 * b + 3844 * c + 62 * d + e) by lia; constructor; lia
  | |- state [?a; ?b; ?c; ?d; ?e] ?r => replace r with (12596220 + 12393056 * a + 199888 * b + 3224 * c + 52 * d + e) by lia; constructor; lia
  end.
Qed.

Lemma state_range d r : state d r -> 0 <= r < capacity.
Proof. unfold capacity. intros H; destruct H; lia. Qed.

(** The digit array is determined by its rank. *)
Lemma state_inj d1 d2 r : state d1 r -> state d2 r -> d1 = d2.
Proof.
  intros H1 H2. inversion H1; inversion H2; subst; try lia; repeat f_equal; lia.
Qed.

Lemma num_after_state n : Z.of_nat n < capacity -> exists d, num_after n = Some d /\ state d (Z.of_nat n).
Proof.
  induction n as [|n IH]; intros Hn.
  - exists num_new. split; [reflexivity|]. constructor. lia.
  - destruct IH as (d & E & S); [lia|]. cbn [num_after]. rewrite E.
    pose proof (step d _ S) as St. destruct (plus_one d) as [d'|].
    + exists d'. split; [reflexivity|]. replace (Z.of_nat (Datatypes.S n)) with (Z.of_nat n + 1) by lia. exact St.
    + lia.
Qed.

Lemma num_after_none n : capacity <= Z.of_nat n -> num_after n = None.
Proof.
  assert (G : forall n d r, num_after n = Some d -> r = Z.of_nat n -> state d r).
  { clear n. induction n as [|n IH]; intros d r E R.
    - cbn in E. injection E as <-. subst r. constructor. cbn. lia.
    - cbn [num_after] in E. destruct (num_after n) as [d0|] eqn:E0; [|discriminate].
      pose proof (step d0 _ (IH d0 (Z.of_nat n) eq_refl eq_refl)) as St. rewrite E in St.
      subst r. replace (Z.of_nat (S n)) with (Z.of_nat n + 1) by lia. exact St. }
  intros H. destruct (num_after n) as [d|] eqn:E; [|reflexivity].
  pose proof (state_range _ _ (G n d _ E eq_refl)) as R. lia.
Qed.

(** The digits as a function of the array. *)
Lemma digits_state d r : state d r ->
  (exists p, d = (p ++ num_digits d)%list /\ Forall (fun x => x = 255) p) /\
  Forall (fun x => 0 <= x <= 61) (num_digits d) /\ (1 <= List.length (num_digits d) <= 5)%nat.
Proof.
  intros H. unfold num_digits.
  destruct H; cbn [rev app take_digits]; ev; cbn [take_digits rev app];
    repeat split; try (repeat constructor; lia); cbn [List.length]; try lia.
  - exists [255; 255; 255; 255]. split; [reflexivity|repeat constructor].
  - exists [255; 255; 255]. split; [reflexivity|repeat constructor].
  - exists [255; 255]. split; [reflexivity|repeat constructor].
  - exists [255]. split; [reflexivity|repeat constructor].
  - exists []. split; [reflexivity|repeat constructor].
Qed.

Lemma digits_inj d1 r1 d2 r2 : state d1 r1 -> state d2 r2 -> num_digits d1 = num_digits d2 -> d1 = d2.
Proof.
  intros H1 H2 E.
  destruct (digits_state d1 r1 H1) as ((p1 & E1 & F1) & _).
  destruct (digits_state d2 r2 H2) as ((p2 & E2 & F2) & _).
  assert (L1 : List.length d1 = 5%nat) by (destruct H1; reflexivity).
  assert (L2 : List.length d2 = 5%nat) by (destruct H2; reflexivity).
  rewrite E1, E2, E. f_equal.
  assert (L : List.length p1 = List.length p2).
  { rewrite E1 in L1. rewrite E2 in L2. rewrite app_length in L1, L2. rewrite E in L1. lia. }
  clear - F1 F2 L. revert p2 F2 L. induction F1 as [|x p1 Hx F1 IH]; intros p2 F2 L.
  - destruct p2; [reflexivity|discriminate].
  - destruct F2 as [|y p2 Hy F2]; [discriminate|]. subst. f_equal. apply IH; auto.
Qed.

Definition digit_char (n : Z) : ascii := ascii_of_N (Z.to_N (nth (Z.to_nat n) chars 0)).

Lemma to_string_digits d : num_to_string d = fold_right (fun n s => String (digit_char n) s) EmptyString (num_digits d).
Proof.
  unfold num_to_string, num_to_codes. induction (num_digits d) as [|x l IH]; [reflexivity|].
  cbn [map string_of_codes fold_right]. rewrite IH. reflexivity.
Qed.

Definition dig_range : list Z := zseq 0 62.
Lemma in_dig_range x : 0 <= x <= 61 -> In x dig_range.
Proof.
  intros H. unfold dig_range, zseq. apply in_map_iff. exists (Z.to_nat x). split; [lia|].
  apply in_seq. lia.
Qed.

Lemma digit_char_table :
  forallb (fun x => forallb (fun y => implb (Ascii.eqb (digit_char x) (digit_char y)) (x =? y)) dig_range) dig_range = true.
Proof. vm_compute. reflexivity. Qed.

Lemma digit_char_inj x y : 0 <= x <= 61 -> 0 <= y <= 61 -> digit_char x = digit_char y -> x = y.
Proof.
  intros Hx Hy E. pose proof digit_char_table as T. rewrite forallb_forall in T.
  specialize (T x (in_dig_range x Hx)). rewrite forallb_forall in T. specialize (T y (in_dig_range y Hy)).
  rewrite E, Ascii.eqb_refl in T. cbn in T. now apply Z.eqb_eq in T.
Qed.

Lemma digit_char_valid_table :
  forallb (fun x => (is_letter (digit_char x) || is_digit (digit_char x)) &&
                    Bool.eqb (is_letter (digit_char x)) (x <=? 51)) dig_range = true.
Proof. vm_compute. reflexivity. Qed.
Lemma digit_char_valid x : 0 <= x <= 61 ->
  is_letter (digit_char x) || is_digit (digit_char x) = true /\ is_letter (digit_char x) = (x <=? 51).
Proof.
  intros Hx. pose proof digit_char_valid_table as T. rewrite forallb_forall in T.
  specialize (T x (in_dig_range x Hx)). apply andb_prop in T. destruct T as [A B].
  split; [exact A|]. now apply eqb_prop in B.
Qed.

Lemma string_inj l1 l2 : Forall (fun x => 0 <= x <= 61) l1 -> Forall (fun x => 0 <= x <= 61) l2 ->
  fold_right (fun n s => String (digit_char n) s) EmptyString l1 =
  fold_right (fun n s => String (digit_char n) s) EmptyString l2 -> l1 = l2.
Proof.
  intros F1. revert l2. induction F1 as [|x l1 Hx F1 IH]; intros l2 F2 E.
  - destruct F2; [reflexivity|discriminate].
  - destruct F2 as [|y l2 Hy F2]; [discriminate|]. cbn in E. injection E as E1 E2.
    f_equal; [now apply digit_char_inj|now apply IH].
Qed.

Lemma to_string_inj d1 r1 d2 r2 : state d1 r1 -> state d2 r2 -> num_to_string d1 = num_to_string d2 -> d1 = d2 /\ r1 = r2.
Proof.
  intros H1 H2 E. rewrite !to_string_digits in E.
  destruct (digits_state d1 r1 H1) as (_ & F1 & _). destruct (digits_state d2 r2 H2) as (_ & F2 & _).
  assert (D : d1 = d2) by (eapply digits_inj; eauto using string_inj). split; [exact D|].
  subst. inversion H1; subst; inversion H2; subst; lia.
Qed.

(** The id handed out for the [n]-th renamed element. *)
Definition nth_id (n : nat) : option string := option_map num_to_string (num_after n).

Lemma nth_id_inj i j s : nth_id i = Some s -> nth_id j = Some s -> i = j.
Proof.
  unfold nth_id. intros Hi Hj.
  assert (B : forall n, nth_id n <> None -> Z.of_nat n < capacity).
  { intros n H. destruct (Z_lt_le_dec (Z.of_nat n) capacity); [assumption|].
    unfold nth_id in H. rewrite num_after_none in H by assumption. now contradiction H. }
  destruct (num_after_state i) as (d1 & E1 & S1); [apply B; unfold nth_id; rewrite Hi; discriminate|].
  destruct (num_after_state j) as (d2 & E2 & S2); [apply B; unfold nth_id; rewrite Hj; discriminate|].
  rewrite E1 in Hi. rewrite E2 in Hj. cbn in Hi, Hj. injection Hi as <-. injection Hj as E.
  destruct (to_string_inj d2 _ d1 _ S2 S1 E) as [_ R]. lia.
Qed.

Lemma nth_id_total n : nth_id n <> None <-> Z.of_nat n < capacity.
Proof.
  split.
  - intros H. destruct (Z_lt_le_dec (Z.of_nat n) capacity); [assumption|].
    unfold nth_id in H. rewrite num_after_none in H by assumption. now contradiction H.
  - intros H. destruct (num_after_state n H) as (d & E & _). unfold nth_id. rewrite E. discriminate.
Qed.

Lemma valid_digits l : Forall (fun x => 0 <= x <= 61) l ->
  all_chars (fun c => is_letter c || is_digit c) (fold_right (fun n s => String (digit_char n) s) EmptyString l) = true.
Proof.
  induction 1 as [|x l Hx F IH]; cbn; [reflexivity|].
  now rewrite (proj1 (digit_char_valid x Hx)), IH.
Qed.

Lemma fold_length l : String.length (fold_right (fun n s => String (digit_char n) s) EmptyString l) = List.length l.
Proof. induction l; cbn; auto. Qed.

Lemma valid_id_string c t : valid_id (String c t) = is_letter c && all_chars (fun c => is_letter c || is_digit c) t.
Proof. reflexivity. Qed.

Ltac dig := intros; unfold num_digits; cbn [rev app take_digits];
  repeat (match goal with |- context [?x =? ?y] => destruct (Z.eqb_spec x y); [lia|] end; cbn [take_digits rev app]); reflexivity.
Lemma dig1 e : 0 <= e <= 61 -> num_digits [255; 255; 255; 255; e] = [e].
Proof. dig. Qed.
Lemma dig2 d e : 0 <= d <= 61 -> 0 <= e <= 61 -> num_digits [255; 255; 255; d; e] = [d; e].
Proof. dig. Qed.
Lemma dig3 c d e : 0 <= c <= 61 -> 0 <= d <= 61 -> 0 <= e <= 61 -> num_digits [255; 255; c; d; e] = [c; d; e].
Proof. dig. Qed.
Lemma dig4 b c d e : 0 <= b <= 61 -> 0 <= c <= 61 -> 0 <= d <= 61 -> 0 <= e <= 61 ->
  num_digits [255; b; c; d; e] = [b; c; d; e].
Proof. dig. Qed.
Lemma dig5 a b c d e : 0 <= a <= 61 -> 0 <= b <= 61 -> 0 <= c <= 61 -> 0 <= d <= 61 -> 0 <= e <= 61 ->
  num_digits [a; b; c; d; e] = [a; b; c; d; e].
Proof. dig. Qed.

(** Length and validity of the string of a state. *)
Lemma state_string d r : state d r ->
  valid_id (num_to_string d) = (r <? valid_capacity) /\
  all_chars (fun c => is_letter c || is_digit c) (num_to_string d) = true /\
  Z.of_nat (String.length (num_to_string d)) =
    (if r <? 52 then 1 else if r <? 3276 then 2 else if r <? 203164 then 3 else if r <? 12596220 then 4 else 5).
Proof.
  intros H. destruct (digits_state d r H) as (_ & F & _). rewrite to_string_digits, fold_length.
  split; [|split; [apply valid_digits; exact F|]].
  - unfold valid_capacity.
    destruct H; revert F; rewrite ?dig1, ?dig2, ?dig3, ?dig4, ?dig5 by lia; intros F;
      inversion F as [|x0 l0 Hx Fl]; subst; cbn [fold_right]; rewrite valid_id_string;
      (pose proof (valid_digits _ Fl) as V; cbn [fold_right] in V; rewrite V);
      rewrite (proj2 (digit_char_valid _ Hx)), andb_true_r;
      match goal with |- ?a = ?b => destruct a eqn:?; destruct b eqn:?; try reflexivity;
         exfalso; rewrite ?Z.leb_le, ?Z.leb_gt, ?Z.ltb_lt, ?Z.ltb_ge in *; lia end.
  - destruct H; rewrite ?dig1, ?dig2, ?dig3, ?dig4, ?dig5 by lia; cbn [List.length];
      repeat match goal with |- context [?a <? ?b] => destruct (Z.ltb_spec a b); try lia end; reflexivity.
Qed.

Lemma nth_id_string n s : nth_id n = Some s ->
  all_chars (fun c => is_letter c || is_digit c) s = true /\
  valid_id s = (Z.of_nat n <? valid_capacity) /\
  Z.of_nat (String.length s) =
    (if Z.of_nat n <? 52 then 1 else if Z.of_nat n <? 3276 then 2 else if Z.of_nat n <? 203164 then 3
     else if Z.of_nat n <? 12596220 then 4 else 5).
Proof.
  intros H. assert (B : Z.of_nat n < capacity) by (apply nth_id_total; congruence).
  destruct (num_after_state n B) as (d & E & S). unfold nth_id in H. rewrite E in H. injection H as <-.
  destruct (state_string d _ S) as (A & V & L). auto.
Qed.

(** Every valid id of at most four characters is generated. *)
Lemma char_digit_table :
  forallb (fun i => let c := ascii_of_nat i in
     implb (is_letter c || is_digit c)
       (existsb (fun x => Ascii.eqb (digit_char x) c) dig_range)) (seq 0 256) = true.
Proof. vm_compute. reflexivity. Qed.
Lemma char_digit c : is_letter c || is_digit c = true -> exists x, 0 <= x <= 61 /\ digit_char x = c.
Proof.
  intros H. pose proof char_digit_table as T. rewrite forallb_forall in T.
  specialize (T (nat_of_ascii c)). cbv zeta in T. rewrite ascii_nat_embedding, H in T. cbn [implb] in T.
  assert (I : existsb (fun x => Ascii.eqb (digit_char x) c) dig_range = true).
  { apply T. apply in_seq. split; [lia|]. pose proof (nat_ascii_bounded c). lia. }
  apply existsb_exists in I. destruct I as (x & Hx & E). apply Ascii.eqb_eq in E. exists x. split; [|exact E].
  unfold dig_range, zseq in Hx. apply in_map_iff in Hx. destruct Hx as (i & <- & Hi). apply in_seq in Hi. lia.
Qed.

Lemma short_id_digits s : all_chars (fun c => is_letter c || is_digit c) s = true ->
  exists l, Forall (fun x => 0 <= x <= 61) l /\ s = fold_right (fun n s => String (digit_char n) s) EmptyString l.
Proof.
  induction s as [|c s IH]; cbn; intros H.
  - exists []. split; [constructor|reflexivity].
  - apply andb_prop in H. destruct H as [Hc Hs]. destruct (char_digit c Hc) as (x & Hx & <-).
    destruct (IH Hs) as (l & Fl & ->). exists (x :: l). split; [constructor; assumption|reflexivity].
Qed.

Lemma short_id_state s : valid_id s = true -> (String.length s <= 4)%nat ->
  exists d r, state d r /\ num_to_string d = s.
Proof.
  destruct s as [|c s]; [discriminate|]. intros H L. cbn [valid_id] in H.
  apply andb_prop in H. destruct H as [Hc Hs].
  destruct (char_digit c) as (x & Hx & <-); [now rewrite Hc|].
  rewrite (proj2 (digit_char_valid x Hx)) in Hc. apply Z.leb_le in Hc.
  destruct (short_id_digits s Hs) as (l & Fl & ->). cbn [String.length] in L. rewrite fold_length in L.
  destruct l as [|y [|z [|w [|v l]]]]; cbn [List.length] in L; try lia;
    repeat match goal with F : Forall _ (_ :: _) |- _ => inversion F; clear F; subst end.
  - exists [255; 255; 255; 255; x], x. split; [constructor; lia|].
    rewrite to_string_digits. unfold num_digits. cbn [rev app take_digits]. ev. reflexivity.
  - eexists [255; 255; 255; x; y], _. split; [constructor; lia|].
    rewrite to_string_digits. unfold num_digits. cbn [rev app take_digits]. ev. reflexivity.
  - eexists [255; 255; x; y; z], _. split; [constructor; lia|].
    rewrite to_string_digits. unfold num_digits. cbn [rev app take_digits]. ev. reflexivity.
  - eexists [255; x; y; z; w], _. split; [constructor; lia|].
    rewrite to_string_digits. unfold num_digits. cbn [rev app take_digits]. ev. reflexivity.
Qed.

Lemma short_id_generated s : valid_id s = true -> (String.length s <= 4)%nat -> exists n, nth_id n = Some s.
Proof.
  intros V L. destruct (short_id_state s V L) as (d & r & S & <-). exists (Z.to_nat r).
  pose proof (state_range d r S) as R.
  destruct (num_after_state (Z.to_nat r)) as (d' & E & S'); [lia|].
  rewrite Z2Nat.id in S' by lia. unfold nth_id. rewrite E. cbn. now rewrite (state_inj _ _ _ S' S).
Qed.

Lemma nth_id_order i j s t : nth_id i = Some s -> nth_id j = Some t ->
  (String.length s < String.length t)%nat -> (i < j)%nat.
Proof.
  intros Hi Hj L. destruct (nth_id_string i s Hi) as (_ & _ & Li). destruct (nth_id_string j t Hj) as (_ & _ & Lj).
  destruct (le_lt_dec j i); [|lia]. exfalso.
  repeat match goal with H : context [?a <? ?b] |- _ => destruct (Z.ltb_spec a b) end; lia.
Qed.

Lemma invalid_id_exists : exists n s, nth_id n = Some s /\ valid_id s = false.
Proof.
  exists (Z.to_nat valid_capacity).
  destruct (num_after_state (Z.to_nat valid_capacity)) as (d & E & S).
  { rewrite Z2Nat.id by (unfold valid_capacity; lia). unfold valid_capacity, capacity. lia. }
  exists (num_to_string d). unfold nth_id. rewrite E. split; [reflexivity|].
  rewrite (proj1 (state_string d _ S)). rewrite Z2Nat.id by (unfold valid_capacity; lia). apply Z.ltb_irrefl.
Qed.
