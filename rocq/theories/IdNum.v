(** Model of the id generator [Num] of src/task/trim_ids.rs:21-103. *)
From Coq Require Import List Bool ZArith Lia Ascii String.
Import ListNotations.
Local Open Scope Z_scope.

(** src/task/trim_ids.rs:31-47: the [chars] table, a-z A-Z 0-9, as ASCII codes. *)
Definition zseq (a : Z) (n : nat) : list Z := map (fun i => a + Z.of_nat i) (seq 0 n).
Definition chars : list Z := zseq 97 26 ++ zseq 65 26 ++ zseq 48 10.

(** src/task/trim_ids.rs:49-50: five digits, most significant first; 255 is "no digit". *)
Definition num_new : list Z := [255; 255; 255; 255; 0].

(** [self.d[pos] = v]. *)
Fixpoint set_nth {A} (l : list A) (pos : nat) (v : A) : list A :=
  match l, pos with
  | [], _ => []
  | _ :: t, O => v :: t
  | x :: t, S p => x :: set_nth t p v
  end.

(** src/task/trim_ids.rs:58-73 [shift]; [None] is the index underflow panic of [d[pos-1]] at pos = 0.
    [nth] with default 255: all positions used are below 5. *)
Fixpoint shift (d : list Z) (pos : nat) (head : nat) : option (list Z) :=
  let n := nth pos d 255 in
  if (n =? 61) || ((n =? 51) && Nat.eqb pos head) then
    match pos with
    | O => None
    | S p =>
        let d' := set_nth d pos 0 in
        if nth p d' 255 =? 255 then Some (set_nth d' p 0) else shift d' p head
    end
  else Some (set_nth d pos (n + 1)).

(** src/task/trim_ids.rs:77-83: the search for the head digit; when no position holds 255 the
    initial value NUM_SIZE-1 = 4 stays. *)
Definition find_head (d : list Z) : nat :=
  match find (fun i => nth i d 255 =? 255) [4; 3; 2; 1; 0]%nat with
  | Some i => S i
  | None => 4%nat
  end.

(** src/task/trim_ids.rs:76-86 [plus_one] *)
Definition plus_one (d : list Z) : option (list Z) := shift d 4 (find_head d).

(** src/task/trim_ids.rs:88-102 [to_string]: from the last digit to the first until 255. *)
Fixpoint take_digits (l : list Z) : list Z :=
  match l with
  | [] => []
  | x :: t => if x =? 255 then [] else x :: take_digits t
  end.
Definition num_digits (d : list Z) : list Z := rev (take_digits (rev d)).
Definition num_to_codes (d : list Z) : list Z := map (fun n => nth (Z.to_nat n) chars 0) (num_digits d).
Fixpoint string_of_codes (l : list Z) : string :=
  match l with
  | [] => EmptyString
  | c :: t => String (ascii_of_N (Z.to_N c)) (string_of_codes t)
  end.
Definition num_to_string (d : list Z) : string := string_of_codes (num_to_codes d).

(** The state after [n] calls of [plus_one]; [None] if a call panicked. *)
Fixpoint num_after (n : nat) : option (list Z) :=
  match n with
  | O => Some num_new
  | S n' => match num_after n' with Some d => plus_one d | None => None end
  end.

(** The same with a binary counter, so that large indices can be evaluated. *)
Definition num_after_pos (n : positive) (start : option (list Z)) : option (list Z) :=
  Pos.iter (fun s => match s with Some d => plus_one d | None => None end) start n.
