(** Specification of ids: what makes a valid, short id. *)
From Coq Require Import List Bool ZArith Ascii String.
Local Open Scope Z_scope.

Definition code (c : ascii) : Z := Z.of_N (N_of_ascii c).
Definition is_letter (c : ascii) : bool :=
  ((97 <=? code c) && (code c <=? 122)) || ((65 <=? code c) && (code c <=? 90)).
Definition is_digit (c : ascii) : bool := (48 <=? code c) && (code c <=? 57).
Fixpoint all_chars (p : ascii -> bool) (s : string) : bool :=
  match s with EmptyString => true | String c t => p c && all_chars p t end.

(** An id made of ASCII letters and digits, starting with a letter. *)
Definition valid_id (s : string) : bool :=
  match s with
  | EmptyString => false
  | String c t => is_letter c && all_chars (fun c => is_letter c || is_digit c) t
  end.
