(** Specification vocabulary for the program driver: the sequence of texts produced by repeated
    passes, independent of the driver's loop. *)
From Coq Require Import String Ascii List Bool Arith.
From Verif Require Import Cli MainProg.
Import ListNotations.

(** One successful pass over a text. *)
Definition pass_ok {doc} (e : env doc) (t t' : bytes) : Prop :=
  e_utf8 e t = true /\ exists d d', e_parse e t = Some d /\ e_clean e d = Done (Some d') /\ t' = e_write e d'.

(** A pass over [t] is rejected by the parser / by the cleaner. *)
Definition pass_parse_error {doc} (e : env doc) (t : bytes) : Prop :=
  e_utf8 e t = true /\ e_parse e t = None.
Definition pass_clean_error {doc} (e : env doc) (t : bytes) : Prop :=
  e_utf8 e t = true /\ exists d, e_parse e t = Some d /\ e_clean e d = Done None.

(** [passes e raw n t]: [t] is the text after exactly [n] successful passes starting from [raw]. *)
Inductive passes {doc} (e : env doc) (raw : bytes) : nat -> bytes -> Prop :=
| passes_0 : passes e raw 0 raw
| passes_S n t t' : passes e raw n t -> pass_ok e t t' -> passes e raw (S n) t'.

(** The size the [n]-th output is compared with: the size of the previous output, or 0 for the
    first pass (src/main.rs:123). *)
Definition same_size {doc} (e : env doc) (raw : bytes) (n : nat) : Prop :=
  exists t t', passes e raw n t /\ pass_ok e t t' /\
    length t' = match n with 0 => 0 | S _ => length t end.

(** The last pass of a run: the first one for a single pass run, otherwise the first one that does
    not change the size. *)
Definition last_pass {doc} (e : env doc) (multi : bool) (raw : bytes) (n : nat) : Prop :=
  if multi then same_size e raw n /\ forall k, k < n -> ~ same_size e raw k else n = 0.
