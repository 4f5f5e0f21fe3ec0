(** Model of the program driver, src/main.rs:56-193 [main].

    The environment (file system, parser, cleaner, writer) is a record of oracles; every theorem
    quantifies over it. Messages on stderr are not modelled, nor is the ratio printed at
    src/main.rs:188-191. *)
From Coq Require Import String Ascii List Bool Arith Lia.
From Verif Require Import Cli.
Import ListNotations.

Definition bytes := list ascii.

(** What the program finds outside of itself. *)
Record env (doc : Type) : Type := {
  e_in_exists : bool;                     (* Path::new(path).exists(), src/main.rs:83-88 *)
  e_load : option bytes;                  (* load_stdin / load_file; None = io error, src/main.rs:91-94 *)
  e_utf8 : bytes -> bool;                 (* str::from_utf8(&buf).is_ok(), src/main.rs:131 *)
  e_parse : bytes -> option doc;          (* cleaner::parse_data, None = error *)
  e_clean : doc -> may (option doc);      (* cleaner::clean_doc, None = error *)
  e_write : doc -> bytes;                 (* cleaner::write_buffer *)
  e_copy_ok : bool;                       (* does fs::copy succeed, src/main.rs:112 *)
  e_save_ok : bool                        (* does the final write succeed, src/main.rs:183-186 *)
}.
Arguments e_in_exists {doc}. Arguments e_load {doc}. Arguments e_utf8 {doc}. Arguments e_parse {doc}.
Arguments e_clean {doc}. Arguments e_write {doc}. Arguments e_copy_ok {doc}. Arguments e_save_ok {doc}.

(** The flags [main] looks at. *)
Record main_flags : Type := {
  m_multipass : bool; m_allow_bigger : bool; m_copy_on_error : bool; m_append_newline : bool }.

(** Observable effects on files, in order. *)
Inductive effect : Type :=
| ECopy (src dst : string)                (* a successful fs::copy *)
| ECopyFailed
| EWrite (dst : output_to) (data : bytes) (* the final write, successful *)
| EWriteFailed.

Inductive final : Type := Finished | FPanicked | NoFuel.

(** src/main.rs:96-119 [on_err]: returns the effects and whether the process exited. When the copy
    fails, [try_msg!] returns from the closure only, so the process goes on. *)
Definition on_err {doc} (e : env doc) (fl : main_flags) (i : input_from) (o : output_to) : list effect * bool :=
  match i, o with
  | InFile inf, OutFile outf =>
      if m_copy_on_error fl then
        if negb (String.eqb inf outf) then
          if e_copy_ok e then ([ECopy inf outf], true) else ([ECopyFailed], false)
        else ([], true)
      else ([], true)
  | _, _ => ([], true)
  end.

(** How the loop of src/main.rs:125-166 is left, with the content of [buf]. *)
Inductive loop_exit : Type :=
| LParseError                  (* src/main.rs:133-137, [on_err(); return] *)
| LCleanError (buf : bytes)    (* src/main.rs:143-147, [on_err(); break]; [buf] is still the pass input *)
| LDone (buf : bytes)          (* src/main.rs:156-163 *)
| LPanic
| LFuel.

(** src/main.rs:125-166 [loop]. *)
Fixpoint main_loop {doc} (fuel : nat) (e : env doc) (multipass : bool) (buf : bytes) (prev_size : nat) : loop_exit :=
  match fuel with
  | 0 => LFuel
  | S fuel' =>
      if negb (e_utf8 e buf) then LPanic else
      match e_parse e buf with
      | None => LParseError
      | Some d =>
          match e_clean e d with
          | Panicked => LPanic
          | Done None => LCleanError buf
          | Done (Some d') =>
              let buf' := e_write e d' in
              if negb multipass then LDone buf'
              else if Nat.eqb prev_size (length buf') then LDone buf'
              else main_loop fuel' e multipass buf' (length buf')
          end
      end
  end.

(** src/main.rs:168-186: size check, newline, save. *)
Definition finish {doc} (e : env doc) (fl : main_flags) (i : input_from) (o : output_to)
    (input_size : nat) (buf : bytes) : list effect :=
  if negb (m_allow_bigger fl) && Nat.ltb input_size (length buf) then fst (on_err e fl i o)
  else
    let buf' := if m_append_newline fl then (buf ++ ["010"%char])%list else buf in
    if e_save_ok e then [EWrite o buf'] else [EWriteFailed].

(** src/main.rs:56-193 [main], after the options have been resolved. *)
Definition run_main {doc} (fuel : nat) (e : env doc) (fl : main_flags) (i : input_from) (o : output_to)
  : list effect * final :=
  match i, e_in_exists e with
  | InFile _, false => ([], Finished)
  | _, _ =>
      match e_load e with
      | None => ([], Finished)
      | Some raw =>
          match main_loop fuel e (m_multipass fl) raw 0 with
          | LFuel => ([], NoFuel)
          | LPanic => ([], FPanicked)
          | LParseError => (fst (on_err e fl i o), Finished)
          | LCleanError buf =>
              let (effs, exited) := on_err e fl i o in
              if exited then (effs, Finished)
              else ((effs ++ finish e fl i o (length raw) buf)%list, Finished)
          | LDone buf => (finish e fl i o (length raw) buf, Finished)
          end
      end
  end.

(** The whole program for given command line arguments: src/main.rs:72-80. *)
Definition run_program {doc} (fuel : nat) (a : args) (mk : parse_options -> write_options -> cleaning_options -> env doc)
  : list effect * final :=
  match check_values a with
  | Panicked => ([], FPanicked)
  | Done false => ([], Finished)
  | Done true =>
      match gen_parse_options a, gen_write_options a, gen_cleaning_options a, output a with
      | Done po, Done wo, Done co, Done o =>
          run_main fuel (mk po wo co)
            {| m_multipass := switch a (KEYS KMultipass);
               m_allow_bigger := switch a (KEYS KAllowBiggerFile);
               m_copy_on_error := switch a (KEYS KCopyOnError);
               m_append_newline := o_append_newline co |} (input a) o
      | _, _, _, _ => ([], FPanicked)
      end
  end.
