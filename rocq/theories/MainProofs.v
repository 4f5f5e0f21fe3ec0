(** Proofs about MainProg.v. *)
From Coq Require Import String Ascii List Bool Arith Lia.
From Verif Require Import Cli MainProg SpecMain.
Import ListNotations.

Section Main.
Context {doc : Type}.
Implicit Types (e : env doc) (fl : main_flags).

Lemma passes_fun e raw n t1 t2 : passes e raw n t1 -> passes e raw n t2 -> t1 = t2.
Proof.
  intros H1. revert t2. induction H1 as [|n t t' H1 IH P]; intros t2 H2; inversion H2; subst; [reflexivity|].
  match goal with X : passes e raw n ?u |- _ => specialize (IH _ X); subst end.
  destruct P as (_ & d & d' & A & B & ->).
  match goal with X : pass_ok e _ t2 |- _ => destruct X as (_ & d1 & d1' & A1 & B1 & ->) end.
  congruence.
Qed.

(** What the loop returns, in terms of the sequence of passes. *)
Definition loop_meaning e (multi : bool) raw n (r : loop_exit) : Prop :=
  match r with
  | LFuel => True
  | LPanic => exists m t, passes e raw m t /\
      (e_utf8 e t = false \/ exists d, e_parse e t = Some d /\ e_clean e d = Panicked)
  | LParseError => exists m t, n <= m /\ passes e raw m t /\ pass_parse_error e t
  | LCleanError buf => exists m, n <= m /\ passes e raw m buf /\ pass_clean_error e buf
  | LDone buf => exists m, n <= m /\ passes e raw (S m) buf /\
      (if multi then same_size e raw m /\ forall k, n <= k -> k < m -> ~ same_size e raw k else m = n)
  end.

Lemma main_loop_sound fuel e multi raw : forall n buf,
  passes e raw n buf ->
  loop_meaning e multi raw n
    (main_loop fuel e multi buf (match n with 0 => 0 | S _ => length buf end)).
Proof.
  induction fuel as [|fuel IH]; intros n buf H; cbn [main_loop]; [exact I|].
  destruct (e_utf8 e buf) eqn:U; cbn [negb].
  2: { exists n, buf. auto. }
  destruct (e_parse e buf) as [d|] eqn:P.
  2: { exists n, buf. repeat split; auto. }
  destruct (e_clean e d) as [[d'|]|] eqn:C.
  2: { exists n. split; [lia|]. split; [exact H|]. split; [exact U|]. eauto. }
  2: { exists n, buf. split; [exact H|]. right. eauto. }
  assert (OK : pass_ok e buf (e_write e d')) by (split; [exact U|]; eauto).
  destruct multi; cbn [negb].
  2: { exists n. split; [lia|]. split; [econstructor; eassumption|reflexivity]. }
  destruct (Nat.eqb_spec (match n with 0 => 0 | S _ => length buf end) (length (e_write e d'))) as [E|E].
  - exists n. split; [lia|]. split; [econstructor; eassumption|]. split; [|intros; lia].
    exists buf, (e_write e d'). auto.
  - assert (H' : passes e raw (S n) (e_write e d')) by (econstructor; eassumption).
    specialize (IH (S n) _ H'). cbn iota in IH.
    assert (NS : ~ same_size e raw n).
    { intros (t & t' & A & B & D). assert (t = buf) by (eapply passes_fun; eassumption). subst t.
      assert (Q : passes e raw (S n) t') by (econstructor; eassumption).
      rewrite (passes_fun e raw (S n) _ _ Q H') in D. symmetry in D. contradiction. }
    destruct (main_loop fuel e true (e_write e d') (length (e_write e d'))); cbn [loop_meaning] in *.
    + destruct IH as (m & t & ? & ?). exists m, t. intuition lia.
    + destruct IH as (m & ? & ?). exists m. intuition lia.
    + destruct IH as (m & L & Pm & S1 & S2). exists m. split; [lia|]. split; [exact Pm|]. split; [exact S1|].
      intros k K1 K2. destruct (Nat.eq_dec k n) as [->|]; [exact NS|apply S2; lia].
    + exact IH.
    + exact I.
Qed.

Definition main_loop_start e multi raw fuel := main_loop_sound fuel e multi raw 0 raw (passes_0 e raw).

(** Every text ever written is either within the size limit or allowed. *)
Lemma finish_sizes e fl i o n buf dst b :
  In (EWrite dst b) (finish e fl i o n buf) -> m_allow_bigger fl = false ->
  dst = o /\ length b <= n + (if m_append_newline fl then 1 else 0).
Proof.
  unfold finish. intros H A. rewrite A in H. cbn [negb andb] in H.
  destruct (Nat.ltb_spec n (length buf)).
  - unfold on_err in H. exfalso.
    destruct i, o; cbn in H; try contradiction.
    destruct (m_copy_on_error fl); [|contradiction]. destruct (negb _); [|contradiction].
    destruct (e_copy_ok e); cbn in H; intuition discriminate.
  - destruct (e_save_ok e); [|cbn in H; intuition discriminate].
    destruct H as [H|[]]. injection H as -> <-. split; [reflexivity|].
    destruct (m_append_newline fl); [rewrite app_length; cbn|]; lia.
Qed.

Lemma on_err_no_write e fl i o dst b : ~ In (EWrite dst b) (fst (on_err e fl i o)).
Proof.
  unfold on_err. intros H. destruct i, o; cbn in H; try contradiction.
  destruct (m_copy_on_error fl); [|contradiction]. destruct (negb _); [|contradiction].
  destruct (e_copy_ok e); cbn in H; intuition discriminate.
Qed.

Lemma run_sizes fuel e fl i o raw dst b :
  e_load e = Some raw -> m_allow_bigger fl = false ->
  In (EWrite dst b) (fst (run_main fuel e fl i o)) ->
  dst = o /\ length b <= length raw + (if m_append_newline fl then 1 else 0).
Proof.
  intros L A H. unfold run_main in H.
  assert (K : In (EWrite dst b) (fst (match main_loop fuel e (m_multipass fl) raw 0 with
          | LFuel => ([], NoFuel)
          | LPanic => ([], FPanicked)
          | LParseError => (fst (on_err e fl i o), Finished)
          | LCleanError buf =>
              let (effs, exited) := on_err e fl i o in
              if exited then (effs, Finished)
              else ((effs ++ finish e fl i o (length raw) buf)%list, Finished)
          | LDone buf => (finish e fl i o (length raw) buf, Finished)
          end))).
  { destruct i; [|destruct (e_in_exists e); [|contradiction]]; now rewrite L in H. }
  clear H. destruct (main_loop fuel e (m_multipass fl) raw 0) as [|buf|buf| |]; cbn [fst] in K; try contradiction.
  - now apply on_err_no_write in K.
  - pose proof (on_err_no_write e fl i o dst b) as N.
    destruct (on_err e fl i o) as [effs ex]; cbn [fst] in N.
    destruct ex; cbn [fst] in K; [contradiction|].
    apply in_app_or in K. destruct K as [K|K]; [contradiction|]. eapply finish_sizes; eassumption.
  - eapply finish_sizes; eassumption.
Qed.

(** Copies are of the input file to a different output file and only on request. *)
Lemma run_copies fuel e fl i o src dst :
  In (ECopy src dst) (fst (run_main fuel e fl i o)) ->
  m_copy_on_error fl = true /\ i = InFile src /\ o = OutFile dst /\ src <> dst /\ e_copy_ok e = true.
Proof.
  assert (O : forall s d, In (ECopy s d) (fst (on_err e fl i o)) ->
    m_copy_on_error fl = true /\ i = InFile s /\ o = OutFile d /\ s <> d /\ e_copy_ok e = true).
  { intros s d H. unfold on_err in H. destruct i as [|inf], o as [|outf]; cbn in H; try contradiction.
    destruct (m_copy_on_error fl); [|contradiction].
    destruct (String.eqb_spec inf outf); cbn in H; [contradiction|].
    destruct (e_copy_ok e); cbn in H; destruct H as [H|[]]; [|discriminate].
    injection H as -> ->. auto. }
  assert (F : forall n buf, In (ECopy src dst) (finish e fl i o n buf) ->
    m_copy_on_error fl = true /\ i = InFile src /\ o = OutFile dst /\ src <> dst /\ e_copy_ok e = true).
  { intros n buf H. unfold finish in H. destruct (negb _ && _); [now apply O|].
    destruct (e_save_ok e); cbn in H; intuition discriminate. }
  assert (R : forall raw, In (ECopy src dst) (fst (match main_loop fuel e (m_multipass fl) raw 0 with
          | LFuel => ([], NoFuel)
          | LPanic => ([], FPanicked)
          | LParseError => (fst (on_err e fl i o), Finished)
          | LCleanError buf =>
              let (effs, exited) := on_err e fl i o in
              if exited then (effs, Finished)
              else ((effs ++ finish e fl i o (length raw) buf)%list, Finished)
          | LDone buf => (finish e fl i o (length raw) buf, Finished)
          end)) ->
     m_copy_on_error fl = true /\ i = InFile src /\ o = OutFile dst /\ src <> dst /\ e_copy_ok e = true).
  { intros raw K. destruct (main_loop fuel e (m_multipass fl) raw 0) as [|buf|buf| |]; cbn [fst] in K; try contradiction.
    - now apply O.
    - specialize (O src dst). destruct (on_err e fl i o) as [effs ex]; cbn [fst] in O.
      destruct ex; cbn [fst] in K; [now apply O|].
      apply in_app_or in K. destruct K as [K|K]; [now apply O|]. eapply F; eassumption.
    - eapply F; eassumption. }
  unfold run_main. destruct i as [|inf]; [|destruct (e_in_exists e); [|contradiction]];
    (destruct (e_load e) as [raw|]; [|contradiction]); apply R.
Qed.

(** A failed run: some pass of the sequence is rejected. *)
Definition failed_run e (multi : bool) raw : Prop :=
  exists n t, passes e raw n t /\ (pass_parse_error e t \/ pass_clean_error e t) /\
    (if multi then forall k, k < n -> ~ same_size e raw k else n = 0).

Lemma pass_error_not_ok e t t' : (pass_parse_error e t \/ pass_clean_error e t) -> pass_ok e t t' -> False.
Proof.
  intros [[U P]|[U (d & P & C)]] (U' & d1 & d1' & P' & C' & _); congruence.
Qed.

Lemma passes_le e raw n m t t' : passes e raw m t' -> n <= m -> passes e raw n t ->
  n = m \/ exists t'', pass_ok e t t''.
Proof.
  intros H. revert t. induction H as [|m u u' H IH P]; intros t L Hn.
  - left. lia.
  - destruct (Nat.eq_dec n (S m)); [auto|]. right.
    destruct (IH t ltac:(lia) Hn) as [->|E]; [|exact E].
    rewrite (passes_fun _ _ _ _ _ Hn H). eauto.
Qed.

Lemma failed_run_loop fuel e multi raw : failed_run e multi raw ->
  match main_loop fuel e multi raw 0 with LDone _ => False | LPanic => False | _ => True end.
Proof.
  intros (n & t & Hp & Herr & Hn). pose proof (main_loop_start e multi raw fuel) as M.
  destruct (main_loop fuel e multi raw 0) as [|buf|buf| |]; auto; cbn [loop_meaning] in M.
  - destruct M as (m & _ & Pm & Hm). 
    assert (n <= m).
    { destruct multi; [|lia]. destruct Hm as [S1 S2]. destruct (le_lt_dec n m); [assumption|].
      exfalso. exact (Hn m l S1). }
    destruct (passes_le e raw n (S m) t buf Pm ltac:(lia) Hp) as [?|[t'' K]]; [lia|].
    eapply pass_error_not_ok; eassumption.
  - destruct M as (m & u & Pm & Hu).
    destruct (lt_eq_lt_dec n m) as [[L|L]|L].
    + destruct (passes_le e raw n m t u Pm ltac:(lia) Hp) as [?|[t'' K]]; [lia|].
      eapply pass_error_not_ok; eassumption.
    + subst. rewrite (passes_fun _ _ _ _ _ Hp Pm) in *.
      destruct Herr as [[U P]|[U (d & P & C)]]; destruct Hu as [Hu|(d' & P' & C')]; congruence.
    + destruct (passes_le e raw m n u t Hp ltac:(lia) Pm) as [?|[t'' K]]; [lia|].
      destruct K as (U & d & d' & P & C & _). destruct Hu as [Hu|(d1 & P' & C')]; congruence.
Qed.

(** After a failure, nothing but a copy of the input is written, unless the copy itself failed
    after a cleaning error. *)
Lemma failed_run_effects fuel e fl i o raw :
  e_load e = Some raw -> failed_run e (m_multipass fl) raw ->
  (m_copy_on_error fl = true -> e_copy_ok e = true) ->
  forall f, In f (fst (run_main fuel e fl i o)) ->
    exists src dst, f = ECopy src dst /\ m_copy_on_error fl = true /\ i = InFile src /\ o = OutFile dst /\ src <> dst.
Proof.
  intros L Hf Hc f Hin.
  assert (N : forall f, In f (fst (on_err e fl i o)) -> exists src dst, f = ECopy src dst /\
     m_copy_on_error fl = true /\ i = InFile src /\ o = OutFile dst /\ src <> dst).
  { clear f Hin. intros f H. unfold on_err in H. destruct i as [|inf], o as [|outf]; cbn in H; try contradiction.
    destruct (m_copy_on_error fl); [|contradiction].
    destruct (String.eqb_spec inf outf); cbn in H; [contradiction|].
    rewrite Hc in H by reflexivity. destruct H as [<-|[]]. eauto 10. }
  assert (X : snd (on_err e fl i o) = true).
  { unfold on_err. destruct i, o; try reflexivity. destruct (m_copy_on_error fl); [|reflexivity].
    destruct (negb _); [|reflexivity]. now rewrite Hc. }
  pose proof (failed_run_loop fuel e (m_multipass fl) raw Hf) as FL.
  unfold run_main in Hin. rewrite L in Hin.
  assert (K : In f (fst (match main_loop fuel e (m_multipass fl) raw 0 with
          | LFuel => ([], NoFuel)
          | LPanic => ([], FPanicked)
          | LParseError => (fst (on_err e fl i o), Finished)
          | LCleanError buf =>
              let (effs, exited) := on_err e fl i o in
              if exited then (effs, Finished)
              else ((effs ++ finish e fl i o (length raw) buf)%list, Finished)
          | LDone buf => (finish e fl i o (length raw) buf, Finished)
          end))).
  { destruct i; [|destruct (e_in_exists e); [|contradiction]]; exact Hin. }
  clear Hin. destruct (main_loop fuel e (m_multipass fl) raw 0) as [|buf|buf| |]; try contradiction; cbn [fst] in K.
  - now apply N.
  - destruct (on_err e fl i o) as [effs ex]; cbn in *. subst ex. now apply N.
Qed.

(** A successful run saves the output of the last pass. *)
Lemma successful_run fuel e fl i o raw effs :
  e_load e = Some raw -> (forall s, i = InFile s -> e_in_exists e = true) ->
  run_main fuel e fl i o = (effs, Finished) -> ~ failed_run e (m_multipass fl) raw ->
  exists n buf, last_pass e (m_multipass fl) raw n /\ passes e raw (S n) buf /\
    effs = finish e fl i o (length raw) buf.
Proof.
  intros L X R NF. pose proof (main_loop_start e (m_multipass fl) raw fuel) as M.
  assert (R' : match main_loop fuel e (m_multipass fl) raw 0 with
          | LFuel => ([], NoFuel)
          | LPanic => ([], FPanicked)
          | LParseError => (fst (on_err e fl i o), Finished)
          | LCleanError buf =>
              let (effs, exited) := on_err e fl i o in
              if exited then (effs, Finished)
              else ((effs ++ finish e fl i o (length raw) buf)%list, Finished)
          | LDone buf => (finish e fl i o (length raw) buf, Finished)
          end = (effs, Finished)).
  { unfold run_main in R. rewrite L in R. destruct i as [|s]; [exact R|]. now rewrite (X s eq_refl) in R. }
  clear R.
  assert (FR : forall m t, passes e raw m t -> (pass_parse_error e t \/ pass_clean_error e t) ->
     (if m_multipass fl then forall k, k < m -> ~ same_size e raw k else m = 0) -> False).
  { intros m t A B C. apply NF. exists m, t. auto. }
  destruct (main_loop fuel e (m_multipass fl) raw 0) as [|buf|buf| |] eqn:ML; cbn [loop_meaning] in M; try discriminate R'.
  - exfalso. (* parse error: no earlier pass stopped the loop *)
    clear R'. destruct M as (m & t & _ & Pm & Er).
    revert ML. generalize (passes_0 e raw). intros P0 ML.
    assert (G : forall fuel n buf, passes e raw n buf ->
      main_loop fuel e (m_multipass fl) buf (match n with 0 => 0 | S _ => length buf end) = LParseError ->
      (if m_multipass fl then forall k, k < n -> ~ same_size e raw k else n = 0) -> False).
    { clear - FR. induction fuel as [|fuel IH]; intros n buf Hp ML NS; cbn [main_loop] in ML; [discriminate|].
      destruct (e_utf8 e buf) eqn:U; cbn [negb] in ML; [|discriminate].
      destruct (e_parse e buf) as [d|] eqn:P.
      2: { eapply (FR n buf); eauto. left. now split. }
      destruct (e_clean e d) as [[d'|]|] eqn:C; try discriminate.
      assert (OK : pass_ok e buf (e_write e d')) by (split; [exact U|]; eauto).
      destruct (m_multipass fl); cbn [negb] in ML; [|discriminate].
      destruct (Nat.eqb_spec (match n with 0 => 0 | S _ => length buf end) (length (e_write e d'))) as [E|E]; [discriminate|].
      assert (H' : passes e raw (S n) (e_write e d')) by (econstructor; eassumption).
      apply (IH (S n) _ H' ML). intros k Hk (t & t' & A & B & D).
      destruct (Nat.eq_dec k n) as [->|]; [|apply (NS k); [lia|]; now exists t, t'].
      assert (t = buf) by (eapply passes_fun; eassumption). subst t.
      assert (Q : passes e raw (S n) t') by (econstructor; eassumption).
      rewrite (passes_fun e raw (S n) _ _ Q H') in D. symmetry in D. contradiction. }
    apply (G fuel 0 raw P0 ML). destruct (m_multipass fl); [intros; lia|reflexivity].
  - exfalso. clear R'. 
    revert ML. generalize (passes_0 e raw). intros P0 ML.
    assert (G : forall fuel n buf0, passes e raw n buf0 ->
      main_loop fuel e (m_multipass fl) buf0 (match n with 0 => 0 | S _ => length buf0 end) = LCleanError buf ->
      (if m_multipass fl then forall k, k < n -> ~ same_size e raw k else n = 0) -> False).
    { clear - FR. induction fuel as [|fuel IH]; intros n buf0 Hp ML NS; cbn [main_loop] in ML; [discriminate|].
      destruct (e_utf8 e buf0) eqn:U; cbn [negb] in ML; [|discriminate].
      destruct (e_parse e buf0) as [d|] eqn:P; [|discriminate].
      destruct (e_clean e d) as [[d'|]|] eqn:C; try discriminate.
      2: { eapply (FR n buf0); eauto. right. split; [exact U|]. eauto. }
      assert (OK : pass_ok e buf0 (e_write e d')) by (split; [exact U|]; eauto).
      destruct (m_multipass fl); cbn [negb] in ML; [|discriminate].
      destruct (Nat.eqb_spec (match n with 0 => 0 | S _ => length buf0 end) (length (e_write e d'))) as [E|E]; [discriminate|].
      assert (H' : passes e raw (S n) (e_write e d')) by (econstructor; eassumption).
      apply (IH (S n) _ H' ML). intros k Hk (t & t' & A & B & D).
      destruct (Nat.eq_dec k n) as [->|]; [|apply (NS k); [lia|]; now exists t, t'].
      assert (t = buf0) by (eapply passes_fun; eassumption). subst t.
      assert (Q : passes e raw (S n) t') by (econstructor; eassumption).
      rewrite (passes_fun e raw (S n) _ _ Q H') in D. symmetry in D. contradiction. }
    apply (G fuel 0 raw P0 ML). destruct (m_multipass fl); [intros; lia|reflexivity].
  - injection R' as <-. destruct M as (m & _ & Pm & Hm). exists m, buf. split; [|auto].
    unfold last_pass. destruct (m_multipass fl); [|exact Hm].
    destruct Hm as [A B]. split; [exact A|]. intros k Hk. apply B; lia.
Qed.

(** Termination when a pass never makes the text longer. *)
Lemma main_loop_terminates e multi :
  (forall t t', pass_ok e t t' -> length t' <= length t) ->
  forall fuel buf prev, length buf + 2 <= fuel -> (prev = 0 \/ prev = length buf) ->
  main_loop fuel e multi buf prev <> LFuel.
Proof.
  intros Hmono.
  assert (G : forall fuel buf prev, length buf < fuel -> prev = length buf ->
    main_loop fuel e multi buf prev <> LFuel).
  { induction fuel as [|fuel IH]; intros buf prev Hf Hp; [lia|]. cbn [main_loop].
    destruct (e_utf8 e buf) eqn:U; cbn [negb]; [|discriminate].
    destruct (e_parse e buf) as [d|] eqn:P; [|discriminate].
    destruct (e_clean e d) as [[d'|]|] eqn:C; try discriminate.
    destruct multi; cbn [negb]; [|discriminate].
    destruct (Nat.eqb_spec prev (length (e_write e d'))); [discriminate|].
    assert (OK : pass_ok e buf (e_write e d')) by (split; [exact U|]; eauto).
    specialize (Hmono _ _ OK). apply IH; [|reflexivity]. lia. }
  intros fuel buf prev Hf Hp. destruct fuel as [|fuel]; [lia|]. cbn [main_loop].
  destruct (e_utf8 e buf) eqn:U; cbn [negb]; [|discriminate].
  destruct (e_parse e buf) as [d|] eqn:P; [|discriminate].
  destruct (e_clean e d) as [[d'|]|] eqn:C; try discriminate.
  destruct multi; cbn [negb]; [|discriminate].
  destruct (Nat.eqb_spec prev (length (e_write e d'))); [discriminate|].
  assert (OK : pass_ok e buf (e_write e d')) by (split; [exact U|]; eauto).
  specialize (Hmono _ _ OK). apply G; [lia|reflexivity].
Qed.
End Main.

(** Witnesses. A cleaner whose every pass toggles between two sizes. *)
Definition flip_env : env bool :=
  {| e_in_exists := true; e_load := Some ["a"%char; "a"%char]; e_utf8 := fun _ => true;
     e_parse := fun t => Some (Nat.eqb (length t) 2); e_clean := fun d => Done (Some d);
     e_write := fun d => if d then ["a"%char] else ["a"%char; "a"%char]; e_copy_ok := true; e_save_ok := true |}.

Lemma flip_never_stops fuel : main_loop fuel flip_env true ["a"%char; "a"%char] 0 = LFuel.
Proof.
  assert (G : forall fuel, main_loop fuel flip_env true ["a"%char; "a"%char] 2 = LFuel /\
                           main_loop fuel flip_env true ["a"%char] 1 = LFuel).
  { clear fuel. induction fuel as [|fuel [IH1 IH2]]; [split; reflexivity|].
    split; cbn; assumption. }
  destruct fuel as [|fuel]; [reflexivity|]. cbn. apply G.
Qed.

(** A cleaner that rejects the document while the copy fails. *)
Definition reject_env : env unit :=
  {| e_in_exists := true; e_load := Some ["a"%char]; e_utf8 := fun _ => true;
     e_parse := fun _ => Some tt; e_clean := fun _ => Done None;
     e_write := fun _ => []; e_copy_ok := false; e_save_ok := true |}.
Definition copy_flags : main_flags :=
  {| m_multipass := false; m_allow_bigger := false; m_copy_on_error := true; m_append_newline := false |}.

(** A document of two bytes shrinking to one and then stable. *)
Definition shrink_env : env nat :=
  {| e_in_exists := true; e_load := Some ["a"%char; "a"%char; "a"%char]; e_utf8 := fun _ => true;
     e_parse := fun t => Some (length t); e_clean := fun d => Done (Some (if Nat.leb d 1 then d else d - 1));
     e_write := fun d => repeat "a"%char d; e_copy_ok := true; e_save_ok := true |}.
Definition multi_flags : main_flags :=
  {| m_multipass := true; m_allow_bigger := false; m_copy_on_error := false; m_append_newline := false |}.

Lemma run_sizes_alt {doc} (e : env doc) fuel fl i o raw dst b :
  e_load e = Some raw -> m_allow_bigger fl = false ->
  In (EWrite dst b) (fst (run_main fuel e fl i o)) ->
  dst = o /\ length b <= length raw + (if m_append_newline fl then 1 else 0).
Proof. exact (run_sizes fuel e fl i o raw dst b). Qed.
