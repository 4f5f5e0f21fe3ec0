(** Closed form of [vloop]: a loop that visits nodes one after the other while reading the document. *)
From Coq Require Import List Bool NArith Arith String Lia.
From Verif Require Import Names Num Value Dom DomFacts DomOps Outcome DomRemove Transforms.
Import ListNotations.
Local Open Scope nat_scope.

Definition mem (k : nat) (l : list nat) : bool := existsb (Nat.eqb k) l.
(** The document when the nodes of [done] have been visited and [g] is what a visit does. *)
Definition visited (g : ndata -> ndata) (done : list nat) (t : tree) : tree :=
  tmap (fun d => if mem (key d) done then g d else d) t.

Lemma find_data_some k t d : find_data k t = Some d -> In d (flat t) /\ key d = k.
Proof. intros H. unfold find_data in H. apply find_some in H. destruct H as [A B]. apply Nat.eqb_eq in B. auto. Qed.
Lemma find_data_none k t : find_data k t = None <-> ~ In k (keys t).
Proof.
  unfold find_data, keys. split.
  - intros H Hk. apply in_map_iff in Hk. destruct Hk as (d & E & Hd). pose proof (find_none _ _ H d Hd) as X. cbn in X. rewrite E, Nat.eqb_refl in X. discriminate.
  - intros H. destruct (find _ (flat t)) as [d|] eqn:E; [|reflexivity]. apply find_some in E. destruct E as [A B]. apply Nat.eqb_eq in B. exfalso. apply H. apply in_map_iff. eauto.
Qed.
Lemma find_data_tmap f k t : (forall d, key (f d) = key d) -> find_data k (tmap f t) = option_map f (find_data k t).
Proof.
  intros Hf. unfold find_data. rewrite flat_tmap. generalize (flat t). induction l as [|d l IH]; [reflexivity|]. cbn. rewrite Hf. destruct (Nat.eqb (key d) k); [reflexivity|exact IH].
Qed.
Lemma visited_key g done : (forall d, key (g d) = key d) -> forall d, key (if mem (key d) done then g d else d) = key d.
Proof. intros H d. destruct (mem _ _); auto. Qed.

Lemma vloop_closed f g t : NoDup (keys t) -> (forall d, key (g d) = key d) -> forall ks, NoDup ks -> incl ks (keys t) ->
  (forall done k rest d, ks = done ++ k :: rest -> In d (flat t) -> key d = k -> f (visited g done t) d = Ok (g d)) ->
  vloop f ks t = Ok (visited g ks t).
Proof.
  intros N Hg ks0 Nk0 I0 Hf0.
  assert (G : forall ks done, NoDup (done ++ ks) -> incl ks (keys t) ->
    (forall done' k rest d, done ++ ks = done' ++ k :: rest -> List.length done <= List.length done' -> In d (flat t) -> key d = k -> f (visited g done' t) d = Ok (g d)) ->
    vloop f ks (visited g done t) = Ok (visited g (done ++ ks) t)).
  { induction ks as [|k ks IH]; intros done Nk I Hf; [now rewrite app_nil_r|]. cbn [vloop].
    unfold visited at 1. rewrite find_data_tmap by now apply visited_key. fold (visited g done t).
    assert (Hk : In k (keys t)) by (apply I; now left). apply in_map_iff in Hk. destruct Hk as (d & E & Hd).
    rewrite <- E at 1. rewrite (find_data_in t d N Hd). cbn [option_map].
    assert (Md : mem (key d) done = false).
    { destruct (mem (key d) done) eqn:M; [|reflexivity]. apply mem_in in M. apply NoDup_remove_2 in Nk. exfalso. apply Nk. apply in_or_app. rewrite <- E. auto. }
    rewrite Md, (Hf done k ks d eq_refl (le_n _) Hd E). cbn [bind].
    assert (U : upd k (fun _ => g d) (visited g done t) = visited g (done ++ [k]) t).
    { unfold upd, visited. rewrite tmap_tmap. apply tmap_ext. intros x Hx. rewrite (visited_key g done Hg). unfold mem. rewrite existsb_mem_app. fold (mem (key x) done). cbn [existsb]. rewrite orb_false_r.
      destruct (Nat.eqb_spec (key x) k) as [Ex|Nx].
      - assert (x = d) by (apply (data_unique t); congruence). subst x. rewrite orb_true_r. reflexivity.
      - rewrite orb_false_r. reflexivity. }
    rewrite U. rewrite (IH (done ++ [k])).
    - now rewrite <- app_assoc.
    - now rewrite <- app_assoc.
    - intros x Hx. apply I. now right.
    - intros done' j rest x Ed L Hx Ej. apply (Hf done' j rest x); [rewrite <- app_assoc in Ed; exact Ed| |exact Hx|exact Ej].
      rewrite app_length in L. cbn in L. lia. }
  assert (E0 : visited g [] t = t) by (apply tmap_id; reflexivity).
  specialize (G ks0 []). cbn [app] in G. rewrite E0 in G. apply G; auto.
  intros done' k rest d E _ Hd Ek. eapply Hf0; eauto.
Qed.
