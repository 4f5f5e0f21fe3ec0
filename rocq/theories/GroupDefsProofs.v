(** Proofs for GroupDefs.v: structure. *)
From Coq Require Import List Bool NArith Arith ZArith String Lia Permutation.
From Verif Require Import Names Num Value Dom DomFacts DomOps DomRemove Outcome APass SpecDom SpecText TextProofs Visit Move MoveFacts RmUnusedDefs GroupDefs.
Import ListNotations.
Local Open Scope nat_scope.

Definition sig (d : ndata) : nat * tagt * string := (key d, tag d, nid d).
Lemma sig_key d d' : sig d' = sig d -> key d' = key d. Proof. unfold sig. congruence. Qed.
Lemma sig_tag d d' : sig d' = sig d -> tag d' = tag d. Proof. unfold sig. congruence. Qed.
Lemma is_ref_sig d d' : sig d' = sig d -> is_ref d' = is_ref d. Proof. intros E. unfold is_ref. now rewrite (sig_tag _ _ E). Qed.
Lemma is_defs_sig d d' : sig d' = sig d -> is_defs d' = is_defs d. Proof. intros E. unfold is_defs, is_tag. now rewrite (sig_tag _ _ E). Qed.
(** [m] is the first child of the svg element [sv]. *)
Definition front (m sv : nat) (t : tree) : Prop :=
  exists l s r c cs, kids t = l ++ s :: r /\ (forall x, In x l -> is_tag ESvg (data x) = false) /\ is_tag ESvg (data s) = true /\ root_key s = sv /\ kids s = c :: cs /\ root_key c = m /\ is_defs (data c) = true.
Lemma detach_kids k t : kids (detach k t) = flat_map (fun c => if Nat.eqb (root_key c) k then [] else [detach k c]) (kids t).
Proof. destruct t; reflexivity. Qed.
Lemma front_detach m sv k t : front m sv t -> k <> sv -> k <> m -> front m sv (detach k t).
Proof.
  intros (l & s & r & c & cs & E & Nl & Ts & Ks & Ec & Kc & Dc) N1 N2.
  exists (flat_map (fun c => if Nat.eqb (root_key c) k then [] else [detach k c]) l), (detach k s), (flat_map (fun c => if Nat.eqb (root_key c) k then [] else [detach k c]) r), (detach k c), (flat_map (fun c => if Nat.eqb (root_key c) k then [] else [detach k c]) cs).
  split; [|split; [|split; [|split; [|split; [|split]]]]].
  - rewrite detach_kids, E, flat_map_app. cbn [flat_map]. destruct (Nat.eqb_spec (root_key s) k); [congruence|]. reflexivity.
  - intros x Hx. apply in_flat_map in Hx. destruct Hx as (y & Hy & Hx). destruct (Nat.eqb _ _); [contradiction|]. destruct Hx as [<-|[]]. rewrite data_detach. auto.
  - now rewrite data_detach.
  - now rewrite root_detach.
  - rewrite detach_kids, Ec. cbn [flat_map]. destruct (Nat.eqb_spec (root_key c) k); [congruence|]. reflexivity.
  - now rewrite root_detach.
  - now rewrite data_detach.
Qed.
Lemma kids_set_kids k f t : root_key t <> k -> kids (set_kids k f t) = map (set_kids k f) (kids t).
Proof. destruct t as [d ch]. unfold root_key. cbn. intros N. destruct (Nat.eqb_spec (key d) k); [contradiction|reflexivity]. Qed.
Lemma front_set m sv f t : front m sv t -> root_key t <> m -> sv <> m -> front m sv (set_kids m f t).
Proof.
  intros (l & s & r & c & cs & E & Nl & Ts & Ks & Ec & Kc & Dc) N1 N2.
  exists (map (set_kids m f) l), (set_kids m f s), (map (set_kids m f) r), (set_kids m f c), (map (set_kids m f) cs). split; [|split; [|split; [|split; [|split; [|split]]]]].
  - rewrite kids_set_kids by exact N1. rewrite E, map_app. reflexivity.
  - intros x Hx. apply in_map_iff in Hx. destruct Hx as (y & <- & Hy). rewrite data_set_kids. auto.
  - now rewrite data_set_kids.
  - now rewrite root_set_kids.
  - rewrite kids_set_kids by congruence. now rewrite Ec.
  - now rewrite root_set_kids.
  - now rewrite data_set_kids.
Qed.
Lemma front_tmap m sv g t : front m sv t -> (forall d, sig (g d) = sig d) -> front m sv (tmap g t).
Proof.
  intros (l & s & r & c & cs & E & Nl & Ts & Ks & Ec & Kc & Dc) G.
  assert (Tg : forall e x, is_tag e (data (tmap g x)) = is_tag e (data x)) by (intros e x; rewrite data_tmap; unfold is_tag; now rewrite (sig_tag _ _ (G (data x)))).
  assert (Kg : forall x, root_key (tmap g x) = root_key x) by (intros x; unfold root_key; rewrite data_tmap; apply sig_key, G).
  exists (map (tmap g) l), (tmap g s), (map (tmap g) r), (tmap g c), (map (tmap g) cs). split; [|split; [|split; [|split; [|split; [|split]]]]].
  - rewrite kids_tmap, E, map_app. reflexivity.
  - intros x Hx. apply in_map_iff in Hx. destruct Hx as (y & <- & Hy). rewrite Tg. auto.
  - now rewrite Tg.
  - now rewrite Kg.
  - rewrite kids_tmap, Ec. reflexivity.
  - now rewrite Kg.
  - unfold is_defs. now rewrite Tg.
Qed.
Lemma front_ctx m sv t : front m sv t -> exists ds dm, In ([ds; data t], dm) (ctx [] t) /\ In ([data t], ds) (ctx [] t) /\ key dm = m /\ is_defs dm = true /\ key ds = sv /\ is_tag ESvg ds = true.
Proof.
  intros (l & s & r & c & cs & E & Nl & Ts & Ks & Ec & Kc & Dc). exists (data s), (data c).
  assert (P1 : In ([data t], s) (places [] t)) by (apply (place_kid t [] [] t); [destruct t; now left|rewrite E; apply in_elt]).
  assert (P2 : In ([data s; data t], c) (places [] t)) by (apply (place_kid t [] [data t] s); [exact P1|rewrite Ec; now left]).
  split; [apply ctx_place; eauto|]. split; [apply ctx_place; eauto|]. auto.
Qed.
Lemma front_svg m sv t : front m sv t -> exists s c cs, svg_element t = Some s /\ root_key s = sv /\ kids s = c :: cs /\ root_key c = m /\ is_defs (data c) = true.
Proof.
  intros (l & s & r & c & cs & E & Nl & Ts & Ks & Ec & Kc & Dc). exists s, c, cs. split; [|auto]. unfold svg_element. rewrite E. clear -Nl Ts. induction l as [|x l IH]; cbn; [now rewrite Ts|]. rewrite (Nl x (or_introl eq_refl)). apply IH. intros y Hy. apply Nl. now right.
Qed.
(** The parts of a context. *)
Lemma ctx_rebase s A p : In p (ctx A s) -> p = (A, data s) \/ exists d l x, p = (d :: l ++ A, x) /\ forall B, In (d :: l ++ B, x) (ctx B s).
Proof.
  intros H. rewrite ctx_app in H. apply in_map_iff in H. destruct H as ([l x] & <- & H). cbn [fst snd]. destruct l as [|d l].
  - left. destruct s as [d0 ch]. cbn in H. destruct H as [E|H]; [inversion E; reflexivity|]. exfalso. apply in_flat_map in H. destruct H as (c & _ & H). rewrite ctx_app in H. apply in_map_iff in H. destruct H as ([l' y] & E & _). inversion E as [[E1 E2]]. destruct l'; discriminate.
  - right. exists d, l, x. split; [reflexivity|]. intros B. rewrite ctx_app. apply in_map_iff. exists (d :: l, x). auto.
Qed.
Section moves.
Variables (m sv : nat).
Definition node_ok (T : tree) (k : nat) : Prop := exists d, In d (flat T) /\ key d = k /\ k <> m /\ k <> sv /\ k <> root_key T.
Record ok (T : tree) : Prop := { ok_nodup : NoDup (keys T); ok_front : front m sv T; ok_root : root_key T <> m /\ sv <> m /\ sv <> root_key T }.
Lemma move_spec T k : ok T -> node_ok T k -> exists s a rest dm ds,
  In (a, s) (places [] T) /\ root_key s = k /\ key dm = m /\ is_defs dm = true /\ key ds = sv /\
  Permutation (ctx [] T) (ctx a s ++ rest) /\ Permutation (ctx [] (move k m T)) (ctx [dm; ds; data T] s ++ rest) /\ In ([ds; data T], dm) rest /\ ok (move k m T) /\ root_key (move k m T) = root_key T /\ data (move k m T) = data T.
Proof.
  intros [N F (R1 & R2 & R3)] (d & Hd & Kd & N1 & N2 & N3). assert (Hd' := Hd). rewrite <- (map_snd_ctx [] T) in Hd. apply in_map_iff in Hd. destruct Hd as ([a d'] & E & Hd). cbn in E. subst d'. apply ctx_place in Hd. destruct Hd as (s & Hs & Es).
  destruct (front_ctx _ _ _ F) as (ds & dm & H1 & H2 & K1 & D1 & K2 & T2).
  assert (Ks : root_key s = k) by (unfold root_key; congruence).
  assert (Nin : ~ In (key dm) (keys s)).
  { intros X. rewrite <- (ctx_keys s a) in X. apply in_map_iff in X. destruct X as (p & Ep & Hp).
    assert (Hp' : In p (ctx [] T)). { destruct (ctx_set T s a [] N Hs) as (pre & post & E & _). rewrite E. apply in_or_app. right. apply in_or_app. now left. }
    assert (Q : p = ([ds; data T], dm)) by (apply (ctx_unique T []); auto). subst p. apply ctx_rebase in Hp. destruct Hp as [Hp|(d0 & l & x & Hp & HB)].
    - inversion Hp as [[E1 E2]]. apply N1. unfold root_key in Ks. rewrite <- Ks, <- E2. exact K1.
    - inversion Hp as [[E1 E2 E3]]. subst d0. assert (Z : In (data s) (ds :: l ++ a) \/ True) by auto. clear Z.
      (* the ancestors of dm are ds and the root; the node s is one of them *)
      assert (In (data s) [ds; data T]).
      { assert (G : forall t B p, In p (ctx B t) -> p = (B, data t) \/ exists q, fst p = q ++ data t :: B).
        { clear. induction t as [d ch IH] using tree_ind'. intros B p [<-|H]; [now left|]. right. apply in_flat_map in H. destruct H as (c & Hc & H). rewrite Forall_forall in IH. destruct (IH c Hc (d :: B) p H) as [->|(q & ->)]; [exists []; reflexivity|exists (q ++ [data c]); now rewrite <- app_assoc]. }
        specialize (HB a). destruct (G s a _ HB) as [X|(q & X)].
        - inversion X as [[X1 X2]]. exfalso. assert (L : List.length (ds :: l ++ a) = List.length a) by now rewrite X1. cbn in L. rewrite app_length in L. lia.
        - cbn [fst] in X. rewrite E2. cbn [In]. change (In (data s) (ds :: l ++ a)). rewrite X. apply in_or_app. right. now left. }
      destruct H as [H|[H|[]]]; [apply N2; unfold root_key in Ks; congruence|apply N3; unfold root_key in *; congruence]. }
  destruct (ctx_move T s a dm [ds; data T] N Hs) as (rest & P1 & P2 & I & PK); [congruence|exact H1|exact Nin|]. rewrite Ks, K1 in *.
  assert (Rt : data (move k m T) = data T). { unfold move. destruct (find_sub k T); [|reflexivity]. now rewrite data_set_kids, data_detach. }
  exists s, a, rest, dm, ds. repeat (split; [assumption|]). split; [|split; [unfold root_key; now rewrite Rt|exact Rt]]. split.
  - apply (Permutation_NoDup (Permutation_sym PK) N).
  - unfold move. rewrite <- Ks. rewrite (find_sub_iff T s N (place_sub _ _ _ _ Hs)). apply front_set; [apply front_detach; auto; congruence|now rewrite root_detach|exact R2].
  - unfold root_key in *. now rewrite Rt.
Qed.
Lemma move_perm T k : ok T -> node_ok T k -> Permutation (flat (move k m T)) (flat T).
Proof.
  intros O K. destruct (move_spec T k O K) as (s & a & rest & dm & ds & _ & _ & _ & _ & _ & P1 & P2 & _). rewrite <- (map_snd_ctx [] (move k m T)), <- (map_snd_ctx [] T). rewrite P1, P2. rewrite !map_app, !map_snd_ctx. reflexivity.
Qed.
(** Where the nodes are after a move. *)
Lemma move_ctx T k p : ok T -> node_ok T k -> In p (ctx [] (move k m T)) ->
  (key (snd p) = k /\ child_of m p = true) \/ (key (snd p) <> k /\ exists q, In q (ctx [] T) /\ snd q = snd p /\ forall j, child_of j q = child_of j p).
Proof.
  intros O K Hp. assert (O' := O). destruct (move_spec T k O K) as (s & a & rest & dm & ds & Hs & Ks & Km & Dm & Ksv & P1 & P2 & I & O2 & _). pose proof (ok_nodup _ O2) as N2.
  apply (Permutation_in p P2) in Hp. apply in_app_or in Hp. rewrite <- (ctx_keys (move k m T) []) in N2. apply (Permutation_NoDup (Permutation_map _ P2)) in N2. rewrite map_app, ctx_keys in N2. apply NoDup_app_inv in N2. destruct N2 as (Ns & _ & D).
  destruct Hp as [Hp|Hp].
  - apply ctx_rebase in Hp. destruct Hp as [->|(d0 & l & x & -> & HB)].
    + left. split; [exact Ks|]. cbn. rewrite Km. apply Nat.eqb_refl.
    + right. cbn [snd]. split.
      * intros E. assert (Q : (d0 :: l ++ [], x) = ([], data s)) by (apply (ctx_unique s []); [exact Ns|apply HB|destruct s; now left|cbn; unfold root_key in Ks; congruence]). discriminate.
      * exists (d0 :: l ++ a, x). split; [apply (Permutation_in _ (Permutation_sym P1)), in_or_app; left; apply HB|]. split; [reflexivity|]. intros j. reflexivity.
  - right. split.
    + intros E. apply (D k); [rewrite <- Ks; rewrite keys_kids; now left|]. apply in_map_iff. exists p. auto.
    + exists p. split; [apply (Permutation_in _ (Permutation_sym P1)), in_or_app; now right|]. auto.
Qed.
End moves.

(** ** Resolving attributes *)
Definition grown (T : tree) (d d' : ndata) : Prop :=
  sig d' = sig d /\ incl (attrs d) (attrs d') /\ (attrs_nodup d -> attrs_nodup d') /\
  forall x, In x (attrs d') -> In x (attrs d) \/ (inheritable_attr x = true /\ exists y, In y (flat T) /\ In x (attrs y)).
Lemma grown_refl T d : grown T d d. Proof. repeat split; auto using incl_refl. Qed.
Lemma add_attr_spec d x : inheritable_attr x = true -> sig (add_attr d x) = sig d /\ incl (attrs d) (attrs (add_attr d x)) /\ (attrs_nodup d -> attrs_nodup (add_attr d x)) /\ (forall y, In y (attrs (add_attr d x)) -> In y (attrs d) \/ y = x).
Proof.
  intros I. unfold add_attr. destruct (a_name x) as [a|] eqn:E; [|auto using incl_refl]. destruct (d_has d a) eqn:H; [auto using incl_refl|]. cbn. split; [reflexivity|]. split; [apply incl_appl, incl_refl|]. split.
  - unfold attrs_nodup. cbn. rewrite map_app. intros N. apply NoDup_app_intro; [exact N|constructor; [auto|constructor]|]. intros n Hn [<-|[]]. apply in_map_iff in Hn. destruct Hn as (y & Ey & Hy). unfold d_has, has_attr in H. destruct (get_attr (attrs d) a) eqn:G; [discriminate|]. apply (get_attr_none (attrs d) a) with (x := y) in G; auto. apply G. now rewrite Ey.
  - intros y Hy. apply in_app_or in Hy. destruct Hy as [Hy|[<-|[]]]; auto.
Qed.
Lemma add_missing_grown T l d : (forall p, In p l -> In p (flat T)) -> grown T d (add_missing l d).
Proof.
  intros Hl. unfold add_missing. set (xs := flat_map (fun p => filter inheritable_attr (attrs p)) l).
  assert (Hx : forall x, In x xs -> inheritable_attr x = true /\ exists y, In y (flat T) /\ In x (attrs y)).
  { intros x Hx. apply in_flat_map in Hx. destruct Hx as (y & Hy & Hx). apply filter_In in Hx. destruct Hx as [Hx I]. eauto. }
  clearbody xs. revert d. induction xs as [|x xs IH]; intros d; [apply grown_refl|]. cbn [fold_left]. destruct (Hx x (or_introl eq_refl)) as [I Y]. destruct (add_attr_spec d x I) as (S1 & S2 & S3 & S4).
  destruct (IH (fun y Hy => Hx y (or_intror Hy)) (add_attr d x)) as (R1 & R2 & R3 & R4). split; [congruence|]. split; [eapply incl_tran; eauto|]. split; [auto|].
  intros y Hy. destruct (R4 y Hy) as [H|H]; [|auto]. destruct (S4 y H) as [H'| ->]; auto.
Qed.
(** [resolve_attrs] is a change of nodes. *)
Definition resolver (k : nat) (t : tree) (d : ndata) : ndata :=
  match context k t with
  | Some (anc, n) => if resolves n && existsb (Nat.eqb (key d)) (map (fun p => key (snd p)) (filter (child_of k) (ctx [] t))) then add_missing (n :: anc) d else d
  | None => d
  end.
Lemma resolve_tmap k t : resolve_attrs k t = tmap (resolver k t) t.
Proof.
  unfold resolve_attrs, resolver. destruct (context k t) as [[anc n]|]; [|symmetry; apply tmap_id; auto]. destruct (resolves n); cbn [andb]; [reflexivity|symmetry; apply tmap_id; auto].
Qed.
Lemma ctx_anc_in t : forall A p x, In p (ctx A t) -> In x (fst p) -> In x A \/ In x (flat t).
Proof.
  induction t as [d ch IH] using tree_ind'. intros A p x [<-|H] Hx; [auto|]. apply in_flat_map in H. destruct H as (c & Hc & H). rewrite Forall_forall in IH. destruct (IH c Hc (d :: A) p x H Hx) as [[<-|I]|I]; [right; now left|auto|]. right. right. apply in_flat_map. eauto.
Qed.
Lemma context_some k t p : context k t = Some p -> In p (ctx [] t) /\ key (snd p) = k.
Proof. unfold context. intros H. apply find_some in H. destruct H as [H E]. apply Nat.eqb_eq in E. auto. Qed.
Lemma ctx_in_flat t A p : In p (ctx A t) -> In (snd p) (flat t).
Proof. intros H. rewrite <- (map_snd_ctx A t). now apply in_map. Qed.
Lemma resolver_grown k t d : grown t d (resolver k t d).
Proof.
  unfold resolver. destruct (context k t) as [[anc n]|] eqn:E; [|apply grown_refl]. destruct (resolves n && _); [|apply grown_refl]. apply add_missing_grown. apply context_some in E. destruct E as [E _]. intros p [<-|Hp].
  - apply (ctx_in_flat t [] _ E).
  - destruct (ctx_anc_in t [] _ p E Hp) as [[]|H]; exact H.
Qed.
Lemma resolver_sig k t d : sig (resolver k t d) = sig d. Proof. apply (resolver_grown k t d). Qed.
Lemma child_of_map g p j : (forall d, sig (g d) = sig d) -> child_of j (map g (fst p), g (snd p)) = child_of j p.
Proof. intros G. unfold child_of. destruct p as [[|d l] x]; [reflexivity|]. cbn. now rewrite (sig_key _ _ (G d)). Qed.
Lemma ctx_tmap0 g t : ctx [] (tmap g t) = map (fun p => (map g (fst p), g (snd p))) (ctx [] t).
Proof. apply (ctx_tmap g t []). Qed.
Lemma ok_tmap m sv g T : ok m sv T -> (forall d, sig (g d) = sig d) -> ok m sv (tmap g T).
Proof.
  intros [N F R] G. assert (K : root_key (tmap g T) = root_key T) by (unfold root_key; rewrite data_tmap; apply sig_key, G). split; [rewrite keys_tmap; [exact N|intros d; apply sig_key, G]|now apply front_tmap|now rewrite K].
Qed.
Lemma node_ok_tmap m sv g T k : node_ok m sv T k -> (forall d, sig (g d) = sig d) -> node_ok m sv (tmap g T) k.
Proof. intros (d & Hd & Kd & N) G. exists (g d). rewrite flat_tmap. split; [now apply in_map|]. split; [rewrite (sig_key _ _ (G d)); exact Kd|]. unfold root_key in *. rewrite data_tmap, (sig_key _ _ (G (data T))). exact N. Qed.
(** ** The second step *)
Definition grows (T T' : tree) : Prop :=
  (forall d, In d (flat T) -> exists d', In d' (flat T') /\ grown T d d') /\ (forall d', In d' (flat T') -> exists d, In d (flat T) /\ grown T d d').
Lemma grown_trans T T' a b c : (forall d', In d' (flat T') -> exists d, In d (flat T) /\ grown T d d') -> grown T a b -> grown T' b c -> grown T a c.
Proof.
  intros H (A1 & A2 & A3 & A4) (B1 & B2 & B3 & B4). split; [congruence|]. split; [eapply incl_tran; eauto|]. split; [auto|]. intros x Hx. destruct (B4 x Hx) as [Hb|[I (y & Hy & Hxy)]]; [auto|].
  right. split; [exact I|]. destruct (H y Hy) as (z & Hz & (_ & _ & _ & G4)). destruct (G4 x Hxy) as [Q|[_ Q]]; [eauto|exact Q].
Qed.
Lemma grows_trans T T' T'' : grows T T' -> grows T' T'' -> grows T T''.
Proof.
  intros [A1 A2] [B1 B2]. split.
  - intros d Hd. destruct (A1 d Hd) as (d' & Hd' & G). destruct (B1 d' Hd') as (e & He & G2). exists e. split; [exact He|]. exact (grown_trans T T' d d' e A2 G G2).
  - intros e He. destruct (B2 e He) as (d' & Hd' & G2). destruct (A2 d' Hd') as (d & Hd & G). exists d. split; [exact Hd|]. exact (grown_trans T T' d d' e A2 G G2).
Qed.
Lemma grows_perm T T' : Permutation (flat T') (flat T) -> grows T T'.
Proof. intros P. split; intros d Hd; exists d; (split; [|apply grown_refl]); [apply (Permutation_in d (Permutation_sym P))|apply (Permutation_in d P)]; exact Hd. Qed.
Lemma grows_tmap T g : (forall d, grown T d (g d)) -> grows T (tmap g T).
Proof.
  intros G. split; intros d Hd; rewrite flat_tmap in *.
  - exists (g d). split; [now apply in_map|auto].
  - apply in_map_iff in Hd. destruct Hd as (x & <- & Hx). eauto.
Qed.
Lemma move_step_grows m sv T k : ok m sv T -> node_ok m sv T k -> ok m sv (move_step m T k) /\ grows T (move_step m T k) /\ sig (data (move_step m T k)) = sig (data T) /\
  (forall p, In p (ctx [] (move_step m T k)) -> (key (snd p) = k /\ child_of m p = true) \/ (key (snd p) <> k /\ exists q, In q (ctx [] T) /\ sig (snd q) = sig (snd p) /\ forall j, child_of j q = child_of j p)).
Proof.
  intros O K. unfold move_step. rewrite resolve_tmap. set (g := resolver k T). assert (G : forall d, sig (g d) = sig d) by apply resolver_sig.
  pose proof (ok_tmap m sv g T O G) as O1. pose proof (node_ok_tmap m sv g T k K G) as K1.
  destruct (move_spec m sv (tmap g T) k O1 K1) as (s & a & rest & dm & ds & _ & _ & _ & _ & _ & _ & _ & _ & O2 & _ & Dt). split; [exact O2|]. split; [|split].
  - apply (grows_trans _ (tmap g T)); [apply grows_tmap, resolver_grown|apply grows_perm, (move_perm m sv); auto].
  - rewrite Dt, data_tmap. apply G.
  - intros p Hp. destruct (move_ctx m sv (tmap g T) k p O1 K1 Hp) as [H|[H (q & Hq & Eq & Cq)]]; [auto|]. right. split; [exact H|]. rewrite ctx_tmap0 in Hq. apply in_map_iff in Hq. destruct Hq as (q0 & <- & Hq0). exists q0. split; [exact Hq0|]. cbn [snd] in Eq. split; [rewrite <- Eq; symmetry; apply G|].
    intros j. rewrite <- Cq. symmetry. apply child_of_map, G.
Qed.
Definition refs_done (m : nat) (T : tree) (rem : list nat) : Prop := forall p, In p (ctx [] T) -> is_ref (snd p) = true -> child_of m p = true \/ In (key (snd p)) rem.
Lemma ref_node_ok m sv T k : ok m sv T -> is_svg_el (data T) = false -> (exists d, In d (flat T) /\ key d = k /\ is_ref d = true) -> node_ok m sv T k.
Proof.
  intros [N F R] Rt (d & Hd & Kd & Rd). exists d. split; [exact Hd|]. split; [exact Kd|]. destruct (front_ctx _ _ _ F) as (ds & dm & H1 & H2 & K1 & D1 & K2 & T2).
  apply ctx_in_flat in H1, H2. cbn in H1, H2. split; [|split].
  - intros E. assert (d = dm) by (apply (data_unique T); auto; congruence). subst. unfold is_defs, is_tag in D1. unfold is_ref in Rd. destruct (tag dm) as [|e| | | |]; try discriminate. destruct (eid_eqb_spec e EDefs); [subst e; discriminate|discriminate].
  - intros E. assert (d = ds) by (apply (data_unique T); auto; congruence). subst. unfold is_tag in T2. unfold is_ref in Rd. destruct (tag ds) as [|e| | | |]; try discriminate. destruct (eid_eqb_spec e ESvg); [subst e; discriminate|discriminate].
  - intros E. assert (d = data T) by (apply (data_unique T); auto; [apply flat_self|unfold root_key in E; congruence]). subst. unfold is_ref in Rd. unfold is_svg_el in Rt. destruct (tag (data T)); discriminate.
Qed.
Lemma svg_el_sig d d' : sig d' = sig d -> is_svg_el d' = is_svg_el d. Proof. intros E. unfold is_svg_el. now rewrite (sig_tag _ _ E). Qed.
Lemma second_step m sv : forall rem T, ok m sv T -> is_svg_el (data T) = false -> refs_done m T rem -> (forall k, In k rem -> exists d, In d (flat T) /\ key d = k /\ is_ref d = true) ->
  let T' := fold_left (move_step m) rem T in ok m sv T' /\ is_svg_el (data T') = false /\ refs_done m T' [] /\ grows T T' /\ sig (data T') = sig (data T).
Proof.
  induction rem as [|k rem IH]; intros T O Rt D Hk; cbn [fold_left].
  - split; [exact O|]. split; [exact Rt|]. split; [exact D|]. split; [apply grows_perm; reflexivity|reflexivity].
  - pose proof (ref_node_ok m sv T k O Rt (Hk k (or_introl eq_refl))) as K. destruct (move_step_grows m sv T k O K) as (O' & G & Sd & C).
    destruct (IH (move_step m T k)) as (O2 & R2 & D2 & G2 & S2); [exact O'|rewrite (svg_el_sig _ _ Sd); exact Rt| | |].
    + intros p Hp Rp. destruct (C p Hp) as [[_ H]|[Nk (q & Hq & Sq & Cq)]]; [auto|]. rewrite <- (is_ref_sig _ _ Sq) in Rp. destruct (D q Hq Rp) as [H|H]; [left; now rewrite <- Cq|]. right. rewrite <- (sig_key _ _ Sq). destruct H as [H|H]; [|exact H]. exfalso. apply Nk. rewrite <- (sig_key _ _ Sq). now symmetry.
    + intros j Hj. destruct (Hk j (or_intror Hj)) as (d & Hd & Kd & Rd). destruct G as [G1 _]. destruct (G1 d Hd) as (d' & Hd' & (S1 & _)). exists d'. split; [exact Hd'|]. split; [rewrite (sig_key _ _ S1); exact Kd|rewrite (is_ref_sig _ _ S1); exact Rd].
    + split; [exact O2|]. split; [exact R2|]. split; [exact D2|]. split; [eapply grows_trans; eauto|congruence].
Qed.
(** ** The third step *)
Lemma third_step m sv (OD : nat -> Prop) : ~ OD m -> forall rem T, ok m sv T -> (forall k, In k rem -> node_ok m sv T k) -> refs_done m T [] ->
  (forall p j, In p (ctx [] T) -> child_of j p = true -> OD j -> In (key (snd p)) rem) ->
  let T' := fold_left (fun t k => move k m t) rem T in ok m sv T' /\ data T' = data T /\ refs_done m T' [] /\ Permutation (flat T') (flat T) /\ forall p j, In p (ctx [] T') -> child_of j p = true -> ~ OD j.
Proof.
  intros Nm. induction rem as [|k rem IH]; intros T O Hk D C; cbn [fold_left].
  - split; [exact O|]. split; [reflexivity|]. split; [exact D|]. split; [reflexivity|]. intros p j Hp Hc Hj. exact (C p j Hp Hc Hj).
  - pose proof (Hk k (or_introl eq_refl)) as K. destruct (move_spec m sv T k O K) as (s & a & rest & dm & ds & _ & _ & _ & _ & _ & _ & _ & _ & O2 & Rk & Dt). pose proof (move_perm m sv T k O K) as P.
    pose proof (move_ctx m sv T k) as MC. destruct (IH (move k m T)) as (O3 & D3 & R3 & P3 & C3); [exact O2| | | |].
    + intros j Hj. destruct (Hk j (or_intror Hj)) as (d & Hd & Kd & N1 & N2 & N3). exists d. split; [apply (Permutation_in d (Permutation_sym P)); exact Hd|]. rewrite Rk. auto.
    + intros p Hp Rp. left. destruct (MC p O K Hp) as [[_ H]|[_ (q & Hq & Sq & Cq)]]; [exact H|]. rewrite <- Sq in Rp. destruct (D q Hq Rp) as [H|[]]. now rewrite <- Cq.
    + intros p j Hp Hc Hj. destruct (MC p O K Hp) as [[_ H]|[Nk (q & Hq & Sq & Cq)]].
      * exfalso. unfold child_of in H, Hc. destruct (fst p) as [|y l]; [discriminate|]. apply Nat.eqb_eq in H, Hc. apply Nm. congruence.
      * rewrite <- Cq in Hc. destruct (C q j Hq Hc Hj) as [H|H]; [exfalso; apply Nk; rewrite <- Sq; now symmetry|]. now rewrite <- Sq.
    + split; [exact O3|]. split; [congruence|]. split; [exact R3|]. split; [now rewrite P3|exact C3].
Qed.
(** ** The last step *)
Definition cut_links (k : nat) (d : ndata) : ndata := with_attrs d (filter (fun a => negb (refers k a)) (attrs d)).
Lemma cut_sig k d : sig (cut_links k d) = sig d. Proof. reflexivity. Qed.
Lemma place_kid_child t s a c : In (a, s) (places [] t) -> In c (kids s) -> exists p, In p (ctx [] t) /\ child_of (root_key s) p = true /\ snd p = data c.
Proof. intros H Hc. exists (data s :: a, data c). split; [apply ctx_place; exists c; split; [now apply place_kid|reflexivity]|]. cbn. unfold root_key. rewrite Nat.eqb_refl. auto. Qed.
Lemma remove_leaf m sv T k : ok m sv T -> node_ok m sv T k -> (forall p, In p (ctx [] T) -> child_of k p = false) ->
  ok m sv (remove k T) /\ sig (data (remove k T)) = sig (data T) /\
  (forall p, In p (ctx [] (remove k T)) <-> exists q, In q (ctx [] T) /\ key (snd q) <> k /\ p = (map (cut_links k) (fst q), cut_links k (snd q))).
Proof.
  intros O (d & Hd & Kd & N1 & N2 & N3) L. pose proof (ok_nodup _ _ _ O) as N. rewrite <- (map_snd_ctx [] T) in Hd. apply in_map_iff in Hd. destruct Hd as ([a d'] & E & Hd). cbn in E. subst d'. assert (Hd0 := Hd). apply ctx_place in Hd. destruct Hd as (s & Hs & Es).
  assert (Ks : root_key s = k) by (unfold root_key; congruence). assert (Kids : kids s = []).
  { destruct (kids s) as [|c l] eqn:Ek; [reflexivity|]. destruct (place_kid_child T s a c Hs) as (p & Hp & Cp & _); [rewrite Ek; now left|]. rewrite Ks in Cp. rewrite (L p Hp) in Cp. discriminate. }
  assert (SK : sub_keys k T = [k]). { unfold sub_keys. rewrite <- Ks at 1. rewrite (find_sub_iff T s N (place_sub _ _ _ _ Hs)). rewrite keys_kids, Kids. cbn. now rewrite Ks. }
  assert (U : unlink (sub_keys k T) T = tmap (cut_links k) T). { unfold unlink. rewrite SK. apply tmap_ext. intros x _. unfold cut_links. f_equal. apply filter_ext. intros y. cbn. now rewrite orb_false_r. }
  unfold remove. rewrite U. set (T1 := tmap (cut_links k) T). pose proof (ok_tmap m sv (cut_links k) T O (cut_sig k)) as O1. fold T1 in O1.
  assert (R1 : root_key T1 = root_key T) by (unfold T1, root_key; rewrite data_tmap; reflexivity).
  assert (Hs1 : In (map (cut_links k) a, tmap (cut_links k) s) (places [] T1)).
  { assert (X : In (map (cut_links k) a, cut_links k d) (ctx [] T1)) by (unfold T1; rewrite ctx_tmap0; apply in_map_iff; exists (a, d); auto). apply ctx_place in X. destruct X as (s1 & X & Ex).
    assert (s1 = tmap (cut_links k) s); [|now subst]. apply (sub_unique T1); [apply O1|apply (place_sub _ _ _ _ X)|unfold T1; rewrite subs_tmap; apply in_map; apply (place_sub _ _ _ _ Hs)|]. unfold root_key. rewrite data_tmap, Ex, Es. reflexivity. }
  assert (Ks1 : root_key (tmap (cut_links k) s) = k) by (unfold root_key; rewrite data_tmap; exact Ks).
  destruct (ctx_detach T1 (tmap (cut_links k) s) (map (cut_links k) a) [] (ok_nodup _ _ _ O1) Hs1) as (pre & post & E1 & E2); [congruence|]. rewrite Ks1 in E2.
  assert (Leaf : ctx (map (cut_links k) a) (tmap (cut_links k) s) = [(map (cut_links k) a, cut_links k d)]) by (destruct s as [ds cs]; cbn in Kids, Es; subst; reflexivity).
  rewrite Leaf in E1. pose proof (ok_nodup _ _ _ O1) as ND. rewrite <- (ctx_keys T1 []), E1 in ND. cbn [app] in ND. rewrite map_app in ND. cbn [map snd] in ND. pose proof (NoDup_remove_2 _ _ _ ND) as ND2. rewrite <- map_app in ND2. apply NoDup_remove_1 in ND. rewrite <- map_app in ND.
  split; [|split].
  - split; [rewrite <- (ctx_keys _ []), E2; exact ND| |].
    + apply front_detach; [apply O1|auto|auto].
    + rewrite root_detach. apply O1.
  - rewrite data_detach. unfold T1. rewrite data_tmap. reflexivity.
  - intros p. rewrite E2. split.
    + intros Hp. assert (Hp1 : In p (ctx [] T1)) by (rewrite E1; apply in_app_or in Hp; apply in_or_app; destruct Hp; [auto|right; now right]). unfold T1 in Hp1. rewrite ctx_tmap0 in Hp1. apply in_map_iff in Hp1. destruct Hp1 as (q & <- & Hq). exists q. split; [exact Hq|]. split; [|reflexivity].
      intros X. apply ND2. change (key (cut_links k d)) with (key d). rewrite Kd, <- X. apply in_map_iff. eexists. split; [|exact Hp]. reflexivity.
    + intros (q & Hq & Nq & ->). assert (Hp1 : In (map (cut_links k) (fst q), cut_links k (snd q)) (ctx [] T1)) by (unfold T1; rewrite ctx_tmap0; apply in_map_iff; eauto). rewrite E1 in Hp1. apply in_app_or in Hp1. apply in_or_app. destruct Hp1 as [H|[H|H]]; auto. exfalso. inversion H as [[H1 H2]]. apply Nq. congruence.
Qed.
