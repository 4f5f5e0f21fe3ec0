(** Proofs for RmText.v. *)
From Coq Require Import List Bool NArith Arith ZArith String Ascii Lia QArith Qcanon.
From Verif Require Import Names Num Value Dom DomFacts DomOps Outcome DomRemove Stops SpecStops AttrFacts StopsProofs NPass SpecDom SpecStyle SpecWritten GradTransProofs Transforms TransformsProofs Props_transforms.
From Verif Require Import RmText SpecText.
Import ListNotations.
Local Open Scope nat_scope.

(** ** White space *)
Lemma blank_space c : blank c = true -> is_space c = true.
Proof. unfold blank, is_space. intros ->. apply orb_true_r. Qed.
Definition detab (c : ascii) : ascii := if tab c then sp else c.
Lemma detab_space c : blank (detab c) = true -> is_space c = true.
Proof.
  unfold detab, tab. destruct (Nat.eqb_spec (nat_of_ascii c) 9) as [E|E]; intros H; [unfold is_space; rewrite E; reflexivity|now apply blank_space].
Qed.
Lemma trim_start_head l : trim_start l = l -> match l with c :: _ => is_space c = false | [] => True end.
Proof.
  destruct l as [|c l]; [trivial|]. cbn. destruct (is_space c) eqn:E; [|reflexivity]. intros H. exfalso.
  assert (L : forall m, List.length (trim_start m) <= List.length m) by (induction m as [|x m IH]; cbn; [lia|destruct (is_space x); cbn; lia]).
  specialize (L l). rewrite H in L. cbn in L. lia.
Qed.
Lemma trim_start_len l : List.length (trim_start l) <= List.length l.
Proof. induction l as [|c l IH]; cbn; [lia|]. destruct (is_space c); cbn; lia. Qed.
Lemma trim_start_eq l : List.length (trim_start l) = List.length l -> trim_start l = l.
Proof. destruct l as [|c l]; [reflexivity|]. cbn. destruct (is_space c); [|reflexivity]. pose proof (trim_start_len l). lia. Qed.
Lemma trim_eq l : trim l = l -> trim_start l = l /\ trim_start (rev l) = rev l.
Proof.
  unfold trim. intros H. assert (L : List.length (rev (trim_start (rev (trim_start l)))) = List.length l) by now rewrite H.
  rewrite rev_length in L. pose proof (trim_start_len (rev (trim_start l))) as L1. rewrite rev_length in L1. pose proof (trim_start_len l) as L2.
  assert (E : trim_start l = l) by (apply trim_start_eq; lia). split; [exact E|]. rewrite E in *. apply trim_start_eq. rewrite rev_length. lia.
Qed.
Lemma strip_id m : match m with c :: _ => blank c = false | [] => True end -> match rev m with c :: _ => blank c = false | [] => True end -> strip m = m.
Proof.
  intros H1 H2. unfold strip. assert (E : strip_start m = m) by (destruct m as [|c m]; cbn; [reflexivity|now rewrite H1]). rewrite E.
  assert (E2 : strip_start (rev m) = rev m) by (destruct (rev m) as [|c m']; cbn; [reflexivity|now rewrite H2]). rewrite E2. apply rev_involutive.
Qed.
Lemma consolidate_id l : adjacent_spaces l = false -> consolidate (map detab l) = map detab l.
Proof.
  induction l as [|c1 l IH]; [reflexivity|]. destruct l as [|c2 l]; [reflexivity|]. intros H. cbn [adjacent_spaces] in H. apply orb_false_iff in H. destruct H as [H1 H2].
  specialize (IH H2). cbn [map] in *. cbn [consolidate] in *. destruct (blank (detab c1) && blank (detab c2)) eqn:E; [|now rewrite IH].
  apply andb_true_iff in E. destruct E as [E1 E2]. apply detab_space in E1, E2. rewrite E1, E2 in H1. discriminate.
Qed.
(** A text without relevant white space is shown the same in both modes. *)
Lemma insensitive s : plain_space s -> contains_spaces s = false -> default_text s = preserved_text s.
Proof.
  unfold contains_spaces, default_text, preserved_text, plain_space. set (l := list_ascii_of_string s). clearbody l. intros P H.
  assert (NL : forall c, In c l -> newline c = false).
  { intros c Hc. specialize (P c Hc). cbn in P. unfold newline. apply orb_false_iff. split; apply Nat.eqb_neq; lia. }
  assert (F : filter (fun c => negb (newline c)) l = l).
  { clear -NL. induction l as [|c l IH]; [reflexivity|]. cbn. rewrite NL by now left. cbn. f_equal. apply IH. intros x Hx. apply NL. now right. }
  rewrite F. assert (M : map (fun c => if tab c || newline c then sp else c) l = map detab l).
  { apply map_ext_in. intros c Hc. rewrite (NL c Hc), orb_false_r. reflexivity. }
  rewrite M. fold detab. change (fun c => if tab c then sp else c) with detab. destruct l as [|c0 l0] eqn:El; [reflexivity|]. rewrite <- El in *.
  assert (X : (if ascii_list_eqb (trim l) l then adjacent_spaces (trim l) else true) = false) by (rewrite El in *; exact H). clear H.
  unfold ascii_list_eqb in X. destruct (list_eq_dec ascii_dec (trim l) l) as [E|]; [|discriminate]. rewrite E in X.
  destruct (trim_eq l E) as [E1 E2]. apply trim_start_head in E1, E2.
  rewrite strip_id; [now apply consolidate_id| |].
  - rewrite El in *. cbn. destruct (blank (detab c0)) eqn:B; [|reflexivity]. apply detab_space in B. congruence.
  - rewrite <- map_rev. destruct (rev l) as [|c r]; [exact I|]. cbn. destruct (blank (detab c)) eqn:B; [|reflexivity]. apply detab_space in B. congruence.
Qed.

(** ** Places *)
Lemma places_app t : forall anc, places anc t = map (fun p => (fst p ++ anc, snd p)) (places [] t).
Proof.
  induction t as [d ch IH] using tree_ind'. intros anc. cbn [places map fst snd app]. f_equal.
  rewrite flat_map_concat_map, flat_map_concat_map, concat_map, map_map. f_equal. apply map_ext_in. intros c Hc. rewrite Forall_forall in IH.
  rewrite (IH c Hc (d :: anc)), (IH c Hc [d]), map_map. apply map_ext. intros p. cbn. f_equal. rewrite <- app_assoc. reflexivity.
Qed.
Lemma Forall2_map2 {A B C D} (f : A -> C) (g : B -> D) (R : C -> D -> Prop) l l' : Forall2 (fun x y => R (f x) (g y)) l l' -> Forall2 R (map f l) (map g l').
Proof. induction 1; constructor; auto. Qed.
Lemma Forall2_flat_map {A B C D} (f : A -> list C) (g : B -> list D) (R : C -> D -> Prop) l l' : Forall2 (fun x y => Forall2 R (f x) (g y)) l l' -> Forall2 R (flat_map f l) (flat_map g l').
Proof. induction 1; [constructor|]. cbn. now apply Forall2_app. Qed.
Lemma Forall2_map_self {A B} (f : A -> B) (R : A -> B -> Prop) l : Forall (fun x => R x (f x)) l -> Forall2 R l (map f l).
Proof. induction 1; constructor; auto. Qed.

(** Nothing but line-height is lost. *)
Definition kept (d d' : ndata) : Prop :=
  tag d' = tag d /\ forall a, a <> ALineHeight -> get_attr (attrs d') a = get_attr (attrs d) a /\ d_get (vis d') a = d_get (vis d) a.
Lemma kept_rm d : attrs_nodup d -> kept d (d_rm d ALineHeight).
Proof.
  intros N. split; [reflexivity|]. intros a Na. split; [unfold d_rm; cbn; apply get_rm_other; congruence|]. apply vis_rm; congruence.
Qed.
Lemma kept_refl d : kept d d. Proof. split; [reflexivity|]. auto. Qed.
Definition el_path (l : list ndata) : Prop := Forall (fun d => exists e, tag d = TEl e) l.

Definition step1_ok (ok : bool) (p p' : list ndata * tree) : Prop :=
  tag (data (snd p')) = tag (data (snd p)) /\
  (el_path (fst p) -> depends_on_font (snd p) -> ok = false /\ Forall2 kept (data (snd p) :: fst p) (data (snd p') :: fst p')).

Lemma svg_el_iff d : is_svg_el d = true <-> exists e, tag d = TEl e.
Proof. unfold is_svg_el. destruct (tag d); (split; [intros H; try discriminate; eauto|intros [x H]; try discriminate; reflexivity]). Qed.
Lemma is_text_iff d : is_text d = true <-> exists s, tag d = TText s.
Proof. unfold is_text. destruct (tag d); (split; [intros H; try discriminate; eauto|intros [x H]; try discriminate; reflexivity]). Qed.
Lemma rm_all_tag l : forall d, tag (rm_all l d) = tag d /\ key (rm_all l d) = key d /\ nid (rm_all l d) = nid d.
Proof. induction l as [|a l IH]; intros d; [auto|]. exact (IH (d_rm d a)). Qed.
Lemma places_tags d ch d' ch' : tag d' = tag d -> Forall2 (fun c c' => Forall2 (fun p p' : list ndata * tree => tag (data (snd p')) = tag (data (snd p))) (places [] c) (places [] c')) ch ch' ->
  Forall2 (fun p p' : list ndata * tree => tag (data (snd p')) = tag (data (snd p))) (places [] (T d ch)) (places [] (T d' ch')).
Proof.
  intros E F. cbn [places]. constructor; [exact E|]. apply Forall2_flat_map. eapply Forall2_impl; [|exact F]. cbn. intros c c' H.
  rewrite (places_app c), (places_app c'). apply Forall2_map2. exact H.
Qed.
Lemma places_svg_head d ch p : In p (flat_map (places [d]) ch) -> exists q c, In c ch /\ In q (places [] c) /\ p = (fst q ++ [d], snd q).
Proof. rewrite in_flat_map. intros (c & Hc & Hp). rewrite places_app in Hp. apply in_map_iff in Hp. destruct Hp as (q & <- & Hq). eauto. Qed.

Lemma step1_place t0 t : Forall attrs_nodup (flat t) -> Forall2 (step1_ok (snd (rm_text_child t0 t))) (places [] t) (places [] (fst (rm_text_child t0 t))).
Proof.
  induction t as [d0 ch IH] using tree_ind'. intros N. cbn [flat] in N. inversion N as [|? ? Nd Nc]; subst.
  pose proof (kept_rm d0 Nd) as Kd. set (d := d_rm d0 ALineHeight) in *. assert (Td : tag d = tag d0) by reflexivity.
  assert (Same : forall l : list tree, Forall2 (fun p p' : list ndata * tree => tag (data (snd p')) = tag (data (snd p))) (flat_map (places [d0]) l) (flat_map (places [d]) l)).
  { intros l. apply Forall2_flat_map. induction l as [|c l IHl]; constructor; [|exact IHl]. rewrite (places_app c [d0]), (places_app c [d]). apply Forall2_map2. cbn.
    induction (places [] c); constructor; auto. }
  cbn [rm_text_child]. fold d. destruct (is_svg_el d) eqn:S; cbn [negb].
  2: { cbn [fst snd]. cbn [places]. constructor.
       - split; [exact Td|]. cbn [fst snd data]. intros _ D. assert (X : is_text d = true).
         { destruct D as [(x & E)|[[_ E]|[_ [[e E] _]]]]; cbn [data] in E; [apply is_text_iff; exists x; exact E| |]; exfalso; unfold is_svg_el in S; rewrite Td, E in S; discriminate. }
         rewrite X. split; [reflexivity|]. constructor; [exact Kd|constructor].
       - eapply Forall2_impl; [|exact (Forall2_with_in _ _ _ (Same ch))]. cbn. intros p p' (Hp & E). split; [exact E|]. intros SP. exfalso.
         apply places_svg_head in Hp. destruct Hp as (q & c & _ & _ & ->). cbn in SP. unfold el_path in SP. apply Forall_app in SP. destruct SP as [_ SP]. inversion SP as [|? ? Sd _]; subst.
         rewrite <- Td in Sd. apply svg_el_iff in Sd. congruence. }
  destruct ch as [|c0 ch0].
  - cbn [fst snd places flat_map]. constructor; [|constructor]. destruct (is_text d || is_tag ETref d || has_em_ex_attributes d) eqn:B; cbn [negb andb].
    + split; [exact Td|]. cbn [fst snd data]. intros _ _. split; [reflexivity|]. constructor; [exact Kd|constructor].
    + split; [cbn [snd data]; destruct (_ && _); [|exact Td]; destruct (rm_all_tag text_attributes d) as (-> & _); exact Td|]. cbn [fst snd data]. intros _ D. exfalso.
      apply orb_false_iff in B. destruct B as [B B3]. apply orb_false_iff in B. destruct B as [B1 B2].
      destruct D as [(x & E)|[[_ E]|[_ [[e E] (x & l & Hx & Nx & Vx & Ul)]]]]; cbn [data] in *.
      * assert (X : is_text d = true) by (apply is_text_iff; exists x; exact E). congruence.
      * unfold is_tag in B2. rewrite Td, E in B2. discriminate.
      * unfold has_em_ex_attributes in B3. assert (X : existsb (fun x => em_ex (a_val x)) (attrs d) = true); [|congruence]. apply existsb_exists. exists x. split.
        -- unfold d, d_rm. cbn. apply filter_In. split; [exact Hx|]. apply negb_true_iff. unfold has_name. destruct (aname_eqb_spec (a_name x) (AN ALineHeight)); [contradiction|reflexivity].
        -- unfold em_ex. rewrite Vx. destruct Ul as [-> | ->]; reflexivity.
  - set (ch := c0 :: ch0) in *. assert (Ne : ch <> []) by discriminate. clearbody ch. cbn [fst snd].
    assert (G : Forall2 (fun c r => Forall2 (step1_ok (snd r)) (places [] c) (places [] (fst r))) ch (map (rm_text_child t0) ch)).
    { clear -IH Nc. induction IH as [|c ch Hc F IH2]; [constructor|]. cbn in *. apply Forall_app in Nc. destruct Nc as [N1 N2]. constructor; [now apply Hc|now apply IH2]. }
    set (r := map (rm_text_child t0) ch) in *. clearbody r.
    set (dd := if forallb snd r && negb (is_tag EFontFace d) then rm_all text_attributes d else d).
    assert (Tdd : tag dd = tag d0) by (unfold dd; destruct (_ && _); [destruct (rm_all_tag text_attributes d) as (-> & _); exact Td|exact Td]).
    assert (Kdd : forallb snd r = false -> kept d0 dd) by (unfold dd; intros ->; exact Kd).
    cbn [places]. constructor.
    + split; [exact Tdd|]. cbn [fst snd data]. intros _ D. exfalso. apply svg_el_iff in S. destruct S as [e S]. rewrite Td in S.
      destruct D as [(x & E)|[[E _]|[E _]]]; cbn [data kids] in E; [congruence| |]; contradiction.
    + apply Forall2_flat_map. clear IH Nc Same. assert (W : Forall2 (fun c c' => exists b, (b = false -> forallb snd r = false) /\ Forall2 (step1_ok b) (places [] c) (places [] c')) ch (map fst r)).
      { assert (Z : forall x, In x r -> snd x = false -> forallb snd r = false).
        { intros x Hx Ex. destruct (forallb snd r) eqn:Y; [|reflexivity]. rewrite forallb_forall in Y. rewrite (Y x Hx) in Ex. discriminate. }
        clear -G Z. induction G as [|c x l l' H F IHF]; [constructor|]. cbn [map]. constructor; [exists (snd x); split; [intros E; apply (Z x); [now left|exact E]|exact H]|].
        assert (IH' : Forall2 (fun c c' => exists b, (b = false -> forallb snd l' = false) /\ Forall2 (step1_ok b) (places [] c) (places [] c')) l (map fst l')).
        { apply IHF. intros y Hy Ey. destruct (forallb snd l') eqn:Q; [|reflexivity]. rewrite forallb_forall in Q. rewrite (Q y Hy) in Ey. discriminate. }
        eapply Forall2_impl; [|exact IH']. cbn. intros a b0 (b & B1 & B2). exists b. split; [|exact B2]. intros E. rewrite (B1 E). apply andb_false_r. }
      eapply Forall2_impl; [|exact W]. cbn beta. intros c c' (b & Hb & F). rewrite (places_app c), (places_app c'). apply Forall2_map2. eapply Forall2_impl; [|exact F].
      cbn [fst snd]. intros p p' [E1 E2]. split; [exact E1|]. cbn [fst snd]. intros SP D. unfold el_path in SP. apply Forall_app in SP. destruct SP as [SP _].
      destruct (E2 SP D) as [Eb K]. specialize (Hb Eb). split; [exact Hb|]. inversion K as [|? ? ? ? K1 K2]; subst. constructor; [exact K1|]. apply Forall2_app; [exact K2|]. constructor; [now apply Kdd|constructor].
Qed.

(** ** The second step: xml:space *)
Definition kept2 (d d' : ndata) : Prop :=
  tag d' = tag d /\ forall a, a <> AXmlSpace -> get_attr (attrs d') a = get_attr (attrs d) a /\ d_get (vis d') a = d_get (vis d) a.
Lemma kept2_refl d : kept2 d d. Proof. split; auto. Qed.
Lemma kept2_rm d : attrs_nodup d -> kept2 d (d_rm d AXmlSpace).
Proof. intros N. split; [reflexivity|]. intros a Na. split; [unfold d_rm; cbn; apply get_rm_other; congruence|]. apply vis_rm; congruence. Qed.
Definition step2_ok (p p' : list ndata * tree) : Prop :=
  Forall2 kept2 (data (snd p) :: fst p) (data (snd p') :: fst p') /\ (spaced_text (data (snd p)) = true -> fst p' = fst p).
Lemma flat_places t : forall anc, map (fun p => data (snd p)) (places anc t) = flat t.
Proof.
  induction t as [d ch IH] using tree_ind'. intros anc. cbn [places map flat snd data]. f_equal.
  rewrite !flat_map_concat_map, concat_map, map_map. f_equal. apply map_ext_in. intros c Hc. rewrite Forall_forall in IH. now apply IH.
Qed.
Lemma rm_space_data d ch : exists d', rm_space_child (T d ch) = T d' (map rm_space_child ch) /\ (d' = d \/ d' = d_rm d AXmlSpace) /\
  (existsb spaced_text (flat_map flat ch) = true -> d' = d).
Proof.
  cbn [rm_space_child]. destruct (preserves d); [|exists d; auto]. destruct ch as [|c ch].
  - eexists. split; [reflexivity|]. split; [right; reflexivity|]. discriminate.
  - eexists. split; [reflexivity|]. destruct (existsb spaced_text (flat (T d (c :: ch)))) eqn:E; [auto|]. split; [auto|].
    intros X. cbn [flat existsb] in E. apply orb_false_iff in E. destruct E as [_ E]. congruence.
Qed.
Lemma step2_place t : Forall attrs_nodup (flat t) -> Forall2 step2_ok (places [] t) (places [] (rm_space_child t)).
Proof.
  induction t as [d ch IH] using tree_ind'. intros N. cbn [flat] in N. inversion N as [|? ? Nd Nc]; subst.
  destruct (rm_space_data d ch) as (d' & E & Dd & Keep). rewrite E. cbn [places].
  assert (K : kept2 d d') by (destruct Dd as [-> | ->]; [apply kept2_refl|now apply kept2_rm]).
  constructor; [split; [constructor; [exact K|constructor]|reflexivity]|]. apply Forall2_flat_map. apply Forall2_map_self. apply Forall_forall. intros c Hc.
  rewrite Forall_forall in IH. assert (N2 : Forall attrs_nodup (flat c)).
  { apply Forall_forall. intros x Hx. rewrite Forall_forall in Nc. apply Nc. apply in_flat_map. eauto. }
  rewrite (places_app c), (places_app (rm_space_child c)). apply Forall2_map2. eapply Forall2_impl; [|exact (Forall2_with_in _ _ _ (IH c Hc N2))]. cbn [fst snd].
  intros p p' (Hp & K1 & K2). split; cbn [fst snd].
  - inversion K1 as [|? ? ? ? A B]; subst. constructor; [exact A|]. apply Forall2_app; [exact B|]. constructor; [exact K|constructor].
  - intros Sp. rewrite (K2 Sp). rewrite Keep; [reflexivity|]. apply existsb_exists. exists (data (snd p)). split; [|exact Sp]. apply in_flat_map. exists c. split; [exact Hc|].
    rewrite <- (flat_places c []). apply in_map_iff. eauto.
Qed.

(** ** The whole pass *)
Definition chg (t c : tree) : tree := rm_space_child (fst (rm_text_child t c)).
Lemma first_two t : remove_xml_space (rm_text_root t) = T (data t) (map (chg t) (kids t)).
Proof. destruct t as [d ch]. cbn. f_equal. now rewrite map_map. Qed.
Definition same_space (p p' : list ndata * tree) : Prop :=
  forall s, tag (data (snd p)) = TText s -> plain_space s -> shown_text (fst p') s = shown_text (fst p) s.
Lemma nearest_map2 a l l' : Forall2 (fun d d' => d_get (vis d') a = d_get (vis d) a) l l' -> nearest a (map vis l') = nearest a (map vis l).
Proof. induction 1 as [|d d' l l' E F IH]; [reflexivity|]. cbn [map nearest]. now rewrite E, IH. Qed.
Lemma rm_all_nodup l : forall d, attrs_nodup d -> attrs_nodup (rm_all l d).
Proof. induction l as [|a l IH]; intros d N; [exact N|]. cbn. apply IH. now apply nodup_rm. Qed.
(** Every node of the result of the first step comes from a node with only attributes of the list removed. *)
Inductive stripped (d : ndata) : ndata -> Prop :=
| st_none : stripped d d
| st_line : stripped d (d_rm d ALineHeight)
| st_all : stripped d (rm_all text_attributes (d_rm d ALineHeight)).
Lemma step1_nodes t0 t : Forall2 stripped (flat t) (flat (fst (rm_text_child t0 t))).
Proof.
  assert (R : forall l, Forall2 stripped l l) by (induction l; constructor; auto; constructor).
  induction t as [d0 ch IH] using tree_ind'. cbn [rm_text_child]. destruct (is_svg_el (d_rm d0 ALineHeight)) eqn:S; cbn [negb fst flat].
  2: { constructor; [constructor|apply R]. }
  destruct ch as [|c ch].
  - cbn. constructor; [|constructor]. destruct (_ && _); constructor.
  - set (l := c :: ch) in *. clearbody l. cbn [fst flat]. constructor; [destruct (_ && _); constructor|]. rewrite map_map. apply Forall2_flat_map. now apply Forall2_map_self.
Qed.
Lemma stripped_nodup d d' : stripped d d' -> attrs_nodup d -> attrs_nodup d'.
Proof. intros H N. destruct H; [exact N|now apply nodup_rm|apply rm_all_nodup; now apply nodup_rm]. Qed.
Lemma step1_nodup t0 t : Forall attrs_nodup (flat t) -> Forall attrs_nodup (flat (fst (rm_text_child t0 t))).
Proof.
  intros N. pose proof (step1_nodes t0 t) as F. induction F as [|d d' l l' S F IH]; [constructor|]. inversion N; subst. constructor; [eapply stripped_nodup; eauto|now apply IH].
Qed.
Lemma Forall2_trans {A B C} (R : A -> B -> Prop) (S : B -> C -> Prop) (Q : A -> C -> Prop) : (forall a b c, R a b -> S b c -> Q a c) ->
  forall l m n, Forall2 R l m -> Forall2 S m n -> Forall2 Q l n.
Proof. intros H l m n F. revert n. induction F; intros n G; inversion G; subst; constructor; eauto. Qed.

(** What the first two steps keep. *)
Definition chg_ok (p p' : list ndata * tree) : Prop :=
  tag (data (snd p')) = tag (data (snd p)) /\
  (el_path (fst p) -> depends_on_font (snd p) ->
     (forall a, a <> ALineHeight -> a <> AXmlSpace -> Forall2 (fun d d' => tag d' = tag d /\ d_get (vis d') a = d_get (vis d) a) (data (snd p) :: fst p) (data (snd p') :: fst p')) /\
     (forall anc, same_space (fst p ++ anc, snd p) (fst p' ++ anc, snd p'))).
Lemma chg_place t0 t : Forall attrs_nodup (flat t) -> Forall2 chg_ok (places [] t) (places [] (chg t0 t)).
Proof.
  intros N. eapply (Forall2_trans (step1_ok (snd (rm_text_child t0 t))) step2_ok); [|now apply step1_place|apply step2_place; now apply step1_nodup].
  intros p q r [T1 H1] [H2 S2]. assert (T2 : tag (data (snd r)) = tag (data (snd q))) by (inversion H2; subst; match goal with H : kept2 _ _ |- _ => apply H end).
  split; [congruence|]. intros EP D. destruct (H1 EP D) as [_ K]. split.
  - intros a A1 A2. eapply Forall2_trans; [|exact K|exact H2]. cbn. intros x y z [X1 X2] [Y1 Y2]. split; [congruence|].
    destruct (X2 a A1) as [_ E1]. destruct (Y2 a A2) as [_ E2]. congruence.
  - intros anc s Ts P. cbn [fst snd] in *.
    assert (E1 : shown_text (fst q ++ anc) s = shown_text (fst p ++ anc) s).
    { unfold shown_text. rewrite (nearest_map2 AXmlSpace (fst p ++ anc) (fst q ++ anc)); [reflexivity|]. inversion K as [|? ? ? ? _ K']; subst. apply Forall2_app.
      - eapply Forall2_impl; [|exact K']. cbn. intros x y [_ X]. apply X. discriminate.
      - induction anc; constructor; auto. }
    rewrite <- E1. destruct (contains_spaces s) eqn:C.
    + rewrite S2; [reflexivity|]. unfold spaced_text. rewrite T1, Ts. exact C.
    + unfold shown_text. rewrite (insensitive s P C). repeat match goal with |- context [match ?x with _ => _ end] => destruct x; try reflexivity end.
Qed.
