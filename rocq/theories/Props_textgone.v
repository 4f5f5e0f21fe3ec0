(** C31 and C52, the other half: the attributes that no text needs are really gone. *)
From Coq Require Import List Bool NArith Arith ZArith String Ascii Lia QArith Qcanon.
From Verif Require Props_transforms Visit.
From Verif Require Import Names Num Value Dom DomFacts DomOps Outcome DomRemove Stops SpecDom AttrFacts SpecStyle SpecWritten GradTransProofs RmText SpecText TextProofs Props_text.
Import ListNotations.
Local Open Scope nat_scope.

(** An empty use element with a link to something that contains a text. *)
Definition uses_text (t s : tree) : Prop :=
  kids s = [] /\ tag (data s) = TEl EUse /\ exists k r d x, d_get (data s) AXlinkHref = Some (VLink k) /\ find_sub k t = Some r /\ In d (flat r) /\ tag d = TText x.
(** Nothing in the subtree depends on a font. *)
Definition font_free (t s : tree) : Prop := (forall r, In r (subs s) -> ~ depends_on_font r) /\ ~ uses_text t s.
Definition text_only_attrs : list aid := ALineHeight :: AXmlSpace :: text_properties.

Lemma text_attrs_all a : In a text_only_attrs -> In a text_attributes.
Proof. cbn. tauto. Qed.
Lemma absent_rm d a b : d_get d a = None -> d_get (d_rm d b) a = None.
Proof.
  unfold d_get, get_value, d_rm. cbn. destruct (aid_eqb_spec a b) as [->|Ne]; [now rewrite get_rm_same|]. now rewrite get_rm_other by congruence.
Qed.
Lemma rm_absent d a : d_get (d_rm d a) a = None.
Proof. unfold d_get, get_value, d_rm. cbn. now rewrite get_rm_same. Qed.
Lemma absent_rm_all l : forall d a, d_get d a = None -> d_get (rm_all l d) a = None.
Proof. induction l as [|b l IH]; intros d a H; [exact H|]. cbn. apply IH. now apply absent_rm. Qed.
Lemma rm_all_absent l : forall d a, In a l -> d_get (rm_all l d) a = None.
Proof. induction l as [|b l IH]; intros d a H; [contradiction|]. cbn. destruct H as [->|H]; [|now apply IH]. apply absent_rm_all, rm_absent. Qed.

Lemma not_font_leaf d0 : ~ depends_on_font (T d0 []) -> is_svg_el d0 = true -> is_tag ETref (d_rm d0 ALineHeight) || has_em_ex_attributes (d_rm d0 ALineHeight) = false.
Proof.
  intros H S. apply svg_el_iff in S. apply orb_false_iff. split.
  - destruct (is_tag ETref _) eqn:E; [|reflexivity]. exfalso. apply H. right. left. split; [reflexivity|]. cbn [data]. unfold is_tag in E. change (tag (d_rm d0 ALineHeight)) with (tag d0) in E. destruct S as [e S].
    rewrite S in *. destruct (eid_eqb_spec e ETref); [congruence|discriminate].
  - destruct (has_em_ex_attributes _) eqn:E; [|reflexivity]. exfalso. apply H. right. right. split; [reflexivity|]. split; [exact S|]. apply existsb_exists in E. destruct E as (x & Hx & Vx).
    unfold d_rm in Hx. cbn in Hx. apply filter_In in Hx. destruct Hx as [Hx Nx]. cbn [data].
    unfold em_ex in Vx. destruct (a_val x) as [| | |l| | | | | | |] eqn:V; try discriminate. exists x, l. split; [exact Hx|]. split; [|split; [exact V|destruct (unit l); try discriminate; auto]].
    intros N. unfold has_name in Nx. rewrite N in Nx. discriminate.
Qed.
Lemma font_free_ok t0 s : (forall r, In r (subs s) -> ~ depends_on_font r) -> snd (rm_text_child t0 s) = true.
Proof.
  induction s as [d0 ch IH] using tree_ind'. intros H. cbn [rm_text_child].
  assert (H0 : ~ depends_on_font (T d0 ch)) by (apply H; cbn; now left).
  assert (Nt : is_text (d_rm d0 ALineHeight) = false).
  { destruct (is_text _) eqn:E; [|reflexivity]. exfalso. apply H0. left. apply is_text_iff in E. exact E. }
  destruct (is_svg_el (d_rm d0 ALineHeight)) eqn:S; cbn [negb snd]; [|now rewrite Nt].
  destruct ch as [|c ch].
  - cbn [snd]. pose proof (not_font_leaf d0 H0 S) as N. apply orb_false_iff in N. destruct N as [N1 N2]. rewrite Nt, N1, N2. reflexivity.
  - set (l := c :: ch) in *. cbn [snd]. apply forallb_forall. intros r Hr. apply in_map_iff in Hr. destruct Hr as (x & <- & Hx). rewrite Forall_forall in IH. apply IH; [exact Hx|].
    intros r Hr. apply H. cbn [subs]. right. apply in_flat_map. eauto.
Qed.

(** ** The first step *)
Definition gone1 (t0 : tree) (p p' : list ndata * tree) : Prop :=
  key (data (snd p')) = key (data (snd p)) /\ tag (data (snd p')) = tag (data (snd p)) /\
  (el_path (fst p) -> d_get (data (snd p')) ALineHeight = None /\
   forall e, tag (data (snd p)) = TEl e -> e <> EFontFace -> font_free t0 (snd p) -> forall a, In a text_only_attrs -> d_get (data (snd p')) a = None).
Lemma not_face d e : tag d = TEl e -> e <> EFontFace -> is_tag EFontFace d = false.
Proof. intros H N. unfold is_tag. rewrite H. destruct (eid_eqb_spec e EFontFace); [contradiction|reflexivity]. Qed.
Lemma unlinked t0 d0 : ~ uses_text t0 (T d0 []) -> is_linked_text t0 (d_rm d0 ALineHeight) = false.
Proof.
  intros H. unfold is_linked_text. destruct (is_tag EUse _) eqn:E; [|reflexivity]. cbn [andb].
  assert (G : d_get (d_rm d0 ALineHeight) AXlinkHref = d_get d0 AXlinkHref) by (unfold d_get, get_value, d_rm; cbn; now rewrite get_rm_other by discriminate). rewrite G.
  destruct (d_get d0 AXlinkHref) as [v|] eqn:D; [|reflexivity]. destruct v; try reflexivity. destruct (find_sub _ t0) as [r|] eqn:F; [|reflexivity].
  destruct (has_text r) eqn:X; [|reflexivity]. exfalso. apply H. split; [reflexivity|]. cbn [data]. unfold is_tag in E. change (tag (d_rm d0 ALineHeight)) with (tag d0) in E.
  destruct (tag d0) as [|e| | | |] eqn:Td; try discriminate. destruct (eid_eqb_spec e EUse) as [->|]; [|discriminate]. split; [reflexivity|].
  unfold has_text in X. apply existsb_exists in X. destruct X as (d & Hd & Td'). apply is_text_iff in Td'. destruct Td' as (x & Td'). eauto 8.
Qed.
Lemma places_refl1 (d d' : ndata) l : Forall2 (fun p p' : list ndata * tree => snd p' = snd p /\ exists q, fst p = q ++ [d]) (flat_map (places [d]) l) (flat_map (places [d']) l).
Proof.
  apply Forall2_flat_map. induction l as [|c l IHl]; constructor; [|exact IHl]. rewrite (places_app c [d]), (places_app c [d']). apply Forall2_map2. cbn.
  induction (places [] c); constructor; eauto.
Qed.
Lemma step1_gone t0 t : Forall2 (gone1 t0) (places [] t) (places [] (fst (rm_text_child t0 t))).
Proof.
  induction t as [d0 ch IH] using tree_ind'. cbn [rm_text_child]. pose proof (rm_absent d0 ALineHeight) as L.
  set (d := d_rm d0 ALineHeight) in *. assert (Td : tag d = tag d0) by reflexivity. assert (Kd : key d = key d0) by reflexivity.
  destruct (is_svg_el d) eqn:S; cbn [negb fst].
  2: { cbn [places]. constructor.
       - split; [reflexivity|]. split; [reflexivity|]. cbn [snd data]. intros _. split; [exact L|]. intros e He. exfalso. unfold is_svg_el in S. rewrite Td, He in S. discriminate.
       - eapply Forall2_impl; [|exact (places_refl1 d0 d ch)]. cbn. intros p p' (E & q & Eq). unfold gone1. rewrite E. split; [reflexivity|]. split; [reflexivity|]. intros SP. exfalso.
         rewrite Eq in SP. unfold el_path in SP. apply Forall_app in SP. destruct SP as [_ SP]. inversion SP as [|? ? Sd _]; subst. rewrite <- Td in Sd. apply svg_el_iff in Sd. congruence. }
  destruct ch as [|c0 ch0].
  - cbn [fst snd places flat_map]. constructor; [|constructor]. split; [cbn [snd data]; destruct (_ && _); [exact (proj1 (proj2 (rm_all_tag text_attributes d)))|reflexivity]|].
    split; [cbn [snd data]; destruct (_ && _); [exact (proj1 (rm_all_tag text_attributes d))|reflexivity]|]. cbn [fst snd data]. intros _. split; [destruct (_ && _); [apply rm_all_absent; cbn; tauto|exact L]|].
    intros e He Ne [F U] a Ha. assert (F0 : ~ depends_on_font (T d0 [])) by (apply F; cbn; now left).
    assert (Nt : is_text d = false) by (unfold is_text; rewrite Td, He; reflexivity).
    pose proof (not_font_leaf d0 F0 S) as NL. fold d in NL. apply orb_false_iff in NL. destruct NL as [N1 N2].
    pose proof (unlinked t0 d0 U) as UL. fold d in UL.
    rewrite Nt, N1, N2, UL, (not_face d e He Ne). cbn [orb negb andb]. apply rm_all_absent. now apply text_attrs_all.
  - set (ch := c0 :: ch0) in *. assert (Ne : ch <> []) by discriminate. clearbody ch. cbn [fst snd].
    set (r := map (rm_text_child t0) ch). set (dd := if forallb snd r && negb (is_tag EFontFace d) then rm_all text_attributes d else d).
    cbn [places]. constructor.
    + split; [cbn [snd data]; unfold dd; destruct (_ && _); [exact (proj1 (proj2 (rm_all_tag text_attributes d)))|reflexivity]|]. split; [cbn [snd data]; unfold dd; destruct (_ && _); [exact (proj1 (rm_all_tag text_attributes d))|reflexivity]|].
      cbn [fst snd data]. intros _. split; [unfold dd; destruct (_ && _); [apply rm_all_absent; cbn; tauto|exact L]|].
      intros e He Nf [F _] a Ha. unfold dd. rewrite (not_face d e He Nf). assert (X : forallb snd r = true).
      { apply forallb_forall. intros x Hx. unfold r in Hx. apply in_map_iff in Hx. destruct Hx as (c & <- & Hc). apply font_free_ok. intros q Hq. apply F. cbn [subs]. right. apply in_flat_map. eauto. }
      rewrite X. cbn [andb negb]. apply rm_all_absent. now apply text_attrs_all.
    + unfold r. rewrite map_map. apply Forall2_flat_map. apply Forall2_map_self. apply Forall_forall. intros c Hc. rewrite Forall_forall in IH.
      rewrite (places_app c), (places_app (fst (rm_text_child t0 c))). apply Forall2_map2. eapply Forall2_impl; [|exact (IH c Hc)]. cbn [fst snd].
      intros p p' (E1 & E2 & E3). split; [exact E1|]. split; [exact E2|]. cbn [fst snd]. intros SP. unfold el_path in SP. apply Forall_app in SP. destruct SP as [SP _]. exact (E3 SP).
Qed.

(** ** The second step *)
Lemma trim_start_short l : trim_start l <> l -> match l with c :: _ => is_space c = true | [] => False end.
Proof. destruct l as [|c l]; cbn; [congruence|]. destruct (is_space c); congruence. Qed.
Definition only_xml_space (s : string) : Prop := forall c, In c (list_ascii_of_string s) -> nat_of_ascii c <> 11 /\ nat_of_ascii c <> 12.
Lemma strip_start_len l : List.length (strip_start l) <= List.length l.
Proof. induction l as [|c l IH]; cbn; [lia|]. destruct (blank c); cbn; lia. Qed.
Lemma strip_len l : List.length (strip l) <= List.length l.
Proof. unfold strip. rewrite rev_length. pose proof (strip_start_len (rev (strip_start l))) as A. rewrite rev_length in A. pose proof (strip_start_len l). lia. Qed.
Lemma consolidate_len l : List.length (consolidate l) <= List.length l.
Proof.
  induction l as [|c l IH]; [cbn; lia|]. destruct l as [|c2 l]; [cbn; lia|]. change (consolidate (c :: c2 :: l)) with (if blank c && blank c2 then consolidate (c2 :: l) else c :: consolidate (c2 :: l)).
  destruct (blank c && blank c2); cbn [List.length] in *; lia.
Qed.
Lemma consolidate_short l1 : forall c1 c2 l2, blank c1 = true -> blank c2 = true -> List.length (consolidate (l1 ++ c1 :: c2 :: l2)) < List.length (l1 ++ c1 :: c2 :: l2).
Proof.
  induction l1 as [|c l IH]; intros c1 c2 l2 B1 B2.
  - cbn [app]. change (consolidate (c1 :: c2 :: l2)) with (if blank c1 && blank c2 then consolidate (c2 :: l2) else c1 :: consolidate (c2 :: l2)). rewrite B1, B2. cbn [andb].
    pose proof (consolidate_len (c2 :: l2)). cbn [List.length] in *. lia.
  - specialize (IH c1 c2 l2 B1 B2). cbn [app]. assert (Nm : l ++ c1 :: c2 :: l2 <> []) by (destruct l; discriminate). destruct (l ++ c1 :: c2 :: l2) as [|x m]; [congruence|].
    change (consolidate (c :: x :: m)) with (if blank c && blank x then consolidate (x :: m) else c :: consolidate (x :: m)). destruct (blank c && blank x); cbn [List.length] in *; lia.
Qed.
Lemma adjacent_split l : adjacent_spaces l = true -> exists l1 c1 c2 l2, l = l1 ++ c1 :: c2 :: l2 /\ is_space c1 = true /\ is_space c2 = true.
Proof.
  induction l as [|c l IH]; [discriminate|]. destruct l as [|c2 l]; [discriminate|]. change (adjacent_spaces (c :: c2 :: l)) with ((is_space c && is_space c2) || adjacent_spaces (c2 :: l)).
  intros H. apply orb_true_iff in H. destruct H as [H|H].
  - apply andb_true_iff in H. exists [], c, c2, l. tauto.
  - destruct (IH H) as (l1 & a & b & l2 & E & A). exists (c :: l1), a, b, l2. rewrite E. auto.
Qed.
Lemma filter_len {A} (p : A -> bool) l : List.length (filter p l) <= List.length l.
Proof. induction l as [|x l IH]; cbn; [lia|]. destruct (p x); cbn; lia. Qed.
Lemma filter_short {A} (p : A -> bool) l x : In x l -> p x = false -> List.length (filter p l) < List.length l.
Proof. induction l as [|y l IH]; intros [].
  - subst y. cbn. intros ->. pose proof (filter_len p l). lia.
  - intros E. specialize (IH H E). cbn. destruct (p y); cbn; lia.
Qed.
Lemma filter_all {A} (p : A -> bool) l : (forall x, In x l -> p x = true) -> filter p l = l.
Proof. induction l as [|x l IH]; intros H; [reflexivity|]. cbn. rewrite H by now left. f_equal. apply IH. intros y Hy. apply H. now right. Qed.
Lemma space_detab c : is_space c = true -> nat_of_ascii c <> 11 -> nat_of_ascii c <> 12 -> newline c = false -> blank (if tab c then sp else c) = true.
Proof.
  unfold is_space, newline, tab, blank. intros S A B N. apply orb_false_iff in N. destruct N as [N1 N2]. apply Nat.eqb_neq in N1, N2. apply orb_true_iff in S.
  destruct (Nat.eqb_spec (nat_of_ascii c) 9) as [E|E]; [reflexivity|]. destruct S as [S|S]; [|exact S]. apply andb_true_iff in S. destruct S as [S1 S2]. apply Nat.leb_le in S1, S2. lia.
Qed.
Lemma strip_start_short c l : blank c = true -> List.length (strip_start (c :: l)) < List.length (c :: l).
Proof. intros B. cbn. rewrite B. pose proof (strip_start_len l). lia. Qed.
Lemma spaces_matter s : only_xml_space s -> contains_spaces s = true -> default_text s <> preserved_text s.
Proof.
  intros O C E. apply (f_equal (@List.length _)) in E. unfold default_text, preserved_text in E. rewrite map_length in E.
  unfold contains_spaces in C. unfold only_xml_space in O. set (l := list_ascii_of_string s) in *. clearbody l.
  set (f := fun c => if tab c then sp else c) in *. set (q := fun c => negb (newline c)) in *.
  pose proof (consolidate_len (strip (map f (filter q l)))) as L1. pose proof (strip_len (map f (filter q l))) as L2. rewrite map_length in L2. pose proof (filter_len q l) as L3.
  assert (NN : forall c, In c l -> newline c = false).
  { intros c Hc. destruct (newline c) eqn:N; [|reflexivity]. exfalso. assert (X : List.length (filter q l) < List.length l) by (apply (filter_short q l c Hc); unfold q; rewrite N; reflexivity). lia. }
  rewrite (filter_all q l) in * by (intros x Hx; unfold q; now rewrite NN).
  assert (B : forall c, In c l -> is_space c = true -> blank (f c) = true) by (intros c Hc Sc; destruct (O c Hc); apply space_detab; auto).
  destruct l as [|c0 l0] eqn:El; [discriminate|]. rewrite <- El in *. assert (Ne : l <> []) by (rewrite El; discriminate). clear El c0 l0.
  assert (Cases : trim_start l <> l \/ trim_start (rev l) <> rev l \/ adjacent_spaces l = true).
  { assert (C' : (if ascii_list_eqb (trim l) l then adjacent_spaces (trim l) else true) = true) by (destruct l; [congruence|exact C]). clear C. unfold ascii_list_eqb in C'.
    destruct (list_eq_dec ascii_dec (trim l) l) as [E1|E1]; [rewrite E1 in C'; auto|]. destruct (list_eq_dec ascii_dec (trim_start l) l) as [E2|E2]; [|auto]. right. left. intros E3. apply E1. unfold trim. rewrite E2, E3. apply rev_involutive. }
  assert (R : List.length (strip (map f l)) = List.length l) by lia.
  assert (R2 : List.length (strip_start (map f l)) = List.length l).
  { pose proof (strip_start_len (map f l)) as A. rewrite map_length in A. unfold strip in R. rewrite rev_length in R. pose proof (strip_start_len (rev (strip_start (map f l)))) as A2. rewrite rev_length in A2. lia. }
  assert (R3 : strip_start (map f l) = map f l).
  { clear -R2. assert (X : forall m, List.length (strip_start m) = List.length m -> strip_start m = m); [|apply X; now rewrite map_length].
    intros [|c m]; [reflexivity|]. cbn. destruct (blank c); [|reflexivity]. pose proof (strip_start_len m). lia. }
  destruct Cases as [H|[H|H]].
  - apply trim_start_short in H. destruct l as [|c l]; [contradiction|]. cbn [map] in R3. assert (X := strip_start_short (f c) (map f l) (B c (or_introl eq_refl) H)). rewrite R3 in X. lia.
  - unfold strip in R. rewrite R3, rev_length, <- map_rev in R. apply trim_start_short in H. destruct (rev l) as [|c m] eqn:Er; [contradiction|].
    assert (Hc : In c l) by (apply in_rev; rewrite Er; now left). cbn [map] in R. assert (X := strip_start_short (f c) (map f m) (B c Hc H)). cbn [List.length] in X. rewrite map_length in X.
    assert (Y : List.length (rev l) = S (List.length m)) by (rewrite Er; reflexivity). rewrite rev_length in Y. lia.
  - destruct (adjacent_split l H) as (l1 & c1 & c2 & l2 & -> & S1 & S2).
    assert (R4 : strip (map f (l1 ++ c1 :: c2 :: l2)) = map f (l1 ++ c1 :: c2 :: l2)).
    { unfold strip in *. rewrite R3 in *. rewrite rev_length in R. assert (X : forall m, List.length (strip_start m) = List.length m -> strip_start m = m).
      { intros [|c m]; [reflexivity|]. cbn. destruct (blank c); [|reflexivity]. pose proof (strip_start_len m). lia. }
      rewrite X; [apply rev_involutive|]. rewrite rev_length, map_length. exact R. }
    rewrite R4 in *. rewrite map_app in *. cbn [map] in *.
    pose proof (consolidate_short (map f l1) (f c1) (f c2) (map f l2)) as X. rewrite E in X. rewrite !app_length in X. cbn [List.length] in X. rewrite !map_length in X.
    assert (Y : List.length l1 + S (S (List.length l2)) < List.length l1 + S (S (List.length l2))); [|lia]. apply X; apply B; auto; apply in_or_app; right; cbn; auto.
Qed.

Definition gone2 (p p' : list ndata * tree) : Prop :=
  key (data (snd p')) = key (data (snd p)) /\ tag (data (snd p')) = tag (data (snd p)) /\
  (forall a, d_get (data (snd p)) a = None -> d_get (data (snd p')) a = None) /\
  (d_get (data (snd p')) AXmlSpace = Some (VStr "preserve") -> existsb spaced_text (flat (snd p)) = true).
Lemma step2_gone t : Forall2 gone2 (places [] t) (places [] (rm_space_child t)).
Proof.
  induction t as [d ch IH] using tree_ind'.
  assert (H : exists d', rm_space_child (T d ch) = T d' (map rm_space_child ch) /\ (d' = d \/ d' = d_rm d AXmlSpace) /\ (d_get d' AXmlSpace = Some (VStr "preserve") -> existsb spaced_text (flat (T d ch)) = true)).
  { cbn [rm_space_child]. destruct (preserves d) eqn:P.
    - destruct ch as [|c ch]; [eexists; split; [reflexivity|]; split; [auto|]; rewrite rm_absent; discriminate|].
      destruct (existsb spaced_text _) eqn:E; eexists; (split; [reflexivity|]); (split; [auto|]); [auto|rewrite rm_absent; discriminate].
    - exists d. split; [reflexivity|]. split; [auto|]. intros E. unfold preserves in P. rewrite E in P. discriminate. }
  destruct H as (d' & E & Dd & Keep). rewrite E. cbn [places]. constructor.
  - split; [destruct Dd as [-> | ->]; reflexivity|]. split; [destruct Dd as [-> | ->]; reflexivity|]. cbn [snd data]. split; [|exact Keep]. intros a Ha. destruct Dd as [-> | ->]; [exact Ha|now apply absent_rm].
  - apply Forall2_flat_map. apply Forall2_map_self. apply Forall_forall. intros c Hc. rewrite Forall_forall in IH. rewrite (places_app c), (places_app (rm_space_child c)). apply Forall2_map2. exact (IH c Hc).
Qed.
(** The tags below a node do not change. *)
Lemma step1_spaced t0 t : Forall2 (fun p p' : list ndata * tree => map tag (flat (snd p')) = map tag (flat (snd p))) (places [] t) (places [] (fst (rm_text_child t0 t))).
Proof.
  assert (R : forall l, Forall2 (fun p p' : list ndata * tree => map tag (flat (snd p')) = map tag (flat (snd p))) l l) by (induction l; constructor; auto).
  induction t as [d0 ch IH] using tree_ind'.
  assert (H : exists d' ch', fst (rm_text_child t0 (T d0 ch)) = T d' ch' /\ tag d' = tag d0 /\ (ch' = ch \/ ch' = map (fun c => fst (rm_text_child t0 c)) ch)).
  { cbn [rm_text_child]. destruct (is_svg_el _); cbn [negb fst]; [|eauto 6]. destruct ch as [|c ch].
    - cbn [fst]. eexists _, _. split; [reflexivity|]. split; [destruct (_ && _); [exact (proj1 (rm_all_tag text_attributes (d_rm d0 ALineHeight)))|reflexivity]|auto].
    - set (l := c :: ch) in *. cbn [fst]. eexists _, _. split; [reflexivity|]. split; [destruct (_ && _); [exact (proj1 (rm_all_tag text_attributes (d_rm d0 ALineHeight)))|reflexivity]|]. right. rewrite map_map. reflexivity. }
  destruct H as (d' & ch' & -> & Td & C).
  assert (F : Forall2 (fun c c' => Forall2 (fun p p' : list ndata * tree => map tag (flat (snd p')) = map tag (flat (snd p))) (places [] c) (places [] c')) ch ch').
  { destruct C as [-> | ->]; [clear -R; induction ch; constructor; auto|]. now apply Forall2_map_self. }
  cbn [places]. constructor.
  - cbn [snd flat map]. rewrite Td. f_equal. clear -F. induction F as [|c c' l l' H F IH]; [reflexivity|]. cbn. rewrite !map_app, IH. f_equal. destruct c as [x y], c' as [x' y']. cbn [places] in H. inversion H. assumption.
  - apply Forall2_flat_map. eapply Forall2_impl; [|exact F]. cbn beta. intros c c' H. rewrite (places_app c), (places_app c'). apply Forall2_map2. exact H.
Qed.
Lemma spaced_tags l l' : map tag l' = map tag l -> existsb spaced_text l' = existsb spaced_text l.
Proof. revert l'. induction l as [|d l IH]; intros [|d' l'] H; try discriminate; [reflexivity|]. cbn in *. injection H as H1 H2. rewrite (IH _ H2). f_equal. unfold spaced_text. now rewrite H1. Qed.
Lemma spaced_found l : existsb spaced_text l = true -> exists d x, In d l /\ tag d = TText x /\ (only_xml_space x -> default_text x <> preserved_text x).
Proof.
  intros H. apply existsb_exists in H. destruct H as (d & Hd & S). unfold spaced_text in S. destruct (tag d) as [| | |x| |] eqn:E; try discriminate. exists d, x. split; [exact Hd|]. split; [exact E|]. intros O. now apply spaces_matter.
Qed.

(** What is known of a node of the result. *)
Definition cleared (t : tree) (p p' : list ndata * tree) : Prop :=
  key (data (snd p')) = key (data (snd p)) /\ tag (data (snd p')) = tag (data (snd p)) /\
  (fst p <> [] -> Forall svg_node (fst p) ->
     (forall e, tag (data (snd p)) = TEl e -> e <> EFontFace -> font_free t (snd p) -> forall a, In a text_only_attrs -> d_get (data (snd p')) a = None) /\
     d_get (data (snd p')) ALineHeight = None) /\
  (fst p <> [] -> d_get (data (snd p')) AXmlSpace = Some (VStr "preserve") ->
     exists d x, In d (flat (snd p)) /\ tag d = TText x /\ (only_xml_space x -> default_text x <> preserved_text x)).
Lemma chg_gone t0 t : Forall2 (fun p p' => gone1 t0 p p' /\ (d_get (data (snd p')) AXmlSpace = Some (VStr "preserve") -> existsb spaced_text (flat (snd p)) = true)) (places [] t) (places [] (chg t0 t)).
Proof.
  eapply (Forall2_trans (fun p p' => gone1 t0 p p' /\ map tag (flat (snd p')) = map tag (flat (snd p))) gone2); [| |apply step2_gone].
  - intros p q r ((A1 & A2 & A3) & A4) (B1 & B2 & B3 & B4). split.
    + split; [congruence|]. split; [congruence|]. intros EP. destruct (A3 EP) as [L A]. split; [now apply B3|]. intros e He Ne F a Ha. apply B3. exact (A e He Ne F a Ha).
    + intros X. rewrite <- (spaced_tags _ _ A4). exact (B4 X).
  - pose proof (step1_gone t0 t) as F1. pose proof (step1_spaced t0 t) as F2. clear -F1 F2. induction F1; inversion F2; subst; constructor; auto.
Qed.
Lemma whole_gone t : tag (data t) = TRoot -> (forall c d, In c (kids t) -> In d (flat c) -> tag d <> TRoot) -> Forall2 (cleared t) (places [] t) (places [] (T (data t) (map (chg t) (kids t)))).
Proof.
  intros Rt Rk. destruct t as [d ch]. cbn [data kids] in *. cbn [places]. constructor.
  - split; [reflexivity|]. split; [reflexivity|]. split; intros X; exfalso; apply X; reflexivity.
  - apply Forall2_flat_map. apply Forall2_map_self. apply Forall_forall. intros c Hc. rewrite (places_app c), (places_app (chg (T d ch) c)). apply Forall2_map2.
    eapply Forall2_impl; [|exact (Props_transforms.Forall2_with_in _ _ _ (chg_gone (T d ch) c))]. cbn [fst snd]. intros p p' (Hp & (A1 & A2 & A3) & A4). split; [exact A1|]. split; [exact A2|]. split.
    + cbn [fst snd]. intros _ SV. apply Forall_app in SV. destruct SV as [SV _].
      assert (EP : el_path (fst p)).
      { apply Forall_forall. intros x Hx. rewrite Forall_forall in SV. destruct (SV x Hx) as [X|X]; [|exact X]. exfalso. destruct p as [anc s]. cbn [fst] in Hx.
        pose proof (Visit.place_anc c [] anc s Hp) as PA. destruct PA as (l & E & H). rewrite app_nil_r in E. subst l. apply in_split in Hx. destruct Hx as (l1 & l2 & ->).
        destruct (H l1 x l2 eq_refl) as (s' & P' & D' & _). apply (Rk c (data s') Hc); [|rewrite D'; exact X]. rewrite <- (flat_places c []). apply in_map_iff. exists (l2 ++ [], s'). auto. }
      destruct (A3 EP) as [L A]. split; [exact A|exact L].
    + cbn [fst snd]. intros _ X. apply spaced_found. exact (A4 X).
Qed.
(** After the pass, an SVG element outside of foreign content with nothing inside that depends on a font
    has no text attribute any more, line-height is gone, xml:space="preserve" is left only where a text
    would be shown differently without it, and a document without a text has no text attributes on its
    font-face elements. *)
Theorem C52_text t t' : WFA t -> one_root t -> remove_text_attributes t = Ok t' ->
  Forall2 (cleared t) (places [] t) (places [] t') /\
  ((forall d x, In d (flat t) -> tag d <> TText x) -> forall d a, In d (flat t') -> tag d = TEl EFontFace -> In a text_only_attrs -> d_get d a = None).
Proof.
  intros W (O1 & O2 & O3) H. pose proof (whole_gone t O1 O2) as G. unfold remove_text_attributes in H. rewrite first_two in H. pose proof (svg_element_chg t W) as SE. rewrite SE in H.
  destruct (svg_element t) as [sv|] eqn:Sv; [|discriminate]. cbn [option_map] in H. match type of H with Ok ?x = Ok ?y => assert (H' : x = y) by congruence end. clear H. rename H' into H. set (t1 := T (data t) (map (chg t) (kids t))) in *.
  assert (NT : (forall d x, In d (flat t) -> tag d <> TText x) -> has_text (chg t sv) = false).
  { intros N. destruct (has_text (chg t sv)) eqn:E; [|reflexivity]. exfalso. unfold has_text in E. apply existsb_exists in E. destruct E as (d & Hd & Td). apply is_text_iff in Td. destruct Td as (x & Td).
    rewrite <- (flat_places _ []) in Hd. apply in_map_iff in Hd. destruct Hd as (q & <- & Hq).
    assert (X : exists p, In p (places [] sv) /\ tag (data (snd p)) = tag (data (snd q))).
    { pose proof (chg_gone t sv) as F. clear -F Hq. induction F as [|p p' l l' A F IH]; [contradiction|]. destruct Hq as [->|Hq]; [exists p; split; [now left|]; destruct A as ((_ & E & _) & _); congruence|].
      destruct (IH Hq) as (z & Hz & Ez). exists z. split; [now right|exact Ez]. }
    destruct X as (p & Hp & Ep). apply (N (data (snd p)) x); [|congruence].
    assert (Hsv : In sv (kids t)) by (unfold svg_element in Sv; destruct t as [d0 ch0]; cbn in *; apply find_some in Sv; apply Sv).
    destruct t as [d0 ch0]. cbn [flat kids] in *. right. apply in_flat_map. exists sv. split; [exact Hsv|]. rewrite <- (flat_places sv []). apply in_map_iff. eauto. }
  destruct (has_text (chg t sv)) eqn:HT.
  - subst t'. split; [exact G|]. intros N. specialize (NT N). discriminate.
  - clear NT. subst t'. set (f := fun d => if is_tag EFontFace d then rm_all text_attributes d else d).
    assert (Ff : forall d, key (f d) = key d /\ tag (f d) = tag d /\ forall a, d_get d a = None -> d_get (f d) a = None).
    { intros d. unfold f. destruct (is_tag EFontFace d); [|auto]. destruct (rm_all_tag text_attributes d) as (A & B & _). split; [exact B|]. split; [exact A|]. intros a. apply absent_rm_all. }
    split.
    + pose proof (places_tmap f t1 []) as PT. change (map f []) with (@nil ndata) in PT. rewrite PT.
      assert (X : forall l l', Forall2 (cleared t) l l' -> Forall2 (cleared t) l (map (fun p => (map f (fst p), tmap f (snd p))) l')).
      { induction 1 as [|p p' l l' C F IH]; [constructor|]. cbn [map]. constructor; [|exact IH]. clear IH F. destruct C as (C1 & C2 & C3 & C4). unfold cleared. cbn [fst snd]. rewrite tmap_data.
        destruct (Ff (data (snd p'))) as (F1 & F2 & F3). split; [congruence|]. split; [congruence|]. split.
        - intros A B. destruct (C3 A B) as [D E]. split; [|now apply F3]. intros e He Ne Fr a Ha. apply F3. exact (D e He Ne Fr a Ha).
        - intros A B. apply (C4 A). revert B. unfold f. destruct (is_tag EFontFace _) eqn:Ft; [|auto]. rewrite rm_all_absent by (cbn; tauto). discriminate. }
      now apply X.
    + intros _ d a Hd Td Ha. rewrite flat_tmap in Hd. apply in_map_iff in Hd. destruct Hd as (x & <- & Hx). destruct (Ff x) as (_ & E & _). rewrite E in Td. unfold f. assert (If : is_tag EFontFace x = true) by (unfold is_tag; rewrite Td; reflexivity). rewrite If. apply rm_all_absent. now apply text_attrs_all.
Qed.

(** The hypotheses are met: everything goes but what the text with two spaces needs. *)
Definition gone_doc : tree :=
  doc [el 1 ESvg [at_ ALineHeight (px 1)] [el 2 EG [at_ AFontSize (px 4); at_ AXmlSpace (VStr "preserve")] [el 3 ERect [at_ AFontFamily (VStr "a")] []];
       el 4 EText [at_ AXmlSpace (VStr "preserve"); at_ AFontSize (px 4)] [T (ND 5 (TText "a  b") "" []) []]]].
Example C52_text_instance : WFA gone_doc /\ one_root gone_doc /\
  (exists s, In s (subs gone_doc) /\ key (data s) = 2 /\ font_free gone_doc s) /\
  remove_text_attributes gone_doc = Ok (doc [el 1 ESvg [] [el 2 EG [] [el 3 ERect [] []]; el 4 EText [at_ AXmlSpace (VStr "preserve"); at_ AFontSize (px 4)] [T (ND 5 (TText "a  b") "" []) []]]]).
Proof.
  split; [unfold gone_doc, WFA; cbn [flat flat_map app doc el eli]; repeat (apply Forall_cons || apply Forall_nil); unfold attrs_nodup; cbn; repeat constructor; cbn; intuition discriminate|].
  split. { split; [reflexivity|]. split; [intros c d Hc Hd; cbn in Hc; destruct Hc as [<-|[]]; cbn in Hd; intuition (subst; discriminate)|]. intros c Hc _. cbn in Hc. destruct Hc as [<-|[]]. reflexivity. }
  split; [|vm_compute; reflexivity].
  eexists. split; [cbn; right; right; left; reflexivity|]. split; [reflexivity|]. split.
  - intros r Hr. cbn in Hr. destruct Hr as [<-|[<-|[]]]; intros [(x & E)|[[E1 E2]|[E1 [_ (x & l & Hx & _ & Vx & U)]]]]; cbn in *; try discriminate.
    destruct Hx as [<-|[]]. cbn in Vx. discriminate.
  - intros (E & _). discriminate.
Qed.
