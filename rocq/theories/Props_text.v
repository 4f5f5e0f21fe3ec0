(** Property C31: text attributes. Specification: SpecText.v. *)
From Coq Require Import List Bool NArith Arith ZArith String Ascii Lia QArith Qcanon.
From Verif Require Import Names Num Value Dom DomFacts DomOps Outcome DomRemove Stops SpecStops AttrFacts StopsProofs NPass SpecDom SpecStyle SpecWritten GradTransProofs Transforms TransformsProofs Props_transforms.
From Verif Require Import RmText SpecText TextProofs.
Import ListNotations.
Local Open Scope nat_scope.

Definition strip_face (d : ndata) : ndata := if is_tag EFontFace d then rm_all text_attributes d else d.
Lemma strip_face_tag d : tag (strip_face d) = tag d.
Proof. unfold strip_face. destruct (is_tag EFontFace d); [apply rm_all_tag|reflexivity]. Qed.
Lemma places_tmap f t : forall anc, places (map f anc) (tmap f t) = map (fun p => (map f (fst p), tmap f (snd p))) (places anc t).
Proof.
  induction t as [d ch IH] using tree_ind'. intros anc. cbn [places tmap map fst snd]. f_equal.
  rewrite !flat_map_concat_map, concat_map, !map_map. f_equal. apply map_ext_in. intros c Hc. rewrite Forall_forall in IH. exact (IH c Hc (d :: anc)).
Qed.
Lemma tmap_data f t : data (tmap f t) = f (data t). Proof. destruct t; reflexivity. Qed.
Lemma has_text_tags t t' : Forall2 (fun p p' : list ndata * tree => tag (data (snd p')) = tag (data (snd p))) (places [] t) (places [] t') -> has_text t' = has_text t.
Proof.
  intros F. unfold has_text. rewrite <- (flat_places t []), <- (flat_places t' []), !existsb_map. induction F as [|p p' l l' E F IH]; [reflexivity|]. cbn. unfold is_text at 1 3. rewrite E, IH. reflexivity.
Qed.
Lemma chg_tags t0 c : Forall attrs_nodup (flat c) -> Forall2 (fun p p' : list ndata * tree => tag (data (snd p')) = tag (data (snd p))) (places [] c) (places [] (chg t0 c)).
Proof. intros N. eapply Forall2_impl; [|exact (chg_place t0 c N)]. intros p p' [E _]. exact E. Qed.
Lemma chg_root_tag t0 c : Forall attrs_nodup (flat c) -> tag (data (chg t0 c)) = tag (data c).
Proof.
  intros N. pose proof (chg_tags t0 c N) as F. destruct c as [d ch]. destruct (chg t0 (T d ch)) as [d' ch']. cbn [places] in F. inversion F as [|? ? ? ? E]; subst. exact E.
Qed.
Lemma kid_nodup t c : WFA t -> In c (kids t) -> Forall attrs_nodup (flat c).
Proof.
  intros W Hc. apply Forall_forall. intros x Hx. unfold WFA in W. rewrite Forall_forall in W. apply W. destruct t as [d ch]. cbn in *. right. apply in_flat_map. eauto.
Qed.
Lemma svg_element_chg t : WFA t -> svg_element (T (data t) (map (chg t) (kids t))) = option_map (chg t) (svg_element t).
Proof.
  intros W. unfold svg_element. cbn [kids]. assert (H : forall c, In c (kids t) -> Forall attrs_nodup (flat c)) by (intros c; now apply kid_nodup).
  induction (kids t) as [|c l IH]; [reflexivity|]. cbn [map find]. unfold is_tag at 1 3. rewrite chg_root_tag by (apply H; now left).
  destruct (match tag (data c) with TEl x => eid_eqb x ESvg | _ => false end); [reflexivity|]. apply IH. intros x Hx. apply H. now right.
Qed.
(** The pass succeeds for every document with an svg element. *)
Theorem C31_total t : WFA t -> svg_element t <> None -> exists t', remove_text_attributes t = Ok t'.
Proof.
  intros W H. unfold remove_text_attributes. rewrite first_two, (svg_element_chg t W). destruct (svg_element t); [|contradiction]. cbn. eauto.
Qed.

(** The elements that depend on fonts see the same text properties as before, and every text is shown
    with the same white space. Text inside elements that are not SVG, elements with children that have
    lengths in em, and uses of text elements are not covered: see the refutations. *)
Theorem C31_text_is_kept_partial t t' : WFA t -> one_root t -> remove_text_attributes t = Ok t' ->
  Forall2 (fun p p' =>
    tag (data (snd p')) = tag (data (snd p)) /\
    (Forall svg_node (fst p) -> depends_on_font (snd p) ->
       (has_font_face (data (snd p) :: fst p) -> exists s, tag (data (snd p)) = TText s) ->
       (forall a, In a text_properties -> nearest a (map vis (data (snd p') :: fst p')) = nearest a (map vis (data (snd p) :: fst p))) /\
       (forall s, tag (data (snd p)) = TText s -> plain_space s -> shown_text (fst p') s = shown_text (fst p) s)))
    (places [] t) (places [] t').
Proof.
  intros W (Rt & Rn & Rk) H. unfold remove_text_attributes in H. rewrite first_two, (svg_element_chg t W) in H.
  destruct (svg_element t) as [sv|] eqn:Es; [|discriminate]. cbn [option_map] in H.
  assert (Hsv : In sv (kids t) /\ tag (data sv) = TEl ESvg).
  { unfold svg_element in Es. apply find_some in Es. destruct Es as [A B]. split; [exact A|]. unfold is_tag in B. destruct (tag (data sv)) as [|e| | | |]; try discriminate.
    destruct (eid_eqb_spec e ESvg); [congruence|discriminate]. }
  assert (Ht : has_text (chg t sv) = has_text sv) by (apply has_text_tags, chg_tags; apply (kid_nodup t); [exact W|apply Hsv]). rewrite Ht in H. clear Ht.
  match type of H with Ok ?x = Ok ?y => assert (H' : x = y) by congruence end. clear H. rename H' into H.
  set (t1 := T (data t) (map (chg t) (kids t))) in *.
  (* the first two steps *)
  assert (F : Forall2 (fun p p' =>
    tag (data (snd p')) = tag (data (snd p)) /\
    (Forall svg_node (fst p) -> depends_on_font (snd p) ->
       (forall a, In a text_properties -> Forall2 (fun d d' => tag d' = tag d /\ d_get (vis d') a = d_get (vis d) a) (data (snd p) :: fst p) (data (snd p') :: fst p')) /\
       (forall s, tag (data (snd p)) = TText s -> (plain_space s -> shown_text (fst p') s = shown_text (fst p) s) /\ has_text sv = true))) (places [] t) (places [] t1)).
  { destruct t as [r ch]. unfold t1. cbn [data kids places] in *. constructor.
    - split; [reflexivity|]. cbn [fst snd data]. intros _ D. exfalso. destruct D as [(x & E)|[[_ E]|[_ [[e E] _]]]]; cbn [data] in E; congruence.
    - apply Forall2_flat_map. apply Forall2_map_self. apply Forall_forall. intros c Hc. pose proof (kid_nodup _ c W Hc) as Nc.
      rewrite (places_app c), (places_app (chg (T r ch) c)). apply Forall2_map2. eapply Forall2_impl; [|exact (Forall2_with_in _ _ _ (chg_place (T r ch) c Nc))]. cbn [fst snd].
      intros q q' (Hq & T1 & HQ). split; [exact T1|]. intros Sp D.
      assert (EP : el_path (fst q)).
      { unfold el_path. rewrite Forall_forall in Sp |- *. intros x Hx. destruct (Sp x) as [E|E]; [apply in_or_app; auto| |exact E]. exfalso. apply (Rn c x Hc); [|exact E].
        clear -Hq Hx. assert (G : forall c anc q, In q (places anc c) -> forall x, In x (fst q) -> In x anc \/ In x (flat c)).
        { clear. induction c as [d ch IH] using tree_ind'. intros anc q Hq x Hx. cbn [places] in Hq. destruct Hq as [<-|Hq]; [left; exact Hx|]. apply in_flat_map in Hq. destruct Hq as (k & Hk & Hq).
          rewrite Forall_forall in IH. destruct (IH k Hk _ _ Hq x Hx) as [[<-|A]|A]; [right; now left|now left|]. right. cbn. right. apply in_flat_map. eauto. }
        destruct (G c [] q Hq x Hx) as [[]|X]; exact X. }
      destruct (HQ EP D) as [A B]. split.
      + intros a Ha. assert (N1 : a <> ALineHeight /\ a <> AXmlSpace) by (split; intros ->; cbn in Ha; intuition discriminate). destruct N1 as [N1 N2].
        specialize (A a N1 N2). inversion A as [|? ? ? ? A1 A2]; subst. constructor; [exact A1|]. apply Forall2_app; [exact A2|]. constructor; [auto|constructor].
      + intros s Ts. split; [intros P; apply (B [r] s Ts P)|].
        assert (Es' : sv = c).
        { assert (X : Some sv = Some c); [|congruence]. apply Rk; [exact Hc|]. destruct c as [dc cc]. cbn [places] in Hq. destruct Hq as [<-|Hq]; [right; cbn in Ts; eauto|].
          left. apply places_svg_head in Hq. destruct Hq as (y & k & _ & _ & E). subst q. cbn [fst] in EP. unfold el_path in EP. apply Forall_app in EP. destruct EP as [_ EP]. inversion EP; subst. assumption. }
        subst sv. unfold has_text. apply existsb_exists. exists (data (snd q)). split; [rewrite <- (flat_places c []); apply in_map_iff; eauto|]. apply is_text_iff. eauto. }
  destruct (has_text sv) eqn:HT; subst t'.
  - eapply Forall2_impl; [|exact F]. cbn beta. intros p p' [A B]. split; [exact A|]. intros Sp D _. destruct (B Sp D) as [B1 B2]. split; [|intros s Ts; apply (B2 s Ts)].
    intros a Ha. apply nearest_map2. eapply Forall2_impl; [|exact (B1 a Ha)]. cbn. tauto.
  - change (fun d => if is_tag EFontFace d then rm_all text_attributes d else d) with strip_face. change (places [] (tmap strip_face t1)) with (places (map strip_face []) (tmap strip_face t1)). rewrite places_tmap.
    rewrite <- (map_id (places [] t)). apply Forall2_map2. eapply Forall2_impl; [|exact F]. cbn beta. intros p p' [A B]. cbn [fst snd]. rewrite tmap_data, strip_face_tag. split; [exact A|].
    intros Sp D FF. destruct (B Sp D) as [B1 B2].
    assert (NT : forall s, tag (data (snd p)) <> TText s) by (intros s Ts; destruct (B2 s Ts); discriminate).
    split; [|intros s Ts; destruct (NT s Ts)]. intros a Ha.
    assert (NF : ~ has_font_face (data (snd p) :: fst p)) by (intros X; destruct (FF X) as [s Ts]; exact (NT s Ts)).
    change (strip_face (data (snd p')) :: map strip_face (fst p')) with (map strip_face (data (snd p') :: fst p')).
    assert (E : map strip_face (data (snd p') :: fst p') = data (snd p') :: fst p').
    { specialize (B1 a Ha). assert (NF' : forall d, In d (data (snd p) :: fst p) -> tag d <> TEl EFontFace) by (intros d Hd E; apply NF; exists d; auto).
      clear -B1 NF'. induction B1 as [|d d' l l' [E _] F IH]; [reflexivity|]. cbn [map]. f_equal; [|apply IH; intros x Hx; apply NF'; now right].
      unfold strip_face, is_tag. rewrite E. specialize (NF' d (or_introl eq_refl)). destruct (tag d) as [|e| | | |]; try reflexivity. destruct (eid_eqb_spec e EFontFace); [congruence|reflexivity]. }
    rewrite E. apply nearest_map2. eapply Forall2_impl; [|exact (B1 a Ha)]. cbn. tauto.
Qed.

(** Only attributes of text are removed, and nothing is added. *)
Definition only_text_attrs (d d' : ndata) : Prop :=
  key d' = key d /\ tag d' = tag d /\ nid d' = nid d /\ (forall x, In x (attrs d') -> In x (attrs d)) /\
  (forall x, ~ In (a_name x) (map AN (ALineHeight :: AXmlSpace :: text_properties)) -> In x (attrs d) -> In x (attrs d')).
Lemma ota_refl d : only_text_attrs d d. Proof. repeat split; auto. Qed.
Lemma ota_trans a b c : only_text_attrs a b -> only_text_attrs b c -> only_text_attrs a c.
Proof. intros (A1 & A2 & A3 & A4 & A5) (B1 & B2 & B3 & B4 & B5). repeat split; try congruence; auto. Qed.
Lemma ota_rm d a : In a (ALineHeight :: AXmlSpace :: text_properties) -> only_text_attrs d (d_rm d a).
Proof.
  intros Ha. repeat split; unfold d_rm; cbn [attrs with_attrs]; intros x; unfold rm_attr; [intros Hx; apply filter_In in Hx; apply Hx|].
  intros Nx Hx. apply filter_In. split; [exact Hx|]. apply negb_true_iff. unfold has_name. destruct (aname_eqb_spec (a_name x) (AN a)) as [E|]; [|reflexivity].
  exfalso. apply Nx. rewrite E. apply in_map. exact Ha.
Qed.
Lemma ota_rm_all l : incl l (ALineHeight :: AXmlSpace :: text_properties) -> forall d, only_text_attrs d (rm_all l d).
Proof.
  induction l as [|a l IH]; intros I d; [apply ota_refl|]. cbn [rm_all fold_left]. eapply ota_trans; [apply (ota_rm d a); apply I; now left|]. apply IH. intros x Hx. apply I. now right.
Qed.
Lemma text_incl : incl text_attributes (ALineHeight :: AXmlSpace :: text_properties).
Proof. intros x Hx. cbn in *. intuition. Qed.
Lemma step2_nodes t : Forall2 only_text_attrs (flat t) (flat (rm_space_child t)).
Proof.
  induction t as [d ch IH] using tree_ind'. destruct (rm_space_data d ch) as (d' & -> & Dd & _). cbn [flat]. constructor.
  - destruct Dd as [-> | ->]; [apply ota_refl|apply ota_rm; cbn; auto].
  - apply Forall2_flat_map. now apply Forall2_map_self.
Qed.
Theorem C31_only_text_attributes t t' : WFA t -> remove_text_attributes t = Ok t' -> Forall2 only_text_attrs (flat t) (flat t').
Proof.
  intros W H. unfold remove_text_attributes in H. rewrite first_two, (svg_element_chg t W) in H. destruct (svg_element t) as [sv|]; [|discriminate]. cbn [option_map] in H.
  match type of H with Ok ?x = Ok ?y => assert (H' : x = y) by congruence end. clear H.
  assert (F : Forall2 only_text_attrs (flat t) (flat (T (data t) (map (chg t) (kids t))))).
  { destruct t as [r ch]. cbn [data kids flat]. constructor; [apply ota_refl|]. apply Forall2_flat_map. apply Forall2_map_self. apply Forall_forall. intros c _. unfold chg.
    eapply Forall2_trans; [|exact (step1_nodes (T r ch) c)|apply step2_nodes]. intros x y z Sx Y. eapply ota_trans; [|exact Y]. destruct Sx; [apply ota_refl|apply ota_rm; cbn; auto|].
    eapply ota_trans; [apply (ota_rm x ALineHeight); cbn; auto|apply ota_rm_all, text_incl]. }
  rewrite <- H'. clear H'. destruct (has_text _); [exact F|]. rewrite flat_tmap. eapply Forall2_trans; [|exact F|].
  - intros x y z X Y. eapply ota_trans; [exact X|exact Y].
  - apply Forall2_map_self. apply Forall_forall. intros x _. destruct (is_tag EFontFace x); [apply ota_rm_all, text_incl|apply ota_refl].
Qed.

(** A document that meets the hypotheses. *)
Definition text_doc (a b c : list attr) : tree :=
  doc [el 1 ESvg [at_ AFontSize (px 10)]
         [el 2 EG (at_ AFill (VColor 1 1 1) :: a) [el 3 ERect (at_ AX (px 1) :: b) []];
          el 4 EText (at_ AFontStyle (VStr "x") :: c) [T (ND 5 (TText "two words") "" []) []];
          el 6 EText [at_ AXmlSpace (VStr "preserve")] [T (ND 7 (TText "two  spaces") "" []) []];
          el 8 ERect [at_ AFontSize (px 3); at_ AX (VLen (Len (zq 2) UEm))] []]].
Example C31_instance : let t := text_doc [at_ AFontSize (px 5)] [at_ AKerning (px 5)] [at_ AXmlSpace (VStr "preserve")] in
  WFA t /\ one_root t /\ remove_text_attributes t = Ok (text_doc [] [] []).
Proof.
  cbn zeta. split; [unfold text_doc, WFA; cbn [flat flat_map app doc el]; repeat (apply Forall_cons || apply Forall_nil); unfold attrs_nodup; cbn; repeat constructor; cbn; intuition discriminate|].
  split; [|vm_compute; reflexivity]. split; [reflexivity|]. split.
  - intros c d Hc Hd. cbn in Hc. destruct Hc as [<-|[]]. cbn in Hd. intuition (subst; discriminate).
  - intros c Hc _. cbn in Hc. destruct Hc as [<-|[]]. reflexivity.
Qed.

(** Refutations of the stronger readings. A path from an element to the root with its font size: *)
Definition font_size (l : list ndata) : option value := nearest AFontSize (map vis l).
(** The group gives the font size for the text that the use element refers to. *)
Definition use_doc (l : list attr) : tree :=
  doc [el 1 ESvg [] [el 2 EDefs [] [eli 3 EText "t" [] [T (ND 4 (TText "a") "" []) []]]; el 5 EG l [el 6 EUse [at_ AXlinkHref (VLink 3)] []]]].
Theorem C31_used_text_refuted : exists t t' anc u anc' u', WFA t /\ one_root t /\ remove_text_attributes t = Ok t' /\
  In (anc, u) (places [] t) /\ In (anc', u') (places [] t') /\ tag (data u) = TEl EUse /\ key (data u') = key (data u) /\
  (exists k s, d_get (data u) AXlinkHref = Some (VLink k) /\ find_sub k t = Some s /\ has_text s = true) /\
  font_size (data u :: anc) = Some (px 5) /\ font_size (data u' :: anc') = None.
Proof.
  exists (use_doc [at_ AFontSize (px 5)]), (use_doc []). eexists _, (el 6 EUse [at_ AXlinkHref (VLink 3)] []), _, (el 6 EUse [at_ AXlinkHref (VLink 3)] []).
  split; [unfold use_doc, WFA; cbn [flat flat_map app doc el eli]; repeat (apply Forall_cons || apply Forall_nil); unfold attrs_nodup; cbn; repeat constructor; cbn; intuition discriminate|].
  split. { split; [reflexivity|]. split; [intros c d Hc Hd; cbn in Hc; destruct Hc as [<-|[]]; cbn in Hd; intuition (subst; discriminate)|]. intros c Hc _. cbn in Hc. destruct Hc as [<-|[]]. reflexivity. }
  split; [vm_compute; reflexivity|]. split; [cbn; right; right; right; right; right; right; left; reflexivity|]. split; [cbn; right; right; right; right; right; right; left; reflexivity|].
  split; [reflexivity|]. split; [reflexivity|]. split; [|split; reflexivity].
  eexists 3, _. split; [reflexivity|]. split; reflexivity.
Qed.
(** The svg element has a width in em and children: its own font size is removed. *)
Definition em_doc (l : list attr) : tree := doc [el 1 ESvg (l ++ [at_ AWidth (VLen (Len (zq 10) UEm))]) [el 2 ERect [] []]].
Theorem C31_em_with_children_refuted : exists t t' d d', WFA t /\ one_root t /\ remove_text_attributes t = Ok t' /\ In d (flat t) /\ In d' (flat t') /\ key d' = key d /\
  d_get d' AWidth = Some (VLen (Len (zq 10) UEm)) /\ font_size [d] = Some (px 20) /\ font_size [d'] = None.
Proof.
  exists (em_doc [at_ AFontSize (px 20)]), (em_doc []). eexists (ND 1 (TEl ESvg) "" _), (ND 1 (TEl ESvg) "" _).
  split; [unfold em_doc, WFA; cbn [flat flat_map app doc el eli]; repeat (apply Forall_cons || apply Forall_nil); unfold attrs_nodup; cbn; repeat constructor; cbn; intuition discriminate|].
  split. { split; [reflexivity|]. split; [intros c d Hc Hd; cbn in Hc; destruct Hc as [<-|[]]; cbn in Hd; intuition (subst; discriminate)|]. intros c Hc _. cbn in Hc. destruct Hc as [<-|[]]. reflexivity. }
  split; [vm_compute; reflexivity|]. split; [cbn; right; left; reflexivity|]. split; [cbn; right; left; reflexivity|]. repeat split.
Qed.
(** Text inside an element of another namespace. *)
Definition foreign_doc (l : list attr) : tree := doc [el 1 ESvg [] [el 2 EForeignObject l [T (ND 3 (TOtherEl "p") "" []) [T (ND 4 (TText "a") "" []) []]]]].
Theorem C31_foreign_text_refuted : exists t t' anc s anc' s', WFA t /\ one_root t /\ remove_text_attributes t = Ok t' /\
  In (anc, s) (places [] t) /\ In (anc', s') (places [] t') /\ key (data s') = key (data s) /\ is_text (data s) = true /\
  font_size (data s :: anc) = Some (px 20) /\ font_size (data s' :: anc') = None.
Proof.
  exists (foreign_doc [at_ AFontSize (px 20)]), (foreign_doc []). eexists _, (T (ND 4 (TText "a") "" []) []), _, (T (ND 4 (TText "a") "" []) []).
  split; [unfold foreign_doc, WFA; cbn [flat flat_map app doc el eli]; repeat (apply Forall_cons || apply Forall_nil); unfold attrs_nodup; cbn; repeat constructor; cbn; intuition discriminate|].
  split. { split; [reflexivity|]. split; [intros c d Hc Hd; cbn in Hc; destruct Hc as [<-|[]]; cbn in Hd; intuition (subst; discriminate)|]. intros c Hc _. cbn in Hc. destruct Hc as [<-|[]]. reflexivity. }
  split; [vm_compute; reflexivity|]. split; [cbn; right; right; right; right; left; reflexivity|]. split; [cbn; right; right; right; right; left; reflexivity|]. repeat split.
Qed.
(** A line break inside a text (if the parser keeps it) is removed with xml:space. *)
Theorem C31_line_break_refuted : exists t t' anc s anc', WFA t /\ one_root t /\ remove_text_attributes t = Ok t' /\
  In (anc, T (ND 4 (TText s) "" []) []) (places [] t) /\ In (anc', T (ND 4 (TText s) "" []) []) (places [] t') /\ shown_text anc' s <> shown_text anc s.
Proof.
  set (s := String "a" (String (ascii_of_nat 10) (String "b" ""))).
  exists (doc [el 1 ESvg [] [el 2 EText [at_ AXmlSpace (VStr "preserve")] [T (ND 4 (TText s) "" []) []]]]), (doc [el 1 ESvg [] [el 2 EText [] [T (ND 4 (TText s) "" []) []]]]).
  eexists _, s, _.
  split; [unfold WFA; cbn [flat flat_map app doc el eli]; repeat (apply Forall_cons || apply Forall_nil); unfold attrs_nodup; cbn; repeat constructor; cbn; intuition discriminate|].
  split. { split; [reflexivity|]. split; [intros c d Hc Hd; cbn in Hc; destruct Hc as [<-|[]]; cbn in Hd; intuition (subst; discriminate)|]. intros c Hc _. cbn in Hc. destruct Hc as [<-|[]]. reflexivity. }
  split; [vm_compute; reflexivity|]. split; [cbn; right; right; right; left; reflexivity|]. split; [cbn; right; right; right; left; reflexivity|]. vm_compute. discriminate.
Qed.
