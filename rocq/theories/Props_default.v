(** Property C30: removal of default attributes. Specification: SpecDefaults.v. *)
From Coq Require Import List Bool NArith Arith ZArith String Lia QArith Qcanon.
From Verif Require Import Names Num Value Dom DomFacts DomOps Outcome DomRemove Stops Shapes NPass SpecDom SpecStops APass SpecStyle SpecGradients SpecWritten GradTransProofs.
From Verif Require Import RmDefault SpecDefaults.
Import ListNotations.
Local Open Scope nat_scope.

Lemma get_attr_map (p : attr -> bool) l a : get_attr (map (fun x => if p x then hide x else x) l) a = option_map (fun x => if p x then hide x else x) (get_attr l a).
Proof.
  unfold get_attr. induction l as [|x l IH]; [reflexivity|]. cbn [map find].
  assert (E : has_name (AN a) (if p x then hide x else x) = has_name (AN a) x) by (destruct (p x); reflexivity).
  destruct (p x) eqn:Ep; cbn [hide a_name] in *; destruct (has_name (AN a) x) eqn:En; rewrite ?E; cbn; rewrite ?Ep; try reflexivity; exact IH.
Qed.
Lemma hide_if_names p d : map a_name (attrs (hide_if p d)) = map a_name (attrs d).
Proof. unfold hide_if. cbn. rewrite map_map. apply map_ext. intros x. destruct (p x); reflexivity. Qed.
Lemma nodup_hide_if p d : attrs_nodup d -> attrs_nodup (hide_if p d).
Proof. unfold attrs_nodup. now rewrite hide_if_names. Qed.
Lemma hide_if_only p d : only_hidden d (hide_if p d).
Proof.
  repeat split. unfold hide_if. cbn. induction (attrs d) as [|x l IH]; constructor; [|exact IH]. destruct (p x); cbn; auto.
Qed.
Lemma only_hidden_refl d : only_hidden d d.
Proof. repeat split. induction (attrs d); constructor; auto. Qed.
Lemma vis_hide_if p d a : attrs_nodup d -> d_get (vis (hide_if p d)) a =
  match get_attr (attrs d) a with Some x => if a_vis x && negb (p x) then Some (a_val x) else None | None => None end.
Proof.
  intros N. rewrite vis_dget by now apply nodup_hide_if. unfold hide_if at 1. cbn [attrs with_attrs]. rewrite get_attr_map.
  destruct (get_attr (attrs d) a) as [x|]; [|reflexivity]. cbn. destruct (p x); cbn; [now rewrite andb_false_r|]. now rewrite andb_true_r.
Qed.

Section Pass.
Variable dv : aid -> option value.
Variable svg : option nat.

Lemma check_default a v : check_is_default dv a v = true <-> dv a = Some v.
Proof.
  unfold check_is_default. destruct (dv a) as [w|]; [|split; discriminate]. destruct (value_eqb_spec v w); split; congruence.
Qed.
Lemma default_presentation anc d e x a : a_name x = AN a -> is_presentation a = true -> a <> AOverflow ->
  default_attr dv svg anc d e x = true ->
  dv a = Some (a_val x) /\ (find (fun n => d_has n a) anc = None \/
    exists n y, find (fun n => d_has n a) anc = Some n /\ get_attr (attrs n) a = Some y /\ a_vis y = false).
Proof.
  intros En Pa Na. unfold default_attr. rewrite En, Pa. destruct (check_is_default dv a (a_val x)) eqn:C.
  2: { destruct (aid_eqb_spec a AOverflow); [contradiction|discriminate]. }
  apply check_default in C. intros H. split; [exact C|]. destruct (find (fun n => d_has n a) anc) as [n|] eqn:F; [|now left].
  right. exists n. destruct (get_attr (attrs n) a) as [y|] eqn:G; [|discriminate]. exists y. split; [reflexivity|]. split; [reflexivity|]. now apply negb_true_iff in H.
Qed.
Lemma nearest_none a l : find (fun n => d_has n a) l = None -> Forall attrs_nodup l -> nearest a (map vis l) = None.
Proof.
  induction l as [|d l IH]; intros F N; [reflexivity|]. inversion N as [|? ? Nd Nl]; subst. cbn [find map nearest] in *.
  destruct (d_has d a) eqn:H; [discriminate|]. rewrite vis_dget by exact Nd. unfold d_has, has_attr in H. destruct (get_attr (attrs d) a); [discriminate|]. now apply IH.
Qed.
Lemma nearest_hidden a l n y : find (fun n => d_has n a) l = Some n -> get_attr (attrs n) a = Some y -> a_vis y = false -> is_presentation a = true -> a <> AOverflow ->
  Forall attrs_nodup l -> hidden_defaults dv l -> computed_written dv l a = dv a.
Proof.
  induction l as [|d l IH]; intros F G V Pa Na N H; [discriminate|]. inversion N as [|? ? Nd Nl]; subst. cbn [find] in F.
  destruct (d_has d a) eqn:Hd.
  - injection F as ->. cbn [hidden_defaults] in H. destruct H as [_ H]. destruct (H a y G V Pa Na) as [E _]. exact E.
  - destruct H as [H _]. specialize (IH F G V Pa Na Nl H). revert IH. unfold computed_written. cbn [map nearest]. rewrite vis_dget by exact Nd.
    unfold d_has, has_attr in Hd. destruct (get_attr (attrs d) a); [discriminate|]. auto.
Qed.

(** What is kept of the ancestors during the pass. *)
Definition kept (anc0 anc : list ndata) : Prop :=
  Forall attrs_nodup anc0 /\ Forall attrs_nodup anc /\
  (hidden_defaults dv anc0 -> hidden_defaults dv anc /\ forall a, is_presentation a = true -> a <> AOverflow -> computed_written dv anc a = computed_written dv anc0 a).

Lemma default_node_cases anc d : (exists e, tag d = TEl e /\ default_node dv svg anc d = hide_if (default_attr dv svg anc d e) d) \/ default_node dv svg anc d = d.
Proof. unfold default_node. destruct (tag d) as [|e| | | |] eqn:E; auto. left. exists e. auto. Qed.

Lemma default_node_computed anc0 anc d : attrs_nodup d -> kept anc0 anc -> hidden_defaults dv (d :: anc0) ->
  let d' := default_node dv svg anc d in
  hidden_defaults dv (d' :: anc) /\
  (forall a, is_presentation a = true -> a <> AOverflow ->
     computed_written dv (d' :: anc) a = computed_written dv (d :: anc0) a /\ own_written dv d' a = own_written dv d a).
Proof.
  intros N (N0 & N1 & K) HD d'. destruct HD as [HD0 HDd]. destruct (K HD0) as [HD1 KC].
  assert (CW : forall a, is_presentation a = true -> a <> AOverflow ->
     computed_written dv (d' :: anc) a = computed_written dv (d :: anc0) a /\ own_written dv d' a = own_written dv d a).
  { intros a Pa Na. specialize (KC a Pa Na). revert KC. unfold computed_written, own_written. cbn [map nearest].
    destruct (default_node_cases anc d) as [(e & Te & E)|E]; subst d'; rewrite E.
    2: { intros KC. destruct (d_get (vis d) a); auto. }
    rewrite vis_hide_if by exact N. rewrite (vis_dget d) by exact N. intros KC.
    destruct (get_attr (attrs d) a) as [x|] eqn:G; [|auto]. destruct (a_vis x); cbn [andb]; [|auto].
    destruct (default_attr dv svg anc d e x) eqn:DA; cbn [negb]; [|auto].
    apply get_attr_some in G. destruct G as [_ En]. destruct (default_presentation _ _ _ _ _ En Pa Na DA) as [D [F|(n & y & F & G & V)]].
    - rewrite (nearest_none _ _ F N1). auto.
    - pose proof (nearest_hidden _ _ _ _ F G V Pa Na N1 HD1) as X. unfold computed_written in X. rewrite X. auto. }
  split; [|exact CW]. cbn [hidden_defaults]. split; [exact HD1|]. intros a x' G V Pa Na. destruct (CW a Pa Na) as [-> _].
  destruct (default_node_cases anc d) as [(e & Te & E)|E]; subst d'; rewrite E in G.
  2: { exact (HDd a x' G V Pa Na). }
  unfold hide_if in G. cbn [attrs with_attrs] in G. rewrite get_attr_map in G. destruct (get_attr (attrs d) a) as [x|] eqn:G0; [|discriminate]. cbn in G. injection G as G.
  destruct (a_vis x) eqn:Vx.
  - assert (DA : default_attr dv svg anc d e x = true) by (destruct (default_attr dv svg anc d e x); [reflexivity|congruence]). rewrite DA in G. subst x'.
    pose proof (get_attr_some _ _ _ G0) as [_ En]. destruct (default_presentation _ _ _ _ _ En Pa Na DA) as [D _]. cbn [a_val hide].
    unfold computed_written. cbn [map nearest]. rewrite vis_dget by exact N. rewrite G0, Vx. auto.
  - destruct (HDd a x G0 Vx Pa Na) as [A B]. split; [exact A|]. destruct (default_attr dv svg anc d e x); subst x'; exact B.
Qed.
Lemma default_node_kept anc0 anc d d' : attrs_nodup d -> kept anc0 anc -> Ok (default_node dv svg anc d) = Ok d' -> key d' = key d /\ kept (d :: anc0) (d' :: anc).
Proof.
  intros N K H. injection H as <-. split; [destruct (default_node_cases anc d) as [(e & Te & E)|E]; rewrite E; reflexivity|]. split; [|split].
  - constructor; [exact N|apply K].
  - constructor; [|apply K]. destruct (default_node_cases anc d) as [(e & Te & E)|E]; rewrite E; [now apply nodup_hide_if|exact N].
  - intros HD. destruct (default_node_computed anc0 anc d N K HD) as [A B]. split; [exact A|]. intros a Pa Na. apply (B a Pa Na).
Qed.
End Pass.

(** The pass always succeeds. *)
Theorem C30_total dv t : exists t', remove_default_attributes dv t = Ok t'.
Proof. apply apass_total. intros anc d. eexists. reflexivity. Qed.

Lemma WFA_nodup t : WFA t -> Forall attrs_nodup (flat t).
Proof. intros W. exact W. Qed.
Lemma kept_nil dv : kept dv [] [].
Proof. repeat split; constructor. Qed.
Lemma Forall2_with_l {A B} (R : A -> B -> Prop) l l' : Forall2 R l l' -> Forall2 (fun x y => In x l /\ R x y) l l'.
Proof.
  induction 1 as [|x y l l' H F IH]; constructor; [split; [now left|exact H]|].
  eapply Forall2_impl; [|exact IH]. cbn. intros a b [X Y]. auto.
Qed.

(** In the saved document every property of every element has the same computed value as before, and
    nothing but the visibility of attributes changes. *)
Theorem C30_same_computed_values dv t t' : WFA t -> hidden_ok dv t -> remove_default_attributes dv t = Ok t' ->
  skeleton t' = skeleton t /\
  Forall2 (fun c c' => only_hidden (snd c) (snd c') /\
    forall a, is_presentation a = true -> a <> AOverflow ->
      computed_written dv (snd c' :: fst c') a = computed_written dv (snd c :: fst c) a /\
      own_written dv (snd c') a = own_written dv (snd c) a) (ctx [] t) (ctx [] t').
Proof.
  intros W HO H.
  destruct (apass_inv _ attrs_nodup (kept dv) (fun anc0 anc d d' N K E => default_node_kept dv _ anc0 anc d d' N K E) t [] [] t' (WFA_nodup t W) (kept_nil dv) H) as [S F].
  split; [exact S|]. eapply Forall2_impl; [|exact (Forall2_with_l _ _ _ F)]. cbn beta. intros (anc0, d) (anc, d') (Hin & K & E). cbn [fst snd] in *. injection E as <-.
  split.
  - destruct (default_node_cases dv (option_map root_key (svg_element t)) anc d) as [(e & Te & E)|E]; rewrite E; [apply hide_if_only|apply only_hidden_refl].
  - assert (N : attrs_nodup d). { unfold WFA in W. rewrite Forall_forall in W. apply W. rewrite <- (map_snd_ctx [] t). apply in_map_iff. exists (anc0, d). auto. }
    apply (default_node_computed dv _ anc0 anc d N K (HO _ Hin)).
Qed.
(** The result can be cleaned again: what is hidden still has the default value. *)
Theorem C30_hidden_values_are_defaults dv t t' : WFA t -> hidden_ok dv t -> remove_default_attributes dv t = Ok t' -> hidden_ok dv t'.
Proof.
  intros W HO H c' Hc'.
  destruct (apass_inv _ attrs_nodup (kept dv) (fun anc0 anc d d' N K E => default_node_kept dv _ anc0 anc d d' N K E) t [] [] t' (WFA_nodup t W) (kept_nil dv) H) as [_ F].
  destruct (Forall2_in_r _ _ _ _ F Hc') as (c & Hc & K & E). destruct c as (anc0, d), c' as (anc, d'). cbn [fst snd] in *. injection E as <-.
  assert (N : attrs_nodup d). { unfold WFA in W. rewrite Forall_forall in W. apply W. rewrite <- (map_snd_ctx [] t). apply in_map_iff. exists (anc0, d). auto. }
  apply (default_node_computed dv _ anc0 anc d N K (HO _ Hc)).
Qed.

Lemma eid_eqb_true e f : eid_eqb e f = true -> e = f.
Proof. destruct (eid_eqb_spec e f); congruence. Qed.
Lemma value_eqb_true v w : value_eqb v w = true -> v = w.
Proof. destruct (value_eqb_spec v w); congruence. Qed.
Lemma one_of_in l e : one_of l e = true -> In e l.
Proof. unfold one_of. rewrite existsb_exists. intros (x & Hx & E). apply eid_eqb_true in E. now subst. Qed.
Lemma len_zero l : len_eqb l zero_len = true -> VLen l = zero.
Proof. intros H. assert (X : value_eqb (VLen l) (VLen zero_len) = true) by exact H. exact (value_eqb_true _ _ X). Qed.
Ltac inb := cbn [In]; intuition congruence.
Lemma is_default_absent e a v : is_default e a v = true -> has_meaning e a -> ~ (e = EFontFace /\ a = ASlope /\ v = VStr "1") -> absent e a v.
Proof.
  unfold is_default. destruct (is_gradient e); [discriminate|]. destruct a; try discriminate; cbn [has_meaning]; intros H M NS.
  all: try (apply andb_true_iff in H; destruct H as [H1 H2]; apply value_eqb_true in H2; subst v;
            first [apply one_of_in in H1|apply eid_eqb_true in H1; subst e]).
  all: try (apply value_eqb_true in H; subst).
  all: try solve [constructor; cbn [In] in *; intuition congruence].
  (* width, height *)
  1,3: (destruct (eid_eqb_spec e ESvg) as [->|_]; [apply value_eqb_true in H; subst; apply ab_svg; inb|];
    destruct (eid_eqb_spec e EPattern) as [->|_]; [apply value_eqb_true in H; subst; apply ab_pattern; inb|];
    destruct (one_of [EMask; EFilter] e) eqn:O; [|discriminate]; apply one_of_in in O; apply value_eqb_true in H; subst; apply ab_region_size; [exact O|inb]).
  (* slope *)
  1: { destruct (eid_eqb_spec e EFontFace) as [->|Ne]; cbn [andb] in H.
       - destruct (value_eqb v (VStr "0")) eqn:E0; [apply value_eqb_true in E0; subst; constructor|]. apply value_eqb_true in H. subst. exfalso. apply NS. auto.
       - apply value_eqb_true in H. subst. apply ab_func. cbn [In] in *. intuition congruence. }
  (* x, y *)
  1,2: (destruct (eid_eqb e EGlyphRef); [discriminate|]; destruct (one_of [EMask; EFilter] e) eqn:O;
    [apply one_of_in in O; apply value_eqb_true in H; subst; apply ab_region; [exact O|inb]|];
    destruct v as [| | |l|ll| | | | | |]; try discriminate;
    [apply len_zero in H; rewrite H; apply ab_xy; [|inb]; cbn [In] in *;
     assert (EMask <> e /\ EFilter <> e) by (split; intros <-; discriminate O); tauto
    |destruct ll as [|l [|]]; try discriminate; apply andb_true_iff in H; destruct H as [H1 H2]; apply eid_eqb_true in H1; subst;
     apply len_zero in H2; injection H2 as ->; apply ab_text; inb]).
Qed.

(** Every newly hidden attribute is a default: a presentation attribute with its initial value, the
    overflow that the element has anyway, or an attribute whose absence means the same. What is missing:
    attributes on elements that SVG 1.1 does not give them to, elements with xlink:href, and the slope
    "1" of font-face (refuted below). *)
Theorem C30_absent_means_the_same_partial dv t t' : WFA t -> remove_default_attributes dv t = Ok t' -> dv AOverflow = None ->
  Forall2 (fun d d' => Forall2 (fun x x' => a_vis x = true -> a_vis x' = false ->
    exists e a, tag d = TEl e /\ a_name x = AN a /\
      ((is_presentation a = true /\ dv a = Some (a_val x)) \/
       (a = AOverflow /\ a_val x = overflow_absent (match svg_element t with Some s => Nat.eqb (root_key s) (key d) | None => false end)) \/
       (is_presentation a = false /\
        (has_meaning e a -> d_has d AXlinkHref = false -> ~ (e = EFontFace /\ a = ASlope /\ a_val x = VStr "1") -> absent e a (a_val x))))) (attrs d) (attrs d'))
    (flat t) (flat t').
Proof.
  intros W H NO. rewrite <- (map_snd_ctx [] t), <- (map_snd_ctx [] t').
  destruct (apass_inv _ attrs_nodup (kept dv) (fun anc0 anc d d' N K E => default_node_kept dv _ anc0 anc d d' N K E) t [] [] t' (WFA_nodup t W) (kept_nil dv) H) as [_ F].
  induction F as [|(anc0, d) (anc, d') l l' [_ E] F IH]; cbn [map snd]; constructor; [|exact IH]. clear IH F. cbn [fst snd] in E. injection E as <-.
  set (svg := option_map root_key (svg_element t)).
  assert (R : forall l, Forall2 (fun x x' => a_vis x = true -> a_vis x' = false -> False) l l).
  { intros l0. induction l0; constructor; [congruence|assumption]. }
  destruct (default_node_cases dv svg anc d) as [(e & Te & E)|E]; rewrite E.
  2: { eapply Forall2_impl; [|apply R]. cbn. intros x x' X V V'. destruct (X V V'). }
  unfold hide_if. cbn [attrs with_attrs]. induction (attrs d) as [|x la IH]; [constructor|]. cbn [map]. constructor; [|exact IH]. intros V V'.
  destruct (default_attr dv svg anc d e x) eqn:D; [|congruence]. clear - D NO Te. revert D. unfold default_attr.
  destruct (a_name x) as [a|s] eqn:En; [|discriminate]. exists e, a. split; [exact Te|]. split; [reflexivity|].
  destruct (is_presentation a) eqn:Pa.
  2: { right. right. split; [reflexivity|]. intros M _ NS. now apply is_default_absent. }
  destruct (check_is_default dv a (a_val x)) eqn:C; [left; split; [reflexivity|now apply check_default]|].
  destruct (aid_eqb_spec a AOverflow) as [->|]; [|discriminate]. right. left. split; [reflexivity|]. subst svg.
  destruct (svg_element t) as [s|]; cbn [option_map] in D; [destruct (Nat.eqb (root_key s) (key d))|]; now apply value_eqb_true in D.
Qed.

Lemma apass_idem f : (forall anc d d', f anc d = Ok d' -> f anc d' = Ok d') -> forall t anc t', apass f anc t = Ok t' -> apass f anc t' = Ok t'.
Proof.
  intros Hf. induction t as [d ch IH] using tree_ind'. intros anc t' H. rewrite apass_T in H.
  apply bind_ok in H. destruct H as (d' & Hd & H). apply bind_ok in H. destruct H as (ch' & Hch & H). injection H as <-.
  rewrite apass_T. rewrite (Hf _ _ _ Hd). cbn [bind].
  assert (X : aforest f (d' :: anc) ch' = Ok ch').
  { revert ch' Hch. induction IH as [|c ch Hc F IH2]; intros ch' Hch; [injection Hch as <-; reflexivity|]. rewrite aforest_cons in Hch.
    apply bind_ok in Hch. destruct Hch as (c' & H1 & Hch). apply bind_ok in Hch. destruct Hch as (r & H2 & H3). injection H3 as <-.
    rewrite aforest_cons, (Hc _ _ H1). cbn [bind]. rewrite (IH2 _ H2). reflexivity. }
  rewrite X. reflexivity.
Qed.
Lemma apass_kid_tags f : (forall anc d d', f anc d = Ok d' -> key d' = key d /\ tag d' = tag d) -> forall t anc t', apass f anc t = Ok t' ->
  option_map root_key (svg_element t') = option_map root_key (svg_element t).
Proof.
  intros Hf [d ch] anc t' H. rewrite apass_T in H.
  apply bind_ok in H. destruct H as (d' & Hd & H). apply bind_ok in H. destruct H as (ch' & Hch & H). injection H as <-.
  apply aforest_ok in Hch. unfold svg_element. cbn [kids]. induction Hch as [|c c' l l' Hc F IH]; [reflexivity|]. cbn [find].
  assert (X : key (data c') = key (data c) /\ tag (data c') = tag (data c)).
  { destruct c as [dc cc]. rewrite apass_T in Hc. apply bind_ok in Hc. destruct Hc as (x & Hx & Hc). apply bind_ok in Hc. destruct Hc as (y & _ & Hc). injection Hc as <-. exact (Hf _ _ _ Hx). }
  destruct X as [X1 X2]. assert (Y : is_tag ESvg (data c') = is_tag ESvg (data c)) by (unfold is_tag; now rewrite X2). rewrite Y.
  destruct (is_tag ESvg (data c)); [|exact IH]. cbn [option_map]. f_equal. exact X1.
Qed.

(** A second run changes nothing. *)
Theorem C30_idempotent dv t t' : remove_default_attributes dv t = Ok t' -> remove_default_attributes dv t' = Ok t'.
Proof.
  intros H. assert (S : option_map root_key (svg_element t') = option_map root_key (svg_element t)).
  { eapply apass_kid_tags; [|exact H]. intros anc d d' E. injection E as <-.
    destruct (default_node_cases dv (option_map root_key (svg_element t)) anc d) as [(e & Te & E)|E]; rewrite E; auto. }
  unfold remove_default_attributes in *. rewrite S. eapply apass_idem; [|exact H]. intros anc d d' E. injection E as <-. f_equal.
  set (svg := option_map root_key (svg_element t)).
  unfold default_node. destruct (tag d) as [|e| | | |] eqn:Te; rewrite ?Te; try reflexivity. change (tag (hide_if (default_attr dv svg anc d e) d)) with (tag d). rewrite Te.
  unfold hide_if, with_attrs. cbn [attrs key tag nid]. f_equal. rewrite map_map. apply map_ext. intros x.
  assert (Q : forall y d2, a_name y = a_name x -> a_val y = a_val x -> key d2 = key d -> default_attr dv svg anc d2 e y = default_attr dv svg anc d e x).
  { intros y d2 E1 E2 E3. unfold default_attr. now rewrite E1, E2, E3. }
  destruct (default_attr dv svg anc d e x) eqn:D; (rewrite Q by reflexivity; reflexivity).
Qed.

(** Witnesses. [initial] has two entries of the table of initial values. *)
Definition initial (a : aid) : option value :=
  match a with AFill => Some (VColor 0 0 0) | AStroke => Some (VPre Vid_none) | _ => None end.
Definition default_doc : tree :=
  doc [el 1 ESvg [at_ AFill (VColor 0 0 0); at_ AX (px 0); at_ AOverflow (VPre Vid_visible)]
         [el 2 EG [at_ AFill (VColor 0 0 0)]
            [el 3 ERect [at_ AFill (VColor 0 0 0); at_ AStroke (VPre Vid_none); at_ AX (px 0); at_ AY (px 1)] []];
          el 4 EG [at_ AStroke (VColor 9 9 9)]
            [el 5 ECircle [at_ AStroke (VPre Vid_none); at_ AFill (VColor 0 0 0); at_ ACx (px 0)] []];
          el 6 EMarker [at_ AOverflow (VPre Vid_visible)] []; el 7 EMarker [at_ AOverflow (VPre Vid_hidden)] []]].
Definition hid (a : aid) (v : value) : attr := At (AN a) v false.
Lemma nothing_hidden dv t : (forall d x, In d (flat t) -> In x (attrs d) -> a_vis x = true) -> hidden_ok dv t.
Proof.
  intros H c Hc. assert (G : forall t anc, (forall d x, In d (flat t) -> In x (attrs d) -> a_vis x = true) -> hidden_defaults dv anc ->
    forall c, In c (ctx anc t) -> hidden_defaults dv (snd c :: fst c)).
  { clear. induction t as [d ch IH] using tree_ind'. intros anc H Ha c Hc. cbn [ctx] in Hc.
    assert (Hd : hidden_defaults dv (d :: anc)).
    { cbn [hidden_defaults]. split; [exact Ha|]. intros a x G V. exfalso. apply get_attr_some in G. destruct G as [G _]. rewrite (H d x) in V; [discriminate|now left|exact G]. }
    destruct Hc as [<-|Hc]; [exact Hd|]. apply in_flat_map in Hc. destruct Hc as (s & Hs & Hc). rewrite Forall_forall in IH.
    apply (IH s Hs (d :: anc)); [|exact Hd|exact Hc]. intros d0 x Hd0 Hx. apply (H d0 x); [|exact Hx]. cbn. right. apply in_flat_map. exists s. auto. }
  exact (G t [] H I c Hc).
Qed.
Ltac wfa := unfold WFA, doc, el, at_; cbn [flat flat_map app]; repeat (apply Forall_cons || apply Forall_nil); unfold attrs_nodup; cbn; repeat constructor; cbn; intuition discriminate.
Example C30_instance : WFA default_doc /\ hidden_ok initial default_doc /\ initial AOverflow = None /\ remove_default_attributes initial default_doc =
  Ok (doc [el 1 ESvg [hid AFill (VColor 0 0 0); hid AX (px 0); hid AOverflow (VPre Vid_visible)]
         [el 2 EG [hid AFill (VColor 0 0 0)]
            [el 3 ERect [hid AFill (VColor 0 0 0); hid AStroke (VPre Vid_none); hid AX (px 0); at_ AY (px 1)] []];
          el 4 EG [at_ AStroke (VColor 9 9 9)]
            [el 5 ECircle [at_ AStroke (VPre Vid_none); hid AFill (VColor 0 0 0); hid ACx (px 0)] []];
          el 6 EMarker [at_ AOverflow (VPre Vid_visible)] []; el 7 EMarker [hid AOverflow (VPre Vid_hidden)] []]]).
Proof.
  split; [wfa|]. split; [|split; [reflexivity|vm_compute; reflexivity]]. apply nothing_hidden. intros d x Hd Hx.
  cbn in Hd. repeat (destruct Hd as [<-|Hd]; [cbn in Hx; intuition (subst; reflexivity)|]). destruct Hd.
Qed.

(** The default of slope is 0 for font-face, but 1 is removed. *)
Theorem C30_font_face_slope_refuted : exists t t' d d' x x', WFA t /\ remove_default_attributes initial t = Ok t' /\
  In d (flat t) /\ In d' (flat t') /\ key d' = key d /\ tag d = TEl EFontFace /\ attrs d = [x] /\ attrs d' = [x'] /\ a_name x = AN ASlope /\
  a_vis x = true /\ a_vis x' = false /\ ~ absent EFontFace ASlope (a_val x).
Proof.
  exists (doc [el 1 ESvg [] [el 2 EFontFace [at_ ASlope (VStr "1")] []]]), (doc [el 1 ESvg [] [el 2 EFontFace [hid ASlope (VStr "1")] []]]).
  exists (ND 2 (TEl EFontFace) "" [at_ ASlope (VStr "1")]), (ND 2 (TEl EFontFace) "" [hid ASlope (VStr "1")]), (at_ ASlope (VStr "1")), (hid ASlope (VStr "1")).
  split; [wfa|]. split; [vm_compute; reflexivity|]. repeat (split; [solve [cbn; auto 12]|]).
  cbn. intros A. inversion A; subst; cbn in *; intuition discriminate.
Qed.
(** A pattern inherits missing attributes along xlink:href, but a default that overrides the value of the
    referenced pattern is removed. *)
Definition two_patterns (hidden : bool) : tree :=
  doc [el 1 ESvg [] [eli 2 EPattern "a" [at_ AX (px 5)] []; eli 3 EPattern "b" [At (AN AX) (px 0) (negb hidden); at_ AXlinkHref (VLink 2)] []]].
Theorem C30_pattern_href_refuted : exists t t' d d', WFA t /\ remove_default_attributes initial t = Ok t' /\
  In d (flat (written t)) /\ In d' (flat (written t')) /\ key d' = key d /\ tag d = TEl EPattern /\
  along_href (written t) AX d (Some (px 0)) /\ along_href (written t') AX d' (Some (px 5)).
Proof.
  exists (two_patterns false), (two_patterns true). eexists (ND 3 (TEl EPattern) "b" [at_ AX (px 0); at_ AXlinkHref (VLink 2)]), (ND 3 (TEl EPattern) "b" [at_ AXlinkHref (VLink 2)]).
  split; [unfold two_patterns, eli; wfa|]. split; [vm_compute; reflexivity|]. repeat (split; [solve [cbn; auto 12]|]). split.
  - now apply ah_own.
  - eapply ah_next with (k := 2) (x := ND 2 (TEl EPattern) "a" [at_ AX (px 5)]); [reflexivity|reflexivity|cbn; auto|reflexivity|now apply ah_own].
Qed.
(** The rectangle in defs is black; after the pass its copy is red. *)
Definition used_rect (hidden : bool) : tree :=
  doc [el 1 ESvg [] [el 2 EDefs [] [eli 3 ERect "r" [At (AN AFill) (VColor 0 0 0) (negb hidden)] []];
                     el 4 EG [at_ AFill (VColor 255 0 0)] [el 5 EUse [at_ AXlinkHref (VLink 3)] []]]].
Theorem C30_use_copy_refuted : exists t t' r r' u anc u' anc', WFA t /\ remove_default_attributes initial t = Ok t' /\
  In r (flat t) /\ In r' (flat t') /\ key r' = key r /\ In (anc, u) (ctx [] t) /\ In (anc', u') (ctx [] t') /\ key u' = key u /\
  d_get u AXlinkHref = Some (VLink (key r)) /\
  computed_copy initial r (u :: anc) AFill = Some (VColor 0 0 0) /\ computed_copy initial r' (u' :: anc') AFill = Some (VColor 255 0 0).
Proof.
  exists (used_rect false), (used_rect true). eexists (ND 3 (TEl ERect) "r" [at_ AFill (VColor 0 0 0)]), (ND 3 (TEl ERect) "r" [hid AFill (VColor 0 0 0)]).
  eexists (ND 5 (TEl EUse) "" _), _, (ND 5 (TEl EUse) "" _), _. split; [unfold used_rect, eli; wfa|]. split; [vm_compute; reflexivity|].
  split; [cbn; auto|]. split; [cbn; auto|]. split; [reflexivity|]. split; [cbn; right; right; right; right; right; left; reflexivity|]. split; [cbn; right; right; right; right; right; left; reflexivity|].
  repeat split.
Qed.
Print Assumptions C30_same_computed_values.
