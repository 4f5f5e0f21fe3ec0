(** C35: presentation attributes joined into the style attribute. *)
From Coq Require Import List Bool NArith Arith ZArith String Ascii Lia.
From Verif Require Import Names Num Value Dom DomFacts DomOps Outcome DomRemove SpecDom Cli SpecJoin JoinStyle TextProofs AttrFacts GradTransProofs NPass.
Import ListNotations.
Local Open Scope nat_scope.

Lemma vp_shown l : visible_presentation l = flat_map (fun x => match a_name x with AN a => if shown x then [(a, a_val x)] else [] | ANx _ => [] end) l.
Proof. induction l as [|x l IH]; [reflexivity|]. cbn. unfold shown at 1. destruct (a_name x); [|exact IH]. destruct (is_presentation a && a_vis x); cbn; congruence. Qed.
Lemma vp_declared wr l : map (fun p => (style_name (fst p), wr (snd p))) (visible_presentation l) = map (declared wr) (filter shown l).
Proof. rewrite vp_shown. induction l as [|x l IH]; [reflexivity|]. cbn. destruct (a_name x) eqn:E. - destruct (shown x); cbn; [|exact IH]. unfold declared at 1. now rewrite E, IH. - assert (S : shown x = false) by (unfold shown; now rewrite E). now rewrite S. Qed.
Lemma vp_length l : List.length (visible_presentation l) = List.length (filter shown l).
Proof. rewrite <- (map_length (fun p => (style_name (fst p), snd p))), <- (map_length (declared (fun _ => EmptyString))). rewrite <- (vp_declared (fun _ => EmptyString)). now rewrite !map_length. Qed.
Lemma vp_in a v l : In (a, v) (visible_presentation l) <-> exists x, In x l /\ shown x = true /\ a_name x = AN a /\ a_val x = v.
Proof.
  rewrite vp_shown, in_flat_map. split.
  - intros (x & Hx & H). destruct (a_name x) eqn:E; [|contradiction]. destruct (shown x) eqn:S; [|contradiction]. destruct H as [H|[]]. inversion H; subst. eauto.
  - intros (x & Hx & S & E & <-). exists x. split; [exact Hx|]. rewrite E, S. now left.
Qed.
Lemma vp_pres a v l : In (a, v) (visible_presentation l) -> is_presentation a = true.
Proof. rewrite vp_in. intros (x & _ & S & E & _). unfold shown in S. rewrite E in S. apply andb_true_iff in S. tauto. Qed.
(** *** Strings *)
Lemma append_assoc (a b c : string) : ((a ++ b) ++ c = a ++ (b ++ c))%string.
Proof. induction a; cbn; congruence. Qed.
Lemma has_char_app c a b : has_char c (a ++ b)%string = has_char c a || has_char c b.
Proof. induction a; cbn; [reflexivity|]. now rewrite IHa, orb_assoc. Qed.
Lemma split_clean c s : has_char c s = false -> split c s = [s].
Proof. induction s; cbn; [reflexivity|]. intros H. apply orb_false_iff in H. destruct H as [-> H]. now rewrite IHs. Qed.
Lemma split_sep c s r : has_char c s = false -> split c (s ++ String c r)%string = s :: split c r.
Proof. induction s; cbn; intros H; [now rewrite Ascii.eqb_refl|]. apply orb_false_iff in H. destruct H as [-> H]. now rewrite IHs. Qed.
Lemma cut_first c s r : has_char c s = false -> cut c (s ++ String c r)%string = Some (s, r).
Proof. induction s; cbn; intros H; [now rewrite Ascii.eqb_refl|]. apply orb_false_iff in H. destruct H as [-> H]. now rewrite IHs. Qed.
Lemma name_clean a : is_presentation a = true -> has_char ";" (style_name a) = false /\ has_char ":" (style_name a) = false.
Proof. destruct a; intros H; try discriminate H; split; reflexivity. Qed.
Lemma name_nonempty a : is_presentation a = true -> style_name a <> EmptyString.
Proof. destruct a; intros H; try discriminate H; discriminate. Qed.
Definition name_code (s : string) : option aid := find (fun a => is_presentation a && String.eqb (style_name a) s) aid_list.
Lemma name_code_ok a : is_presentation a = true -> name_code (style_name a) = Some a.
Proof. destruct a; intros H; try discriminate H; vm_compute; reflexivity. Qed.
(** The name tells the attribute. *)
Theorem C35_names_distinct a b : is_presentation a = true -> is_presentation b = true -> style_name a = style_name b -> a = b.
Proof. intros Ha Hb E. apply name_code_ok in Ha, Hb. congruence. Qed.
Lemma text_split wr l : l <> [] -> (forall a v, In (a, v) l -> is_presentation a = true /\ has_char ";" (wr v) = false) ->
  all_some (map (cut ":") (split ";" (style_text wr l))) = Some (map (fun p => (style_name (fst p), wr (snd p))) l).
Proof.
  induction l as [|[a v] l IH]; intros Ne H; [contradiction|]. destruct (H a v (or_introl eq_refl)) as [P C]. destruct (name_clean a P) as [N1 N2].
  assert (C1 : has_char ";" (style_name a ++ ":" ++ wr v)%string = false) by (rewrite !has_char_app, N1, C; reflexivity).
  destruct l as [|[b w] l].
  - cbn [style_text]. rewrite (split_clean _ _ C1). cbn [map]. change (":" ++ wr v)%string with (String ":" (wr v)). rewrite (cut_first _ _ _ N2). reflexivity.
  - set (m := (b, w) :: l) in *. assert (E : style_text wr ((a, v) :: m) = ((style_name a ++ ":" ++ wr v) ++ String ";" (style_text wr m))%string) by (unfold m; cbn [style_text]; rewrite !append_assoc; reflexivity).
    rewrite E, (split_sep _ _ _ C1). cbn [map]. change (":" ++ wr v)%string with (String ":" (wr v)). rewrite (cut_first _ _ _ N2). cbn [all_some]. rewrite IH; [reflexivity|discriminate|]. intros x y Hx. apply H. now right.
Qed.
Lemma text_ok wr l : (forall a v, In (a, v) l -> is_presentation a = true /\ has_char ";" (wr v) = false) ->
  declarations (style_text wr l) = Some (map (fun p => (style_name (fst p), wr (snd p))) l).
Proof.
  intros H. destruct l as [|[a v] l]; [reflexivity|]. pose proof (text_split wr ((a, v) :: l) ltac:(discriminate) H) as E. unfold declarations.
  destruct (style_text wr ((a, v) :: l)) eqn:S; [|exact E]. exfalso. pose proof (name_nonempty a (proj1 (H a v (or_introl eq_refl)))) as Ne. destruct (style_name a) eqn:Na; [contradiction|]. destruct l as [|[b w] l]; cbn [style_text] in S; rewrite Na in S; discriminate S.
Qed.
(** *** Attributes *)
Lemma rm_fold_in x ids : forall l, In x (fold_left rm_attr ids l) <-> In x l /\ forall a, In a ids -> a_name x <> AN a.
Proof.
  induction ids as [|i ids IH]; intros l; cbn [fold_left]; [split; [intros H; split; [exact H|intros a []]|tauto]|]. rewrite IH. unfold rm_attr. rewrite filter_In, negb_true_iff, has_name_false. split.
  - intros [[H1 H2] H3]. split; [exact H1|]. intros a [<-|Ha]; [|auto]. congruence.
  - intros [H1 H2]. split; [split; [exact H1|]|]; [intros E; apply (H2 i (or_introl eq_refl)); congruence|]. intros a Ha. apply H2. now right.
Qed.
Lemma style_in l a v : In (At (AN a) v true) (set_attr l a v).
Proof. induction l as [|y l IH]; cbn; [now left|]. destruct (has_name (AN a) y); [now left|now right]. Qed.
Lemma set_cases l a v x : In x (set_attr l a v) -> attrs_nodup (ND 0 TRoot "" l) -> x = At (AN a) v true \/ (In x l /\ a_name x <> AN a).
Proof.
  unfold attrs_nodup. cbn. induction l as [|y l IH]; cbn; intros H N; [destruct H as [<-|[]]; auto|]. inversion N as [|? ? N1 N2]; subst. destruct (has_name (AN a) y) eqn:E.
  - apply has_name_true in E. destruct H as [<-|H]; [auto|]. right. split; [now right|]. intros X. apply N1. rewrite E, <- X. now apply in_map.
  - apply has_name_false in E. destruct H as [<-|H]; [right; split; [now left|congruence]|]. destruct (IH H N2) as [X|[X Y]]; auto.
Qed.
Lemma set_keeps_in l a v x : a_name x <> AN a -> In x l -> In x (set_attr l a v).
Proof. induction l as [|y l IH]; cbn; intros N H; [contradiction|]. destruct (has_name (AN a) y) eqn:E; destruct H as [->|H]; cbn; auto. apply has_name_true in E. congruence. Qed.
Lemma join_node_joined wr d : attrs_nodup d -> joined wr d (join_node wr d).
Proof.
  intros N. unfold joined. split; [reflexivity|]. split; [reflexivity|]. split; [reflexivity|]. unfold join_node. cbn [attrs with_attrs].
  assert (N0 : attrs_nodup (ND 0 TRoot "" (attrs d))) by exact N. split; [|split].
  - intros x Hx. apply rm_fold_in in Hx. destruct Hx as [Hx Na]. apply set_cases in Hx; [|exact N0]. destruct Hx as [->|[Hx _]]; [reflexivity|]. destruct (shown x) eqn:S; [|reflexivity]. exfalso.
    destruct (a_name x) eqn:E; [|unfold shown in S; rewrite E in S; discriminate]. apply (Na a); [|reflexivity]. apply in_map_iff. exists (a, a_val x). split; [reflexivity|]. apply vp_in. eauto.
  - exists (style_text wr (visible_presentation (attrs d))). split.
    + apply rm_fold_in. split; [apply style_in|]. intros a Ha E. cbn in E. inversion E; subst. apply in_map_iff in Ha. destruct Ha as ([b v] & Eb & Hb). cbn in Eb. subst b. apply vp_pres in Hb. discriminate.
    + intros C. rewrite text_ok; [now rewrite vp_declared|]. intros a v H. split; [exact (vp_pres _ _ _ H)|]. apply vp_in in H. destruct H as (x & Hx & S & _ & <-). exact (C x Hx S).
  - intros x Nx S. rewrite rm_fold_in. split.
    + intros [H _]. apply set_cases in H; [|exact N0]. destruct H as [->|[H _]]; [contradiction Nx; reflexivity|exact H].
    + intros H. split; [now apply set_keeps_in|]. intros a Ha E. apply in_map_iff in Ha. destruct Ha as ([b v] & Eb & Hb). cbn in Eb. subst b. apply vp_in in Hb. destruct Hb as (y & Hy & Sy & Ey & _).
      assert (x = y). { unfold attrs_nodup in N. clear -N H Hy E Ey. induction (attrs d) as [|z l IH]; [contradiction|]. cbn in N. inversion N as [|? ? N1 N2]; subst. destruct H as [->|H], Hy as [->|Hy]; auto; exfalso; apply N1; [rewrite E, <- Ey|rewrite Ey, <- E]; now apply in_map. }
      congruence.
Qed.
(** With [none] nothing changes; with [some] exactly the SVG elements with more than five visible
    presentation attributes are changed, with [all] every SVG element; the visible presentation attributes
    go to the style attribute, whose declarations are exactly these attributes, if no written value
    contains a semicolon; all other attributes stay. *)
Theorem C35_join wr mode t : WFA t ->
  Forall2 (fun d d' =>
     match mode with
     | JoinNone => d' = d
     | JoinSome => (exists e, tag d = TEl e) /\ 5 < List.length (filter shown (attrs d)) /\ joined wr d d' \/
                   ~ ((exists e, tag d = TEl e) /\ 5 < List.length (filter shown (attrs d))) /\ d' = d
     | JoinAll => (exists e, tag d = TEl e) /\ joined wr d d' \/ ~ (exists e, tag d = TEl e) /\ d' = d
     end) (flat t) (flat (join_style_attributes wr mode t)) /\ skeleton (join_style_attributes wr mode t) = skeleton t.
Proof.
  intros A. split.
  - assert (N : forall d, In d (flat t) -> attrs_nodup d) by (exact (proj1 (Forall_forall _ _) A)).
    unfold join_style_attributes. destruct mode.
    + clear. induction (flat t); constructor; auto.
    + rewrite flat_tmap. apply Forall2_map_self, Forall_forall. intros d Hd. unfold wants_join. destruct (is_svg_el d) eqn:S; cbn [andb].
      * apply svg_el_iff in S. rewrite vp_length. destruct (Nat.ltb_spec 5 (List.length (filter shown (attrs d)))).
        -- left. auto using join_node_joined.
        -- right. split; [lia|reflexivity].
      * right. split; [|reflexivity]. intros [X _]. apply svg_el_iff in X. congruence.
    + rewrite flat_tmap. apply Forall2_map_self, Forall_forall. intros d Hd. unfold wants_join. destruct (is_svg_el d) eqn:S; cbn [andb].
      * left. split; [now apply svg_el_iff|auto using join_node_joined].
      * right. split; [|reflexivity]. intros X. apply svg_el_iff in X. congruence.
  - unfold join_style_attributes. destruct mode; [reflexivity| |].
    + unfold skeleton. rewrite tmap_tmap. apply tmap_ext. intros d _. destruct (wants_join _ d); reflexivity.
    + unfold skeleton. rewrite tmap_tmap. apply tmap_ext. intros d _. destruct (wants_join _ d); reflexivity.
Qed.

(** Instance, with a writer for strings only. *)
Definition wr_str (v : value) : string := match v with VStr s => s | _ => "" end.
Definition six : list attr :=
  [at_ AFill (VStr "red"); at_ AStroke (VStr "blue"); at_ AOpacity (VStr "0.5"); at_ ATransform (VNumList []); At (AN AMask) (VStr "none") false;
   at_ AFillRule (VStr "evenodd"); at_ AStrokeWidth (VStr "2"); at_ AFontFamily (VStr "a:b")].
Definition join_doc : tree := doc [el 1 ESvg [] [el 2 ERect six []]].
Definition joined_doc : tree :=
  doc [el 1 ESvg [] [el 2 ERect [at_ ATransform (VNumList []); At (AN AMask) (VStr "none") false;
     at_ AStyle (VStr "fill:red;stroke:blue;opacity:0.5;fill-rule:evenodd;stroke-width:2;font-family:a:b")] []]].
Example C35_instance : WFA join_doc /\ join_style_attributes wr_str JoinSome join_doc = joined_doc /\ no_semicolon wr_str (ND 2 (TEl ERect) "" six) /\
  declarations "fill:red;stroke:blue;opacity:0.5;fill-rule:evenodd;stroke-width:2;font-family:a:b" =
    Some [("fill", "red"); ("stroke", "blue"); ("opacity", "0.5"); ("fill-rule", "evenodd"); ("stroke-width", "2"); ("font-family", "a:b")]%string /\
  join_style_attributes wr_str JoinAll (doc [el 1 ESvg [] []]) = doc [el 1 ESvg [at_ AStyle (VStr "")] []].
Proof.
  split; [unfold WFA, join_doc; cbn [flat flat_map app doc el]; repeat (apply Forall_cons || apply Forall_nil); unfold attrs_nodup; cbn; repeat constructor; cbn; intuition discriminate|].
  split; [vm_compute; reflexivity|]. split; [|split; vm_compute; reflexivity].
  intros x Hx S. cbn in Hx. repeat (destruct Hx as [<-|Hx]; [first [reflexivity|discriminate S]|]). destruct Hx.
Qed.
(** A value that contains a semicolon adds declarations. *)
Theorem C35_semicolon_refuted : exists t d d' s, WFA t /\ In d (flat t) /\ In d' (flat (join_style_attributes wr_str JoinAll t)) /\ key d' = key d /\
  filter shown (attrs d) = [at_ AFontFamily (VStr "a;fill:red")] /\ In (at_ AStyle (VStr s)) (attrs d') /\
  declarations s = Some [("font-family", "a"); ("fill", "red")]%string.
Proof.
  exists (doc [el 1 ESvg [at_ AFontFamily (VStr "a;fill:red")] []]), (ND 1 (TEl ESvg) "" [at_ AFontFamily (VStr "a;fill:red")]), (ND 1 (TEl ESvg) "" [at_ AStyle (VStr "font-family:a;fill:red")]), "font-family:a;fill:red"%string.
  split; [unfold WFA; cbn [flat flat_map app doc el]; repeat (apply Forall_cons || apply Forall_nil); unfold attrs_nodup; cbn; repeat constructor; cbn; intuition discriminate|].
  repeat (split; [solve [cbn; auto]|]). vm_compute. reflexivity.
Qed.
Print Assumptions C35_join. Print Assumptions C35_semicolon_refuted.
