(** C29: use elements are replaced with the elements they show. *)
From Coq Require Import List Bool NArith Arith ZArith String Lia QArith Qcanon.
From Verif Require Import Names Num Value Dom DomFacts DomOps Outcome SpecDom SpecStyle SpecText SpecPaint PaintFacts PaintRun ResolveUse SpecUse UseEnd.
Import ListNotations.
Local Open Scope string_scope.
Local Open Scope nat_scope.

(** C29: the pass ends, does not panic, replaces every use element that is not used itself and shows a child of a defs
    element that nothing else refers to, and the picture and the contents of all masks, patterns, markers and clip
    paths look the same, whatever the lengths with units mean. The result is a well-formed document.
    Partial: [uready] documents, where [fits] excludes the cases of the refutations below. *)
Theorem C29_resolve_use_partial uu t : uready t ->
  exists t', resolve_use t = Ok t' /\ same_drawing uu t t' /\ WF t' /\ WFA t' /\ forall u l, replaceable t u l -> ~ In (root_key u) (keys t').
Proof. exact (resolve_use_ok uu t). Qed.

(** An instance: a group that shows a rectangle is shown itself, moved and half transparent. *)
Definition tr (x y : Z) : value := VTransform (Tr q1 q0 q0 q1 (zq x) (zq y)).
Definition use_doc : tree := doc [el 1 ESvg [] [
  el 2 EDefs [] [eli 3 ERect "r" [at_ AWidth (px 5); at_ AHeight (px 7)] []; eli 4 EG "g" [at_ AFill (VColor 0 0 255)] [el 5 EUse [at_ AXlinkHref (VLink 3); at_ AX (px 1)] []; el 6 EPath [] []]];
  el 7 EUse [at_ AXlinkHref (VLink 4); at_ ATransform (tr 10 20); at_ AX (px 3); at_ AOpacity (VNum (Q2Qc (1 # 2)))] []]].
Definition ok_of (r : result tree) (t : tree) : tree := match r with Ok t' => t' | _ => t end.
Definition find_b (P : ndata -> bool) (t : tree) : list nat := map key (filter P (flat t)).
Lemma use_repl u l : replaceable use_doc u l -> (root_key u = 5 /\ root_key l = 3) \/ (root_key u = 7 /\ root_key l = 4).
Proof.
  intros [[Hu Tu] [Hl G] _ _ _ _]. cbn in Hu. repeat (destruct Hu as [<-|Hu]; [first [discriminate Tu|cbn in G; inversion G; auto]|]). destruct Hu.
Qed.
Lemma has_in d a : d_has d a = true -> In (AN a) (map a_name (attrs d)).
Proof.
  unfold d_has, has_attr. destruct (get_attr (attrs d) a) as [v|] eqn:E; [|discriminate]. intros _. apply get_attr_some in E. destruct E as (H & E). rewrite <- E. now apply in_map.
Qed.
Lemma use_doc_wf : WF use_doc.
Proof. split; [cbn; repeat constructor; cbn; intuition discriminate|]. intros k Hk. cbn in *. intuition. Qed.
Lemma use_links d x k : In d (flat use_doc) -> In x (attrs d) -> link_of (a_val x) = Some k -> (k = 3 /\ d = ND 5 (TEl EUse) "" [at_ AXlinkHref (VLink 3); at_ AX (px 1)] /\ x = at_ AXlinkHref (VLink 3)) \/ (k = 4 /\ key d = 7 /\ x = at_ AXlinkHref (VLink 4)).
Proof. intros Hd Hx L. cbn in Hd. repeat (destruct Hd as [<-|Hd]; [cbn in Hx; repeat (destruct Hx as [<-|Hx]; [first [discriminate L|injection L as <-; auto]|]); destruct Hx|]). destruct Hd. Qed.
Example C29_instance : uready use_doc /\ find_b (is_tag EUse) use_doc = [5; 7] /\
  match resolve_use use_doc with Ok t' => map (fun s => (root_key s, map root_key (kids s))) (subs t') = [(0, [1]); (1, [2; 4]); (2, []); (4, [3; 6]); (3, []); (6, [])] | _ => False end.
Proof.
  split; [|split; vm_compute; reflexivity]. assert (Hsub : forall k s, In s (subs use_doc) -> root_key s = k -> find_sub k use_doc = Some s) by (intros k s Hs <-; apply find_sub_iff; [apply use_doc_wf|exact Hs]).
  constructor; [exact use_doc_wf| |reflexivity| | |].
  - apply Forall_forall. intros d Hd. cbn in Hd. repeat (destruct Hd as [<-|Hd]; [unfold attrs_nodup; cbn; repeat constructor; cbn; intuition discriminate|]). destruct Hd.
  - intros d n Hd Hn (x & Hx & L). assert (K : key n = 3 \/ key n = 4) by (destruct (use_links d x _ Hd Hx L) as [[E _]|[E _]]; auto). cbn in Hn. repeat (destruct Hn as [<-|Hn]; [first [solve [destruct K; discriminate]|split; [discriminate|intros y Hy; cbn in Hy; repeat (destruct Hy as [<-|Hy]; [first [discriminate|reflexivity]|]); destruct Hy]]|]). destruct Hn.
  - intros u l R. pose proof (r_use _ _ _ R) as [Hu _]. pose proof (r_link _ _ _ R) as [Hl _]. destruct (use_repl u l R) as [[Ku Kl]|[Ku Kl]].
    + assert (X := Hsub _ _ Hu Ku). assert (Y := Hsub _ _ Hl Kl). cbn in X, Y. inversion X; inversion Y; subst u l. clear. split.
      * intros a v H E. cbn in H. destruct H as [<-|[<-|[]]]; cbn in E; [injection E as <-; reflexivity|discriminate E].
      * intros x Hx. cbn in Hx. destruct Hx as [<-|[<-|[]]]; cbn; auto.
      * intros a H1 H2. apply has_in in H1, H2; cbn in H1, H2; repeat (destruct H1 as [H1|H1]; [inversion H1; subst a; first [solve [cbn; auto]|exfalso; intuition discriminate]|]); destruct H1.
      * reflexivity.
      * left. reflexivity.
      * intros p a Hp Tp. cbn in Hp. repeat (destruct Hp as [Hp|Hp]; [inversion Hp; subst; discriminate|]). destruct Hp.
      * discriminate.
      * intros d [].
      * intros a p [H|H] Hp; cbn in H; repeat (destruct H as [H|H]; [inversion H; subst; cbn in Hp; repeat (destruct Hp as [<-|Hp]; [intros (e & Te & He); inversion Te; subst; cbn in He; intuition discriminate|]); destruct Hp|]); destruct H.
      * intros d Hd (e & Te & He). cbn in Hd. repeat (destruct Hd as [<-|Hd]; [inversion Te; subst; cbn in He; intuition discriminate|]). destruct Hd.
    + assert (X := Hsub _ _ Hu Ku). assert (Y := Hsub _ _ Hl Kl). cbn in X, Y. inversion X; inversion Y; subst u l. clear. split.
      * intros a v H E. cbn in H. destruct H as [<-|[<-|[]]]; cbn in E; [injection E as <-; reflexivity|discriminate E].
      * intros x Hx. cbn in Hx. repeat (destruct Hx as [<-|Hx]; [cbn; auto|]). destruct Hx.
      * intros a H1 H2. apply has_in in H1, H2; cbn in H1, H2; repeat (destruct H1 as [H1|H1]; [inversion H1; subst a; first [solve [cbn; auto]|exfalso; intuition discriminate]|]); destruct H1.
      * reflexivity.
      * left. reflexivity.
      * intros p a Hp Tp. cbn in Hp. repeat (destruct Hp as [Hp|Hp]; [inversion Hp; subst; discriminate|]). destruct Hp.
      * discriminate.
      * intros d [].
      * intros a p [H|H] Hp; cbn in H; repeat (destruct H as [H|H]; [inversion H; subst; cbn in Hp; repeat (destruct Hp as [<-|Hp]; [intros (e & Te & He); inversion Te; subst; cbn in He; intuition discriminate|]); destruct Hp|]); destruct H.
      * intros d Hd (e & Te & He). cbn in Hd. repeat (destruct Hd as [<-|Hd]; [inversion Te; subst; cbn in He; intuition discriminate|]). destruct Hd.
  - exists (fun k => k). intros u l u' l' R R' H. destruct (use_repl u l R) as [[Ku Kl]|[Ku Kl]], (use_repl u' l' R') as [[Ku' Kl']|[Ku' Kl']]; rewrite Kl, Kl'; [| |lia|]; exfalso; pose proof (r_link _ _ _ R) as [Hl _]; assert (Y := Hsub _ _ Hl Kl); cbn in Y; inversion Y; subst l; cbn in H; repeat (destruct H as [<-|H]; [discriminate|]); destruct H.
Qed.
(** ** Cases the code gets wrong *)
Definition no_units (a : aid) (l : len) : Qc := num l.
Definition one_use (own use : list attr) : tree := doc [el 1 ESvg [] [el 2 EDefs [] [eli 3 ERect "r" own []]; el 4 EUse (at_ AXlinkHref (VLink 3) :: use) []]].
Definition wrong (t : tree) : Prop := exists t', resolve_use t = Ok t' /\ drawn_otherwise no_units t t'.
Ltac nodup_b := cbn; repeat constructor; cbn; intuition discriminate.
Ltac is_wrong a probe :=
  eexists; split; [vm_compute; reflexivity|];
  eapply (otherwise _ _ _ 9 a AWidth); [nodup_b|nodup_b|vm_compute; reflexivity|vm_compute; reflexivity|reflexivity|reflexivity|];
  let H := fresh in intros H; apply (f_equal probe) in H; vm_compute in H; discriminate H.
(** An attribute of the use element replaces the one of the rectangle: it becomes red. *)
Theorem C29_fill_refuted : wrong (one_use [at_ AFill (VColor 0 0 255)] [at_ AFill (VColor 255 0 0)]).
Proof. is_wrong AFill (map s_prop). Qed.
(** The same with transforms (here: the one that comes from x): the rectangle is not scaled any more. *)
Theorem C29_transform_refuted : wrong (one_use [at_ ATransform (VTransform (Tr (zq 2) q0 q0 (zq 2) q0 q0))] [at_ AX (px 10)]).
Proof. is_wrong AFill (map (fun s => this (ta (s_ts s)))). Qed.
(** Opacities are not multiplied. *)
Theorem C29_opacity_refuted : wrong (one_use [at_ AOpacity (VNum (Q2Qc (1 # 2)))] [at_ AOpacity (VNum (Q2Qc (1 # 2)))]).
Proof. is_wrong AFill (map (fun s => this (s_opacity s))). Qed.
(** x with a unit: the reference is removed, then nothing is done. The rectangle is lost. *)
Theorem C29_unit_refuted : wrong (one_use [] [at_ AX (VLen (Len (zq 10) UPx))]).
Proof. is_wrong AFill (map s_key). Qed.
(** The width of a use element means nothing for a rectangle, but it is copied. *)
Theorem C29_width_refuted : wrong (one_use [at_ AWidth (px 5)] [at_ AWidth (px 50)]).
Proof. is_wrong AFill (map (fun s => match s_own s with Some (VLen l) => Some (this (num l)) | _ => None end)). Qed.
(** A use element inside the element it is resolved into: both are lost. *)
Definition loop_doc : tree := doc [el 1 ESvg [] [el 2 EDefs [] [eli 3 EG "g" [] [el 4 EUse [at_ AXlinkHref (VLink 3)] []; el 5 ERect [] []]]]].
Theorem C29_recursion_refuted : exists t', resolve_use loop_doc = Ok t' /\ In 5 (keys loop_doc) /\ ~ In 5 (keys t').
Proof. eexists. split; [vm_compute; reflexivity|]. split; [cbn; auto 10|]. cbn. intuition discriminate. Qed.
