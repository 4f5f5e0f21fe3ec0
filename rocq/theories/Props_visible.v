(** C28: remove_invisible_elements removes only what is not seen. *)
From Coq Require Import List Bool NArith Arith ZArith String Lia QArith Qcanon.
From Verif Require Import Names Num Value Dom DomFacts DomOps DomRemove AttrFacts VLoop SpecDom SpecText SpecWritten Visit MoveFacts UseStep Push Props_stops SpecVisible VisStep VisKeep VisInv Outcome RmUnusedDefs Props_defs RmInvisible
  VisPass VisPass2 VisPass3 VisDefs WfAll Props_wf VisCheck.
Import ListNotations.
Local Open Scope nat_scope.

(** The specification of what is drawn is a function of the document. *)
Lemma draws_unique t : NoDup (keys t) ->
  (forall anc s l, draws t anc s l -> forall m, draws t anc s m -> l = m) /\
  (forall anc c l, draws_all t anc c l -> forall m, draws_all t anc c m -> l = m).
Proof.
  intros N.
  assert (Same : forall s s', In s (subs t) -> In s' (subs t) -> Some (VLink (root_key s)) = Some (VLink (root_key s')) -> s = s') by (intros s s' H H' [= E]; now apply (sub_unique t)).
  apply (draws_mut t (fun anc s l _ => forall m, draws t anc s m -> l = m) (fun anc c l _ => forall m, draws_all t anc c m -> l = m)).
  - intros anc s D m H. inversion H; subst; auto; cbn [data] in *; congruence.
  - intros anc d ch D K m H. inversion H; subst; auto; cbn [data] in *; congruence.
  - intros anc d ch l D K Da IH m H. inversion H; subst; cbn [data] in *; try congruence. now apply IH.
  - intros anc d ch s l D K E Hs Ks Da IH m H. inversion H; subst; cbn [data] in *; try congruence.
    + assert (s0 = s) by (apply Same; congruence). subst. now apply IH.
    + assert (s0 = s) by (apply Same; congruence). subst. congruence.
    + assert (s0 = s) by (apply Same; congruence). subst. congruence.
    + exfalso. match goal with Q : forall s, _ -> _ |- _ => exact (Q s Hs E) end.
  - intros anc d ch s l D K E Hs Ks Ds Da IH m H. inversion H; subst; cbn [data] in *; try congruence.
    + assert (s0 = s) by (apply Same; congruence). subst. congruence.
    + assert (s0 = s) by (apply Same; congruence). subst. now apply IH.
    + assert (s0 = s) by (apply Same; congruence). subst. congruence.
    + exfalso. match goal with Q : forall s, _ -> _ |- _ => exact (Q s Hs E) end.
  - intros anc d ch s D K E Hs Ks Ds m H. inversion H; subst; cbn [data] in *; try congruence.
    + assert (s0 = s) by (apply Same; congruence). subst. congruence.
    + assert (s0 = s) by (apply Same; congruence). subst. congruence.
  - intros anc d ch D K E m H. inversion H; subst; cbn [data] in *; try congruence.
    + exfalso. eapply E; eassumption.
    + exfalso. eapply E; eassumption.
  - intros anc m H. now inversion H.
  - intros anc s l p q D IH Da IHa m H. inversion H; subst. f_equal; auto.
Qed.

(** An entry is a thing below elements that show their children. *)
Definition chain (t : tree) (c : list ndata) : Prop :=
  match c with d :: anc => In d (flat t) /\ kind_of d = KLeaf /\ Forall (fun e => In e (flat t) /\ kind_of e <> KLeaf) anc | [] => False end.
Lemma draws_chain t :
  (forall anc s l, draws t anc s l -> In s (subs t) -> Forall (fun e => In e (flat t) /\ kind_of e <> KLeaf) anc -> Forall (chain t) l) /\
  (forall anc c l, draws_all t anc c l -> (forall s, In s c -> In s (subs t)) -> Forall (fun e => In e (flat t) /\ kind_of e <> KLeaf) anc -> Forall (chain t) l).
Proof.
  apply (draws_mut t (fun anc s l _ => In s (subs t) -> Forall (fun e => In e (flat t) /\ kind_of e <> KLeaf) anc -> Forall (chain t) l)
    (fun anc c l _ => (forall s, In s c -> In s (subs t)) -> Forall (fun e => In e (flat t) /\ kind_of e <> KLeaf) anc -> Forall (chain t) l)); auto.
  - intros anc d ch D K Hs A. constructor; [|constructor]. pose proof (data_of_sub _ _ Hs) as X. repeat split; auto.
  - intros anc d ch l D K Da IH Hs A. apply IH.
    + intros s H. exact (kid_sub (T d ch) s t Hs H).
    + constructor; [|exact A]. split; [exact (data_of_sub _ _ Hs)|congruence].
  - intros anc d ch s l D K E Hs Ks Da IH Hd A. apply IH; [exact Hs|]. constructor; [|exact A]. split; [exact (data_of_sub _ _ Hd)|congruence].
  - intros anc d ch s l D K E Hs Ks Ds Da IH Hd A. apply IH.
    + intros c H. exact (kid_sub s c t Hs H).
    + constructor; [split; [exact (data_of_sub _ _ Hs)|congruence]|]. constructor; [|exact A]. split; [exact (data_of_sub _ _ Hd)|congruence].
  - intros anc s l p q D IH Da IHa Hc A. apply Forall_app. split; [apply IH; [apply Hc; now left|exact A]|apply IHa; [intros; apply Hc; now right|exact A]].
Qed.

Lemma opacity_case t a d d' : iready t -> In d (flat t) -> In a [AFill; AStroke] -> same_paint t a d d' ->
  d_get d' (opacity_attr a) = d_get d (opacity_attr a) \/
  kind_of d = KLeaf /\ d_get d (opacity_attr a) = None /\ forall e, In e (flat t) -> kind_of e <> KLeaf -> d_get e (opacity_attr a) = None.
Proof.
  intros I Hd Ha [E E'|k E _ _ E'|k c E _ _ E'|k c o E (s & x & Hs & <- & Gs & Kx & Nh & _ & _ & O) No _ Kd _ _]; auto. right.
  exact (i_opacity t I s x o d a Hs Gs Kx Nh O No Hd Ha E).
Qed.
Lemma alike_all t c c' : iready t -> chain t c -> Forall2 (looks t) c c' -> looks_all t c c'.
Proof.
  intros I Hc F. split; [exact F|]. destruct c as [|d anc]; [destruct Hc|]. destruct Hc as (Hd & Kd & A). inversion F as [|? d' ? anc' L F' E1 E2]; subst.
  assert (Q : forall b, In b [AFill; AStroke] -> Forall2 (fun d d' => d_get d' (opacity_attr b) = d_get d (opacity_attr b)) (d :: anc) (d' :: anc') \/ Forall (fun d => d_get d (opacity_attr b) = None) (d :: anc)).
  { intros b Hb. assert (Sp : forall x y, looks t x y -> same_paint t b x y) by (intros x y X; destruct Hb as [<-|[<-|[]]]; apply X). destruct (opacity_case t b d d' I Hd Hb (Sp _ _ L)) as [E|(_ & E & Al)].
    - left. constructor; [exact E|]. clear L F E Hd Kd. revert A. induction F' as [|x y l m Lx F' IH]; intros A; constructor.
      + inversion A as [|? ? [Hx Nx] _]; subst. destruct (opacity_case t b x y I Hx Hb (Sp _ _ Lx)) as [E|[E _]]; [exact E|contradiction].
      + apply IH. now inversion A.
    - right. constructor; [exact E|]. eapply Forall_impl; [|exact A]. intros e [He Ne]. now apply Al. }
  intros a [<-|[<-|[]]]; [exact (Q AFill (or_introl eq_refl))|exact (Q AStroke (or_intror (or_introl eq_refl)))].
Qed.
Lemma alike_looks t l l' : iready t -> Forall (chain t) l -> alike t l l' -> Forall2 (looks_all t) l l'.
Proof. intros I C A. induction A as [|c c' l l' L A IH]; constructor; inversion C; subst; [now apply alike_all|now apply IH]. Qed.

Lemma invisible_shown stops t t' : iready t -> remove_invisible stops t = Some (Ok t') -> Shown t t'.
Proof.
  intros I E. unfold remove_invisible in E.
  assert (G0 : good t (fst (t, false))) by (split; [exact I|apply shown_self]).
  pose proof (good_use _ _ (good_matrix _ _ (good_filters _ _ (good_clips stops _ _ (good_paths _ _ (good_display t t false G0)))))) as G6.
  destruct (process_gradients _) as [x7|e|] eqn:E7; try discriminate.
  pose proof (good_gradients _ _ _ G6 E7) as G7. pose proof (good_rect _ _ G7) as [I8 S8].
  destruct (snd (process_rect x7)).
  - exact (shown_trans _ _ _ S8 (defs_shown _ _ I8 E)).
  - injection E as <-. exact S8.
Qed.

(** What is drawn by the document, by what is in a mask, a pattern or a marker and by what is in a clip path stays the same,
    one by one and in order: every thing and every element it stands in looks the same (only a filter that does nothing is taken
    away, and a gradient without stops or with one stop is replaced by what it paints). Everything that is left keeps its other attributes,
    and gradients and filters that are left keep their children. Partial: under [iready]; see the refutations for why. *)
Theorem C28_visible_partial stops t t' : iready t -> remove_invisible stops t = Some (Ok t') ->
  (forall l, drawing t l -> exists l', drawing t' l' /\ Forall2 (looks_all t) l l') /\
  (forall k l, In k (keys t') -> inside_of t k l -> exists l', inside_of t' k l' /\ Forall2 (looks_all t) l l') /\
  (forall k l, In k (keys t') -> clip_of t k l -> exists l', clip_of t' k l' /\ Forall2 (looks_all t) l l') /\
  (forall d', In d' (flat t') -> exists d, In d (flat t) /\ key d' = key d /\ tag d' = tag d /\ nid d' = nid d /\
     forall a, ~ In a [AFilter; AFill; AStroke; AFillOpacity; AStrokeOpacity; AXlinkHref] -> d_get d' a = d_get d a) /\
  (forall s', In s' (subs t') -> tag (data s') = TEl EFilter \/ gradient_node (data s') ->
     exists s, In s (subs t) /\ root_key s' = root_key s /\ d_get (data s') AXlinkHref = d_get (data s) AXlinkHref /\ map root_key (kids s') = map root_key (kids s)).
Proof.
  intros I E. pose proof (invisible_shown stops t t' I E) as S. assert (Root : kind_of (data t) <> KLeaf) by (unfold kind_of; now rewrite (proj1 (i_root _ I))).
  assert (Q : forall u cs l, In u (subs t) -> kind_of (data u) <> KLeaf -> (forall c, In c cs -> In c (kids u)) -> draws_all t [data u] cs l -> Forall (chain t) l).
  { intros u cs l Hu Ku Hc D. apply (proj2 (draws_chain t) [data u] cs l D).
    - intros s Hs. exact (kid_sub u s t Hu (Hc s Hs)).
    - constructor; [split; [exact (data_of_sub _ _ Hu)|exact Ku]|constructor]. }
  split; [|split; [|split; [|split]]].
  - intros l H. destruct (v_drawing _ _ S l H) as (l' & H' & A). exists l'. split; [exact H'|]. apply alike_looks; auto. exact (Q t (kids t) l (subs_self t) Root (fun c X => X) H).
  - intros k l Hk H. destruct (v_inside _ _ S k l Hk H) as (l' & H' & A). exists l'. split; [exact H'|]. apply alike_looks; auto. destruct H as (u & Hu & _ & Iu & D). apply (Q u (kids u) l Hu); auto. unfold inner, tagged, kind_of in *. destruct (tag (data u)) as [|[] | | | |]; cbn in *; discriminate.
  - intros k l Hk H. destruct (v_clip _ _ S k l Hk H) as (l' & H' & A). exists l'. split; [exact H'|]. apply alike_looks; auto. destruct H as (u & Hu & _ & Iu & D). refine (Q u _ l Hu _ _ D).
    + apply tagged_iff in Iu. unfold kind_of. rewrite Iu. discriminate.
    + intros c Hc. now apply filter_In in Hc.
  - intros d' Hd'. destruct (v_nodes _ _ S d' Hd') as (d & Hd & X). exists d. split; [exact Hd|exact X].
  - intros s' Hs' Hh. destruct (v_base _ _ S s' Hs' Hh) as (s & Hs & Ks & Ts & Hr & F). exists s. split; [exact Hs|]. split; [now symmetry|]. split; [now symmetry|]. clear -F. induction F as [|a b l m (_ & E & _) F IH]; cbn; congruence.
Qed.
(** Every thing that is drawn and every element it stands in stays in the document. *)
Corollary C28_seen_stays_partial stops t t' l c d : iready t -> remove_invisible stops t = Some (Ok t') -> drawing t l -> In c l -> In d c -> In (key d) (keys t').
Proof.
  intros I E D Hc Hd. destruct (proj1 (C28_visible_partial stops t t' I E) l D) as (l' & D' & F).
  assert (X : exists c', In c' l' /\ Forall2 (looks t) c c'). { clear -F Hc. induction F as [|a b l m [L _] F IH]; [destruct Hc|]. destruct Hc as [<-|Hc]; [exists b; split; [now left|exact L]|]. destruct (IH Hc) as (c' & H & Q). exists c'. split; [now right|exact Q]. }
  destruct X as (c' & Hc' & F'). assert (Y : exists d', In d' c' /\ looks t d d'). { clear -F' Hd. induction F' as [|a b l m L F IH]; [destruct Hd|]. destruct Hd as [<-|Hd]; [exists b; split; [now left|exact L]|]. destruct (IH Hd) as (x & H & Q). exists x. split; [now right|exact Q]. }
  destruct Y as (d' & Hd' & L).
  assert (Fl : forall anc cs m, draws_all t' anc cs m -> (forall s, In s cs -> In s (subs t')) -> (forall e, In e anc -> In e (flat t')) -> forall x y, In x m -> In y x -> In y (flat t')).
  { clear. assert (G : (forall anc s m, draws t' anc s m -> In s (subs t') -> (forall e, In e anc -> In e (flat t')) -> forall x y, In x m -> In y x -> In y (flat t')) /\
      (forall anc cs m, draws_all t' anc cs m -> (forall s, In s cs -> In s (subs t')) -> (forall e, In e anc -> In e (flat t')) -> forall x y, In x m -> In y x -> In y (flat t'))); [|exact (proj2 G)].
    apply (draws_mut t' (fun anc s m _ => In s (subs t') -> (forall e, In e anc -> In e (flat t')) -> forall x y, In x m -> In y x -> In y (flat t'))
      (fun anc cs m _ => (forall s, In s cs -> In s (subs t')) -> (forall e, In e anc -> In e (flat t')) -> forall x y, In x m -> In y x -> In y (flat t'))).
    - intros anc s _ Hs A x y [].
    - intros anc e ch _ _ Hs A x y [<-|[]] Hy. destruct Hy as [<-|Hy]; [exact (data_of_sub _ _ Hs)|now apply A].
    - intros anc e ch m _ _ Da IH Hs A. apply IH; [intros s H; exact (kid_sub (T e ch) s t' Hs H)|]. intros z [<-|Hz]; [exact (data_of_sub _ _ Hs)|now apply A].
    - intros anc e ch s m _ _ _ Hs _ Da IH He A. apply IH; [exact Hs|]. intros z [<-|Hz]; [exact (data_of_sub _ _ He)|now apply A].
    - intros anc e ch s m _ _ _ Hs _ _ Da IH He A. apply IH; [intros c H; exact (kid_sub s c t' Hs H)|]. intros z [<-|[<-|Hz]]; [exact (data_of_sub _ _ Hs)|exact (data_of_sub _ _ He)|now apply A].
    - intros anc e ch s _ _ _ _ _ _ _ _ x y [].
    - intros anc e ch _ _ _ _ _ x y [].
    - intros anc _ _ x y [].
    - intros anc s m p q D IH Da IHa Hs A x y Hx Hy. apply in_app_iff in Hx. destruct Hx as [Hx|Hx]; [apply (IH (Hs s (or_introl eq_refl)) A x y Hx Hy)|apply (IHa (fun c H => Hs c (or_intror H)) A x y Hx Hy)]. }
  rewrite <- (lk_key _ _ _ L). unfold keys. apply in_map. refine (Fl _ _ _ D' _ _ c' d' Hc' Hd').
  - intros s Hs. exact (kid_sub t' s t' (subs_self t') Hs).
  - intros e [<-|[]]. exact (data_of_sub _ _ (subs_self t')).
Qed.

(** ** An instance *)
Definition line_ : value := VPath [Seg true (MoveTo (zq 1) (zq 1)); Seg true (LineTo (zq 7) (zq 5))].
Definition half : Qc := Q2Qc (1 # 2).
Definition stop_ (k : nat) (a : list attr) : tree := el k EStop (at_ AOffset (px 0) :: a) [].
Definition red : value := VColor 255%N 0%N 0%N.
Definition red_stop (k : nat) (o : Qc) : tree := stop_ k [at_ AStopColor red; at_ AStopOpacity (VNum o)].
Definition matrix_ (k : nat) (l : list attr) : tree := el k EFeColorMatrix (at_ AType (VStr "matrix") :: at_ AValues (VStr identity) :: l) [].
Definition size_ : list attr := [at_ AWidth (px 5); at_ AHeight (px 5)].
Definition scene : tree := doc [el 1 ESvg [] [
  el 2 EDefs [] [
    eli 3 ELinearGradient "a" [] [red_stop 4 half];
    eli 5 ELinearGradient "b" [] [];
    eli 6 EClipPath "c" [] [el 7 ERect size_ []];
    eli 8 EClipPath "d" [] [el 9 EPath [at_ AD (VPath [])] []];
    eli 10 EFilter "e" [] [matrix_ 11 []];
    eli 12 EPath "f" [at_ AD line_] [];
    eli 25 EMask "m" [] [el 26 ERect size_ []; el 27 ERect [at_ AWidth (px 0)] []]];
  el 13 EPath [at_ AD line_; at_ AFill (VFunc 3); at_ AStroke (VFunc 5); at_ AFilter (VFunc 10); at_ AClipPath (VFunc 6)] [];
  el 14 EG [at_ AClipPath (VFunc 8)] [el 15 ERect size_ []];
  el 16 EG [at_ ADisplay (VPre Vid_none)] [el 17 ERect size_ []];
  el 18 EUse [at_ AXlinkHref (VLink 12)] [];
  el 19 EUse [] [];
  el 20 EG [at_ AMask (VFunc 25)] [el 21 ERect [at_ AWidth (px 5); at_ AHeight (px 0)] []; el 22 EText [] [txt 23 "x"; el 24 ETspan [] [txt 28 "y"]]]]].
Ltac wfa := unfold WFA, doc, el, at_; cbn [flat flat_map app]; repeat (apply Forall_cons || apply Forall_nil); unfold attrs_nodup; cbn; repeat constructor; cbn; intuition discriminate.
Definition used (t : tree) (d : ndata) : option tree := match d_get d AXlinkHref with Some (VLink k) => find_sub k t | _ => None end.
Lemma dr_use' t anc d ch s l : drawn t d = true -> kind_of d = KUse -> used t d = Some s -> kind_of (data s) <> KSymbol -> draws t (d :: anc) s l -> draws t anc (T d ch) l.
Proof.
  intros D K U Ks H. unfold used in U. destruct (d_get d AXlinkHref) as [[]|] eqn:E; try discriminate. apply find_sub_some in U. destruct U as [Hs <-]. eapply dr_use; eauto.
Qed.
Ltac dr := lazymatch goal with
  | |- draws_all _ _ [] _ => apply da_nil
  | |- draws_all _ _ (_ :: _) _ => eapply da_cons; [dr|dr]
  | |- draws _ _ _ _ => first [
      apply dr_not; vm_compute; reflexivity
    | apply dr_leaf; vm_compute; reflexivity
    | eapply dr_box; [vm_compute; reflexivity|vm_compute; reflexivity|dr]
    | eapply dr_use'; [vm_compute; reflexivity|vm_compute; reflexivity|unfold used; cbn; reflexivity|vm_compute; discriminate|dr]
    | eapply dr_use_none; [vm_compute; reflexivity|vm_compute; reflexivity|intros ? _; vm_compute; discriminate]]
  end.
Example C28_instance : iready scene /\ (exists l, drawing scene l /\ map (map key) l = [[13; 1; 0]; [12; 18; 1; 0]; [23; 22; 20; 1; 0]; [28; 24; 22; 20; 1; 0]]) /\
  forall stops, exists t', remove_invisible stops scene = Some (Ok t') /\ keys t' = [0; 1; 2; 6; 7; 12; 25; 26; 13; 18; 20; 22; 23; 24; 28].
Proof.
  split; [apply ready_b_spec; [apply fine_b_spec; [vm_compute; reflexivity|wfa]|vm_compute; reflexivity]|]. split.
  - eexists. split.
    + unfold drawing, scene, doc, el, eli, txt, size_, red_stop, stop_, matrix_. cbn [data kids]. dr.
    + reflexivity.
  - intros []; eexists; (split; [vm_compute; reflexivity|reflexivity]).
Qed.

(** ** Without the conditions *)
(** Something that is drawn is lost. *)
Definition lost (t t' : tree) : Prop := exists l c d, drawing t l /\ In c l /\ In d c /\ kind_of d = KLeaf /\ ~ In (key d) (keys t').
Definition now_at (t : tree) (k : nat) (a : aid) : option value := match find_data k t with Some d => d_get d a | None => None end.
Ltac lose D := intros []; (eexists; split; [vm_compute; reflexivity|]); eexists; eexists; eexists; (split; [unfold drawing, D, doc, el, eli; cbn [data kids]; dr|]); (split; [cbn; auto|]); (split; [now left|]); (split; [reflexivity|cbn; intuition discriminate]).
Ltac run := intros []; (eexists; split; [vm_compute; reflexivity|]); vm_compute; repeat split; try reflexivity; intuition discriminate.

(** An element inside of a group that is clipped away is used elsewhere: it is removed with the group, and the use element shows nothing. *)
Definition d_used_clip : tree := doc [el 1 ESvg [] [
  el 2 EDefs [] [eli 3 EClipPath "c" [] []];
  el 4 EG [at_ AClipPath (VFunc 3)] [eli 5 ERect "r" size_ []];
  el 6 EUse [at_ AXlinkHref (VLink 5)] []]].
Theorem C28_used_inside_clipped_refuted : exists t, forall stops, exists t', remove_invisible stops t = Some (Ok t') /\ lost t t'.
Proof. exists d_used_clip. lose d_used_clip. Qed.
(** The same for a filter without content. *)
Definition d_used_filter : tree := doc [el 1 ESvg [] [
  el 2 EDefs [] [eli 3 EFilter "f" [] []];
  el 4 EG [at_ AFilter (VFunc 3)] [eli 5 ERect "r" size_ []];
  el 6 EUse [at_ AXlinkHref (VLink 5)] []]].
Theorem C28_used_inside_filtered_refuted : exists t, forall stops, exists t', remove_invisible stops t = Some (Ok t') /\ lost t t'.
Proof. exists d_used_filter. lose d_used_filter. Qed.
(** A group inside of a clip path is no part of the clip path, but its children can be used elsewhere. *)
Definition d_used_invalid : tree := doc [el 1 ESvg [] [
  el 2 EDefs [] [eli 3 EClipPath "c" [] [el 4 EG [] [eli 5 ERect "r" size_ []]; el 7 ERect size_ []]];
  el 6 EUse [at_ AXlinkHref (VLink 5)] []]].
Theorem C28_used_inside_clip_path_refuted : exists t, forall stops, exists t', remove_invisible stops t = Some (Ok t') /\ lost t t'.
Proof. exists d_used_invalid. lose d_used_invalid. Qed.
(** A filter that takes its content from another filter has no children of its own, but it is not empty: the elements that use it are removed. *)
Definition d_filter_href : tree := doc [el 1 ESvg [] [
  el 2 EDefs [] [eli 3 EFilter "f" [] [el 4 EFeGaussianBlur [] []]; eli 5 EFilter "g" [at_ AXlinkHref (VLink 3)] []];
  el 6 ERect (at_ AFilter (VFunc 5) :: size_) []]].
Theorem C28_filter_template_refuted : exists t, forall stops, exists t', remove_invisible stops t = Some (Ok t') /\ lost t t'.
Proof. exists d_filter_href. lose d_filter_href. Qed.
(** A mask that is clipped away masks everything; the mask is removed, and what it hides is shown. *)
Definition d_mask : tree := doc [el 1 ESvg [] [
  el 2 EDefs [] [eli 3 EClipPath "c" [] []; eli 4 EMask "m" [at_ AClipPath (VFunc 3)] [el 5 ERect size_ []]];
  el 6 ERect (at_ AMask (VFunc 4) :: size_) []]].
Theorem C28_clipped_mask_refuted : exists t k, forall stops, exists t', remove_invisible stops t = Some (Ok t') /\
  now_at t k AMask = Some (VFunc 4) /\ In k (keys t') /\ now_at t' k AMask = None.
Proof. exists d_mask, 6. run. Qed.
(** display does not apply to stops (11.5), but a stop with display="none" is removed: the gradient changes. *)
Definition d_stop_display : tree := doc [el 1 ESvg [] [
  el 2 EDefs [] [eli 3 ELinearGradient "a" [] [red_stop 4 q1; stop_ 5 [at_ AStopColor (VColor 0%N 255%N 0%N); at_ AStopOpacity (VNum q1); at_ ADisplay (VPre Vid_none)]; red_stop 7 q1]];
  el 6 ERect (at_ AFill (VFunc 3) :: size_) []]].
Theorem C28_stop_display_refuted : exists t, forall stops, exists t', remove_invisible stops t = Some (Ok t') /\
  now_at t 6 AFill = Some (VFunc 3) /\ now_at t' 6 AFill = Some (VFunc 3) /\
  option_map (fun s => map root_key (kids s)) (find_sub 3 t) = Some [4; 5; 7] /\ option_map (fun s => map root_key (kids s)) (find_sub 3 t') = Some [4; 7].
Proof. exists d_stop_display. run. Qed.
(** The same for the primitives of a filter. *)
Definition d_fe_display : tree := doc [el 1 ESvg [] [
  el 2 EDefs [] [eli 3 EFilter "f" [] [el 4 EFeGaussianBlur [at_ AStdDeviation (VNum (zq 7)); at_ ADisplay (VPre Vid_none)] []]];
  el 6 ERect (at_ AFilter (VFunc 3) :: size_) []]].
Theorem C28_filter_display_refuted : exists t, forall stops, exists t', remove_invisible stops t = Some (Ok t') /\ lost t t'.
Proof. exists d_fe_display. lose d_fe_display. Qed.
(** The colour matrix of the identity is no identity if its input is not the element: SourceAlpha shows the element in black. *)
Definition d_alpha : tree := doc [el 1 ESvg [] [
  el 2 EDefs [] [eli 3 EFilter "f" [] [matrix_ 4 [at_ AIn (VStr "SourceAlpha")]]];
  el 6 ERect (at_ AFilter (VFunc 3) :: size_) []]].
Theorem C28_source_alpha_refuted : exists t, forall stops, exists t', remove_invisible stops t = Some (Ok t') /\
  now_at t 6 AFilter = Some (VFunc 3) /\ now_at t 4 AIn <> None /\ In 6 (keys t') /\ now_at t' 6 AFilter = None.
Proof. exists d_alpha. run. Qed.
(** The opacity of the only stop of a gradient (1/2) replaces the opacity of the element (1/4); the product (1/8) is what was drawn. *)
Definition d_opacity : tree := doc [el 1 ESvg [] [
  el 2 EDefs [] [eli 3 ELinearGradient "a" [] [red_stop 4 half]];
  el 6 ERect (at_ AFill (VFunc 3) :: at_ AFillOpacity (VNum (Q2Qc (1 # 4))) :: size_) []]].
Theorem C28_stop_opacity_refuted : exists t, forall stops, exists t', remove_invisible stops t = Some (Ok t') /\
  now_at t 6 AFill = Some (VFunc 3) /\ now_at t 6 AFillOpacity = Some (VNum (Q2Qc (1 # 4))) /\
  now_at t' 6 AFill = Some red /\ now_at t' 6 AFillOpacity = Some (VNum half).
Proof. exists d_opacity. run. Qed.
(** On a group the opacity is inherited by children with their own fill: a blue rectangle becomes half transparent. *)
Definition d_group : tree := doc [el 1 ESvg [] [
  el 2 EDefs [] [eli 3 ELinearGradient "a" [] [red_stop 4 half]];
  el 5 EG [at_ AFill (VFunc 3)] [el 6 ERect (at_ AFill (VColor 0%N 0%N 255%N) :: size_) []]]].
Theorem C28_group_opacity_refuted : exists t, forall stops, exists t', remove_invisible stops t = Some (Ok t') /\
  now_at t 5 AFillOpacity = None /\ now_at t' 5 AFillOpacity = Some (VNum half) /\
  now_at t' 6 AFill = Some (VColor 0%N 0%N 255%N) /\ now_at t' 6 AFillOpacity = None.
Proof. exists d_group. run. Qed.
(** A gradient that takes its only stop from another gradient loses it: the shape is not painted any more. *)
Definition d_template : tree := doc [el 1 ESvg [] [
  el 2 EDefs [] [eli 3 ELinearGradient "a" [] [red_stop 4 q1]; eli 5 ELinearGradient "b" [at_ AXlinkHref (VLink 3); at_ AX1 (px 1)] []];
  el 6 ERect (at_ AFill (VFunc 5) :: size_) []]].
Theorem C28_one_stop_template_refuted : exists t, forall stops, exists t', remove_invisible stops t = Some (Ok t') /\
  now_at t 5 AXlinkHref = Some (VLink 3) /\ now_at t' 6 AFill = Some (VFunc 5) /\ now_at t' 5 AXlinkHref = None /\
  option_map (fun s => map root_key (kids s)) (find_sub 5 t') = Some [].
Proof. exists d_template. run. Qed.
(** A gradient with stops that refers to one without stops gets the reference "none". *)
Definition d_none_href : tree := doc [el 1 ESvg [] [
  el 2 EDefs [] [eli 3 ELinearGradient "a" [at_ AX1 (px 7)] []; eli 5 ELinearGradient "b" [at_ AXlinkHref (VLink 3)] [red_stop 4 q1; red_stop 7 half]];
  el 6 ERect (at_ AFill (VFunc 5) :: size_) []]].
Theorem C28_none_reference_refuted : exists t, forall stops, exists t', remove_invisible stops t = Some (Ok t') /\
  now_at t 5 AXlinkHref = Some (VLink 3) /\ now_at t 3 AX1 = Some (px 7) /\ now_at t' 6 AFill = Some (VFunc 5) /\ now_at t' 5 AXlinkHref = Some (VPre Vid_none).
Proof. exists d_none_href. run. Qed.
(** A switch element shows its first child without failing conditions. If that child is not displayed, nothing is shown (5.8.2);
    the pass removes that child, and the next one is shown. *)
Definition d_switch : tree := doc [el 1 ESvg [] [el 5 EDefs [] []; el 2 ESwitch [] [el 3 ERect (at_ ADisplay (VPre Vid_none) :: size_) []; el 4 ERect size_ []]]].
Theorem C28_switch_refuted : exists t, forall stops, exists t', remove_invisible stops t = Some (Ok t') /\
  option_map (fun s => map (fun c => (root_key c, displays (data c))) (kids s)) (find_sub 2 t) = Some [(3, false); (4, true)] /\
  option_map (fun s => map (fun c => (root_key c, displays (data c))) (kids s)) (find_sub 2 t') = Some [(4, true)].
Proof. exists d_switch. run. Qed.
