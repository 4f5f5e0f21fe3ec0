(** A program that computes pictures, for instances and counterexamples; and what equal pictures have in common. *)
From Coq Require Import List Bool NArith Arith ZArith String Lia QArith Qcanon.
From Verif Require Import Names Num Value Dom DomFacts DomOps SpecStyle SpecText SpecPaint PaintFacts TasksSimpleProofs.
Import ListNotations.
Local Open Scope nat_scope.

Definition shape_b (d : ndata) : bool := existsb (fun e => is_tag e d) [EPath; ERect; ECircle; EEllipse; ELine; EPolyline; EPolygon; EText; EImage; EForeignObject].
Definition group_b (d : ndata) : bool := is_tag EG d || is_tag EA d.
Definition hidden_b (d : ndata) : bool := match d_get d ADisplay with Some (VPre Vid_none) => true | _ => false end.
Definition element_b (d : ndata) : bool := match tag d with TEl _ | TOtherEl _ => true | _ => false end.
Lemma shape_b_ok d : shape_b d = true <-> shape_el d.
Proof.
  unfold shape_b, shape_el. rewrite existsb_exists. split.
  - intros (e & He & X). exists e. split; [now apply is_tag_iff|exact He].
  - intros (e & X & He). exists e. split; [exact He|now apply is_tag_iff].
Qed.
Lemma group_b_ok d : group_b d = true <-> group_el d.
Proof. unfold group_b, group_el. rewrite orb_true_iff. now rewrite !is_tag_iff. Qed.
Lemma hidden_b_ok d : hidden_b d = true <-> ~ displayed d.
Proof.
  rewrite displayed_get. unfold hidden_b. destruct (d_get d ADisplay) as [v|]; [|split; discriminate]. destruct v as [|p| | | | | | | | |]; try (split; discriminate). destruct p; split; try discriminate; auto.
Qed.
Lemma element_b_ok d : element_b d = true <-> element d.
Proof.
  unfold element_b, element. destruct (tag d) as [|e|s| | |]; split; try discriminate; try (intros [(x & X)|(x & X)]; discriminate); intros _; eauto.
Qed.

Section Run.
  Variable uu : aid -> len -> Qc.
  Variable t : tree.
  Definition ap (a : option (list pic)) (f : list pic -> list pic) : option (list pic) := option_map f a.
  Fixpoint run (n : nat) (m : transform) (anc : list ndata) (s : tree) : option (list pic) :=
    match n with
    | O => None
    | S n =>
        let d := data s in
        if hidden_b d then Some []
        else if shape_b d then Some [layer d (t_mul m (ts_of d)) [PShape d (kids s) (t_mul m (ts_of d)) (d :: anc)]]
        else if group_b d then ap (run_list n (t_mul m (ts_of d)) (d :: anc) (kids s)) (fun l => [layer d (t_mul m (ts_of d)) l])
        else if is_tag ESwitch d then ap (run_choices n (t_mul m (ts_of d)) (d :: anc) (kids s)) (fun l => [layer d (t_mul m (ts_of d)) [PSwitch l]])
        else if is_tag ESvg d then ap (run_list n t_id (d :: anc) (kids s)) (fun l => [layer d m [PView m [] (given d viewport_attrs) l]])
        else if is_tag EUse d then
          match d_get d AXlinkHref with
          | Some (VLink k) =>
              match find_sub k t with
              | Some x =>
                  if is_tag ESymbol (data x) || is_tag ESvg (data x) && negb (hidden_b (data x)) then
                    ap (run_list n t_id (data x :: d :: anc) (kids x)) (fun l => [layer d (t_mul m (use_ts uu d))
                      [layer (data x) (t_mul m (use_ts uu d)) [PView (t_mul m (use_ts uu d)) (given d [AWidth; AHeight]) (given (data x) viewport_attrs) l]]])
                  else if is_tag ESvg (data x) then Some []
                  else ap (run n (t_mul m (use_ts uu d)) (d :: anc) x) (fun l => [layer d (t_mul m (use_ts uu d)) l])
              | None => Some []
              end
          | _ => Some []
          end
        else Some []
    end
  with run_list (n : nat) (m : transform) (anc : list ndata) (l : list tree) : option (list pic) :=
    match n with
    | O => None
    | S n => match l with
             | [] => Some []
             | s :: l => match run n m anc s, run_list n m anc l with Some p, Some q => Some (p ++ q) | _, _ => None end
             end
    end
  with run_choices (n : nat) (m : transform) (anc : list ndata) (l : list tree) : option (list pic) :=
    match n with
    | O => None
    | S n => match l with
             | [] => Some []
             | s :: l => if element_b (data s) then match run n m anc s, run_choices n m anc l with Some p, Some q => Some (PAlt (given (data s) condition_attrs) p :: q) | _, _ => None end else run_choices n m anc l
             end
    end.
  Lemma ap_some a f p : ap a f = Some p -> exists q, a = Some q /\ p = f q.
  Proof. destruct a; [|discriminate]. intros E. inversion E. eauto. Qed.
  Lemma run_ok n : (forall m anc s p, run n m anc s = Some p -> paint uu t m anc s p) /\
    (forall m anc l p, run_list n m anc l = Some p -> paints uu t m anc l p) /\
    (forall m anc l p, run_choices n m anc l = Some p -> choices uu t m anc l p).
  Proof.
    induction n as [|n (I1 & I2 & I3)]; [repeat split; discriminate|]. repeat split; intros m anc s p; cbn [run run_list run_choices].
    - destruct s as [d ch]. cbn [data kids]. destruct (hidden_b d) eqn:H0; [intros E; inversion E; apply p_hidden; right; now apply hidden_b_ok|].
      assert (D : displayed d). { destruct (displayed_dec d) as [Y|Y]; [exact Y|]. apply hidden_b_ok in Y. congruence. }
      destruct (shape_b d) eqn:H1; [intros E; inversion E; apply p_shape; [now apply shape_b_ok|exact D]|].
      destruct (group_b d) eqn:H2; [intros E; apply ap_some in E; destruct E as (q & E & ->); apply p_group; auto; now apply group_b_ok|].
      destruct (is_tag ESwitch d) eqn:H3; [intros E; apply ap_some in E; destruct E as (q & E & ->); apply p_switch; auto; now apply is_tag_iff|].
      destruct (is_tag ESvg d) eqn:H4; [intros E; apply ap_some in E; destruct E as (q & E & ->); apply p_svg; auto; now apply is_tag_iff|].
      destruct (is_tag EUse d) eqn:H5.
      + apply is_tag_iff in H5. assert (NO : (forall k, d_get d AXlinkHref <> Some (VLink k)) -> Some [] = Some p -> paint uu t m anc (T d ch) p). { intros Q E. inversion E. apply p_use_none; auto. }
        destruct (d_get d AXlinkHref) as [v|] eqn:G; [|apply NO; discriminate]. destruct v as [| | | | | | |k0| | |]; try (apply NO; discriminate). clear NO.
        destruct (find_sub k0 t) as [x|] eqn:Fx.
        * apply find_sub_some in Fx. destruct Fx as [Fx Kx]. subst k0. destruct (is_tag ESymbol (data x)) eqn:T1; cbn [orb].
          { intros E. apply ap_some in E. destruct E as (q & E & ->). apply p_use_view; auto. left. now apply is_tag_iff. }
          destruct (is_tag ESvg (data x)) eqn:T2; cbn [andb].
          { destruct (hidden_b (data x)) eqn:HX; cbn [negb].
            - intros E. inversion E. apply (p_use_hidden uu t m anc d ch x); auto; [now apply is_tag_iff|now apply hidden_b_ok].
            - intros E. apply ap_some in E. destruct E as (q & E & ->). apply p_use_view; auto. right. split; [now apply is_tag_iff|]. destruct (displayed_dec (data x)) as [Y|Y]; [exact Y|]. apply hidden_b_ok in Y. congruence. }
          intros E. apply ap_some in E. destruct E as (q & E & ->). apply (p_use uu t m anc d ch x); auto; intros Z; apply is_tag_iff in Z; congruence.
        * intros E. inversion E. apply p_use_none; auto. intros s Hs. rewrite G. intros Z. inversion Z. subst k0. apply (proj1 (find_sub_none _ _) Fx). apply in_map_iff. exists (data s). split; [reflexivity|now apply data_of_sub].
      + intros E. inversion E. apply p_hidden. left. cbn [data]. intros Q. unfold painted_el in Q. rewrite <- shape_b_ok, <- group_b_ok, <- !is_tag_iff in Q. intuition congruence.
    - destruct s as [|c l]; [intros E; inversion E; constructor|]. destruct (run n m anc c) eqn:A; [|discriminate]. destruct (run_list n m anc l) eqn:B; [|discriminate]. intros E. inversion E. constructor; auto.
    - destruct s as [|c l]; [intros E; inversion E; constructor|]. destruct (element_b (data c)) eqn:X.
      + destruct (run n m anc c) eqn:A; [|discriminate]. destruct (run_choices n m anc l) eqn:B; [|discriminate]. intros E. injection E as <-. apply ch_cons; auto. now apply element_b_ok.
      + intros E. apply ch_skip; auto. intros Z. apply element_b_ok in Z. congruence.
  Qed.
  Definition run_doc (n : nat) : option (list pic) := match svg_element t with Some s => run n t_id [data t] s | None => None end.
  Lemma run_doc_ok n p : run_doc n = Some p -> picture uu t p.
  Proof. unfold run_doc, picture. destruct (svg_element t) as [s|]; [|discriminate]. intros E. exists s. split; [reflexivity|]. now apply (run_ok n). Qed.
End Run.

(** Every shape, with its transform, an inherited property, the opacity and the effects it is seen through. *)
Record seen : Type := Seen { s_key : nat; s_ts : transform; s_prop : option value; s_own : option value; s_opacity : Qc; s_effs : list (aid * value) }.
Fixpoint shows (a b : aid) (o : Qc) (e : list (aid * value)) (p : pic) {struct p} : list seen :=
  match p with
  | PShape d _ m c => [Seen (key d) m (nearest a c) (d_get d b) o e]
  | PLayer o' e' _ l => flat_map (shows a b (o * o')%Qc (e ++ e')) l
  | PView _ _ _ l | PSwitch l | PAlt _ l => flat_map (shows a b o e) l
  end.
Lemma same_shows a b : inherited a = true -> elsewhere (AN b) = false -> forall l l', same l l' -> forall o e, flat_map (shows a b o e) l = flat_map (shows a b o e) l'.
Proof.
  intros I J l l' S. induction S; intros o0 e0; cbn [flat_map shows]; rewrite ?app_nil_r; auto.
  - congruence.
  - rewrite !flat_map_app. congruence.
  - rewrite (like_get d d' b H J). destruct H as (K & _). now rewrite K, (H0 a I).
  - replace (o0 * q1)%Qc with o0 by (change q1 with 1%Qc; ring). reflexivity.
  - now rewrite Qcmult_assoc.
Qed.
Definition seen_in (a b : aid) (l : list pic) : list seen := flat_map (shows a b q1 []) l.
Lemma differ a b l l' : inherited a = true -> elsewhere (AN b) = false -> seen_in a b l <> seen_in a b l' -> ~ same l l'.
Proof. intros I J D S. apply D. unfold seen_in. now apply (same_shows a b I J). Qed.
(** [t'] does not look like [t]. *)
Definition drawn_otherwise (uu : aid -> len -> Qc) (t t' : tree) : Prop :=
  exists l, picture uu t l /\ forall l', picture uu t' l' -> ~ same l l'.
Lemma otherwise uu t t' n a b l l' : NoDup (keys t) -> NoDup (keys t') -> run_doc uu t n = Some l -> run_doc uu t' n = Some l' -> inherited a = true -> elsewhere (AN b) = false -> seen_in a b l <> seen_in a b l' -> drawn_otherwise uu t t'.
Proof.
  intros N N' E E' I J D. exists l. split; [exact (run_doc_ok uu t n l E)|]. intros l2 P2. rewrite (picture_unique uu t' l2 l' N' P2 (run_doc_ok uu t' n l' E')). exact (differ a b l l' I J D).
Qed.
Lemma otherwise_same uu t t' : drawn_otherwise uu t t' -> ~ same_drawing uu t t'.
Proof. intros (l & P & D) [S _]. destruct (S l P) as (l' & P' & Q). exact (D l' P' Q). Qed.
(** The viewports (with their transforms) and the alternatives of switches (with their conditions). *)
Inductive frame : Type := FView (m : transform) | FAlt (c : list (aid * value)).
Fixpoint frames (p : pic) {struct p} : list frame :=
  match p with
  | PShape _ _ _ _ => []
  | PLayer _ _ _ l | PSwitch l => flat_map frames l
  | PView m _ _ l => FView m :: flat_map frames l
  | PAlt c l => FAlt c :: flat_map frames l
  end.
Lemma same_frames l l' : same l l' -> flat_map frames l = flat_map frames l'.
Proof.
  intros S. induction S; cbn [flat_map frames]; rewrite ?app_nil_r; auto; try congruence.
  now rewrite !flat_map_app, IHS1, IHS2.
Qed.
Lemma otherwise_framed uu t t' n l l' : NoDup (keys t) -> NoDup (keys t') -> run_doc uu t n = Some l -> run_doc uu t' n = Some l' -> flat_map frames l <> flat_map frames l' -> drawn_otherwise uu t t'.
Proof.
  intros N N' E E' D. exists l. split; [exact (run_doc_ok uu t n l E)|]. intros l2 P2. rewrite (picture_unique uu t' l2 l' N' P2 (run_doc_ok uu t' n l' E')). intros S. apply D, same_frames, S.
Qed.
