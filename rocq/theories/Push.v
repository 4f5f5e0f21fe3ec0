(** Moving attributes from a group to its children does not change the picture. *)
From Coq Require Import List Bool NArith Arith ZArith String Lia QArith Qcanon.
From Verif Require Import Names Num Value Dom DomFacts DomOps Outcome MoveFacts SpecDom SpecStyle SpecText Visit SpecPaint PaintFacts Img UseProofs UseStep.
Import ListNotations.
Local Open Scope nat_scope.

Lemma nearest_two a x y x' y' l l' : nearest a [x; y] = nearest a [x'; y'] -> nearest a l = nearest a l' -> nearest a (x :: y :: l) = nearest a (x' :: y' :: l').
Proof. cbn. destruct (d_get x a), (d_get y a), (d_get x' a), (d_get y' a); congruence. Qed.
Lemma places_tmap f t : (forall d, key (f d) = key d) -> forall a0 a s, In (a, s) (places a0 t) -> In (map f a, tmap f s) (places (map f a0) (tmap f t)).
Proof.
  intros K. induction t as [d ch IH] using tree_ind'. intros a0 a s [H|H]; [inversion H; subst; now left|]. right. apply in_flat_map in H. destruct H as (c & Hc & H). rewrite Forall_forall in IH. apply in_flat_map. exists (tmap f c). split; [now apply in_map|]. exact (IH c Hc (d :: a0) a s H).
Qed.
Lemma kid_sub s c t : In s (subs t) -> In c (kids s) -> In c (subs t).
Proof. intros Hs Hc. apply (subs_trans t s); [exact Hs|]. apply in_kids_subs. apply in_flat_map. exists c. split; [exact Hc|apply subs_self]. Qed.

Lemma parent_in s x : In x (flat_map subs (kids s)) -> exists y, In y (subs s) /\ In x (kids y).
Proof.
  induction s as [d ch IH] using tree_ind'. cbn [kids]. intros H. apply in_flat_map in H. destruct H as (c & Hc & H). rewrite Forall_forall in IH. destruct c as [dc cc]. destruct H as [<-|H]; [exists (T d ch); split; [apply subs_self|exact Hc]|].
  destruct (IH _ Hc H) as (y & Hy & Q). exists y. split; [|exact Q]. right. apply in_flat_map. eauto.
Qed.
Lemma one_parent t y z x : NoDup (keys t) -> In y (subs t) -> In z (subs t) -> In x (kids y) -> In x (kids z) -> y = z.
Proof.
  intros N Hy Hz A B. destruct (sub_place y t [] Hy) as (a & P), (sub_place z t [] Hz) as (b & Q). pose proof (place_kid t [] a y x P A) as PA. pose proof (place_kid t [] b z x Q B) as PB. assert (Z : (data y :: a, x) = (data z :: b, x)) by (apply (place_unique t []); auto). inversion Z. apply (sub_unique t); auto. unfold root_key. congruence.
Qed.

Section Push.
  Variable uu : aid -> len -> Qc.
  Variables t G : tree.
  Variable f : ndata -> ndata.
  Definition kid (s : tree) : Prop := In s (kids G).
  Hypothesis N : NoDup (keys t).
  Hypothesis HG : In G (subs t).
  Hypothesis TG : tag (data G) = TEl EG.
  Hypothesis Kf : forall d, key (f d) = key d.
  Hypothesis Tf : forall d, tag (f d) = tag d.
  Hypothesis Out : forall d, In d (flat t) -> key d <> root_key G -> (forall c, kid c -> key d <> root_key c) -> f d = d.
  Hypothesis Unref : forall c, kid c -> forall d, In d (flat t) -> ~ refers_to d (root_key c).
  Hypothesis Style : forall c, kid c -> forall a, inherited a = true -> nearest a [data c; data G] = nearest a [f (data c); f (data G)].
  Hypothesis Like : forall c, kid c -> like (data c) (f (data c)).
  Hypothesis Ts : forall c, kid c -> painted_el (data c) -> tag (data c) <> TEl ESvg -> t_mul (ts_of (data G)) (ts_of (data c)) = t_mul (ts_of (f (data G))) (ts_of (f (data c))).
  Hypothesis Svg : forall c, kid c -> tag (data c) = TEl ESvg -> ts_of (f (data G)) = ts_of (data G).
  Hypothesis Cond : given (f (data G)) condition_attrs = given (data G) condition_attrs.
  Hypothesis NoRes : forall c, kid c -> ~ resource (data c).
  Hypothesis Place : forall a p, In (a, G) (places [] t) -> In p a -> ~ shape_el p.
  Definition keeps : Prop :=
    (displayed (f (data G)) <-> displayed (data G)) /\ opacity_of (f (data G)) = opacity_of (data G) /\ effects (f (data G)) = effects (data G) /\
    (forall a v, In (a, v) (effects (data G)) -> In a condition_attrs \/ v = VPre Vid_none) /\
    forall c, kid c -> (displayed (f (data c)) <-> displayed (data c)) /\ opacity_of (f (data c)) = opacity_of (data c) /\ effects (f (data c)) = effects (data c).
  Definition single : Prop :=
    displayed (f (data G)) /\ effects (data G) = [] /\ effects (f (data G)) = [] /\
    exists c, kids G = [c] /\ effects (f (data c)) = effects (data c) /\ (displayed (f (data c)) <-> displayed (data G) /\ displayed (data c)) /\
      (opacity_of (data G) * opacity_of (data c) = opacity_of (f (data G)) * opacity_of (f (data c)))%Qc.
  Hypothesis Mode : keeps \/ single.
  Let dG := data G.
  Definition pushed : tree := tmap f t.
  Let t' := pushed.

  Lemma kid_in c : kid c -> In c (subs t). Proof. exact (kid_sub G c t HG). Qed.
  Lemma kid_ne c : kid c -> c <> G.
  Proof. intros H E. apply (self_not_below G (sub_NoDup G t N HG)). rewrite <- E at 1. apply in_flat_map. exists c. split; [exact H|apply subs_self]. Qed.
  Lemma is_G s : In s (subs t) -> root_key s = root_key G -> s = G.
  Proof. intros Hs E. now apply (sub_unique t). Qed.
  Lemma is_kid s c : In s (subs t) -> kid c -> root_key s = root_key c -> s = c.
  Proof. intros Hs Hc E. apply (sub_unique t); auto. now apply kid_in. Qed.
  Lemma f_other s : In s (subs t) -> s <> G -> ~ kid s -> f (data s) = data s.
  Proof. intros Hs A B. apply Out; [now apply data_of_sub|intros E; apply A; now apply is_G|]. intros c Hc E. apply B. assert (s = c) by now apply is_kid. now subst. Qed.
  (** A subtree that does not contain [G], and whose root is not a child, does not change. *)
  Lemma tmap_clean s : In s (subs t) -> ~ In G (subs s) -> ~ kid s -> tmap f s = s.
  Proof.
    intros Hs A B. apply tmap_id. intros d Hd. rewrite <- map_data_subs in Hd. apply in_map_iff in Hd. destruct Hd as (x & <- & Hx). assert (Hx' : In x (subs t)) by exact (subs_trans t s x Hs Hx). apply f_other; [exact Hx'|intros ->; contradiction|].
    intros Kx. apply A. destruct (Nat.eq_dec (root_key x) (root_key s)) as [E|E]; [exfalso; apply B; assert (x = s) by (apply (sub_unique t); auto); now subst|].
    assert (Hb : In x (flat_map subs (kids s))) by (apply below_kids; [exact Hx|intros ->; now apply E]). destruct (parent_in s x Hb) as (y & Hy & Hxy). assert (y = G); [|now subst]. apply (one_parent t y G x); auto. exact (subs_trans t s y Hs Hy).
  Qed.
  Lemma G_not_in_kid c : kid c -> ~ In G (subs c).
  Proof. intros Hc Q. apply (self_not_below G (sub_NoDup G t N HG)). apply in_flat_map. exists c. split; [exact Hc|exact Q]. Qed.
  Lemma kid_inner c : kid c -> map (tmap f) (kids c) = kids c.
  Proof.
    intros Hc. rewrite <- (map_id (kids c)) at 2. apply map_ext_in. intros x Hx. apply tmap_clean.
    - exact (kid_sub c x t (kid_in c Hc) Hx).
    - intros Q. apply (G_not_in_kid c Hc). apply (subs_trans c x G); [|exact Q]. apply in_kids_subs. apply in_flat_map. exists x. split; [exact Hx|apply subs_self].
    - intros Kx. apply (kid_ne c Hc). apply (one_parent t c G x); auto. now apply kid_in.
  Qed.
  Lemma kid_dec s : In s (subs t) -> kid s \/ ~ kid s.
  Proof.
    intros Hs. destruct (in_dec Nat.eq_dec (root_key s) (map root_key (kids G))) as [I|I].
    - left. apply in_map_iff in I. destruct I as (c & E & Hc). assert (s = c) by (apply is_kid; auto). now subst.
    - right. intros K. apply I. now apply in_map.
  Qed.
  Lemma G_not_kid : ~ kid G. Proof. intros K. now apply (kid_ne G K). Qed.
  (** ** A child *)
  Definition rel (p p' : list pic) : Prop :=
    (keeps -> same p p') /\ (single -> forall x y, same [PLayer (opacity_of dG) [] x p] [PLayer (opacity_of (f dG)) [] y p']).
  Lemma empty_layer o x : same [PLayer o [] x []] []. Proof. apply same_empty. cbn. auto. Qed.
  Lemma rel_nil : rel [] [].
  Proof. split; intros; [apply same_refl|]. eapply same_trans; [apply empty_layer|apply same_sym, empty_layer]. Qed.
  Lemma only_kid c c' : kids G = [c'] -> kid c -> c = c'.
  Proof. unfold kid. intros -> [<-|[]]. reflexivity. Qed.
  Lemma rel_layer c m l l' : kid c -> same l l' -> rel [layer (data c) m l] [layer (f (data c)) m l'].
  Proof.
    intros Hc S. split.
    - intros (_ & _ & _ & _ & K). destruct (K c Hc) as (_ & O & E). unfold layer. rewrite O, E. apply same_layer; [now right|exact S].
    - intros (_ & _ & _ & c' & Ec & E & _ & O) x y. assert (c = c') by now apply only_kid. subst c'. unfold layer. rewrite E. eapply same_trans; [apply same_nested|]. eapply same_trans; [|apply same_sym, same_nested]. unfold dG. rewrite O. apply same_layer; [now right|exact S].
  Qed.
  Lemma kid_disp c : kid c -> displayed dG -> (displayed (f (data c)) <-> displayed (data c)).
  Proof. intros Hc D. destruct Mode as [(_ & _ & _ & _ & K)|(_ & _ & _ & c' & Ec & _ & Dc & _)]; [apply (K c Hc)|]. assert (c = c') by now apply only_kid. subst c'. unfold dG in D. tauto. Qed.
  Lemma kid_style c anc0 anc0' : kid c -> same_style anc0 anc0' -> same_style (data c :: dG :: anc0) (f (data c) :: f dG :: anc0').
  Proof. intros Hc S a I. apply nearest_two; [now apply Style|now apply S]. Qed.
  Lemma kid_ts c M : kid c -> painted_el (data c) -> tag (data c) <> TEl ESvg -> t_mul (t_mul M (ts_of dG)) (ts_of (data c)) = t_mul (t_mul M (ts_of (f dG))) (ts_of (f (data c))).
  Proof. intros Hc P T. rewrite <- !t_mul_assoc. f_equal. now apply Ts. Qed.
  Lemma kid_get c a : kid c -> elsewhere (AN a) = false -> d_get (f (data c)) a = d_get (data c) a.
  Proof. intros Hc E. apply like_get; [now apply Like|exact E]. Qed.
  Lemma kid_given c l : kid c -> (forall a, In a l -> elsewhere (AN a) = false) -> given (f (data c)) l = given (data c) l.
  Proof. intros Hc H. apply given_ext. intros a Ha. apply kid_get; auto. Qed.
  Lemma kid_use c M : kid c -> tag (data c) = TEl EUse -> t_mul (t_mul M (ts_of dG)) (use_ts uu (data c)) = t_mul (t_mul M (ts_of (f dG))) (use_ts uu (f (data c))).
  Proof.
    intros Hc T. unfold use_ts, coordinate. rewrite !(kid_get c _ Hc) by reflexivity. rewrite (t_mul_assoc (t_mul M (ts_of dG))), (t_mul_assoc (t_mul M (ts_of (f dG)))). f_equal. apply kid_ts; auto with paint. rewrite T. discriminate.
  Qed.
  Lemma view_given : forall a, In a viewport_attrs -> elsewhere (AN a) = false.
  Proof. intros a H. cbn in H. repeat (destruct H as [<-|H]; [reflexivity|]). destruct H. Qed.
  Lemma size_given : forall a, In a [AWidth; AHeight] -> elsewhere (AN a) = false.
  Proof. intros a H. cbn in H. repeat (destruct H as [<-|H]; [reflexivity|]). destruct H. Qed.
  Lemma shape_f d : shape_el d -> shape_el (f d). Proof. intros (e & T & H). exists e. now rewrite Tf. Qed.
  Lemma group_f d : group_el d -> group_el (f d). Proof. unfold group_el. now rewrite Tf. Qed.
  Lemma painted_f d : painted_el (f d) <-> painted_el d.
  Proof. unfold painted_el, shape_el, group_el. now rewrite Tf. Qed.
  Lemma element_f d : element (f d) <-> element d. Proof. unfold element. now rewrite Tf. Qed.
  Lemma sub_t' s : In s (subs t) -> In (tmap f s) (subs t').
  Proof. intros H. unfold t', pushed. rewrite subs_tmap. now apply in_map. Qed.
  Lemma root_t s : root_key (tmap f s) = root_key s. Proof. destruct s as [d ch]. apply Kf. Qed.
  Lemma data_t s : data (tmap f s) = f (data s). Proof. destruct s; reflexivity. Qed.
  Lemma tmap_split s : tmap f s = T (f (data s)) (map (tmap f) (kids s)). Proof. destruct s; reflexivity. Qed.
  Lemma kids_t s : kids (tmap f s) = map (tmap f) (kids s). Proof. destruct s; reflexivity. Qed.
  Lemma target_not_kid d s : In d (flat t) -> d_get d AXlinkHref = Some (VLink (root_key s)) -> ~ kid s.
  Proof. intros Hd E K. apply (Unref s K d Hd). rewrite get_lk in E. apply lk_some in E. destruct E as (x & Hx & _ & Ex). exists x. split; [exact Hx|]. now rewrite Ex. Qed.
  Lemma kids_in s : In s (subs t) -> forall c, In c (kids s) -> In c (subs t). Proof. intros Hs c Hc. exact (kid_sub s c t Hs Hc). Qed.
  Lemma kids_not s : In s (subs t) -> s <> G -> forall c, In c (kids s) -> ~ kid c.
  Proof. intros Hs NG c Hc K. apply NG. exact (one_parent t s G c N Hs HG Hc K). Qed.
  Lemma not_G d ch e : tag d = TEl e -> e <> EG -> T d ch <> G.
  Proof. intros E Ne X. rewrite <- X in TG. cbn in TG. congruence. Qed.
  Lemma shape_not_G d ch : shape_el d -> T d ch <> G.
  Proof. intros (e & E & H). apply (not_G d ch e E). intros ->. cbn in H. intuition discriminate. Qed.
  Lemma shape_inner d ch : In (T d ch) (subs t) -> shape_el d -> map (tmap f) ch = ch.
  Proof.
    intros Hs S. pose proof (shape_not_G d ch S) as NG. rewrite <- (map_id ch) at 2. apply map_ext_in. intros x Hx. apply tmap_clean.
    - exact (kids_in _ Hs x Hx).
    - intros Q. assert (B : In G (flat_map subs (kids (T d ch)))) by (apply in_flat_map; eauto). destruct (under_place t _ G Hs B) as (a & P & I). exact (Place a d P I S).
    - exact (kids_not _ Hs NG x Hx).
  Qed.

  Lemma sim :
    (forall m anc s p, paint uu t m anc s p -> In s (subs t) ->
       (~ kid s -> forall anc', same_style anc anc' -> exists p', paint uu t' m anc' (tmap f s) p' /\ same p p') /\
       (kid s -> displayed dG -> forall M anc0 anc0', m = t_mul M (ts_of dG) -> anc = dG :: anc0 -> same_style anc0 anc0' -> exists p', paint uu t' (t_mul M (ts_of (f dG))) (f dG :: anc0') (tmap f s) p' /\ rel p p')) /\
    (forall m anc ls p, paints uu t m anc ls p -> (forall s, In s ls -> In s (subs t)) ->
       ((forall s, In s ls -> ~ kid s) -> forall anc', same_style anc anc' -> exists p', paints uu t' m anc' (map (tmap f) ls) p' /\ same p p') /\
       ((forall s, In s ls -> kid s) -> displayed dG -> forall M anc0 anc0', m = t_mul M (ts_of dG) -> anc = dG :: anc0 -> same_style anc0 anc0' -> exists p', paints uu t' (t_mul M (ts_of (f dG))) (f dG :: anc0') (map (tmap f) ls) p' /\
          (keeps -> same p p') /\ (single -> List.length ls <= 1 -> forall x y, same [PLayer (opacity_of dG) [] x p] [PLayer (opacity_of (f dG)) [] y p']))) /\
    (forall m anc ls p, choices uu t m anc ls p -> (forall s, In s ls -> In s (subs t)) -> (forall s, In s ls -> ~ kid s) ->
       forall anc', same_style anc anc' -> exists p', choices uu t' m anc' (map (tmap f) ls) p' /\ same p p').
  Proof.
    apply paint_all.
    - (* hidden *) intros m anc s H Hs. split.
      + intros NK anc' Sa. destruct (Nat.eq_dec (root_key s) (root_key G)) as [E|E].
        * assert (s = G) by now apply is_G. subst s. destruct H as [H|H]; [exfalso; apply H; apply painted_group; now left|]. destruct Mode as [(Dg & _)|(Dg & _ & Ef & c & Ec & _ & Dc & _)].
          { exists []. split; [|apply same_refl]. apply p_hidden. right. rewrite data_t. tauto. }
          { exists [layer (f dG) (t_mul m (ts_of (f dG))) []]. split.
            - rewrite (tmap_split G), Ec. cbn [map]. apply p_group; [apply group_f; now left|exact Dg|]. apply paints_one. apply p_hidden. right. rewrite data_t. tauto.
            - unfold layer. unfold dG. rewrite Ef. apply same_sym, empty_layer. }
        * assert (NG : s <> G) by (intros ->; now apply E). exists []. split; [|apply same_refl]. apply p_hidden. rewrite data_t, (f_other s Hs NG NK). exact H.
      + intros K D M anc0 anc0' -> -> Sa. exists []. split; [|apply rel_nil]. apply p_hidden. rewrite data_t, painted_f. destruct H as [H|H]; [now left|right]. now rewrite (kid_disp s K D).
    - (* shape *) intros m anc d ch S D Hs. split.
      + intros NK anc' Sa. cbn [tmap]. pose proof (f_other _ Hs (shape_not_G d ch S) NK) as Ef. cbn [data] in Ef. rewrite Ef, (shape_inner d ch Hs S). eexists. split; [apply p_shape; assumption|]. apply same_layer_of. apply same_shape; [apply like_refl|now apply same_style_cons].
      + intros K DG M anc0 anc0' -> -> Sa. cbn [tmap]. rewrite (shape_inner d ch Hs S). assert (Pe : painted_el d) by now left. assert (Ns : tag d <> TEl ESvg) by (apply (shape_not ESvg d S); cbn; auto 10). pose proof (kid_ts _ M K Pe Ns) as ET. cbn [data] in ET.
        eexists. split; [apply p_shape; [now apply shape_f|now apply (kid_disp _ K DG)]|]. rewrite <- ET. apply (rel_layer (T d ch)); [exact K|]. apply same_shape; [exact (Like _ K)|exact (kid_style _ _ _ K Sa)].
    - (* group *) intros m anc d ch ls Gd D P IH Hs. specialize (IH (kids_in _ Hs)). split.
      + intros NK anc' Sa. destruct (Nat.eq_dec (root_key (T d ch)) (root_key G)) as [E|E].
        * assert (X : T d ch = G) by now apply is_G. assert (Ed : d = dG) by (unfold dG; now rewrite <- X). assert (Ec : ch = kids G) by now rewrite <- X. clear X E. subst d. destruct (proj2 IH) with (M := m) (anc0 := anc) (anc0' := anc') as (p' & P' & R1 & R2); auto. { rewrite Ec. auto. }
          exists [layer (f dG) (t_mul m (ts_of (f dG))) p']. destruct Mode as [Mk|Ms].
          { split; [cbn [tmap]; apply p_group; [now apply group_f|now apply (proj1 Mk)|exact P']|]. pose proof Mk as (_ & O & E & Ne & _). unfold layer, dG. rewrite O, E. apply same_layer; [left; exact Ne|]. apply R1. exact Mk. }
          { split; [cbn [tmap]; apply p_group; [now apply group_f|apply Ms|exact P']|]. pose proof Ms as (_ & E1 & E2 & c & Ek & _). unfold layer. fold dG in E1, E2. rewrite E1, E2. apply R2; [exact Ms|]. rewrite Ec, Ek. cbn. lia. }
        * assert (NG : T d ch <> G) by (intros X; apply E; now rewrite X). cbn [tmap]. pose proof (f_other _ Hs NG NK) as Ef. cbn [data] in Ef. rewrite Ef. destruct (proj1 IH (kids_not _ Hs NG) (d :: anc') (same_style_cons d _ _ Sa)) as (p' & P' & S'). eexists. split; [apply p_group; eassumption|now apply same_layer_of].
      + intros K DG M anc0 anc0' -> -> Sa. cbn [tmap]. assert (Pe : painted_el d) by now apply painted_group. assert (Ns : tag d <> TEl ESvg) by (apply (group_not ESvg d Gd); cbn; auto). pose proof (kid_ts _ M K Pe Ns) as ET. cbn [data] in ET.
        destruct (proj1 IH (kids_not _ Hs (kid_ne _ K)) (f d :: f dG :: anc0') (kid_style _ _ _ K Sa)) as (p' & P' & S'). rewrite ET in P'. eexists. split; [apply p_group; [now apply group_f|now apply (kid_disp _ K DG)|exact P']|]. rewrite <- ET. now apply (rel_layer (T d ch)).
    - (* switch *) intros m anc d ch ls Td D P IH Hs. assert (NG : T d ch <> G) by (apply (not_G d ch ESwitch Td); discriminate). specialize (IH (kids_in _ Hs) (kids_not _ Hs NG)). split.
      + intros NK anc' Sa. cbn [tmap]. pose proof (f_other _ Hs NG NK) as Ef. cbn [data] in Ef. rewrite Ef. destruct (IH (d :: anc') (same_style_cons d _ _ Sa)) as (p' & P' & S'). eexists. split; [apply p_switch; eassumption|]. apply same_layer_of. now apply same_switch.
      + intros K DG M anc0 anc0' -> -> Sa. cbn [tmap]. assert (Pe : painted_el d) by now apply painted_switch. assert (Ns : tag d <> TEl ESvg) by congruence. pose proof (kid_ts _ M K Pe Ns) as ET. cbn [data] in ET.
        destruct (IH (f d :: f dG :: anc0') (kid_style _ _ _ K Sa)) as (p' & P' & S'). rewrite ET in P'. eexists. split; [apply p_switch; [now rewrite Tf|now apply (kid_disp _ K DG)|exact P']|]. rewrite <- ET. apply (rel_layer (T d ch)); [exact K|now apply same_switch].
    - (* svg *) intros m anc d ch ls Td D P IH Hs. assert (NG : T d ch <> G) by (apply (not_G d ch ESvg Td); discriminate). specialize (IH (kids_in _ Hs)). split.
      + intros NK anc' Sa. cbn [tmap]. pose proof (f_other _ Hs NG NK) as Ef. cbn [data] in Ef. rewrite Ef. destruct (proj1 IH (kids_not _ Hs NG) (d :: anc') (same_style_cons d _ _ Sa)) as (p' & P' & S'). eexists. split; [apply p_svg; eassumption|]. apply same_layer_of. now apply same_view.
      + intros K DG M anc0 anc0' -> -> Sa. cbn [tmap]. pose proof (Svg _ K Td) as ET. fold dG in ET. destruct (proj1 IH (kids_not _ Hs NG) (f d :: f dG :: anc0') (kid_style _ _ _ K Sa)) as (p' & P' & S').
        eexists. split; [apply p_svg; [now rewrite Tf|now apply (kid_disp _ K DG)|exact P']|]. rewrite ET. pose proof (kid_given _ viewport_attrs K view_given) as EV. cbn [data] in EV. rewrite EV. apply (rel_layer (T d ch)); [exact K|now apply same_view].
    - (* use *) intros m anc d ch s ls Td D E Hx T1 T2 P IH Hs. assert (NG : T d ch <> G) by (apply (not_G d ch EUse Td); discriminate). assert (Hd : In d (flat t)) by (now apply (data_of_sub (T d ch))). pose proof (proj1 (IH Hx) (target_not_kid d s Hd E)) as IHs. split.
      + intros NK anc' Sa. cbn [tmap]. pose proof (f_other _ Hs NG NK) as Ef. cbn [data] in Ef. rewrite Ef. destruct (IHs (d :: anc') (same_style_cons d _ _ Sa)) as (p' & P' & S').
        eexists. split; [apply (p_use uu t' m anc' d _ (tmap f s)); try rewrite root_t; try rewrite data_t, Tf; try eassumption; now apply sub_t'|]. now apply same_layer_of.
      + intros K DG M anc0 anc0' -> -> Sa. cbn [tmap]. pose proof (kid_use _ M K Td) as ET. cbn [data] in ET. destruct (IHs (f d :: f dG :: anc0') (kid_style _ _ _ K Sa)) as (p' & P' & S'). rewrite ET in P'.
        eexists. split; [apply (p_use uu t' _ _ (f d) _ (tmap f s)); try rewrite root_t; try rewrite data_t, Tf; try rewrite Tf; try eassumption; [now apply (kid_disp _ K DG)|exact (eq_trans (kid_get _ AXlinkHref K eq_refl) E)|now apply sub_t']|]. rewrite <- ET. now apply (rel_layer (T d ch)).
    - (* use of a view *) intros m anc d ch s ls Td D E Hx V P IH Hs. assert (NG : T d ch <> G) by (apply (not_G d ch EUse Td); discriminate). assert (Hd : In d (flat t)) by (now apply (data_of_sub (T d ch))).
      assert (NGs : s <> G) by (intros ->; destruct V as [V|[V _]]; congruence). pose proof (target_not_kid d s Hd E) as NKs. pose proof (f_other s Hx NGs NKs) as Es. specialize (IH (kids_in _ Hx)). pose proof (proj1 IH (kids_not _ Hx NGs)) as IHs. split.
      + intros NK anc' Sa. cbn [tmap]. pose proof (f_other _ Hs NG NK) as Ef. cbn [data] in Ef. rewrite Ef. destruct (IHs (data s :: d :: anc') (same_style_cons _ _ _ (same_style_cons d _ _ Sa))) as (p' & P' & S').
        pose proof (p_use_view uu t' m anc' d (map (tmap f) ch) (tmap f s) p' Td D) as Q. rewrite root_t, data_t, kids_t, Es in Q. specialize (Q E (sub_t' s Hx) V P'). eexists. split; [exact Q|]. apply same_layer_of, same_layer_of. now apply same_view.
      + intros K DG M anc0 anc0' -> -> Sa. cbn [tmap]. pose proof (kid_use _ M K Td) as ET. cbn [data] in ET. destruct (IHs (data s :: f d :: f dG :: anc0') (same_style_cons _ _ _ (kid_style _ _ _ K Sa))) as (p' & P' & S').
        pose proof (p_use_view uu t' (t_mul M (ts_of (f dG))) (f dG :: anc0') (f d) (map (tmap f) ch) (tmap f s) p') as Q. rewrite root_t, data_t, kids_t, Es, Tf in Q. specialize (Q Td (proj2 (kid_disp _ K DG) D) (eq_trans (kid_get _ AXlinkHref K eq_refl) E) (sub_t' s Hx) V P'). eexists. split; [exact Q|].
        rewrite <- ET. pose proof (kid_given _ [AWidth; AHeight] K size_given) as EV. cbn [data] in EV. rewrite EV. apply (rel_layer (T d ch)); [exact K|]. apply same_layer_of. now apply same_view.
    - (* use of a hidden svg *) intros m anc d ch s Td D E Hx V P Hs. assert (NG : T d ch <> G) by (apply (not_G d ch EUse Td); discriminate). assert (Hd : In d (flat t)) by (now apply (data_of_sub (T d ch))).
      assert (NGs : s <> G) by (intros ->; congruence). pose proof (f_other s Hx NGs (target_not_kid d s Hd E)) as Es. split.
      + intros NK anc' Sa. cbn [tmap]. pose proof (f_other _ Hs NG NK) as Ef. cbn [data] in Ef. rewrite Ef. exists []. split; [|apply same_refl]. apply (p_use_hidden uu t' m anc' d _ (tmap f s)); try rewrite root_t; try rewrite data_t, Es; auto. now apply sub_t'.
      + intros K DG M anc0 anc0' -> -> Sa. cbn [tmap]. exists []. split; [|apply rel_nil]. apply (p_use_hidden uu t' _ _ (f d) _ (tmap f s)); try rewrite root_t; try rewrite data_t, Es; try rewrite Tf; auto; [now apply (kid_disp _ K DG)|exact (eq_trans (kid_get _ AXlinkHref K eq_refl) E)|now apply sub_t'].
    - (* use without a target *) intros m anc d ch Td D E Hs. assert (NG : T d ch <> G) by (apply (not_G d ch EUse Td); discriminate).
      assert (Q : forall s', In s' (subs t') -> exists x, In x (subs t) /\ root_key s' = root_key x). { intros s' Hs'. unfold t', pushed in Hs'. rewrite subs_tmap in Hs'. apply in_map_iff in Hs'. destruct Hs' as (x & <- & Hx). exists x. split; [exact Hx|apply root_t]. } split.
      + intros NK anc' Sa. cbn [tmap]. pose proof (f_other _ Hs NG NK) as Ef. cbn [data] in Ef. rewrite Ef. exists []. split; [|apply same_refl]. apply p_use_none; auto. intros s' Hs'. destruct (Q s' Hs') as (x & Hx & ->). now apply E.
      + intros K DG M anc0 anc0' -> -> Sa. cbn [tmap]. exists []. split; [|apply rel_nil]. apply p_use_none; [now rewrite Tf|now apply (kid_disp _ K DG)|]. intros s' Hs'. destruct (Q s' Hs') as (x & Hx & ->). pose proof (kid_get _ AXlinkHref K eq_refl) as EH. cbn [data] in EH. rewrite EH. now apply E.
    - intros m anc _. split; [intros _ anc' _; exists []; split; [constructor|apply same_refl]|]. intros _ _ M anc0 anc0' _ _ _. exists []. split; [constructor|]. split; [intros _; apply same_refl|]. intros Sg _. apply (proj2 rel_nil Sg).
    - intros m anc s ls p q _ IH1 Pq IH2 H. specialize (IH1 (H s (or_introl eq_refl))). specialize (IH2 (fun x Hx => H x (or_intror Hx))). split.
      + intros NK anc' Sa. destruct (proj1 IH1 (NK s (or_introl eq_refl)) anc' Sa) as (p' & P' & S'). destruct (proj1 IH2 (fun x Hx => NK x (or_intror Hx)) anc' Sa) as (q' & Q' & T'). exists (p' ++ q'). cbn [map]. split; [now constructor|now apply same_app].
      + intros AK DG M anc0 anc0' Em Ea Sa. destruct (proj2 IH1 (AK s (or_introl eq_refl)) DG M anc0 anc0' Em Ea Sa) as (p' & P' & R1 & R2). destruct (proj2 IH2 (fun x Hx => AK x (or_intror Hx)) DG M anc0 anc0' Em Ea Sa) as (q' & Q' & T1 & T2).
        exists (p' ++ q'). cbn [map]. split; [now constructor|]. split; [intros Kp; apply same_app; auto|]. intros Sg Hl x y. destruct ls as [|z ls]; [|cbn in Hl; lia]. inversion Q'; subst. inversion Pq; subst. rewrite !app_nil_r. now apply R2.
    - intros m anc _ _ anc' _. exists []. split; [constructor|apply same_refl].
    - intros m anc s ls q Ne _ IH H NK anc' Sa. destruct (IH (fun x Hx => H x (or_intror Hx)) (fun x Hx => NK x (or_intror Hx)) anc' Sa) as (q' & Q' & T'). exists q'. split; [|exact T']. cbn [map]. apply ch_skip; [now rewrite data_t, element_f|exact Q'].
    - intros m anc s ls p q El _ IH1 _ IH2 H NK anc' Sa. destruct (proj1 (IH1 (H s (or_introl eq_refl))) (NK s (or_introl eq_refl)) anc' Sa) as (p' & P' & S'). destruct (IH2 (fun x Hx => H x (or_intror Hx)) (fun x Hx => NK x (or_intror Hx)) anc' Sa) as (q' & Q' & T'). cbn [map].
      exists (PAlt (given (data (tmap f s)) condition_attrs) p' :: q'). split; [apply ch_cons; [now rewrite data_t, element_f|exact P'|exact Q']|].
      assert (Eg : given (data (tmap f s)) condition_attrs = given (data s) condition_attrs). { rewrite data_t. destruct (Nat.eq_dec (root_key s) (root_key G)) as [Z|Z]; [assert (s = G) by (apply is_G; [apply H; now left|exact Z]); subst s; exact Cond|]. rewrite f_other; auto; [apply H; now left|intros ->; now apply Z|apply NK; now left]. }
      rewrite Eg. change (same ([PAlt (given (data s) condition_attrs) p] ++ q) ([PAlt (given (data s) condition_attrs) p'] ++ q')). apply same_app; [now apply same_alt|exact T'].
  Qed.

  (** ** The whole document *)
  Definition chain_ok (c : list ndata) : Prop := same_style c (map f c).
  Lemma chain_places x : In x (subs t) -> forall a0, (x = G -> chain_ok a0) -> (x <> G -> chain_ok (data x :: a0)) ->
    forall a s, In (a, s) (places a0 x) -> s <> G -> chain_ok (data s :: a).
  Proof.
    induction x as [d ch IH] using tree_ind'. intros Hx a0 H1 H2 a s [H|H] NG; [inversion H; subst; now apply H2|]. apply in_flat_map in H. destruct H as (c & Hc & H). rewrite Forall_forall in IH. pose proof (kids_in _ Hx c Hc) as Hc'.
    assert (Dec : T d ch = G \/ T d ch <> G). { destruct (Nat.eq_dec (root_key (T d ch)) (root_key G)) as [E|E]; [left; now apply is_G|right; intros X; apply E; now rewrite X]. }
    apply (IH c Hc Hc' (d :: a0)) with (s := s); auto.
    - intros ->. destruct Dec as [E|E]; [|now apply H2]. exfalso. apply G_not_kid. unfold kid. rewrite <- E at 2. exact Hc.
    - intros Nc. destruct Dec as [E|E].
      + assert (K : kid c) by (unfold kid; now rewrite <- E). assert (Ed : d = data G) by now rewrite <- E. subst d. unfold chain_ok. cbn [map]. apply (kid_style c a0 (map f a0) K). now apply H1.
      + unfold chain_ok. cbn [map]. rewrite (f_other c Hc' Nc (kids_not _ Hx E c Hc)). apply same_style_cons. exact (H2 E).
  Qed.
  Hypothesis Rt : tag (data t) = TRoot.
  Lemma t_ne : t <> G. Proof. intros E. rewrite E, TG in Rt. discriminate. Qed.
  Lemma t_not_kid : ~ kid t.
  Proof.
    intros K. assert (B : In G (flat_map subs (kids t))) by (apply below_kids; [exact HG|intros E; now apply t_ne]). assert (X : In t (flat_map subs (kids t))). { apply in_flat_map in B. destruct B as (c & Hc & B). apply in_flat_map. exists c. split; [exact Hc|]. apply (subs_trans c G t B). apply in_kids_subs. apply in_flat_map. exists t. split; [exact K|apply subs_self]. }
    exact (self_not_below t N X).
  Qed.
  Lemma f_root : f (data t) = data t. Proof. apply f_other; [apply subs_self|apply t_ne|apply t_not_kid]. Qed.
  Lemma svg_tmap s : svg_element t = Some s -> svg_element t' = Some (tmap f s).
  Proof.
    unfold svg_element, t', pushed. rewrite kids_t. generalize (kids t) as l. induction l as [|c l IH]; [discriminate|]. cbn [find map]. rewrite data_t. assert (E : is_tag ESvg (f (data c)) = is_tag ESvg (data c)) by (unfold is_tag; now rewrite Tf). rewrite E. destruct (is_tag ESvg (data c)); [intros X; now inversion X|exact IH].
  Qed.
  Lemma push_drawing : same_drawing uu t t'.
  Proof.
    destruct sim as (S1 & S2 & _). split.
    - intros p (s & E & P). assert (Hs : In s (kids t)) by (unfold svg_element in E; apply find_some in E; tauto). assert (Ts' : tag (data s) = TEl ESvg) by (unfold svg_element in E; apply find_some in E; destruct E as [_ E]; unfold is_tag in E; destruct (tag (data s)) as [|e|?|?|?|?]; try discriminate; destruct (eid_eqb_spec e ESvg); [now subst|discriminate]).
      assert (Hs' : In s (subs t)) by (apply (kid_sub t s t); [apply subs_self|exact Hs]). assert (NK : ~ kid s) by exact (kids_not t (subs_self t) t_ne s Hs).
      destruct (proj1 (S1 _ _ _ _ P Hs') NK [data t] (same_style_refl _)) as (p' & P' & Sp). exists p'. split; [|exact Sp]. exists (tmap f s). split; [now apply svg_tmap|]. unfold t', pushed in *. rewrite data_t, f_root. exact P'.
    - intros d p Hd Rd (anc & s & P & K & Q). pose proof (place_sub _ _ _ _ P) as Hs. assert (Ed : data s = d) by (apply (data_unique t); auto; now apply data_of_sub).
      assert (NG : s <> G) by (intros ->; destruct Rd as (e & Te & He); rewrite <- Ed, TG in Te; inversion Te; subst; cbn in He; intuition discriminate). assert (NK : ~ kid s) by (intros Ks; apply (NoRes s Ks); now rewrite Ed).
      pose proof (f_other s Hs NG NK) as Es. split.
      + unfold t', pushed. rewrite flat_tmap. apply in_map_iff. exists d. rewrite <- Ed. split; [exact Es|now apply data_of_sub].
      + destruct (proj1 (S2 _ _ _ _ Q (kids_in s Hs)) (kids_not s Hs NG) (f (data s) :: map f anc)) as (p' & P' & Sp).
        { apply (chain_places t (subs_self t) []) with (s := s); auto; [intros _ a _; reflexivity|]. intros _. unfold chain_ok. cbn [map]. rewrite f_root. apply same_style_refl. }
        exists p'. split; [|exact Sp]. exists (map f anc), (tmap f s). split; [exact (places_tmap f t Kf [] anc s P)|]. rewrite root_t, data_t, kids_t. auto.
  Qed.
End Push.
