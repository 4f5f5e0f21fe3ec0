(** Moving attributes between an element and its children does not change the picture. *)
From Coq Require Import List Bool NArith Arith ZArith String Lia QArith Qcanon.
From Verif Require Import Names Num Value Dom DomFacts DomOps Outcome MoveFacts SpecDom SpecStyle SpecText Visit SpecPaint PaintFacts Img UseProofs UseStep Push.
Import ListNotations.
Local Open Scope nat_scope.

Section Hoist.
  Variable uu : aid -> len -> Qc.
  Variables t G : tree.
  Variable f : ndata -> ndata.
  Definition inner (s : tree) : Prop := In s (kids G).
  Definition moved (s : tree) : Prop := In s (kids G) /\ exists e, tag (data s) = TEl e.
  Hypothesis N : NoDup (keys t).
  Hypothesis HG : In G (subs t).
  Hypothesis TG : tag (data G) = TEl EG \/ tag (data G) = TEl ESvg.
  Hypothesis Kf : forall d, key (f d) = key d.
  Hypothesis Tf : forall d, tag (f d) = tag d.
  Hypothesis Out : forall d, In d (flat t) -> key d <> root_key G -> (forall c, moved c -> key d <> root_key c) -> f d = d.
  Hypothesis Unref : forall c, moved c -> forall d, In d (flat t) -> ~ refers_to d (root_key c).
  Hypothesis UnrefG : tag (data G) = TEl ESvg -> forall d, In d (flat t) -> ~ refers_to d (root_key G).
  Hypothesis Style : forall c, moved c -> forall a, inherited a = true -> nearest a [data c; data G] = nearest a [f (data c); f (data G)].
  Hypothesis Like : forall c, moved c -> like (data c) (f (data c)).
  Hypothesis Ts : tag (data G) = TEl EG -> forall c, moved c -> painted_el (data c) -> tag (data c) <> TEl ESvg -> t_mul (ts_of (data G)) (ts_of (data c)) = t_mul (ts_of (f (data G))) (ts_of (f (data c))).
  Hypothesis Svg : tag (data G) = TEl EG -> forall c, moved c -> tag (data c) = TEl ESvg -> ts_of (f (data G)) = ts_of (data G).
  Hypothesis SvgG : tag (data G) = TEl ESvg -> forall c, moved c -> ts_of (f (data c)) = ts_of (data c).
  Hypothesis Cond : given (f (data G)) condition_attrs = given (data G) condition_attrs.
  Hypothesis View : given (f (data G)) viewport_attrs = given (data G) viewport_attrs.
  Hypothesis NoRes : forall c, moved c -> ~ resource (data c).
  Hypothesis Rest : forall c, inner c -> ~ moved c -> forall d, In d (flat c) -> ~ resource d.
  Hypothesis Place : forall a p, In (a, G) (places [] t) -> In p a -> ~ shape_el p.
  Hypothesis KD : displayed (f (data G)) <-> displayed (data G).
  Hypothesis KO : opacity_of (f (data G)) = opacity_of (data G).
  Hypothesis KE : effects (f (data G)) = effects (data G).
  Hypothesis KM : (forall a v, In (a, v) (effects (data G)) -> In a condition_attrs \/ v = VPre Vid_none) \/ ts_of (f (data G)) = ts_of (data G).
  Hypothesis KK : forall c, moved c -> (displayed (f (data c)) <-> displayed (data c)) /\ opacity_of (f (data c)) = opacity_of (data c) /\ effects (f (data c)) = effects (data c).
  Let dG := data G.
  Definition hoisted : tree := tmap f t.
  Let t' := hoisted.

  Lemma moved_dec s : inner s -> moved s \/ ~ moved s.
  Proof. intros I. unfold moved. destruct (tag (data s)) as [|e|x|x|x|x]; try (right; intros [_ [e E]]; discriminate). left. split; [exact I|eauto]. Qed.
  Lemma painted_moved s : inner s -> painted_el (data s) -> moved s.
  Proof. intros I P. split; [exact I|]. unfold painted_el, shape_el, group_el in P. destruct P as [(e & E & _)|[[E|E]|[E|[E|E]]]]; eauto. Qed.
  Lemma kid_in c : inner c -> In c (subs t). Proof. exact (kid_sub G c t HG). Qed.
  Lemma kid_ne c : inner c -> c <> G.
  Proof. intros H E. apply (self_not_below G (sub_NoDup G t N HG)). rewrite <- E at 1. apply in_flat_map. exists c. split; [exact H|apply subs_self]. Qed.
  Lemma is_G s : In s (subs t) -> root_key s = root_key G -> s = G.
  Proof. intros Hs E. now apply (sub_unique t). Qed.
  Lemma is_kid s c : In s (subs t) -> inner c -> root_key s = root_key c -> s = c.
  Proof. intros Hs Hc E. apply (sub_unique t); auto. now apply kid_in. Qed.
  Lemma f_other s : In s (subs t) -> s <> G -> ~ inner s -> f (data s) = data s.
  Proof. intros Hs A B. apply Out; [now apply data_of_sub|intros E; apply A; now apply is_G|]. intros c [Hc _] E. apply B. assert (s = c) by (apply is_kid; auto). now subst. Qed.
  (** A subtree that does not contain [G], and whose root is not a child, does not change. *)
  Lemma tmap_clean s : In s (subs t) -> ~ In G (subs s) -> ~ inner s -> tmap f s = s.
  Proof.
    intros Hs A B. apply tmap_id. intros d Hd. rewrite <- map_data_subs in Hd. apply in_map_iff in Hd. destruct Hd as (x & <- & Hx). assert (Hx' : In x (subs t)) by exact (subs_trans t s x Hs Hx). apply f_other; [exact Hx'|intros ->; contradiction|].
    intros Kx. apply A. destruct (Nat.eq_dec (root_key x) (root_key s)) as [E|E]; [exfalso; apply B; assert (x = s) by (apply (sub_unique t); auto); now subst|].
    assert (Hb : In x (flat_map subs (kids s))) by (apply below_kids; [exact Hx|intros ->; now apply E]). destruct (parent_in s x Hb) as (y & Hy & Hxy). assert (y = G); [|now subst]. apply (one_parent t y G x); auto. exact (subs_trans t s y Hs Hy).
  Qed.
  Lemma G_not_in_inner c : inner c -> ~ In G (subs c).
  Proof. intros Hc Q. apply (self_not_below G (sub_NoDup G t N HG)). apply in_flat_map. exists c. split; [exact Hc|exact Q]. Qed.
  Lemma kid_inner c : inner c -> map (tmap f) (kids c) = kids c.
  Proof.
    intros Hc. rewrite <- (map_id (kids c)) at 2. apply map_ext_in. intros x Hx. apply tmap_clean.
    - exact (kid_sub c x t (kid_in c Hc) Hx).
    - intros Q. apply (G_not_in_inner c Hc). apply (subs_trans c x G); [|exact Q]. apply in_kids_subs. apply in_flat_map. exists x. split; [exact Hx|apply subs_self].
    - intros Kx. apply (kid_ne c Hc). apply (one_parent t c G x); auto. now apply kid_in.
  Qed.
  Lemma kid_dec s : In s (subs t) -> inner s \/ ~ inner s.
  Proof.
    intros Hs. destruct (in_dec Nat.eq_dec (root_key s) (map root_key (kids G))) as [I|I].
    - left. apply in_map_iff in I. destruct I as (c & E & Hc). assert (s = c) by (apply is_kid; auto). now subst.
    - right. intros K. apply I. now apply in_map.
  Qed.
  Lemma G_not_kid : ~ inner G. Proof. intros K. now apply (kid_ne G K). Qed.

  (** ** A child *)
  Definition fit (m m' : transform) : Prop :=
    (tag dG = TEl EG /\ exists M, m = t_mul M (ts_of dG) /\ m' = t_mul M (ts_of (f dG))) \/ (tag dG = TEl ESvg /\ m' = m).
  Lemma kid_layer c m l l' : moved c -> same l l' -> same [layer (data c) m l] [layer (f (data c)) m l'].
  Proof. intros Hc S. destruct (KK c Hc) as (_ & O & E). unfold layer. rewrite O, E. apply same_layer; [now right|exact S]. Qed.
  Lemma kid_disp c : moved c -> (displayed (f (data c)) <-> displayed (data c)). Proof. intros Hc. apply (KK c Hc). Qed.
  Lemma kid_style c anc0 anc0' : moved c -> same_style anc0 anc0' -> same_style (data c :: dG :: anc0) (f (data c) :: f dG :: anc0').
  Proof. intros Hc S a I. apply nearest_two; [now apply Style|now apply S]. Qed.
  Lemma kid_ts c m m' : fit m m' -> moved c -> painted_el (data c) -> tag (data c) <> TEl ESvg -> t_mul m (ts_of (data c)) = t_mul m' (ts_of (f (data c))).
  Proof. intros [(T & M & -> & ->)|(T & ->)] Hc P Ne; [rewrite <- !t_mul_assoc; f_equal; now apply Ts|]. now rewrite (SvgG T c Hc). Qed.
  Lemma kid_svg c m m' : fit m m' -> moved c -> tag (data c) = TEl ESvg -> m' = m.
  Proof. intros [(T & M & -> & ->)|(T & ->)] Hc Ne; [|reflexivity]. f_equal. now apply (Svg T c). Qed.
  Lemma kid_get c a : moved c -> elsewhere (AN a) = false -> d_get (f (data c)) a = d_get (data c) a.
  Proof. intros Hc E. apply like_get; [now apply Like|exact E]. Qed.
  Lemma kid_given c l : moved c -> (forall a, In a l -> elsewhere (AN a) = false) -> given (f (data c)) l = given (data c) l.
  Proof. intros Hc H. apply given_ext. intros a Ha. apply kid_get; auto. Qed.
  Lemma kid_use c m m' : fit m m' -> moved c -> tag (data c) = TEl EUse -> t_mul m (use_ts uu (data c)) = t_mul m' (use_ts uu (f (data c))).
  Proof.
    intros F Hc T. unfold use_ts, coordinate. rewrite !(kid_get c _ Hc) by reflexivity. rewrite (t_mul_assoc m), (t_mul_assoc m'). f_equal. apply kid_ts; auto with paint. rewrite T. discriminate.
  Qed.
  Lemma view_given : forall a, In a viewport_attrs -> elsewhere (AN a) = false.
  Proof. intros a H. cbn in H. repeat (destruct H as [<-|H]; [reflexivity|]). destruct H. Qed.
  Lemma size_given : forall a, In a [AWidth; AHeight] -> elsewhere (AN a) = false.
  Proof. intros a H. cbn in H. repeat (destruct H as [<-|H]; [reflexivity|]). destruct H. Qed.
  Lemma shape_f d : shape_el d -> shape_el (f d). Proof. intros (e & T & H). exists e. now rewrite Tf. Qed.
  Lemma group_f d : group_el d -> group_el (f d). Proof. unfold group_el. now rewrite Tf. Qed.
  Lemma painted_f d : painted_el (f d) <-> painted_el d.
  Proof. unfold painted_el, shape_el, group_el. now rewrite Tf. Qed.
  Lemma element_f d : element (f d) <-> element d. Proof. unfold element. now rewrite Tf. Qed.
  Lemma sub_t' s : In s (subs t) -> In (tmap f s) (subs t').
  Proof. intros H. unfold t', hoisted. rewrite subs_tmap. now apply in_map. Qed.
  Lemma root_t s : root_key (tmap f s) = root_key s. Proof. destruct s as [d ch]. apply Kf. Qed.
  Lemma data_t s : data (tmap f s) = f (data s). Proof. destruct s; reflexivity. Qed.
  Lemma tmap_split s : tmap f s = T (f (data s)) (map (tmap f) (kids s)). Proof. destruct s; reflexivity. Qed.
  Lemma kids_t s : kids (tmap f s) = map (tmap f) (kids s). Proof. destruct s; reflexivity. Qed.
  Lemma f_rest s : inner s -> ~ moved s -> f (data s) = data s.
  Proof.
    intros I NM. pose proof (kid_in s I) as Hs. apply Out; [now apply data_of_sub|intros X; apply (kid_ne s I); now apply is_G|]. intros c Hc X. apply NM. assert (s = c) by (apply is_kid; [exact Hs|apply Hc|exact X]). now subst.
  Qed.
  Lemma target_ref d s : d_get d AXlinkHref = Some (VLink (root_key s)) -> refers_to d (root_key s).
  Proof. intros E. rewrite get_lk in E. apply lk_some in E. destruct E as (x & Hx & _ & Ex). exists x. split; [exact Hx|]. now rewrite Ex. Qed.
  Lemma kids_in s : In s (subs t) -> forall c, In c (kids s) -> In c (subs t). Proof. intros Hs c Hc. exact (kid_sub s c t Hs Hc). Qed.
  Lemma kids_not s : In s (subs t) -> s <> G -> forall c, In c (kids s) -> ~ inner c.
  Proof. intros Hs NG c Hc K. apply NG. exact (one_parent t s G c N Hs HG Hc K). Qed.
  Lemma not_G d ch e : tag d = TEl e -> e <> EG -> e <> ESvg -> T d ch <> G.
  Proof. intros E Ne Ne' X. rewrite <- X in TG. cbn in TG. destruct TG; congruence. Qed.
  Lemma shape_not_G d ch : shape_el d -> T d ch <> G.
  Proof. intros (e & E & H). apply (not_G d ch e E); intros ->; cbn in H; intuition discriminate. Qed.
  Lemma shape_inner d ch : In (T d ch) (subs t) -> shape_el d -> map (tmap f) ch = ch.
  Proof.
    intros Hs S. pose proof (shape_not_G d ch S) as NG. rewrite <- (map_id ch) at 2. apply map_ext_in. intros x Hx. apply tmap_clean.
    - exact (kids_in _ Hs x Hx).
    - intros Q. assert (B : In G (flat_map subs (kids (T d ch)))) by (apply in_flat_map; eauto). destruct (under_place t _ G Hs B) as (a & P & I). exact (Place a d P I S).
    - exact (kids_not _ Hs NG x Hx).
  Qed.
  Lemma G_dec s : In s (subs t) -> s = G \/ s <> G.
  Proof. intros Hs. destruct (Nat.eq_dec (root_key s) (root_key G)) as [E|E]; [left; now apply is_G|right; intros X; apply E; now rewrite X]. Qed.
  Lemma target_other d s : In d (flat t) -> In s (subs t) -> painted_el (data s) \/ tag (data s) = TEl ESymbol -> d_get d AXlinkHref = Some (VLink (root_key s)) -> ~ inner s.
  Proof.
    intros Hd Hs P E I. apply (Unref s) with (d := d); [|exact Hd|now apply target_ref]. destruct P as [P|P]; [now apply painted_moved|]. split; [exact I|eauto].
  Qed.

  Definition ok1 (m : transform) (anc : list ndata) (s : tree) (p : list pic) : Prop :=
    (~ inner s -> forall anc', same_style anc anc' -> exists p', paint uu t' m anc' (tmap f s) p' /\ same p p') /\
    (inner s -> forall m' anc0 anc0', fit m m' -> anc = dG :: anc0 -> same_style anc0 anc0' -> exists p', paint uu t' m' (f dG :: anc0') (tmap f s) p' /\ same p p').
  Lemma h_sim :
    (forall m anc s p, paint uu t m anc s p -> In s (subs t) -> ok1 m anc s p) /\
    (forall m anc ls p, paints uu t m anc ls p -> (forall s, In s ls -> In s (subs t)) ->
       ((forall s, In s ls -> ~ inner s) -> forall anc', same_style anc anc' -> exists p', paints uu t' m anc' (map (tmap f) ls) p' /\ same p p') /\
       ((forall s, In s ls -> inner s) -> forall m' anc0 anc0', fit m m' -> anc = dG :: anc0 -> same_style anc0 anc0' -> exists p', paints uu t' m' (f dG :: anc0') (map (tmap f) ls) p' /\ same p p')) /\
    (forall m anc ls p, choices uu t m anc ls p -> (forall s, In s ls -> In s (subs t)) -> (forall s, In s ls -> ~ inner s) ->
       forall anc', same_style anc anc' -> exists p', choices uu t' m anc' (map (tmap f) ls) p' /\ same p p').
  Proof.
    apply paint_all.
    - (* hidden *) intros m anc s H Hs. split.
      + intros NK anc' Sa. exists []. split; [|apply same_refl]. apply p_hidden. rewrite data_t. destruct (G_dec s Hs) as [->|NG]; [|now rewrite (f_other s Hs NG NK)]. rewrite painted_f. destruct H as [H|H]; [now left|right; tauto].
      + intros I m' anc0 anc0' F Ea Sa. exists []. split; [|apply same_refl]. apply p_hidden. rewrite data_t, painted_f. destruct H as [H|H]; [now left|]. destruct (moved_dec s I) as [M|M]; [right; now rewrite (kid_disp s M)|right; now rewrite (f_rest s I M)].
    - (* shape *) intros m anc d ch S D Hs. split.
      + intros NK anc' Sa. cbn [tmap]. pose proof (f_other _ Hs (shape_not_G d ch S) NK) as Ef. cbn [data] in Ef. rewrite Ef, (shape_inner d ch Hs S). eexists. split; [apply p_shape; assumption|]. apply same_layer_of. apply same_shape; [apply like_refl|now apply same_style_cons].
      + intros I m' anc0 anc0' F -> Sa. assert (Pe : painted_el d) by now left. pose proof (painted_moved (T d ch) I Pe) as K. cbn [tmap]. rewrite (shape_inner d ch Hs S). assert (Ns : tag d <> TEl ESvg) by (apply (shape_not ESvg d S); cbn; auto 10). pose proof (kid_ts _ m m' F K Pe Ns) as ET. cbn [data] in ET.
        eexists. split; [apply p_shape; [now apply shape_f|now apply (kid_disp _ K)]|]. rewrite <- ET. apply (kid_layer (T d ch)); [exact K|]. apply same_shape; [exact (Like _ K)|exact (kid_style _ _ _ K Sa)].
    - (* group *) intros m anc d ch ls Gd D P IH Hs. specialize (IH (kids_in _ Hs)). split.
      + intros NK anc' Sa. destruct (G_dec _ Hs) as [X|NG].
        * assert (Ed : d = dG) by (unfold dG; now rewrite <- X). assert (Ec : ch = kids G) by now rewrite <- X. assert (TE : tag dG = TEl EG). { rewrite <- Ed. destruct TG as [Q|Q]; fold dG in Q; rewrite <- Ed in Q; [exact Q|]. exfalso. destruct Gd; congruence. } clear X. subst d.
          destruct (proj2 IH) with (m' := t_mul m (ts_of (f dG))) (anc0 := anc) (anc0' := anc') as (p' & P' & R1); auto. { rewrite Ec. auto. } { left. split; [exact TE|eauto]. }
          exists [layer (f dG) (t_mul m (ts_of (f dG))) p']. split; [cbn [tmap]; apply p_group; [now apply group_f|now apply KD|exact P']|]. unfold layer, dG. rewrite KO, KE. apply same_layer; [|exact R1]. destruct KM as [Q|Q]; [left; exact Q|right; now rewrite Q].
        * cbn [tmap]. pose proof (f_other _ Hs NG NK) as Ef. cbn [data] in Ef. rewrite Ef. destruct (proj1 IH (kids_not _ Hs NG) (d :: anc') (same_style_cons d _ _ Sa)) as (p' & P' & S'). eexists. split; [apply p_group; eassumption|now apply same_layer_of].
      + intros I m' anc0 anc0' F -> Sa. cbn [tmap]. assert (Pe : painted_el d) by now apply painted_group. pose proof (painted_moved (T d ch) I Pe) as K. assert (Ns : tag d <> TEl ESvg) by (apply (group_not ESvg d Gd); cbn; auto). pose proof (kid_ts _ m m' F K Pe Ns) as ET. cbn [data] in ET.
        destruct (proj1 IH (kids_not _ Hs (kid_ne _ I)) (f d :: f dG :: anc0') (kid_style _ _ _ K Sa)) as (p' & P' & S'). rewrite ET in P'. eexists. split; [apply p_group; [now apply group_f|now apply (kid_disp _ K)|exact P']|]. rewrite <- ET. now apply (kid_layer (T d ch)).
    - (* switch *) intros m anc d ch ls Td D P IH Hs. assert (NG : T d ch <> G) by (apply (not_G d ch ESwitch Td); discriminate). specialize (IH (kids_in _ Hs) (kids_not _ Hs NG)). split.
      + intros NK anc' Sa. cbn [tmap]. pose proof (f_other _ Hs NG NK) as Ef. cbn [data] in Ef. rewrite Ef. destruct (IH (d :: anc') (same_style_cons d _ _ Sa)) as (p' & P' & S'). eexists. split; [apply p_switch; eassumption|]. apply same_layer_of. now apply same_switch.
      + intros I m' anc0 anc0' F -> Sa. cbn [tmap]. assert (Pe : painted_el d) by now apply painted_switch. pose proof (painted_moved (T d ch) I Pe) as K. assert (Ns : tag d <> TEl ESvg) by congruence. pose proof (kid_ts _ m m' F K Pe Ns) as ET. cbn [data] in ET.
        destruct (IH (f d :: f dG :: anc0') (kid_style _ _ _ K Sa)) as (p' & P' & S'). rewrite ET in P'. eexists. split; [apply p_switch; [now rewrite Tf|now apply (kid_disp _ K)|exact P']|]. rewrite <- ET. apply (kid_layer (T d ch)); [exact K|now apply same_switch].
    - (* svg *) intros m anc d ch ls Td D P IH Hs. specialize (IH (kids_in _ Hs)). assert (Pe : painted_el d) by (right; right; right; now left). split.
      + intros NK anc' Sa. destruct (G_dec _ Hs) as [X|NG].
        * assert (Ed : d = dG) by (unfold dG; now rewrite <- X). assert (Ec : ch = kids G) by now rewrite <- X. clear X. subst d.
          destruct (proj2 IH) with (m' := t_id) (anc0 := anc) (anc0' := anc') as (p' & P' & R1); auto. { rewrite Ec. auto. } { right. split; [exact Td|reflexivity]. }
          exists [layer (f dG) m [PView m [] (given (f dG) viewport_attrs) p']]. split; [cbn [tmap]; apply p_svg; [now rewrite Tf|now apply KD|exact P']|]. unfold layer, dG. rewrite KO, KE, View. apply same_layer; [now right|]. now apply same_view.
        * cbn [tmap]. pose proof (f_other _ Hs NG NK) as Ef. cbn [data] in Ef. rewrite Ef. destruct (proj1 IH (kids_not _ Hs NG) (d :: anc') (same_style_cons d _ _ Sa)) as (p' & P' & S'). eexists. split; [apply p_svg; eassumption|]. apply same_layer_of. now apply same_view.
      + intros I m' anc0 anc0' F -> Sa. pose proof (painted_moved (T d ch) I Pe) as K. cbn [tmap]. rewrite (kid_svg _ m m' F K Td). destruct (proj1 IH (kids_not _ Hs (kid_ne _ I)) (f d :: f dG :: anc0') (kid_style _ _ _ K Sa)) as (p' & P' & S').
        eexists. split; [apply p_svg; [now rewrite Tf|now apply (kid_disp _ K)|exact P']|]. pose proof (kid_given _ viewport_attrs K view_given) as EV. cbn [data] in EV. rewrite EV. apply (kid_layer (T d ch)); [exact K|now apply same_view].
    - (* use *) intros m anc d ch s ls Td D E Hx T1 T2 P IH Hs. assert (NG : T d ch <> G) by (apply (not_G d ch EUse Td); discriminate). assert (Hd : In d (flat t)) by (now apply (data_of_sub (T d ch))).
      assert (IHs : forall anc', same_style (d :: anc) anc' -> exists p', paint uu t' (t_mul m (use_ts uu d)) anc' (tmap f s) p' /\ same ls p').
      { destruct (kid_dec s Hx) as [I|I]; [|exact (proj1 (IH Hx) I)]. intros anc' _. destruct (moved_dec s I) as [M|M]; [destruct (Unref s M d Hd); now apply target_ref|]. assert (Np : ~ painted_el (data s)) by (intros Q; now apply M, painted_moved). exists []. split; [apply p_hidden; left; now rewrite data_t, painted_f|]. inversion P; subst; try apply same_refl; exfalso; apply Np; cbn [data]; auto with paint. }
      split.
      + intros NK anc' Sa. cbn [tmap]. pose proof (f_other _ Hs NG NK) as Ef. cbn [data] in Ef. rewrite Ef. destruct (IHs (d :: anc') (same_style_cons d _ _ Sa)) as (p' & P' & S').
        eexists. split; [apply (p_use uu t' m anc' d _ (tmap f s)); try rewrite root_t; try rewrite data_t, Tf; try eassumption; now apply sub_t'|]. now apply same_layer_of.
      + intros I m' anc0 anc0' F -> Sa. assert (Pe : painted_el d) by (right; right; right; now right). pose proof (painted_moved (T d ch) I Pe) as K. cbn [tmap]. pose proof (kid_use _ m m' F K Td) as ET. cbn [data] in ET. destruct (IHs (f d :: f dG :: anc0') (kid_style _ _ _ K Sa)) as (p' & P' & S'). rewrite ET in P'.
        eexists. split; [apply (p_use uu t' _ _ (f d) _ (tmap f s)); try rewrite root_t; try rewrite data_t, Tf; try rewrite Tf; try eassumption; [now apply (kid_disp _ K)|exact (eq_trans (kid_get _ AXlinkHref K eq_refl) E)|now apply sub_t']|]. rewrite <- ET. now apply (kid_layer (T d ch)).
    - (* use of a view *) intros m anc d ch s ls Td D E Hx V P IH Hs. assert (NG : T d ch <> G) by (apply (not_G d ch EUse Td); discriminate). assert (Hd : In d (flat t)) by (now apply (data_of_sub (T d ch))). assert (Pe : painted_el d) by (right; right; right; now right).
      assert (NGs : s <> G). { intros ->. destruct V as [V|[V _]]; [destruct TG; congruence|]. apply (UnrefG V d Hd). now apply target_ref. }
      assert (NKs : ~ inner s). { apply (target_other d); auto. destruct V as [V|[V _]]; [now right|left; right; right; right; now left]. } pose proof (f_other s Hx NGs NKs) as Es. specialize (IH (kids_in _ Hx)). pose proof (proj1 IH (kids_not _ Hx NGs)) as IHs. split.
      + intros NK anc' Sa. cbn [tmap]. pose proof (f_other _ Hs NG NK) as Ef. cbn [data] in Ef. rewrite Ef. destruct (IHs (data s :: d :: anc') (same_style_cons _ _ _ (same_style_cons d _ _ Sa))) as (p' & P' & S').
        pose proof (p_use_view uu t' m anc' d (map (tmap f) ch) (tmap f s) p' Td D) as Q. rewrite root_t, data_t, kids_t, Es in Q. specialize (Q E (sub_t' s Hx) V P'). eexists. split; [exact Q|]. apply same_layer_of, same_layer_of. now apply same_view.
      + intros I m' anc0 anc0' F -> Sa. pose proof (painted_moved (T d ch) I Pe) as K. cbn [tmap]. pose proof (kid_use _ m m' F K Td) as ET. cbn [data] in ET. destruct (IHs (data s :: f d :: f dG :: anc0') (same_style_cons _ _ _ (kid_style _ _ _ K Sa))) as (p' & P' & S').
        pose proof (p_use_view uu t' m' (f dG :: anc0') (f d) (map (tmap f) ch) (tmap f s) p') as Q. rewrite root_t, data_t, kids_t, Es, Tf in Q. specialize (Q Td (proj2 (kid_disp _ K) D) (eq_trans (kid_get _ AXlinkHref K eq_refl) E) (sub_t' s Hx) V P'). eexists. split; [exact Q|].
        rewrite <- ET. pose proof (kid_given _ [AWidth; AHeight] K size_given) as EV. cbn [data] in EV. rewrite EV. apply (kid_layer (T d ch)); [exact K|]. apply same_layer_of. now apply same_view.
    - (* use of a hidden svg *) intros m anc d ch s Td D E Hx V P Hs. assert (NG : T d ch <> G) by (apply (not_G d ch EUse Td); discriminate). assert (Hd : In d (flat t)) by (now apply (data_of_sub (T d ch))). assert (Pe : painted_el d) by (right; right; right; now right).
      assert (NGs : s <> G) by (intros ->; apply (UnrefG V d Hd); now apply target_ref). assert (NKs : ~ inner s) by (apply (target_other d); auto; left; right; right; right; now left). pose proof (f_other s Hx NGs NKs) as Es. split.
      + intros NK anc' Sa. cbn [tmap]. pose proof (f_other _ Hs NG NK) as Ef. cbn [data] in Ef. rewrite Ef. exists []. split; [|apply same_refl]. apply (p_use_hidden uu t' m anc' d _ (tmap f s)); try rewrite root_t; try rewrite data_t, Es; auto. now apply sub_t'.
      + intros I m' anc0 anc0' F -> Sa. pose proof (painted_moved (T d ch) I Pe) as K. cbn [tmap]. exists []. split; [|apply same_refl]. apply (p_use_hidden uu t' _ _ (f d) _ (tmap f s)); try rewrite root_t; try rewrite data_t, Es; try rewrite Tf; auto; [now apply (kid_disp _ K)|exact (eq_trans (kid_get _ AXlinkHref K eq_refl) E)|now apply sub_t'].
    - (* use without a target *) intros m anc d ch Td D E Hs. assert (NG : T d ch <> G) by (apply (not_G d ch EUse Td); discriminate). assert (Pe : painted_el d) by (right; right; right; now right).
      assert (Q : forall s', In s' (subs t') -> exists x, In x (subs t) /\ root_key s' = root_key x). { intros s' Hs'. unfold t', hoisted in Hs'. rewrite subs_tmap in Hs'. apply in_map_iff in Hs'. destruct Hs' as (x & <- & Hx). exists x. split; [exact Hx|apply root_t]. } split.
      + intros NK anc' Sa. cbn [tmap]. pose proof (f_other _ Hs NG NK) as Ef. cbn [data] in Ef. rewrite Ef. exists []. split; [|apply same_refl]. apply p_use_none; auto. intros s' Hs'. destruct (Q s' Hs') as (x & Hx & ->). now apply E.
      + intros I m' anc0 anc0' F -> Sa. pose proof (painted_moved (T d ch) I Pe) as K. cbn [tmap]. exists []. split; [|apply same_refl]. apply p_use_none; [now rewrite Tf|now apply (kid_disp _ K)|]. intros s' Hs'. destruct (Q s' Hs') as (x & Hx & ->). pose proof (kid_get _ AXlinkHref K eq_refl) as EH. cbn [data] in EH. rewrite EH. now apply E.
    - intros m anc _. split; [intros _ anc' _; exists []; split; [constructor|apply same_refl]|]. intros _ m' anc0 anc0' _ _ _. exists []. split; [constructor|apply same_refl].
    - intros m anc s ls p q _ IH1 Pq IH2 H. specialize (IH1 (H s (or_introl eq_refl))). specialize (IH2 (fun x Hx => H x (or_intror Hx))). split.
      + intros NK anc' Sa. destruct (proj1 IH1 (NK s (or_introl eq_refl)) anc' Sa) as (p' & P' & S'). destruct (proj1 IH2 (fun x Hx => NK x (or_intror Hx)) anc' Sa) as (q' & Q' & T'). exists (p' ++ q'). cbn [map]. split; [now constructor|now apply same_app].
      + intros AK m' anc0 anc0' F Ea Sa. destruct (proj2 IH1 (AK s (or_introl eq_refl)) m' anc0 anc0' F Ea Sa) as (p' & P' & S'). destruct (proj2 IH2 (fun x Hx => AK x (or_intror Hx)) m' anc0 anc0' F Ea Sa) as (q' & Q' & T'). exists (p' ++ q'). cbn [map]. split; [now constructor|now apply same_app].
    - intros m anc _ _ anc' _. exists []. split; [constructor|apply same_refl].
    - intros m anc s ls q Ne _ IH H NK anc' Sa. destruct (IH (fun x Hx => H x (or_intror Hx)) (fun x Hx => NK x (or_intror Hx)) anc' Sa) as (q' & Q' & T'). exists q'. split; [|exact T']. cbn [map]. apply ch_skip; [now rewrite data_t, element_f|exact Q'].
    - intros m anc s ls p q El _ IH1 _ IH2 H NK anc' Sa. destruct (proj1 (IH1 (H s (or_introl eq_refl))) (NK s (or_introl eq_refl)) anc' Sa) as (p' & P' & S'). destruct (IH2 (fun x Hx => H x (or_intror Hx)) (fun x Hx => NK x (or_intror Hx)) anc' Sa) as (q' & Q' & T'). cbn [map].
      exists (PAlt (given (data (tmap f s)) condition_attrs) p' :: q'). split; [apply ch_cons; [now rewrite data_t, element_f|exact P'|exact Q']|].
      assert (Eg : given (data (tmap f s)) condition_attrs = given (data s) condition_attrs). { rewrite data_t. destruct (G_dec s (H s (or_introl eq_refl))) as [->|Z]; [exact Cond|]. rewrite f_other; auto; [apply H; now left|apply NK; now left]. }
      rewrite Eg. change (same ([PAlt (given (data s) condition_attrs) p] ++ q) ([PAlt (given (data s) condition_attrs) p'] ++ q')). apply same_app; [now apply same_alt|exact T'].
  Qed.

  (** ** The whole document *)
  Definition h_chain (c : list ndata) : Prop := same_style c (map f c).
  Lemma h_places x : In x (subs t) -> (inner x -> moved x) -> forall a0, (x = G -> h_chain a0) -> (x <> G -> h_chain (data x :: a0)) ->
    forall a s, In (a, s) (places a0 x) -> s <> G -> resource (data s) -> h_chain (data s :: a).
  Proof.
    induction x as [d ch IH] using tree_ind'. intros Hx Mx a0 H1 H2 a s [H|H] NG Rs; [inversion H; subst; now apply H2|]. apply in_flat_map in H. destruct H as (c & Hc & H). rewrite Forall_forall in IH. pose proof (kids_in _ Hx c Hc) as Hc'.
    assert (Mc : inner c -> moved c). { intros I. destruct (moved_dec c I) as [M|M]; [exact M|]. exfalso. apply (Rest c I M (data s)); [|exact Rs]. apply data_of_sub. exact (place_sub _ _ _ _ H). }
    pose proof (G_dec _ Hx) as Dec.
    apply (IH c Hc Hc' Mc (d :: a0)) with (s := s); auto.
    - intros ->. destruct Dec as [E|E]; [|now apply H2]. exfalso. apply G_not_kid. unfold inner. rewrite <- E at 2. exact Hc.
    - intros Nc. destruct Dec as [E|E].
      + assert (K : moved c) by (apply Mc; unfold inner; now rewrite <- E). assert (Ed : d = data G) by now rewrite <- E. subst d. unfold h_chain. cbn [map]. apply (kid_style c a0 (map f a0) K). now apply H1.
      + unfold h_chain. cbn [map]. rewrite (f_other c Hc' Nc (kids_not _ Hx E c Hc)). apply same_style_cons. exact (H2 E).
  Qed.
  Hypothesis Rt : tag (data t) = TRoot.
  Lemma t_ne : t <> G. Proof. intros E. rewrite E in Rt. destruct TG; congruence. Qed.
  Lemma t_not_kid : ~ inner t.
  Proof.
    intros K. assert (B : In G (flat_map subs (kids t))) by (apply below_kids; [exact HG|intros E; now apply t_ne]). assert (X : In t (flat_map subs (kids t))). { apply in_flat_map in B. destruct B as (c & Hc & B). apply in_flat_map. exists c. split; [exact Hc|]. apply (subs_trans c G t B). apply in_kids_subs. apply in_flat_map. exists t. split; [exact K|apply subs_self]. }
    exact (self_not_below t N X).
  Qed.
  Lemma f_root : f (data t) = data t. Proof. apply f_other; [apply subs_self|apply t_ne|apply t_not_kid]. Qed.
  Lemma h_svg s : svg_element t = Some s -> svg_element t' = Some (tmap f s).
  Proof.
    unfold svg_element, t', hoisted. rewrite kids_t. generalize (kids t) as l. induction l as [|c l IH]; [discriminate|]. cbn [find map]. rewrite data_t. assert (E : is_tag ESvg (f (data c)) = is_tag ESvg (data c)) by (unfold is_tag; now rewrite Tf). rewrite E. destruct (is_tag ESvg (data c)); [intros X; now inversion X|exact IH].
  Qed.
  Lemma hoist_drawing : same_drawing uu t t'.
  Proof.
    destruct h_sim as (S1 & S2 & _). split.
    - intros p (s & E & P). assert (Hs : In s (kids t)) by (unfold svg_element in E; apply find_some in E; tauto).
      assert (Hs' : In s (subs t)) by (apply (kid_sub t s t); [apply subs_self|exact Hs]). assert (NK : ~ inner s) by exact (kids_not t (subs_self t) t_ne s Hs).
      destruct (proj1 (S1 _ _ _ _ P Hs') NK [data t] (same_style_refl _)) as (p' & P' & Sp). exists p'. split; [|exact Sp]. exists (tmap f s). split; [now apply h_svg|]. unfold t', hoisted in *. rewrite data_t, f_root. exact P'.
    - intros d p Hd Rd (anc & s & P & K & Q). pose proof (place_sub _ _ _ _ P) as Hs. assert (Ed : data s = d) by (apply (data_unique t); auto; now apply data_of_sub).
      assert (NG : s <> G). { intros ->. destruct Rd as (e & Te & He). rewrite <- Ed in Te. destruct TG as [Q0|Q0]; rewrite Q0 in Te; inversion Te; subst; cbn in He; intuition discriminate. }
      assert (NK : ~ inner s). { intros Ks. destruct (moved_dec s Ks) as [M|M]; [apply (NoRes s M); now rewrite Ed|]. apply (Rest s Ks M d); [rewrite <- Ed; apply flat_self|exact Rd]. }
      pose proof (f_other s Hs NG NK) as Es. split.
      + unfold t', hoisted. rewrite flat_tmap. apply in_map_iff. exists d. rewrite <- Ed. split; [exact Es|now apply data_of_sub].
      + destruct (proj1 (S2 _ _ _ _ Q (kids_in s Hs)) (kids_not s Hs NG) (f (data s) :: map f anc)) as (p' & P' & Sp).
        { change (f (data s) :: map f anc) with (map f (data s :: anc)). apply (h_places t (subs_self t)) with (a0 := []) (s := s); auto; [intros X; destruct (t_not_kid X)|intros _ a _; reflexivity| |now rewrite Ed]. intros _. unfold h_chain. cbn [map]. rewrite f_root. apply same_style_refl. }
        exists p'. split; [|exact Sp]. exists (map f anc), (tmap f s). split; [exact (places_tmap f t Kf [] anc s P)|]. rewrite root_t, data_t, kids_t. auto.
  Qed.
End Hoist.
