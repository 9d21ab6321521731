(** remove_prefix_with and retain_prefix_with, with effectful predicates. *)
From Verif Require Export RadixEffComb.

Section EffPrefix.
  Context {K : Type} {kcmp : K -> K -> comparison} (L : OrdLaws kcmp) (EQ : OrdEq kcmp) {E : Type}.
  Notation lex := (lex kcmp).
  Notation wf := (wf kcmp).
  Notation wfc := (wfc (kcmp := kcmp)).
  Notation hord := (hord (kcmp := kcmp)).
  Notation flat := (flat_map listing).
  Notation extends := (extends kcmp).
  Notation under_some := (under_some kcmp).
  Notation keys l := (map fst l).

  Lemma extends_iff p k : extends p k = true <-> exists r, k = p ++ r.
  Proof.
    unfold RadixEffSpec.extends. destruct (strip kcmp p k) as [r|] eqn:Q.
    - apply (strip_iff EQ) in Q. split; eauto.
    - split; [discriminate|]. intros [r ->]. now rewrite (strip_app EQ) in Q.
  Qed.
  Lemma extends_false p k : extends p k = false <-> forall r, k <> p ++ r.
  Proof.
    rewrite <- not_true_iff_false, extends_iff. split; [intros H r ->; apply H; eauto|intros H [r ->]; now apply (H r)].
  Qed.
  Lemma extends_pre p q k : extends (p ++ q) (p ++ k) = extends q k.
  Proof. unfold RadixEffSpec.extends. now rewrite strip_app_l, (strip_app EQ). Qed.

  (** no key of [b] is a prefix of a key of [a] *)
  Definition apart {X Y} (a : list (list K * X)) (b : list (list K * Y)) : Prop :=
    forall x y, In x a -> In y b -> extends (fst y) (fst x) = false.

  Section Asks.
    Context {V W : Type} (f : clos E W bool).
    Notation asks := (asks (V := V) kcmp f).
    Definition athen (r : list (list K) * E * option (list K)) (k : E -> list (list K) * E * option (list K)) :=
      match r with
      | (h, e, None) => let '(h', e', p) := k e in (h ++ h', e', p)
      | r => r
      end.
    Definition hitp (a : list (list K * V)) (k : list K) : bool := existsb (fun x => extends k (fst x)) a.
    Lemma asks_cons a k w b e : asks a ((k, w) :: b) e =
      if hitp a k then
        let (e', r) := f e w in
        match r with
        | Throw => ([], e', Some k)
        | Ret true => let '(h, e'', p) := asks (filter (fun x => negb (extends k (fst x))) a) b e' in (k :: h, e'', p)
        | Ret false => asks a b e'
        end
      else asks a b e.
    Proof. reflexivity. Qed.
    Lemma hitp_false a k : (forall x, In x a -> extends k (fst x) = false) -> hitp a k = false.
    Proof. intros H. unfold hitp. apply not_true_iff_false. rewrite existsb_exists. intros (x & Hx & Q). rewrite H in Q; auto. discriminate. Qed.
    Lemma asks_nil b e : asks [] b e = ([], e, None).
    Proof. revert e. induction b as [|[k w] b IH]; intros e; auto. rewrite asks_cons. cbn. apply IH. Qed.
    Lemma filter_apart k (a : list (list K * V)) : (forall x, In x a -> extends k (fst x) = false) ->
      filter (fun x => negb (extends k (fst x))) a = a.
    Proof. intros H. apply filter_all. intros x Hx. now rewrite H. Qed.

    Lemma asks_app a1 a2 b1 b2 e : apart a2 b1 -> apart a1 b2 ->
      asks (a1 ++ a2) (b1 ++ b2) e = athen (asks a1 b1 e) (asks a2 b2).
    Proof.
      revert a1 e. induction b1 as [|[k w] b1 IH]; intros a1 e H1 H2; cbn [app].
      - cbn [RadixEffSpec.asks athen]. clear H1. revert a2 e. induction b2 as [|[k w] b2 IH]; intros a2 e; [reflexivity|].
        rewrite !asks_cons. assert (Q : hitp a1 k = false) by (apply hitp_false; intros x Hx; now apply (H2 x (k, w)); simpl; auto).
        unfold hitp in *. rewrite existsb_app, Q. cbn [orb].
        assert (H2' : apart a1 b2) by (intros x y Hx Hy; apply H2; simpl; auto). specialize (IH H2').
        destruct (existsb _ a2); [|apply IH]. destruct (f e w) as [e' [[|]|]]; [|apply IH|reflexivity].
        rewrite filter_app, (filter_apart k a1) by (intros x Hx; now apply (H2 x (k, w)); simpl; auto). rewrite IH.
        destruct (asks _ b2 e') as [[h' e''] p]. reflexivity.
      - rewrite !asks_cons. assert (Q : hitp a2 k = false) by (apply hitp_false; intros x Hx; now apply (H1 x (k, w)); simpl; auto).
        unfold hitp in *. rewrite existsb_app, Q, orb_false_r.
        assert (H1' : apart a2 b1) by (intros x y Hx Hy; apply H1; simpl; auto).
        destruct (existsb _ a1); [|auto]. destruct (f e w) as [e' [[|]|]]; [|auto|reflexivity].
        rewrite filter_app, (filter_apart k a2) by (intros x Hx; now apply (H1 x (k, w)); simpl; auto).
        rewrite IH; auto; [|intros x y Hx; apply filter_In in Hx as [Hx _]; auto].
        destruct (asks _ b1 e') as [[h' e''] [p|]]; cbn [athen]; auto. destruct (asks a2 b2 e'') as [[h2 e2] p2]. reflexivity.
    Qed.

    Definition amap (p : list K) (r : list (list K) * E * option (list K)) : list (list K) * E * option (list K) :=
      let '(h, e, o) := r in (map (app p) h, e, option_map (app p) o).
    Lemma asks_under p a b e : asks (map (under p) a) (map (under p) b) e = amap p (asks a b e).
    Proof.
      revert a e. induction b as [|[k w] b IH]; intros a e; [reflexivity|]. cbn [map]. change (under p (k, w)) with (p ++ k, w).
      rewrite !asks_cons.
      assert (Q : hitp (map (under p) a) (p ++ k) = hitp a k).
      { unfold hitp. induction a as [|x a IHa]; auto. cbn [map existsb]. rewrite IHa. f_equal. cbn. apply extends_pre. }
      assert (Q2 : filter (fun x => negb (extends (p ++ k) (fst x))) (map (under p) a) =
                   map (under p) (filter (fun x => negb (extends k (fst x))) a)).
      { clear Q. induction a as [|x a IHa]; auto. cbn [map filter]. cbn [under fst]. rewrite extends_pre.
        destruct (extends k (fst x)); cbn [negb map]; now rewrite IHa. }
      rewrite Q. destruct (hitp a k); [|apply IH]. destruct (f e w) as [e' [[|]|]]; [|apply IH|reflexivity].
      rewrite Q2, IH. destruct (asks _ b e') as [[h e''] o]. reflexivity.
    Qed.

    (** hits and the panic are keys of [b] that are prefixes of keys of [a] *)
    Lemma asks_keys a b e h e' o : asks a b e = (h, e', o) ->
      (forall k, In k h \/ o = Some k -> In k (keys b) /\ exists x, In x a /\ extends k (fst x) = true).
    Proof.
      revert a e h. induction b as [|[k w] b IH]; intros a e h; [intros [= <- <- <-] k0 [[]|[=]]|].
      rewrite asks_cons. intros H k0 Hk0.
      assert (IH' : forall a1 e1 h1, incl a1 a -> asks a1 b e1 = (h1, e', o) -> In k0 h1 \/ o = Some k0 ->
        In k0 (keys ((k, w) :: b)) /\ exists x, In x a /\ extends k0 (fst x) = true).
      { intros a1 e1 h1 Hi Hs Hk. destruct (IH a1 e1 h1 Hs k0 Hk) as (I1 & x & I2 & I3). split; [now right|]. exists x. auto. }
      destruct (hitp a k) eqn:Q; [|eapply IH'; eauto using incl_refl].
      apply existsb_exists in Q. destruct (f e w) as [e1 [[|]|]].
      - destruct (asks _ b e1) as [[h1 e2] p] eqn:Q1. injection H as <- <- <-.
        destruct Hk0 as [[<-|Hk0]|Hk0]; [split; [now left|auto]| |]; (eapply IH'; [|exact Q1|auto]); intros x Hx; now apply filter_In in Hx.
      - eapply IH'; eauto using incl_refl.
      - injection H as <- <- <-. destruct Hk0 as [[]|[= <-]]. split; [now left|auto].
    Qed.
  End Asks.

  Lemma covered_app h1 h2 k : under_some (h1 ++ h2) k = under_some h1 k || under_some h2 k.
  Proof. apply existsb_app. Qed.
  Lemma covered_none h k : (forall p, In p h -> extends p k = false) -> under_some h k = false.
  Proof. intros H. apply not_true_iff_false. unfold RadixEffSpec.under_some. rewrite existsb_exists. intros (p & Hp & Q). rewrite H in Q; auto. discriminate. Qed.
  Lemma filter_ext' {X} (g1 g2 : X -> bool) l : (forall x, In x l -> g1 x = g2 x) -> filter g1 l = filter g2 l.
  Proof. induction l as [|x l IH]; intros H; auto. cbn. rewrite H by (now left). rewrite IH; auto. intros; apply H; now right. Qed.

  Lemma heads_apart {X Y} (a : list (rtree K X)) (b : list (rtree K Y)) :
    (forall x, In x a -> t_prefix x <> []) -> (forall y, In y b -> t_prefix y <> []) ->
    (forall x y, In x a -> In y b -> hd_of x <> hd_of y) -> apart (flat a) (flat b).
  Proof.
    intros Ha Hb H [k v] [k' v'] Hx Hy. apply in_flat_map in Hx as (x & Ix & Hx). apply in_flat_map in Hy as (y & Iy & Hy).
    specialize (H x y Ix Iy). destruct (ne_hd x (Ha x Ix)) as [h Qh]. destruct (ne_hd y (Hb y Iy)) as [h' Qh'].
    apply (listing_head _ _ _ _ Qh) in Hx as [r ->]. apply (listing_head _ _ _ _ Qh') in Hy as [r' ->].
    cbn [fst]. apply extends_false. intros u Q. cbn in Q. injection Q as Q _. congruence.
  Qed.

  Section Children.
    Context {V W : Type} (rm : bool) (f : clos E W bool).
    Context (strat : nat -> nat -> bool) (rec : rtree K V -> rtree K W -> E -> done (rtree K V * E)) (qb : bool).
    Notation A := (rtree K V).
    Notation B := (rtree K W).
    Notation asks := (asks (V := V) kcmp f).
    Notation sel := (selected (V := V) kcmp rm).

    Definition prspec (x : A) (y : B) (e : E) : Prop :=
      match asks (listing x) (listing y) e with
      | (h, e', None) => exists t, rec x y e = Done (t, e') /\ wf true t /\ (t_is_empty t = false -> hd_of t = hd_of x) /\
                                   listing t = filter (sel h) (listing x)
      | (_, e', Some _) => exists t, rec x y e = Unwound (t, e')
      end.

    Context (ca : list A) (cb : list B).
    Hypothesis Wa : wfc true ca.
    Hypothesis Wb : wfc qb cb.
    Hypothesis Hrec : forall x y e, In x ca -> In y cb -> hd_of x = hd_of y -> prspec x y e.
    Notation conv := (@NoConverter B A).
    Notation OE := (eop_with kcmp rec rm false conv).

    Definition lt_of (c : comparison) : bool := match c with Lt => true | _ => false end.
    Definition kept_at (h : list (list K)) (k : list K) (c : K) (x : list K * V) : bool :=
      sel h x && lt_of (lex (fst x) k) && negb (extends [c] (fst x)).

    Definition pcspec (a : list A) (b : list B) (tgt : list A) (e : E) (r : out (iprstate A B * E)) : Prop :=
      match asks (flat a) (flat b) e with
      | (h, e', None) => exists l d, r = Cont (MkIpr (MkB (tgt ++ l) [] d) [], e') /\ wfc true l /\
                         flat l = filter (sel h) (flat a) /\ incl (map hd_of l) (map hd_of a)
      | (h, e', Some k) => exists l s' c s, r = Panic (s', e') /\ bd_tgt (ipr_a s') = tgt ++ l /\ wfc true l /\
                         incl (map hd_of l) (map hd_of a) /\ k = c :: s /\ flat l = filter (kept_at h k c) (flat a)
      end.

    Lemma flat_key (a : list A) z : (forall x, In x a -> t_prefix x <> []) -> In z (flat a) ->
      exists x h r, In x a /\ hd_of x = Some h /\ fst z = h :: r.
    Proof.
      intros Ha Hz. destruct z as [k v]. apply in_flat_map in Hz as (x & Ix & Hz). destruct (ne_hd x (Ha x Ix)) as [h Qh].
      destruct (listing_head _ _ _ _ Qh Hz) as [r Qr]. exists x, h, r. auto.
    Qed.

    Lemma pcspec_emit a1 b1 a b tgt e0 e r l1 h1 :
      wfc true (a1 ++ a) -> wfc qb (b1 ++ b) -> wfc true l1 -> incl (map hd_of l1) (map hd_of a1) ->
      (forall x y, In x a -> In y b1 -> hd_of x <> hd_of y) -> (forall x y, In x a1 -> In y b -> hd_of x <> hd_of y) ->
      asks (flat a1) (flat b1) e0 = (h1, e, None) -> flat l1 = filter (sel h1) (flat a1) ->
      pcspec a b (tgt ++ l1) e r -> pcspec (a1 ++ a) (b1 ++ b) tgt e0 r.
    Proof.
      intros Wa0 Wb0 W1 I1 N1 N2 As F1. pose proof (wfc_part _ _ _ Wa0) as (Wa1 & Wa2 & Wa3).
      pose proof (wfc_part _ _ _ Wb0) as (Wb1 & Wb2 & _).
      assert (Pa1 : forall x, In x a1 -> t_prefix x <> []) by (intros x Hx; apply (wfc_In _ _ _ Wa1 Hx)).
      assert (Pa : forall x, In x a -> t_prefix x <> []) by (intros x Hx; apply (wfc_In _ _ _ Wa2 Hx)).
      assert (Pb1 : forall x, In x b1 -> t_prefix x <> []) by (intros x Hx; apply (wfc_In _ _ _ Wb1 Hx)).
      assert (Pb : forall x, In x b -> t_prefix x <> []) by (intros x Hx; apply (wfc_In _ _ _ Wb2 Hx)).
      unfold pcspec. rewrite !flat_map_app, asks_app, As by (apply heads_apart; auto). cbn [athen].
      pose proof (asks_keys f _ _ _ _ _ _ As) as K1.
      destruct (asks (flat a) (flat b) e) as [[h e'] o] eqn:Q. pose proof (asks_keys f _ _ _ _ _ _ Q) as K2.
      assert (S1 : forall z, In z (flat a1) -> sel (h1 ++ h) z = sel h1 z).
      { intros z Hz. unfold selected. rewrite covered_app, (covered_none h), orb_false_r; auto. intros p Hp.
        destruct (K2 p (or_introl Hp)) as [Hk _]. apply in_map_iff in Hk as (y & <- & Hy).
        apply (heads_apart a1 b Pa1 Pb N2); auto. }
      assert (S2 : forall z, In z (flat a) -> sel (h1 ++ h) z = sel h z).
      { intros z Hz. unfold selected. rewrite covered_app, (covered_none h1); auto. intros p Hp.
        destruct (K1 p (or_introl Hp)) as [Hk _]. apply in_map_iff in Hk as (y & <- & Hy).
        apply (heads_apart a b1 Pa Pb1 N1); auto. }
      assert (HW : forall l, wfc true l -> incl (map hd_of l) (map hd_of a) -> wfc true (l1 ++ l)).
      { intros l Wl Il. apply wfc_app; auto. intros x y Hx Hy.
        apply (in_map hd_of), I1 in Hx. apply (in_map hd_of), Il in Hy.
        apply in_map_iff in Hx as (x' & <- & Hx). apply in_map_iff in Hy as (y' & <- & Hy). auto. }
      assert (HI : forall l, incl (map hd_of l) (map hd_of a) -> incl (map hd_of (l1 ++ l)) (map hd_of (a1 ++ a))).
      { intros l Il. rewrite !map_app. apply incl_app; [apply incl_appl|apply incl_appr]; auto. }
      destruct o as [k|].
      - intros (l & s' & c & s & -> & H1 & H2 & H3 & -> & H5). exists (l1 ++ l), s', c, s. rewrite app_assoc.
        split; [auto|]. split; [auto|]. split; [auto|]. split; [auto|]. split; [auto|].
        rewrite flat_map_app, filter_app, F1, H5. f_equal.
        + apply filter_ext'. intros z Hz. unfold kept_at. rewrite (S1 z Hz).
          destruct (flat_key a1 z Pa1 Hz) as (x & hx & rx & Ix & Qx & Qz).
          destruct (K2 _ (or_intror eq_refl)) as [_ (u & Hu & Xu)].
          destruct (flat_key a u Pa Hu) as (y & hy & ry & Iy & Qy & Qu).
          apply extends_iff in Xu as [ru Xu]. rewrite Qu in Xu. cbn in Xu. injection Xu as -> _.
          pose proof (Wa3 x y Ix Iy) as C. rewrite Qx, Qy in C. cbn in C. rewrite Qz. cbn [RadixSpec.lex].
          rewrite C. cbn [lt_of]. rewrite andb_true_r.
          assert (X : extends [c] (hx :: rx) = false).
          { apply extends_false. intros r0 Q0. cbn in Q0. injection Q0 as -> _. rewrite (kcmp_refl EQ) in C. discriminate. }
          rewrite X. cbn. now rewrite andb_true_r.
        + apply filter_ext'. intros z Hz. unfold kept_at. now rewrite (S2 z Hz).
      - intros (l & d & -> & H1 & H2 & H3). exists (l1 ++ l), d. rewrite app_assoc. split; [auto|]. split; [auto|]. split; [|auto].
        rewrite flat_map_app, filter_app, F1, H2. f_equal; apply filter_ext'; intros z Hz; symmetry; auto.
    Qed.

    Lemma asks_b_nil a e : asks a [] e = ([], e, None).
    Proof. reflexivity. Qed.
    Lemma sel_nil (l : list (list K * V)) : filter (sel []) l = if rm then l else [].
    Proof. unfold selected. destruct rm; induction l as [|x l IH]; auto. cbn in *. now rewrite IH. Qed.

    Lemma run_pcspec a b evs : ok_sched (kcmp := hord) hd_of hd_of a b evs -> incl a ca -> incl b cb -> wfc true a -> wfc qb b ->
      forall tgt drop e, pcspec a b tgt e (run OE evs (MkIpr (MkB tgt a drop) b, e)).
    Proof.
      induction 1 as [|a1 a2 b evs Hne Hlt H IH|a b1 b2 evs Hne Hgt H IH|x a y b evs Hxy H IH]; intros Ia Ib Sa Sb tgt drop e.
      - unfold pcspec. cbn. exists [], drop. rewrite app_nil_r. split; [auto|]. split; [apply wfc_nil|]. split; [auto|intros ? []].
      - pose proof (wfc_part _ _ _ Sa) as (Sa1 & Sa2 & Sa3).
        cbn [run step]. cbn [eop_with mo_from_a adv_a ipr_msm fst snd]. unfold ipr_adv_a. cbn [quietly obind].
        unfold bd_consume. cbn [ipr_a bd_src bd_tgt bd_drop ipr_b]. rewrite firstn_app_exact, skipn_app_exact.
        set (l1 := if rm then a1 else []).
        set (d1 := if rm then drop else drop ++ a1).
        replace (if rm then MkB (tgt ++ a1) a2 drop else MkB tgt a2 (drop ++ a1)) with (MkB (tgt ++ l1) a2 d1)
          by (unfold l1, d1; destruct rm; now rewrite ?app_nil_r).
        change b with ([] ++ b) at 1. eapply (pcspec_emit a1 [] a2 b) with (l1 := l1) (h1 := []); auto.
        + unfold l1. destruct rm; auto using wfc_nil.
        + unfold l1. destruct rm; [apply incl_refl|intros ? []].
        + intros x y Hx Hy Q. specialize (Hlt x y Hx Hy). rewrite Q in Hlt. rewrite (proj2 (hord_eq EQ _ _) eq_refl) in Hlt. discriminate.
        + reflexivity.
        + rewrite sel_nil. unfold l1. now destruct rm.
        + apply IH; auto. intros z Hz. apply Ia, in_or_app. auto.
      - cbn [run step]. cbn [eop_with mo_from_b adv_b ipr_msm fst snd]. unfold ipr_adv_b. cbn [ipr_a ipr_b].
        rewrite skipn_app_exact. cbn [quietly obind].
        pose proof (wfc_part _ _ _ Sb) as (Sb1 & Sb2 & Sb3).
        change a with ([] ++ a) at 1. eapply (pcspec_emit [] b1 a b2) with (l1 := []) (h1 := []); auto.
        + apply wfc_nil.
        + intros ? [].
        + intros x y Hx Hy Q. specialize (Hgt x y Hx Hy). rewrite Q in Hgt. rewrite (proj2 (hord_eq EQ _ _) eq_refl) in Hgt. discriminate.
        + apply asks_nil.
        + rewrite app_nil_r. apply IH; auto. intros z Hz. apply Ib, in_or_app. auto.
      - apply (hord_eq EQ) in Hxy. assert (Ix : In x ca) by (apply Ia; now left). assert (Iy : In y cb) by (apply Ib; now left).
        cbn [run step]. change (eop_with kcmp rec rm false conv) with OE.
        rewrite (oe_coll rm rec false conv (MkIpr (MkB tgt (x :: a) drop) (y :: b)) e x a y b) by reflexivity. cbn [ipr_a bd_tgt bd_drop].
        change (x :: a) with ([x] ++ a) in *. change (y :: b) with ([y] ++ b) in *.
        pose proof (wfc_part _ _ _ Sa) as (Sx & Sa2 & Hxa). pose proof (wfc_part _ _ _ Sb) as (Sy & Sb2 & Hyb).
        assert (Px : t_prefix x <> []) by (apply (wfc_In _ _ _ Wa Ix)).
        pose proof (Hrec x y e Ix Iy Hxy) as R. unfold prspec in R.
        assert (N1 : forall z w, In z a -> In w [y] -> hd_of z <> hd_of w).
        { intros z w Hz [<-|[]] Q. specialize (Hxa x z (or_introl eq_refl) Hz). rewrite Q, <- Hxy in Hxa.
          rewrite (proj2 (hord_eq EQ _ _) eq_refl) in Hxa. discriminate. }
        assert (N2 : forall z w, In z [x] -> In w b -> hd_of z <> hd_of w).
        { intros z w [<-|[]] Hw Q. specialize (Hyb y w (or_introl eq_refl) Hw). rewrite <- Q, Hxy in Hyb.
          rewrite (proj2 (hord_eq EQ _ _) eq_refl) in Hyb. discriminate. }
        destruct (asks (listing x) (listing y) e) as [[h e1] [k|]] eqn:Q.
        + destruct R as [t ->]. cbn [obind]. unfold pcspec. rewrite !flat_map_app, asks_app.
          2,3: apply heads_apart; auto; intros z Hz; first [apply (wfc_In _ _ _ Sa2 Hz)|apply (wfc_In _ _ _ Sb2 Hz)|apply (wfc_In _ _ _ Sx Hz)|apply (wfc_In _ _ _ Sy Hz)].
          cbn [flat_map]. rewrite !app_nil_r, Q. cbn [athen].
          destruct (asks_keys f _ _ _ _ _ _ Q k (or_intror eq_refl)) as [_ ([u vu] & Hu & Xu)].
          destruct (ne_hd x Px) as [hx Qx]. destruct (listing_head _ _ _ _ Qx Hu) as [r0 ->].
          assert (Hk : exists s, k = hx :: s).
          { destruct (asks_keys f _ _ _ _ _ _ Q k (or_intror eq_refl)) as [Hk _]. apply in_map_iff in Hk as ([k' w'] & Qk & Hk). cbn in Qk. subst k'.
            rewrite Qx in Hxy. symmetry in Hxy. apply (listing_head _ _ _ _ Hxy) in Hk. auto. }
          destruct Hk as [s ->].
          eexists [], _, hx, s. split; [reflexivity|]. split; [cbn; now rewrite app_nil_r|]. split; [apply wfc_nil|]. split; [intros ? []|]. split; [auto|].
          symmetry. cbn [flat_map]. apply filter_none. intros z Hz. unfold kept_at. apply in_app_or in Hz as [Hz|Hz].
          * destruct z as [kz vz]. destruct (listing_head _ _ _ _ Qx Hz) as [rz ->]. cbn [fst].
            assert (X : extends [hx] (hx :: rz) = true) by (apply extends_iff; exists rz; auto). rewrite X. cbn. now rewrite andb_false_r.
          * destruct (flat_key a z ltac:(intros w Hw; apply (wfc_In _ _ _ Sa2 Hw)) Hz) as (w & hw & rw & Iw & Qw & Qz).
            rewrite Qz. cbn [RadixSpec.lex]. specialize (Hxa x w (or_introl eq_refl) Iw). rewrite Qx, Qw in Hxa. cbn in Hxa.
            rewrite (ord_opp L), Hxa. cbn. now rewrite andb_false_r.
        + destruct R as (t & -> & Wt & Ht & Et). cbn [obind].
          set (l1 := if t_is_empty t then [] else [t]).
          assert (F1 : flat l1 = listing t).
          { unfold l1. destruct (t_is_empty t) eqn:Qe; cbn; [now rewrite listing_empty|now rewrite app_nil_r]. }
          eapply (pcspec_emit [x] [y] a b) with (l1 := l1) (h1 := h); auto.
          * unfold l1. destruct (t_is_empty t) eqn:Qe; [apply wfc_nil|]. apply wfc_single; auto. specialize (Ht eq_refl).
            intros Qp. unfold hd_of in Ht. rewrite Qp in Ht. destruct (t_prefix x); [congruence|discriminate].
          * unfold l1. destruct (t_is_empty t) eqn:Qe; [intros ? []|]. cbn. rewrite Ht by auto. apply incl_refl.
          * cbn [flat_map]. rewrite !app_nil_r. exact Q.
          * cbn [flat_map]. rewrite F1, app_nil_r. exact Et.
          * apply IH; auto; intros z Hz; [apply Ia|apply Ib]; now right.
    Qed.

    Definition pcres (e : E) (r : done (list A * E)) : Prop :=
      match asks (flat ca) (flat cb) e with
      | (h, e', None) => exists l, r = Done (l, e') /\ wfc true l /\ flat l = filter (sel h) (flat ca)
      | (h, e', Some k) => exists l c s, r = Unwound (l, e') /\ wfc true l /\ k = c :: s /\ flat l = filter (kept_at h k c) (flat ca)
      end.
    Lemma pchildren_ok e : pcres e (echildren_with kcmp strat rec rm false conv ca cb e).
    Proof.
      destruct (merge_sched (hord_laws L) hd_of hd_of OE (oe_advancing rm (fun _ => @None V) rec false conv true [] (fun y (H : In y []) => match H with end)) strat (ipr_new ca cb, e)) as (evs & Ok & R).
      - exact (wfc_ksorted _ _ Wa).
      - exact (wfc_ksorted _ _ Wb).
      - intros x y Hx Hy. apply head_cmp_hord; [apply (wfc_In _ _ _ Wa Hx)|apply (wfc_In _ _ _ Wb Hy)].
      - unfold echildren_with. rewrite R. cbn [eop_with mo_a mo_b fst ipr_new ipr_a ipr_b bd_new bd_src] in Ok.
        pose proof (run_pcspec ca cb evs Ok (incl_refl _) (incl_refl _) Wa Wb [] [] e) as C. unfold pcspec in C. unfold pcres.
        change (ipr_new ca cb, e) with (MkIpr (MkB [] ca []) cb, e).
        destruct (asks (flat ca) (flat cb) e) as [[h e'] [k|]].
        + destruct C as (l & s' & c & s & -> & H1 & H2 & _ & -> & H5). cbn [to_done fst snd]. rewrite H1. exists l, c, s. auto.
        + destruct C as (l & d & -> & H1 & H2 & _). cbn. eauto.
    Qed.
  End Children.

  (** ** one node *)
  Lemma canon_listing {V} n : forall t : rtree K V, t_size t < n -> wf true t -> t_is_empty t = false -> listing t <> [].
  Proof.
    induction n as [|n IH]; intros [p v cs] Hs Wt He; [lia|]. rewrite listing_node. destruct v as [v|]; [discriminate|].
    destruct cs as [|c cs]; [discriminate|]. cbn [own app flat_map].
    destruct (wfc_In _ _ c (wf_wfc _ _ Wt) (or_introl eq_refl)) as (_ & Wc & Nc).
    assert (H : listing c <> []).
    { apply IH; auto. pose proof (size_children (Node p None (c :: cs)) c (or_introl eq_refl)). lia. }
    destruct (listing c); [congruence|discriminate].
  Qed.

  Section Node.
    Context {V W : Type} (rm : bool) (f : clos E W bool).
    Notation A := (rtree K V).
    Notation B := (rtree K W).
    Notation asks := (asks (V := V) kcmp f).
    Notation sel := (selected (V := V) kcmp rm).

    Definition pres (self : A) (that : B) (R : list (list K) * E * option (list K)) (r : done (A * E)) : Prop :=
      match R with
      | (h, e', None) => exists t, r = Done (t, e') /\ wf true t /\ listing t = filter (sel h) (listing self) /\
          forall c, hd_of self = Some c -> hd_of that = Some c -> t_is_empty t = false -> hd_of t = Some c
      | (h, e', Some k) => exists t, r = Unwound (t, e') /\ wfc true (t_children t) /\
          remains_prefix kcmp rm (lcp kcmp (t_prefix self) (t_prefix that)) self h k t
      end.
    Definition ptspec (self : A) (that : B) (e : E) (r : done (A * E)) : Prop :=
      pres self that (asks (listing self) (listing that) e) r.

    Lemma asks_node p v ca w cb e : listing (Node p v ca) <> [] -> wfc true ca -> (forall y, In y cb -> t_prefix y <> []) ->
      asks (listing (Node p v ca)) (listing (Node p w cb)) e =
      match w with
      | Some w => let (e', r) := f e w in
                  match r with
                  | Throw => ([], e', Some p)
                  | Ret true => ([p], e', None)
                  | Ret false => amap p (asks (flat ca) (flat cb) e')
                  end
      | None => amap p (asks (flat ca) (flat cb) e)
      end.
    Proof.
      intros Hn Ca Cb. rewrite listing_node in *. rewrite listing_node, (asks_under f).
      assert (Q : forall e, asks (own v ++ flat ca) (flat cb) e = asks (flat ca) (flat cb) e).
      { intros e0. change (flat cb) with ([] ++ flat cb) at 1. rewrite (asks_app f).
        - cbn [RadixEffSpec.asks athen]. now destruct (asks (flat ca) (flat cb) e0) as [[h e1] o].
        - intros x y Hx [].
        - intros x y Hx Hy. destruct v; [|destruct Hx]. destruct Hx as [<-|[]]. apply in_flat_map in Hy as (z & Iz & Hy).
          destruct (ne_hd z (Cb z Iz)) as [c Qc]. destruct y as [ky wy]. destruct (listing_head _ _ _ _ Qc Hy) as [r ->]. reflexivity. }
      destruct w as [w|]; [|cbn [own app]; now rewrite Q]. cbn [own app]. rewrite asks_cons.
      set (a := own v ++ flat ca) in *.
      assert (Ha : a <> []) by (intros Qa; rewrite Qa in Hn; now apply Hn).
      assert (X : forall k, extends [] k = true) by (intros k; apply extends_iff; now exists k).
      assert (Hh : hitp a [] = true) by (unfold hitp; destruct a as [|z a']; [congruence|]; cbn [existsb]; now rewrite X). rewrite Hh.
      destruct (f e w) as [e' [[|]|]].
      - rewrite filter_none by (intros x _; now rewrite X). rewrite asks_nil. cbn. now rewrite app_nil_r.
      - now rewrite Q.
      - cbn. now rewrite app_nil_r.
    Qed.

    Lemma sel_under p h (l : list (list K * V)) : filter (sel (map (app p) h)) (map (under p) l) = map (under p) (filter (sel h) l).
    Proof.
      assert (Q : forall x, sel (map (app p) h) (under p x) = sel h x).
      { intros x. unfold selected. f_equal. unfold RadixEffSpec.under_some. cbn [under fst]. clear - EQ. induction h as [|q h IH]; auto. cbn [map existsb].
        now rewrite extends_pre, IH. }
      induction l as [|x l IH]; auto. cbn [map filter]. rewrite Q. destruct (sel h x); cbn [map]; now rewrite IH.
    Qed.
    Lemma lex_pre p a b : lex (p ++ a) (p ++ b) = lex a b.
    Proof. induction p as [|x p IH]; auto. cbn. now rewrite (kcmp_refl EQ). Qed.

    (** the children are merged *)
    Lemma pnode_ok (self : A) (that : B) p v (ca : list A) (cb : list B) e r :
      listing self = listing (Node p v ca) -> lcp kcmp (t_prefix self) (t_prefix that) = p ->
      (forall c, hd_of self = Some c -> hd_of that = Some c -> hd_error p = Some c) ->
      wfc true ca -> (forall y, In y cb -> t_prefix y <> []) -> pcres rm f ca cb e r ->
      pres self that (amap p (asks (flat ca) (flat cb) e)) (efinish p (if rm then v else None) r).
    Proof.
      intros HS Hp Hh Ca Cb HM. unfold pcres in HM. unfold pres. rewrite HS, Hp.
      destruct (asks (flat ca) (flat cb) e) as [[h e'] o] eqn:Qa. pose proof (asks_keys f _ _ _ _ _ _ Qa) as Kh.
      assert (Hnil : forall q, In q h -> extends q [] = false).
      { intros q Hq. destruct (Kh q (or_introl Hq)) as [Hk _]. apply in_map_iff in Hk as ([k w] & <- & Hk).
        apply in_flat_map in Hk as (y & Iy & Hk). destruct (ne_hd y (Cb y Iy)) as [c Qc]. destruct (listing_head _ _ _ _ Qc Hk) as [r0 ->]. reflexivity. }
      assert (Ho : filter (sel h) (own v) = own (if rm then v else None)).
      { destruct v as [v|]; [|now destruct rm]. cbn [own filter]. unfold selected. cbn [fst]. rewrite covered_none by auto. now destruct rm. }
      destruct o as [k|]; cbn [amap option_map].
      - destruct HM as (l & c & s & -> & Wl & -> & Fl). cbn [efinish].
        exists (Node p (if rm then v else None) l). split; [auto|]. split.
        + exact Wl.
        + right. exists c, s. split; [auto|]. rewrite HS, !listing_node, Fl.
          assert (Q : forall l0 : list (list K * V), filter (fun x => sel (map (app p) h) x && (match lex (fst x) (p ++ c :: s) with Lt => true | _ => false end)
                                    && negb (extends (p ++ [c]) (fst x))) (map (under p) l0) = map (under p) (filter (kept_at rm h (c :: s) c) l0)).
          { intros l0. transitivity (filter (fun x => match strip kcmp p (fst x) with Some k => kept_at rm h (c :: s) c (k, snd x) | None => false end) (map (under p) l0)).
            - apply filter_ext'. intros x Hx. apply in_map_iff in Hx as (z & <- & Hz). cbn [under fst snd]. rewrite (strip_app EQ).
              unfold kept_at. cbn [fst]. rewrite lex_pre, extends_pre. unfold lt_of. f_equal. f_equal.
              unfold selected. f_equal. unfold RadixEffSpec.under_some. cbn [under fst]. clear - EQ. induction h as [|q h IH]; auto. cbn [map existsb]. now rewrite extends_pre, IH.
            - clear - EQ. induction l0 as [|x l0 IH]; auto. cbn [map filter]. cbn [under fst snd]. rewrite (strip_app EQ). rewrite IH.
              destruct x as [k0 v0]. cbn [fst snd]. destruct (kept_at rm h (c :: s) c (k0, v0)); reflexivity. }
          rewrite Q. f_equal. rewrite filter_app. f_equal. rewrite <- Ho. clear - EQ.
          destruct v as [v|]; [|reflexivity]. cbn [own filter].
          assert (X : kept_at rm h (c :: s) c ([], v) = sel h ([], v)) by (unfold kept_at; cbn; now rewrite !andb_true_r).
          now rewrite X.
      - destruct HM as (l & -> & Wl & Fl). cbn [efinish]. exists (t_unsplit (Node p (if rm then v else None) l)).
        split; [auto|]. split; [now apply unsplit_wf|]. split.
        + rewrite listing_unsplit, !listing_node, sel_under, filter_app, Fl, Ho. reflexivity.
        + intros c H1 H2. apply unsplit_hd; auto.
    Qed.
  End Node.

  Ltac cases p p2 :=
    destruct (cp_cases EQ p p2) as [<- Hn|x r -> Hn|x r -> Hn|s x r y u -> -> Hxy Hn]; rewrite Hn; clear Hn;
    rewrite ?Nat.eqb_refl, ?app_cons_length; cbn [andb].
  Ltac shorten :=
    repeat match goal with
    | H : RadixSpec.wf _ _ ?t |- context [mat_short ?t ?n] =>
        rewrite (mat_short_ok (kcmp := kcmp) _ t n H) by (cbn [t_prefix]; rewrite app_length; simpl; lia)
    end;
    cbn [elift t_prefix t_value t_children]; rewrite ?skipn_app_exact, ?firstn_app_exact.
  Ltac splitted := unfold t_split at 1; cbn [t_prefix t_value t_children]; rewrite ?app_cons_ltb; cbn [elift t_prefix t_value t_children];
    rewrite ?skipn_app_exact, ?firstn_app_exact.

  Section Cases.
    Context {V W : Type} (rm : bool) (f : clos E W bool) (qb : bool).
    Notation A := (rtree K V).
    Notation B := (rtree K W).
    Notation asks := (asks (V := V) kcmp f).
    Notation sel := (selected (V := V) kcmp rm).
    Notation PT := (ptspec rm f).
    Context (rec : A -> B -> E -> done (A * E)) (M : list A -> list B -> E -> done (list A * E)).
    Hypothesis HM : forall ca cb, wfc true ca -> wfc qb cb ->
      (forall x y e, In x ca -> In y cb -> hd_of x = hd_of y -> prspec rm f rec x y e) -> forall e, pcres rm f ca cb e (M ca cb e).
    Context (N : nat).
    Hypothesis HR : forall x y e, t_size x + t_size y < N -> wf true x -> t_is_empty x = false -> wf qb y -> PT x y e (rec x y e).

    Lemma prec_children ca cb : wfc true ca -> wfc qb cb -> (forall x y, In x ca -> In y cb -> t_size x + t_size y < N) ->
      forall e, pcres rm f ca cb e (M ca cb e).
    Proof.
      intros Ca Cb Hs. apply HM; auto. intros x y e Hx Hy Hh.
      destruct (wfc_In _ _ _ Ca Hx) as (H1 & H2 & H2'). destruct (wfc_In _ _ _ Cb Hy) as (H3 & H4 & _).
      pose proof (HR x y e (Hs x y Hx Hy) H2 (H2' eq_refl) H4) as H. unfold ptspec, pres in H. unfold prspec.
      destruct (asks (listing x) (listing y) e) as [[h e'] [k|]].
      - destruct H as (t & H & _). eauto.
      - destruct H as (t & K1 & K2 & K3 & K4). exists t. split; [auto|]. split; [auto|]. split; [|auto].
        intros He. destruct (ne_hd x H1) as [c Qc]. rewrite Qc. apply K4; auto. congruence.
    Qed.

    (** what happens when the predicate accepts [p], a prefix of everything in [self] *)
    Definition accepted (self : A) : A := if rm then Node [] None [] else t_unsplit self.
    Lemma accepted_ok (self : A) (that : B) p v ca e : listing self = listing (Node p v ca) -> wf true self ->
      pres rm self that ([p], e, None) (Done (accepted self, e)).
    Proof.
      intros HS Wt. unfold pres. exists (accepted self). split; [auto|]. unfold accepted.
      assert (X : forall x, In x (listing self) -> under_some [p] (fst x) = true).
      { intros x Hx. rewrite HS, listing_node in Hx. apply in_map_iff in Hx as (z & <- & Hz). unfold RadixEffSpec.under_some. cbn [existsb under fst].
        assert (X : extends p (p ++ fst z) = true) by (apply extends_iff; eauto). now rewrite X. }
      unfold selected. destruct rm.
      - split; [apply wf_node; split; [apply wfc_nil|intros _; split; [auto|discriminate]]|]. split; [|discriminate].
        rewrite filter_none; [reflexivity|]. intros x Hx. now rewrite X.
      - destruct self as [ps vs cs]. split; [apply unsplit_wf; exact (wf_wfc _ _ Wt)|]. split; [|intros c H1 _; now apply unsplit_hd].
        rewrite filter_all; [apply listing_unsplit|]. intros x Hx. now rewrite X.
    Qed.

    Lemma pcase (self : A) (that : B) p v w ca cb e :
      listing self = listing (Node p v ca) -> listing that = listing (Node p w cb) -> listing self <> [] -> wf true self ->
      lcp kcmp (t_prefix self) (t_prefix that) = p -> (forall h, hd_of self = Some h -> hd_of that = Some h -> hd_error p = Some h) ->
      wfc true ca -> wfc qb cb -> (forall x y, In x ca -> In y cb -> t_size x + t_size y < N) ->
      PT self that e (ehit f self w e (fun b e => if b then Done (accepted self, e) else efinish p (if rm then v else None) (M ca cb e))).
    Proof.
      intros HS HT Hne Ws Hp Hh Ca Cb Hs. unfold ptspec. rewrite HS, HT, asks_node; auto; [| |].
      2: congruence.
      2: intros y Hy; apply (wfc_In _ _ _ Cb Hy).
      assert (Py : forall y, In y cb -> t_prefix y <> []) by (intros y Hy; apply (wfc_In _ _ _ Cb Hy)).
      destruct w as [w|]; cbn [ehit]; [|eapply pnode_ok; eauto using prec_children].
      destruct (f e w) as [e' [[|]|]].
      - eapply accepted_ok; eauto.
      - eapply pnode_ok; eauto using prec_children.
      - unfold pres. exists self. split; [auto|]. split; [exact (wf_wfc _ _ Ws)|]. left. auto.
    Qed.

    Lemma pcase_same p v w ca cb e : t_size (Node p v ca) + t_size (Node p w cb) <= N -> wf true (Node p v ca) ->
      t_is_empty (Node p v ca) = false -> wf qb (Node p w cb) ->
      PT (Node p v ca) (Node p w cb) e
        (ehit f (Node p v ca) w e (fun b e => if b then Done (accepted (Node p v ca), e) else efinish p (if rm then v else None) (M ca cb e))).
    Proof.
      intros Hs Wa Ne Wb. pose proof (wf_wfc _ _ Wa) as Ca. pose proof (wf_wfc _ _ Wb) as Cb. cbn [t_children] in *.
      apply pcase; auto.
      - eapply canon_listing; eauto.
      - apply (lcp_same EQ).
      - intros x y Hx Hy. pose proof (size_children (Node p v ca) x Hx). pose proof (size_children (Node p w cb) y Hy). lia.
    Qed.
    Lemma pcase_left p x r v w ca cb e : t_size (Node p v ca) + t_size (Node (p ++ x :: r) w cb) <= N ->
      wf true (Node p v ca) -> t_is_empty (Node p v ca) = false -> wf qb (Node (p ++ x :: r) w cb) ->
      PT (Node p v ca) (Node (p ++ x :: r) w cb) e (efinish p (if rm then v else None) (M ca [Node (x :: r) w cb] e)).
    Proof.
      intros Hs Wa Ne Wb. pose proof (wf_wfc _ _ Wa) as Ca. cbn [t_children] in *.
      assert (Wb' : wf qb (Node (x :: r) w cb)) by (eapply wf_shorten; [exact Wb|destruct p; discriminate]).
      assert (Cb : wfc qb [Node (x :: r) w cb]).
      { apply wfc_single; auto; [discriminate|]. intros ->. now apply wf_true_ne in Wb'. }
      apply (pcase (Node p v ca) (Node (p ++ x :: r) w cb) p v None ca [Node (x :: r) w cb] e); auto.
      - rewrite listing_app. rewrite (listing_node p). cbn [own app flat_map]. now rewrite app_nil_r.
      - eapply canon_listing; eauto.
      - apply (lcp_left EQ).
      - intros a y Ha [<-|[]]. pose proof (size_children (Node p v ca) a Ha). cbn [t_size] in *. lia.
    Qed.
    Lemma pcase_right p x r v w ca cb e : t_size (Node (p ++ x :: r) v ca) + t_size (Node p w cb) <= N ->
      wf true (Node (p ++ x :: r) v ca) -> t_is_empty (Node (p ++ x :: r) v ca) = false -> wf qb (Node p w cb) ->
      PT (Node (p ++ x :: r) v ca) (Node p w cb) e
        (ehit f (Node (p ++ x :: r) v ca) w e (fun b e =>
           if b then Done (accepted (Node (p ++ x :: r) v ca), e) else efinish p None (M [Node (x :: r) v ca] cb e))).
    Proof.
      intros Hs Wa Ne Wb. pose proof (wf_wfc _ _ Wb) as Cb. cbn [t_children] in *.
      assert (Wa' : wf true (Node (x :: r) v ca)) by (eapply wf_shorten; [exact Wa|destruct p; discriminate]).
      assert (Ca : wfc true [Node (x :: r) v ca]).
      { apply wfc_single; auto. discriminate. }
      pose proof (pcase (Node (p ++ x :: r) v ca) (Node p w cb) p None w [Node (x :: r) v ca] cb e) as H.
      replace (if rm then None else None) with (@None V) in H by now destruct rm. apply H; auto.
      - rewrite listing_app. rewrite (listing_node p). cbn [own app flat_map]. now rewrite app_nil_r.
      - eapply canon_listing; eauto.
      - apply (lcp_right EQ).
      - intros a y [<-|[]] Hy. pose proof (size_children (Node p w cb) y Hy). cbn [t_size] in *. lia.
    Qed.
    Lemma fork_asks s x r y u v (ca : list A) w (cb : list B) e : x <> y ->
      asks (listing (Node (s ++ x :: r) v ca)) (listing (Node (s ++ y :: u) w cb)) e = ([], e, None).
    Proof.
      intros Hn. rewrite <- (app_nil_r (listing _)). rewrite <- (app_nil_l (listing (Node (s ++ y :: u) w cb))), (asks_app f).
      - cbn [RadixEffSpec.asks athen]. now rewrite asks_nil.
      - intros z1 z2 [].
      - intros z1 z2 H1 H2. rewrite listing_app in H1. rewrite listing_app in H2.
        apply in_map_iff in H1 as (z1' & <- & H1). apply in_map_iff in H2 as (z2' & <- & H2). cbn [under fst]. rewrite extends_pre.
        rewrite listing_node in H1. rewrite listing_node in H2.
        apply in_map_iff in H1 as (z1 & <- & H1). apply in_map_iff in H2 as (z2 & <- & H2). cbn [under fst].
        apply extends_false. intros q Q. cbn in Q. congruence.
    Qed.
  End Cases.

  Section Ops.
    Context {V W : Type} (strat : nat -> nat -> bool) (f : clos E W bool) (qb : bool).
    Lemma eremove_spec fuel : forall (a : rtree K V) (b : rtree K W) e, t_size a + t_size b < fuel ->
      wf true a -> t_is_empty a = false -> wf qb b -> ptspec true f a b e (eremove_with kcmp strat f fuel a b e).
    Proof.
      induction fuel as [|fuel IH]; intros a b e Hf Wa Ne Wb; [lia|].
      pose (M := echildren_with (W := W) kcmp strat (eremove_with (V := V) kcmp strat f fuel) true false NoConverter).
      assert (HM : forall ca cb, wfc true ca -> wfc qb cb ->
        (forall x y e, In x ca -> In y cb -> hd_of x = hd_of y -> prspec true f (eremove_with kcmp strat f fuel) x y e) ->
        forall e, pcres true f ca cb e (M ca cb e)).
      { intros ca cb Ca Cb H e0. eapply pchildren_ok; eauto. }
      cbn [eremove_with]. fold M. destruct a as [p v ca], b as [p2 w cb]. cbn [t_prefix t_value t_children] in *.
      cases p p2.
      - apply (pcase_same true f qb _ M HM fuel IH); auto; lia.
      - shorten. apply (pcase_left true f qb _ M HM fuel IH); auto; lia.
      - pose proof (pcase_right true f qb _ M HM fuel IH p2 x r v w ca cb e ltac:(lia) Wa Ne Wb) as H. cbn [accepted] in H.
        assert (Q : t_split (Node (p2 ++ x :: r) v ca) (length p2) = Ok (Node p2 None [Node (x :: r) v ca]))
          by (unfold t_split; cbn [t_prefix]; now rewrite app_cons_ltb, firstn_app_exact, skipn_app_exact).
        rewrite Q. exact H.
      - unfold ptspec, pres. rewrite fork_asks by auto. exists (t_unsplit (Node (s ++ x :: r) v ca)).
        split; [auto|]. split; [apply unsplit_wf; exact (wf_wfc _ _ Wa)|]. split; [|intros c H1 _; now apply unsplit_hd].
        rewrite (sel_nil true). apply listing_unsplit.
    Qed.
    Lemma eretain_spec fuel : forall (a : rtree K V) (b : rtree K W) e, t_size a + t_size b < fuel ->
      wf true a -> t_is_empty a = false -> wf qb b -> ptspec false f a b e (eretain_with kcmp strat f fuel a b e).
    Proof.
      induction fuel as [|fuel IH]; intros a b e Hf Wa Ne Wb; [lia|].
      pose (M := echildren_with (W := W) kcmp strat (eretain_with (V := V) kcmp strat f fuel) false false NoConverter).
      assert (HM : forall ca cb, wfc true ca -> wfc qb cb ->
        (forall x y e, In x ca -> In y cb -> hd_of x = hd_of y -> prspec false f (eretain_with kcmp strat f fuel) x y e) ->
        forall e, pcres false f ca cb e (M ca cb e)).
      { intros ca cb Ca Cb H e0. eapply pchildren_ok; eauto. }
      cbn [eretain_with]. fold M. destruct a as [p v ca], b as [p2 w cb]. cbn [t_prefix t_value t_children] in *.
      cases p p2.
      - apply (pcase_same false f qb _ M HM fuel IH); auto; lia.
      - shorten. apply (pcase_left false f qb _ M HM fuel IH); auto; lia.
      - pose proof (pcase_right false f qb _ M HM fuel IH p2 x r v w ca cb e ltac:(lia) Wa Ne Wb) as H. cbn [accepted] in H.
        assert (Q : t_split (Node (p2 ++ x :: r) v ca) (length p2) = Ok (Node p2 None [Node (x :: r) v ca]))
          by (unfold t_split; cbn [t_prefix]; now rewrite app_cons_ltb, firstn_app_exact, skipn_app_exact).
        rewrite Q. exact H.
      - unfold ptspec, pres. rewrite fork_asks by auto. exists (Node [] None []).
        split; [auto|]. split; [apply wf_node; split; [apply wfc_nil|intros _; split; [auto|discriminate]]|]. split; [|discriminate].
        now rewrite (sel_nil false).
    Qed.
  End Ops.
End EffPrefix.
