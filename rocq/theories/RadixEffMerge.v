(** Merging children with an effectful closure is the join of their listings. *)
From Verif Require Export RadixEffFacts.

Section EffMerge.
  Context {K : Type} {kcmp : K -> K -> comparison} (L : OrdLaws kcmp) (EQ : OrdEq kcmp) {E : Type}.
  Notation lex := (lex kcmp).
  Notation wf := (wf kcmp).
  Notation wfc := (wfc (kcmp := kcmp)).
  Notation hord := (hord (kcmp := kcmp)).
  Notation flat := (flat_map listing).

  Lemma wfc_app {V} q (l1 l2 : list (rtree K V)) : wfc q l1 -> wfc q l2 ->
    (forall x y, In x l1 -> In y l2 -> hord (hd_of x) (hd_of y) = Lt) -> wfc q (l1 ++ l2).
  Proof.
    intros W1 W2 H. induction l1 as [|x l1 IH]; auto. cbn [app]. apply wfc_cons in W1 as (H1 & H2 & H3 & H4 & W1).
    apply wfc_cons. split; [auto|]. split; [|split; [auto|split; [auto|apply IH; auto; intros; apply H; simpl; auto]]].
    apply Forall_app. split; auto. apply Forall_forall. intros y Hy.
    assert (Q : hord (hd_of x) (hd_of y) = Lt) by (apply H; simpl; auto).
    pose proof (proj1 (wfc_In _ _ _ W2 Hy)) as Hp. unfold head_lt. unfold hd_of in Q.
    destruct (t_prefix x), (t_prefix y); simpl in *; congruence.
  Qed.
  Lemma wfc_part {V} q (l1 l2 : list (rtree K V)) : wfc q (l1 ++ l2) -> wfc q l1 /\ wfc q l2 /\
    (forall x y, In x l1 -> In y l2 -> hord (hd_of x) (hd_of y) = Lt).
  Proof.
    induction l1 as [|x l1 IH]; cbn [app]; intros W; [split; [apply wfc_nil|split; [auto|intros ? ? []]]|].
    apply wfc_cons in W as (H1 & H2 & H3 & H4 & W). apply IH in W as (W1 & W2 & W3). apply Forall_app in H2 as [H2 H2'].
    split; [apply wfc_cons; auto|]. split; [auto|]. intros u y [<-|Hu] Hy; auto.
    rewrite Forall_forall in H2'. apply H2' in Hy. unfold head_lt in Hy. unfold hd_of.
    destruct (t_prefix x), (t_prefix y); simpl in *; tauto.
  Qed.

  (** listings of children with smaller heads come first *)
  Lemma before_flat {X Y} (a : list (rtree K X)) (b : list (rtree K Y)) :
    (forall x, In x a -> t_prefix x <> []) -> (forall y, In y b -> t_prefix y <> []) ->
    (forall x y, In x a -> In y b -> hord (hd_of x) (hd_of y) = Lt) -> before (kcmp := kcmp) (flat a) (flat b).
  Proof.
    intros Ha Hb H [k v] [k' v'] Hx Hy. apply in_flat_map in Hx as (x & Ix & Hx). apply in_flat_map in Hy as (y & Iy & Hy).
    specialize (H x y Ix Iy). destruct (ne_hd x (Ha x Ix)) as [h Qh]. destruct (ne_hd y (Hb y Iy)) as [h' Qh'].
    rewrite Qh, Qh' in H. cbn in H. apply (listing_head _ _ _ _ Qh) in Hx as [r ->]. apply (listing_head _ _ _ _ Qh') in Hy as [r' ->].
    cbn. now rewrite H.
  Qed.

  Section Children.
    Context {V W : Type} (ka : bool) (hb : W -> option V) (f : mclos E V W).
    Context (strat : nat -> nat -> bool) (rec : rtree K V -> rtree K W -> E -> done (rtree K V * E)).
    Context (tb : bool) (conv : rtree K W -> option (rtree K V)) (q qb : bool).
    Notation join := (join kcmp ka hb f).
    Notation ro := (right_only (K := K) hb).
    Notation lo := (left_only (K := K) (V := V) ka).
    Notation A := (rtree K V).
    Notation B := (rtree K W).

    (** what the recursive call must satisfy *)
    Definition rspec (x : A) (y : B) (e : E) : Prop :=
      match join (listing x) (listing y) e with
      | (o, e', None) => exists t, rec x y e = Done (t, e') /\ wf q t /\ (t_is_empty t = false -> hd_of t = hd_of x) /\ listing t = o
      | (_, e', Some _) => exists t, rec x y e = Unwound (t, e')
      end.

    Context (ca : list A) (cb : list B).
    Hypothesis Wa : wfc q ca.
    Hypothesis Wb : wfc qb cb.
    Hypothesis Htb : forall y, In y cb ->
      if tb then exists t, conv y = Some t /\ hd_of t = hd_of y /\ wf q t /\ (q = true -> t_is_empty t = false) /\
                           listing t = flat_map ro (listing y)
      else flat_map ro (listing y) = [].
    Hypothesis Hrec : forall x y e, In x ca -> In y cb -> hd_of x = hd_of y -> rspec x y e.

    Notation OE := (eop_with kcmp rec ka tb conv).
    Lemma oe_coll s e x a y b : bd_src (ipr_a s) = x :: a -> ipr_b s = y :: b ->
      mo_coll OE (s, e) =
      match rec x y e with
      | Done (t, e') => Cont (MkIpr (MkB (bd_tgt (ipr_a s) ++ if t_is_empty t then [] else [t]) a
                                 (bd_drop (ipr_a s) ++ if t_is_empty t then [t] else [])) b, e')
      | Unwound (t, e') => Panic (MkIpr (MkB (bd_tgt (ipr_a s)) (t :: a) (bd_drop (ipr_a s))) (y :: b), e')
      | DoneNoFuel => NoFuel
      end.
    Proof.
      intros Ha' Hb'. cbn [eop_with mo_coll]. unfold ecoll_with. rewrite Ha', Hb'.
      destruct (rec x y e) as [[t e']|[t e']|]; auto. cbn [adv_a adv_b ipr_msm]. unfold ipr_adv_a. cbn [obind].
      unfold ipr_adv_b. cbn [ipr_a ipr_b]. unfold bd_consume. cbn [bd_src bd_tgt bd_drop skipn].
      destruct (t_is_empty t); cbn [negb]; cbn [firstn]; rewrite ?app_nil_r; reflexivity.
    Qed.
    Lemma oe_advancing : advancing OE.
    Proof.
      constructor.
      - intros s n s' Hn. cbn. intros [= <-]. cbn. unfold bd_consume. destruct ka; auto.
      - intros [s e] n s' Hn. cbn in *. unfold ipr_adv_b. destruct tb.
        + destruct (bd_extend conv n (ipr_a s) (ipr_b s)) as [[bd l] [|]] eqn:Q; [|discriminate].
          apply extend_adv in Q as [Q1 Q2]; auto. intros [= <-]. cbn. auto.
        + intros [= <-]. auto.
      - intros [s e] x a y b s' Ha' Hb'. rewrite (oe_coll _ _ _ _ _ _ Ha' Hb').
        destruct (rec x y e) as [[t e']|[t e']|]; try discriminate. intros [= <-]. auto.
    Qed.

    Definition heads_in (l a : list A) (b : list B) : Prop :=
      forall t, In t l -> In (hd_of t) (map hd_of a) \/ In (hd_of t) (map hd_of b).

    Definition other (c : K) (x : list K * V) : bool := negb (extends kcmp [c] (fst x)).
    Lemma other_in h r c (v : V) : other c (h :: r, v) = negb (keqb kcmp c h).
    Proof. unfold other, extends. cbn [fst]. rewrite strip_cons. now destruct (keqb kcmp c h). Qed.

    Definition cspec (a : list A) (b : list B) (tgt drop : list A) (e : E) (r : out (iprstate A B * E)) : Prop :=
      match join (flat a) (flat b) e with
      | (o, e', None) => exists l d, r = Cont (MkIpr (MkB (tgt ++ l) [] d) [], e') /\ wfc q l /\ flat l = o /\ heads_in l a b
      | (o, e', Some (k, _)) => exists l s' c s, r = Panic (s', e') /\ bd_tgt (ipr_a s') = tgt ++ l /\ wfc q l /\ heads_in l a b /\
                                 k = c :: s /\ flat l = filter (other c) o
      end.

    Lemma filter_all {X} (g : X -> bool) l : (forall x, In x l -> g x = true) -> filter g l = l.
    Proof. induction l as [|x l IH]; intros H; auto. simpl. rewrite H by (now left). f_equal. apply IH. intros; apply H; now right. Qed.
    Lemma filter_none {X} (g : X -> bool) l : (forall x, In x l -> g x = false) -> filter g l = [].
    Proof. induction l as [|x l IH]; intros H; auto. simpl. rewrite H by (now left). apply IH. intros; apply H; now right. Qed.

    (** first the entries of [l1], by [evs1]; then the rest *)
    Lemma cspec_emit a0 b0 a b tgt drop drop' e0 e r l1 :
      wfc q l1 -> heads_in l1 a0 b0 -> incl a a0 -> incl b b0 ->
      (forall t x, In t l1 -> In x a -> hord (hd_of t) (hd_of x) = Lt) ->
      (forall t y, In t l1 -> In y b -> hord (hd_of t) (hd_of y) = Lt) ->
      join (flat a0) (flat b0) e0 = emit (flat l1) (join (flat a) (flat b) e) ->
      cspec a b (tgt ++ l1) drop e r -> cspec a0 b0 tgt drop' e0 r.
    Proof.
      intros W1 I1 Ia Ib Ha Hb J. unfold cspec. rewrite J.
      assert (HI : forall l, heads_in l a b -> heads_in (l1 ++ l) a0 b0).
      { intros l Hl t Ht. apply in_app_or in Ht as [Ht|Ht]; auto. destruct (Hl t Ht) as [Q|Q]; [left|right];
          apply in_map_iff in Q as (z & Q & Hz); rewrite <- Q; apply in_map; auto. }
      assert (HL : forall l, wfc q l -> heads_in l a b -> wfc q (l1 ++ l)).
      { intros l Wl Hl. apply wfc_app; auto. intros x y Hx Hy. destruct (Hl y Hy) as [Q|Q];
          apply in_map_iff in Q as (z & Q & Hz); rewrite <- Q; auto. }
      destruct (join (flat a) (flat b) e) as [[o e'] [[k v]|]] eqn:Q; cbn [emit].
      - intros (l & s' & c & s & -> & H1 & H2 & H3 & -> & H5). exists (l1 ++ l), s', c, s. rewrite app_assoc.
        split; [auto|]. split; [auto|]. split; [auto|]. split; [auto|]. split; [auto|].
        rewrite flat_map_app, filter_app, H5. f_equal. symmetry. apply filter_all.
        intros [k0 v0] Hx. apply in_flat_map in Hx as (t & It & Hx).
        destruct (ne_hd t (proj1 (wfc_In _ _ _ W1 It))) as [h Qh]. destruct (listing_head _ _ _ _ Qh Hx) as [r0 ->].
        rewrite other_in. apply negb_true_iff. apply (keqb_neq EQ). intros ->.
        destruct (join_keys ka hb f (flat a) (flat b) e _ _ _ Q) as [_ Hk]. destruct (Hk _ _ eq_refl) as [Hka (k' & Hkb & Hlex)].
        apply in_map_iff in Hka as ([k1 v1] & Q1 & Hka). cbn in Q1. subst k1.
        apply in_flat_map in Hka as (x & Ix & Hka).
        destruct (hd_of x) as [hx|] eqn:Qx.
        + apply (listing_head _ _ _ _ Qx) in Hka as [r1 Hr]. injection Hr as Hh _. subst hx.
          pose proof (Ha t x It Ix) as C. rewrite Qh, Qx in C. cbn in C. rewrite (kcmp_refl EQ) in C. discriminate.
        + pose proof (Ha t x It Ix) as C. rewrite Qh, Qx in C. discriminate.
      - intros (l & d & -> & H1 & H2 & H3). exists (l1 ++ l), d. rewrite app_assoc. split; [auto|]. split; [auto|]. split; [|auto].
        now rewrite flat_map_app, H2.
    Qed.

    Lemma lo_all l : flat_map lo l = if ka then l else [].
    Proof.
      induction l as [|z l IH]; cbn [flat_map]; [now destruct ka|]. rewrite IH. unfold left_only. destruct ka; reflexivity.
    Qed.

    Lemma run_cspec a b evs : ok_sched (kcmp := hord) hd_of hd_of a b evs -> incl a ca -> incl b cb -> wfc q a -> wfc qb b ->
      forall tgt drop e, cspec a b tgt drop e (run OE evs (MkIpr (MkB tgt a drop) b, e)).
    Proof.
      induction 1 as [|a1 a2 b evs Hne Hlt H IH|a b1 b2 evs Hne Hgt H IH|x a y b evs Hxy H IH]; intros Ia Ib Sa Sb tgt drop e.
      - unfold cspec. cbn. exists [], drop. rewrite app_nil_r. split; [auto|]. split; [apply wfc_nil|]. split; [auto|intros ? []].
      - apply wfc_part in Sa as (Sa1 & Sa2 & Sa3).
        cbn [run step]. cbn [eop_with mo_from_a adv_a ipr_msm fst snd]. unfold ipr_adv_a. cbn [quietly obind].
        unfold bd_consume. cbn [ipr_a bd_src bd_tgt bd_drop ipr_b]. rewrite firstn_app_exact, skipn_app_exact.
        set (l1 := if ka then a1 else []).
        set (d1 := if ka then drop else drop ++ a1).
        replace (if ka then MkB (tgt ++ a1) a2 drop else MkB tgt a2 (drop ++ a1)) with (MkB (tgt ++ l1) a2 d1)
          by (unfold l1, d1; destruct ka; now rewrite ?app_nil_r).
        assert (I2 : incl a2 ca) by (intros z Hz; apply Ia, in_or_app; auto).
        eapply (cspec_emit (a1 ++ a2) b a2 b) with (drop := d1) (l1 := l1).
        + unfold l1. destruct ka; auto using wfc_nil.
        + intros t Ht. left. unfold l1 in Ht. destruct ka; [|destruct Ht]. apply in_map. apply in_or_app. auto.
        + intros z Hz. apply in_or_app. auto.
        + intros z Hz. auto.
        + intros t z Ht Hz. unfold l1 in Ht. destruct ka; [|destruct Ht]. auto.
        + intros t z Ht Hz. unfold l1 in Ht. destruct ka; [|destruct Ht]. auto.
        + rewrite flat_map_app, join_app_a.
          * rewrite lo_all. unfold l1. now destruct ka.
          * apply before_flat; auto; intros z Hz; [apply (wfc_In _ _ _ Sa1 Hz)|apply (wfc_In _ _ _ Sb Hz)].
        + apply IH; auto.
      - apply wfc_part in Sb as (Sb1 & Sb2 & Sb3).
        cbn [run step]. cbn [eop_with mo_from_b adv_b ipr_msm fst snd].
        assert (Ib1 : incl b1 cb) by (intros z Hz; apply Ib, in_or_app; auto).
        assert (Ib2 : incl b2 cb) by (intros z Hz; apply Ib, in_or_app; auto).
        set (l1 := if tb then omap conv b1 else []).
        assert (HL : wfc q l1 /\ flat l1 = flat_map ro (flat b1) /\ forall t, In t l1 -> In (hd_of t) (map hd_of b1)).
        { unfold l1. clear IH Hne Hgt Sb2 Sb3 H Ib. revert Sb1 Ib1. clear - Htb EQ Wb. induction b1 as [|y b1 IH]; intros Sb Ib.
          - destruct tb; (split; [apply wfc_nil|split; [auto|intros ? []]]).
          - pose proof (Htb y (Ib y (or_introl eq_refl))) as Hy. apply wfc_cons in Sb as (H1 & H2 & H3 & H4 & Sb).
            destruct (IH Sb) as (K1 & K2 & K3); [intros z Hz; apply Ib; now right|]. destruct tb.
            + destruct Hy as (t & Q & Ht & Wt & Nt & Lt). cbn [omap flat_map]. unfold omap in *. cbn [flat_map]. rewrite Q. cbn [o2l app].
              split; [|split].
              * apply wfc_cons. split.
                { intros Qp. apply (f_equal (@hd_error K)) in Qp. fold (hd_of t) in Qp. rewrite Ht in Qp. unfold hd_of in Qp. destruct (t_prefix y); [congruence|discriminate]. }
                split; [|auto]. apply Forall_forall. intros z Hz. apply K3 in Hz. apply in_map_iff in Hz as (z' & Qz & Hz).
                rewrite Forall_forall in H2. apply H2 in Hz. unfold head_lt in *. unfold hd_of in Qz, Ht.
                destruct (t_prefix y), (t_prefix z'); try tauto. cbn in Qz, Ht. destruct (t_prefix z); [discriminate|].
                destruct (t_prefix t); [discriminate|]. cbn in Qz, Ht. now injection Qz as <-; injection Ht as ->.
              * cbn [flat_map]. rewrite Lt, K2, flat_map_app. reflexivity.
              * intros z [<-|Hz]; [rewrite Ht; now left|right; auto].
            + split; [apply wfc_nil|]. split; [|intros ? []]. cbn [flat_map]. rewrite flat_map_app, Hy. exact K2. }
        destruct HL as (W1 & F1 & I1).
        assert (Q : ipr_adv_b conv (MkIpr (MkB tgt a drop) (b1 ++ b2)) (length b1) tb = Cont (MkIpr (MkB (tgt ++ l1) a drop) b2)).
        { unfold l1, ipr_adv_b. cbn [ipr_a ipr_b]. rewrite skipn_app_exact. destruct tb eqn:Qtb; [|now rewrite app_nil_r].
          rewrite (extend_ok true); auto.
          - now rewrite firstn_app_exact, skipn_app_exact.
          - intros _ y Hy. assert (Iy : In y cb) by (apply in_app_or in Hy as [Hy|Hy]; auto).
            pose proof (Htb y Iy) as (t & Hy' & _). eauto.
          - rewrite app_length. lia. }
        rewrite Q. cbn [quietly obind].
        assert (HG : forall t x, In t l1 -> In x a -> hord (hd_of t) (hd_of x) = Lt).
        { intros t x Ht Hx. apply I1 in Ht. apply in_map_iff in Ht as (z & <- & Hz). rewrite (ord_opp (hord_laws L)), Hgt by auto. reflexivity. }
        eapply (cspec_emit a (b1 ++ b2) a b2) with (l1 := l1) (drop := drop); auto.
        + intros t Ht. right. rewrite map_app. apply in_or_app. auto.
        + intros z Hz. auto.
        + intros z Hz. apply in_or_app. auto.
        + intros t x Ht Hx. apply I1 in Ht. apply in_map_iff in Ht as (z & <- & Hz). auto.
        + rewrite flat_map_app, (join_app_b L), F1; auto.
          apply before_flat; [intros z Hz; apply (wfc_In _ _ _ Sb1 Hz)|intros z Hz; apply (wfc_In _ _ _ Sa Hz)|].
          intros z x Hz Hx. rewrite (ord_opp (hord_laws L)), Hgt by auto. reflexivity.
      - apply (hord_eq EQ) in Hxy. assert (Ix : In x ca) by (apply Ia; now left). assert (Iy : In y cb) by (apply Ib; now left).
        cbn [run step]. rewrite (oe_coll _ e x a y b) by reflexivity. cbn [ipr_a bd_tgt bd_drop].
        change (x :: a) with ([x] ++ a) in Sa. change (y :: b) with ([y] ++ b) in Sb.
        apply wfc_part in Sa as (Sx & Sa & Hxa). apply wfc_part in Sb as (Sy & Sb & Hyb).
        assert (Px : t_prefix x <> []) by (apply (wfc_In _ _ _ Wa Ix)).
        assert (Py : t_prefix y <> []) by (apply (wfc_In _ _ _ Wb Iy)).
        pose proof (Hrec x y e Ix Iy Hxy) as R. unfold rspec in R.
        assert (J : join (flat (x :: a)) (flat (y :: b)) e = jthen (join (listing x) (listing y) e) (join (flat a) (flat b))).
        { cbn [flat_map]. rewrite <- (app_nil_r (listing x)), <- (app_nil_r (listing y)).
          change (listing x ++ []) with (flat [x]). change (listing y ++ []) with (flat [y]). apply (join_app L).
          - apply before_flat; [intros z [<-|[]]; auto|intros z Hz; apply (wfc_In _ _ _ Sb Hz)|]. intros z w [<-|[]] Hw. rewrite Hxy. apply Hyb; simpl; auto.
          - apply before_flat; [intros z [<-|[]]; auto|intros z Hz; apply (wfc_In _ _ _ Sa Hz)|]. intros z w [<-|[]] Hw. rewrite <- Hxy. apply Hxa; simpl; auto. }
        destruct (join (listing x) (listing y) e) as [[o e1] [[k v]|]] eqn:Q.
        + destruct R as [t ->]. cbn [obind]. unfold cspec. rewrite J. cbn [jthen].
          destruct (ne_hd x Px) as [h Qh]. destruct (ne_hd y Py) as [h' Qh'].
          destruct (join_keys ka hb f _ _ e _ _ _ Q) as [Hk1 Hk2].
          assert (HK : forall k0, In k0 (map fst (listing x)) -> exists r, k0 = h :: r).
          { intros k0 Hk. apply in_map_iff in Hk as ([k1 v1] & <- & Hk). apply (listing_head _ _ _ _ Qh) in Hk. auto. }
          assert (HK' : forall k0, In k0 (map fst (listing y)) -> exists r, k0 = h :: r).
          { intros k0 Hk. apply in_map_iff in Hk as ([k1 v1] & <- & Hk). apply (listing_head _ _ _ _ Qh') in Hk. cbn. rewrite Qh, Qh' in Hxy. injection Hxy as ->. auto. }
          destruct (Hk2 k v eq_refl) as [Hk _]. apply HK in Hk as [s ->].
          eexists [], _, h, s. split; [reflexivity|]. split; [cbn; now rewrite app_nil_r|]. split; [apply wfc_nil|]. split; [intros ? []|]. split; [auto|].
          symmetry. cbn [flat_map]. apply filter_none. intros [k0 v0] Hin.
          assert (Hr : exists r, k0 = h :: r) by (destruct (Hk1 k0 (in_map fst _ _ Hin)); auto). destruct Hr as [r ->].
          rewrite other_in, (keqb_refl EQ). reflexivity.
        + destruct R as (t & -> & Wt & Ht & Et). cbn [obind].
          set (l1 := if t_is_empty t then [] else [t]).
          specialize (IH ltac:(intros z Hz; apply Ia; now right) ltac:(intros z Hz; apply Ib; now right) Sa Sb (tgt ++ l1) (drop ++ (if t_is_empty t then [t] else [])) e1).
          assert (F1 : flat l1 = o).
          { unfold l1. destruct (t_is_empty t) eqn:Qe; cbn; [rewrite <- Et; now rewrite listing_empty|now rewrite app_nil_r]. }
          assert (G : forall z, In z l1 -> hd_of z = hd_of x).
          { unfold l1. destruct (t_is_empty t) eqn:Qe; [intros ? []|]. intros z [<-|[]]. auto. }
          assert (Wl : wfc q l1).
          { unfold l1. destruct (t_is_empty t) eqn:Qe; [apply wfc_nil|]. apply wfc_single; auto. specialize (Ht eq_refl).
            intros Qp. unfold hd_of in Ht. rewrite Qp in Ht. destruct (t_prefix x); [congruence|discriminate]. }
          assert (H1 : forall z w, In z l1 -> In w a -> hord (hd_of z) (hd_of w) = Lt)
            by (intros z w Hz Hw; rewrite (G z Hz); apply Hxa; simpl; auto).
          assert (H2 : forall z w, In z l1 -> In w b -> hord (hd_of z) (hd_of w) = Lt)
            by (intros z w Hz Hw; rewrite (G z Hz), Hxy; apply Hyb; simpl; auto).
          assert (H3 : heads_in l1 (x :: a) (y :: b)) by (intros z Hz; left; left; symmetry; auto).
          cbn [jthen] in J. rewrite <- F1 in J.
          eapply (cspec_emit (x :: a) (y :: b) a b); [exact Wl|exact H3| | |exact H1|exact H2|exact J|exact IH]; intros z Hz; now right.
    Qed.

    Definition cres_spec (e : E) (r : done (list A * E)) : Prop :=
      match join (flat ca) (flat cb) e with
      | (o, e', None) => exists l, r = Done (l, e') /\ wfc q l /\ flat l = o
      | (o, e', Some (k, _)) => exists l c s, r = Unwound (l, e') /\ wfc q l /\ k = c :: s /\ flat l = filter (other c) o
      end.
    Lemma echildren_ok e : cres_spec e (echildren_with kcmp strat rec ka tb conv ca cb e).
    Proof.
      destruct (merge_sched (hord_laws L) hd_of hd_of OE oe_advancing strat (ipr_new ca cb, e)) as (evs & Ok & R).
      - exact (wfc_ksorted _ _ Wa).
      - exact (wfc_ksorted _ _ Wb).
      - intros x y Hx Hy. apply head_cmp_hord; [apply (wfc_In _ _ _ Wa Hx)|apply (wfc_In _ _ _ Wb Hy)].
      - unfold echildren_with. rewrite R. cbn [eop_with mo_a mo_b fst ipr_new ipr_a ipr_b bd_new bd_src] in Ok.
        pose proof (run_cspec ca cb evs Ok (incl_refl _) (incl_refl _) Wa Wb [] [] e) as C. unfold cspec in C. unfold cres_spec.
        change (ipr_new ca cb, e) with (MkIpr (MkB [] ca []) cb, e).
        destruct (join (flat ca) (flat cb) e) as [[o e'] [[k v]|]].
        + destruct C as (l & s' & c & s & -> & H1 & H2 & _ & -> & H5). cbn [to_done fst snd]. rewrite H1. exists l, c, s. auto.
        + destruct C as (l & d & -> & H1 & H2 & _). cbn. eauto.
    Qed.
  End Children.

  (** ** one node *)
  Section Node.
    Context {V W : Type} (ka : bool) (hb : W -> option V) (f : mclos E V W) (q : bool).
    Notation join := (join kcmp ka hb f).
    Notation A := (rtree K V).
    Notation B := (rtree K W).

    Definition tspec (self : A) (that : B) (e : E) (r : done (A * E)) : Prop :=
      match join (listing self) (listing that) e with
      | (o, e', None) => exists t, r = Done (t, e') /\ wf q t /\ listing t = o /\
          forall h, hd_of self = Some h -> hd_of that = Some h -> t_is_empty t = false -> hd_of t = Some h
      | (o, e', Some (k, v)) => exists t, r = Unwound (t, e') /\ wfc q (t_children t) /\
          remains kcmp (lcp kcmp (t_prefix self) (t_prefix that)) self o k v t
      end.

    (** the call on the values at the root *)
    Definition vspec (v0 : option V) (w0 : option W) (e : E) (u : option V * E * bool) : Prop :=
      match u with
      | (v, e1, true) => join (own v0) (own w0) e = (own v, e1, None)
      | (v, e1, false) => exists x v', v0 = Some x /\ v = Some v' /\ join (own v0) (own w0) e = ([], e1, Some ([], v'))
      end.

    Lemma wfc_weaken q' (cs : list A) : wfc q' cs -> wfc false cs.
    Proof.
      intros [H1 H2 H3 H4]. constructor; auto; [discriminate|]. rewrite Forall_forall in *. intros x Hx. eapply (wf_any (kcmp := kcmp)). eauto.
    Qed.
    Lemma own_before {X Y} (v : option X) (cs : list (rtree K Y)) : (forall y, In y cs -> t_prefix y <> []) ->
      before (kcmp := kcmp) (own v) (flat cs).
    Proof.
      intros H [k u] [k' u'] Hx Hy. destruct v; [|destruct Hx]. destruct Hx as [[= <- <-]|[]].
      apply in_flat_map in Hy as (y & Iy & Hy). destruct (ne_hd y (H y Iy)) as [h Qh].
      destruct (listing_head _ _ _ _ Qh Hy) as [r ->]. reflexivity.
    Qed.
    Lemma extends_under p c k : extends kcmp (p ++ [c]) (p ++ k) = extends kcmp [c] k.
    Proof. unfold extends. now rewrite strip_app_l, (strip_app EQ). Qed.
    Lemma filter_under p c (l : list (list K * V)) :
      filter (fun x => negb (extends kcmp (p ++ [c]) (fst x))) (map (under p) l) = map (under p) (filter (other c) l).
    Proof.
      induction l as [|[k v] l IH]; auto. cbn [map filter under fst]. rewrite extends_under. unfold other at 1. cbn [fst].
      destruct (extends kcmp [c] k); cbn [negb map under]; now rewrite IH.
    Qed.

    Lemma node_ok (self : A) (that : B) p v0 w0 (ca : list A) (cb : list B) qb e u (M : E -> done (list A * E)) :
      listing self = listing (Node p v0 ca) -> listing that = listing (Node p w0 cb) ->
      lcp kcmp (t_prefix self) (t_prefix that) = p -> (forall h, hd_of self = Some h -> hd_of that = Some h -> hd_error p = Some h) ->
      wfc q ca -> wfc qb cb -> vspec v0 w0 e u ->
      (forall e, cres_spec ka hb f q ca cb e (M e)) ->
      tspec self that e (evalue p ca u (fun v e => efinish p v (M e))).
    Proof.
      intros HS HT Hp Hh Wa Wb HV HM. unfold tspec. rewrite HS, HT, Hp, !listing_node, (join_under EQ).
      rewrite (join_app L) by (apply own_before; intros y Hy; first [apply (wfc_In _ _ _ Wb Hy)|apply (wfc_In _ _ _ Wa Hy)]).
      destruct u as [[v e1] [|]]; cbn [vspec] in HV.
      - rewrite HV. cbn [jthen evalue]. specialize (HM e1). unfold cres_spec in HM.
        destruct (join (flat ca) (flat cb) e1) as [[o e'] [[k w]|]]; cbn [emit jmap option_map].
        + destruct HM as (l & c & s & -> & Wl & -> & Fl). cbn [efinish under fst snd].
          exists (Node p v l). split; [auto|]. split.
          * exact Wl.
          * right. exists c, s. split; [auto|]. rewrite filter_under, filter_app, listing_node, Fl. f_equal. f_equal.
            destruct v; auto.
        + destruct HM as (l & -> & Wl & Fl). cbn [efinish]. exists (t_unsplit (Node p v l)).
          split; [auto|]. split; [now apply unsplit_wf|]. split; [rewrite listing_unsplit, listing_node, Fl; reflexivity|].
          intros h H1 H2. apply unsplit_hd; auto.
      - destruct HV as (x & v' & -> & -> & HV). rewrite HV. cbn [jthen jmap map option_map under fst snd evalue]. rewrite app_nil_r.
        exists (Node p (Some v') ca). split; [auto|]. split.
        + exact Wa.
        + left. split; [auto|]. split; [auto|]. exists x, (map (under p) (flat ca)). rewrite HS, !listing_node.
          split; cbn [own app map]; unfold under at 1; cbn [fst snd]; now rewrite app_nil_r.
    Qed.
  End Node.
End EffMerge.
