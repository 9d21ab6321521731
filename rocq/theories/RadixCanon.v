(** Canonical radix trees: equal exactly when they hold the same mapping. *)
From Verif Require Export RadixPred.

Section Canon.
  Context {K : Type} {kcmp : K -> K -> comparison} (L : OrdLaws kcmp) (E : OrdEq kcmp).
  Notation strip := (strip kcmp).
  Notation lk := (lk kcmp).
  Notation wf := (wf kcmp).
  Notation wfc := (wfc (kcmp := kcmp)).
  Notation lkc := (lkc (kcmp := kcmp)).
  Notation child := (child (kcmp := kcmp)).

  (** ** Two canonical trees with the same keys have the same root prefix *)
  Section Prefix.
    Context {V W : Type}.
    Lemma longer p (v : option V) ca x r (w : option W) cb :
      wf true (Node p v ca) -> wf true (Node (p ++ x :: r) w cb) ->
      (forall k, lk (Node p v ca) k = None <-> lk (Node (p ++ x :: r) w cb) k = None) -> False.
    Proof.
      intros Wa Wb H.
      assert (Hb : t_is_empty (Node (p ++ x :: r) w cb) = false) by (apply wf_true_ne in Wb; auto; destruct p; discriminate).
      pose proof (wf_wfc _ _ Wa) as Ca. cbn [t_children] in Ca.
      assert (Hv : v = None).
      { rewrite <- (lk_here E p v ca). apply H. destruct (lk (Node (p ++ x :: r) w cb) p) as [u|] eqn:Q; auto.
        apply (lk_prefix E) in Q as [s Q]. apply (f_equal (@length K)) in Q. rewrite !app_length in Q. simpl in Q. lia. }
      assert (Hh : forall c, In c ca -> hd_of c = Some x).
      { intros c Hc. destruct (wfc_In _ _ _ Ca Hc) as (Hp & Wc & Hq). destruct (canon_key E c Wc (Hq eq_refl)) as (k & u & Hk).
        destruct (child_lk E true _ c k u Ca Hc Hk) as (h & s & -> & Cx).
        assert (Z : lk (Node p v ca) (p ++ h :: s) = Some u) by (now rewrite (lk_child E true), Cx by auto).
        destruct (lk (Node (p ++ x :: r) w cb) (p ++ h :: s)) as [u'|] eqn:Q; [|apply H in Q; congruence].
        apply (lk_prefix E) in Q as [s' Q]. rewrite <- app_assoc in Q. apply app_inv_head in Q. simpl in Q.
        apply (child_Some_In E) in Cx as [_ Hh]. congruence. }
      apply wf_node in Wa as [_ Wa]. destruct (Wa eq_refl) as [_ H1]. apply (H1 Hv).
      destruct ca as [|c1 [|c2 ca]]; [|reflexivity|].
      - destruct (canon_key E _ Wb Hb) as (k & u & Hk). assert (Z : lk (Node p v []) k = None).
        { subst v. now rewrite lk_empty. }
        apply H in Z. congruence.
      - exfalso. apply wfc_cons in Ca as (_ & Hl & _ & _ & _). inversion Hl as [|? ? Hl1 _]; subst.
        apply (head_lt_neq E) in Hl1. apply Hl1. rewrite (Hh c1), (Hh c2); simpl; auto.
    Qed.
  End Prefix.

  Lemma same_prefix {V W} (a : rtree K V) (b : rtree K W) : wf true a -> wf true b ->
    (forall k, lk a k = None <-> lk b k = None) -> t_prefix a = t_prefix b.
  Proof.
    destruct a as [p v ca], b as [p2 w cb]. intros Wa Wb H. cbn [t_prefix].
    destruct (cp_cases E p p2) as [Q _|x r -> _|x r -> _|s x r y u -> -> Hxy _]; auto; exfalso.
    - exact (longer p v ca x r w cb Wa Wb H).
    - apply (longer p2 w cb x r v ca Wb Wa). intros k. symmetry. apply H.
    - assert (Ha : t_is_empty (Node (s ++ x :: r) v ca) = false) by (apply wf_true_ne in Wa; auto; destruct s; discriminate).
      destruct (canon_key E _ Wa Ha) as (k & z & Hk).
      destruct (lk (Node (s ++ y :: u) w cb) k) as [z'|] eqn:Q; [|apply H in Q; congruence].
      rewrite lk_strip in Hk. rewrite lk_strip in Q. destruct (fork_strip E s x r y u k Hxy) as [Z|Z]; rewrite Z in *; discriminate.
  Qed.

  (** ** Equality *)
  Section Eqb.
    Context {V : Type} (veqb : V -> V -> bool).
    Notation tree := (rtree K V).
    Notation oeqb := (option_eqb veqb).
    Definition agree (a b : tree) : Prop := forall k, oeqb (lk a k) (lk b k) = true.

    Lemma oeqb_none a b : oeqb a b = true -> (a = None <-> b = None).
    Proof. destruct a, b; simpl; split; congruence. Qed.
    Lemma list_eqb_keq (a b : list K) : list_eqb (keqb kcmp) a b = true <-> a = b.
    Proof.
      revert b. induction a as [|x a IH]; intros [|y b]; simpl; try (split; congruence).
      rewrite andb_true_iff, IH, (keqb_eq E). split; [intros [-> ->]; auto|intros [= -> ->]; auto].
    Qed.
    Lemma rt_eqb_node p v ca p2 w cb : rt_eqb kcmp veqb (Node p v ca) (Node p2 w cb) = true <->
      p = p2 /\ oeqb v w = true /\ Forall2 (fun x y => rt_eqb kcmp veqb x y = true) ca cb.
    Proof.
      cbn [rt_eqb]. rewrite !andb_true_iff, list_eqb_keq.
      set (go := fix go (l m : list tree) : bool := match l, m with
         | [], [] => true | x :: l', y :: m' => rt_eqb kcmp veqb x y && go l' m' | _, _ => false end).
      assert (H : forall l m, go l m = true <-> Forall2 (fun x y => rt_eqb kcmp veqb x y = true) l m).
      { induction l as [|x l IH]; intros [|y m]; simpl.
        - split; auto.
        - split; [discriminate|]. intros H. inversion H.
        - split; [discriminate|]. intros H. inversion H.
        - rewrite andb_true_iff, IH. split; [intros [H1 H2]; constructor; auto|]. intros H. inversion H; auto. }
      rewrite H. tauto.
    Qed.

    Lemma eqb_agree (a : tree) : forall b, rt_eqb kcmp veqb a b = true -> agree a b.
    Proof.
      induction a as [p v ca IH] using rtree_ind'. intros [p2 w cb] H k. apply rt_eqb_node in H as (<- & Hv & Hc).
      rewrite !lk_node. destruct (strip p k) as [[|c r]|]; auto.
      clear - IH Hc. revert IH. induction Hc as [|x y ca cb Hxy Hc IHc]; intros IH; auto.
      inversion IH as [|? ? Hx IH']; subst. apply Hx in Hxy. specialize (Hxy (c :: r)). rewrite !lkc_cons.
      destruct (lk x (c :: r)), (lk y (c :: r)); simpl in *; auto; discriminate.
    Qed.

    Lemma agree_children (ca cb : list tree) : wfc true ca -> wfc true cb ->
      (forall c k, oeqb (lkc ca (c :: k)) (lkc cb (c :: k)) = true) ->
      Forall2 (fun x y => agree x y) ca cb.
    Proof.
      revert cb. induction ca as [|x ca IH]; intros cb Ca Cb H.
      - destruct cb as [|y cb]; auto. exfalso. destruct (wfc_In _ _ y Cb (or_introl eq_refl)) as (Hp & Wy & Hq).
        destruct (canon_key E y Wy (Hq eq_refl)) as (k & u & Hk).
        destruct (child_lk E true _ y k u Cb (or_introl eq_refl) Hk) as (h & s & -> & Cx).
        specialize (H h s). rewrite (lkc_child E true (y :: cb)), Cx in H by auto. cbn [lko] in H. rewrite Hk in H. discriminate.
      - destruct cb as [|y cb].
        { exfalso. destruct (wfc_In _ _ x Ca (or_introl eq_refl)) as (Hp & Wx & Hq).
          destruct (canon_key E x Wx (Hq eq_refl)) as (k & u & Hk).
          destruct (child_lk E true _ x k u Ca (or_introl eq_refl) Hk) as (h & s & -> & Cx).
          specialize (H h s). rewrite (lkc_child E true (x :: ca)), Cx in H by auto. cbn [lko] in H. rewrite Hk in H. discriminate. }
        pose proof Ca as Ca'. pose proof Cb as Cb'.
        apply wfc_cons in Ca' as (Hpx & Hlx & Hqx & Wx & Ca'). apply wfc_cons in Cb' as (Hpy & Hly & Hqy & Wy & Cb').
        destruct (ne_hd x Hpx) as [hx Hx]. destruct (ne_hd y Hpy) as [hy Hy].
        assert (Kx : exists s u, lk x (hx :: s) = Some u).
        { destruct (canon_key E x Wx (Hqx eq_refl)) as (k & u & Hk). destruct (lk_head E x hx k u Hx Hk) as [s ->]. eauto. }
        assert (Ky : exists s u, lk y (hy :: s) = Some u).
        { destruct (canon_key E y Wy (Hqy eq_refl)) as (k & u & Hk). destruct (lk_head E y hy k u Hy Hk) as [s ->]. eauto. }
        assert (Lx : forall t, In t ca -> forall h, hd_of t = Some h -> kcmp hx h = Lt).
        { intros t Ht h Hh. rewrite Forall_forall in Hlx. apply Hlx in Ht. unfold head_lt in Ht. unfold hd_of in *.
          destruct (t_prefix x), (t_prefix t); simpl in *; try discriminate; congruence. }
        assert (Ly : forall t, In t cb -> forall h, hd_of t = Some h -> kcmp hy h = Lt).
        { intros t Ht h Hh. rewrite Forall_forall in Hly. apply Hly in Ht. unfold head_lt in Ht. unfold hd_of in *.
          destruct (t_prefix y), (t_prefix t); simpl in *; try discriminate; congruence. }
        assert (Eh : kcmp hx hy = Eq).
        { destruct (kcmp hx hy) eqn:Q; auto; exfalso.
          - destruct Kx as (s & u & Hk). specialize (H hx s). rewrite (lkc_cons x), Hk in H.
            destruct (lkc (y :: cb) (hx :: s)) as [u'|] eqn:Q'; [|discriminate].
            apply (lkc_In E true) in Q' as (t & [<-|Ht] & Hl); auto.
            + destruct (lk_head E y hy _ _ Hy Hl) as [s' [= -> ->]]. rewrite (kcmp_refl E) in Q. discriminate.
            + destruct (child_lk E true _ t _ _ Cb' Ht Hl) as (h & s' & [= <- <-] & Cx).
              apply (child_Some_In E) in Cx as [_ Hh]. apply (Ly t Ht) in Hh. apply (cmp_gt_lt L) in Hh. congruence.
          - destruct Ky as (s & u & Hk). specialize (H hy s). rewrite (lkc_cons y), Hk in H.
            destruct (lkc (x :: ca) (hy :: s)) as [u'|] eqn:Q'; [|discriminate].
            apply (lkc_In E true) in Q' as (t & [<-|Ht] & Hl); auto.
            + destruct (lk_head E x hx _ _ Hx Hl) as [s' [= -> ->]]. rewrite (kcmp_refl E) in Q. discriminate.
            + destruct (child_lk E true _ t _ _ Ca' Ht Hl) as (h & s' & [= <- <-] & Cx).
              apply (child_Some_In E) in Cx as [_ Hh]. apply (Lx t Ht) in Hh. congruence. }
        apply E in Eh. subst hy.
        assert (Nx : forall s, lkc ca (hx :: s) = None).
        { intros s. destruct (lkc ca (hx :: s)) as [u|] eqn:Q; auto. apply (lkc_In E true) in Q as (t & Ht & Hl); auto.
          destruct (child_lk E true _ t _ _ Ca' Ht Hl) as (h & s' & [= <- <-] & Cx).
          apply (child_Some_In E) in Cx as [_ Hh]. apply (Lx t Ht) in Hh. rewrite (kcmp_refl E) in Hh. discriminate. }
        assert (Ny : forall s, lkc cb (hx :: s) = None).
        { intros s. destruct (lkc cb (hx :: s)) as [u|] eqn:Q; auto. apply (lkc_In E true) in Q as (t & Ht & Hl); auto.
          destruct (child_lk E true _ t _ _ Cb' Ht Hl) as (h & s' & [= <- <-] & Cx).
          apply (child_Some_In E) in Cx as [_ Hh]. apply (Ly t Ht) in Hh. rewrite (kcmp_refl E) in Hh. discriminate. }
        assert (Ox : forall c s, c <> hx -> lk x (c :: s) = None).
        { intros c s Hc. destruct (lk x (c :: s)) eqn:Q; auto. destruct (lk_head E x hx _ _ Hx Q) as [s' [= -> _]]. congruence. }
        assert (Oy : forall c s, c <> hx -> lk y (c :: s) = None).
        { intros c s Hc. destruct (lk y (c :: s)) eqn:Q; auto. destruct (lk_head E y hx _ _ Hy Q) as [s' [= -> _]]. congruence. }
        constructor.
        + intros k. destruct k as [|c s].
          { now rewrite !lk_nil by auto. }
          destruct (keqb kcmp c hx) eqn:Q.
          * apply (keqb_eq E) in Q as ->. specialize (H hx s). rewrite !lkc_cons, Nx, Ny in H.
            now destruct (lk x (hx :: s)), (lk y (hx :: s)).
          * apply (keqb_neq E) in Q. now rewrite Ox, Oy by auto.
        + apply IH; auto. intros c s. destruct (keqb kcmp c hx) eqn:Q.
          * apply (keqb_eq E) in Q as ->. now rewrite Nx, Ny.
          * apply (keqb_neq E) in Q. specialize (H c s). now rewrite !lkc_cons, Ox, Oy in H by auto.
    Qed.

    Lemma agree_eqb (a : tree) : forall b, wf true a -> wf true b -> agree a b -> rt_eqb kcmp veqb a b = true.
    Proof.
      induction a as [p v ca IH] using rtree_ind'. intros [p2 w cb] Wa Wb H.
      pose proof (same_prefix _ _ Wa Wb (fun k => oeqb_none _ _ (H k))) as Hp. cbn [t_prefix] in Hp. subst p2.
      pose proof (wf_wfc _ _ Wa) as Ca. cbn [t_children] in Ca. pose proof (wf_wfc _ _ Wb) as Cb. cbn [t_children] in Cb.
      apply rt_eqb_node. split; auto. split.
      - specialize (H p). now rewrite !(lk_here E) in H.
      - assert (F : Forall2 (fun x y => agree x y) ca cb).
        { apply agree_children; auto. intros c k. specialize (H (p ++ c :: k)). now rewrite !lk_node, (strip_app E) in H. }
        clear H Wa Wb. revert IH Ca Cb. induction F as [|x y ca cb Hxy F IHF]; intros IH Ca Cb; auto.
        inversion IH as [|? ? Hx IH']; subst. apply wfc_cons in Ca as (_ & _ & _ & Wx & Ca). apply wfc_cons in Cb as (_ & _ & _ & Wy & Cb).
        constructor; auto.
    Qed.
  End Eqb.
End Canon.
