(** The operations of HeapOps.v that only read their arguments refine those of RadixModel.v. *)
From Coq Require Import Permutation.
From Verif Require Export HeapOpsRefine.

Section HeapOpsPure.
  Context {K V : Type} (kcmp : K -> K -> comparison) (strat : nat -> nat -> bool) (arc : bool).
  Notation tree := (rtree K V).
  Notation node := (node K V).
  Notation heap := (heap K V).
  Implicit Types (h : heap) (ns C : list node) (ts : list tree).

  Definition precok (rec1 : tree -> tree -> res tree) (rec2 : heap -> node -> node -> option (heap * node)) (F : nat) : Prop :=
    forall h C a b x y r, Inv h C -> St h C -> within h C a -> within h C b -> den h a x -> den h b y ->
      t_size x + t_size y < F -> rec1 x y = Ok r -> yield1 h C (rec2 h a b) r.

  Lemma all_frame h h' C ns ts : frame h h' C -> (forall m, In m ns -> within h C m) -> dens h ns ts ->
    dens h' ns ts /\ (forall m, In m ns -> within h' C m).
  Proof. intros F W D. split; [now apply (frame_den _ _ C F)|]. intros m Hm. eapply frame_within; eauto. Qed.

  Section PureOk.
    Context (rec1 : tree -> tree -> res tree) (rec2 : heap -> node -> node -> option (heap * node)) (F na nb : nat) (cb : bool).
    Hypothesis Hrec : precok rec1 rec2 F.
    Hypothesis Hsum : na + nb < F.
    Context (h0 : heap) (C : list node).
    Hypothesis S0 : St h0 C.

    Definition prel (s1 : vstate tree tree tree) (s2 : @pst K V) : Prop :=
      (Inv (ps_h s2) (ps_r s2 ++ C) /\ dens (ps_h s2) (ps_r s2) (vs_r s1)) /\
      (dens (ps_h s2) (ps_a s2) (vs_a s1) /\ (forall m, In m (ps_a s2) -> within (ps_h s2) C m)) /\
      (dens (ps_h s2) (ps_b s2) (vs_b s1) /\ (forall m, In m (ps_b s2) -> within (ps_h s2) C m)) /\
      (frame h0 (ps_h s2) C /\ mono h0 (ps_h s2)) /\
      ((forall x, In x (vs_a s1) -> t_size x <= na) /\ (forall x, In x (vs_b s1) -> t_size x <= nb)).

    Lemma In_firstn {X} n (l : list X) x : In x (firstn n l) -> In x l.
    Proof. intros H. rewrite <- (firstn_skipn n l). apply in_or_app. now left. Qed.

    (** a converted element is pushed *)
    Lemma ps_push_ok (cv : bool) l : forall ts h r tr tr', Inv h (r ++ C) -> St h C -> dens h r tr -> dens h l ts ->
      (forall m, In m l -> within h C m) -> (forall x, In x ts -> t_size x <= F) ->
      push_all (conv1 cv) ts tr = (tr', true) ->
      exists h' r', ps_push arc F cv h l r = Some (h', r') /\ Inv h' (r' ++ C) /\ dens h' r' tr' /\ frame h h' C /\ mono h h'.
    Proof.
      induction l as [|x l IH]; intros ts h r tr tr' I S Dr Dl W Z H; inversion Dl; subst; cbn [push_all ps_push] in *.
      - injection H as <-. exists h, r. split; auto. split; auto. split; auto. split; [apply frame_refl|apply mono_refl].
      - destruct cv; [|discriminate]. unfold conv1 at 1 in H. unfold mat_conv in H at 1. destruct (mat_short t 0) as [t'| |] eqn:Qm; try discriminate.
        destruct (h_mat_ok arc F h (r ++ C) x t 0 t') as (h1 & x' & -> & I1 & D1 & F1 & M1); auto.
        { eapply St_incl; [|exact S]. apply incl_r. }
        { eapply within_incl; [apply incl_r|]. apply W. now left. }
        { apply Z. now left. }
        assert (FC : frame h h1 C) by (eapply frame_incl; [apply incl_r|exact F1]).
        destruct (all_frame h h1 C l ts0 FC) as [Dl1 W1]; [intros; apply W; now right|auto|].
        destruct (IH ts0 h1 (r ++ [x']) (tr ++ [t']) tr') as (h2 & r2 & -> & I2 & D2 & F2 & M2); auto.
        { rewrite <- app_assoc. cbn [app]. now rewrite <- inv_mid. }
        { eapply St_frame; eauto. }
        { apply dens_join; [eapply frame_dens_own; [exact F1|apply incl_l|auto]|constructor; auto; constructor]. }
        { intros y Hy. apply Z. now right. }
        exists h2, r2. split; auto. split; auto. split; auto. split; [eapply frame_trans; eauto|eapply mono_trans; eauto].
    Qed.
    Lemma prel_adv_a s1 s2 n take : prel s1 s2 -> osim prel (adv_a (vs_msm mat_conv (conv1 cb)) s1 n take) (ps_adv_a arc F s2 n take).
    Proof.
      intros ((I & Dr) & (Da & Wa) & (Db & Wb) & (Fr & Mo) & Za & Zb). destruct s1 as [a1 b1 r1], s2 as [h a b r].
      cbn [ps_h ps_a ps_b ps_r vs_a vs_b vs_r] in *. cbn [vs_msm adv_a]. unfold vs_adv_a, ps_adv_a, si_take_front, si_drop_front. cbn [ps_h ps_a ps_b ps_r vs_a vs_b vs_r].
      rewrite (dens_length _ _ _ Da). destruct (n <=? length a1); [|destruct take; exact Logic.I].
      destruct take.
      - destruct (push_all mat_conv (firstn n a1) r1) as [r1' ok] eqn:Q. destruct ok; [|exact Logic.I]. cbn [osim].
        destruct (ps_push_ok true (firstn n a) (firstn n a1) h r r1 r1') as (h1 & r' & -> & I1 & D1 & F1 & M1); auto.
        { eapply St_frame; eauto. } { now apply dens_firstn. } { intros m Hm. apply Wa. eapply In_firstn; eauto. }
        { intros x Hx. apply In_firstn in Hx. specialize (Za x Hx). lia. }
        eexists. split; [reflexivity|]. unfold prel. cbn [ps_h ps_a ps_b ps_r vs_a vs_b vs_r].
        split; [auto|]. split; [apply (all_frame h h1 C); auto; [intros m Hm; apply Wa; eapply In_skipn; eauto|now apply dens_skipn]|].
        split; [now apply (all_frame h h1 C)|]. split; [split; [eapply frame_trans; eauto|eapply mono_trans; eauto]|]. split; auto. intros x Hx. apply Za. eapply In_skipn; eauto.
      - cbn [osim]. eexists. split; [reflexivity|]. unfold prel. cbn [ps_h ps_a ps_b ps_r vs_a vs_b vs_r].
        split; [auto|]. split; [split; [now apply dens_skipn|intros m Hm; apply Wa; eapply In_skipn; eauto]|]. split; [auto|]. split; [auto|]. split; auto.
        intros x Hx. apply Za. eapply In_skipn; eauto.
    Qed.
    Lemma prel_adv_b s1 s2 n take : prel s1 s2 -> osim prel (adv_b (vs_msm mat_conv (conv1 cb)) s1 n take) (ps_adv_b arc F cb s2 n take).
    Proof.
      intros ((I & Dr) & (Da & Wa) & (Db & Wb) & (Fr & Mo) & Za & Zb). destruct s1 as [a1 b1 r1], s2 as [h a b r].
      cbn [ps_h ps_a ps_b ps_r vs_a vs_b vs_r] in *. cbn [vs_msm adv_b]. unfold vs_adv_b, ps_adv_b, si_take_front, si_drop_front. cbn [ps_h ps_a ps_b ps_r vs_a vs_b vs_r].
      rewrite (dens_length _ _ _ Db). destruct (n <=? length b1); [|destruct take; exact Logic.I].
      destruct take.
      - destruct (push_all (conv1 cb) (firstn n b1) r1) as [r1' ok] eqn:Q. destruct ok; [|exact Logic.I]. cbn [osim].
        destruct (ps_push_ok cb (firstn n b) (firstn n b1) h r r1 r1') as (h1 & r' & -> & I1 & D1 & F1 & M1); auto.
        { eapply St_frame; eauto. } { now apply dens_firstn. } { intros m Hm. apply Wb. eapply In_firstn; eauto. }
        { intros x Hx. apply In_firstn in Hx. specialize (Zb x Hx). lia. }
        eexists. split; [reflexivity|]. unfold prel. cbn [ps_h ps_a ps_b ps_r vs_a vs_b vs_r].
        split; [auto|]. split; [now apply (all_frame h h1 C)|].
        split; [apply (all_frame h h1 C); auto; [intros m Hm; apply Wb; eapply In_skipn; eauto|now apply dens_skipn]|].
        split; [split; [eapply frame_trans; eauto|eapply mono_trans; eauto]|]. split; auto. intros x Hx. apply Zb. eapply In_skipn; eauto.
      - cbn [osim]. eexists. split; [reflexivity|]. unfold prel. cbn [ps_h ps_a ps_b ps_r vs_a vs_b vs_r].
        split; [auto|]. split; [auto|]. split; [split; [now apply dens_skipn|intros m Hm; apply Wb; eapply In_skipn; eauto]|]. split; [auto|]. split; auto.
        intros x Hx. apply Zb. eapply In_skipn; eauto.
    Qed.
    Lemma prel_coll s1 s2 : prel s1 s2 -> osim prel (coll_pure rec1 s1) (h_pcoll rec2 s2).
    Proof.
      intros ((I & Dr) & (Da & Wa) & (Db & Wb) & (Fr & Mo) & Za & Zb). destruct s1 as [a1 b1 r1], s2 as [h a b r].
      cbn [ps_h ps_a ps_b ps_r vs_a vs_b vs_r] in *. unfold coll_pure, h_pcoll. cbn [ps_h ps_a ps_b ps_r vs_a vs_b vs_r].
      destruct a1 as [|x a1]; [exact Logic.I|]. destruct b1 as [|y b1]; [exact Logic.I|]. inversion Da as [|av ? a' ? Dav Da']; subst. inversion Db as [|bv ? b' ? Dbv Db']; subst.
      destruct (rec1 x y) as [z| |] eqn:Qr; try exact Logic.I. cbn [osim].
      destruct (Hrec h (r ++ C) av bv x y z) as (h1 & zn & -> & I1 & D1 & F1 & M1); auto.
      { eapply St_incl; [|eapply St_frame; eauto]. apply incl_r. }
      { eapply within_incl; [apply incl_r|]. apply Wa. now left. }
      { eapply within_incl; [apply incl_r|]. apply Wb. now left. }
      { specialize (Za x ltac:(now left)). specialize (Zb y ltac:(now left)). lia. }
      rewrite (n_is_empty_ok _ _ _ D1).
      assert (R' : forall h2 r2 tr2, Inv h2 (r2 ++ C) -> dens h2 r2 tr2 -> frame h1 h2 (r ++ C) -> mono h1 h2 ->
        prel (MkVs a1 b1 tr2) (MkPst h2 a' b' r2)).
      { intros h2 r2 tr2 I2 D2 F2 M2. assert (FC : frame h h2 C) by (eapply frame_trans; [eapply frame_incl; [apply incl_r|exact F1]|eapply frame_incl; [apply incl_r|exact F2]]).
        unfold prel. cbn [ps_h ps_a ps_b ps_r vs_a vs_b vs_r]. split; [auto|].
        split; [apply (all_frame h h2 C); auto; intros; apply Wa; now right|]. split; [apply (all_frame h h2 C); auto; intros; apply Wb; now right|].
        split; [split; [eapply frame_trans; eauto|eapply mono_trans; [exact Mo|eapply mono_trans; eauto]]|].
        split; [intros u Hu; apply Za; now right|intros u Hu; apply Zb; now right]. }
      assert (Dr1 : dens h1 r r1) by (eapply frame_dens_own; [exact F1|apply incl_l|auto]).
      destruct (t_is_empty z).
      - destruct (drop_frame h1 [zn] (r ++ C) I1) as (h2 & -> & I2 & F2 & M2). eexists. split; [reflexivity|]. apply R'; auto.
        eapply frame_dens_own; [exact F2|apply incl_l|auto].
      - eexists. split; [reflexivity|]. apply R'; [|apply dens_join; auto; constructor; auto; constructor|apply frame_refl|apply mono_refl].
        rewrite <- app_assoc. cbn [app]. now rewrite <- inv_mid.
    Qed.
    Lemma prel_msim ta tb : msim (op_pure kcmp rec1 ta tb mat_conv (conv1 cb)) (h_pop kcmp arc rec2 F ta tb cb) prel.
    Proof.
      constructor; intros; unfold op_pure, h_pop in *; cbn [mo_a mo_b mo_cmp mo_from_a mo_from_b mo_coll] in *.
      - destruct H as (_ & (D & _) & _). symmetry. eapply dens_length; eauto.
      - destruct H as (_ & _ & (D & _) & _). symmetry. eapply dens_length; eauto.
      - destruct H as (_ & (Da & _) & (Db & _) & _). pose proof (dens_nth _ _ _ i Da) as E1. pose proof (dens_nth _ _ _ j Db) as E2.
        rewrite H0, H1 in E1. rewrite H2, H3 in E2. now apply (head_cmp_sim kcmp (ps_h s2)).
      - now apply prel_adv_a.
      - now apply prel_adv_b.
      - now apply prel_coll.
    Qed.
    Lemma children_pure_ok ta tb la lb a b l : Inv h0 C -> dens h0 la a -> dens h0 lb b ->
      (forall m, In m la -> within h0 C m) -> (forall m, In m lb -> within h0 C m) ->
      (forall x, In x a -> t_size x <= na) -> (forall x, In x b -> t_size x <= nb) ->
      children_pure kcmp strat rec1 ta tb mat_conv (conv1 cb) a b = Ok l ->
      yields h0 C (h_pmerge kcmp strat arc rec2 F ta tb cb h0 la lb) l.
    Proof.
      intros I Da Db Wa Wb Za Zb H. unfold children_pure, vs_merge in H.
      assert (R0 : prel (vs_new a b) (MkPst h0 la lb [])).
      { unfold prel. cbn. split; [split; [auto|constructor]|]. split; auto. split; auto. split; auto. split; [apply frame_refl|apply mono_refl]. }
      pose proof (merge_sim _ _ _ (prel_msim ta tb) strat _ _ R0) as Sim. unfold h_pmerge.
      assert (Fin : forall s1 s2, prel s1 s2 -> vs_r s1 = l -> yields h0 C (Some (ps_h s2, ps_r s2)) l).
      { intros s1 s2 ((I2 & Dr) & _ & _ & (F2 & M2) & _) <-. exists (ps_h s2), (ps_r s2). auto. }
      destruct (merge (op_pure kcmp rec1 ta tb mat_conv (conv1 cb)) strat (vs_new a b)) as [s1|s1|s1|] eqn:Q; cbn [to_res] in H; try discriminate; injection H as H;
        cbn [osim] in Sim; destruct Sim as (s2 & -> & R2); eapply Fin; eauto.
    Qed.
  End PureOk.

  Section PureKids.
    Context (rec1 : tree -> tree -> res tree) (rec2 : heap -> node -> node -> option (heap * node)) (F : nat) (ta tb cb : bool) (h : heap) (C : list node) (a b : node)
            (pa pb : list K) (va vb : option V) (ca cs : list tree).
    Hypothesis Hrec : precok rec1 rec2 F.
    Hypothesis I : Inv h C.
    Hypothesis S0 : St h C.
    Hypothesis Wa : within h C a.
    Hypothesis Wb : within h C b.
    Hypothesis Da : den h a (Node pa va ca).
    Hypothesis Db : den h b (Node pb vb cs).
    Hypothesis Hs : t_size (Node pa va ca) + t_size (Node pb vb cs) <= F.
    Notation cp := (children_pure kcmp strat rec1 ta tb mat_conv (conv1 cb)).

    Lemma pkids_ok l : cp ca cs = Ok l -> yields h C (h_pkids kcmp strat arc rec2 F ta tb cb h a b) l.
    Proof.
      intros H. destruct (kids_of_ok _ _ _ _ _ Da) as (_ & _ & la & Qa & Dla). destruct (kids_of_ok _ _ _ _ _ Db) as (_ & _ & lb & Qb & Dlb).
      unfold h_pkids. rewrite Qa, Qb. pose proof (size_pos (Node pa va ca)). pose proof (size_pos (Node pb vb cs)).
      eapply (children_pure_ok rec1 rec2 F (t_size (Node pa va ca) - 1) (t_size (Node pb vb cs) - 1) cb Hrec ltac:(lia) h C S0 ta tb la lb ca cs l I Dla Dlb); auto;
        [exact (kids_within _ _ _ _ Wa Qa)|exact (kids_within _ _ _ _ Wb Qb)|apply (kid_size pa va)|apply (kid_size pb vb)].
    Qed.
    (** a temporary is dropped after the merge *)
    Lemma drop_tmp h1 tmp r l : frame h h1 C -> mono h h1 -> yields h1 (tmp :: C) r l ->
      yields h C (match r with Some (h2, r) => match drop_all h2 [tmp] with Some h3 => Some (h3, r) | None => None end | None => None end) l.
    Proof.
      intros F1 M1 (h2 & ns & -> & I2 & D2 & F2 & M2).
      destruct (drop_frame h2 [tmp] (ns ++ C)) as (h3 & -> & I3 & F3 & M3); [cbn [app]; now rewrite inv_mid|].
      exists h3, ns. split; auto. split; auto. split; [eapply frame_dens_own; [exact F3|apply incl_l|auto]|]. split.
      - eapply frame_trans; [exact F1|]. eapply frame_trans; [eapply frame_incl; [|exact F2]; intros y Hy; now right|]. eapply frame_incl; [apply incl_r|exact F3].
      - eapply mono_trans; [exact M1|]. eapply mono_trans; eauto.
    Qed.
    Lemma pmat_b_ok n u l : mat_short (Node pb vb cs) n = Ok u -> cp ca [u] = Ok l ->
      yields h C (h_pmat_b kcmp strat arc rec2 F ta tb cb n h a b) l.
    Proof.
      intros Hm H. destruct (kids_of_ok _ _ _ _ _ Da) as (_ & _ & la & Qa & Dla). unfold h_pmat_b. rewrite Qa.
      pose proof (size_pos (Node pa va ca)). pose proof (kids_within _ _ _ _ Wa Qa) as Wla.
      destruct (h_mat_ok arc F h C b (Node pb vb cs) n u) as (h1 & tmp & -> & I1 & D1 & F1 & M1); auto; [lia|].
      eapply drop_tmp; [exact F1|exact M1|].
      assert (In1 : incl C (tmp :: C)) by (intros y Hy; now right).
      destruct (all_frame h h1 C la ca F1 Wla Dla) as [Dla1 Wla1].
      eapply (children_pure_ok rec1 rec2 F (t_size (Node pa va ca) - 1) (t_size u)); eauto.
      - rewrite (mat_short_size _ _ _ Hm). lia.
      - eapply St_incl; [exact In1|]. eapply St_frame; eauto.
      - constructor; [exact D1|constructor].
      - intros m Hm'. eapply within_incl; [exact In1|]. auto.
      - intros m [<-|[]]. right. left. now left.
      - intros x Hx. now apply (kid_size pa va).
      - intros x [<-|[]]. lia.
    Qed.
    Lemma pmat_a_ok n u l : mat_short (Node pa va ca) n = Ok u -> cp [u] cs = Ok l ->
      yields h C (h_pmat_a kcmp strat arc rec2 F ta tb cb n h a b) l.
    Proof.
      intros Hm H. destruct (kids_of_ok _ _ _ _ _ Db) as (_ & _ & lb & Qb & Dlb). unfold h_pmat_a. rewrite Qb.
      pose proof (size_pos (Node pb vb cs)). pose proof (kids_within _ _ _ _ Wb Qb) as Wlb.
      destruct (h_mat_ok arc F h C a (Node pa va ca) n u) as (h1 & tmp & -> & I1 & D1 & F1 & M1); auto; [lia|].
      eapply drop_tmp; [exact F1|exact M1|].
      assert (In1 : incl C (tmp :: C)) by (intros y Hy; now right).
      destruct (all_frame h h1 C lb cs F1 Wlb Dlb) as [Dlb1 Wlb1].
      eapply (children_pure_ok rec1 rec2 F (t_size u) (t_size (Node pb vb cs) - 1)); eauto.
      - rewrite (mat_short_size _ _ _ Hm). lia.
      - eapply St_incl; [exact In1|]. eapply St_frame; eauto.
      - constructor; [exact D1|constructor].
      - intros m [<-|[]]. right. left. now left.
      - intros m Hm'. eapply within_incl; [exact In1|]. auto.
      - intros x [<-|[]]. lia.
      - intros x Hx. now apply (kid_size pb vb).
    Qed.
  End PureKids.
  Lemma build_ok h C p v r l : St h C -> yields h C r l -> yield1 h C (build arc p v r) (t_unsplit (Node p v l)).
  Proof.
    intros S (h1 & ns & -> & I1 & D1 & F1 & M1). unfold build. apply unsplit_yield.
    destruct (n_new_ok arc p v ns l h1 C I1) as (h2 & n & -> & I2 & D2 & X2 & M2); auto; [eapply St_frame; eauto|].
    exists h2, n. split; auto. split; auto. split; auto. split; [eapply frame_trans; [exact F1|now apply frame_ext]|eapply mono_trans; eauto].
  Qed.
  Lemma mat_all_ok F l : forall h C ts ts', Inv h C -> St h C -> (forall m, In m l -> within h C m) -> dens h l ts -> (forall x, In x ts -> t_size x <= F) ->
    mat_all ts = Ok ts' -> yields h C (h_mat_all arc F h l) ts'.
  Proof.
    induction l as [|x l IH]; intros h C ts ts' I S W D Z H; inversion D; subst; cbn [mat_all h_mat_all] in *.
    - injection H as <-. exists h, []. split; auto. split; auto. split; [constructor|]. split; [apply frame_refl|apply mono_refl].
    - destruct (mat_short t 0) as [t'| |] eqn:Q1; try discriminate. cbn [rbind] in H. destruct (mat_all ts0) as [l'| |] eqn:Q2; try discriminate. injection H as <-.
      destruct (h_mat_ok arc F h C x t 0 t') as (h1 & n1 & -> & I1 & D1 & F1 & M1); auto; [apply W; now left|apply Z; now left|].
      destruct (all_frame h h1 C l ts0 F1) as [Dl1 W1]; [intros; apply W; now right|auto|].
      assert (In1 : incl C (n1 :: C)) by (intros y Hy; now right).
      destruct (IH h1 (n1 :: C) ts0 l' I1) as (h2 & l2 & -> & I2 & D2 & F2 & M2); auto.
      + eapply St_incl; [exact In1|]. eapply St_frame; eauto.
      + intros m Hm. eapply within_incl; [exact In1|auto].
      + intros y Hy. apply Z. now right.
      + exists h2, (n1 :: l2). split; auto. split; [cbn [app]; now rewrite inv_mid|]. split.
        { constructor; auto. apply (frame_pres _ _ _ F2); auto. now left. }
        split; [|eapply mono_trans; eauto]. eapply frame_trans; [exact F1|]. eapply frame_incl; [exact In1|exact F2].
  Qed.

  Ltac open := match goal with
    | H : rbind ?r _ = Ok _ |- _ => let Q := fresh "Q" in destruct r eqn:Q; cbn [rbind] in H; [|discriminate|discriminate]
    end.
  Ltac fin := repeat match goal with H : Ok _ = Ok _ |- _ => injection H as H; subst end.
  Ltac start := match goal with
    | D : den ?h ?av ?x, Du : den ?h ?bv ?y |- _ =>
        rewrite (den_prefix _ _ _ D), (den_prefix _ _ _ Du);
        try rewrite (den_value _ _ _ D); try rewrite (den_value _ _ _ Du)
    end.
  Ltac sz := cbn [t_size] in *; lia.

  Lemma outer_pure_refines f F : forall k, precok (outer_pure kcmp strat f k) (h_outer_pure kcmp strat arc f F) F.
  Proof.
    induction F as [|F IH]; intros k h C a b x y r I S Wa Wb Da Db Hs H; [lia|]. destruct k as [|k]; [discriminate|].
    cbn [outer_pure] in H. cbn [h_outer_pure]. specialize (IH k). open. fin. start.
    destruct x as [p v c], y as [pu vu cu]. cbn [t_prefix t_value t_children] in *. set (n := common_prefix kcmp p pu) in *.
    destruct ((n =? length p) && (n =? length pu)); [|destruct (n =? length p); [|destruct (n =? length pu)]].
    - open. fin. apply build_ok; auto. eapply (pkids_ok _ _ F true true true); eauto. sz.
    - open. open. fin. apply build_ok; auto. eapply (pmat_b_ok _ _ F true true true); eauto. sz.
    - open. open. fin. apply build_ok; auto. eapply (pmat_a_ok _ _ F true true true); eauto. sz.
    - open. match goal with Hm : mat_short _ _ = Ok ?z |- _ => rename z into ta, Hm into Ha end.
      open. match goal with Hm : mat_short (Node pu _ _) _ = Ok ?z |- _ => rename z into tb, Hm into Hb end. open. fin. apply build_ok; auto.
      destruct (h_mat_ok arc F h C a (Node p v c) n ta) as (h1 & na & -> & I1 & D1 & F1 & M1); auto; [sz|].
      assert (In1 : incl C (na :: C)) by (intros z Hz; now right).
      destruct (h_mat_ok arc F h1 (na :: C) b (Node pu vu cu) n tb) as (h2 & nb & -> & I2 & D2 & F2 & M2); auto.
      { eapply St_incl; [exact In1|]. eapply St_frame; eauto. }
      { eapply within_incl; [exact In1|]. eapply frame_within; eauto. }
      { eapply (frame_den _ _ C F1); eauto. } { sz. }
      destruct (vec_sort_ok kcmp h2 C [na; nb] [ta; tb] x) as (h3 & ns & Q3 & I3 & D3 & F3 & M3); auto.
      { eapply inv_perm; [apply perm_swap|exact I2]. }
      { constructor; [apply (frame_pres _ _ _ F2); auto; now left|]. constructor; auto. constructor. }
      exists h3, ns. split; auto. split; auto. split; auto. split.
      + eapply frame_trans; [exact F1|]. eapply frame_trans; [eapply frame_incl; [exact In1|exact F2]|exact F3].
      + eapply mono_trans; [exact M1|]. eapply mono_trans; eauto.
  Qed.
  Lemma inner_pure_refines f F : forall k, precok (inner_pure kcmp strat f k) (h_inner_pure kcmp strat arc f F) F.
  Proof.
    induction F as [|F IH]; intros k h C a b x y r I S Wa Wb Da Db Hs H; [lia|]. destruct k as [|k]; [discriminate|].
    cbn [inner_pure] in H. cbn [h_inner_pure]. specialize (IH k). open. fin. start.
    destruct x as [p v c], y as [pu vu cu]. cbn [t_prefix t_value t_children] in *. set (n := common_prefix kcmp p pu) in *.
    destruct ((n =? length p) && (n =? length pu)); [|destruct (n =? length p); [|destruct (n =? length pu)]].
    - open. fin. apply build_ok; auto. eapply (pkids_ok _ _ F false false false); eauto. sz.
    - open. open. fin. apply build_ok; auto. eapply (pmat_b_ok _ _ F false false false); eauto. sz.
    - open. open. fin. apply build_ok; auto. eapply (pmat_a_ok _ _ F false false false); eauto. sz.
    - fin. apply build_ok; auto. exists h, []. split; auto. split; auto. split; [constructor|]. split; [apply frame_refl|apply mono_refl].
  Qed.
  Lemma left_pure_refines f F : forall k, precok (left_pure kcmp strat f k) (h_left_pure kcmp strat arc f F) F.
  Proof.
    induction F as [|F IH]; intros k h C a b x y r I S Wa Wb Da Db Hs H; [lia|]. destruct k as [|k]; [discriminate|].
    cbn [left_pure] in H. cbn [h_left_pure]. specialize (IH k). open. fin. start.
    destruct x as [p v c], y as [pu vu cu]. cbn [t_prefix t_value t_children] in *. set (n := common_prefix kcmp p pu) in *.
    destruct ((n =? length p) && (n =? length pu)); [|destruct (n =? length p); [|destruct (n =? length pu)]].
    - open. fin. apply build_ok; auto. eapply (pkids_ok _ _ F true false false); eauto. sz.
    - open. open. fin. apply build_ok; auto. eapply (pmat_b_ok _ _ F true false false); eauto. sz.
    - open. open. fin. apply build_ok; auto. eapply (pmat_a_ok _ _ F true false false); eauto. sz.
    - open. fin. apply build_ok; auto. destruct (kids_of_ok _ _ _ _ _ Da) as (_ & _ & la & Qa & Dla). rewrite Qa.
      apply (mat_all_ok F la h C c x I S (kids_within _ _ _ _ Wa Qa) Dla); auto. intros z Hz. pose proof (size_children (Node p v c) z Hz). lia.
  Qed.

  (** ** Predicates *)
  Definition brel h (na nb : nat) (s1 : bstate tree tree) (s2 : bstate node node) : Prop :=
    dens h (bs_a s2) (bs_a s1) /\ dens h (bs_b s2) (bs_b s1) /\ bs_r s1 = bs_r s2 /\
    (forall x, In x (bs_a s1) -> t_size x <= na) /\ (forall x, In x (bs_b s1) -> t_size x <= nb).
  Lemma bool_msim h na nb rec1 rec2 ta :
    (forall a b x y r, den h a x -> den h b y -> t_size x <= na -> t_size y <= nb -> rec1 x y = Ok r -> rec2 a b = Ok r) ->
    msim (op_bool kcmp rec1 ta) (h_op_bool kcmp rec2 ta) (brel h na nb).
  Proof.
    intros Hr.
    assert (A : forall s1 s2 n take, brel h na nb s1 s2 -> osim (brel h na nb) (adv_a bs_msm s1 n take) (adv_a bs_msm s2 n take)).
    { intros [a1 b1 r1] [a b r] n take (Da & Db & E & Za & Zb). cbn [bs_a bs_b bs_r] in *. cbn [bs_msm adv_a]. unfold bs_adv_a, si_drop_front. cbn [bs_a bs_b bs_r].
      destruct take; [cbn [osim]; eexists; split; [reflexivity|]; unfold brel; cbn [bs_a bs_b bs_r]; auto|].
      rewrite (dens_length _ _ _ Da). destruct (n <=? length a1); [|exact Logic.I]. cbn [osim]. eexists. split; [reflexivity|]. unfold brel. cbn [bs_a bs_b bs_r].
      split; [now apply dens_skipn|]. split; auto. split; auto. split; auto. intros x Hx. apply Za. eapply In_skipn; eauto. }
    assert (B : forall s1 s2 n take, brel h na nb s1 s2 -> osim (brel h na nb) (adv_b bs_msm s1 n take) (adv_b bs_msm s2 n take)).
    { intros [a1 b1 r1] [a b r] n take (Da & Db & E & Za & Zb). cbn [bs_a bs_b bs_r] in *. cbn [bs_msm adv_b]. unfold bs_adv_b, si_drop_front. cbn [bs_a bs_b bs_r].
      destruct take; [cbn [osim]; eexists; split; [reflexivity|]; unfold brel; cbn [bs_a bs_b bs_r]; auto|].
      rewrite (dens_length _ _ _ Db). destruct (n <=? length b1); [|exact Logic.I]. cbn [osim]. eexists. split; [reflexivity|]. unfold brel. cbn [bs_a bs_b bs_r].
      split; auto. split; [now apply dens_skipn|]. split; auto. split; auto. intros x Hx. apply Zb. eapply In_skipn; eauto. }
    constructor; intros; unfold op_bool, h_op_bool in *; cbn [mo_a mo_b mo_cmp mo_from_a mo_from_b mo_coll] in *.
    - destruct H as (D & _). symmetry. eapply dens_length; eauto.
    - destruct H as (_ & D & _). symmetry. eapply dens_length; eauto.
    - destruct H as (Da & Db & _). pose proof (dens_nth _ _ _ i Da) as E1. pose proof (dens_nth _ _ _ j Db) as E2.
      rewrite H0, H1 in E1. rewrite H2, H3 in E2. now apply (head_cmp_sim kcmp h).
    - now apply A.
    - now apply B.
    - pose proof H as (Da & Db & E & Za & Zb). unfold coll_bool, h_coll_bool.
      destruct (bs_a s1) as [|x a1] eqn:E1; [exact Logic.I|]. destruct (bs_b s1) as [|y b1] eqn:E2; [exact Logic.I|].
      destruct (bs_a s2) as [|av a2] eqn:E3; [inversion Da|]. destruct (bs_b s2) as [|bv b2] eqn:E4; [inversion Db|].
      inversion Da; subst. inversion Db; subst.
      destruct (rec1 x y) as [r| |] eqn:Qr; try exact Logic.I. erewrite Hr; eauto; [|apply Za; now left|apply Zb; now left].
      apply osim_bind; [now apply A|]. intros. now apply B.
  Qed.
  Lemma bool_merge_ok h na nb rec1 rec2 ta la lb a b r :
    (forall a b x y r, den h a x -> den h b y -> t_size x <= na -> t_size y <= nb -> rec1 x y = Ok r -> rec2 a b = Ok r) ->
    dens h la a -> dens h lb b -> (forall x, In x a -> t_size x <= na) -> (forall x, In x b -> t_size x <= nb) ->
    bs_merge strat (op_bool kcmp rec1 ta) a b = Ok r -> bs_merge strat (h_op_bool kcmp rec2 ta) la lb = Ok r.
  Proof.
    intros Hr Da Db Za Zb H. unfold bs_merge in *.
    assert (R0 : brel h na nb (bs_new a b) (bs_new la lb)) by (unfold brel; cbn; auto).
    pose proof (merge_sim _ _ _ (bool_msim h na nb rec1 rec2 ta Hr) strat _ _ R0) as Sim.
    destruct (merge (op_bool kcmp rec1 ta) strat (bs_new a b)) as [s1|s1|s1|]; cbn [to_res] in H; try discriminate; injection H as <-;
      cbn [osim] in Sim; destruct Sim as (s2 & -> & (_ & _ & -> & _)); reflexivity.
  Qed.
  Lemma any_ok h (p : tree -> res bool) (q : node -> res bool) ns ts r : dens h ns ts ->
    (forall n t r, In t ts -> den h n t -> p t = Ok r -> q n = Ok r) -> any_res p ts = Ok r -> any_res q ns = Ok r.
  Proof.
    intros D. induction D as [|n t ns ts Dn D IH]; intros Hp; cbn [any_res]; auto. intros H. open. rewrite (Hp n t x) by (auto; now left).
    cbn [rbind]. destruct x; auto. apply IH; auto. intros. eapply Hp; eauto. now right.
  Qed.
  Lemma all_ok h (p : tree -> res bool) (q : node -> res bool) ns ts r : dens h ns ts ->
    (forall n t r, In t ts -> den h n t -> p t = Ok r -> q n = Ok r) -> all_res p ts = Ok r -> all_res q ns = Ok r.
  Proof.
    intros D. induction D as [|n t ns ts Dn D IH]; intros Hp; cbn [all_res]; auto. intros H. open. rewrite (Hp n t x) by (auto; now left).
    cbn [rbind]. destruct x; auto. apply IH; auto. intros. eapply Hp; eauto. now right.
  Qed.
  Lemma intersects_refines F : forall k h a b x y lp rp r, den h a x -> den h b y -> t_size x + t_size y <= F ->
    intersects0 kcmp strat k x lp y rp = Ok r -> h_intersects0 kcmp strat h F a lp b rp = Ok r.
  Proof.
    induction F as [|F IH]; intros k h a b x y lp rp r Da Db Hs H; [pose proof (size_pos x); lia|]. destruct k as [|k]; [discriminate|].
    cbn [intersects0 h_intersects0] in *. destruct x as [p v c], y as [pu vu cu]. cbn [t_value t_children] in *.
    destruct (kids_of_ok _ _ _ _ _ Da) as (_ & Qv & la & Qa & Dla). destruct (kids_of_ok _ _ _ _ _ Db) as (_ & Qw & lb & Qb & Dlb).
    unfold kids_res. rewrite Qv, Qw, Qa, Qb. cbn [rbind]. set (n := common_prefix kcmp lp rp) in *.
    destruct ((n =? length lp) && (n =? length rp)); [|destruct (n =? length lp); [|destruct (n =? length rp); [|auto]]].
    - destruct (match v with Some _ => _ | None => _ end); auto.
      eapply (bool_merge_ok h (t_size (Node p v c) - 1) (t_size (Node pu vu cu) - 1)); [|exact Dla|exact Dlb|apply kid_size|apply kid_size|exact H].
      intros a' b' x' y' r' Da' Db' Za Zb H'. cbv beta in *. rewrite (den_prefix _ _ _ Da'), (den_prefix _ _ _ Db').
      apply (IH k h a' b' x' y' _ _ r' Da' Db'); [sz|exact H'].
    - eapply any_ok; [exact Dla| |exact H]. intros m t r' Hin Dm H'. cbv beta in H'. rewrite (den_prefix _ _ _ Dm). eapply (IH k); eauto. pose proof (size_children (Node p v c) t Hin). lia.
    - eapply any_ok; [exact Dlb| |exact H]. intros m t r' Hin Dm H'. cbv beta in H'. rewrite (den_prefix _ _ _ Dm). eapply (IH k); eauto. pose proof (size_children (Node pu vu cu) t Hin). lia.
  Qed.
  Lemma is_subset_refines F : forall k h a b x y lp rp r, den h a x -> den h b y -> t_size x + t_size y <= F ->
    is_subset0 kcmp strat k x lp y rp = Ok r -> h_is_subset0 kcmp strat h F a lp b rp = Ok r.
  Proof.
    induction F as [|F IH]; intros k h a b x y lp rp r Da Db Hs H; [pose proof (size_pos x); lia|]. destruct k as [|k]; [discriminate|].
    cbn [is_subset0 h_is_subset0] in *. destruct x as [p v c], y as [pu vu cu]. cbn [t_value t_children] in *.
    destruct (kids_of_ok _ _ _ _ _ Da) as (_ & Qv & la & Qa & Dla). destruct (kids_of_ok _ _ _ _ _ Db) as (_ & Qw & lb & Qb & Dlb).
    unfold kids_res. rewrite Qv, Qw, Qa, Qb. cbn [rbind]. set (n := common_prefix kcmp lp rp) in *.
    destruct ((n =? length lp) && (n =? length rp)); [|destruct (n =? length lp); [|destruct (n =? length rp); [|auto]]].
    - destruct (match v with Some _ => _ | None => _ end); auto. unfold rmap in *. open.
      erewrite (bool_merge_ok h (t_size (Node p v c) - 1) (t_size (Node pu vu cu) - 1)); [exact H| |exact Dla|exact Dlb|apply kid_size|apply kid_size|exact Q].
      intros a' b' x' y' r' Da' Db' Za Zb H'. cbv beta in *. rewrite (den_prefix _ _ _ Da'), (den_prefix _ _ _ Db').
      match type of H' with rbind ?z _ = _ => destruct z eqn:Qz; cbn [rbind] in H'; try discriminate end. erewrite (IH k h a' b' x' y' _ _ _ Da' Db'); [exact H'|sz|exact Qz].
    - destruct v; auto. eapply all_ok; [exact Dla| |exact H]. intros m t r' Hin Dm H'. cbv beta in H'. rewrite (den_prefix _ _ _ Dm). eapply (IH k); eauto. pose proof (size_children (Node p None c) t Hin). lia.
    - eapply any_ok; [exact Dlb| |exact H]. intros m t r' Hin Dm H'. cbv beta in H'. rewrite (den_prefix _ _ _ Dm). eapply (IH k); eauto. pose proof (size_children (Node pu vu cu) t Hin). lia.
  Qed.

  (** ** Iteration *)
  Definition srel h (s1 : istate) (s2 : @h_istate K V) : Prop :=
    fst s1 = fst s2 /\ Forall2 (fun e1 e2 => den h (fst e2) (fst e1) /\ snd e1 = snd e2) (snd s1) (snd s2).
  Lemma iter_step_sim h s1 s2 : srel h s1 s2 ->
    match iter_step s1 with
    | IYield k v s1' => exists s2', h_iter_step h s2 = HYield k v s2' /\ srel h s1' s2'
    | ITau s1' => exists s2', h_iter_step h s2 = HTau s2' /\ srel h s1' s2'
    | IEnd => h_iter_step h s2 = HEnd
    end.
  Proof.
    destruct s1 as [path st1], s2 as [path2 st2]. intros [E R]. cbn [fst snd] in *. subst path2. unfold iter_step, h_iter_step.
    inversion R as [|[t pos] [n pos'] l1 l2 [D E] R']; subst; [reflexivity|]. cbn [fst snd] in *. subst pos'.
    destruct t as [p v c]. destruct (kids_of_ok _ _ _ _ _ D) as (Qp & Qv & ns & Qk & Dn). cbn [t_value t_prefix t_children].
    destruct pos as [|i].
    - rewrite Qv. destruct v; eexists; (split; [reflexivity|]); split; cbn [fst snd]; auto; constructor; auto.
    - rewrite Qk. pose proof (dens_nth _ _ _ i Dn) as N. destruct (nth_error ns i) as [cn|], (nth_error c i) as [ct|]; try easy.
      + rewrite (den_prefix _ _ _ N). eexists. split; [reflexivity|]. split; cbn [fst snd]; auto.
      + rewrite Qp. eexists. split; [reflexivity|]. split; cbn [fst snd]; auto.
  Qed.
  Lemma iter_next_sim h F : forall k s1 s2, srel h s1 s2 -> forall r, iter_next k s1 = Ok r -> k <= F ->
    match r with
    | Some (key, v, s1') => exists s2', h_iter_next F h s2 = Ok (Some (key, v, s2')) /\ srel h s1' s2'
    | None => h_iter_next F h s2 = Ok None
    end.
  Proof.
    induction F as [|F IH]; intros k s1 s2 R r H Hk; [assert (k = 0) as -> by lia; discriminate|]. destruct k as [|k]; [discriminate|].
    cbn [iter_next h_iter_next] in *. pose proof (iter_step_sim h s1 s2 R) as St.
    destruct (iter_step s1) as [key v s|s|].
    - injection H as <-. destruct St as (s2' & -> & R'). eauto.
    - destruct St as (s2' & -> & R'). eapply IH; eauto. lia.
    - injection H as <-. now rewrite St.
  Qed.
  Lemma iter_collect_sim h F G : forall k j s1 s2 l, srel h s1 s2 -> iter_collect k j s1 = Ok l -> k <= F -> j <= G -> h_iter_collect F G h s2 = Ok l.
  Proof.
    induction F as [|F IH]; intros k j s1 s2 l R H Hk Hj; [assert (k = 0) as -> by lia; discriminate|]. destruct k as [|k]; [discriminate|].
    cbn [iter_collect h_iter_collect] in *. open. pose proof (iter_next_sim h G j s1 s2 R _ Q Hj) as N.
    destruct x as [[[key v] s1']|].
    - destruct N as (s2' & -> & R'). cbn [rbind]. open. injection H as <-. erewrite IH; eauto; [reflexivity|lia].
    - rewrite N. cbn [rbind]. exact H.
  Qed.
  Lemma iter_refines F h n t l : den h n t -> S (t_size t) <= F -> rt_iter t = Ok l -> h_iter F h n = Ok l.
  Proof.
    intros D Hs H. unfold rt_iter, iter_from in H. unfold h_iter. rewrite (den_prefix _ _ _ D).
    eapply iter_collect_sim; [|exact H|lia|lia]. split; cbn [fst snd]; auto.
  Qed.
End HeapOpsPure.
