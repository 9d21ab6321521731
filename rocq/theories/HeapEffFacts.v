(** The operations of HeapEffModel.v do on shared nodes what those of RadixEffModel.v do on plain trees,
    whether they return or unwind. *)
From Coq Require Import Permutation.
From Verif Require Export HeapEffModel HeapEffSim HeapApiRefine.

Section HeapEffFacts.
  Context {K V : Type} (kcmp : K -> K -> comparison) (strat : nat -> nat -> bool) (arc : bool) {E : Type}.
  Notation tree := (rtree K V).
  Notation node := (node K V).
  Notation heap := (heap K V).
  Notation WO := (WO kcmp).
  Notation wfc := (wfc (kcmp := kcmp)).
  Implicit Types (h : heap) (ns C : list node) (ts : list tree) (e : E).

  Lemma cp_le (p q : list K) : common_prefix kcmp p q <= length p /\ common_prefix kcmp p q <= length q.
  Proof.
    revert q. induction p as [|x p IH]; intros [|y q]; cbn [common_prefix length]; try lia.
    destruct (keqb kcmp x y); [specialize (IH q)|]; lia.
  Qed.

  (** the outcome of a call on plain trees, on the heap *)
  Definition owns h C h' n t : Prop := Inv h' (n :: C) /\ den h' n t /\ frame h h' C /\ mono h h'.
  Definition eyield1 h C (r : done (heap * node * E)) (d : done (tree * E)) : Prop :=
    match d with
    | Done (t, e) => exists h' n, r = Done (h', n, e) /\ owns h C h' n t
    | Unwound (t, e) => exists h' n, r = Unwound (h', n, e) /\ owns h C h' n t
    | DoneNoFuel => True
    end.
  Definition eyields h C (r : done (heap * list node * E)) (d : done (list tree * E)) : Prop :=
    match d with
    | Done (ts, e) => exists h' ns, r = Done (h', ns, e) /\ Inv h' (ns ++ C) /\ dens h' ns ts /\ frame h h' C /\ mono h h'
    | Unwound (ts, e) => exists h' ns, r = Unwound (h', ns, e) /\ Inv h' (ns ++ C) /\ dens h' ns ts /\ frame h h' C /\ mono h h'
    | DoneNoFuel => True
    end.
  Definition under_root (p : list K) (v : option V) (d : done (list tree * E)) : done (tree * E) :=
    match d with
    | Done (c, e) => Done (Node p v c, e)
    | Unwound (c, e) => Unwound (Node p v c, e)
    | DoneNoFuel => DoneNoFuel
    end.
  Lemma owns_trans h h1 C h' n t : frame h h1 C -> mono h h1 -> owns h1 C h' n t -> owns h C h' n t.
  Proof. intros F M (I & D & F' & M'). split; auto. split; auto. split; [eapply frame_trans; eauto|eapply mono_trans; eauto]. Qed.
  Lemma eyield1_trans h h1 C r d : frame h h1 C -> mono h h1 -> eyield1 h1 C r d -> eyield1 h C r d.
  Proof. intros F M. destruct d as [[t e]|[t e]|]; simpl; auto; intros (h' & n & Q & O); exists h', n; split; auto; eapply owns_trans; eauto. Qed.

  Lemma with_children_e f h C n p v ts d : Inv h (n :: C) -> den h n (Node p v ts) ->
    (forall h1 ns, Inv h1 (ns ++ C) -> dens h1 ns ts -> frame h h1 C -> mono h h1 -> eyields h1 C (f h1 ns) d) ->
    eyield1 h C (he_with_children f h n) (under_root p v d).
  Proof.
    intros I D F. unfold he_with_children. destruct (children_mut_frame h _ n p v ts I D) as (h1 & a & ns & -> & I1 & Ha & Dn & F1 & M1). rewrite Ha.
    destruct (borrow_inv _ _ _ _ _ _ I1 Ha) as (I2 & P2 & Hlt). pose proof (frame_borrow _ _ _ _ _ _ None I1 Ha) as F2.
    assert (F2' : frame h1 (h_upd h1 a None) C) by (eapply frame_incl; [|exact F2]; apply incl_r).
    assert (M2 : mono h1 (h_upd h1 a None)) by (eapply mono_upd; eauto).
    assert (Back : forall h3 ns' ts', Inv h3 (ns' ++ C) -> dens h3 ns' ts' -> frame (h_upd h1 a None) h3 C -> mono (h_upd h1 a None) h3 ->
      owns h C (h_upd h3 a (Some (1, ns'))) (MkN p v (inr a)) (Node p v ts')).
    { intros h3 ns' ts' I3 D3 F3 M3.
      assert (Ha3 : h_cell h3 a = None) by (apply M3; [auto|apply upd_same]).
      assert (Hlt3 : a < h_next h3) by (destruct M3 as [M3 _]; cbn [h_upd h_next] in M3; lia).
      destruct (giveback_inv h3 C p v a ns' I3 Ha3 Hlt3) as (I4 & X4).
      split; auto. split.
      { econstructor; [apply upd_same|]. now apply (den_ext h3 _ X4). }
      split.
      + eapply frame_trans; [exact F1|]. eapply frame_trans; [exact F2'|]. eapply frame_trans; [exact F3|]. now apply frame_ext.
      + eapply mono_trans; [exact M1|]. destruct M2 as [M2 M2'], M3 as [M3 M3']. split.
        * cbn [h_upd h_next] in *. lia.
        * intros b Hb Hc. assert (b <> a) by (intros ->; congruence). rewrite upd_other by auto. apply M3'; [auto|].
          rewrite upd_other by auto. auto. }
    assert (Y : eyields (h_upd h1 a None) C (f (h_upd h1 a None) ns) d).
    { apply F; auto.
      - eapply pres_dens; [|exact P2|exact Dn]. intros m Hm. apply in_or_app. now left.
      - eapply frame_trans; eauto.
      - eapply mono_trans; eauto. }
    destruct d as [[c e]|[c e]|]; cbn [eyields] in Y; cbn [under_root eyield1]; [| |exact Logic.I];
      destruct Y as (h3 & ns' & -> & I3 & D3 & F3 & M3); eexists _, _; (split; [reflexivity|]); now apply Back.
  Qed.

  (** ** Merges *)
  Section InPlaceE.
    Context (rec1 : tree -> tree -> E -> done (tree * E)) (rec2 : heap -> node -> node -> E -> done (heap * node * E)).
    Context (fuel na nb : nat) (conv : bool).
    Notation conv1 := (conv1 (K := K) (V := V) conv).
    Hypothesis Hrec : forall h C av bv x y e, Inv h (av :: C) -> St h C -> den h av x -> within h C bv -> den h bv y ->
      t_size x <= na -> t_size y <= nb -> WO x -> WO y -> eyield1 h C (rec2 h av bv e) (rec1 x y e).
    Hypothesis Hfuel : nb <= fuel.
    Context (h0 : heap) (C : list node).
    Hypothesis S0 : St h0 C.
    Notation mrel := (mrel na nb h0 C).

    Definition erel (s1 : iprstate tree tree * E) (s2 : @hst K V * E) : Prop :=
      snd s1 = snd s2 /\ mrel (fst s1) (fst s2) /\
      (forall x, In x (bd_src (ipr_a (fst s1))) -> WO x) /\ (forall y, In y (ipr_b (fst s1)) -> WO y /\ t_prefix y <> []).
    Definition erelp (s1 : iprstate tree tree * E) (s2 : @hst K V * E) : Prop :=
      snd s1 = snd s2 /\ let h := hs_h (fst s2) in
      Inv h (hs_tgt (fst s2) ++ hs_src (fst s2) ++ C) /\ dens h (hs_tgt (fst s2)) (bd_tgt (ipr_a (fst s1))) /\ frame h0 h C /\ mono h0 h.
    Lemma erel_p s1 s2 : erel s1 s2 -> erelp s1 s2.
    Proof. intros (Q & (I & Dt & _ & _ & _ & F & M & _) & _). split; auto. Qed.

    (** a step that runs no closure *)
    Lemma quiet_sim (o1 : out (iprstate tree tree)) (o2 : out (@hst K V)) e :
      osim mrel o1 o2 ->
      match o1 with
      | Cont s => (forall x, In x (bd_src (ipr_a s)) -> WO x) /\ (forall y, In y (ipr_b s) -> WO y /\ t_prefix y <> [])
      | NoFuel => True
      | _ => False
      end -> osimp erel erelp (quietly o1 e) (h_quietly o2 e).
    Proof.
      intros S H. destruct o1 as [s1|s1|s1|]; try easy. destruct S as (s2 & -> & R). cbn. eexists. split; [reflexivity|]. split; [reflexivity|]. auto.
    Qed.
    Lemma extend_shape n : forall (bd : builder tree) (b : list tree), (forall y, In y b -> WO y /\ t_prefix y <> []) -> conv = true ->
      exists bd' b', bd_extend conv1 n bd b = (bd', b', true) /\ bd_src bd' = bd_src bd /\ forall y, In y b' -> In y b.
    Proof.
      intros bd b Hb Hc. unfold HeapOpsFacts.conv1. rewrite Hc. revert bd b Hb. induction n as [|n IH]; intros bd b Hb; cbn [bd_extend]; [eauto|].
      destruct b as [|y b]; [eauto|]. destruct (Hb y ltac:(now left)) as [Wy Py]. rewrite (mat_conv_ok (kcmp := kcmp) false y Wy Py).
      destruct (IH (bd_push bd y) b) as (bd' & b' & Q & Qs & Hi); [intros; apply Hb; now right|].
      exists bd', b'. split; auto. split; auto. intros z Hz. right. auto.
    Qed.
    Lemma erel_adv_a s1 s2 n take : erel s1 s2 ->
      osimp erel erelp (quietly (adv_a (ipr_msm conv1) (fst s1) n take) (snd s1)) (h_quietly (hs_adv_a (fst s2) n take) (snd s2)).
    Proof.
      intros (Q & R & Ha & Hb). rewrite <- Q. apply quiet_sim; [now apply mrel_adv_a|]. cbn [ipr_msm adv_a]. unfold ipr_adv_a.
      split; [|exact Hb]. intros x Hx. apply Ha. unfold bd_consume in Hx. destruct take; cbn [ipr_a bd_src] in Hx; eapply In_skipn; exact Hx.
    Qed.
    Lemma erel_adv_b s1 s2 n take : erel s1 s2 -> (take = true -> conv = true) ->
      osimp erel erelp (quietly (adv_b (ipr_msm conv1) (fst s1) n take) (snd s1)) (h_quietly (hs_adv_b arc fuel conv (fst s2) n take) (snd s2)).
    Proof.
      intros (Q & R & Ha & Hb) Ht. rewrite <- Q. apply quiet_sim; [eapply mrel_adv_b; eauto|]. cbn [ipr_msm adv_b]. unfold ipr_adv_b.
      destruct take.
      - destruct (extend_shape n (ipr_a (fst s1)) (ipr_b (fst s1)) Hb (Ht eq_refl)) as (bd' & b' & -> & Qs & Hi). cbn [ipr_a ipr_b]. rewrite Qs. split; auto.
      - cbn [ipr_a ipr_b]. split; auto. intros y Hy. apply Hb. eapply In_skipn; exact Hy.
    Qed.
    Lemma erel_coll s1 s2 : erel s1 s2 -> osimp erel erelp (ecoll_with rec1 conv1 s1) (he_coll arc rec2 fuel conv s2).
    Proof.
      intros ER. pose proof ER as (Q & R & Ha & Hb). pose proof R as (I & Dt & Ds & Db & W & F & M & Za & Zb).
      destruct s1 as [[[t a d] b] e1], s2 as [[h tgt src bs] e2]. cbn [snd] in Q. subst e2. rename e1 into e0.
      cbn [fst hs_h hs_tgt hs_src hs_b ipr_a ipr_b bd_tgt bd_src bd_drop] in *. unfold ecoll_with, he_coll. cbn [hs_h hs_tgt hs_src hs_b ipr_a ipr_b bd_tgt bd_src bd_drop].
      assert (Stuck : osimp erel erelp (Panic (MkIpr (MkB t a d) b, e0)) (Panic (MkHst h tgt src bs, e0))).
      { eexists. split; [reflexivity|]. now apply erel_p. }
      destruct a as [|x a]; [inversion Ds; subst; exact Stuck|]. inversion Ds as [|av ? a' ? Dav Da']; subst.
      destruct b as [|y b]; [inversion Db; subst; exact Stuck|]. inversion Db as [|bv ? b' ? Dbv Db']; subst. clear Stuck.
      assert (Y : eyield1 h (tgt ++ a' ++ C) (rec2 h av bv e0) (rec1 x y e0)).
      { apply Hrec; auto.
        - eapply inv_perm; [|exact I]. symmetry. apply (Permutation_middle tgt (a' ++ C)).
        - eapply St_incl; [|eapply St_frame; eauto]. rewrite app_assoc. apply incl_r.
        - eapply within_incl; [|apply W; now left]. rewrite app_assoc. apply incl_r.
        - apply Za. now left.
        - apply Zb. now left.
        - apply Ha. now left.
        - apply Hb. now left. }
      destruct (rec1 x y e0) as [[x' e']|[x' e']|]; cbn [eyield1] in Y; [| |exact Logic.I].
      - destruct Y as (h1 & av' & -> & I1 & D1 & F1 & M1). rewrite (n_is_empty_ok _ _ _ D1).
        assert (FC : frame h h1 C) by (eapply frame_incl; [|exact F1]; rewrite app_assoc; apply incl_r).
        apply quiet_sim.
        + generalize (negb (t_is_empty x')). intros take.
          cbn [ipr_msm adv_a]. unfold ipr_adv_a, hs_adv_a, bd_consume. cbn [hs_h hs_tgt hs_src hs_b ipr_a ipr_b bd_tgt bd_src bd_drop firstn skipn].
          assert (R' : forall tgt' t' h2, Inv h2 (tgt' ++ a' ++ C) -> dens h2 tgt' t' -> frame h1 h2 (tgt ++ a' ++ C) -> mono h1 h2 -> forall d',
             mrel (MkIpr (MkB t' a d') (y :: b)) (MkHst h2 tgt' a' (bv :: b'))).
          { intros tgt' t' h2 I2 D2 F2 M2 d'. assert (FC2 : frame h h2 C) by (eapply frame_trans; [exact FC|]; eapply frame_incl; [|exact F2]; rewrite app_assoc; apply incl_r).
            unfold HeapOpsFacts.mrel. cbn [hs_h hs_tgt hs_src hs_b ipr_a ipr_b bd_tgt bd_src]. split; auto. split; auto.
            split; [eapply frame_dens_own; [exact F2| |eapply frame_dens_own; [exact F1| |exact Da']]; rewrite app_assoc; intros z Hz; apply in_or_app; left; apply in_or_app; now right|].
            split; [apply (frame_den _ _ C FC2); auto|]. split; [intros m Hm; eapply frame_within; eauto|]. split; [eapply frame_trans; eauto|].
            split; [eapply mono_trans; [exact M|]; eapply mono_trans; eauto|]. split; auto. intros z Hz. apply Za. now right. }
          assert (Dt1 : dens h1 tgt t) by (eapply frame_dens_own; [exact F1|apply incl_l|auto]).
          destruct take; cbn [obind].
          * eapply mrel_adv_b; eauto. apply R'; auto; [|apply dens_join; auto; constructor; auto; constructor|apply frame_refl|apply mono_refl].
            rewrite <- app_assoc. eapply inv_perm; [|exact I1]. cbn [app]. apply Permutation_middle.
          * destruct (drop_frame h1 [av'] (tgt ++ a' ++ C) I1) as (h2 & -> & I2 & F2 & M2). cbn [obind].
            eapply mrel_adv_b; eauto. apply R'; auto. eapply frame_dens_own; [exact F2|apply incl_l|auto].
        + cbn [ipr_msm adv_a]. unfold ipr_adv_a. cbn [obind ipr_a ipr_b]. cbn [ipr_msm adv_b]. unfold ipr_adv_b. cbn [ipr_a ipr_b skipn].
          unfold bd_consume. cbn [bd_src skipn]. split.
          * intros z Hz. apply Ha. right. now destruct (negb _).
          * intros z Hz. apply Hb. now right.
      - destruct Y as (h1 & av' & -> & I1 & D1 & F1 & M1). cbn [osimp]. eexists. split; [reflexivity|]. split; auto. cbn [fst hs_h hs_tgt hs_src hs_b ipr_a ipr_b bd_tgt bd_src].
        split; [eapply inv_perm; [|exact I1]; apply (Permutation_middle tgt (a' ++ C))|].
        split; [eapply frame_dens_own; [exact F1|apply incl_l|auto]|].
        split; [|eapply mono_trans; eauto]. eapply frame_trans; [exact F|]. eapply frame_incl; [|exact F1]. rewrite app_assoc. apply incl_r.
    Qed.
    Lemma erel_msim ta tb : (tb = true -> conv = true) ->
      msimp (eop_with kcmp rec1 ta tb conv1) (he_op kcmp arc rec2 fuel ta tb conv) erel erelp.
    Proof.
      intros Ht. constructor; intros; unfold eop_with, he_op in *; cbn [mo_a mo_b mo_cmp mo_from_a mo_from_b mo_coll] in *.
      - now apply erel_p.
      - destruct H as (_ & (_ & _ & Ds & _) & _). symmetry. eapply dens_length; eauto.
      - destruct H as (_ & (_ & _ & _ & Db & _) & _). symmetry. eapply dens_length; eauto.
      - destruct H as (_ & (_ & _ & Ds & Db & _) & _). pose proof (dens_nth _ _ _ i Ds) as E1. pose proof (dens_nth _ _ _ j Db) as E2.
        rewrite H0, H1 in E1. rewrite H2, H3 in E2. now apply (head_cmp_sim kcmp (hs_h (fst s2))).
      - now apply erel_adv_a.
      - now apply erel_adv_b.
      - now apply erel_coll.
    Qed.
    Lemma echildren_ok ta tb ns bs a b e : (tb = true -> conv = true) ->
      Inv h0 (ns ++ C) -> dens h0 ns a -> dens h0 bs b -> (forall m, In m bs -> within h0 C m) ->
      (forall x, In x a -> t_size x <= na) -> (forall x, In x b -> t_size x <= nb) ->
      (forall x, In x a -> WO x) -> (forall y, In y b -> WO y /\ t_prefix y <> []) ->
      eyields h0 C (he_merge kcmp strat arc rec2 fuel ta tb conv bs e h0 ns) (echildren_with kcmp strat rec1 ta tb conv1 a b e).
    Proof.
      intros Ht I Da Db W Za Zb Ha Hb. unfold echildren_with, he_merge.
      assert (R0 : erel (ipr_new a b, e) (MkHst h0 [] ns bs, e)).
      { split; auto. split; [|split; auto]. unfold HeapOpsFacts.mrel. cbn. split; auto. split; [constructor|]. split; auto. split; auto. split; auto. split; [apply frame_refl|]. split; [apply mono_refl|]. auto. }
      pose proof (merge_simp _ _ _ _ (erel_msim ta tb Ht) strat _ _ R0) as Sim.
      assert (Fin : forall s1 s2, erelp s1 s2 -> exists h', drop_all (hs_h (fst s2)) (hs_src (fst s2)) = Some h' /\ Inv h' (hs_tgt (fst s2) ++ C) /\
        dens h' (hs_tgt (fst s2)) (bd_tgt (ipr_a (fst s1))) /\ frame h0 h' C /\ mono h0 h').
      { intros s1 s2 (_ & I2 & Dt & F & M). destruct (drop_frame (hs_h (fst s2)) (hs_src (fst s2)) (hs_tgt (fst s2) ++ C)) as (h3 & -> & I3 & F3 & M3).
        { eapply inv_perm; [|exact I2]. rewrite !app_assoc. apply Permutation_app_tail, Permutation_app_comm. }
        exists h3. split; auto. split; auto. split; [eapply frame_dens_own; [exact F3|apply incl_l|auto]|].
        split; [|eapply mono_trans; eauto]. eapply frame_trans; [exact F|]. eapply frame_incl; [|exact F3]. apply incl_r. }
      destruct (merge (eop_with kcmp rec1 ta tb conv1) strat (ipr_new a b, e)) as [s1|s1|s1|]; cbn [to_done osimp eyields] in *; [| | |exact Logic.I];
        destruct Sim as ([s2 e2] & -> & R2); [apply erel_p in R2|apply erel_p in R2|]; destruct (Fin _ _ R2) as (h' & Qd & R3); cbn [fst] in Qd; rewrite Qd;
        destruct R2 as [Qe _]; cbn [snd] in Qe; rewrite Qe; exists h', (hs_tgt s2); split; auto.
    Qed.
  End InPlaceE.
End HeapEffFacts.
