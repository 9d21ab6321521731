(** Runs of the machine of ConcModel.v: they follow the coarse machine, and every call returns. *)
From Coq Require Import Permutation.
From Verif Require Export ConcThreads.

Section Run.
  Context {K V : Type}.
  Notation tree := (rtree K V).
  Notation node := (node K V).
  Notation heap := (heap K V).
  Notation ent := (node * tree)%type.
  Context (G : list ent).
  Notation Sim := (Sim G).
  Notation S := ((static, Node [] None []) :: G).
  Notation su := Datatypes.S.
  Notation fs := (rmap fst).
  Notation ss := (rmap snd).

  Lemma sim_run sched vm0 : forall m vm z X, Sim m vm z X -> vm = vmrun (snds G) (rev (map fst (m_log m))) vm0 ->
    exists m' vm' z' X', mrun (fsts G) sched m = Some m' /\ Sim m' vm' z' X' /\ vm' = vmrun (snds G) (rev (map fst (m_log m'))) vm0.
  Proof.
    induction sched as [|i sched IH]; intros m vm z X HS Ev; cbn [mrun]; [eauto 9|].
    pose proof (sim_step G m vm z X i HS) as H. destruct (mstep (fsts G) i m) as [m1| |]; [|eauto|easy].
    destruct H as (x & Hi & z1 & vm1 & x1 & HS1 & Hm). apply (IH m1 vm1 z1 _ HS1).
    destruct Hm as [(El & -> & _)|(a & El & ->)]; rewrite El; [exact Ev|].
    cbn [map rev fst]. unfold vmrun in *. rewrite fold_left_app. cbn [fold_left]. now rewrite <- Ev.
  Qed.
  Lemma log_step i (m m' : mach K V) Gs : mstep Gs i m = RanT m' -> exists l, m_log m' = l ++ m_log m.
  Proof.
    unfold mstep. intros H.
    repeat match type of H with
    | context[match ?e with _ => _ end] => destruct e; try discriminate H
    end; injection H as <-; cbn [m_log]; solve [now exists [] | eexists [_]; reflexivity].
  Qed.
  Lemma log_run sched Gs : forall (m m' : mach K V), mrun Gs sched m = Some m' -> exists l, m_log m' = l ++ m_log m.
  Proof.
    induction sched as [|i sched IH]; intros m m'; cbn [mrun]; [intros [= <-]; now exists []|].
    destruct (mstep Gs i m) as [m1| |] eqn:Q; [|apply IH|discriminate]. intros H. apply IH in H as (l & ->).
    destruct (log_step _ _ _ _ Q) as (l1 & ->). exists (l ++ l1). now rewrite app_assoc.
  Qed.
  Lemma returned_mono sched Gs i (m m' : mach K V) : mrun Gs sched m = Some m' -> returned i m <= returned i m'.
  Proof. intros H. destruct (log_run _ _ _ _ H) as (l & E). unfold returned. rewrite E, map_app, count_occ_app. lia. Qed.

  Lemma wait_busy sched i : forall m vm z X x, Sim m vm z X -> nth_error X i = Some x -> (exists p k, c_t x = Busy p k) ->
    su (c_b x) <= count_occ Nat.eq_dec sched i -> forall m', mrun (fsts G) sched m = Some m' -> returned i m < returned i m'.
  Proof.
    induction sched as [|j sched IH]; intros m vm z X x HS Hi Hb Hc m' Hr; cbn [count_occ mrun] in *; [lia|].
    pose proof (sim_step G m vm z X j HS) as H. destruct (Nat.eq_dec j i) as [->|Hne].
    - destruct (mstep (fsts G) i m) as [m1| |] eqn:Q; [| |easy].
      + destruct H as (x0 & Hi0 & z1 & vm1 & x1 & HS1 & Hm). rewrite Hi in Hi0. injection Hi0 as <-.
        destruct Hm as [(El & -> & Hb1 & Hd)|(a & El & ->)].
        * destruct Hb as (p & k & Eb). rewrite Eb in Hd. unfold returned. rewrite <- El. eapply IH; [exact HS1|eapply nth_upd_same; exact Hi|exact Hb1| |exact Hr]. lia.
        * apply (returned_mono _ _ i) in Hr. unfold returned in *. rewrite El in Hr. cbn [map fst count_occ] in Hr.
          destruct (Nat.eq_dec i i); [lia|easy].
      + exfalso. destruct Hb as (p & k & Eb). unfold mstep in Q. rewrite (sim_t _ _ _ _ _ HS), nth_error_map, Hi in Q. cbn [option_map] in Q. rewrite Eb in Q.
        repeat match type of Q with context[match ?e with _ => _ end] => destruct e; try discriminate Q end.
    - destruct (mstep (fsts G) j m) as [m1| |] eqn:Q; [| |easy].
      + destruct H as (x0 & Hj & z1 & vm1 & x1 & HS1 & Hm).
        assert (Hi' : nth_error (upd_nth j x1 X) i = Some x) by (rewrite nth_upd_other; auto; apply nth_error_Some; congruence).
        assert (Hl : returned i m <= returned i m1).
        { unfold returned. destruct Hm as [(El & _)|(a & El & _)]; rewrite El; auto. cbn [map fst count_occ]. destruct (Nat.eq_dec j i); lia. }
        pose proof (IH _ _ _ _ _ HS1 Hi' Hb Hc _ Hr). lia.
      + eapply IH; eauto.
  Qed.
  Lemma wait_idle sched i : forall m vm z X x s o k, Sim m vm z X -> nth_error X i = Some x -> c_t x = Idle s (SDo o k) ->
    work o (fst (c_v x)) <= count_occ Nat.eq_dec sched i -> forall m', mrun (fsts G) sched m = Some m' -> returned i m < returned i m'.
  Proof.
    induction sched as [|j sched IH]; intros m vm z X x s o k HS Hi Et Hc m' Hr; cbn [count_occ mrun] in *.
    { pose proof (work_two o (fst (c_v x))). lia. }
    pose proof (sim_step G m vm z X j HS) as H. destruct (Nat.eq_dec j i) as [->|Hne].
    - destruct (mstep (fsts G) i m) as [m1| |] eqn:Q; [| |easy].
      + destruct H as (x0 & Hi0 & z1 & vm1 & x1 & HS1 & Hm). rewrite Hi in Hi0. injection Hi0 as <-.
        destruct Hm as [(El & -> & Hb1 & Hd)|(a & El & ->)].
        * rewrite Et in Hd. unfold returned. rewrite <- El. eapply wait_busy; [exact HS1|eapply nth_upd_same; exact Hi|exact Hb1| |exact Hr]. lia.
        * apply (returned_mono _ _ i) in Hr. unfold returned in *. rewrite El in Hr. cbn [map fst count_occ] in Hr.
          destruct (Nat.eq_dec i i); [lia|easy].
      + exfalso. unfold mstep in Q. rewrite (sim_t _ _ _ _ _ HS), nth_error_map, Hi in Q. cbn [option_map] in Q. rewrite Et in Q.
        repeat match type of Q with context[match ?e with _ => _ end] => destruct e; try discriminate Q end.
    - destruct (mstep (fsts G) j m) as [m1| |] eqn:Q; [| |easy].
      + destruct H as (x0 & Hj & z1 & vm1 & x1 & HS1 & Hm).
        assert (Hi' : nth_error (upd_nth j x1 X) i = Some x) by (rewrite nth_upd_other; auto; apply nth_error_Some; congruence).
        assert (Hl : returned i m <= returned i m1).
        { unfold returned. destruct Hm as [(El & _)|(a & El & _)]; rewrite El; auto. cbn [map fst count_occ]. destruct (Nat.eq_dec j i); lia. }
        pose proof (IH _ _ _ _ _ _ _ _ HS1 Hi' Et Hc _ Hr). lia.
      + eapply IH; eauto.
  Qed.

  (** what [Sim] says about the heap *)
  Lemma sim_heap m vm z X : Sim m vm z X -> dens (m_heap m) (fsts S) (snds S) /\
    Inv (m_heap m) (fsts S ++ held (m_slots m) ++ fsts (owns (map c_R X))) /\ stands (m_heap m) (m_slots m) (v_slots vm).
  Proof.
    intros [Hg Hsl Hvsl Ht Hv Hlog Hthr]. destruct (Hg _ _ (Permutation_refl _)) as [I1 I2 I3 _ _ _ _]. cbn [r_own] in *.
    assert (Eh : forall z : regs ent, fsts (held z) = held (fs z)).
    { clear. induction z as [|[[n t]|] z IH]; cbn; auto. now f_equal. }
    rewrite Hsl, Hvsl. split; auto. split; [now rewrite <- Eh|].
    revert I3. clear. induction z as [|[[n t]|] z IH]; cbn; intros D.
    - constructor.
    - inversion D; subst. constructor; auto. now apply IH.
    - constructor; auto. now apply IH.
  Qed.
  Lemma fsts_held (z : regs ent) : fsts (held z) = held (fs z).
  Proof. induction z as [|[[n t]|] z IH]; cbn; auto. now f_equal. Qed.
  Lemma stands_held (h : heap) (z : regs ent) : dens h (fsts (held z)) (snds (held z)) -> stands h (fs z) (ss z).
  Proof.
    induction z as [|[[n t]|] z IH]; cbn; intros D.
    - constructor.
    - inversion D; subst. constructor; auto. now apply IH.
    - constructor; auto. now apply IH.
  Qed.
  Lemma stands_fun (h : heap) s v v' : stands h s v -> stands h s v' -> v = v'.
  Proof.
    intros H. revert v'. induction H as [|o u s v A H IH]; intros v' H'; inversion H'; subst; auto. f_equal; auto.
    destruct o, u, y; try easy. f_equal. eapply (proj1 (den_fun _)); eauto.
  Qed.
  Lemma sim_idle m vm z X i x s st : Sim m vm z X -> nth_error X i = Some x -> c_t x = Idle s st ->
    stands (m_heap m) s (fst (c_v x)) /\ snd (c_v x) = st /\ fsts (r_own (c_R x)) = held s.
  Proof.
    intros [Hg Hsl Hvsl Ht Hv Hlog Hthr] Hi Et.
    assert (Tx : thr G x) by (rewrite Forall_forall in Hthr; apply Hthr; eapply nth_error_In; eauto).
    unfold thr in Tx. rewrite Et in Tx. destruct Tx as (z1 & -> & Ev & ER). rewrite Ev, ER. cbn [fst snd r_own]. split; [|auto using fsts_held].
    destruct (upd_split i (c_R x) (map c_R X)) as (k & P1 & P2); [now rewrite nth_error_map, Hi|].
    assert (T : St S (m_heap m) (c_R x) (fsts (owns (MkR (held z) [] [] [] :: k))) (bors (MkR (held z) [] [] [] :: k))) by (apply Hg; rewrite P1; apply perm_swap).
    apply stands_held. pose proof (st_O _ _ _ _ _ T) as D. now rewrite ER in D.
  Qed.
End Run.
