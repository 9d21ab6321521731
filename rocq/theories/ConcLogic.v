(** A program logic for the atomic accesses of ConcModel.v: what a thread owns, what it has borrowed, and that the steps of
    other threads leave that alone. *)
From Coq Require Import Permutation.
From Verif Require Export ConcSpec HeapFrame.

Section Logic.
  Context {K V : Type}.
  Notation tree := (rtree K V).
  Notation node := (node K V).
  Notation heap := (heap K V).
  Notation prog := (prog K V).
  Notation ent := (node * tree)%type.
  Implicit Types (h : heap) (ns C : list node) (ts : list tree) (O F : list ent) (D B : list nat).

  (** ** Resources of a thread: nodes it owns, addresses of vectors it has exclusively borrowed, nodes it sees through one it
      owns (or a shared one), and addresses of vectors that it is the only owner of *)
  Record res := MkR { r_own : list ent; r_bor : list nat; r_len : list (node * ent); r_uni : list nat }.
  Definition fsts O : list node := map fst O.
  Definition snds O : list tree := map snd O.

  (** trees that are never dropped *)
  Context (S : list ent).
  Notation Sn := (fsts S).

  Record St h (R : res) (C : list node) (D : list nat) : Prop := {
    st_inv : Inv h (Sn ++ fsts (r_own R) ++ C);
    st_S : dens h Sn (snds S);
    st_O : dens h (fsts (r_own R)) (snds (r_own R));
    st_nd : NoDup (r_bor R ++ D);
    st_B : forall b, In b (r_bor R ++ D) -> h_cell h b = None /\ b < h_next h;
    st_L : forall o m t, In (o, (m, t)) (r_len R) -> In o (Sn ++ fsts (r_own R)) /\ within h [o] m /\ den h m t;
    st_U : forall a, In a (r_uni R) -> cnt a (fsts (r_own R)) = 1 /\ exists ns, h_cell h a = Some (1, ns) }.

  (** no reference to a vector is made out of nothing *)
  Definition noforge h O h' O' : Prop := forall a, h_cell h a <> None ->
    cnt a (Sn ++ fsts O) + hrefs h a = 0 -> cnt a (fsts O') + hrefs h' a = 0.

  Fixpoint wp {A} (n : nat) (p : prog A) (R : res) (Q : A -> res -> Prop) : Prop :=
    (exists a O1 L1 U1, p = PRet a /\ Permutation (r_own R) O1 /\ incl L1 (r_len R) /\ incl U1 (r_uni R) /\ Q a (MkR O1 (r_bor R) L1 U1)) \/
    match n with
    | 0 => False
    | Datatypes.S n' => forall h C D, St h R C D ->
        exists h' p' R', pstep h p = Some (h', p') /\ St h' R' C D /\ frame h h' (Sn ++ C) /\ noforge h (r_own R) h' (r_own R') /\ wp n' p' R' Q
    end.

  (** ** Structural rules *)
  Definition weaker (R R' : res) : Prop :=
    Permutation (r_own R) (r_own R') /\ r_bor R = r_bor R' /\ incl (r_len R') (r_len R) /\ incl (r_uni R') (r_uni R).
  Lemma fsts_app O F : fsts (O ++ F) = fsts O ++ fsts F.
  Proof. apply map_app. Qed.
  Lemma snds_app O F : snds (O ++ F) = snds O ++ snds F.
  Proof. apply map_app. Qed.
  Lemma dens_ents h O : dens h (fsts O) (snds O) <-> forall m t, In (m, t) O -> den h m t.
  Proof.
    induction O as [|[m t] O IH]; cbn.
    - split; [easy|constructor].
    - split.
      + intros H. inversion H; subst. intros m' t' [[= <- <-]|Hi]; auto. now apply IH.
      + intros H. constructor; auto. apply IH. auto.
  Qed.
  Lemma st_weaken h R R' C D : weaker R R' -> St h R C D -> St h R' C D.
  Proof.
    intros (P & Eb & Il & Iu) [I1 I2 I3 I4 I5 I6 I7].
    assert (Pf : Permutation (fsts (r_own R)) (fsts (r_own R'))) by now apply Permutation_map.
    constructor; rewrite <- ?Eb; auto.
    - eapply inv_perm; [|exact I1]. apply Permutation_app_head, Permutation_app_tail. exact Pf.
    - apply dens_ents. rewrite dens_ents in I3. intros m t Hi. apply I3. eapply Permutation_in; [|exact Hi]. now symmetry.
    - intros o m t Hi. destruct (I6 o m t (Il _ Hi)) as (A & Bn & Cn). split; auto.
      eapply Permutation_in; [|exact A]. now apply Permutation_app_head.
    - intros a Ha. destruct (I7 a (Iu _ Ha)) as (A & Bn). split; auto. now rewrite <- (cnt_perm a _ _ Pf).
  Qed.
  Lemma noforge_perm h O O1 h' O' : Permutation O O1 -> noforge h O h' O' -> noforge h O1 h' O'.
  Proof.
    intros P N a Ha E. apply N; auto. rewrite <- E. f_equal. apply cnt_perm. apply Permutation_app_head. now apply Permutation_map.
  Qed.
  Lemma weaker_refl R : weaker R R.
  Proof. repeat split; auto using incl_refl. Qed.
  Lemma wp_weaken {A} n : forall (p : prog A) R R' Q, weaker R R' -> wp n p R' Q -> wp n p R Q.
  Proof.
    intros p R R' Q W. destruct n as [|n]; cbn [wp]; (intros [(a & O1 & L1 & U1 & E & P & Il & Iu & H)|H]; [left|]); try easy.
    - destruct W as (P' & Eb & Il' & Iu'). exists a, O1, L1, U1. split; auto. split; [etransitivity; eauto|].
      split; [eapply incl_tran; eauto|]. split; [eapply incl_tran; eauto|]. now rewrite Eb.
    - destruct W as (P' & Eb & Il' & Iu'). exists a, O1, L1, U1. split; auto. split; [etransitivity; eauto|].
      split; [eapply incl_tran; eauto|]. split; [eapply incl_tran; eauto|]. now rewrite Eb.
    - right. intros h C D H0. destruct (H h C D (st_weaken _ _ _ _ _ W H0)) as (h' & p' & R1 & E & H1 & H2 & H3 & H4).
      exists h', p', R1. split; auto. split; auto. split; auto. split; auto. eapply noforge_perm; [|exact H3]. symmetry. apply W.
  Qed.
  Lemma wp_mono {A} n : forall m (p : prog A) R (Q Q' : A -> res -> Prop), n <= m -> (forall a R, Q a R -> Q' a R) -> wp n p R Q -> wp m p R Q'.
  Proof.
    induction n as [|n IH]; intros [|m] p R Q Q' Hm HQ; cbn [wp]; try lia.
    - intros [(a & O1 & L1 & U1 & E & P & Il & Iu & H)|[]]. left. exists a, O1, L1, U1. auto 6.
    - intros [(a & O1 & L1 & U1 & E & P & Il & Iu & H)|[]]. left. exists a, O1, L1, U1. auto 6.
    - intros [(a & O1 & L1 & U1 & E & P & Il & Iu & H)|H]; [left; exists a, O1, L1, U1; auto 6|right].
      intros h C D H0. destruct (H h C D H0) as (h' & p' & R1 & E & H1 & H2 & H3 & H4). exists h', p', R1.
      repeat (split; auto). eapply IH; eauto. lia.
  Qed.
  Lemma wp_ret {A} n (a : A) R (Q : A -> res -> Prop) : Q a R -> wp n (PRet a) R Q.
  Proof. intros H. destruct R as [O B L U]. destruct n; left; exists a, O, L, U; cbn; auto using incl_refl. Qed.

  Lemma wp_post {A} n : forall (p : prog A) R (Q Q' : A -> res -> Prop), (forall a R, Q a R -> exists R', weaker R R' /\ Q' a R') -> wp n p R Q -> wp n p R Q'.
  Proof.
    assert (Hr : forall (p : prog A) R (Q Q' : A -> res -> Prop), (forall a R, Q a R -> exists R', weaker R R' /\ Q' a R') ->
      (exists a O1 L1 U1, p = PRet a /\ Permutation (r_own R) O1 /\ incl L1 (r_len R) /\ incl U1 (r_uni R) /\ Q a (MkR O1 (r_bor R) L1 U1)) ->
      (exists a O1 L1 U1, p = PRet a /\ Permutation (r_own R) O1 /\ incl L1 (r_len R) /\ incl U1 (r_uni R) /\ Q' a (MkR O1 (r_bor R) L1 U1))).
    { intros p R Q Q' HQ (a & O1 & L1 & U1 & E & P & Il & Iu & H). destruct (HQ _ _ H) as ([O2 B2 L2 U2] & (P' & Eb & Il' & Iu') & H2).
      cbn in *. exists a, O2, L2, U2. split; auto. split; [etransitivity; eauto|]. split; [eapply incl_tran; eauto|]. split; [eapply incl_tran; eauto|]. now rewrite Eb. }
    induction n as [|n IH]; intros p R Q Q' HQ; cbn [wp].
    - intros [H|[]]. left. eapply Hr; eauto.
    - intros [H|H]; [left; eapply Hr; eauto|right].
      intros h C D H0. destruct (H h C D H0) as (h' & p' & R1 & E & H1 & H2 & H3 & H4). exists h', p', R1.
      repeat (split; auto). eapply IH; eauto.
  Qed.

  Definition frob {A} (p : prog A) : prog A :=
    match p with
    | PRet a => PRet a | PTau k => PTau k | PInc a k => PInc a k | PDec a k => PDec a k | PNew ns k => PNew ns k
    | PRead a k => PRead a k | PUniq a k => PUniq a k | PBack a ns k => PBack a ns k | PFault => PFault
    end.
  Lemma frob_eq {A} (p : prog A) : p = frob p.
  Proof. now destruct p. Qed.
  Lemma bind_ret {A A'} (a : A) (f : A -> prog A') : pbind (PRet a) f = f a.
  Proof. rewrite (frob_eq (pbind (PRet a) f)). rewrite (frob_eq (f a)). reflexivity. Qed.
  Lemma pstep_bind {A A'} h (p : prog A) (f : A -> prog A') h' p' : pstep h p = Some (h', p') -> pstep h (pbind p f) = Some (h', pbind p' f).
  Proof.
    destruct p; cbn [pstep]; try discriminate.
    - intros [= <- <-]. reflexivity.
    - destruct (arc_clone h a) as [h1|] eqn:E; [|discriminate]. intros [= <- <-]. cbn. now rewrite E.
    - destruct (h_cell h a) as [[[|[|r]] ns]|] eqn:E; try discriminate; intros Q; injection Q as <- <-; cbn [pbind]; rewrite (frob_eq (pbind _ f)); cbn [frob pbind pstep]; rewrite E; reflexivity.
    - intros [= <- <-]. reflexivity.
    - destruct (h_cell h a) as [[[|r] ns]|] eqn:E; try discriminate; intros Q; injection Q as <- <-; cbn [pbind]; rewrite (frob_eq (pbind _ f)); cbn [frob pbind pstep]; rewrite E; reflexivity.
    - destruct (h_cell h a) as [[[|[|r]] ns]|] eqn:E; try discriminate; intros Q; injection Q as <- <-; cbn [pbind]; rewrite (frob_eq (pbind _ f)); cbn [frob pbind pstep]; rewrite E; reflexivity.
    - destruct (h_cell h a) as [c|] eqn:E; [discriminate|]. destruct (a <? h_next h) eqn:E2; [|discriminate].
      intros [= <- <-]. rewrite (frob_eq (pbind _ f)); cbn [frob pbind pstep]. rewrite E, E2. reflexivity.
  Qed.
  Lemma wp_bind {A A'} n : forall n2 (p : prog A) (f : A -> prog A') R Q1 Q, wp n p R Q1 ->
    (forall a R', Q1 a R' -> wp n2 (f a) R' Q) -> wp (n + n2) (pbind p f) R Q.
  Proof.
    induction n as [|n IH]; intros n2 p f R Q1 Q; cbn [wp].
    - intros [(a & O1 & L1 & U1 & -> & P & Il & Iu & H)|[]] Hf. rewrite bind_ret. apply Hf in H. eapply wp_weaken; [|exact H].
      repeat split; cbn; auto.
    - intros [(a & O1 & L1 & U1 & -> & P & Il & Iu & H)|H] Hf.
      + rewrite bind_ret. apply Hf in H. eapply wp_mono with (n := n2); [lia|intros ? ? X; exact X|]. eapply wp_weaken; [|exact H]. repeat split; cbn; auto.
      + cbn [plus wp]. right. intros h C D H0. destruct (H h C D H0) as (h' & p' & R1 & E & H1 & H2 & H3 & H4).
        exists h', (pbind p' f), R1. split; [now apply pstep_bind|]. repeat (split; auto). eapply IH; eauto.
  Qed.

  (** ** Steps of others: [R2] is a resource that does not take part in a step from [O1] to [O1'] *)
  Lemma cnt_app3 a (l m k : list node) : cnt a (l ++ m ++ k) = cnt a l + cnt a m + cnt a k.
  Proof. rewrite !cnt_app. lia. Qed.
  Lemma stable h h' O1 O1' R2 C D D' : St h R2 (fsts O1 ++ C) D ->
    Inv h' (Sn ++ fsts O1' ++ fsts (r_own R2) ++ C) -> frame h h' (Sn ++ fsts (r_own R2) ++ C) -> noforge h O1 h' O1' ->
    NoDup (r_bor R2 ++ D') -> (forall b, In b (r_bor R2 ++ D') -> h_cell h' b = None /\ b < h_next h') ->
    St h' R2 (fsts O1' ++ C) D'.
  Proof.
    intros [I1 I2 I3 I4 I5 I6 I7] J F N Nd Hb.
    assert (F1 : frame h h' Sn) by (eapply frame_incl; [|exact F]; intros x Hx; apply in_or_app; now left).
    assert (F2 : frame h h' (fsts (r_own R2))) by (eapply frame_incl; [|exact F]; intros x Hx; rewrite !in_app_iff; tauto).
    assert (F3 : frame h h' (Sn ++ fsts (r_own R2))) by (eapply frame_incl; [|exact F]; intros x; rewrite !in_app_iff; tauto).
    constructor; auto.
    - eapply inv_perm; [|exact J]. apply Permutation_app_head. rewrite !app_assoc. apply Permutation_app_tail. apply Permutation_app_comm.
    - exact (frame_dens_own h h' Sn _ _ F1 (incl_refl _) I2).
    - exact (frame_dens_own h h' _ _ _ F2 (incl_refl _) I3).
    - intros o m t Hi. destruct (I6 o m t Hi) as (A & W & Dm). split; auto.
      assert (Fo : frame h h' [o]) by (eapply frame_incl; [|exact F3]; intros x [<-|[]]; auto).
      split; [eapply frame_within; eauto|]. apply (frame_den h h' [o] Fo); auto.
    - intros a Ha. destruct (I7 a Ha) as (E & ns & Hc). split; auto.
      pose proof (inv_count _ _ I1 a) as Q. rewrite Hc, !cnt_app in Q. destruct Q as [Q _].
      assert (Z : cnt a (fsts O1') + hrefs h' a = 0) by (apply N; [congruence|]; rewrite cnt_app; lia).
      pose proof (inv_count _ _ J a) as Q'. rewrite !cnt_app in Q'.
      destruct (cnt_pos_in a (fsts (r_own R2))) as (n & Hn & Qn); [lia|].
      destruct (F2 a 1 ns) as (rc' & Hc'); auto. { exists n. split; auto. now constructor. }
      rewrite Hc' in Q'. exists ns. rewrite Hc'. do 2 f_equal. lia.
  Qed.

  (** what a program does not own it leaves alone *)
  Definition plus_res (R : res) (F : list ent) (E : list nat) (U : list nat) : res :=
    MkR (r_own R ++ F) (r_bor R ++ E) (r_len R) (r_uni R ++ U).
  Lemma wp_frame {A} n : forall (p : prog A) R Q F E U,
    (forall o m t, In (o, (m, t)) (r_len R) -> In o (Sn ++ fsts (r_own R))) -> (forall a, In a (r_uni R) -> cnt a (fsts (r_own R)) = 1) ->
    (forall a, In a U -> cnt a (fsts F) = 1) ->
    wp n p R Q -> wp n p (plus_res R F E U) (fun a R' => exists R1, Q a R1 /\ R' = plus_res R1 F E U).
  Proof.
    induction n as [|n IH]; intros p R Q F E U HL HU HUF; cbn [wp].
    - intros [(a & O1 & L1 & U1 & -> & P & Il & Iu & H)|[]]. left. exists a, (O1 ++ F), L1, (U1 ++ U). split; auto. cbn [plus_res r_own r_bor r_len r_uni].
      split; [now apply Permutation_app_tail|]. split; auto. split; [now apply incl_app_app; auto using incl_refl|]. eexists. split; [exact H|reflexivity].
    - intros [(a & O1 & L1 & U1 & -> & P & Il & Iu & H)|H].
      { left. exists a, (O1 ++ F), L1, (U1 ++ U). split; auto. cbn [plus_res r_own r_bor r_len r_uni].
        split; [now apply Permutation_app_tail|]. split; auto. split; [now apply incl_app_app; auto using incl_refl|]. eexists. split; [exact H|reflexivity]. }
      right. intros h C D H0. pose proof H0 as [I1 I2 I3 I4 I5 I6 I7]. cbn [plus_res r_own r_bor r_len r_uni] in *.
      rewrite fsts_app in *. rewrite snds_app in *.
      assert (S1 : St h R (fsts F ++ C) (E ++ D)).
      { rewrite <- (app_assoc (fsts (r_own R))) in I1. rewrite <- app_assoc in I4, I5. constructor; auto.
        - apply dens_app in I3 as (t1 & t2 & Et & D1 & D2). assert (t1 = snds (r_own R)).
          { apply dens_length in D1. unfold fsts in D1. rewrite map_length in D1. apply (f_equal (firstn (length t1))) in Et.
            rewrite !firstn_app, firstn_all, Nat.sub_diag, firstn_O, app_nil_r in Et. unfold snds in Et. rewrite !map_length, <- D1, Nat.sub_diag, firstn_O, app_nil_r in Et.
            rewrite <- (map_length snd (r_own R)), firstn_all in Et. auto. } subst t1. auto.
        - intros o m t Hi. destruct (I6 o m t Hi) as (A1 & A2 & A3). split; auto. eapply HL; eauto.
        - intros a Ha. destruct (I7 a) as (A1 & A2); [apply in_or_app; auto|]. split; auto. }
      assert (S2 : St h (MkR F E [] U) (fsts (r_own R) ++ C) (r_bor R ++ D)).
      { constructor; cbn [r_own r_bor r_len r_uni]; auto; try easy.
        - eapply inv_perm; [|exact I1]. apply Permutation_app_head. rewrite <- (app_assoc (fsts (r_own R))), !app_assoc. apply Permutation_app_tail, Permutation_app_comm.
        - apply dens_ents. intros m t Hi. rewrite <- fsts_app, <- snds_app in I3. rewrite dens_ents in I3. apply I3. apply in_or_app. auto.
        - eapply Permutation_NoDup; [|exact I4]. rewrite <- app_assoc, !app_assoc. apply Permutation_app_tail, Permutation_app_comm.
        - intros b Hb. apply I5. rewrite !in_app_iff in *. tauto.
        - intros a Ha. destruct (I7 a) as (A1 & A2); [apply in_or_app; auto|]. split; auto. }
      destruct (H h _ _ S1) as (h' & p' & R1 & Es & T1 & Fr & Nf & W).
      pose proof T1 as [J1 J2 J3 J4 J5 J6 J7].
      assert (T2 : St h' (MkR F E [] U) (fsts (r_own R1) ++ C) (r_bor R1 ++ D)).
      { eapply (stable h h' (r_own R) (r_own R1) (MkR F E [] U) C (r_bor R ++ D)); cbn [r_own r_bor]; auto.
        - eapply Permutation_NoDup; [|exact J4]. rewrite !app_assoc. apply Permutation_app_tail, Permutation_app_comm.
        - intros b Hb. apply J5. rewrite !in_app_iff in *. tauto. }
      exists h', p', (plus_res R1 F E U). split; auto. split; [|split; [|split]].
      + pose proof T2 as [K1 K2 K3 K4 K5 K6 K7]. cbn [r_own r_bor r_len r_uni] in *.
        constructor; cbn [plus_res r_own r_bor r_len r_uni]; auto.
        * rewrite fsts_app, <- app_assoc. exact J1.
        * rewrite fsts_app, snds_app. now apply dens_join.
        * rewrite <- app_assoc. exact J4.
        * intros b. rewrite <- app_assoc. apply J5.
        * intros o m t Hi. destruct (J6 o m t Hi) as (A1 & A2 & A3). split; auto. rewrite fsts_app, app_assoc. apply in_or_app. now left.
        * intros a Ha. rewrite fsts_app, cnt_app. assert (Hz : forall x y : nat, x + y = 1 -> x + y = 1) by auto.
          apply in_app_or in Ha as [Ha|Ha].
          -- destruct (J7 a Ha) as (A1 & ns & A2). split; [|eauto]. pose proof (inv_count _ _ J1 a) as Qc. rewrite A2, !cnt_app in Qc. lia.
          -- destruct (K7 a Ha) as (A1 & ns & A2). split; [|eauto]. pose proof (inv_count _ _ K1 a) as Qc. rewrite A2, !cnt_app in Qc. lia.
      + eapply frame_incl; [|exact Fr]. intros x. rewrite !in_app_iff. tauto.
      + cbn [plus_res r_own]. intros a Ha Ez. rewrite fsts_app in *. rewrite !cnt_app in *. 
        assert (Z : cnt a (fsts (r_own R1)) + hrefs h' a = 0) by (apply Nf; auto; rewrite cnt_app; lia). lia.
      + apply IH; auto.
        * intros o m t Hi. now apply (J6 o m t).
        * intros a Ha. now apply (J7 a).
  Qed.
End Logic.
