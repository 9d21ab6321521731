(** Rules for the atomic accesses, and for the operations built from them. *)
From Coq Require Import Permutation.
From Verif Require Export LconcLogic.

Section Rules.
  Context {K V : Type}.
  Notation tree := (rtree K V).
  Notation node := (node K V).
  Notation heap := (heap K V).
  Notation prog := (prog K V).
  Notation ent := (node * tree)%type.
  Implicit Types (h : heap) (ns C : list node) (ts : list tree) (O F : list ent) (D B : list nat).
  Context (S : list ent).
  Notation Sn := (fsts S).
  Notation St := (St S).
  Notation wp := (wp S).
  Notation noforge := (noforge S).

  Lemma fsts_combine ns ts : length ns = length ts -> fsts (combine ns ts) = ns.
  Proof. revert ts. induction ns as [|n ns IH]; intros [|t ts] E; cbn in *; try discriminate; auto. f_equal. apply IH. lia. Qed.
  Lemma snds_combine ns ts : length ns = length ts -> snds (combine ns ts) = ts.
  Proof. revert ts. induction ns as [|n ns IH]; intros [|t ts] E; cbn in *; try discriminate; auto. f_equal. apply IH. lia. Qed.
  Lemma ents_combine O : combine (fsts O) (snds O) = O.
  Proof. induction O as [|[m t] O IH]; [reflexivity|]. cbn [fsts snds map fst snd combine]. unfold fsts, snds in IH. now rewrite IH. Qed.

  (** the vector at [a], which stands for [ts], can be read through [o] *)
  Definition vlent (R : res) (o : node) (a : nat) (ts : list tree) : Prop :=
    (exists p v, o = MkN p v (inr a) /\ In (o, Node p v ts) (S ++ r_own R)) \/ exists ks, In (o, (a, (ts, ks))) (r_len R).
  Lemma own_st h R C D m t : St h R C D -> In (m, t) (S ++ r_own R) -> In m (Sn ++ fsts (r_own R)) /\ den h m t.
  Proof.
    intros H Hi. split.
    - rewrite <- fsts_app. apply (in_map fst) in Hi. exact Hi.
    - apply in_app_or in Hi as [Hi|Hi].
      + apply (dens_ents h S); auto. apply H.
      + apply (dens_ents h (r_own R)); auto. apply H.
  Qed.
  Lemma vlent_st h R C D o a ts : St h R C D -> vlent R o a ts -> In o (Sn ++ fsts (r_own R)) /\ lends h o a ts [].
  Proof.
    intros H [(p & v & -> & Hi)|(ks & Hi)].
    - destruct (own_st _ _ _ _ _ _ H Hi) as (Ho & Dm). split; auto. inversion Dm; subst. split; [now constructor|]. eexists _, _.
      split; [eassumption|]. split; [assumption|easy].
    - destruct (st_L _ _ _ _ _ H _ _ _ _ Hi) as (Ho & Ro & rc & ns & Ha & Dn & _). split; auto. split; auto. exists rc, ns. split; auto. split; auto. easy.
  Qed.
  Lemma reach_refs h C o a : Inv h C -> In o C -> reach h o a -> 0 < cnt a C + hrefs h a.
  Proof.
    intros I Ho Ro. apply reach_last in Ro as [Q|(b & rb & nb & m & Hb & Hm & Qm)].
    - pose proof (cnt_In a _ _ Ho Q). lia.
    - pose proof (inv_cell_live _ _ _ _ _ _ _ I Hb Hm Qm). lia.
  Qed.
  Lemma vlent_cell h R C D o a ts : St h R C D -> vlent R o a ts ->
    In o (Sn ++ fsts (r_own R)) /\ reach h o a /\
    exists rc ns, h_cell h a = Some (Datatypes.S rc, ns) /\ dens h ns ts /\ 0 < cnt a (Sn ++ fsts (r_own R)) + hrefs h a.
  Proof.
    intros H Hl. destruct (vlent_st _ _ _ _ _ _ _ H Hl) as (Ho & Ro & rc & ns & Hc & Dn & _). split; auto. split; auto.
    pose proof (inv_count _ _ (st_inv _ _ _ _ _ H) a) as Q. rewrite Hc in Q. destruct Q as [Q P].
    destruct rc as [|rc]; [lia|]. exists rc, ns. split; auto. split; auto.
    apply reach_last in Ro as [Qm|(b & rb & nb & m & Hb & Hm & Qm)].
    - pose proof (cnt_In a _ _ Ho Qm). lia.
    - pose proof (inv_cell_live _ _ _ _ _ _ _ (st_inv _ _ _ _ _ H) Hb Hm Qm). lia.
  Qed.
  Lemma own_cell' h R C D m t a : St h R C D -> In (m, t) (S ++ r_own R) -> n_kids m = inr a ->
    exists rc ns p v ts, t = Node p v ts /\ h_cell h a = Some (Datatypes.S rc, ns) /\ dens h ns ts /\ m = MkN p v (inr a) /\
      0 < cnt a (Sn ++ fsts (r_own R)) + hrefs h a.
  Proof.
    intros H Hi Qa. destruct (own_st _ _ _ _ _ _ H Hi) as (Ho & Dm). inversion Dm as [|p v a' rc ns ts Hc Dn]; subst; [discriminate|].
    cbn in Qa. injection Qa as ->. destruct (vlent_cell _ _ _ _ (MkN p v (inr a)) a ts H) as (_ & _ & rc' & ns' & Hc' & Dn' & P).
    { left. eauto. }
    exists rc', ns', p, v, ts. auto.
  Qed.

  (** a step that keeps the contents of all vectors, up to loading *)
  Lemma st_force h h' R C D O' L' U' : St h R C D -> (forall C', lframe h h' C') -> mono h h' ->
    Inv h' (Sn ++ fsts O' ++ C) -> (forall m t, In (m, t) O' -> In (m, t) (r_own R) \/ den h' m t) ->
    (forall o a ts ks, In (o, (a, (ts, ks))) L' -> In o (Sn ++ fsts O') /\ (In (o, (a, (ts, ks))) (r_len R) \/ lends h' o a ts ks)) ->
    (forall a, In a U' -> cnt a (fsts O') = 1 /\ exists ns, h_cell h' a = Some (1, ns)) ->
    St h' (MkR O' (r_bor R) L' U') C D /\ lframe h h' (Sn ++ C).
  Proof.
    intros [I1 I2 I3 I4 I5 I6 I7] X [M1 M2] J HO HL HU.
    split; [|apply X]. constructor; cbn [r_own r_bor r_len r_uni]; auto.
    - exact (lframe_dens_own h h' Sn _ _ (X _) (incl_refl _) I2).
    - apply dens_ents. intros m t Hi. destruct (HO m t Hi) as [Hi'|]; auto. apply (proj1 (lframe_den h h' [m] (X _))).
      + apply (dens_ents h (r_own R)); auto.
      + apply inside_in. now left.
    - intros b Hb. destruct (I5 b Hb) as [A1 A2]. split; [now apply M2|lia].
    - intros o b us ks Hi. destruct (HL o b us ks Hi) as (A & [Hi'|W]); auto. split; auto.
      destruct (I6 o b us ks Hi') as (_ & W). eapply lends_frame; eauto.
  Qed.
  (** a step that keeps the contents of all vectors *)
  Lemma st_ext h h' R C D O' L' U' : St h R C D -> extends h h' -> mono h h' ->
    Inv h' (Sn ++ fsts O' ++ C) -> (forall m t, In (m, t) O' -> In (m, t) (r_own R) \/ den h' m t) ->
    (forall o a ts ks, In (o, (a, (ts, ks))) L' -> In o (Sn ++ fsts O') /\ (In (o, (a, (ts, ks))) (r_len R) \/ lends h' o a ts ks)) ->
    (forall a, In a U' -> cnt a (fsts O') = 1 /\ exists ns, h_cell h' a = Some (1, ns)) ->
    St h' (MkR O' (r_bor R) L' U') C D /\ lframe h h' (Sn ++ C).
  Proof. intros H X. eapply st_force; eauto. intros C'. now apply lframe_ext. Qed.
  Lemma noforge_refl h O h' O' : (forall a, cnt a (fsts O') + hrefs h' a <= cnt a (Sn ++ fsts O) + hrefs h a) -> noforge h O h' O'.
  Proof. intros H a _ E. specialize (H a). lia. Qed.

  (** ** Atomic accesses *)
  Lemma wp_tau {A} n (k : prog A) R Q : wp n k R Q -> wp (Datatypes.S n) (PTau k) R Q.
  Proof.
    intros H. right. intros h C D H0. exists h, k, R. split; auto. split; auto. split; [apply lframe_refl|]. split; auto.
    apply noforge_refl. intros a. rewrite cnt_app. lia.
  Qed.
  (** a count goes up *)
  Lemma inc_st h R C D p v a ts rc ns : St h R C D -> h_cell h a = Some (Datatypes.S rc, ns) -> dens h ns ts ->
    0 < cnt a (Sn ++ fsts (r_own R)) + hrefs h a ->
    exists h', arc_clone h a = Some h' /\ St h' (MkR ((MkN p v (inr a), Node p v ts) :: r_own R) (r_bor R) (r_len R) []) C D /\
      lframe h h' (Sn ++ C) /\ noforge h (r_own R) h' ((MkN p v (inr a), Node p v ts) :: r_own R).
  Proof.
    intros H0 Hc Dn Hp.
    destruct (arc_clone_inv h _ a p v (st_inv _ _ _ _ _ H0)) as (h' & E & J & G); [rewrite app_assoc, cnt_app; lia|].
    assert (M : mono h h') by (unfold arc_clone in E; rewrite Hc in E; injection E as <-; eapply mono_upd; eauto).
    pose proof (grows_ext _ _ G) as X. exists h'. split; auto.
    destruct (st_ext h h' R C D ((MkN p v (inr a), Node p v ts) :: r_own R) (r_len R) [] H0 X M) as (T & Fr); try easy.
    - cbn [fsts map fst app]. eapply inv_perm; [|exact J]. apply Permutation_middle.
    - intros m' t' [[= <- <-]|Hi]; auto. right. destruct (X _ _ _ Hc) as (rc' & Hc'). econstructor; [exact Hc'|]. now apply (den_ext h h' X).
    - intros o' b us ks Hi. split; auto. destruct (st_L _ _ _ _ _ H0 _ _ _ _ Hi) as (A1 & _). cbn [fsts map fst]. rewrite in_app_iff in *. cbn. tauto.
    - split; auto. split; auto. intros b _ E0. assert (b <> a) by (intros ->; lia). cbn [fsts map fst]. rewrite cnt_cons.
      unfold ref. cbn [n_kids]. replace (a =? b) with false by (symmetry; apply Nat.eqb_neq; auto).
      replace (hrefs h' b) with (hrefs h b); [rewrite cnt_app in E0; unfold fsts in *; lia|].
      unfold arc_clone in E. rewrite Hc in E. injection E as <-. pose proof (hrefs_upd h a (Some (Datatypes.S (Datatypes.S rc), ns)) b (inv_lt _ _ _ _ (st_inv _ _ _ _ _ H0) Hc)) as Q0.
      unfold ccnt in Q0 at 1. rewrite Hc in Q0. lia.
  Qed.
  Lemma wp_inc {A} n a (k : prog A) R Q m t : In (m, t) (S ++ r_own R) -> n_kids m = inr a ->
    wp n k (MkR ((m, t) :: r_own R) (r_bor R) (r_len R) []) Q -> wp (Datatypes.S n) (PInc a k) R Q.
  Proof.
    intros Hi Qa H. right. intros h C D H0. destruct (own_cell' _ _ _ _ _ _ _ H0 Hi Qa) as (rc & ns & p & v & ts & -> & Hc & Dn & -> & Hp).
    destruct (inc_st h R C D p v a ts rc ns H0 Hc Dn Hp) as (h' & E & T & F & N).
    exists h', k, (MkR ((MkN p v (inr a), Node p v ts) :: r_own R) (r_bor R) (r_len R) []).
    split; [cbn [pstep]; now rewrite E|]. auto.
  Qed.
  (** a step that changes nothing *)
  Lemma still_st h R C D L' : St h R C D ->
    (forall o a ts ks, In (o, (a, (ts, ks))) L' -> In o (Sn ++ fsts (r_own R)) /\ (In (o, (a, (ts, ks))) (r_len R) \/ lends h o a ts ks)) ->
    St h (MkR (r_own R) (r_bor R) L' []) C D /\ lframe h h (Sn ++ C) /\ noforge h (r_own R) h (r_own R).
  Proof.
    intros H0 HL. destruct (st_ext h h R C D (r_own R) L' [] H0 (extends_refl h) (mono_refl h)) as (T & Fr); try easy.
    - apply H0.
    - auto.
    - split; auto. split; auto. apply noforge_refl. intros b. rewrite cnt_app. lia.
  Qed.
  Lemma dens_sums h ns ts : dens h ns ts -> map (fun n : node => (n_prefix n, n_value n)) ns = map (fun t => (t_prefix t, t_value t)) ts.
  Proof. induction ns as [|n ns IH] in ts |- *; intros Dn; inversion Dn as [|? ? ? ? D1 D2]; subst; cbn [map]; auto. f_equal; auto. now inversion D1. Qed.
  Lemma wp_sums {A} n a (k : list (list K * option V) -> prog A) R Q o ts : vlent R o a ts ->
    wp n (k (map (fun t => (t_prefix t, t_value t)) ts)) (MkR (r_own R) (r_bor R) (r_len R) []) Q ->
    wp (Datatypes.S n) (PSums a k) R Q.
  Proof.
    intros Hl H. right. intros h C D H0. destruct (vlent_cell _ _ _ _ _ _ _ H0 Hl) as (Ho & Ro & rc & ns & Hc & Dn & Hp).
    destruct (still_st h R C D (r_len R) H0) as (T & F & N).
    { intros o' b us ks Hi. split; auto. now apply (st_L _ _ _ _ _ H0 _ _ _ _ Hi). }
    eexists h, _, (MkR (r_own R) (r_bor R) (r_len R) []). split; [cbn [pstep]; rewrite Hc; reflexivity|].
    rewrite (dens_sums _ _ _ Dn). auto.
  Qed.
  Lemma wp_copy {A} n a i (k : node -> prog A) R Q o ts t : vlent R o a ts -> nth_error ts i = Some t ->
    (forall c, wp n (k c) (MkR ((c, t) :: r_own R) (r_bor R) (r_len R) []) Q) ->
    wp (Datatypes.S n) (PCopy a i k) R Q.
  Proof.
    intros Hl Ht H. right. intros h C D H0. destruct (vlent_cell _ _ _ _ _ _ _ H0 Hl) as (Ho & Ro & rc & ns & Hc & Dn & Hp).
    pose proof (dens_nth h ns ts i Dn) as Hn. rewrite Ht in Hn. destruct (nth_error ns i) as [c|] eqn:Qc; [|easy].
    cbn [pstep]. rewrite Hc, Qc. unfold node_clone. destruct c as [p v [us|b]]; cbn [n_kids].
    - inversion Hn; subst. eexists h, _, (MkR ((MkN p v (inl us), Node p v us) :: r_own R) (r_bor R) (r_len R) []). split; [reflexivity|].
      destruct (st_ext h h R C D ((MkN p v (inl us), Node p v us) :: r_own R) (r_len R) [] H0 (extends_refl h) (mono_refl h)) as (T & F); try easy.
      + cbn [fsts map fst app]. eapply inv_perm; [apply Permutation_middle|]. apply inv_inl. apply H0.
      + intros m' t' [[= <- <-]|Hi]; auto.
      + intros o' b us' ks Hi. split; auto. destruct (st_L _ _ _ _ _ H0 _ _ _ _ Hi) as (A1 & _). cbn [fsts map fst]. rewrite in_app_iff in *. cbn. tauto.
      + split; [exact T|]. split; [exact F|]. split; [|apply H]. apply noforge_refl. intros b. cbn [r_own fsts map fst]. rewrite cnt_cons, cnt_app.
        unfold ref. cbn [n_kids]. unfold fsts. lia.
    - inversion Hn as [|? ? ? rb nb ub Hb Db]; subst. pose proof (st_inv _ _ _ _ _ H0) as I.
      assert (Hpb : 0 < hrefs h b).
      { apply nth_error_In in Qc. eapply (inv_cell_live _ _ _ _ _ _ _ I Hc Qc). reflexivity. }
      pose proof (inv_count _ _ I b) as Qb. rewrite Hb in Qb. destruct Qb as [Qb Pb]. destruct rb as [|rb]; [lia|].
      destruct (inc_st h R C D p v b ub rb nb H0 Hb Db) as (h' & E & T & F & N); [lia|]. rewrite E.
      eexists h', _, (MkR ((MkN p v (inr b), Node p v ub) :: r_own R) (r_bor R) (r_len R) []). split; [reflexivity|]. auto.
  Qed.
  (** loading *)
  Lemma force_at_lframe h C0 a i h' C' : Inv h C0 -> force_at h a i = Some h' -> (forall m t, den h m t -> den h' m t) -> lframe h h' C'.
  Proof.
    intros I E P b rc ns _ Hb. destruct (PersistFacts.force_at_forced h C0 a i h' I E b rc ns Hb) as (ns' & Hb' & F).
    exists rc, ns'. split; auto. destruct (inv_den _ _ I _ _ _ Hb) as (ts & Dn).
    assert (Dn' : dens h' ns' ts).
    { assert (X : den h (MkN [] None (inr b)) (Node [] None ts)) by (econstructor; eauto). apply P in X. inversion X; subst.
      match goal with Q : h_cell h' b = Some (_, ?n) |- _ => rewrite Hb' in Q; injection Q as _ -> end. assumption. }
    clear - F Dn Dn'. revert ts Dn Dn'. induction F as [|n n' ns ns' Sl F IH]; intros ts Dn Dn'; constructor.
    - inversion Dn as [|? t ? ? D1 D2]; subst. inversion Dn' as [|? ? ? ? D1' D2']; subst. destruct Sl as [->|(us & c & Q & ->)]; [now left|].
      right. exists us, c. split; auto. split; auto. destruct n as [p v k]. cbn in Q. subst k. inversion D1; subst. exact D1'.
    - inversion Dn; subst. inversion Dn'; subst. eapply IH; eauto.
  Qed.
  Lemma force_at_mono h a i h' : force_at h a i = Some h' -> mono h h'.
  Proof.
    unfold force_at. destruct (h_cell h a) as [[rc ns]|] eqn:Ha; [|discriminate]. destruct (nth_error ns i) as [c|]; [|discriminate].
    destruct (force h c) as [h1 b] eqn:Q. intros [= <-]. pose proof (mono_force _ _ _ _ Q) as M.
    assert (Ha1 : a < h_next h -> h_cell h1 a <> None \/ h_cell h1 a = h_cell h a).
    { intros Hlt. right. unfold force in Q. destruct (n_kids c); [|injection Q as <- <-; auto]. injection Q as <- <-. cbn.
      replace (a =? h_next h) with false by (symmetry; apply Nat.eqb_neq; lia). reflexivity. }
    destruct M as [M1 M2]. split; [cbn [h_upd h_next]; exact M1|]. intros x Hx Hn. destruct (Nat.eq_dec x a) as [->|N]; [congruence|].
    rewrite upd_other by auto. now apply M2.
  Qed.
  Lemma wp_force {A} n a i (k : prog A) R Q o ts : vlent R o a ts -> i < length ts ->
    wp n k (MkR (r_own R) (r_bor R) ((o, (a, (ts, [i]))) :: r_len R) []) Q ->
    wp (Datatypes.S n) (PForce a i k) R Q.
  Proof.
    intros Hl Hlen H. right. intros h C D H0. destruct (vlent_cell _ _ _ _ _ _ _ H0 Hl) as (Ho & Ro & rc & ns & Hc & Dn & Hp).
    pose proof (st_inv _ _ _ _ _ H0) as I.
    destruct (nth_error ns i) as [c|] eqn:Qc; [|exfalso; apply nth_error_None in Qc; rewrite (dens_length _ _ _ Dn) in Qc; lia].
    destruct (force_at_inv h _ a i _ ns c I Hc Qc) as (h' & b & ns' & E & I' & P & Hc' & Qc' & Pc).
    assert (F : forall C', lframe h h' C') by (intros C'; eapply force_at_lframe; eauto).
    exists h', k, (MkR (r_own R) (r_bor R) ((o, (a, (ts, [i]))) :: r_len R) []). split; [cbn [pstep]; now rewrite E|].
    destruct (st_force h h' R C D (r_own R) ((o, (a, (ts, [i]))) :: r_len R) [] H0 F (force_at_mono _ _ _ _ E)) as (T & Fr); try easy.
    - auto.
    - intros o' b' us ks [[= <- <- <- <-]|Hi]; [|split; [now apply (st_L _ _ _ _ _ H0 _ _ _ _ Hi)|auto]]. split; auto. right.
      destruct (lends_frame h h' o a ts [] (F _)) as (Ro' & rc2 & ns2 & Hc2 & Dn2 & _).
      { split; auto. exists (Datatypes.S rc), ns. split; auto. split; auto. easy. }
      split; auto. exists rc2, ns2. split; auto. split; auto. rewrite Hc' in Hc2. injection Hc2 as <- <-.
      intros j [<-|[]]. exists (with_arc c b), b. auto.
    - split; auto. split; auto. split; auto. intros d Hd E0. cbn [r_own].
      destruct (h_cell h d) as [[rd nd]|] eqn:Qd; [|congruence].
      destruct (PersistFacts.force_at_forced h _ a i h' I E d rd nd Qd) as (nd' & Qd' & _).
      pose proof (inv_count _ _ I d) as C1. pose proof (inv_count _ _ I' d) as C2. rewrite Qd in C1. rewrite Qd' in C2.
      rewrite cnt_app in E0. lia.
  Qed.
  Lemma wp_kids {A} n a i (k : nat -> prog A) R Q o ts ks t : In (o, (a, (ts, ks))) (r_len R) -> In i ks -> nth_error ts i = Some t ->
    (forall b, wp n (k b) (MkR (r_own R) (r_bor R) ((o, (b, (t_children t, []))) :: r_len R) []) Q) ->
    wp (Datatypes.S n) (PKids a i k) R Q.
  Proof.
    intros Hl Hik Ht H. right. intros h C D H0.
    destruct (vlent_cell _ _ _ _ o a ts H0) as (Ho & Ro & rc & ns & Hc & Dn & Hp); [right; eauto|].
    destruct (st_L _ _ _ _ _ H0 _ _ _ _ Hl) as (_ & _ & rc2 & ns2 & Hc2 & _ & Hks). rewrite Hc in Hc2. injection Hc2 as <- <-.
    destruct (Hks i Hik) as (c & b & Qc & Qb). pose proof (dens_nth h ns ts i Dn) as Hn. rewrite Ht, Qc in Hn.
    exists h, (k b), (MkR (r_own R) (r_bor R) ((o, (b, (t_children t, []))) :: r_len R) []). split; [cbn [pstep]; now rewrite Hc, Qc, Qb|].
    destruct (still_st h R C D ((o, (b, (t_children t, []))) :: r_len R) H0) as (T & F & N); [|auto].
    intros o' b' us ks' [[= <- <- <- <-]|Hi]; [|split; [now apply (st_L _ _ _ _ _ H0 _ _ _ _ Hi)|auto]]. split; auto. right.
    destruct c as [p v kk]. cbn in Qb. subst kk. inversion Hn as [|? ? ? rb nb ub Hb Db]; subst. split.
    - eapply reach_trans; [exact Ro|exact Hc|eapply nth_error_In; exact Qc|now constructor].
    - exists rb, nb. split; auto. split; auto. easy.
  Qed.

  (** the last owner takes the vector out *)
  Lemma take_st h p v a ts ns O B C D : St h (MkR ((MkN p v (inr a), Node p v ts) :: O) B [] []) C D -> h_cell h a = Some (1, ns) ->
    length ns = length ts /\
    St (h_upd h a None) (MkR (combine ns ts ++ O) B [] []) C D /\ lframe h (h_upd h a None) (Sn ++ C) /\
    noforge h ((MkN p v (inr a), Node p v ts) :: O) (h_upd h a None) (combine ns ts ++ O) /\ a < h_next h /\ ~ In a (B ++ D).
  Proof.
    intros [I1 I2 I3 I4 I5 I6 I7] Ha. cbn [r_own r_bor r_len r_uni fsts snds map fst snd app] in *.
    inversion I3 as [|? ? ? ? Dm Dr]; subst. inversion Dm as [|? ? ? rc ns' ? Hc Dn]; subst. rewrite Ha in Hc. injection Hc as <- <-.
    pose proof (dens_length _ _ _ Dn) as El. split; auto.
    assert (J : Inv h (MkN p v (inr a) :: (Sn ++ fsts O ++ C))).
    { eapply inv_perm; [|exact I1]. symmetry. apply Permutation_middle. }
    destruct (borrow_inv _ _ _ _ _ _ J Ha) as (J1 & P & Hlt). pose proof (frame_borrow _ _ _ _ _ _ None J Ha) as Fr.
    assert (M : mono h (h_upd h a None)) by (eapply mono_upd; eauto).
    assert (NB : ~ In a (B ++ D)) by (intros Hi; destruct (I5 a Hi); congruence).
    split; [|split; [|split; [|auto]]].
    - constructor; cbn [r_own r_bor r_len r_uni]; auto; try easy.
      + rewrite fsts_app, fsts_combine by auto. eapply inv_perm; [|exact J1]. rewrite !app_assoc. apply Permutation_app_tail, Permutation_app_tail, Permutation_app_comm.
      + eapply pres_dens; [|exact P|exact I2]. intros x Hx. rewrite !in_app_iff. tauto.
      + rewrite fsts_app, snds_app, fsts_combine, snds_combine by auto. apply dens_join.
        * eapply pres_dens; [|exact P|exact Dn]. intros x Hx. rewrite !in_app_iff. tauto.
        * eapply pres_dens; [|exact P|exact Dr]. intros x Hx. rewrite !in_app_iff. tauto.
      + intros b Hb. destruct (I5 b Hb). destruct M as [M1 M2]. split; auto.
    - eapply lframe_incl; [|apply frame_lframe; exact Fr]. intros x. rewrite !in_app_iff. tauto.
    - apply noforge_refl. intros b. rewrite fsts_app, fsts_combine by auto. pose proof (hrefs_upd h a None b Hlt) as E. unfold ccnt in E at 1. rewrite Ha in E.
      cbn [fsts map fst]. rewrite !cnt_app, cnt_cons. unfold fsts in *. lia.
  Qed.
  (** an owner gives up its share *)
  Lemma share_st h p v a ts ns r O B C D : St h (MkR ((MkN p v (inr a), Node p v ts) :: O) B [] []) C D -> h_cell h a = Some (Datatypes.S (Datatypes.S r), ns) ->
    let h' := h_upd h a (Some (Datatypes.S r, ns)) in
    St h' (MkR O B [] []) C D /\ lframe h h' (Sn ++ C) /\ noforge h ((MkN p v (inr a), Node p v ts) :: O) h' O.
  Proof.
    intros H0 Ha h'. assert (J : Inv h' (Sn ++ fsts O ++ C)).
    { eapply (rc_inv h _ _ a (Datatypes.S (Datatypes.S r)) (Datatypes.S r)); [apply (st_inv _ _ _ _ _ H0)|auto|lia| |].
      - cbn [r_own fsts map fst]. rewrite !cnt_app, cnt_cons, ref_self. unfold fsts in *. lia.
      - intros b Nb. cbn [r_own fsts map fst]. rewrite !cnt_app, cnt_cons. unfold ref. cbn [n_kids].
        replace (a =? b) with false by (symmetry; apply Nat.eqb_neq; auto). reflexivity. }
    assert (X : extends h h') by (eapply rc_extends; eauto). assert (M : mono h h') by (eapply mono_upd; eauto).
    destruct (st_ext h h' _ C D O [] [] H0 X M J) as (T & Fr); try easy.
    { intros m t Hi. left. cbn. auto. }
    split; auto. split; auto. apply noforge_refl. intros b. cbn [fsts map fst]. rewrite cnt_app, cnt_cons.
    pose proof (hrefs_upd h a (Some (Datatypes.S r, ns)) b (inv_lt _ _ _ _ (st_inv _ _ _ _ _ H0) Ha)) as E. unfold ccnt in E at 1. rewrite Ha in E. unfold h'. unfold fsts in *. lia.
  Qed.
  Lemma own_cell h p v a t R C D : St h R C D -> In (MkN p v (inr a), t) (r_own R) -> exists rc ns, h_cell h a = Some (Datatypes.S rc, ns).
  Proof.
    intros H0 Hi. destruct (own_cell' h R C D (MkN p v (inr a)) t a H0) as (rc & ns & _ & _ & _ & _ & Hc & _); eauto.
    apply in_or_app. auto.
  Qed.
  Lemma wp_dec {A} n a (k : option (list node) -> prog A) p v ts O B Q :
    (forall ns, length ns = length ts -> wp n (k (Some ns)) (MkR (combine ns ts ++ O) B [] []) Q) ->
    wp n (k None) (MkR O B [] []) Q ->
    wp (Datatypes.S n) (PDec a k) (MkR ((MkN p v (inr a), Node p v ts) :: O) B [] []) Q.
  Proof.
    intros H1 H2. right. intros h C D H0. destruct (own_cell h p v a (Node p v ts) _ C D H0) as (rc & ns & Hc); [now left|].
    cbn [pstep]. rewrite Hc. destruct rc as [|rc].
    - destruct (take_st _ _ _ _ _ _ _ _ _ _ H0 Hc) as (El & T & Fr & Nf & _ & _). eexists _, _, _. split; [reflexivity|]. split; [exact T|]. auto.
    - destruct (share_st _ _ _ _ _ _ _ _ _ _ _ H0 Hc) as (T & Fr & Nf). eexists _, _, _. split; [reflexivity|]. split; [exact T|]. auto.
  Qed.
  Lemma wp_uniq {A} n a (k : option (list node) -> prog A) p v ts O B Q :
    (forall ns, length ns = length ts -> wp n (k (Some ns)) (MkR (combine ns ts ++ O) (a :: B) [] []) Q) ->
    wp n (k None) (MkR ((MkN p v (inr a), Node p v ts) :: O) B [] []) Q ->
    wp (Datatypes.S n) (PUniq a k) (MkR ((MkN p v (inr a), Node p v ts) :: O) B [] []) Q.
  Proof.
    intros H1 H2. right. intros h C D H0. destruct (own_cell h p v a (Node p v ts) _ C D H0) as (rc & ns & Hc); [now left|].
    cbn [pstep]. rewrite Hc. destruct rc as [|rc].
    - destruct (take_st _ _ _ _ _ _ _ _ _ _ H0 Hc) as (El & [T1 T2 T3 T4 T5 T6 T7] & Fr & Nf & Hlt & NB).
      exists (h_upd h a None), (k (Some ns)), (MkR (combine ns ts ++ O) (a :: B) [] []). split; [reflexivity|].
      split; [|auto]. cbn [r_own r_bor r_len r_uni] in *. constructor; cbn [r_own r_bor r_len r_uni app]; auto; try easy.
      + now constructor.
      + intros b [<-|Hb]; auto. split; [apply upd_same|exact Hlt].
    - eexists _, _, _. split; [reflexivity|]. split; [exact H0|]. split; [apply lframe_refl|]. split; auto.
      apply noforge_refl. intros b. rewrite cnt_app. lia.
  Qed.
  (** the only owner always gets it *)
  Lemma wp_uniq_sure {A} n a (k : option (list node) -> prog A) p v ts O B Q :
    (forall ns, length ns = length ts -> wp n (k (Some ns)) (MkR (combine ns ts ++ O) (a :: B) [] []) Q) ->
    wp (Datatypes.S n) (PUniq a k) (MkR ((MkN p v (inr a), Node p v ts) :: O) B [] [a]) Q.
  Proof.
    intros H1. right. intros h C D H0. destruct (st_U _ _ _ _ _ H0 a) as (_ & ns & Hc); [now left|].
    assert (H0' : St h (MkR ((MkN p v (inr a), Node p v ts) :: O) B [] []) C D).
    { eapply st_weaken; [|exact H0]. repeat split; cbn; auto using incl_refl. easy. }
    cbn [pstep]. rewrite Hc.
    destruct (take_st _ _ _ _ _ _ _ _ _ _ H0' Hc) as (El & [T1 T2 T3 T4 T5 T6 T7] & Fr & Nf & Hlt & NB).
    exists (h_upd h a None), (k (Some ns)), (MkR (combine ns ts ++ O) (a :: B) [] []). split; [reflexivity|].
    split; [|auto]. cbn [r_own r_bor r_len r_uni] in *. constructor; cbn [r_own r_bor r_len r_uni app]; auto; try easy.
    + now constructor.
    + intros b [<-|Hb]; auto. split; [apply upd_same|exact Hlt].
  Qed.
  Lemma wp_new {A} n ns (k : nat -> prog A) p v ts O B Q : length ns = length ts ->
    (forall a, wp n (k a) (MkR ((MkN p v (inr a), Node p v ts) :: O) B [] [a]) Q) ->
    wp (Datatypes.S n) (PNew ns k) (MkR (combine ns ts ++ O) B [] []) Q.
  Proof.
    intros El H. right. intros h C D H0. cbn [pstep]. destruct (arc_new h ns) as [h' a] eqn:E. pose proof H0 as [I1 I2 I3 I4 I5 I6 I7].
    cbn [r_own r_bor r_len r_uni] in *. rewrite fsts_app, fsts_combine in I1 by auto.
    assert (J : Inv h (ns ++ (Sn ++ fsts O ++ C))).
    { eapply inv_perm; [|exact I1]. rewrite !app_assoc. apply Permutation_app_tail, Permutation_app_tail, Permutation_app_comm. }
    destruct (new_inv h ns _ p v h' a J E) as (J1 & G & Hc & Hn & Hlt). pose proof (grows_ext _ _ G) as X. pose proof (mono_new _ _ _ _ E) as M.
    exists h', (k a), (MkR ((MkN p v (inr a), Node p v ts) :: O) B [] [a]). split; auto.
    assert (Z : cnt a (Sn ++ fsts O) = 0).
    { pose proof (inv_count _ _ J a) as Q0. rewrite Hn, !cnt_app in Q0. rewrite cnt_app. lia. }
    rewrite fsts_app, snds_app, fsts_combine, snds_combine in I3 by auto.
    destruct (st_ext h h' _ C D ((MkN p v (inr a), Node p v ts) :: O) [] [a] H0 X M) as (T & Fr); try easy.
    - eapply inv_perm; [|exact J1]. cbn [fsts map fst app]. apply Permutation_middle.
    - cbn [r_own]. intros m t [[= <- <-]|Hi]; [right|left; apply in_or_app; auto].
      econstructor; [exact Hc|]. apply (den_ext h h' X).
      pose proof (st_O _ _ _ _ _ H0) as D0. cbn [r_own] in D0. rewrite dens_ents in D0.
      rewrite <- (fsts_combine ns ts El) at 1. rewrite <- (snds_combine ns ts El) at 2. apply dens_ents. intros m t Hm. apply D0. apply in_or_app. auto.
    - intros a' [<-|[]]. split; [|eauto]. cbn [fsts map fst]. rewrite cnt_cons, ref_self. rewrite cnt_app in Z. unfold fsts in *. lia.
    - split; auto. split; auto. split; auto. intros b Hb Ez. cbn [r_own] in *. rewrite fsts_app, fsts_combine in Ez by auto.
      cbn [fsts map fst]. rewrite cnt_cons. assert (b <> a) by (intros ->; congruence). unfold ref. cbn [n_kids].
      replace (a =? b) with false by (symmetry; apply Nat.eqb_neq; auto).
      pose proof (hrefs_new h ns b (inv_bound _ _ J)) as Q0. rewrite E in Q0. cbn [fst] in Q0. rewrite !cnt_app in Ez. unfold fsts in *. lia.
  Qed.
  Lemma wp_back {A} n a ns (k : prog A) p v ts O B Q : length ns = length ts ->
    wp n k (MkR ((MkN p v (inr a), Node p v ts) :: O) B [] []) Q ->
    wp (Datatypes.S n) (PBack a ns k) (MkR (combine ns ts ++ O) (a :: B) [] []) Q.
  Proof.
    intros El H. right. intros h C D H0. pose proof H0 as [I1 I2 I3 I4 I5 I6 I7]. cbn [r_own r_bor r_len r_uni app] in *.
    destruct (I5 a) as [Hn Hlt]; [now left|]. cbn [pstep]. rewrite Hn. pose proof Hlt as Hlt'. apply Nat.ltb_lt in Hlt' as ->.
    rewrite fsts_app, fsts_combine in I1 by auto.
    assert (J : Inv h (ns ++ (Sn ++ fsts O ++ C))).
    { eapply inv_perm; [|exact I1]. rewrite !app_assoc. apply Permutation_app_tail, Permutation_app_tail, Permutation_app_comm. }
    destruct (giveback_inv h _ p v a ns J Hn Hlt) as (J1 & X). set (h' := h_upd h a (Some (1, ns))) in *.
    exists h', k, (MkR ((MkN p v (inr a), Node p v ts) :: O) B [] []). split; auto.
    inversion I4 as [|? ? NB ND]; subst. rewrite dens_ents in I3. split; [|split; [|split; [|auto]]].
    - constructor; cbn [r_own r_bor r_len r_uni]; auto; try easy.
      + eapply inv_perm; [|exact J1]. cbn [fsts map fst app]. apply Permutation_middle.
      + now apply (den_ext h h' X).
      + cbn [fsts snds map fst snd]. constructor.
        * econstructor; [apply upd_same|]. apply (den_ext h h' X). rewrite <- (fsts_combine ns ts El) at 1. rewrite <- (snds_combine ns ts El) at 2.
          apply dens_ents. intros m t Hm. apply I3. apply in_or_app. auto.
        * apply (den_ext h h' X). apply dens_ents. intros m t Hm. apply I3. apply in_or_app. auto.
      + intros b Hb. destruct (I5 b) as [A1 A2]; [now right|]. split; [|exact A2]. unfold h'. rewrite upd_other; auto. intros ->. contradiction.
    - now apply lframe_ext.
    - intros b Hb Ez. cbn [r_own] in *. rewrite fsts_app, fsts_combine in Ez by auto. cbn [fsts map fst]. rewrite cnt_cons.
      assert (b <> a) by (intros ->; congruence). unfold ref. cbn [n_kids]. replace (a =? b) with false by (symmetry; apply Nat.eqb_neq; auto).
      pose proof (hrefs_upd h a (Some (1, ns)) b Hlt) as Q0. unfold ccnt in Q0 at 1. rewrite Hn in Q0. fold h' in Q0. rewrite !cnt_app in Ez. unfold fsts in *. lia.
  Qed.
End Rules.
