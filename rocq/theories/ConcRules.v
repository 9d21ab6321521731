(** Rules for the atomic accesses, and for the operations built from them. *)
From Coq Require Import Permutation.
From Verif Require Export ConcLogic.

Section Rules.
  Context {K V : Type}.
  Notation tree := (rtree K V).
  Notation node := (node K V).
  Notation heap := (heap K V).
  Notation prog := (prog K V).
  Notation ent := (node * tree)%type.
  Implicit Types (h : heap) (ns C : list node) (ts : list tree) (O F : list ent) (D B : list nat).
  Context (S : list ent).
  Notation Sn := (fsts S).
  Notation St := (St S).
  Notation wp := (wp S).
  Notation noforge := (noforge S).

  Lemma fsts_combine ns ts : length ns = length ts -> fsts (combine ns ts) = ns.
  Proof. revert ts. induction ns as [|n ns IH]; intros [|t ts] E; cbn in *; try discriminate; auto. f_equal. apply IH. lia. Qed.
  Lemma snds_combine ns ts : length ns = length ts -> snds (combine ns ts) = ts.
  Proof. revert ts. induction ns as [|n ns IH]; intros [|t ts] E; cbn in *; try discriminate; auto. f_equal. apply IH. lia. Qed.
  Lemma ents_combine O : combine (fsts O) (snds O) = O.
  Proof. induction O as [|[m t] O IH]; [reflexivity|]. cbn [fsts snds map fst snd combine]. unfold fsts, snds in IH. now rewrite IH. Qed.

  (** [m], which stands for [t], can be read through [o] *)
  Definition lent (R : res) (o m : node) (t : tree) : Prop :=
    (o = m /\ In (m, t) (S ++ r_own R)) \/ In (o, (m, t)) (r_len R).
  Lemma lent_st h R C D o m t : St h R C D -> lent R o m t -> In o (Sn ++ fsts (r_own R)) /\ within h [o] m /\ den h m t.
  Proof.
    intros H [[-> Hi]|Hi]; [|now apply (st_L _ _ _ _ _ H)]. split; [|split].
    - rewrite <- fsts_app. apply (in_map fst) in Hi. exact Hi.
    - right. left. now left.
    - apply in_app_or in Hi as [Hi|Hi].
      + apply (dens_ents h S); auto. apply H.
      + apply (dens_ents h (r_own R)); auto. apply H.
  Qed.
  Lemma lent_cell h R C D o m t a : St h R C D -> lent R o m t -> n_kids m = inr a ->
    exists rc ns p v ts, t = Node p v ts /\ h_cell h a = Some (Datatypes.S rc, ns) /\ dens h ns ts /\ m = MkN p v (inr a) /\
      0 < cnt a (Sn ++ fsts (r_own R)) + hrefs h a.
  Proof.
    intros H Hl Qa. destruct (lent_st _ _ _ _ _ _ _ H Hl) as (Ho & W & Dm). inversion Dm as [|p v a' rc ns ts Hc Dn]; subst; [discriminate|].
    cbn in Qa. injection Qa as ->. pose proof (inv_count _ _ (st_inv _ _ _ _ _ H) a) as Q. rewrite Hc in Q. destruct Q as [Q P].
    destruct rc as [|rc]; [lia|]. exists rc, ns, p, v, ts. split; auto. split; auto. split; auto. split; auto.
    destruct W as [(us & Qu)|[[->|[]]|(b & rb & nb & _ & Hb & Hm)]].
    - discriminate.
    - pose proof (cnt_In a _ _ Ho eq_refl). lia.
    - pose proof (inv_cell_live _ _ _ _ _ _ _ (st_inv _ _ _ _ _ H) Hb Hm eq_refl). lia.
  Qed.

  (** a step that keeps the contents of all vectors *)
  Lemma st_ext h h' R C D O' L' U' : St h R C D -> extends h h' -> mono h h' ->
    Inv h' (Sn ++ fsts O' ++ C) -> (forall m t, In (m, t) O' -> In (m, t) (r_own R) \/ den h' m t) ->
    (forall o m t, In (o, (m, t)) L' -> In o (Sn ++ fsts O') /\ (In (o, (m, t)) (r_len R) \/ within h' [o] m /\ den h' m t)) ->
    (forall a, In a U' -> cnt a (fsts O') = 1 /\ exists ns, h_cell h' a = Some (1, ns)) ->
    St h' (MkR O' (r_bor R) L' U') C D /\ frame h h' (Sn ++ C).
  Proof.
    intros [I1 I2 I3 I4 I5 I6 I7] X [M1 M2] J HO HL HU. pose proof (den_ext h h' X) as [X1 X2].
    split; [|now apply frame_ext]. constructor; cbn [r_own r_bor r_len r_uni]; auto.
    - apply dens_ents. intros m t Hi. destruct (HO m t Hi) as [Hi'|]; auto. apply X1. apply (dens_ents h (r_own R)); auto.
    - intros b Hb. destruct (I5 b Hb) as [A1 A2]. split; [now apply M2|lia].
    - intros o m t Hi. destruct (HL o m t Hi) as (A & [Hi'|[W Dm]]); auto. split; auto.
      destruct (I6 o m t Hi') as (_ & W & Dm). split; auto. eapply frame_within; eauto. now apply frame_ext.
  Qed.
  Lemma noforge_refl h O h' O' : (forall a, cnt a (fsts O') + hrefs h' a <= cnt a (Sn ++ fsts O) + hrefs h a) -> noforge h O h' O'.
  Proof. intros H a _ E. specialize (H a). lia. Qed.

  (** ** Atomic accesses *)
  Lemma wp_tau {A} n (k : prog A) R Q : wp n k R Q -> wp (Datatypes.S n) (PTau k) R Q.
  Proof.
    intros H. right. intros h C D H0. exists h, k, R. split; auto. split; auto. split; [apply frame_refl|]. split; auto.
    apply noforge_refl. intros a. rewrite cnt_app. lia.
  Qed.
  Lemma wp_inc {A} n a (k : prog A) R Q o m t : lent R o m t -> n_kids m = inr a ->
    wp n k (MkR ((m, t) :: r_own R) (r_bor R) (r_len R) []) Q -> wp (Datatypes.S n) (PInc a k) R Q.
  Proof.
    intros Hl Qa H. right. intros h C D H0. destruct (lent_cell _ _ _ _ _ _ _ _ H0 Hl Qa) as (rc & ns & p & v & ts & -> & Hc & Dn & -> & Hp).
    destruct (arc_clone_inv h _ a p v (st_inv _ _ _ _ _ H0)) as (h' & E & J & G); [rewrite app_assoc, cnt_app; lia|].
    assert (M : mono h h') by (unfold arc_clone in E; rewrite Hc in E; injection E as <-; eapply mono_upd; eauto).
    pose proof (grows_ext _ _ G) as X. exists h', k, (MkR ((MkN p v (inr a), Node p v ts) :: r_own R) (r_bor R) (r_len R) []).
    split; [cbn [pstep]; now rewrite E|].
    destruct (st_ext h h' R C D ((MkN p v (inr a), Node p v ts) :: r_own R) (r_len R) [] H0 X M) as (T & Fr); try easy.
    - cbn [fsts map fst app]. eapply inv_perm; [|exact J]. apply Permutation_middle.
    - intros m' t' [[= <- <-]|Hi]; auto. right. apply (den_ext h h' X). econstructor; eauto.
    - intros o' m' t' Hi. split; auto. destruct (st_L _ _ _ _ _ H0 _ _ _ Hi) as (A1 & _). cbn [fsts map fst]. rewrite in_app_iff in *. cbn. tauto.
    - split; auto. split; auto. split; auto. intros b _ E0. assert (b <> a) by (intros ->; lia). cbn [r_own fsts map fst]. rewrite cnt_cons.
      unfold ref. cbn [n_kids]. replace (a =? b) with false by (symmetry; apply Nat.eqb_neq; auto).
      replace (hrefs h' b) with (hrefs h b); [rewrite cnt_app in E0; unfold fsts in *; lia|].
      unfold arc_clone in E. rewrite Hc in E. injection E as <-. pose proof (hrefs_upd h a (Some (Datatypes.S (Datatypes.S rc), ns)) b (inv_lt _ _ _ _ (st_inv _ _ _ _ _ H0) Hc)) as Q0.
      unfold ccnt in Q0 at 1. rewrite Hc in Q0. lia.
  Qed.
  Lemma wp_read {A} n a (k : list node -> prog A) R Q o m p v ts : lent R o m (Node p v ts) -> n_kids m = inr a ->
    (forall ns, length ns = length ts -> wp n (k ns) (MkR (r_own R) (r_bor R) (map (pair o) (combine ns ts) ++ r_len R) []) Q) ->
    wp (Datatypes.S n) (PRead a k) R Q.
  Proof.
    intros Hl Qa H. right. intros h C D H0. destruct (lent_cell _ _ _ _ _ _ _ _ H0 Hl Qa) as (rc & ns & p' & v' & ts' & Et & Hc & Dn & -> & Hp).
    injection Et as <- <- <-. exists h, (k ns), (MkR (r_own R) (r_bor R) (map (pair o) (combine ns ts) ++ r_len R) []).
    split; [cbn [pstep]; now rewrite Hc|].
    destruct (lent_st _ _ _ _ _ _ _ H0 Hl) as (Ho & W & Dm).
    destruct (st_ext h h R C D (r_own R) (map (pair o) (combine ns ts) ++ r_len R) [] H0 (extends_refl h) (mono_refl h)) as (T & Fr); try easy.
    - apply H0.
    - auto.
    - intros o' m' t' Hi. apply in_app_or in Hi as [Hi|Hi].
      + apply in_map_iff in Hi as ([m1 t1] & [= <- <- <-] & Hi). split; auto. right. split.
        * eapply within_kid; [exact W|reflexivity|exact Hc|]. now apply in_combine_l in Hi.
        * assert (El : length ns = length ts) by (eapply dens_length; eauto).
          apply (dens_ents h (combine ns ts)); auto. now rewrite fsts_combine, snds_combine.
      + split; [now apply (st_L _ _ _ _ _ H0 _ _ _ Hi)|auto].
    - split; auto. split; auto. split; [|apply H; eapply dens_length; eauto].
      apply noforge_refl. intros b. cbn [r_own]. rewrite cnt_app. lia.
  Qed.

  (** the last owner takes the vector out *)
  Lemma take_st h p v a ts ns O B C D : St h (MkR ((MkN p v (inr a), Node p v ts) :: O) B [] []) C D -> h_cell h a = Some (1, ns) ->
    length ns = length ts /\
    St (h_upd h a None) (MkR (combine ns ts ++ O) B [] []) C D /\ frame h (h_upd h a None) (Sn ++ C) /\
    noforge h ((MkN p v (inr a), Node p v ts) :: O) (h_upd h a None) (combine ns ts ++ O) /\ a < h_next h /\ ~ In a (B ++ D).
  Proof.
    intros [I1 I2 I3 I4 I5 I6 I7] Ha. cbn [r_own r_bor r_len r_uni fsts snds map fst snd app] in *.
    inversion I3 as [|? ? ? ? Dm Dr]; subst. inversion Dm as [|? ? ? rc ns' ? Hc Dn]; subst. rewrite Ha in Hc. injection Hc as <- <-.
    pose proof (dens_length _ _ _ Dn) as El. split; auto.
    assert (J : Inv h (MkN p v (inr a) :: (Sn ++ fsts O ++ C))).
    { eapply inv_perm; [|exact I1]. symmetry. apply Permutation_middle. }
    destruct (borrow_inv _ _ _ _ _ _ J Ha) as (J1 & P & Hlt). pose proof (frame_borrow _ _ _ _ _ _ None J Ha) as Fr.
    assert (M : mono h (h_upd h a None)) by (eapply mono_upd; eauto).
    assert (NB : ~ In a (B ++ D)) by (intros Hi; destruct (I5 a Hi); congruence).
    split; [|split; [|split; [|auto]]].
    - constructor; cbn [r_own r_bor r_len r_uni]; auto; try easy.
      + rewrite fsts_app, fsts_combine by auto. eapply inv_perm; [|exact J1]. rewrite !app_assoc. apply Permutation_app_tail, Permutation_app_tail, Permutation_app_comm.
      + eapply pres_dens; [|exact P|exact I2]. intros x Hx. rewrite !in_app_iff. tauto.
      + rewrite fsts_app, snds_app, fsts_combine, snds_combine by auto. apply dens_join.
        * eapply pres_dens; [|exact P|exact Dn]. intros x Hx. rewrite !in_app_iff. tauto.
        * eapply pres_dens; [|exact P|exact Dr]. intros x Hx. rewrite !in_app_iff. tauto.
      + intros b Hb. destruct (I5 b Hb). destruct M as [M1 M2]. split; auto.
    - eapply frame_incl; [|exact Fr]. intros x. rewrite !in_app_iff. tauto.
    - apply noforge_refl. intros b. rewrite fsts_app, fsts_combine by auto. pose proof (hrefs_upd h a None b Hlt) as E. unfold ccnt in E at 1. rewrite Ha in E.
      cbn [fsts map fst]. rewrite !cnt_app, cnt_cons. unfold fsts in *. lia.
  Qed.
  (** an owner gives up its share *)
  Lemma share_st h p v a ts ns r O B C D : St h (MkR ((MkN p v (inr a), Node p v ts) :: O) B [] []) C D -> h_cell h a = Some (Datatypes.S (Datatypes.S r), ns) ->
    let h' := h_upd h a (Some (Datatypes.S r, ns)) in
    St h' (MkR O B [] []) C D /\ frame h h' (Sn ++ C) /\ noforge h ((MkN p v (inr a), Node p v ts) :: O) h' O.
  Proof.
    intros H0 Ha h'. assert (J : Inv h' (Sn ++ fsts O ++ C)).
    { eapply (rc_inv h _ _ a (Datatypes.S (Datatypes.S r)) (Datatypes.S r)); [apply (st_inv _ _ _ _ _ H0)|auto|lia| |].
      - cbn [r_own fsts map fst]. rewrite !cnt_app, cnt_cons, ref_self. unfold fsts in *. lia.
      - intros b Nb. cbn [r_own fsts map fst]. rewrite !cnt_app, cnt_cons. unfold ref. cbn [n_kids].
        replace (a =? b) with false by (symmetry; apply Nat.eqb_neq; auto). reflexivity. }
    assert (X : extends h h') by (eapply rc_extends; eauto). assert (M : mono h h') by (eapply mono_upd; eauto).
    destruct (st_ext h h' _ C D O [] [] H0 X M J) as (T & Fr); try easy.
    { intros m t Hi. left. cbn. auto. }
    split; auto. split; auto. apply noforge_refl. intros b. cbn [fsts map fst]. rewrite cnt_app, cnt_cons.
    pose proof (hrefs_upd h a (Some (Datatypes.S r, ns)) b (inv_lt _ _ _ _ (st_inv _ _ _ _ _ H0) Ha)) as E. unfold ccnt in E at 1. rewrite Ha in E. unfold h'. unfold fsts in *. lia.
  Qed.
  Lemma own_cell h p v a t R C D : St h R C D -> In (MkN p v (inr a), t) (r_own R) -> exists rc ns, h_cell h a = Some (Datatypes.S rc, ns).
  Proof.
    intros H0 Hi. destruct (lent_cell h R C D (MkN p v (inr a)) (MkN p v (inr a)) t a H0) as (rc & ns & _ & _ & _ & _ & Hc & _); eauto.
    left. split; auto. apply in_or_app. auto.
  Qed.
  Lemma wp_dec {A} n a (k : option (list node) -> prog A) p v ts O B Q :
    (forall ns, length ns = length ts -> wp n (k (Some ns)) (MkR (combine ns ts ++ O) B [] []) Q) ->
    wp n (k None) (MkR O B [] []) Q ->
    wp (Datatypes.S n) (PDec a k) (MkR ((MkN p v (inr a), Node p v ts) :: O) B [] []) Q.
  Proof.
    intros H1 H2. right. intros h C D H0. destruct (own_cell h p v a (Node p v ts) _ C D H0) as (rc & ns & Hc); [now left|].
    cbn [pstep]. rewrite Hc. destruct rc as [|rc].
    - destruct (take_st _ _ _ _ _ _ _ _ _ _ H0 Hc) as (El & T & Fr & Nf & _ & _). eexists _, _, _. split; [reflexivity|]. split; [exact T|]. auto.
    - destruct (share_st _ _ _ _ _ _ _ _ _ _ _ H0 Hc) as (T & Fr & Nf). eexists _, _, _. split; [reflexivity|]. split; [exact T|]. auto.
  Qed.
  Lemma wp_uniq {A} n a (k : option (list node) -> prog A) p v ts O B Q :
    (forall ns, length ns = length ts -> wp n (k (Some ns)) (MkR (combine ns ts ++ O) (a :: B) [] []) Q) ->
    wp n (k None) (MkR ((MkN p v (inr a), Node p v ts) :: O) B [] []) Q ->
    wp (Datatypes.S n) (PUniq a k) (MkR ((MkN p v (inr a), Node p v ts) :: O) B [] []) Q.
  Proof.
    intros H1 H2. right. intros h C D H0. destruct (own_cell h p v a (Node p v ts) _ C D H0) as (rc & ns & Hc); [now left|].
    cbn [pstep]. rewrite Hc. destruct rc as [|rc].
    - destruct (take_st _ _ _ _ _ _ _ _ _ _ H0 Hc) as (El & [T1 T2 T3 T4 T5 T6 T7] & Fr & Nf & Hlt & NB).
      exists (h_upd h a None), (k (Some ns)), (MkR (combine ns ts ++ O) (a :: B) [] []). split; [reflexivity|].
      split; [|auto]. cbn [r_own r_bor r_len r_uni] in *. constructor; cbn [r_own r_bor r_len r_uni app]; auto; try easy.
      + now constructor.
      + intros b [<-|Hb]; auto. split; [apply upd_same|exact Hlt].
    - eexists _, _, _. split; [reflexivity|]. split; [exact H0|]. split; [apply frame_refl|]. split; auto.
      apply noforge_refl. intros b. rewrite cnt_app. lia.
  Qed.
  (** the only owner always gets it *)
  Lemma wp_uniq_sure {A} n a (k : option (list node) -> prog A) p v ts O B Q :
    (forall ns, length ns = length ts -> wp n (k (Some ns)) (MkR (combine ns ts ++ O) (a :: B) [] []) Q) ->
    wp (Datatypes.S n) (PUniq a k) (MkR ((MkN p v (inr a), Node p v ts) :: O) B [] [a]) Q.
  Proof.
    intros H1. right. intros h C D H0. destruct (st_U _ _ _ _ _ H0 a) as (_ & ns & Hc); [now left|].
    assert (H0' : St h (MkR ((MkN p v (inr a), Node p v ts) :: O) B [] []) C D).
    { eapply st_weaken; [|exact H0]. repeat split; cbn; auto using incl_refl. easy. }
    cbn [pstep]. rewrite Hc.
    destruct (take_st _ _ _ _ _ _ _ _ _ _ H0' Hc) as (El & [T1 T2 T3 T4 T5 T6 T7] & Fr & Nf & Hlt & NB).
    exists (h_upd h a None), (k (Some ns)), (MkR (combine ns ts ++ O) (a :: B) [] []). split; [reflexivity|].
    split; [|auto]. cbn [r_own r_bor r_len r_uni] in *. constructor; cbn [r_own r_bor r_len r_uni app]; auto; try easy.
    + now constructor.
    + intros b [<-|Hb]; auto. split; [apply upd_same|exact Hlt].
  Qed.
  Lemma wp_new {A} n ns (k : nat -> prog A) p v ts O B Q : length ns = length ts ->
    (forall a, wp n (k a) (MkR ((MkN p v (inr a), Node p v ts) :: O) B [] [a]) Q) ->
    wp (Datatypes.S n) (PNew ns k) (MkR (combine ns ts ++ O) B [] []) Q.
  Proof.
    intros El H. right. intros h C D H0. cbn [pstep]. destruct (arc_new h ns) as [h' a] eqn:E. pose proof H0 as [I1 I2 I3 I4 I5 I6 I7].
    cbn [r_own r_bor r_len r_uni] in *. rewrite fsts_app, fsts_combine in I1 by auto.
    assert (J : Inv h (ns ++ (Sn ++ fsts O ++ C))).
    { eapply inv_perm; [|exact I1]. rewrite !app_assoc. apply Permutation_app_tail, Permutation_app_tail, Permutation_app_comm. }
    destruct (new_inv h ns _ p v h' a J E) as (J1 & G & Hc & Hn & Hlt). pose proof (grows_ext _ _ G) as X. pose proof (mono_new _ _ _ _ E) as M.
    exists h', (k a), (MkR ((MkN p v (inr a), Node p v ts) :: O) B [] [a]). split; auto.
    assert (Z : cnt a (Sn ++ fsts O) = 0).
    { pose proof (inv_count _ _ J a) as Q0. rewrite Hn, !cnt_app in Q0. rewrite cnt_app. lia. }
    rewrite fsts_app, snds_app, fsts_combine, snds_combine in I3 by auto.
    destruct (st_ext h h' _ C D ((MkN p v (inr a), Node p v ts) :: O) [] [a] H0 X M) as (T & Fr); try easy.
    - eapply inv_perm; [|exact J1]. cbn [fsts map fst app]. apply Permutation_middle.
    - cbn [r_own]. intros m t [[= <- <-]|Hi]; [right|left; apply in_or_app; auto].
      econstructor; [exact Hc|]. apply (den_ext h h' X).
      pose proof (st_O _ _ _ _ _ H0) as D0. cbn [r_own] in D0. rewrite dens_ents in D0.
      rewrite <- (fsts_combine ns ts El) at 1. rewrite <- (snds_combine ns ts El) at 2. apply dens_ents. intros m t Hm. apply D0. apply in_or_app. auto.
    - intros a' [<-|[]]. split; [|eauto]. cbn [fsts map fst]. rewrite cnt_cons, ref_self. rewrite cnt_app in Z. unfold fsts in *. lia.
    - split; auto. split; auto. split; auto. intros b Hb Ez. cbn [r_own] in *. rewrite fsts_app, fsts_combine in Ez by auto.
      cbn [fsts map fst]. rewrite cnt_cons. assert (b <> a) by (intros ->; congruence). unfold ref. cbn [n_kids].
      replace (a =? b) with false by (symmetry; apply Nat.eqb_neq; auto).
      pose proof (hrefs_new h ns b (inv_bound _ _ J)) as Q0. rewrite E in Q0. cbn [fst] in Q0. rewrite !cnt_app in Ez. unfold fsts in *. lia.
  Qed.
  Lemma wp_back {A} n a ns (k : prog A) p v ts O B Q : length ns = length ts ->
    wp n k (MkR ((MkN p v (inr a), Node p v ts) :: O) B [] []) Q ->
    wp (Datatypes.S n) (PBack a ns k) (MkR (combine ns ts ++ O) (a :: B) [] []) Q.
  Proof.
    intros El H. right. intros h C D H0. pose proof H0 as [I1 I2 I3 I4 I5 I6 I7]. cbn [r_own r_bor r_len r_uni app] in *.
    destruct (I5 a) as [Hn Hlt]; [now left|]. cbn [pstep]. rewrite Hn. pose proof Hlt as Hlt'. apply Nat.ltb_lt in Hlt' as ->.
    rewrite fsts_app, fsts_combine in I1 by auto.
    assert (J : Inv h (ns ++ (Sn ++ fsts O ++ C))).
    { eapply inv_perm; [|exact I1]. rewrite !app_assoc. apply Permutation_app_tail, Permutation_app_tail, Permutation_app_comm. }
    destruct (giveback_inv h _ p v a ns J Hn Hlt) as (J1 & X). set (h' := h_upd h a (Some (1, ns))) in *.
    exists h', k, (MkR ((MkN p v (inr a), Node p v ts) :: O) B [] []). split; auto.
    inversion I4 as [|? ? NB ND]; subst. rewrite dens_ents in I3. split; [|split; [|split; [|auto]]].
    - constructor; cbn [r_own r_bor r_len r_uni]; auto; try easy.
      + eapply inv_perm; [|exact J1]. cbn [fsts map fst app]. apply Permutation_middle.
      + now apply (den_ext h h' X).
      + cbn [fsts snds map fst snd]. constructor.
        * econstructor; [apply upd_same|]. apply (den_ext h h' X). rewrite <- (fsts_combine ns ts El) at 1. rewrite <- (snds_combine ns ts El) at 2.
          apply dens_ents. intros m t Hm. apply I3. apply in_or_app. auto.
        * apply (den_ext h h' X). apply dens_ents. intros m t Hm. apply I3. apply in_or_app. auto.
      + intros b Hb. destruct (I5 b) as [A1 A2]; [now right|]. split; [|exact A2]. unfold h'. rewrite upd_other; auto. intros ->. contradiction.
    - now apply frame_ext.
    - intros b Hb Ez. cbn [r_own] in *. rewrite fsts_app, fsts_combine in Ez by auto. cbn [fsts map fst]. rewrite cnt_cons.
      assert (b <> a) by (intros ->; congruence). unfold ref. cbn [n_kids]. replace (a =? b) with false by (symmetry; apply Nat.eqb_neq; auto).
      pose proof (hrefs_upd h a (Some (1, ns)) b Hlt) as Q0. unfold ccnt in Q0 at 1. rewrite Hn in Q0. fold h' in Q0. rewrite !cnt_app in Ez. unfold fsts in *. lia.
  Qed.
End Rules.
