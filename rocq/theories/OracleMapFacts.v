(** Facts for OracleMapModel.v: the joins that produce a new map, under any comparison. *)
From Verif Require Import OracleMapModel OracleFacts StdFacts MergeFacts.
Require Import Coq.Sorting.Permutation.

Section JoinInst.
  Context {K V V2 R0 E : Type}.
  Local Notation vst := (vstate (K * V) (K * V2) (K * R0)).
  (** the keys in play: those emitted, those to come; the result only grows *)
  Definition mv_keys (s : vst) : list K := map fst (vs_r s) ++ map fst (vs_a s) ++ map fst (vs_b s).
  Definition mv_R (s s' : vst * E) : Prop :=
    (exists d, Permutation (mv_keys (fst s') ++ d) (mv_keys (fst s))) /\
    exists t, vs_r (fst s') = vs_r (fst s) ++ t.
  Lemma mv_R_trans (s1 s2 s3 : vst * E) : mv_R s1 s2 -> mv_R s2 s3 -> mv_R s1 s3.
  Proof.
    intros [(d1 & P1) (t1 & E1)] [(d2 & P2) (t2 & E2)]. split.
    - exists (d2 ++ d1). rewrite app_assoc. etransitivity; [|exact P1]. now apply Permutation_app_tail.
    - exists (t1 ++ t2). now rewrite E2, E1, app_assoc.
  Qed.
  Lemma mv_R_refl (s : vst * E) : mv_R s s.
  Proof. split; exists []; now rewrite app_nil_r. Qed.
  Context (RP : vst * E -> vst * E -> Prop).
  Context (TP : forall s1 s2 s3, mv_R s1 s2 -> RP s2 s3 -> RP s1 s3).

  Lemma mv_a k v a (b : list (K * V2)) r (e e' : E) (o : option R0) :
    mv_R (MkVs ((k, v) :: a) b r, e) (vs_emit (MkVs a b r) k o, e').
  Proof.
    destruct o as [v'|]; (split; cbn; [|first [solve [eauto]|exists []; now rewrite app_nil_r]]).
    - exists []. rewrite app_nil_r. unfold mv_keys. cbn. rewrite map_app, <- app_assoc. cbn. reflexivity.
    - exists [k]. unfold mv_keys. cbn. rewrite Permutation_app_comm. cbn. apply Permutation_middle.
  Qed.
  Lemma mv_b (a : list (K * V)) k w b r (e e' : E) (o : option R0) :
    mv_R (MkVs a ((k, w) :: b) r, e) (vs_emit (MkVs a b r) k o, e').
  Proof.
    destruct o as [v'|]; (split; cbn; [|first [solve [eauto]|exists []; now rewrite app_nil_r]]).
    - exists []. rewrite app_nil_r. unfold mv_keys. cbn. rewrite map_app, <- app_assoc. cbn.
      apply Permutation_app_head. apply Permutation_middle.
    - exists [k]. unfold mv_keys. cbn. rewrite Permutation_app_comm. cbn. rewrite !app_assoc.
      apply Permutation_middle.
  Qed.
  Lemma mv_c k v a k' w b r (e e' : E) (o : option R0) :
    mv_R (MkVs ((k, v) :: a) ((k', w) :: b) r, e) (vs_emit (MkVs a b r) k o, e').
  Proof. eapply mv_R_trans; [exact (mv_b ((k, v) :: a) k' w b r e e None)|]. apply mv_a. Qed.

  Lemma callv_ok {X} (O : mop (vst * E) (K * V) (K * V2)) (f : clos E X (option R0)) s e x k da db (m : vst) :
    (forall e', mo_a O (m, e') = skipn da (mo_a O s)) ->
    (forall e', mo_b O (m, e') = skipn db (mo_b O s)) ->
    (forall e' o, mo_a O (vs_emit m k o, e') = mo_a O (m, e')) ->
    (forall e' o, mo_b O (vs_emit m k o, e') = mo_b O (m, e')) ->
    (forall e' o, mv_R s (vs_emit m k o, e')) ->
    (quiet f \/ forall s' , mv_R s s' -> RP s s') ->
    stepok O mv_R RP s da db (call f e x (vs_emit m k) m).
  Proof.
    intros HA HB EA EB HR HQ. unfold call. destruct (f e x) as [e' [o|]] eqn:Q.
    - cbn [stepok]. split; [apply HR|]. now rewrite EA, EB, HA, HB.
    - cbn [stepok]. destruct HQ as [N|P]; [exfalso; apply (N e x); now rewrite Q|].
      apply P. exact (HR e' None).
  Qed.
  Ltac emit := intros ? [|]; reflexivity.
  Lemma dropv_a_ok (O : mop (vst * E) (K * V) (K * V2)) s n :
    mo_a O = (fun s => vs_a (fst s)) -> mo_b O = (fun s => vs_b (fst s)) ->
    n <= length (vs_a (fst s)) -> stepok O mv_R RP s n 0 (jv_drop_a s n).
  Proof.
    intros QA QB. destruct s as [[a b r] e]. unfold jv_drop_a, si_drop_front. cbn [fst snd vs_a vs_b vs_r]. intros L.
    destruct (Nat.leb_spec n (length a)); [|lia]. cbn [stepok]. rewrite QA, QB. cbn. split; [|now split]. split; cbn.
    - exists (map fst (firstn n a)). unfold mv_keys. cbn. rewrite <- !app_assoc. apply Permutation_app_head.
      rewrite app_assoc, Permutation_app_comm, app_assoc. apply Permutation_app_tail.
      now rewrite <- map_app, firstn_skipn.
    - exists []. now rewrite app_nil_r.
  Qed.
  Lemma dropv_b_ok (O : mop (vst * E) (K * V) (K * V2)) s n :
    mo_a O = (fun s => vs_a (fst s)) -> mo_b O = (fun s => vs_b (fst s)) ->
    n <= length (vs_b (fst s)) -> stepok O mv_R RP s 0 n (jv_drop_b s n).
  Proof.
    intros QA QB. destruct s as [[a b r] e]. unfold jv_drop_b, si_drop_front. cbn [fst snd vs_a vs_b vs_r]. intros L.
    destruct (Nat.leb_spec n (length b)); [|lia]. cbn [stepok]. rewrite QA, QB. cbn. split; [|now split]. split; cbn.
    - exists (map fst (firstn n b)). unfold mv_keys. cbn. rewrite <- !app_assoc. do 2 apply Permutation_app_head.
      rewrite <- (firstn_skipn n b) at 3. rewrite map_app. apply Permutation_app_comm.
    - exists []. now rewrite app_nil_r.
  Qed.
  Lemma outer_v_steps f :
    (quiet f \/ forall s s' , mv_R s s' -> RP s s') -> steps (OuterJoinOp_v unused_cmp f) mv_R RP.
  Proof.
    intros HQ. constructor; [apply mv_R_refl|apply mv_R_trans|exact TP|..].
    - intros s n L. apply (for_n_ok_a _ _ _ mv_R_trans TP mv_R_refl); [|exact L]. clear s n L.
      intros [[a b r] e]; cbn. destruct a as [|[k v] a]; cbn; [lia|intros _].
      apply callv_ok; try reflexivity; try emit; [intros; apply mv_a|intuition].
    - intros s n L. apply (for_n_ok_b _ _ _ mv_R_trans TP mv_R_refl); [|exact L]. clear s n L.
      intros [[a b r] e]; cbn. destruct b as [|[k v] b]; cbn; [lia|intros _].
      apply callv_ok; try reflexivity; try emit; [intros; apply mv_b|intuition].
    - intros [[a b r] e]; cbn. destruct a as [|[k v] a]; cbn; [lia|intros _].
      destruct b as [|[k' w] b]; cbn; [lia|intros _].
      apply callv_ok; try reflexivity; try emit; [intros; apply mv_c|intuition].
  Qed.
  Lemma left_v_steps f :
    (quiet f \/ forall s s' , mv_R s s' -> RP s s') -> steps (LeftJoinOp_v unused_cmp f) mv_R RP.
  Proof.
    intros HQ. constructor; [apply mv_R_refl|apply mv_R_trans|exact TP|..].
    - intros s n L. apply (for_n_ok_a _ _ _ mv_R_trans TP mv_R_refl); [|exact L]. clear s n L.
      intros [[a b r] e]; cbn. destruct a as [|[k v] a]; cbn; [lia|intros _].
      apply callv_ok; try reflexivity; try emit; [intros; apply mv_a|intuition].
    - intros s n L. now apply dropv_b_ok.
    - intros [[a b r] e]; cbn. destruct a as [|[k v] a]; cbn; [lia|intros _].
      destruct b as [|[k' w] b]; cbn; [lia|intros _].
      apply callv_ok; try reflexivity; try emit; [intros; apply mv_c|intuition].
  Qed.
  Lemma right_v_steps f :
    (quiet f \/ forall s s' , mv_R s s' -> RP s s') -> steps (RightJoinOp_v unused_cmp f) mv_R RP.
  Proof.
    intros HQ. constructor; [apply mv_R_refl|apply mv_R_trans|exact TP|..].
    - intros s n L. now apply dropv_a_ok.
    - intros s n L. apply (for_n_ok_b _ _ _ mv_R_trans TP mv_R_refl); [|exact L]. clear s n L.
      intros [[a b r] e]; cbn. destruct b as [|[k v] b]; cbn; [lia|intros _].
      apply callv_ok; try reflexivity; try emit; [intros; apply mv_b|intuition].
    - intros [[a b r] e]; cbn. destruct a as [|[k v] a]; cbn; [lia|intros _].
      destruct b as [|[k' w] b]; cbn; [lia|intros _].
      apply callv_ok; try reflexivity; try emit; [intros; apply mv_c|intuition].
  Qed.
  Lemma inner_v_steps f :
    (quiet f \/ forall s s' , mv_R s s' -> RP s s') -> steps (InnerJoinOp_v unused_cmp f) mv_R RP.
  Proof.
    intros HQ. constructor; [apply mv_R_refl|apply mv_R_trans|exact TP|..].
    - intros s n L. now apply dropv_a_ok.
    - intros s n L. now apply dropv_b_ok.
    - intros [[a b r] e]; cbn. destruct a as [|[k v] a]; cbn; [lia|intros _].
      destruct b as [|[k' w] b]; cbn; [lia|intros _].
      apply callv_ok; try reflexivity; try emit; [intros; apply mv_c|intuition].
  Qed.
End JoinInst.
