(** As PanicRadix.v, for the merge operations of VecSet and VecMap with user code (VecUserModel.v, TotalUserModel.v). *)
From Verif Require Export PanicRadix TotalUserModel.

Section QuietVec.
  Context {E C : Type} (strat : nat -> nat -> bool) (Q T : E -> Prop).
  Notation fine := (fine Q T).
  Notation tro := (tro Q T snd).
  Notation trd := (trd Q T).
  Context (cmp cmp' : clos E (C * C) comparison) (FC : fine cmp cmp').

  Lemma t_wcmp {S A B} (kA : A -> C) (kB : B -> C) (s : S * E) a b : Q (snd s) -> trc Q T snd (wcmp cmp kA kB s a b) (wcmp cmp' kA kB s a b).
  Proof using FC.
    intros H. unfold wcmp. specialize (FC (snd s) (kA a, kB b) H). destruct (cmp (snd s) _) as [e' [q|]]; [destruct FC as [FC0 ->]|]; cbn; auto.
  Qed.
  (** a merge whose operations agree *)
  Lemma t_run {S A B R} (kA : A -> C) (kB : B -> C) (O O' : mop (S * E) A B) (out : S -> list R) (s : S) e :
    (forall s, mo_a O' s = mo_a O s) -> (forall s, mo_b O' s = mo_b O s) ->
    (forall s n, Q (snd s) -> tro (mo_from_a O s n) (mo_from_a O' s n)) -> (forall s n, Q (snd s) -> tro (mo_from_b O s n) (mo_from_b O' s n)) ->
    (forall s, Q (snd s) -> tro (mo_coll O s) (mo_coll O' s)) -> Q e ->
    trd (to_done (fun s => (out (fst s), snd s)) (gmerge (wcmp cmp kA kB) O strat (s, e)))
        (to_done (fun s => (out (fst s), snd s)) (gmerge (wcmp cmp' kA kB) O' strat (s, e))).
  Proof using FC.
    intros MA MB FA FB CO H.
    assert (G : tro (gmerge (wcmp cmp kA kB) O strat (s, e)) (gmerge (wcmp cmp' kA kB) O' strat (s, e))).
    { apply t_merge; auto. intros. now apply t_wcmp. }
    destruct (gmerge _ _ _ _) as [s1|s1|s1|]; cbn [PanicRadix.tro] in G; [destruct G as [G ->]|destruct G as [G ->]|destruct G as [G|[G ->]]|rewrite G]; cbn; auto.
  Qed.
  Lemma t_for {S} (f f' : S * E -> out (S * E)) : (forall s, Q (snd s) -> tro (f s) (f' s)) -> forall n s, Q (snd s) -> tro (for_n n f s) (for_n n f' s).
  Proof. intros F. induction n as [|n IH]; intros s H; cbn [for_n]; [cbn; auto|]. apply tro_bind; auto. Qed.
  Lemma t_same {S} (f : S * E -> out (S * E)) : (forall s, match f s with Cont s' | Panic s' => snd s' = snd s | _ => False end) ->
    forall s, Q (snd s) -> tro (f s) (f s).
  Proof. intros F s H. specialize (F s). destruct (f s); cbn; try rewrite F; auto; contradiction. Qed.
End QuietVec.

(** ** VecSet *)
Section QuietSet.
  Context {E X : Type} (strat : nat -> nat -> bool) (Q T : E -> Prop).
  Notation fine := (fine Q T).
  Notation tro := (tro Q T snd).
  Notation trd := (trd Q T).
  Context (cmp cmp' : clos E (X * X) comparison) (FC : fine cmp cmp').
  Context (clone clone' : clos E X X) (CL : fine clone clone').
  Lemma t_push_all : forall l r e, Q e -> trv Q T (let '(r, e, ok) := cpush_all clone l r e in (Some r, e, ok)) (let '(r, e, ok) := cpush_all clone' l r e in (Some r, e, ok)).
  Proof using CL.
    induction l as [|x l IH]; intros r e H; cbn [cpush_all]; [cbn; auto|]. pose proof (CL e x H) as C0.
    destruct (clone e x) as [e' [y|]]; [|cbn; auto]. destruct C0 as [C0 ->]. now apply IH.
  Qed.
  Lemma t_bd_extend : forall n bd b e, Q e -> trv Q T (let '(bd, b, e, ok) := cbd_extend clone n bd b e in (Some (bd, b), e, ok))
    (let '(bd, b, e, ok) := cbd_extend clone' n bd b e in (Some (bd, b), e, ok)).
  Proof using CL.
    induction n as [|n IH]; intros bd b e H; cbn [cbd_extend]; [cbn; auto|]. destruct b as [|y b]; [cbn; auto|].
    pose proof (CL e y H) as C0. destruct (clone e y) as [e' [x|]]; [|cbn; auto]. destruct C0 as [C0 ->]. now apply IH.
  Qed.
  (** the two ways of advancing *)
  Definition agree {S} (M M' : msm (S * E) X X) : Prop :=
    (forall s, ms_a M' s = ms_a M s) /\ (forall s, ms_b M' s = ms_b M s) /\
    (forall s n take, Q (snd s) -> tro (adv_a M s n take) (adv_a M' s n take)) /\
    (forall s n take, Q (snd s) -> tro (adv_b M s n take) (adv_b M' s n take)).
  Lemma agree_vs : agree (cvs_msm clone) (cvs_msm clone').
  Proof using CL.
    split; [reflexivity|]. split; [reflexivity|]. split; intros [m e] n take H; cbn [cvs_msm adv_a adv_b cvs_adv_a cvs_adv_b snd] in *.
    - destruct take.
      + destruct (si_take_front (vs_a m) n) as [[h t]|]; [|cbn; auto]. pose proof (t_push_all h (vs_r m) e H) as P.
        destruct (cpush_all clone h (vs_r m) e) as [[r e'] ok], (cpush_all clone' h (vs_r m) e) as [[r2 e2] ok2].
        destruct ok; cbn in P; [destruct P as [P P1]|destruct P as [P|[P P1]]]; try (injection P1 as -> -> ->); cbn; auto.
      + destruct (si_drop_front (vs_a m) n); cbn; auto.
    - destruct take.
      + destruct (si_take_front (vs_b m) n) as [[h t]|]; [|cbn; auto]. pose proof (t_push_all h (vs_r m) e H) as P.
        destruct (cpush_all clone h (vs_r m) e) as [[r e'] ok], (cpush_all clone' h (vs_r m) e) as [[r2 e2] ok2].
        destruct ok; cbn in P; [destruct P as [P P1]|destruct P as [P|[P P1]]]; try (injection P1 as -> -> ->); cbn; auto.
      + destruct (si_drop_front (vs_b m) n); cbn; auto.
  Qed.
  Lemma agree_ipr : agree (cipr_msm clone) (cipr_msm clone').
  Proof using CL.
    split; [reflexivity|]. split; [reflexivity|]. split; intros [m e] n take H; cbn [cipr_msm adv_a adv_b cipr_adv_a cipr_adv_b snd] in *.
    - cbn. auto.
    - destruct take; [|cbn; auto]. pose proof (t_bd_extend n (ipr_a m) (ipr_b m) e H) as P.
      destruct (cbd_extend clone n _ _ e) as [[[bd b] e'] ok], (cbd_extend clone' n _ _ e) as [[[bd2 b2] e2] ok2].
      destruct ok; cbn in P; [destruct P as [P P1]|destruct P as [P|[P P1]]]; try (injection P1 as -> -> -> ->); cbn; auto.
  Qed.
  Lemma agree_ip : agree uip_msm uip_msm.
  Proof.
    split; [reflexivity|]. split; [reflexivity|]. split; intros [m e] n take H; cbn [uip_msm adv_a adv_b snd fst] in *.
    - destruct (ip_adv_a m n take); cbn; auto.
    - destruct (ip_adv_b IdConverter m n take); cbn; auto.
  Qed.
  Section Ops.
    Context {S R : Type} (M M' : msm (S * E) X X) (AG : agree M M') (out : S -> list R) (s : S).
    Notation run c O e := (to_done (fun s => (out (fst s), snd s)) (gmerge (wcmp c element element) O strat (s, e))).
    Lemma t_set_ops e : Q e ->
      trd (run cmp (SetUnionOp unasked M) e) (run cmp' (SetUnionOp unasked M') e) /\
      trd (run cmp (SetIntersectionOp unasked M) e) (run cmp' (SetIntersectionOp unasked M') e) /\
      trd (run cmp (SetXorOp unasked M) e) (run cmp' (SetXorOp unasked M') e) /\
      trd (run cmp (SetDiffOpt unasked M) e) (run cmp' (SetDiffOpt unasked M') e).
    Proof using FC AG.
      destruct AG as (MA & MB & A & B). intros H.
      assert (CO : forall t s, Q (snd s) -> tro (obind (adv_a M s 1 t) (fun m => adv_b M m 1 false)) (obind (adv_a M' s 1 t) (fun m => adv_b M' m 1 false))).
      { intros t s0 H0. apply tro_bind; auto. }
      repeat apply conj; apply t_run; cbn [SetUnionOp SetIntersectionOp SetXorOp SetDiffOpt mo_a mo_b mo_from_a mo_from_b mo_coll]; auto.
    Qed.
  End Ops.
End QuietSet.

(** ** VecMap *)
Section QuietMap.
  Context {E K : Type} (strat : nat -> nat -> bool) (Q T : E -> Prop).
  Notation fine := (fine Q T).
  Notation tro := (tro Q T snd).
  Notation trd := (trd Q T).
  Context (cmp cmp' : clos E (K * K) comparison) (FC : fine cmp cmp').
  Context (clone clone' : clos E K K) (CL : fine clone clone').
  Lemma t_ccall {X Y S} (f f' : clos E X (option Y)) (F : fine f f') e x k (emit : K -> Y -> S) skip thrown : Q e ->
    tro (ccall clone f e x k emit skip thrown) (ccall clone' f' e x k emit skip thrown).
  Proof using CL.
    intros H. unfold ccall. pose proof (F e x H) as F0. destruct (f e x) as [e1 [[y|]|]]; [| |cbn; auto]; destruct F0 as [F0 ->]; [|cbn; auto].
    pose proof (CL e1 k F0) as C0. destruct (clone e1 k) as [e2 [k2|]]; [destruct C0 as [C0 ->]|]; cbn; auto.
  Qed.
  Lemma t_call {X Y S} (f f' : clos E X Y) (F : fine f f') e x (ret : Y -> S) thrown : Q e ->
    tro (call f e x ret thrown) (call f' e x ret thrown).
  Proof using.
    intros H. unfold call. pose proof (F e x H) as F0. destruct (f e x) as [e1 [y|]]; [destruct F0 as [F0 ->]|]; cbn; auto.
  Qed.
  Section VS.
    Context {V W R : Type}.
    Notation vst := (vstate (K * V) (K * W) (K * R)).
    Context {X : Type} (f f' : clos E X (option R)) (F : fine f f').
    Lemma t_cjv_a arg (s : vst * E) : Q (snd s) -> tro (cjv_a clone f arg s) (cjv_a clone' f' arg s).
    Proof using F CL. destruct s as [m e]. intros H. cbn [cjv_a]. destruct (vs_a m) as [|[k a] a']; [cbn; auto|now apply t_ccall]. Qed.
    Lemma t_cjv_b arg (s : vst * E) : Q (snd s) -> tro (cjv_b clone f arg s) (cjv_b clone' f' arg s).
    Proof using F CL. destruct s as [m e]. intros H. cbn [cjv_b]. destruct (vs_b m) as [|[k b] b']; [cbn; auto|now apply t_ccall]. Qed.
    Lemma t_cjv_coll arg (s : vst * E) : Q (snd s) -> tro (cjv_coll clone f arg s) (cjv_coll clone' f' arg s).
    Proof using F CL. destruct s as [m e]. intros H. cbn [cjv_coll]. destruct (vs_a m) as [|[k a] a']; [cbn; auto|]. destruct (vs_b m) as [|[k' b] b']; [cbn; auto|now apply t_ccall]. Qed.
    Lemma t_jv_drop_a (s : vst * E) n : Q (snd s) -> tro (jv_drop_a s n) (jv_drop_a s n).
    Proof using. intros H. unfold jv_drop_a. destruct (si_drop_front _ n); cbn; auto. Qed.
    Lemma t_jv_drop_b (s : vst * E) n : Q (snd s) -> tro (jv_drop_b s n) (jv_drop_b s n).
    Proof using. intros H. unfold jv_drop_b. destruct (si_drop_front _ n); cbn; auto. Qed.
  End VS.
  Section IPR.
    Context {V W : Type}.
    Notation ist := (iprstate (K * V) (K * W)).
    Section F.
      Context {X : Type} (f f' : clos E X (option V)) (F : fine f f').
      Lemma t_cji_b arg (s : ist * E) : Q (snd s) -> tro (cji_b clone f arg s) (cji_b clone' f' arg s).
      Proof using F CL. destruct s as [m e]. intros H. cbn [cji_b]. destruct (ipr_b m) as [|[k b] b']; [cbn; auto|now apply t_ccall]. Qed.
      Lemma t_ji_coll arg (s : ist * E) : Q (snd s) -> tro (ji_coll f arg s) (ji_coll f' arg s).
      Proof using F. destruct s as [m e]. intros H. cbn [ji_coll]. destruct (bd_pop_front (ipr_a m)) as [[[k v] bd]|]; [|cbn; auto]. destruct (ipr_b m) as [|[k' b] b']; [cbn; auto|now apply t_call]. Qed.
    End F.
    Lemma t_oji_a (f f' : clos E (ojarg K V W) (option V)) (F : fine f f') (s : ist * E) : Q (snd s) -> tro (oji_a f s) (oji_a f' s).
    Proof using. destruct s as [m e]. intros H. cbn [oji_a]. destruct (bd_pop_front (ipr_a m)) as [[[k v] bd]|]; [|cbn; auto]. now apply t_call. Qed.
    Lemma t_lji_a (f f' : clos E (K * V * option W) (option V)) (F : fine f f') (s : ist * E) : Q (snd s) -> tro (lji_a f s) (lji_a f' s).
    Proof using. destruct s as [m e]. intros H. cbn [lji_a]. destruct (bd_pop_front (ipr_a m)) as [[[k v] bd]|]; [|cbn; auto]. now apply t_call. Qed.
    Lemma t_ji_drop_a (s : ist * E) n : Q (snd s) -> tro (ji_drop_a s n) (ji_drop_a s n).
    Proof using. cbn; auto. Qed.
    Lemma t_ji_drop_b (s : ist * E) n : Q (snd s) -> tro (ji_drop_b s n) (ji_drop_b s n).
    Proof using. intros H. unfold ji_drop_b. destruct (si_drop_front _ n); cbn; auto. Qed.
  End IPR.
  Section Joins.
    Context {V W R : Type} (a : list (K * V)) (b : list (K * W)) (e : E) (H : Q e).
    Ltac join o := apply (t_run strat Q T cmp cmp' FC _ _ _ _ o); cbn [COuterJoinOp_v CLeftJoinOp_v CRightJoinOp_v CInnerJoinOp_v COuterJoinOp_i LeftJoinOp_i CRightJoinOp_i InnerJoinOp_i mo_a mo_b mo_from_a mo_from_b mo_coll];
      auto; intros; try apply t_for; intros; auto using t_cjv_a, t_cjv_b, t_cjv_coll, t_jv_drop_a, t_jv_drop_b, t_cji_b, t_ji_coll, t_oji_a, t_lji_a, t_ji_drop_a, t_ji_drop_b.
    Lemma t_outer_join (f f' : clos E (ojarg K V W) (option R)) : fine f f' -> trd (umap_outer_join cmp clone strat f a b e) (umap_outer_join cmp' clone' strat f' a b e).
    Proof using FC CL H. intros F. join (fun s : vstate (K * V) (K * W) (K * R) => vs_r s). Qed.
    Lemma t_left_join (f f' : clos E (K * V * option W) (option R)) : fine f f' -> trd (umap_left_join cmp clone strat f a b e) (umap_left_join cmp' clone' strat f' a b e).
    Proof using FC CL H. intros F. join (fun s : vstate (K * V) (K * W) (K * R) => vs_r s). Qed.
    Lemma t_right_join (f f' : clos E (K * option V * W) (option R)) : fine f f' -> trd (umap_right_join cmp clone strat f a b e) (umap_right_join cmp' clone' strat f' a b e).
    Proof using FC CL H. intros F. join (fun s : vstate (K * V) (K * W) (K * R) => vs_r s). Qed.
    Lemma t_inner_join (f f' : clos E (K * V * W) (option R)) : fine f f' -> trd (umap_inner_join cmp clone strat f a b e) (umap_inner_join cmp' clone' strat f' a b e).
    Proof using FC CL H. intros F. join (fun s : vstate (K * V) (K * W) (K * R) => vs_r s). Qed.
    Lemma t_outer_join_with (f f' : clos E (ojarg K V W) (option V)) : fine f f' -> trd (umap_outer_join_with cmp clone strat f a b e) (umap_outer_join_with cmp' clone' strat f' a b e).
    Proof using FC CL H. intros F. join (fun s : iprstate (K * V) (K * W) => bd_tgt (ipr_a s)). Qed.
    Lemma t_left_join_with (f f' : clos E (K * V * option W) (option V)) : fine f f' -> trd (umap_left_join_with cmp strat f a b e) (umap_left_join_with cmp' strat f' a b e).
    Proof using FC CL H. intros F. join (fun s : iprstate (K * V) (K * W) => bd_tgt (ipr_a s)). Qed.
    Lemma t_right_join_with (f f' : clos E (K * option V * W) (option V)) : fine f f' -> trd (umap_right_join_with cmp clone strat f a b e) (umap_right_join_with cmp' clone' strat f' a b e).
    Proof using FC CL H. intros F. join (fun s : iprstate (K * V) (K * W) => bd_tgt (ipr_a s)). Qed.
    Lemma t_inner_join_with (f f' : clos E (K * V * W) (option V)) : fine f f' -> trd (umap_inner_join_with cmp strat f a b e) (umap_inner_join_with cmp' strat f' a b e).
    Proof using FC CL H. intros F. join (fun s : iprstate (K * V) (K * W) => bd_tgt (ipr_a s)). Qed.
  End Joins.
  Lemma t_combine_with {V} (f f' : clos E (V * V) V) (F : fine f f') (a b : list (K * V)) e : Q e ->
    trd (umap_combine_with cmp strat f a b e) (umap_combine_with cmp' strat f' a b e).
  Proof using FC.
    intros H.
    assert (F2 : fine (combine_clos (K := K) f) (combine_clos f')).
    { intros e0 [k v|k v|k v w] H0; cbn [combine_clos]; [auto|auto|]. pose proof (F e0 (v, w) H0) as F0. destruct (f e0 (v, w)) as [e1 [x|]]; [destruct F0 as [F0 ->]|]; auto. }
    apply (t_run strat Q T cmp cmp' FC _ _ _ _ (fun s : ipstate (K * V) (K * V) => bd_tgt (ip_a s))); auto; intros s; intros; cbn [OuterJoinOp_p mo_from_a mo_from_b mo_coll]; try apply t_for; try (intros s'; intros); try destruct s as [m e0]; try destruct s' as [m' e0'];
      cbn [ojp_a ojp_b ojp_coll]; auto.
    - destruct (bd_pop_front (ip_a m')) as [[[k v] bd]|]; [|cbn; auto]. now apply t_call.
    - destruct (ip_b m') as [|[k v] b']; [cbn; auto|]. now apply t_call.
    - destruct (bd_pop_front (ip_a m)) as [[[k v] bd]|]; [|cbn; auto]. destruct (ip_b m) as [|[k' v'] b']; [cbn; auto|]. now apply t_call.
  Qed.
End QuietMap.
