(** VecMap operations against the entry-wise specification. *)
From Verif Require Export VecMapFacts VecSetHist.

(** the member of [l] whose key equals [k] *)
Definition kfind {K R} (kcmp : K -> K -> comparison) (kR : R -> K) (k : K) (l : list R) : option R :=
  find (fun r => eqb_of kcmp k (kR r)) l.

Section KFind.
  Context {K : Type} {kcmp : K -> K -> comparison} (L : OrdLaws kcmp).
  Context {R : Type} (kR : R -> K).

  Lemma kfind_Some k l r : kfind kcmp kR k l = Some r -> In r l /\ kcmp k (kR r) = Eq.
  Proof.
    intros H. apply find_some in H as [H1 H2]. split; auto.
    unfold eqb_of in H2. destruct (kcmp k (kR r)); congruence.
  Qed.
  Lemma kfind_None k l : kfind kcmp kR k l = None <-> forall r, In r l -> kcmp k (kR r) <> Eq.
  Proof.
    unfold kfind. split.
    - intros H r Hr E. pose proof (find_none _ _ H r Hr) as Q. unfold eqb_of in Q.
      rewrite E in Q. discriminate.
    - intros H. destruct (find _ l) eqn:Q; [|reflexivity]. apply find_some in Q as [H1 H2].
      exfalso. apply (H r H1). unfold eqb_of in H2. destruct (kcmp k (kR r)); congruence.
  Qed.
  Lemma ksorted_unique l r1 r2 : ksorted (cmp := kcmp) kR l -> In r1 l -> In r2 l ->
    kcmp (kR r1) (kR r2) = Eq -> r1 = r2.
  Proof.
    induction l as [|r l IH]; intros S H1 H2 E; [destruct H1|].
    apply ksorted_cons in S as [S Hr].
    destruct H1 as [<-|H1], H2 as [<-|H2]; auto.
    - rewrite (Hr _ H2) in E. discriminate.
    - specialize (Hr _ H1). apply (cmp_lt_gt L) in Hr. congruence.
  Qed.
  Lemma kfind_iff k l r : ksorted (cmp := kcmp) kR l ->
    (kfind kcmp kR k l = Some r <-> In r l /\ kcmp k (kR r) = Eq).
  Proof.
    intros S. split; [apply kfind_Some|]. intros [H E].
    destruct (kfind kcmp kR k l) as [r'|] eqn:Q.
    - apply kfind_Some in Q as [H' E']. f_equal. apply (ksorted_unique l); auto.
      rewrite <- (cmp_eq_l L _ _ _ E'). assumption.
    - rewrite kfind_None in Q. exfalso. exact (Q r H E).
  Qed.
  Lemma option_ext {X} (o1 o2 : option X) : (forall x, o1 = Some x <-> o2 = Some x) -> o1 = o2.
  Proof.
    intros H. destruct o1 as [x|].
    - symmetry. now apply H.
    - destruct o2 as [x|]; [|reflexivity]. now apply H.
  Qed.

End KFind.

Section KFindMerge.
  Context {K : Type} {kcmp : K -> K -> comparison} (L : OrdLaws kcmp).
  Context {R A B : Type} (kR : R -> K) (kA : A -> K) (kB : B -> K).
  Context (ha : A -> option R) (hb : B -> option R) (hc : A -> B -> option R).
  Context (Ha : forall x r, ha x = Some r -> kcmp (kR r) (kA x) = Eq).
  Context (Hb : forall y r, hb y = Some r -> kcmp (kR r) (kB y) = Eq).
  Context (Hc : forall x y r, hc x y = Some r -> kcmp (kR r) (kA x) = Eq).

  (** the reference merge, key by key *)
  Lemma kfind_tape_ref k a b : ksorted (cmp := kcmp) kA a -> ksorted (cmp := kcmp) kB b ->
    kfind kcmp kR k (tape_ref (kcmp := kcmp) kA kB ha hb hc a b) =
    match kfind kcmp kA k a, kfind kcmp kB k b with
    | Some x, Some y => hc x y
    | Some x, None => ha x
    | None, Some y => hb y
    | None, None => None
    end.
  Proof.
    intros Sa Sb. apply option_ext. intros r.
    rewrite (kfind_iff L) by (apply (tape_ref_sorted L); eauto).
    rewrite (tape_ref_In L) by auto.
    assert (FA : forall x, In x a -> kcmp k (kA x) = Eq -> kfind kcmp kA k a = Some x)
      by (intros x Hx E; apply (kfind_iff L); auto).
    assert (FB : forall y, In y b -> kcmp k (kB y) = Eq -> kfind kcmp kB k b = Some y)
      by (intros x Hx E; apply (kfind_iff L); auto).
    split.
    - intros [[(x & H1 & H2 & H3)|[(y & H1 & H2 & H3)|(x & y & H1 & H2 & H3 & H4)]] E].
      + assert (Ex : kcmp k (kA x) = Eq) by now rewrite <- (cmp_eq_r L _ _ _ (Ha _ _ H3)).
        rewrite (FA x H1 Ex). destruct (kfind kcmp kB k b) as [y|] eqn:Q; [|assumption].
        apply kfind_Some in Q as [Hy Ey]. exfalso. apply (H2 y Hy).
        now rewrite <- (cmp_eq_l L _ _ _ Ex).
      + assert (Ey : kcmp k (kB y) = Eq) by now rewrite <- (cmp_eq_r L _ _ _ (Hb _ _ H3)).
        rewrite (FB y H1 Ey). destruct (kfind kcmp kA k a) as [x|] eqn:Q; [|assumption].
        apply kfind_Some in Q as [Hx Ex]. exfalso. apply (H2 x Hx).
        now rewrite <- (cmp_eq_l L _ _ _ Ex).
      + assert (Ex : kcmp k (kA x) = Eq) by now rewrite <- (cmp_eq_r L _ _ _ (Hc _ _ _ H4)).
        rewrite (FA x H1 Ex), (FB y H2); [assumption|]. now rewrite <- (cmp_eq_r L _ _ _ H3).
    - destruct (kfind kcmp kA k a) as [x|] eqn:Ea, (kfind kcmp kB k b) as [y|] eqn:Eb.
      + apply kfind_Some in Ea as [Ia Ea], Eb as [Ib Eb]. intros H. split.
        * right. right. exists x, y. repeat split; auto. now rewrite <- (cmp_eq_l L _ _ _ Ea).
        * now rewrite (cmp_eq_r L _ _ _ (Hc _ _ _ H)).
      + apply kfind_Some in Ea as [Ia Ea]. rewrite kfind_None in Eb. intros H. split.
        * left. exists x. repeat split; auto. intros y Hy. rewrite <- (cmp_eq_l L _ _ _ Ea). auto.
        * now rewrite (cmp_eq_r L _ _ _ (Ha _ _ H)).
      + apply kfind_Some in Eb as [Ib Eb]. rewrite kfind_None in Ea. intros H. split.
        * right. left. exists y. repeat split; auto. intros x Hx E. apply (Ea x Hx).
          rewrite (cmp_eq_r L _ _ _ E). assumption.
        * now rewrite (cmp_eq_r L _ _ _ (Hb _ _ H)).
      + discriminate.
  Qed.
End KFindMerge.

(** *** the reference join *)
Section JRef.
  Context {K : Type} {kcmp : K -> K -> comparison} (L : OrdLaws kcmp).
  Context {V W R X : Type}.
  Context (argA : option (K -> V -> X)) (argB : option (K -> W -> X)) (argC : K -> V -> W -> X).
  Context (g : X -> option R).
  Local Notation jr := (jref (kcmp := kcmp) argA argB argC g).
  Local Notation jl := (jlog (kcmp := kcmp) argA argB argC).

  Lemma kv_key k (o : option R) r : kv k o = Some r -> kcmp (fst r) k = Eq.
  Proof. destruct o; [|discriminate]. intros [= <-]. apply (cmp_refl L). Qed.
  Lemma h_of_key {A} (arg : option (K -> A -> X)) x r : h_of g arg x = Some r -> kcmp (fst r) (fst x) = Eq.
  Proof. destruct arg; [|discriminate]. apply kv_key. Qed.

  Lemma jref_sorted a b : keys_sorted kcmp a -> keys_sorted kcmp b -> keys_sorted kcmp (jr a b).
  Proof.
    intros Sa Sb. apply (tape_ref_sorted L fst fst _ _ _ fst); auto.
    - intros x r. apply h_of_key.
    - intros x r. apply h_of_key.
    - intros x y r _. apply kv_key.
  Qed.
  Lemma jref_entry k a b : keys_sorted kcmp a -> keys_sorted kcmp b ->
    entry kcmp k (jr a b) =
    match entry kcmp k a, entry kcmp k b with
    | Some x, Some y => hC argC g x y
    | Some x, None => h_of g argA x
    | None, Some y => h_of g argB y
    | None, None => None
    end.
  Proof.
    intros Sa Sb. apply (kfind_tape_ref L fst fst fst); auto.
    - intros x r. apply h_of_key.
    - intros x r. apply h_of_key.
    - intros x y r. apply kv_key.
  Qed.

  (** the calls *)
  Context (kx : X -> K).
  Context (HA : forall h k v, argA = Some h -> kx (h k v) = k).
  Context (HB : forall h k v, argB = Some h -> kx (h k v) = k).
  Context (HC : forall k v w, kx (argC k v w) = k).
  Lemma l_of_key {A} (arg : option (K -> A -> X)) x r :
    (forall h k v, arg = Some h -> kx (h k v) = k) -> l_of arg x = Some r -> kcmp (kx r) (fst x) = Eq.
  Proof.
    intros H. destruct arg as [h|]; [|discriminate]. intros [= <-].
    rewrite (H h) by reflexivity. apply (cmp_refl L).
  Qed.
  Lemma jlog_sorted a b : keys_sorted kcmp a -> keys_sorted kcmp b -> sorted kcmp (map kx (jl a b)).
  Proof.
    intros Sa Sb. apply (tape_ref_sorted L fst fst _ _ _ kx); auto.
    - intros x r. apply l_of_key, HA.
    - intros x r. apply l_of_key, HB.
    - intros x y r _ [= <-]. rewrite HC. apply (cmp_refl L).
  Qed.
  Lemma jlog_kfind k a b : keys_sorted kcmp a -> keys_sorted kcmp b ->
    kfind kcmp kx k (jl a b) =
    match entry kcmp k a, entry kcmp k b with
    | Some x, Some y => lC argC x y
    | Some x, None => l_of argA x
    | None, Some y => l_of argB y
    | None, None => None
    end.
  Proof.
    intros Sa Sb. apply (kfind_tape_ref L kx fst fst); auto.
    - intros x r. apply l_of_key, HA.
    - intros x r. apply l_of_key, HB.
    - intros x y r [= <-]. rewrite HC. apply (cmp_refl L).
  Qed.
End JRef.

(** *** arbitrary closures: serving a sequence of arguments *)
(** [serve f key args e]: call [f] on [args] one after the other, starting in environment [e];
    an argument with key k for which [f] returns [Some r] contributes the entry (k, r); stops when
    [f] panics. The entries, the environment, and whether no call panicked. *)
Fixpoint serve {K X R E} (f : clos E X (option R)) (key : X -> K) (args : list X) (e : E)
  : list (K * R) * E * bool :=
  match args with
  | [] => ([], e, true)
  | x :: args' =>
      match f e x with
      | (e', Throw) => ([], e', false)
      | (e', Ret o) =>
          let '(rs, e2, ok) := serve f key args' e' in
          (match o with Some r => (key x, r) :: rs | None => rs end, e2, ok)
      end
  end.
(** the outcome of an operation that runs the closure that way *)
Definition served {K R E} (x : list (K * R) * E * bool) : done (list (K * R) * E) :=
  let '(rs, e, ok) := x in if ok then Done (rs, e) else Unwound (rs, e).

Section Serve.
  Context {K X R E : Type} (f : clos E X (option R)) (key : X -> K).
  Lemma serve_app xs ys : forall e,
    serve f key (xs ++ ys) e =
    let '(rs, e1, ok) := serve f key xs e in
    if ok then let '(rs2, e2, ok2) := serve f key ys e1 in (rs ++ rs2, e2, ok2) else (rs, e1, false).
  Proof.
    induction xs as [|x xs IH]; intros e; cbn [serve app].
    - destruct (serve f key ys e) as [[? ?] ?]. reflexivity.
    - destruct (f e x) as [e' [o|]]; [|reflexivity]. rewrite IH.
      destruct (serve f key xs e') as [[rs e1] [|]]; [|reflexivity].
      destruct (serve f key ys e1) as [[rs2 e2] ok2]. destruct o; reflexivity.
  Qed.
  Lemma serve_total upd g xs : total_clos f upd g -> forall e,
    serve f key xs e = (omap (fun x => option_map (pair (key x)) (g x)) xs, fold_left upd xs e, true).
  Proof.
    intros TC. induction xs as [|x xs IH]; intros e; cbn [serve]; [reflexivity|].
    rewrite TC, IH. cbn. destruct (g x); reflexivity.
  Qed.
  (** the entries produced are those of a prefix of the arguments *)
  Lemma serve_subk (kcmp : K -> K -> comparison) xs : (forall k, kcmp k k = Eq) ->
    forall e rs e' ok, serve f key xs e = (rs, e', ok) -> subk kcmp key fst rs xs.
  Proof.
    intros Hr. induction xs as [|x xs IH]; intros e rs e' ok; cbn [serve].
    - intros [= <- <- <-]. constructor.
    - destruct (f e x) as [e1 [o|]].
      + destruct (serve f key xs e1) as [[rs1 e2] ok1] eqn:Q. apply IH in Q.
        destruct o; intros [= <- <- <-]; [apply subk_take; cbn; auto|apply subk_skip; auto].
      + intros [= <- <- <-]. apply subk_none.
  Qed.

  Context {A : Type}.
  Lemma eat_serve (arg : option (K -> A -> X)) l : (forall h k v, arg = Some h -> key (h k v) = k) ->
    forall e, let '(rs, e', m, ok) := eat_opt f arg l e in
    serve f key (omap (l_of arg) l) e = (rs, e', ok) /\ (ok = true -> m = length l).
  Proof.
    intros Hk. destruct arg as [h|]; cbn [eat_opt].
    - specialize (Hk h). induction l as [|[k v] l IH]; intros e; [cbn; auto|].
      change (omap (l_of (Some h)) ((k, v) :: l)) with (h k v :: omap (l_of (Some h)) l).
      cbn [eat serve].
      destruct (f e (h k v)) as [e' [o|]].
      + specialize (IH e'). destruct (eat f h l e') as [[[rs e2] m] ok].
        destruct IH as [IH Hm]. rewrite IH. rewrite Hk by reflexivity. split; [destruct o; reflexivity|].
        intros Q. cbn. now rewrite Hm.
      + split; [reflexivity|discriminate].
    - intros e. split; [|auto].
      replace (omap (@l_of K X A None) l) with (@nil X); [reflexivity|].
      clear. induction l; auto.
  Qed.
End Serve.

Section ServeMerge.
  Context {K : Type} {kcmp : K -> K -> comparison} (L : OrdLaws kcmp).
  Context {V W R E X St : Type} (O : mop St (K * V) (K * W)) (tgt : St -> list (K * R)) (env : St -> E).
  Context (f : clos E X (option R)).
  Context (argA : option (K -> V -> X)) (argB : option (K -> W -> X)) (argC : K -> V -> W -> X).
  Context (J : jact (kcmp := kcmp) O tgt env f argA argB argC).
  Context (key : X -> K).
  Context (HA : forall h k v, argA = Some h -> key (h k v) = k).
  Context (HB : forall h k v, argB = Some h -> key (h k v) = k).
  Context (HC : forall k v w, key (argC k v w) = k).
  Local Notation jl := (jlog (kcmp := kcmp) argA argB argC).

  Lemma run_serve a b evs :
    ok_sched (kcmp := kcmp) fst fst a b evs ->
    forall s, mo_a O s = a -> mo_b O s = b ->
    let '(rs, e', ok) := serve f key (jl a b) (env s) in
    exists s', run O evs s = (if ok then Cont s' else Panic s') /\ tgt s' = tgt s ++ rs /\ env s' = e'.
  Proof.
    induction 1 as [|a0 a1 b evs Hne Hlt H IH|a b0 b1 evs Hne Hgt H IH|x a y b evs Exy H IH];
      intros s Ha Hb; cbn [run step].
    - cbn. exists s. rewrite app_nil_r. auto.
    - assert (Hn : length a0 <= length (mo_a O s)) by (rewrite Ha, app_length; lia).
      pose proof (ja_a _ _ _ _ _ _ _ J s (length a0) Hn) as Q.
      rewrite Ha, firstn_app_exact in Q.
      unfold jlog. rewrite tape_ref_app_a by assumption. rewrite serve_app.
      pose proof (eat_serve f key argA a0 HA (env s)) as Q2.
      destruct (eat_opt f argA a0 (env s)) as [[[rs e1] m] ok]. destruct Q2 as [-> Hm].
      destruct Q as (s1 & E1 & X1 & Y1 & V1 & T1). rewrite E1. destruct ok; cbn [obind].
      + rewrite Hm, skipn_app_exact in X1 by reflexivity.
        specialize (IH s1 X1). rewrite V1 in IH. fold (jl a1 b).
        destruct (serve f key (jl a1 b) e1) as [[rs2 e2] ok2].
        destruct IH as (s2 & E2 & T2 & V2); [congruence|]. exists s2. repeat split; auto.
        rewrite T2, T1. now rewrite app_assoc.
      + exists s1. auto.
    - assert (Hn : length b0 <= length (mo_b O s)) by (rewrite Hb, app_length; lia).
      pose proof (ja_b _ _ _ _ _ _ _ J s (length b0) Hn) as Q.
      rewrite Hb, firstn_app_exact in Q.
      unfold jlog. rewrite tape_ref_app_b by assumption. rewrite serve_app.
      pose proof (eat_serve f key argB b0 HB (env s)) as Q2.
      destruct (eat_opt f argB b0 (env s)) as [[[rs e1] m] ok]. destruct Q2 as [-> Hm].
      destruct Q as (s1 & E1 & X1 & Y1 & V1 & T1). rewrite E1. destruct ok; cbn [obind].
      + rewrite Hm, skipn_app_exact in X1 by reflexivity.
        assert (X2 : mo_a O s1 = a) by congruence.
        specialize (IH s1 X2). rewrite V1 in IH. fold (jl a b1).
        destruct (serve f key (jl a b1) e1) as [[rs2 e2] ok2].
        destruct IH as (s2 & E2 & T2 & V2); [congruence|]. exists s2. repeat split; auto.
        rewrite T2, T1. now rewrite app_assoc.
      + exists s1. auto.
    - destruct x as [k v], y as [k' w]. pose proof (ja_c _ _ _ _ _ _ _ J s k v a k' w b Ha Hb) as Q.
      unfold jlog. rewrite tape_ref_cons, Exy. cbn [lC o2l app serve fst snd].
      destruct (f (env s) (argC k v w)) as [e1 [o|]]; destruct Q as (s1 & E1 & X1 & Y1 & V1 & T1);
        rewrite E1; cbn [obind].
      + specialize (IH s1 X1 Y1). rewrite V1 in IH. fold (jl a b).
        destruct (serve f key (jl a b) e1) as [[rs2 e2] ok2].
        destruct IH as (s2 & E2 & T2 & V2). exists s2. repeat split; auto.
        rewrite T2, T1, HC, <- app_assoc. destruct o; reflexivity.
      + exists s1. auto.
  Qed.
  Theorem merge_serve strat s : keys_sorted kcmp (mo_a O s) -> keys_sorted kcmp (mo_b O s) ->
    let '(rs, e', ok) := serve f key (jl (mo_a O s) (mo_b O s)) (env s) in
    exists s', merge O strat s = (if ok then Cont s' else Panic s') /\ tgt s' = tgt s ++ rs /\ env s' = e'.
  Proof.
    intros Sa Sb.
    destruct (merge_sched L fst fst O (keyed_advancing _ _ _ _ _ (jact_keyed L O tgt env f argA argB argC J))
      strat s Sa Sb (jact_agrees O tgt env f argA argB argC J _ _)) as (evs & Ok & Q).
    rewrite Q. now apply (run_serve _ _ evs Ok).
  Qed.
End ServeMerge.

(** *** from merge states to the API functions *)
Section Joins.
  Context {K : Type} {kcmp : K -> K -> comparison} (L : OrdLaws kcmp) (strat : nat -> nat -> bool).

  Section V.
    Context {V W R E X : Type} (O : clos E X (option R) -> mop (vstate (K * V) (K * W) (K * R) * E) (K * V) (K * W)).
    Context (argA : option (K -> V -> X)) (argB : option (K -> W -> X)) (argC : K -> V -> W -> X).
    Context (J : forall f, jact (kcmp := kcmp) (O f) (fun s => vs_r (fst s)) snd f argA argB argC).
    Context (OA : forall f s, mo_a (O f) s = vs_a (fst s)) (OB : forall f s, mo_b (O f) s = vs_b (fst s)).

    Lemma vs_join_valid f a b e : keys_sorted kcmp a -> keys_sorted kcmp b ->
      exists r e', (vs_join strat (O f) a b e = Done (r, e') \/ vs_join strat (O f) a b e = Unwound (r, e')) /\
        keys_sorted kcmp r /\
        forall p, In p r -> mem kcmp (fst p) (map fst a) \/ mem kcmp (fst p) (map fst b).
    Proof.
      intros Sa Sb.
      destruct (jact_valid L (O f) _ _ f argA argB argC (J f) strat (vs_new a b, e)) as (s & rs & Q & T & S & F);
        [rewrite OA; assumption|rewrite OB; assumption|].
      rewrite OA, OB in F. cbn in T, F. exists rs, (snd s). unfold vs_join, to_done. subst rs.
      destruct Q as [Q|Q]; rewrite Q; auto.
    Qed.
    Lemma vs_join_total f upd g a b e : total_clos f upd g ->
      keys_sorted kcmp a -> keys_sorted kcmp b ->
      vs_join strat (O f) a b e =
      Done (jref (kcmp := kcmp) argA argB argC g a b, fold_left upd (jlog (kcmp := kcmp) argA argB argC a b) e).
    Proof.
      intros TC Sa Sb.
      destruct (jact_total L (O f) _ _ f argA argB argC (J f) upd g TC strat (vs_new a b, e)) as (s & Q & T & S);
        [rewrite OA; assumption|rewrite OB; assumption|].
      rewrite OA, OB in T, S. cbn in T, S. unfold vs_join. rewrite Q. cbn. now rewrite T, S.
    Qed.
    Context (key : X -> K).
    Context (HA : forall h k v, argA = Some h -> key (h k v) = k).
    Context (HB : forall h k v, argB = Some h -> key (h k v) = k).
    Context (HC : forall k v w, key (argC k v w) = k).
    Lemma vs_join_serve f a b e : keys_sorted kcmp a -> keys_sorted kcmp b ->
      vs_join strat (O f) a b e = served (serve f key (jlog (kcmp := kcmp) argA argB argC a b) e).
    Proof.
      intros Sa Sb.
      pose proof (merge_serve L (O f) _ _ f argA argB argC (J f) key HA HB HC strat (vs_new a b, e)) as Q.
      rewrite OA, OB in Q. cbn [fst snd vs_new vs_a vs_b vs_r app] in Q. specialize (Q Sa Sb).
      destruct (serve f key (jlog argA argB argC a b) e) as [[rs e'] ok].
      destruct Q as (s & Q & T & V1). unfold vs_join. rewrite Q. cbn in T. subst. destruct ok; reflexivity.
    Qed.
  End V.

  Section I.
    Context {V W E X : Type} (O : clos E X (option V) -> mop (iprstate (K * V) (K * W) * E) (K * V) (K * W)).
    Context (argA : option (K -> V -> X)) (argB : option (K -> W -> X)) (argC : K -> V -> W -> X).
    Context (J : forall f, jact (kcmp := kcmp) (O f) (fun s => bd_tgt (ipr_a (fst s))) snd f argA argB argC).
    Context (OA : forall f s, mo_a (O f) s = bd_src (ipr_a (fst s))).
    Context (OB : forall f s, mo_b (O f) s = ipr_b (fst s)).

    Lemma ipr_join_valid f a b e : keys_sorted kcmp a -> keys_sorted kcmp b ->
      exists r e', (ipr_join strat (O f) a b e = Done (r, e') \/ ipr_join strat (O f) a b e = Unwound (r, e')) /\
        keys_sorted kcmp r /\
        forall p, In p r -> mem kcmp (fst p) (map fst a) \/ mem kcmp (fst p) (map fst b).
    Proof.
      intros Sa Sb.
      destruct (jact_valid L (O f) _ _ f argA argB argC (J f) strat (ipr_new a b, e)) as (s & rs & Q & T & S & F);
        [rewrite OA; assumption|rewrite OB; assumption|].
      rewrite OA, OB in F. cbn in T, F. exists rs, (snd s). unfold ipr_join, to_done. subst rs.
      destruct Q as [Q|Q]; rewrite Q; auto.
    Qed.
    Lemma ipr_join_total f upd g a b e : total_clos f upd g ->
      keys_sorted kcmp a -> keys_sorted kcmp b ->
      ipr_join strat (O f) a b e =
      Done (jref (kcmp := kcmp) argA argB argC g a b, fold_left upd (jlog (kcmp := kcmp) argA argB argC a b) e).
    Proof.
      intros TC Sa Sb.
      destruct (jact_total L (O f) _ _ f argA argB argC (J f) upd g TC strat (ipr_new a b, e)) as (s & Q & T & S);
        [rewrite OA; assumption|rewrite OB; assumption|].
      rewrite OA, OB in T, S. cbn in T, S. unfold ipr_join. rewrite Q. cbn. now rewrite T, S.
    Qed.
    Context (key : X -> K).
    Context (HA : forall h k v, argA = Some h -> key (h k v) = k).
    Context (HB : forall h k v, argB = Some h -> key (h k v) = k).
    Context (HC : forall k v w, key (argC k v w) = k).
    Lemma ipr_join_serve f a b e : keys_sorted kcmp a -> keys_sorted kcmp b ->
      ipr_join strat (O f) a b e = served (serve f key (jlog (kcmp := kcmp) argA argB argC a b) e).
    Proof.
      intros Sa Sb.
      pose proof (merge_serve L (O f) _ _ f argA argB argC (J f) key HA HB HC strat (ipr_new a b, e)) as Q.
      rewrite OA, OB in Q. cbn in Q. specialize (Q Sa Sb).
      destruct (serve f key (jlog argA argB argC a b) e) as [[rs e'] ok].
      destruct Q as (s & Q & T & V1). unfold ipr_join. rewrite Q. cbn in T. subst. destruct ok; reflexivity.
    Qed.
  End I.

  Section P.
    Context {V E : Type}.
    Lemma combine_valid (f : clos E (V * V) V) a b e : keys_sorted kcmp a -> keys_sorted kcmp b ->
      exists r e', (vmap_combine_with kcmp strat f a b e = Done (r, e') \/
                    vmap_combine_with kcmp strat f a b e = Unwound (r, e')) /\
        keys_sorted kcmp r /\
        forall p, In p r -> mem kcmp (fst p) (map fst a) \/ mem kcmp (fst p) (map fst b).
    Proof.
      intros Sa Sb.
      destruct (jact_valid L _ _ _ _ _ _ _ (OuterJoinOp_p_act (combine_clos f)) strat (ip_new a b, e))
        as (s & rs & Q & T & S & F); [assumption|assumption|].
      cbn in T, F. exists rs, (snd s). unfold vmap_combine_with, to_done. subst rs.
      destruct Q as [Q|Q]; rewrite Q; auto.
    Qed.
    Lemma combine_serve (f : clos E (V * V) V) (key : ojarg K V V -> K) a b e :
      (forall k v, key (OJLeft k v) = k) -> (forall k v, key (OJRight k v) = k) ->
      (forall k v w, key (OJBoth k v w) = k) ->
      keys_sorted kcmp a -> keys_sorted kcmp b ->
      vmap_combine_with kcmp strat f a b e =
      served (serve (combine_clos f) key (jlog (kcmp := kcmp) (Some OJLeft) (Some OJRight) OJBoth a b) e).
    Proof.
      intros K1 K2 K3 Sa Sb.
      pose proof (merge_serve L _ _ _ _ _ _ _ (OuterJoinOp_p_act (combine_clos f)) key) as Q.
      specialize (Q ltac:(intros h k v [= <-]; auto) ltac:(intros h k v [= <-]; auto) ltac:(auto) strat (ip_new a b, e)).
      cbn in Q. specialize (Q Sa Sb).
      destruct (serve (combine_clos f) key _ e) as [[rs e'] ok].
      destruct Q as (s & Q & T & V1). unfold vmap_combine_with. rewrite Q. subst. destruct ok; reflexivity.
    Qed.
    (** what combine_with makes of the argument of its closure *)
    Definition cb (g : V * V -> V) (x : ojarg K V V) : option V :=
      match x with OJLeft _ v => Some v | OJRight _ v => Some v | OJBoth _ v w => Some (g (v, w)) end.
    Definition cu (upd : E -> V * V -> E) (e : E) (x : ojarg K V V) : E :=
      match x with OJBoth _ v w => upd e (v, w) | _ => e end.
    Lemma combine_total f upd g a b e : total_clos f upd g ->
      keys_sorted kcmp a -> keys_sorted kcmp b ->
      vmap_combine_with kcmp strat f a b e =
      Done (jref (kcmp := kcmp) (Some OJLeft) (Some OJRight) OJBoth (cb g) a b,
            fold_left (cu upd) (jlog (kcmp := kcmp) (Some OJLeft) (Some OJRight) OJBoth a b) e).
    Proof.
      intros TC Sa Sb.
      assert (TC2 : total_clos (combine_clos f) (cu upd) (cb g)).
      { intros e0 [k v|k v|k v w]; cbn; auto. now rewrite TC. }
      destruct (jact_total L _ _ _ _ _ _ _ (OuterJoinOp_p_act (combine_clos f)) _ _ TC2 strat (ip_new a b, e))
        as (s & Q & T & S); [assumption|assumption|].
      cbn in T, S. unfold vmap_combine_with. rewrite Q. cbn. now rewrite T, S.
    Qed.
  End P.
End Joins.

(** *** point operations *)
Section Point.
  Context {K V : Type} {kcmp : K -> K -> comparison} (L : OrdLaws kcmp).
  Local Notation vmap := (list (K * V)).

  Lemma msearch_cases (l : vmap) k : keys_sorted kcmp l ->
    (exists l1 p l2, l = l1 ++ p :: l2 /\ kcmp k (fst p) = Eq /\ bsearch (kprobe kcmp k) l = BsOk (length l1)
       /\ (forall z, In z l1 -> kcmp (fst z) k = Lt) /\ (forall z, In z l2 -> kcmp k (fst z) = Lt)) \/
    (exists l1 l2, l = l1 ++ l2 /\ entry kcmp k l = None /\ bsearch (kprobe kcmp k) l = BsErr (length l1)
       /\ (forall z, In z l1 -> kcmp (fst z) k = Lt) /\ (forall z, In z l2 -> kcmp k (fst z) = Lt)).
  Proof.
    intros Hs.
    destruct (ksorted_split L fst k l Hs) as (l1 & l2 & H1 & H2 & H3).
    assert (B1 : below (kprobe kcmp k) l1)
      by (apply Forall_forall; intros z Hz; unfold kprobe; now rewrite H1).
    assert (B2 : above (kprobe kcmp k) l2)
      by (apply Forall_forall; intros z Hz; unfold kprobe; now rewrite H2).
    assert (H2' : forall z, In z l2 -> kcmp k (fst z) = Lt) by (intros z Hz; apply (cmp_lt_gt L); auto).
    destruct H3 as [->|(y & -> & E)].
    - right. exists l1, l2. repeat split; auto.
      + apply entry_None. intros p Hp E. apply in_app_or in Hp as [Hp|Hp].
        * apply H1 in Hp. apply (cmp_sym L) in E. congruence.
        * apply H2' in Hp. congruence.
      + now apply bsearch_err.
    - left. exists l1, y, l2. apply (cmp_sym L) in E. repeat split; auto.
      apply bsearch_ok; auto. unfold kprobe. now rewrite (cmp_sym L _ _ E).
  Qed.

  Lemma entry_mid l1 (p : K * V) l2 k : kcmp k (fst p) = Eq -> (forall z, In z l1 -> kcmp (fst z) k = Lt) ->
    entry kcmp k (l1 ++ p :: l2) = Some p.
  Proof.
    intros E H1. rewrite entry_app.
    replace (entry kcmp k l1) with (@None (K * V)).
    - unfold entry. cbn. unfold eqb_of. now rewrite E.
    - symmetry. apply entry_None. intros z Hz Q. apply H1 in Hz. apply (cmp_sym L) in Q. congruence.
  Qed.

  Lemma get_spec (l : vmap) k : keys_sorted kcmp l -> vmap_get kcmp l k = lookup kcmp k l.
  Proof.
    intros Hs. unfold vmap_get. rewrite lookup_entry.
    destruct (msearch_cases l k Hs) as [(l1 & p & l2 & -> & E & B & H1 & _)|(l1 & l2 & -> & Hn & B & _)];
      rewrite B.
    - rewrite nth_error_app2, Nat.sub_diag by lia. cbn. now rewrite entry_mid.
    - now rewrite Hn.
  Qed.

  (** replacing or adding the entry of one key *)
  Lemma put_facts l1 (p : K * V) l2 q k : keys_sorted kcmp (l1 ++ q ++ l2) ->
    kcmp k (fst p) = Eq ->
    (forall z, In z q -> kcmp k (fst z) = Eq) ->
    (forall z, In z l1 -> kcmp (fst z) k = Lt) -> (forall z, In z l2 -> kcmp k (fst z) = Lt) ->
    keys_sorted kcmp (l1 ++ p :: l2) /\
    forall k', entry kcmp k' (l1 ++ p :: l2) =
      if eqb_of kcmp k' k then Some p else entry kcmp k' (l1 ++ q ++ l2).
  Proof.
    intros Hs E Hq H1 H2.
    assert (S : keys_sorted kcmp (l1 ++ p :: l2)).
    { apply ksorted_app in Hs as (S1 & S2 & H3). apply ksorted_app in S2 as (_ & S2 & H4).
      apply ksorted_app. repeat split; auto.
      - apply ksorted_cons. split; auto. intros y Hy. rewrite <- (cmp_eq_l L _ _ _ E). auto.
      - intros x y Hx [<-|Hy]; [rewrite <- (cmp_eq_r L _ _ _ E); auto|].
        apply H3; auto. apply in_or_app. auto. }
    split; [assumption|]. intros k'. unfold eqb_of. destruct (kcmp k' k) eqn:Q.
    - apply (entry_iff L); auto. split; [apply in_or_app; right; now left|].
      now rewrite (cmp_eq_l L _ _ _ Q).
    - rewrite !entry_app. destruct (entry kcmp k' l1); [reflexivity|].
      replace (entry kcmp k' q) with (@None (K * V)).
      + cbn. unfold entry. cbn. unfold eqb_of at 1. rewrite <- (cmp_eq_r L _ _ _ E), Q. reflexivity.
      + symmetry. apply entry_None. intros z Hz. rewrite <- (cmp_eq_r L _ _ _ (Hq z Hz)). congruence.
    - rewrite !entry_app. destruct (entry kcmp k' l1); [reflexivity|].
      replace (entry kcmp k' q) with (@None (K * V)).
      + cbn. unfold entry. cbn. unfold eqb_of at 1. rewrite <- (cmp_eq_r L _ _ _ E), Q. reflexivity.
      + symmetry. apply entry_None. intros z Hz. rewrite <- (cmp_eq_r L _ _ _ (Hq z Hz)). congruence.
  Qed.

  Lemma minsert_spec (l : vmap) k v : keys_sorted kcmp l ->
    exists l', vmap_insert kcmp l k v = Ok (l', lookup kcmp k l) /\ keys_sorted kcmp l' /\
      forall k', entry kcmp k' l' = if eqb_of kcmp k' k then Some (k, v) else entry kcmp k' l.
  Proof.
    intros Hs. unfold vmap_insert. rewrite lookup_entry.
    destruct (msearch_cases l k Hs)
      as [(l1 & p & l2 & -> & E & B & H1 & H2)|(l1 & l2 & -> & Hn & B & H1 & H2)]; rewrite B.
    - rewrite nth_error_app2, Nat.sub_diag by lia. cbn [nth_error]. destruct p as [k0 v0].
      rewrite entry_mid by assumption. cbn [option_map snd]. rewrite set_at_app.
      exists (l1 ++ (k, v) :: l2). split; [reflexivity|].
      apply (put_facts l1 (k, v) l2 [(k0, v0)] k); auto; [apply (cmp_refl L)|].
      intros z [<-|[]]. exact E.
    - rewrite insert_at_app, Hn. exists (l1 ++ (k, v) :: l2). split; [reflexivity|].
      apply (put_facts l1 (k, v) l2 [] k); auto; [apply (cmp_refl L)|]. intros z [].
  Qed.

  Lemma get_mut_spec (l : vmap) k g : keys_sorted kcmp l ->
    exists l', vmap_get_mut kcmp l k g = (l', match entry kcmp k l with Some _ => true | None => false end) /\
      keys_sorted kcmp l' /\
      forall k', entry kcmp k' l' =
        if eqb_of kcmp k' k then option_map (fun p => (fst p, g (snd p))) (entry kcmp k l)
        else entry kcmp k' l.
  Proof.
    intros Hs. unfold vmap_get_mut.
    destruct (msearch_cases l k Hs)
      as [(l1 & p & l2 & -> & E & B & H1 & H2)|(l1 & l2 & -> & Hn & B & H1 & H2)]; rewrite B.
    - rewrite nth_error_app2, Nat.sub_diag by lia. cbn [nth_error]. destruct p as [k0 v0].
      rewrite entry_mid by assumption. rewrite set_at_app. cbn [option_map fst snd].
      exists (l1 ++ (k0, g v0) :: l2). split; [reflexivity|].
      apply (put_facts l1 (k0, g v0) l2 [(k0, v0)] k); auto.
      intros z [<-|[]]. exact E.
    - rewrite Hn. exists (l1 ++ l2). split; [reflexivity|]. split; [assumption|].
      intros k'. unfold eqb_of. destruct (kcmp k' k) eqn:Q; auto.
      now rewrite (entry_eq L _ _ _ Q), Hn.
  Qed.

  Lemma retain_spec (l : vmap) f : keys_sorted kcmp l ->
    keys_sorted kcmp (vmap_retain l f) /\
    forall k, entry kcmp k (vmap_retain l f) =
      match entry kcmp k l with Some p => if f p then Some p else None | None => None end.
  Proof.
    intros Hs. unfold vmap_retain.
    assert (S : keys_sorted kcmp (filter f l)).
    { clear - L Hs. unfold keys_sorted. change (ksorted (cmp := kcmp) fst (filter f l)).
      change (ksorted (cmp := kcmp) fst l) in Hs.
      induction l as [|p l IH]; [assumption|]. apply ksorted_cons in Hs as [Hs H]. cbn.
      destruct (f p); auto. apply ksorted_cons. split; auto. intros y Hy.
      apply filter_In in Hy as [Hy _]. auto. }
    split; [assumption|]. intros k. apply option_ext. intros p.
    rewrite (entry_iff L) by assumption. rewrite filter_In.
    destruct (entry kcmp k l) as [q|] eqn:Q.
    - assert (Hq := Q). apply entry_Some_In in Hq as [Hq Eq]. split.
      + intros [[Hp Fp] Ep]. rewrite (entry_sorted L _ _ p Hs Hp Ep) in Q. injection Q as ->.
        now rewrite Fp.
      + destruct (f q) eqn:F; intros [= <-]. auto.
    - split; [|discriminate]. intros [[Hp Fp] Ep]. rewrite entry_None in Q. destruct (Q p Hp Ep).
  Qed.

  Lemma entry_map {W} (f : K * V -> W) (l : vmap) k :
    entry kcmp k (map (fun p => (fst p, f p)) l) = option_map (fun p => (fst p, f p)) (entry kcmp k l).
  Proof.
    unfold entry. induction l as [|p l IH]; cbn; [reflexivity|].
    destruct (eqb_of kcmp k (fst p)); auto.
  Qed.
  Lemma map_values_spec {W} (f : V -> W) (l : vmap) : keys_sorted kcmp l ->
    keys_sorted kcmp (vmap_map_values f l) /\
    forall k, entry kcmp k (vmap_map_values f l) =
      option_map (fun p => (fst p, f (snd p))) (entry kcmp k l).
  Proof.
    intros Hs. split; [|intros k; apply (entry_map (fun p => f (snd p)))].
    unfold vmap_map_values, keys_sorted. rewrite map_map. exact Hs.
  Qed.

  (** deduplication by key, read entry-wise *)
  Lemma is_dedup_entry kp (inp out : vmap) : is_dedup (cmp := by_key fst kcmp) kp inp out ->
    keys_sorted kcmp out /\
    forall k, entry kcmp k out =
      entry kcmp k match kp with KeepFirst => inp | KeepLast => rev inp end.
  Proof.
    intros [S F]. split.
    - unfold keys_sorted. clear F. induction out as [|p out IH]; [apply sorted_nil|].
      cbn. apply sorted_cons_inv in S as [S H].
      apply sorted_cons_iff. split; auto. intros y Hy. apply in_map_iff in Hy as (q & <- & Hq).
      apply (H q Hq).
    - intros k.
      assert (G : forall v : V, entry kcmp k out = entry kcmp k match kp with KeepFirst => inp | KeepLast => rev inp end).
      { intros v. specialize (F (k, v)). unfold pick in F. destruct kp; exact F. }
      destruct out as [|[k0 v0] out].
      + destruct inp as [|[k1 v1] inp]; [destruct kp; reflexivity|exact (G v1)].
      + exact (G v0).
  Qed.

  Lemma mfrom_iter_spec (l : vmap) : exists r, vmap_from_iter kcmp l = Some r /\ keys_sorted kcmp r /\
    forall k, entry kcmp k r = entry kcmp k (rev l).
  Proof.
    unfold vmap_from_iter, sort_dedup_by_key.
    destruct (sort_dedup_by_spec (by_key_ord fst kcmp L) l KeepLast) as (o & E & D).
    exists o. split; [exact E|]. exact (is_dedup_entry KeepLast l o D).
  Qed.
  Lemma visit_map_spec (l : vmap) : keys_sorted kcmp (vmap_visit_map kcmp l) /\
    forall k, entry kcmp k (vmap_visit_map kcmp l) = entry kcmp k l.
  Proof.
    exact (is_dedup_entry KeepFirst l _ (std_sort_dedup (by_key_ord fst kcmp L) l)).
  Qed.
  Lemma minsert_all_spec (ps m : vmap) : keys_sorted kcmp m ->
    exists r, vmap_insert_all kcmp m ps = Ok r /\ keys_sorted kcmp r /\
    forall k, entry kcmp k r = match entry kcmp k (rev ps) with Some p => Some p | None => entry kcmp k m end.
  Proof.
    revert m. induction ps as [|[k v] ps IH]; intros m S.
    - exists m. repeat split; auto.
    - cbn [vmap_insert_all rev]. destruct (minsert_spec m k v S) as (m' & E & S' & F). rewrite E.
      cbn [rbind fst].
      destruct (IH m' S') as (r & E2 & S2 & F2). exists r. repeat split; auto.
      intros k'. rewrite F2, entry_app, F. destruct (entry kcmp k' (rev ps)); auto.
      unfold entry at 2. cbn. destruct (eqb_of kcmp k' k); auto.
  Qed.
End Point.
