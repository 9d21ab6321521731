(** Facts about the VecMap model. *)
From Verif Require Export VecMapModel MergeFacts VecSetFacts.

(** ** Subsequences of keys *)
Section Subk.
  Context {X R K : Type} (kcmp : K -> K -> comparison) (kX : X -> K) (kR : R -> K).
  (** [rs] carries keys of a subsequence of [xs] *)
  Inductive subk : list R -> list X -> Prop :=
  | subk_nil : subk [] []
  | subk_skip : forall rs x xs, subk rs xs -> subk rs (x :: xs)
  | subk_take : forall r rs x xs, kcmp (kR r) (kX x) = Eq -> subk rs xs -> subk (r :: rs) (x :: xs).

  Lemma subk_none xs : subk [] xs.
  Proof. induction xs; constructor; auto. Qed.
End Subk.

(** ** Operations that keep keys: validity of whatever is left, even after a panic *)
Section Keyed.
  Context {K : Type} {kcmp : K -> K -> comparison} (L : OrdLaws kcmp).
  Context {A B R : Type} (kA : A -> K) (kB : B -> K) (kR : R -> K).
  Context {St : Type} (O : mop St A B) (tgt : St -> list R).

  Record keyed : Prop := {
    kd_a : forall s n, n <= length (mo_a O s) ->
      exists s' m rs, m <= n /\ (mo_from_a O s n = Cont s' /\ m = n \/ mo_from_a O s n = Panic s') /\
        mo_a O s' = skipn m (mo_a O s) /\ mo_b O s' = mo_b O s /\ tgt s' = tgt s ++ rs /\
        subk kcmp kA kR rs (firstn m (mo_a O s));
    kd_b : forall s n, n <= length (mo_b O s) ->
      exists s' m rs, m <= n /\ (mo_from_b O s n = Cont s' /\ m = n \/ mo_from_b O s n = Panic s') /\
        mo_b O s' = skipn m (mo_b O s) /\ mo_a O s' = mo_a O s /\ tgt s' = tgt s ++ rs /\
        subk kcmp kB kR rs (firstn m (mo_b O s));
    kd_c : forall s x a y b, mo_a O s = x :: a -> mo_b O s = y :: b ->
      exists s' o, (mo_coll O s = Cont s' \/ mo_coll O s = Panic s') /\
        mo_a O s' = a /\ mo_b O s' = b /\ tgt s' = tgt s ++ o2l o /\
        forall r, o = Some r -> kcmp (kR r) (kA x) = Eq
  }.

  Lemma keyed_advancing : keyed -> advancing O.
  Proof.
    intros [Ha Hb Hc]. constructor.
    - intros s n s' Hn E. destruct (Ha s n Hn) as (s1 & m & rs & Hm & Q & X & Y & _).
      destruct Q as [[Q ->]|Q]; rewrite Q in E; [|discriminate]. injection E as <-. auto.
    - intros s n s' Hn E. destruct (Hb s n Hn) as (s1 & m & rs & Hm & Q & X & Y & _).
      destruct Q as [[Q ->]|Q]; rewrite Q in E; [|discriminate]. injection E as <-. auto.
    - intros s x a y b s' Ea Eb E. destruct (Hc s x a y b Ea Eb) as (s1 & o & Q & X & Y & _).
      destruct Q as [Q|Q]; rewrite Q in E; [|discriminate]. injection E as <-. auto.
  Qed.

  Lemma subk_In {X} (kX : X -> K) rs xs r :
    subk kcmp kX kR rs xs -> In r rs -> exists x, In x xs /\ kcmp (kR r) (kX x) = Eq.
  Proof.
    induction 1 as [|rs x xs H IH|r0 rs x xs E H IH]; intros Hr.
    - destruct Hr.
    - destruct (IH Hr) as (u & Hu & Eu). exists u. simpl. auto.
    - destruct Hr as [<-|Hr]; [exists x; simpl; auto|].
      destruct (IH Hr) as (u & Hu & Eu). exists u. simpl. auto.
  Qed.

  Lemma subk_sorted {X} (kX : X -> K) rs xs :
    subk kcmp kX kR rs xs -> ksorted (cmp := kcmp) kX xs -> ksorted (cmp := kcmp) kR rs.
  Proof.
    induction 1 as [|rs x xs H IH|r rs x xs E H IH]; intros S.
    - apply ksorted_nil.
    - apply ksorted_cons in S as [S _]. auto.
    - apply ksorted_cons in S as [S Hx]. apply ksorted_cons. split; auto.
      intros r' Hr'. destruct (subk_In kX rs xs r' H Hr') as (u & Hu & Eu).
      rewrite (cmp_eq_l L _ _ _ E), (cmp_eq_r L _ _ _ Eu). auto.
  Qed.

  Definition from_keys (a : list A) (b : list B) (r : R) : Prop :=
    (exists x, In x a /\ kcmp (kR r) (kA x) = Eq) \/ (exists y, In y b /\ kcmp (kR r) (kB y) = Eq).

  Lemma run_keyed (KD : keyed) a b evs :
    ok_sched (kcmp := kcmp) kA kB a b evs ->
    ksorted (cmp := kcmp) kA a -> ksorted (cmp := kcmp) kB b ->
    forall s, mo_a O s = a -> mo_b O s = b ->
    exists s' rs, (run O evs s = Cont s' \/ run O evs s = Panic s') /\ tgt s' = tgt s ++ rs /\
      ksorted (cmp := kcmp) kR rs /\ forall r, In r rs -> from_keys a b r.
  Proof.
    induction 1 as [|a0 a1 b evs Hne Hlt H IH|a b0 b1 evs Hne Hgt H IH|x a y b evs E H IH];
      intros Sa Sb s Ha Hb; cbn [run step].
    - exists s, []. rewrite app_nil_r. split; [now left|]. split; [reflexivity|].
      split; [apply ksorted_nil|]. intros r [].
    - destruct (kd_a KD s (length a0)) as (s1 & m & rs & Hm & Q & X & Y & T & S);
        [rewrite Ha, app_length; lia|].
      apply ksorted_app in Sa as (Sa0 & Sa1 & Hx).
      destruct Q as [[Q ->]|Q]; rewrite Q; cbn [obind].
      + rewrite Ha, firstn_app_exact in S. rewrite Ha, skipn_app_exact in X.
        destruct (IH Sa1 Sb s1 X) as (s2 & rs2 & R2 & T2 & S2 & F2); [congruence|].
        exists s2, (rs ++ rs2). split; [assumption|]. split; [rewrite T2, T; now rewrite app_assoc|].
        split.
        * apply ksorted_app. split; [now apply (subk_sorted kA rs a0)|]. split; [assumption|].
          intros r r2 Hr Hr2. destruct (subk_In kA rs a0 r S Hr) as (u & Hu & Eu).
          rewrite (cmp_eq_l L _ _ _ Eu).
          destruct (F2 r2 Hr2) as [(v & Hv & Ev)|(v & Hv & Ev)];
            rewrite (cmp_eq_r L _ _ _ Ev); auto.
        * intros r Hr. apply in_app_or in Hr as [Hr|Hr].
          -- destruct (subk_In kA rs a0 r S Hr) as (u & Hu & Eu). left. exists u.
             split; auto. apply in_or_app; auto.
          -- destruct (F2 r Hr) as [(v & Hv & Ev)|(v & Hv & Ev)]; [left|right]; exists v;
               split; auto. apply in_or_app; auto.
      + rewrite Ha in S. rewrite firstn_app_le in S by lia.
        assert (Sm : ksorted (cmp := kcmp) kA (firstn m a0)).
        { rewrite <- (firstn_skipn m a0) in Sa0. now apply ksorted_app in Sa0. }
        exists s1, rs. split; [now right|]. split; [assumption|].
        split; [now apply (subk_sorted kA rs (firstn m a0))|].
        intros r Hr. destruct (subk_In kA rs _ r S Hr) as (u & Hu & Eu). left. exists u.
        split; auto. apply in_or_app. left. rewrite <- (firstn_skipn m a0). apply in_or_app; auto.
    - destruct (kd_b KD s (length b0)) as (s1 & m & rs & Hm & Q & X & Y & T & S);
        [rewrite Hb, app_length; lia|].
      apply ksorted_app in Sb as (Sb0 & Sb1 & Hx).
      destruct Q as [[Q ->]|Q]; rewrite Q; cbn [obind].
      + rewrite Hb, firstn_app_exact in S. rewrite Hb, skipn_app_exact in X.
        destruct (IH Sa Sb1 s1) as (s2 & rs2 & R2 & T2 & S2 & F2); [congruence|congruence|].
        exists s2, (rs ++ rs2). split; [assumption|]. split; [rewrite T2, T; now rewrite app_assoc|].
        split.
        * apply ksorted_app. split; [now apply (subk_sorted kB rs b0)|]. split; [assumption|].
          intros r r2 Hr Hr2. destruct (subk_In kB rs b0 r S Hr) as (u & Hu & Eu).
          rewrite (cmp_eq_l L _ _ _ Eu).
          destruct (F2 r2 Hr2) as [(v & Hv & Ev)|(v & Hv & Ev)];
            rewrite (cmp_eq_r L _ _ _ Ev); auto. apply (cmp_gt_lt L); auto.
        * intros r Hr. apply in_app_or in Hr as [Hr|Hr].
          -- destruct (subk_In kB rs b0 r S Hr) as (u & Hu & Eu). right. exists u.
             split; auto. apply in_or_app; auto.
          -- destruct (F2 r Hr) as [(v & Hv & Ev)|(v & Hv & Ev)]; [left|right]; exists v;
               split; auto. apply in_or_app; auto.
      + rewrite Hb in S. rewrite firstn_app_le in S by lia.
        assert (Sm : ksorted (cmp := kcmp) kB (firstn m b0)).
        { rewrite <- (firstn_skipn m b0) in Sb0. now apply ksorted_app in Sb0. }
        exists s1, rs. split; [now right|]. split; [assumption|].
        split; [now apply (subk_sorted kB rs (firstn m b0))|].
        intros r Hr. destruct (subk_In kB rs _ r S Hr) as (u & Hu & Eu). right. exists u.
        split; auto. apply in_or_app. left. rewrite <- (firstn_skipn m b0). apply in_or_app; auto.
    - destruct (kd_c KD s x a y b Ha Hb) as (s1 & o & Q & X & Y & T & Ho).
      apply ksorted_cons in Sa as [Sa Hxa]. apply ksorted_cons in Sb as [Sb Hyb].
      assert (So : ksorted (cmp := kcmp) kR (o2l o)).
      { destruct o; simpl; [apply ksorted_cons; split; [apply ksorted_nil|intros ? []]|apply ksorted_nil]. }
      assert (Fo : forall r, In r (o2l o) -> kcmp (kR r) (kA x) = Eq).
      { intros r Hr. destruct o as [r0|]; simpl in Hr; [|destruct Hr]. destruct Hr as [<-|[]]; auto. }
      destruct Q as [Q|Q]; rewrite Q; cbn [obind].
      + destruct (IH Sa Sb s1 X Y) as (s2 & rs2 & R2 & T2 & S2 & F2).
        exists s2, (o2l o ++ rs2). split; [assumption|].
        split; [rewrite T2, T; now rewrite app_assoc|]. split.
        * apply ksorted_app. repeat split; auto. intros r r2 Hr Hr2.
          rewrite (cmp_eq_l L _ _ _ (Fo r Hr)).
          destruct (F2 r2 Hr2) as [(v & Hv & Ev)|(v & Hv & Ev)]; rewrite (cmp_eq_r L _ _ _ Ev); auto.
          rewrite (cmp_eq_l L _ _ _ E). auto.
        * intros r Hr. apply in_app_or in Hr as [Hr|Hr].
          -- left. exists x. simpl. auto.
          -- destruct (F2 r Hr) as [(v & Hv & Ev)|(v & Hv & Ev)]; [left|right]; exists v; simpl; auto.
      + exists s1, (o2l o). split; [now right|]. repeat split; auto.
        intros r Hr. left. exists x. simpl. auto.
  Qed.

  Theorem merge_keyed (KD : keyed) strat s :
    ksorted (cmp := kcmp) kA (mo_a O s) -> ksorted (cmp := kcmp) kB (mo_b O s) ->
    cmp_agrees (kcmp := kcmp) kA kB O (mo_a O s) (mo_b O s) ->
    exists s' rs, (merge O strat s = Cont s' \/ merge O strat s = Panic s') /\ tgt s' = tgt s ++ rs /\
      ksorted (cmp := kcmp) kR rs /\ forall r, In r rs -> from_keys (mo_a O s) (mo_b O s) r.
  Proof.
    intros Sa Sb HC.
    destruct (merge_sched L kA kB O (keyed_advancing KD) strat s Sa Sb HC) as (evs & Ok & E).
    rewrite E. now apply (run_keyed KD _ _ evs Ok).
  Qed.
End Keyed.

(** ** Join operations: one abstract description for all nine *)
Definition total_clos {E X Y} (f : clos E X Y) (upd : E -> X -> E) (g : X -> Y) : Prop :=
  forall e x, f e x = (upd e x, Ret (g x)).
Lemma pure_total {E X Y} (g : X -> Y) : total_clos (E := E) (pure_clos g) (fun e _ => e) g.
Proof. intros e x. reflexivity. Qed.
Lemma log_total {X Y} (g : X -> Y) : total_clos (log_clos g) (fun e x => e ++ [x]) g.
Proof. intros e x. reflexivity. Qed.

Section Act.
  Context {K : Type} {kcmp : K -> K -> comparison} (L : OrdLaws kcmp).
  Context {V W R E X : Type}.

  (** the result entry for key k *)
  Definition kv {R} (k : K) (o : option R) : option (K * R) := option_map (pair k) o.

  Section Body.
    Context {St : Type} {A B : Type}.
    Context (sx : St -> list (K * A)) (sy : St -> list (K * B)) (tgt : St -> list (K * R)) (env : St -> E).
    Context (f : clos E X (option R)).

    (** feeding the entries of [l] to the closure: emitted entries, environment, number of entries
        consumed, and whether it completed *)
    Fixpoint eat (arg : K -> A -> X) (l : list (K * A)) (e : E) : list (K * R) * E * nat * bool :=
      match l with
      | [] => ([], e, 0, true)
      | (k, v) :: l' =>
          let (e', r) := f e (arg k v) in
          match r with
          | Throw => ([], e', 1, false)
          | Ret o => let '(rs, e2, m, ok) := eat arg l' e' in (o2l (kv k o) ++ rs, e2, S m, ok)
          end
      end.
    Definition eat_opt (arg : option (K -> A -> X)) (l : list (K * A)) (e : E) :=
      match arg with Some g => eat g l e | None => ([], e, length l, true) end.

    Definition body_act (arg : K -> A -> X) (body : St -> out St) : Prop :=
      forall s k v l, sx s = (k, v) :: l ->
      let (e', r) := f (env s) (arg k v) in
      exists s', body s = match r with Ret _ => Cont s' | Throw => Panic s' end  /\
        sx s' = l /\ sy s' = sy s /\ env s' = e'  /\
        tgt s' = tgt s ++ match r with Ret o => o2l (kv k o) | Throw => [] end.

    Definition hand_act (arg : option (K -> A -> X)) (hand : St -> nat -> out St) : Prop :=
      forall s n, n <= length (sx s) ->
      let '(rs, e', m, ok) := eat_opt arg (firstn n (sx s)) (env s) in
      exists s', hand s n = (if ok then Cont s' else Panic s')  /\
        sx s' = skipn m (sx s) /\ sy s' = sy s /\ env s' = e' /\ tgt s' = tgt s ++ rs.

    Lemma for_n_act arg body : body_act arg body -> hand_act (Some arg) (fun s n => for_n n body s).
    Proof.
      intros H s n. revert s. induction n as [|n IH]; intros s Hn; cbn [for_n firstn eat_opt eat].
      - exists s. simpl. now rewrite app_nil_r.
      - destruct (sx s) as [|[k v] l] eqn:Ex; simpl in Hn; [lia|]. cbn [eat firstn].
        specialize (H s k v l Ex). destruct (f (env s) (arg k v)) as [e' r].
        destruct H as (s1 & E1 & X1 & Y1 & V1 & T1). destruct r as [o|]; rewrite E1; cbn [obind].
        + specialize (IH s1). rewrite X1 in IH. specialize (IH ltac:(lia)). cbn [eat_opt] in IH.
          rewrite V1 in IH. destruct (eat arg (firstn n l) e') as [[[rs e2] m] ok].
          destruct IH as (s2 & E2 & X2 & Y2 & V2 & T2). exists s2. cbn [skipn]. rewrite <- X2.
          repeat split; auto; [congruence|]. rewrite T2, T1. now rewrite app_assoc.
        + exists s1. cbn [skipn]. auto.
    Qed.

    Lemma eat_keys arg l : forall e rs e' m ok, eat arg l e = (rs, e', m, ok) ->
      m <= length l /\ (ok = true -> m = length l)  /\
      ((forall k, kcmp k k = Eq) -> subk kcmp fst fst rs (firstn m l)).
    Proof.
      induction l as [|[k v] l IH]; intros e rs e' m ok; cbn [eat].
      - intros [= <- <- <- <-]. repeat split; auto. constructor.
      - destruct (f e (arg k v)) as [e1 [o|]].
        + destruct (eat arg l e1) as [[[rs1 e2] m1] ok1] eqn:Q. intros [= <- <- <- <-].
          destruct (IH _ _ _ _ _ Q) as (H1 & H2 & H3). cbn [length firstn].
          repeat split; [lia|intros Hk; rewrite H2; auto|].
          intros Hr. destruct o as [r|]; simpl; [apply subk_take; cbn; auto|apply subk_skip; auto].
        + intros [= <- <- <- <-]. cbn [length firstn]. repeat split; [lia|discriminate|].
          intros _. apply subk_none.
    Qed.
    Lemma eat_opt_keys arg l e rs e' m ok : eat_opt arg l e = (rs, e', m, ok) ->
      m <= length l /\ (ok = true -> m = length l)  /\
      ((forall k, kcmp k k = Eq) -> subk kcmp fst fst rs (firstn m l)).
    Proof.
      destruct arg as [arg|]; [apply eat_keys|]. cbn. intros [= <- <- <- <-].
      repeat split; auto. intros _. apply subk_none.
    Qed.

    Context (upd : E -> X -> E) (g : X -> option R) (TC : total_clos f upd g).
    Definition h_of (arg : option (K -> A -> X)) (p : K * A) : option (K * R) :=
      match arg with Some ar => kv (fst p) (g (ar (fst p) (snd p))) | None => None end.
    Definition l_of (arg : option (K -> A -> X)) (p : K * A) : option X :=
      match arg with Some ar => Some (ar (fst p) (snd p)) | None => None end.
    Lemma eat_total arg l : forall e,
      eat_opt arg l e = (omap (h_of arg) l, fold_left upd (omap (l_of arg) l) e, length l, true).
    Proof.
      destruct arg as [arg|]; cbn [eat_opt].
      - induction l as [|[k v] l IH]; intros e; cbn [eat]; [reflexivity|].
        rewrite TC, IH. reflexivity.
      - intros e.
        assert (Q : forall Y, omap (fun _ : K * A => @None Y) l = []).
        { intros Y. clear. induction l; auto. }
        unfold h_of, l_of. now rewrite !Q.
    Qed.
  End Body.

  Section Op.
    Context {St : Type} (O : mop St (K * V) (K * W)) (tgt : St -> list (K * R)) (env : St -> E).
    Context (f : clos E X (option R)).
    Context (argA : option (K -> V -> X)) (argB : option (K -> W -> X)) (argC : K -> V -> W -> X).

    Record jact : Prop := {
      ja_a : hand_act (mo_a O) (mo_b O) tgt env f argA (mo_from_a O);
      ja_b : hand_act (mo_b O) (mo_a O) tgt env f argB (mo_from_b O);
      ja_c : forall s k v a k' w b, mo_a O s = (k, v) :: a -> mo_b O s = (k', w) :: b ->
        let (e', r) := f (env s) (argC k v w) in
        exists s', mo_coll O s = match r with Ret _ => Cont s' | Throw => Panic s' end  /\
          mo_a O s' = a /\ mo_b O s' = b /\ env s' = e'  /\
          tgt s' = tgt s ++ match r with Ret o => o2l (kv k o) | Throw => [] end;
      ja_cmp : mo_cmp O = kvcmp kcmp
    }.
    Context (J : jact).

    Lemma jact_keyed : keyed (kcmp := kcmp) fst fst fst O tgt.
    Proof.
      constructor.
      - intros s n Hn. pose proof (ja_a J s n Hn) as H.
        destruct (eat_opt f argA (firstn n (mo_a O s)) (env s)) as [[[rs e'] m] ok] eqn:Q.
        destruct H as (s' & E1 & X1 & Y1 & _ & T1).
        destruct (eat_opt_keys f argA _ _ _ _ _ _ Q) as (H1 & H2 & H3).
        rewrite firstn_length, Nat.min_l in H1, H2 by assumption.
        exists s', m, rs. repeat split; auto.
        + destruct ok; auto.
        + specialize (H3 (cmp_refl L)). rewrite firstn_firstn, Nat.min_l in H3 by lia. exact H3.
      - intros s n Hn. pose proof (ja_b J s n Hn) as H.
        destruct (eat_opt f argB (firstn n (mo_b O s)) (env s)) as [[[rs e'] m] ok] eqn:Q.
        destruct H as (s' & E1 & X1 & Y1 & _ & T1).
        destruct (eat_opt_keys f argB _ _ _ _ _ _ Q) as (H1 & H2 & H3).
        rewrite firstn_length, Nat.min_l in H1, H2 by assumption.
        exists s', m, rs. repeat split; auto.
        + destruct ok; auto.
        + specialize (H3 (cmp_refl L)). rewrite firstn_firstn, Nat.min_l in H3 by lia. exact H3.
      - intros s [k v] a [k' w] b Ha Hb. pose proof (ja_c J s k v a k' w b Ha Hb) as H.
        destruct (f (env s) (argC k v w)) as [e' r]. destruct H as (s' & E1 & X1 & Y1 & _ & T1).
        destruct r as [o|].
        + exists s', (kv k o). repeat split; auto. intros r. destruct o; [|discriminate].
          intros [= <-]. apply (cmp_refl L).
        + exists s', None. repeat split; auto. intros r [=].
    Qed.

    Lemma jact_agrees a b : cmp_agrees (kcmp := kcmp) fst fst O a b.
    Proof. intros x y _ _. now rewrite (ja_cmp J). Qed.

    Theorem jact_valid strat s : keys_sorted kcmp (mo_a O s) -> keys_sorted kcmp (mo_b O s) ->
      exists s' rs, (merge O strat s = Cont s' \/ merge O strat s = Panic s') /\ tgt s' = tgt s ++ rs  /\
        keys_sorted kcmp rs  /\
        forall p, In p rs -> mem kcmp (fst p) (map fst (mo_a O s)) \/ mem kcmp (fst p) (map fst (mo_b O s)).
    Proof.
      intros Sa Sb.
      destruct (merge_keyed L fst fst fst O tgt jact_keyed strat s Sa Sb (jact_agrees _ _))
        as (s' & rs & Q & T & S & F).
      exists s', rs. repeat split; auto. intros p Hp.
      destruct (F p Hp) as [(x & Hx & Ex)|(y & Hy & Ey)]; [left|right]; eexists; split;
        [apply in_map; eassumption|assumption|apply in_map; eassumption|assumption].
    Qed.

    Context (upd : E -> X -> E) (g : X -> option R) (TC : total_clos f upd g).
    Definition hC (p : K * V) (q : K * W) : option (K * R) := kv (fst p) (g (argC (fst p) (snd p) (snd q))).
    Definition lC (p : K * V) (q : K * W) : option X := Some (argC (fst p) (snd p) (snd q)).
    Definition jref : list (K * V) -> list (K * W) -> list (K * R) :=
      tape_ref (kcmp := kcmp) fst fst (h_of g argA) (h_of g argB) hC.
    Definition jlog : list (K * V) -> list (K * W) -> list X :=
      tape_ref (kcmp := kcmp) fst fst (l_of argA) (l_of argB) lC.

    (** the whole run with a closure that always returns *)
    Lemma run_total a b evs :
      ok_sched (kcmp := kcmp) fst fst a b evs ->
      forall s, mo_a O s = a -> mo_b O s = b ->
      exists s', run O evs s = Cont s' /\ tgt s' = tgt s ++ jref a b /\
        env s' = fold_left upd (jlog a b) (env s).
    Proof.
      induction 1 as [|a0 a1 b evs Hne Hlt H IH|a b0 b1 evs Hne Hgt H IH|x a y b evs Exy H IH];
        intros s Ha Hb; cbn [run step].
      - exists s. cbn. rewrite app_nil_r. auto.
      - assert (Hn : length a0 <= length (mo_a O s)) by (rewrite Ha, app_length; lia).
        pose proof (ja_a J s (length a0) Hn) as Q.
        rewrite (eat_total f upd g TC), Ha, firstn_app_exact, skipn_app_exact in Q.
        destruct Q as (s1 & E1 & X1 & Y1 & V1 & T1). rewrite E1. cbn [obind].
        destruct (IH s1 X1) as (s2 & E2 & T2 & V2); [congruence|].
        exists s2. split; [assumption|]. unfold jref, jlog in *.
        rewrite !tape_ref_app_a by assumption. rewrite T2, T1, V2, V1, fold_left_app.
        split; [now rewrite app_assoc|reflexivity].
      - assert (Hn : length b0 <= length (mo_b O s)) by (rewrite Hb, app_length; lia).
        pose proof (ja_b J s (length b0) Hn) as Q.
        rewrite (eat_total f upd g TC), Hb, firstn_app_exact, skipn_app_exact in Q.
        destruct Q as (s1 & E1 & X1 & Y1 & V1 & T1). rewrite E1. cbn [obind].
        destruct (IH s1) as (s2 & E2 & T2 & V2); [congruence|congruence|].
        exists s2. split; [assumption|]. unfold jref, jlog in *.
        rewrite !tape_ref_app_b by assumption. rewrite T2, T1, V2, V1, fold_left_app.
        split; [now rewrite app_assoc|reflexivity].
      - destruct x as [k v], y as [k' w]. pose proof (ja_c J s k v a k' w b Ha Hb) as Q.
        rewrite TC in Q. destruct Q as (s1 & E1 & X1 & Y1 & V1 & T1). rewrite E1. cbn [obind].
        destruct (IH s1 X1 Y1) as (s2 & E2 & T2 & V2).
        exists s2. split; [assumption|]. unfold jref, jlog in *.
        rewrite !tape_ref_cons, Exy, T2, T1, V2, V1, fold_left_app.
        split; [now rewrite app_assoc|reflexivity].
    Qed.

    Theorem jact_total strat s : keys_sorted kcmp (mo_a O s) -> keys_sorted kcmp (mo_b O s) ->
      exists s', merge O strat s = Cont s' /\ tgt s' = tgt s ++ jref (mo_a O s) (mo_b O s) /\
        env s' = fold_left upd (jlog (mo_a O s) (mo_b O s)) (env s).
    Proof.
      intros Sa Sb.
      destruct (merge_sched L fst fst O (keyed_advancing _ _ _ _ _ jact_keyed) strat s Sa Sb
        (jact_agrees _ _)) as (evs & Ok & Q).
      rewrite Q. now apply (run_total _ _ evs Ok).
    Qed.
  End Op.
End Act.

Lemma fold_log {X} (l e : list X) : fold_left (fun e x => e ++ [x]) l e = e ++ l.
Proof.
  revert e. induction l as [|x l IH]; intros e; simpl; [now rewrite app_nil_r|].
  rewrite IH, <- app_assoc. reflexivity.
Qed.
Lemma fold_const {X E} (l : list X) (e : E) : fold_left (fun e _ => e) l e = e.
Proof. induction l; auto. Qed.

(** ** The nine operations *)
Section Instances.
  Context {K : Type} {kcmp : K -> K -> comparison}.

  Ltac unf := cbn [vs_a vs_b vs_r ipr_a ipr_b ip_a ip_b ip_drop_b bd_src bd_tgt bd_drop fst snd mo_a mo_b
                   OuterJoinOp_v LeftJoinOp_v RightJoinOp_v InnerJoinOp_v
                   OuterJoinOp_i LeftJoinOp_i RightJoinOp_i InnerJoinOp_i OuterJoinOp_p] in *.
  Ltac bd_act f :=
    intros s k v l H; destruct s as [m e];
    first [destruct m as [[? ? ?] ? ?] | destruct m as [[? ? ?] ?] | destruct m as [? ? ?]];
    unf; subst; cbn; unfold call;
    destruct (f e _) as [e' [[r|]|]]; cbn; eexists; (split; [reflexivity|]); cbn;
    rewrite ?app_nil_r; repeat split; reflexivity.
  Ltac coll_act f :=
    intros s k v a k' w b Ha Hb; destruct s as [m e];
    first [destruct m as [[? ? ?] ? ?] | destruct m as [[? ? ?] ?] | destruct m as [? ? ?]];
    unf; subst; cbn; unfold call;
    destruct (f e _) as [e' [[r|]|]]; cbn; eexists; (split; [reflexivity|]); cbn;
    rewrite ?app_nil_r; repeat split; reflexivity.
  Ltac drop_act :=
    intros s n Hn; destruct s as [m e];
    first [destruct m as [[? ? ?] ?] | destruct m as [? ? ?]];
    unf; cbn [eat_opt];
    rewrite ?(firstn_length), ?Nat.min_l by assumption;
    cbn [mo_from_a mo_from_b OuterJoinOp_v LeftJoinOp_v RightJoinOp_v InnerJoinOp_v
         OuterJoinOp_i LeftJoinOp_i RightJoinOp_i InnerJoinOp_i];
    unfold jv_drop_a, jv_drop_b, ji_drop_a, ji_drop_b, si_drop_front, bd_consume; unf;
    rewrite ?(proj2 (Nat.leb_le _ _) Hn); eexists; (split; [reflexivity|]); cbn;
    rewrite ?app_nil_r; repeat split; reflexivity.

  Section V.
    Context {V W R E : Type}.
    Local Notation tr := (fun s : vstate (K * V) (K * W) (K * R) * E => vs_r (fst s)).
    Lemma OuterJoinOp_v_act f : jact (kcmp := kcmp) (OuterJoinOp_v kcmp f) tr snd f
      (Some OJLeft) (Some OJRight) OJBoth.
    Proof.
      constructor; [apply for_n_act; bd_act f|apply for_n_act; bd_act f|coll_act f|reflexivity].
    Qed.
    Lemma LeftJoinOp_v_act f : jact (kcmp := kcmp) (LeftJoinOp_v kcmp f) tr snd f
      (Some (fun k v => (k, v, None))) None (fun k v w => (k, v, Some w)).
    Proof. constructor; [apply for_n_act; bd_act f|drop_act|coll_act f|reflexivity]. Qed.
    Lemma RightJoinOp_v_act f : jact (kcmp := kcmp) (RightJoinOp_v kcmp f) tr snd f
      None (Some (fun k w => (k, None, w))) (fun k v w => (k, Some v, w)).
    Proof. constructor; [drop_act|apply for_n_act; bd_act f|coll_act f|reflexivity]. Qed.
    Lemma InnerJoinOp_v_act f : jact (kcmp := kcmp) (InnerJoinOp_v kcmp f) tr snd f
      None None (fun k v w => (k, v, w)).
    Proof. constructor; [drop_act|drop_act|coll_act f|reflexivity]. Qed.
  End V.
  Section I.
    Context {V W E : Type}.
    Local Notation tr := (fun s : iprstate (K * V) (K * W) * E => bd_tgt (ipr_a (fst s))).
    Lemma OuterJoinOp_i_act f : jact (kcmp := kcmp) (OuterJoinOp_i kcmp f) tr snd f
      (Some OJLeft) (Some OJRight) OJBoth.
    Proof. constructor; [apply for_n_act; bd_act f|apply for_n_act; bd_act f|coll_act f|reflexivity]. Qed.
    Lemma LeftJoinOp_i_act f : jact (kcmp := kcmp) (LeftJoinOp_i kcmp f) tr snd f
      (Some (fun k v => (k, v, None))) None (fun k v w => (k, v, Some w)).
    Proof. constructor; [apply for_n_act; bd_act f|drop_act|coll_act f|reflexivity]. Qed.
    Lemma RightJoinOp_i_act f : jact (kcmp := kcmp) (RightJoinOp_i kcmp f) tr snd f
      None (Some (fun k w => (k, None, w))) (fun k v w => (k, Some v, w)).
    Proof. constructor; [drop_act|apply for_n_act; bd_act f|coll_act f|reflexivity]. Qed.
    Lemma InnerJoinOp_i_act f : jact (kcmp := kcmp) (InnerJoinOp_i kcmp f) tr snd f
      None None (fun k v w => (k, v, w)).
    Proof. constructor; [drop_act|drop_act|coll_act f|reflexivity]. Qed.
    Lemma OuterJoinOp_p_act f : jact (kcmp := kcmp) (OuterJoinOp_p kcmp f)
      (fun s : ipstate (K * V) (K * W) * E => bd_tgt (ip_a (fst s))) snd f
      (Some OJLeft) (Some OJRight) OJBoth.
    Proof. constructor; [apply for_n_act; bd_act f|apply for_n_act; bd_act f|coll_act f|reflexivity]. Qed.
  End I.
End Instances.
