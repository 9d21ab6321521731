(** Invariants of the Lazy machine. *)
From Verif Require Export LazySpec.

Section Facts.
  Context {A B : Type} (F : A -> B -> Prop).
  Notation either := (A + B)%type.
  Notation st := (st A B).
  Notation cell := (cell A B).
  Notation pc := (pc A B).
  Notation event := (event A B).
  Implicit Types (s : st) (tr : list event) (p : pc).

  Lemma nth_upd_eq {X} (l : list X) i x y : nth_error l i = Some y -> nth_error (upd i x l) i = Some x.
  Proof.
    intros H. unfold upd. assert (i < length l) by (apply nth_error_Some; congruence).
    rewrite nth_error_app2; rewrite firstn_length, Nat.min_l by lia; [|lia]. now rewrite Nat.sub_diag.
  Qed.
  Lemma nth_upd_ne {X} (l : list X) i j x : i < length l -> j <> i -> nth_error (upd i x l) j = nth_error l j.
  Proof.
    revert i j. induction l as [|z l IH]; intros i j Hi N; simpl in Hi; [lia|].
    destruct i as [|i], j as [|j]; cbn; auto; try congruence. apply (IH i j); lia.
  Qed.
  Lemma upd_len {X} (l : list X) i x : i < length l -> length (upd i x l) = length l.
  Proof. intros H. unfold upd. rewrite app_length, firstn_length. cbn [length]. rewrite skipn_length. lia. Qed.

  Definition dat s c : option either := match nth_error (cells s) c with Some x => Some (c_data x) | None => None end.
  Definition lck s c : option nat := match nth_error (cells s) c with Some x => c_lock x | None => None end.
  Lemma nth_lt s c x : nth_error (cells s) c = Some x -> c < length (cells s).
  Proof. intros H. apply nth_error_Some. congruence. Qed.
  Lemma dat_set s c x y c' : nth_error (cells s) c = Some x -> dat (set_cell s c y) c' = if c' =? c then Some (c_data y) else dat s c'.
  Proof.
    intros H. unfold dat, set_cell. cbn [cells]. destruct (Nat.eqb_spec c' c) as [->|N]; [now rewrite (nth_upd_eq _ _ _ _ H)|].
    rewrite nth_upd_ne; auto. now apply nth_lt in H.
  Qed.
  Lemma lck_set s c x y c' : nth_error (cells s) c = Some x -> lck (set_cell s c y) c' = if c' =? c then c_lock y else lck s c'.
  Proof.
    intros H. unfold lck, set_cell. cbn [cells]. destruct (Nat.eqb_spec c' c) as [->|N]; [now rewrite (nth_upd_eq _ _ _ _ H)|].
    rewrite nth_upd_ne; auto. now apply nth_lt in H.
  Qed.

  (** pcs inside the critical section *)
  Definition crit p : option nat :=
    match p with Crit c _ | Run c _ | Wr c _ | Unwind c | RelCreate c | RelGet c _ | RelClone c _ => Some c | _ => None end.
  Definition at_cell p : option nat :=
    match p with Idle => None | Want c _ | Rd c => Some c | _ => crit p end.
  Definition pcok (a0 : A) s p : Prop :=
    match p with
    | Idle => True
    | Want c _ | Unwind c | Crit c _ => dat s c <> None
    | Run c a => dat s c = Some (inl a)
    | Wr c b => exists a, dat s c = Some (inl a) /\ F a b
    | RelCreate c | Rd c => exists b, dat s c = Some (inr b)
    | RelGet c o => dat s c <> None /\ forall b, o = Some b -> dat s c = Some (inr b)
    | RelClone c d => dat s c <> None /\ stands F a0 d
    end.
  Lemma thr_set s i p j : thr (set_pc s i p) j = if j =? i then p else thr s j.
  Proof. reflexivity. Qed.
  Record Inv (a0 : A) s : Prop := {
    i_own : forall i c, crit (thr s i) = Some c -> lck s c = Some i;
    i_held : forall i c, lck s c = Some i -> crit (thr s i) = Some c;
    i_pc : forall i, pcok a0 s (thr s i);
    i_den : forall c d, dat s c = Some d -> stands F a0 d }.

  Definition add_cell s (d : either) : st := MkS (cells s ++ [MkC None d]) (thr s).
  Lemma dat_add s d c : dat (add_cell s d) c = if c =? length (cells s) then Some d else dat s c.
  Proof.
    unfold dat, add_cell. cbn [cells]. destruct (Nat.eqb_spec c (length (cells s))) as [->|N].
    - rewrite nth_error_app2, Nat.sub_diag by lia. reflexivity.
    - destruct (Nat.lt_ge_cases c (length (cells s))); [now rewrite nth_error_app1|].
      rewrite nth_error_app2 by lia. destruct (c - length (cells s)) as [|m] eqn:Q; [lia|]. simpl.
      rewrite (proj2 (nth_error_None (cells s) c)) by lia. now destruct m.
  Qed.
  Lemma lck_add s d c : lck (add_cell s d) c = lck s c.
  Proof.
    unfold lck, add_cell. cbn [cells]. destruct (Nat.lt_ge_cases c (length (cells s))); [now rewrite nth_error_app1|].
    rewrite nth_error_app2 by lia. rewrite (proj2 (nth_error_None (cells s) c)) by lia. now destruct (c - length (cells s)) as [|[|m]].
  Qed.
  Lemma dat_out s c : length (cells s) <= c -> dat s c = None.
  Proof. intros H. unfold dat. now rewrite (proj2 (nth_error_None (cells s) c)). Qed.
  Lemma lck_out s c : length (cells s) <= c -> lck s c = None.
  Proof. intros H. unfold lck. now rewrite (proj2 (nth_error_None (cells s) c)). Qed.
  Lemma dat_nth s c l d : nth_error (cells s) c = Some (MkC l d) -> dat s c = Some d /\ lck s c = l.
  Proof. unfold dat, lck. now intros ->. Qed.

  (** a step seen as a change of the thread, the lock and the data *)
  Record change s i p s' (fd : nat -> option either) (fl : nat -> option nat) : Prop := {
    ch_thr : forall j, thr s' j = if j =? i then p else thr s j;
    ch_dat : forall c, dat s' c = fd c;
    ch_lck : forall c, lck s' c = fl c }.
  Lemma ch_pc s i p : change s i p (set_pc s i p) (dat s) (lck s).
  Proof. split; auto. Qed.
  Lemma ch_cell s i p c x y : nth_error (cells s) c = Some x ->
    change s i p (set_pc (set_cell s c y) i p) (fun c' => if c' =? c then Some (c_data y) else dat s c') (fun c' => if c' =? c then c_lock y else lck s c').
  Proof.
    intros H. split; auto; intros c'; [apply (dat_set s c x y c' H)|apply (lck_set s c x y c' H)].
  Qed.
  Lemma ch_clone s i p c x y d : nth_error (cells s) c = Some x -> c_data y = c_data x ->
    change s i p (set_pc (MkS (upd c y (cells s) ++ [MkC None d]) (thr s)) i p)
      (fun c' => if c' =? length (cells s) then Some d else dat s c') (fun c' => if c' =? c then c_lock y else lck s c').
  Proof.
    intros H E. pose proof (nth_lt _ _ _ H) as L. split; auto; intros c'.
    - change (dat (add_cell (set_cell s c y) d) c' = if c' =? length (cells s) then Some d else dat s c').
      rewrite dat_add. cbn [set_cell cells]. rewrite upd_len by auto. destruct (Nat.eqb_spec c' (length (cells s))); auto.
      rewrite (dat_set s c x y c' H), E. destruct (Nat.eqb_spec c' c) as [->|]; auto. unfold dat. now rewrite H.
    - change (lck (add_cell (set_cell s c y) d) c' = if c' =? c then c_lock y else lck s c').
      rewrite lck_add. apply (lck_set s c x y c' H).
  Qed.

  Ltac eqb := repeat match goal with
    | |- context [?x =? ?y] => destruct (Nat.eqb_spec x y); subst
    | H : context [?x =? ?y] |- _ => destruct (Nat.eqb_spec x y); subst
    end.

  (** *** preservation, by the shape of the change *)
  (** data untouched *)
  Lemma pcok_dat a0 s s' p : (forall c, dat s c <> None -> dat s' c = dat s c) -> pcok a0 s p -> pcok a0 s' p.
  Proof.
    intros E H. destruct p; simpl in *; auto; try (rewrite E; auto; congruence).
    - destruct H as (a & H & Hf). exists a. rewrite E; [auto|congruence].
    - destruct H as (b & H). exists b. rewrite E; [auto|congruence].
    - destruct H as (b & H). exists b. rewrite E; [auto|congruence].
    - destruct H as (H & Hb). rewrite E; auto.
    - destruct H as (H & Hb). rewrite E; auto.
  Qed.

  Lemma step_inv a0 s e s' : Inv a0 s -> step F s e s' -> Inv a0 s'.
  Proof.
    intros [Io Ih Ip Id] S.
    assert (KEEP : forall i p s' fl, change s i p s' (dat s) fl -> pcok a0 s p ->
       (forall j c, (if j =? i then crit p else crit (thr s j)) = Some c <-> fl c = Some j) -> Inv a0 s').
    { intros i p s1 fl [Ct Cd Cl] Hp Hc. split.
      - intros j c. rewrite Ct, Cl, <- Hc. eqb; auto.
      - intros j c. rewrite Ct, Cl, <- Hc. eqb; auto.
      - intros j. rewrite Ct. apply (pcok_dat a0 s); [intros; apply Cd|]. eqb; auto.
      - intros c d. rewrite Cd. apply Id. }
    assert (SAME : forall i p, crit p = crit (thr s i) -> pcok a0 s p -> Inv a0 (set_pc s i p)).
    { intros i p Hc Hp. apply (KEEP i p _ _ (ch_pc s i p) Hp). intros j c. split; [|intros H; eqb; [rewrite Hc|]; now apply Ih].
      intros H. apply Io. eqb; congruence. }
    assert (UNLOCK : forall i p c l d, crit p = None -> crit (thr s i) = Some c -> nth_error (cells s) c = Some (MkC l d) -> pcok a0 s p ->
       Inv a0 (set_pc (set_cell s c (MkC None d)) i p)).
    { intros i p c l d Hc Hi Hn Hp. destruct (dat_nth _ _ _ _ Hn) as [Hd Hl].
      eapply (KEEP i p _ (fun c' => if c' =? c then None else lck s c')); auto.
      - destruct (ch_cell s i p c _ (MkC None d) Hn) as [X Y Z]. split; auto. intros c'. rewrite Y. cbn [c_data]. eqb; auto.
      - intros j c'. pose proof (Io _ _ Hi) as Li. split.
        + intros H. eqb; try congruence; try now apply Io. apply Io in H. congruence.
        + intros H. eqb; try congruence; try now apply Ih. apply Ih in H. congruence. }
    destruct S as [s i c k Hi Hc|s i c k d Hi Hn|s i c l a Hi Hn|s i c l b Hi Hn|s i c a b Hi Hf|s i c a Hi|s i c b l d Hi Hn|s i c l d Hi Hn
                  |s i c l d Hi Hn|s i c l d Hi Hn|s i c l d Hi Hn|s i c l d o Hi Hn|s i c l d Hi Hn|s i c l d d' Hi Hn];
      try (destruct (dat_nth _ _ _ _ Hn) as [Hd Hl]); pose proof (Ip i) as Pi; rewrite Hi in Pi; cbn [pcok] in Pi;
      pose proof (Io i) as Oi; rewrite Hi in Oi; cbn [crit] in Oi.
    - (* call *) apply SAME; [rewrite Hi; reflexivity|]. cbn. unfold dat. destruct (nth_error (cells s) c) eqn:Q; [easy|]. apply nth_error_None in Q. lia.
    - (* lock *) eapply (KEEP i (Crit c k) _ (fun c' => if c' =? c then Some i else lck s c')); [|cbn; congruence|].
      + destruct (ch_cell s i (Crit c k) c _ (MkC (Some i) d) Hn) as [X Y Z]. split; auto. intros c'. rewrite Y. cbn [c_data]. eqb; auto.
      + intros j c'. cbn [crit]. split.
        * intros H. eqb; try congruence; try now apply Io. apply Io in H. congruence.
        * intros H. eqb; try congruence; try now apply Ih. apply Ih in H. rewrite Hi in H. discriminate.
    - (* start *) apply SAME; [now rewrite Hi|]. exact Hd.
    - (* done *) apply SAME; [now rewrite Hi|]. cbn. eauto.
    - (* run *) apply SAME; [now rewrite Hi|]. cbn. eauto.
    - (* panic *) apply SAME; [now rewrite Hi|]. cbn. congruence.
    - (* write *) specialize (Oi _ eq_refl). destruct Pi as (a & Pd & Pf).
      destruct (ch_cell s i (RelCreate c) c _ (MkC l (inr b)) Hn) as [X Y Z]. cbn [c_data c_lock] in *.
      assert (L : forall c', lck (set_pc (set_cell s c (MkC l (inr b))) i (RelCreate c)) c' = lck s c') by (intros c'; rewrite Z; eqb; auto).
      split.
      + intros j c'. rewrite X, L. eqb; [cbn; congruence|apply Io].
      + intros j c'. rewrite X, L. intros H. apply Ih in H. eqb; auto. rewrite Hi in H. exact H.
      + intros j. rewrite X. eqb; [cbn; exists b; rewrite Y; now rewrite Nat.eqb_refl|].
        pose proof (Ip j) as Pj. assert (Nc : forall c', crit (thr s j) = Some c' -> c' <> c) by (intros c' H ->; apply Io in H; congruence).
        destruct (thr s j); cbn [pcok crit] in *; auto; rewrite ?Y.
        * eqb; auto. congruence.
        * eqb; auto. congruence.
        * specialize (Nc _ eq_refl). eqb; [easy|auto].
        * specialize (Nc _ eq_refl). eqb; [easy|auto].
        * eqb; auto. congruence.
        * specialize (Nc _ eq_refl). eqb; [easy|auto].
        * destruct Pj as (b' & Pj). eqb; [eauto|eauto].
        * specialize (Nc _ eq_refl). eqb; [easy|auto].
        * specialize (Nc _ eq_refl). eqb; [easy|auto].
      + intros c' d'. rewrite Y. eqb; [|apply Id]. intros [= <-]. pose proof (Id _ _ Pd) as E. cbn in E. subst. exact Pf.
    - (* unwind *) eapply UNLOCK; eauto; now rewrite ?Hi.
    - (* rel *) eapply UNLOCK; eauto; now rewrite ?Hi.
    - (* read *) apply SAME; [now rewrite Hi|exact Logic.I].
    - (* get *) apply SAME; [now rewrite Hi|]. cbn. split; [congruence|]. destruct d; intros b' Hb; [discriminate|]. injection Hb as <-. exact Hd.
    - (* get rel *) eapply UNLOCK; eauto; now rewrite ?Hi.
    - (* clone *) apply SAME; [now rewrite Hi|]. cbn. split; [congruence|]. eapply Id; eauto.
    - (* clone rel *) specialize (Oi _ eq_refl). destruct Pi as (Pc & Pst).
      destruct (ch_clone s i Idle c _ (MkC None d) d' Hn eq_refl) as [X Y Z]. cbn [c_lock] in Z.
      split.
      + intros j c'. rewrite X, Z. intros H. eqb; try discriminate; [|now apply Io]. apply Io in H. congruence.
      + intros j c'. rewrite X, Z. intros H. eqb; try discriminate; try now apply Ih. apply Ih in H. rewrite Hi in H. injection H as ->. congruence.
      + intros j. rewrite X. eqb; [exact Logic.I|]. apply (pcok_dat a0 s); [|apply Ip]. intros c' Hc'. rewrite Y. eqb; auto.
        exfalso. apply Hc'. apply dat_out. lia.
      + intros c' d1. rewrite Y. eqb; [|apply Id]. now intros [= <-].
  Qed.

  (** initialised data stays *)
  Lemma step_mono a0 s e s' c b : Inv a0 s -> step F s e s' -> dat s c = Some (inr b) -> dat s' c = Some (inr b).
  Proof.
    intros [Io Ih Ip Id] S H.
    assert (SET : forall c0 l0 d0 y i p, nth_error (cells s) c0 = Some (MkC l0 d0) -> (c0 = c -> c_data y = d0) ->
              dat (set_pc (set_cell s c0 y) i p) c = Some (inr b)).
    { intros c0 l0 d0 y i p Hn E. change (dat (set_cell s c0 y) c = Some (inr b)). rewrite (dat_set s c0 _ y c Hn).
      destruct (dat_nth _ _ _ _ Hn) as [Hd _]. eqb; auto. rewrite E; congruence. }
    destruct S as [s i c0 k Hi Hc|s i c0 k d Hi Hn|s i c0 l a Hi Hn|s i c0 l b0 Hi Hn|s i c0 a b0 Hi Hf|s i c0 a Hi|s i c0 b0 l d Hi Hn|s i c0 l d Hi Hn
                  |s i c0 l d Hi Hn|s i c0 l d Hi Hn|s i c0 l d Hi Hn|s i c0 l d o Hi Hn|s i c0 l d Hi Hn|s i c0 l d d' Hi Hn];
      try exact H; try (eapply SET; eauto; fail).
    - eapply SET; eauto. intros ->. pose proof (Ip i) as Pi. rewrite Hi in Pi. destruct Pi as (a & Pi & _). congruence.
    - destruct (ch_clone s i Idle c0 _ (MkC None d) d' Hn eq_refl) as [_ Y _]. rewrite Y. eqb; auto.
      rewrite dat_out in H by lia. discriminate.
  Qed.

  (** *** what an execution shows *)
  Lemma effs_app c tr tr' : effs c (tr ++ tr') = effs c tr ++ effs c tr'.
  Proof. apply flat_map_app. Qed.
  Lemma funs_app c tr tr' : funs c (tr ++ tr') = funs c tr ++ funs c tr'.
  Proof. apply flat_map_app. Qed.
  Lemma by_thread_app i tr tr' : by_thread i (tr ++ tr') = by_thread i tr ++ by_thread i tr'.
  Proof. apply filter_app. Qed.

  Definition pend i s p (l : list event) : Prop :=
    match p with
    | Idle => l = []
    | Want c k | Crit c k => l = [Call i c k]
    | Run c _ | Wr c _ => l = [Call i c KCreate]
    | Unwind c => l = [Call i c KCreate; Eff i c KCreate RPanicF]
    | RelCreate c | Rd c => exists b, dat s c = Some (inr b) /\ l = [Call i c KCreate; Eff i c KCreate (RRef b)]
    | RelGet c o => l = [Call i c KGet; Eff i c KGet (RGet o)]
    | RelClone c d => l = [Call i c KClone; Eff i c KClone (RClone d)]
    end.
  Record TInv (d0 : either) tr s : Prop := {
    t_eff : forall c d, dat s c = Some d -> exists d1, (c = 0 /\ d1 = d0 \/ In (New c d1) tr) /\ calls F d1 (effs c tr) d;
    t_out : forall c, dat s c = None -> effs c tr = [] /\ funs c tr = [];
    t_thr : forall i, exists bs l, Forall (block i) bs /\ pend i s (thr s i) l /\ by_thread i tr = concat bs ++ l;
    t_fun : forall c, match dat s c with
                      | Some (inl _) => funs c tr = [] \/ exists i b, thr s i = Wr c b /\ funs c tr = [b]
                      | Some (inr b) => funs c tr = [] \/ funs c tr = [b]
                      | None => True
                      end }.

  Lemma step_thr a0 d0 tr s e s' : Inv a0 s -> TInv d0 tr s -> step F s e s' ->
    forall i, exists bs l, Forall (block i) bs /\ pend i s' (thr s' i) l /\ by_thread i (tr ++ e) = concat bs ++ l.
  Proof.
    intros I T S. pose proof (fun c b => step_mono a0 s e s' c b I S) as MONO.
    destruct I as [Io Ih Ip Id]. destruct T as [_ _ Tt _].
    assert (OTHER : forall i, (forall j, j <> i -> by_thread j e = []) -> (forall j, j <> i -> thr s' j = thr s j) ->
              (exists bs l, Forall (block i) bs /\ pend i s' (thr s' i) l /\ by_thread i (tr ++ e) = concat bs ++ l) ->
              forall j, exists bs l, Forall (block j) bs /\ pend j s' (thr s' j) l /\ by_thread j (tr ++ e) = concat bs ++ l).
    { intros i He Ht Hi j. destruct (Nat.eq_dec j i) as [->|N]; auto. destruct (Tt j) as (bs & l & Hb & Hp & Hl).
      exists bs, l. split; auto. split; [|rewrite by_thread_app, He, app_nil_r; auto]. rewrite Ht by auto.
      destruct (thr s j); cbn [pend] in *; auto; destruct Hp as (b & Hd & Hp); eauto. }
    assert (GROW : forall i x, by_thread i e = x -> (forall l, pend i s (thr s i) l -> pend i s' (thr s' i) (l ++ x)) ->
              exists bs l, Forall (block i) bs /\ pend i s' (thr s' i) l /\ by_thread i (tr ++ e) = concat bs ++ l).
    { intros i x He Hp. destruct (Tt i) as (bs & l & Hb & Hl & Q). exists bs, (l ++ x). split; auto. split; auto.
      rewrite by_thread_app, He, Q. now rewrite app_assoc. }
    assert (DONE : forall i r, by_thread i e = [r] -> thr s' i = Idle -> (forall l, pend i s (thr s i) l -> block i (l ++ [r])) ->
              exists bs l, Forall (block i) bs /\ pend i s' (thr s' i) l /\ by_thread i (tr ++ e) = concat bs ++ l).
    { intros i r He Ht Hp. destruct (Tt i) as (bs & l & Hb & Hl & Q). exists (bs ++ [l ++ [r]]), []. split; [apply Forall_app; split; auto|].
      rewrite Ht. split; [reflexivity|]. rewrite by_thread_app, He, Q, concat_app. cbn. now rewrite !app_nil_r, app_assoc. }
    assert (ONE : forall i j, j <> i -> (i =? j) = false) by (intros i j N; apply Nat.eqb_neq; auto).
    destruct S as [s i c0 k Hi Hc|s i c0 k d Hi Hn|s i c0 l a Hi Hn|s i c0 l b0 Hi Hn|s i c0 a b0 Hi Hf|s i c0 a Hi|s i c0 b0 l d Hi Hn|s i c0 l d Hi Hn
                  |s i c0 l d Hi Hn|s i c0 l d Hi Hn|s i c0 l d Hi Hn|s i c0 l d o Hi Hn|s i c0 l d Hi Hn|s i c0 l d d' Hi Hn];
      apply (OTHER i); try (intros j N; cbn; rewrite ?(ONE i j N), ?(proj2 (Nat.eqb_neq j i) N); reflexivity);
      try (destruct (dat_nth _ _ _ _ Hn) as [Hd Hl]).
    - eapply GROW; [cbn; rewrite Nat.eqb_refl; reflexivity|]. intros l. rewrite Hi. cbn. rewrite Nat.eqb_refl. cbn. now intros ->.
    - eapply GROW; [reflexivity|]. intros l. rewrite Hi. cbn. rewrite Nat.eqb_refl. cbn. now intros ->.
    - eapply GROW; [reflexivity|]. intros l'. rewrite Hi. cbn. rewrite Nat.eqb_refl. cbn. now intros ->.
    - eapply GROW; [cbn; rewrite Nat.eqb_refl; reflexivity|]. intros l'. rewrite Hi. cbn. rewrite Nat.eqb_refl. cbn. intros ->. exists b0. auto.
    - eapply GROW; [reflexivity|]. intros l'. rewrite Hi. cbn. rewrite Nat.eqb_refl. cbn. now intros ->.
    - eapply GROW; [cbn; rewrite Nat.eqb_refl; reflexivity|]. intros l'. rewrite Hi. cbn. rewrite Nat.eqb_refl. cbn. now intros ->.
    - eapply GROW; [cbn; rewrite Nat.eqb_refl; reflexivity|]. intros l'. rewrite Hi, thr_set, Nat.eqb_refl. cbn [pend].
      intros ->. exists b0. split; [|reflexivity]. change (dat (set_cell s c0 (MkC l (inr b0))) c0 = Some (inr b0)).
      rewrite (dat_set s c0 _ _ c0 Hn), Nat.eqb_refl. reflexivity.
    - eapply DONE; [cbn; rewrite Nat.eqb_refl; reflexivity|cbn; now rewrite Nat.eqb_refl|]. intros l'. rewrite Hi. cbn. intros ->. eexists _, _, _. reflexivity.
    - eapply GROW; [reflexivity|]. intros l'. rewrite Hi, thr_set, Nat.eqb_refl. cbn [pend]. rewrite app_nil_r. intros (b & Hb & ->). exists b. split; auto.
    - eapply DONE; [cbn; rewrite Nat.eqb_refl; reflexivity|cbn; now rewrite Nat.eqb_refl|]. intros l'. rewrite Hi. cbn [pend]. intros (b & Hb & ->).
      rewrite Hd in Hb. injection Hb as ->. eexists _, _, _. reflexivity.
    - eapply GROW; [cbn; rewrite Nat.eqb_refl; reflexivity|]. intros l'. rewrite Hi. cbn. rewrite Nat.eqb_refl. cbn. intros ->. destruct d; reflexivity.
    - eapply DONE; [cbn; rewrite Nat.eqb_refl; reflexivity|cbn; now rewrite Nat.eqb_refl|]. intros l'. rewrite Hi. cbn. intros ->. eexists _, _, _. reflexivity.
    - eapply GROW; [cbn; rewrite Nat.eqb_refl; reflexivity|]. intros l'. rewrite Hi. cbn. rewrite Nat.eqb_refl. cbn. now intros ->.
    - eapply DONE; [cbn; rewrite Nat.eqb_refl; reflexivity|cbn; now rewrite Nat.eqb_refl|]. intros l'. rewrite Hi. cbn. intros ->. eexists _, _, _. reflexivity.
  Qed.

  (** every step has at most one effect, on one cell, and it is the one the specification allows *)
  Lemma step_eff a0 s e s' : Inv a0 s -> step F s e s' ->
    (forall c, effs c e = [] /\ (dat s' c = dat s c \/ (dat s c = None /\ exists d, dat s' c = Some d /\ In (New c d) e))) \/
    exists c q d d', effs c e = [q] /\ dat s c = Some d /\ dat s' c = Some d' /\ call1 F d q d' /\
      forall c', c' <> c -> effs c' e = [] /\ dat s' c' = dat s c'.
  Proof.
    intros [Io Ih Ip Id] S.
    assert (SAME : forall i p c0 l l' d, nth_error (cells s) c0 = Some (MkC l d) -> forall c, dat (set_pc (set_cell s c0 (MkC l' d)) i p) c = dat s c).
    { intros i p c0 l l' d Hn c. change (dat (set_cell s c0 (MkC l' d)) c = dat s c). rewrite (dat_set s c0 _ _ c Hn).
      destruct (dat_nth _ _ _ _ Hn) as [Hd _]. cbn. eqb; auto. }
    destruct S as [s i c0 k Hi Hc|s i c0 k d Hi Hn|s i c0 l a Hi Hn|s i c0 l b0 Hi Hn|s i c0 a b0 Hi Hf|s i c0 a Hi|s i c0 b0 l d Hi Hn|s i c0 l d Hi Hn
                  |s i c0 l d Hi Hn|s i c0 l d Hi Hn|s i c0 l d Hi Hn|s i c0 l d o Hi Hn|s i c0 l d Hi Hn|s i c0 l d d' Hi Hn];
      try (left; intros c; split; [reflexivity|left; first [reflexivity|eapply SAME; eauto]]; fail);
      try (destruct (dat_nth _ _ _ _ Hn) as [Hd Hl]).
    - right. exists c0, (KCreate, RRef b0), (inr b0), (inr b0). cbn. rewrite Nat.eqb_refl. repeat split; auto; [constructor|].
      cbn. rewrite (proj2 (Nat.eqb_neq c0 c')); auto.
    - pose proof (Ip i) as Pi. rewrite Hi in Pi. cbn in Pi. right. exists c0, (KCreate, RPanicF), (inl a), (inl a). cbn. rewrite Nat.eqb_refl.
      repeat split; auto; [constructor|]. cbn. rewrite (proj2 (Nat.eqb_neq c0 c')); auto.
    - pose proof (Ip i) as Pi. rewrite Hi in Pi. destruct Pi as (a & Pd & Pf). right. exists c0, (KCreate, RRef b0), (inl a), (inr b0). cbn [effs flat_map]. rewrite Nat.eqb_refl.
      assert (Y : forall c', dat (set_pc (set_cell s c0 (MkC l (inr b0))) i (RelCreate c0)) c' = if c' =? c0 then Some (inr b0) else dat s c') by (intros c'; exact (dat_set s c0 _ (MkC l (inr b0)) c' Hn)).
      rewrite Y, Nat.eqb_refl. split; auto. split; auto. split; auto. split; [now constructor|]. intros c' N. rewrite Y.
      rewrite (proj2 (Nat.eqb_neq c' c0)), (proj2 (Nat.eqb_neq c0 c')); auto.
    - right. exists c0, (KGet, of_data KGet d), d, d. cbn [effs flat_map]. rewrite Nat.eqb_refl. split; auto. split; auto. split; auto.
      split; [destruct d; constructor|]. intros c' N. rewrite (proj2 (Nat.eqb_neq c0 c')); auto.
    - right. exists c0, (KClone, RClone d), d, d. cbn [effs flat_map]. rewrite Nat.eqb_refl. split; auto. split; auto. split; auto.
      split; [constructor|]. intros c' N. rewrite (proj2 (Nat.eqb_neq c0 c')); auto.
    - left. intros c. split; [reflexivity|]. destruct (ch_clone s i Idle c0 _ (MkC None d) d' Hn eq_refl) as [_ Y _]. rewrite Y.
      destruct (Nat.eqb_spec c (length (cells s))) as [->|]; auto. right. split; [now apply dat_out|]. exists d'. split; auto. right. now left.
  Qed.
  Lemma step_funs a0 s e s' : Inv a0 s -> step F s e s' ->
    (forall c, funs c e = []) \/ exists c i a b, thr s i = Run c a /\ thr s' i = Wr c b /\ dat s c = Some (inl a) /\
       (forall c', dat s' c' = dat s c') /\ funs c e = [b] /\ (forall j, j <> i -> thr s' j = thr s j) /\ forall c', c' <> c -> funs c' e = [].
  Proof.
    intros [Io Ih Ip Id] S. destruct S as [s i c0 k Hi Hc|s i c0 k d Hi Hn|s i c0 l a Hi Hn|s i c0 l b0 Hi Hn|s i c0 a b0 Hi Hf|s i c0 a Hi|s i c0 b0 l d Hi Hn|s i c0 l d Hi Hn
                  |s i c0 l d Hi Hn|s i c0 l d Hi Hn|s i c0 l d Hi Hn|s i c0 l d o Hi Hn|s i c0 l d Hi Hn|s i c0 l d d' Hi Hn]; try (left; intros c; reflexivity).
    right. pose proof (Ip i) as Pi. rewrite Hi in Pi. cbn in Pi. exists c0, i, a, b0. split; auto. cbn. rewrite !Nat.eqb_refl. repeat split; auto.
    - intros j N. now rewrite (proj2 (Nat.eqb_neq j i)).
    - intros c' N. now rewrite (proj2 (Nat.eqb_neq c0 c')) by auto.
  Qed.
  (** a thread about to write stays there until it writes *)
  Lemma step_wr a0 s e s' i c b : Inv a0 s -> step F s e s' -> thr s i = Wr c b -> thr s' i = Wr c b \/ dat s' c = Some (inr b).
  Proof.
    intros [Io Ih Ip Id] S H. revert H.
    destruct S as [s j c0 k Hi Hc|s j c0 k d Hi Hn|s j c0 l a Hi Hn|s j c0 l b0 Hi Hn|s j c0 a b0 Hi Hf|s j c0 a Hi|s j c0 b0 l d Hi Hn|s j c0 l d Hi Hn
                  |s j c0 l d Hi Hn|s j c0 l d Hi Hn|s j c0 l d Hi Hn|s j c0 l d o Hi Hn|s j c0 l d Hi Hn|s j c0 l d d' Hi Hn];
      intros H; rewrite thr_set; destruct (Nat.eqb_spec i j) as [->|]; auto; try congruence.
    right. rewrite H in Hi. injection Hi as <- <-. change (dat (set_cell s c (MkC l (inr b))) c = Some (inr b)).
    rewrite (dat_set s c _ _ c Hn), Nat.eqb_refl. reflexivity.
  Qed.

  Lemma step_tinv a0 d0 tr s e s' : Inv a0 s -> TInv d0 tr s -> step F s e s' -> TInv d0 (tr ++ e) s'.
  Proof.
    intros I T S. pose proof (step_thr a0 d0 tr s e s' I T S) as NEW. pose proof (step_eff a0 s e s' I S) as EFF.
    pose proof (step_funs a0 s e s' I S) as FUN. pose proof (fun i c b => step_wr a0 s e s' i c b I S) as WR.
    pose proof (fun c b => step_mono a0 s e s' c b I S) as MONO.
    destruct T as [Te To Tt Tf]. split; auto.
    - intros c d Hd. rewrite effs_app. destruct EFF as [Q|(c1 & q & d1 & d2 & He & H1 & H2 & Hq & Q)].
      + destruct (Q c) as [-> [E|(E & d' & E' & Hn)]]; rewrite app_nil_r.
        * rewrite E in Hd. destruct (Te c d Hd) as (d1 & Hn & Hc). exists d1. split; auto. destruct Hn; auto. right. apply in_or_app. auto.
        * exists d. rewrite (proj1 (To c E)). split; [right; apply in_or_app; right; congruence|constructor].
      + destruct (Nat.eq_dec c c1) as [->|N].
        * rewrite He. destruct (Te c1 d1 H1) as (d3 & Hn & Hc). exists d3. split; [destruct Hn; auto; right; apply in_or_app; auto|].
          econstructor; eauto. congruence.
        * destruct (Q c N) as [-> E]. rewrite E in Hd. destruct (Te c d Hd) as (d3 & Hn & Hc). exists d3. rewrite app_nil_r. split; auto.
          destruct Hn; auto. right. apply in_or_app. auto.
    - intros c Hd. assert (E : dat s c = None).
      { destruct EFF as [Q|(c1 & q & d1 & d2 & He & H1 & H2 & Hq & Q)].
        - destruct (Q c) as [_ [E|(E & d' & E' & Hn)]]; congruence.
        - destruct (Nat.eq_dec c c1) as [->|N]; [congruence|]. destruct (Q c N) as [_ E]. congruence. }
      rewrite effs_app, funs_app. destruct (To c E) as [-> ->]. cbn [app]. split.
      + destruct EFF as [Q|(c1 & q & d1 & d2 & He & H1 & H2 & Hq & Q)]; [apply Q|]. apply Q. congruence.
      + destruct FUN as [Q|(c1 & i & a & b & H1 & H2 & H3 & H4 & H5 & H6 & H7)]; auto. apply H7. congruence.
    - intros c. rewrite funs_app. destruct FUN as [Q|(c1 & i & a & b & H1 & H2 & H3 & H4 & H5 & H6 & H7)].
      + rewrite Q, app_nil_r. specialize (Tf c). destruct (dat s c) as [[a|b]|] eqn:E.
        * destruct Tf as [->|(i & b & Hi & ->)]; [destruct (dat s' c) as [[|]|]; auto|].
          destruct (WR i c b Hi) as [W|W]; [|rewrite W; auto]. destruct (dat s' c) as [[a'|b']|] eqn:E'; auto; [right; eauto|].
          exfalso. destruct (step_inv a0 s e s' I S) as [_ _ Ip' _]. specialize (Ip' i). rewrite W in Ip'. destruct Ip' as (x & Hx & _). congruence.
        * rewrite (MONO c b E). auto.
        * destruct (To c E) as [_ ->]. destruct (dat s' c) as [[|]|]; auto.
      + destruct I as [Io Ih Ip Id]. rewrite H4. specialize (Tf c). destruct (Nat.eq_dec c c1) as [->|N].
        * rewrite H3 in *. destruct Tf as [->|(j & b' & Hj & ->)].
          -- right. exists i, b. rewrite H5. auto.
          -- exfalso. assert (lck s c1 = Some i) by (apply Io; rewrite H1; reflexivity). assert (lck s c1 = Some j) by (apply Io; rewrite Hj; reflexivity). congruence.
        * rewrite (H7 c N), app_nil_r. destruct (dat s c) as [[a'|b']|]; auto. destruct Tf as [|(j & b' & Hj & Hb)]; auto. right. exists j, b'. split; auto.
          rewrite H6; auto. congruence.
  Qed.

  Lemma init_inv a0 d0 : stands F a0 d0 -> Inv a0 (init d0).
  Proof.
    intros H. split; cbn; intros; try discriminate.
    - destruct c as [|c]; cbn in H0; [discriminate|]. now destruct c.
    - exact Logic.I.
    - destruct c as [|c]; cbn in H0; [injection H0 as <-; auto|]. now destruct c.
  Qed.
  Lemma init_tinv d0 : TInv d0 [] (init d0).
  Proof.
    split.
    - intros [|c] d H; cbn in H; [|now destruct c]. injection H as <-. exists d0. split; auto. constructor.
    - auto.
    - intros i. exists [], []. split; [constructor|]. split; reflexivity.
    - intros c. destruct (dat (init d0) c) as [[|]|]; auto.
  Qed.
  Lemma exec_inv a0 d0 tr s : stands F a0 d0 -> exec F (init d0) tr s -> Inv a0 s /\ TInv d0 tr s.
  Proof.
    intros H E. remember (init d0) as s0 eqn:Q. induction E as [s|s e s1 tr s2 E IH S]; subst.
    - split; [now apply init_inv|apply init_tinv].
    - destruct IH as [I T]; auto. split; [eapply step_inv|eapply step_tinv]; eauto.
  Qed.
End Facts.
