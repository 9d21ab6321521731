(** Property C61: a Lazy accessed by any number of threads under every schedule.
    [exec F (init d0) tr s]: some interleaving of any calls by any threads led from one unlocked Lazy holding [d0]
    to [s] and showed the events [tr]. [stands F a d0]: [d0] is the archived content [a] or a result of the
    function on it. *)
From Verif Require Export LazyFacts.

Section PropLazy.
  Context {A B : Type} (F : A -> B -> Prop) (a : A) (d0 : A + B) (D0 : stands F a d0).
  Notation event := (event A B).

  (** facts about the specification *)
  Lemma calls_b l d q b d' : calls F d l d' -> In q l ->
    q = (KCreate, RRef b) \/ q = (KGet, RGet (Some b)) \/ q = (KClone, RClone (inr b)) -> d' = inr b.
  Proof.
    intros C Hq E. induction C as [d|d l d1 q' d2 C IH S]; [easy|]. apply in_app_or in Hq as [Hq|[<-|[]]].
    - specialize (IH Hq). subst. inversion S; reflexivity.
    - destruct E as [->|[->| ->]]; inversion S; reflexivity.
  Qed.
  Lemma calls_ok l d d' k r : calls F d l d' -> In (k, r) l -> r <> RPanic.
  Proof.
    intros C. induction C as [d|d l d1 q' d2 C IH S]; [easy|]. intros Hq. apply in_app_or in Hq as [Hq|[->|[]]]; auto.
    inversion S; congruence.
  Qed.
  Lemma in_effs i c k r (tr : list event) : In (Eff i c k r) tr -> In (k, r) (effs c tr).
  Proof. intros H. apply in_flat_map. exists (Eff i c k r). split; auto. cbn. rewrite Nat.eqb_refl. now left. Qed.
  (** what a thread gets is what it got when it looked at the cell *)
  Lemma ret_eff tr s i c k r : exec F (init d0) tr s -> In (Ret i c k r) tr -> In (Eff i c k r) tr.
  Proof.
    intros E H. destruct (exec_inv F a d0 tr s D0 E) as [I T]. destruct (t_thr _ _ _ _ T i) as (bs & l & Hb & Hp & Q).
    assert (Hr : In (Ret i c k r) (by_thread i tr)) by (apply filter_In; split; auto; apply Nat.eqb_refl).
    assert (He : In (Eff i c k r) (by_thread i tr)); [|now apply filter_In in He as [He _]].
    rewrite Q in *. apply in_app_or in Hr as [Hr|Hr]; apply in_or_app.
    - left. apply in_concat in Hr as (b & Hin & Hr). apply in_concat. exists b. split; auto.
      rewrite Forall_forall in Hb. destruct (Hb b Hin) as (c' & k' & r' & ->). destruct Hr as [|[|[Hr|[]]]]; try discriminate. injection Hr as <- <- <-. right. now left.
    - exfalso. destruct (thr s i); cbn [pend] in Hp; try destruct Hp as (b & _ & Hp); subst l; cbn in Hr; intuition discriminate.
  Qed.
  Lemma eff_cell tr s i c k r : exec F (init d0) tr s -> In (Eff i c k r) tr ->
    exists d1 d, dat s c = Some d /\ calls F d1 (effs c tr) d /\ In (k, r) (effs c tr).
  Proof.
    intros E H. destruct (exec_inv F a d0 tr s D0 E) as [I T]. apply in_effs in H.
    destruct (dat s c) as [d|] eqn:Q; [|now rewrite (proj1 (t_out _ _ _ _ T c Q)) in H].
    destruct (t_eff _ _ _ _ T c d Q) as (d1 & _ & C). eauto.
  Qed.

  (** ** Linearizability: every call takes effect at one instant between its call and its return, returns what it got
      then, and the effects on a cell, in that order, are what the specification without threads does, starting from what
      the cell was created with and ending with what it holds. *)
  Theorem C61_linearizable tr s : exec F (init d0) tr s ->
    (forall i, exists bs l, Forall (block i) bs /\ by_thread i tr = concat bs ++ l /\ (l = [] \/ exists rest, rest <> [] /\ block i (l ++ rest))) /\
    (forall c x, nth_error (cells s) c = Some x ->
       exists d1, (c = 0 /\ d1 = d0 \/ In (New c d1) tr) /\ calls F d1 (effs c tr) (c_data x)).
  Proof.
    intros E. destruct (exec_inv F a d0 tr s D0 E) as [I T]. split.
    - intros i. destruct (t_thr _ _ _ _ T i) as (bs & l & Hb & Hp & Q). exists bs, l. split; auto. split; auto.
      pose proof (RPanicF (A := A) (B := B)) as R.
      destruct (thr s i); cbn [pend] in Hp; try destruct Hp as (b' & _ & Hp); subst l; auto; right;
        first [ eexists [Eff _ _ _ R; Ret _ _ _ R]; split; [discriminate|eexists _, _, _; reflexivity]
              | eexists [Ret _ _ _ _]; split; [discriminate|eexists _, _, _; reflexivity] ].
    - intros c x Hx. apply (t_eff _ _ _ _ T). unfold dat. now rewrite Hx.
  Qed.

  (** the function completes at most once per cell, and its result is what every access gets *)
  Theorem C61_created_once tr s c : exec F (init d0) tr s -> length (funs c tr) <= 1.
  Proof.
    intros E. destruct (exec_inv F a d0 tr s D0 E) as [I T]. pose proof (t_fun _ _ _ _ T c) as H.
    destruct (dat s c) as [[x|b]|] eqn:Q.
    - destruct H as [->|(i & b & _ & ->)]; cbn; lia.
    - destruct H as [->| ->]; cbn; lia.
    - rewrite (proj2 (t_out _ _ _ _ T c Q)). cbn. lia.
  Qed.
  Theorem C61_same_value tr s c b : exec F (init d0) tr s ->
    (exists i, In (Ret i c KCreate (RRef b)) tr) \/ (exists i, In (Ret i c KGet (RGet (Some b))) tr) ->
    (forall i b', In (Ret i c KCreate (RRef b')) tr -> b' = b) /\
    (forall i b', In (Ret i c KGet (RGet (Some b'))) tr -> b' = b) /\
    (forall b', funs c tr = [b'] -> b' = b).
  Proof.
    intros E H.
    assert (G : forall i k r b', In (Ret i c k r) tr -> (k, r) = (KCreate, RRef b') \/ (k, r) = (KGet, RGet (Some b')) -> dat s c = Some (inr b')).
    { intros i k r b' Hr Q. apply (ret_eff tr s i c k r E) in Hr. destruct (eff_cell tr s i c k r E Hr) as (d1 & d & Hd & C & Hq).
      rewrite Hd. f_equal. eapply calls_b; eauto. destruct Q as [-> | ->]; auto. }
    assert (Hb : dat s c = Some (inr b)) by (destruct H as [(i & H)|(i & H)]; eapply G; eauto).
    split; [|split].
    - intros i b' Hr. assert (dat s c = Some (inr b')) by (eapply G; eauto). congruence.
    - intros i b' Hr. assert (dat s c = Some (inr b')) by (eapply G; eauto). congruence.
    - intros b' Hf. destruct (exec_inv F a d0 tr s D0 E) as [I T]. pose proof (t_fun _ _ _ _ T c) as Hc. rewrite Hb, Hf in Hc. destruct Hc; congruence.
  Qed.
  (** the reference that was handed out keeps pointing to that value, and a later get finds it *)
  Theorem C61_reference_stable tr s tr2 s2 c b x : exec F (init d0) tr s -> (exists i, In (Ret i c KCreate (RRef b)) tr) ->
    exec F s tr2 s2 -> nth_error (cells s2) c = Some x -> c_data x = inr b.
  Proof.
    intros E (i & Hr) E2 Hx.
    assert (E3 : exec F (init d0) (tr ++ tr2) s2).
    { clear - E E2. induction E2; [now rewrite app_nil_r|]. rewrite app_assoc. econstructor; eauto. }
    destruct (eff_cell _ s2 i c KCreate (RRef b) E3) as (d1 & d & Hd & C & Hq).
    { apply in_or_app. left. eapply ret_eff; eauto. }
    unfold dat in Hd. rewrite Hx in Hd. injection Hd as <-. eapply calls_b; eauto.
  Qed.
  Theorem C61_get_finds_it tr s tr2 s2 c b j r : exec F (init d0) tr s -> (exists i, In (Ret i c KCreate (RRef b)) tr) ->
    thr s j = Idle -> exec F s tr2 s2 -> In (Ret j c KGet r) tr2 -> r = RGet (Some b).
  Proof.
    intros E (i & Hr) Hj E2.
    assert (Hb : dat s c = Some (inr b)).
    { destruct (eff_cell _ s i c KCreate (RRef b) E) as (d1 & d & Hd & C & Hq); [eapply ret_eff; eauto|]. rewrite Hd. f_equal. eapply calls_b; eauto. }
    destruct (exec_inv F a d0 tr s D0 E) as [I0 _].
    assert (G : Inv F a s2 /\ dat s2 c = Some (inr b) /\ (forall o, thr s2 j = RelGet c o -> o = Some b) /\ (In (Ret j c KGet r) tr2 -> r = RGet (Some b))).
    { induction E2 as [s|s e s1 tr2 s2 E2 IH S].
      - split; auto. split; auto. split; [|easy]. intros o. rewrite Hj. discriminate.
      - destruct IH as (I1 & Hb1 & Ho & Hr2); auto. split; [eapply step_inv; eauto|].
        split; [eapply step_mono; eauto|]. clear I0 Hj E Hr.
        destruct S as [s1 k c0 k0 Hi Hc|s1 k c0 k0 d Hi Hn|s1 k c0 l x Hi Hn|s1 k c0 l b0 Hi Hn|s1 k c0 x b0 Hi Hf|s1 k c0 x Hi|s1 k c0 b0 l d Hi Hn|s1 k c0 l d Hi Hn
                  |s1 k c0 l d Hi Hn|s1 k c0 l d Hi Hn|s1 k c0 l d Hi Hn|s1 k c0 l d o Hi Hn|s1 k c0 l d Hi Hn|s1 k c0 l d d' Hi Hn]; split;
          try (intros o'; rewrite thr_set; destruct (Nat.eqb_spec j k) as [->|]; [|now apply Ho]; try discriminate);
          try (rewrite in_app_iff; cbn; intros [?|?]; [auto|intuition discriminate]).
        + intros [= -> <-]. unfold dat in Hb1. rewrite Hn in Hb1. cbn in Hb1. injection Hb1 as ->. reflexivity.
        + rewrite in_app_iff. intros [?|[H|[]]]; auto. injection H as -> -> <-. f_equal. now apply Ho. }
    apply G.
  Qed.

  (** no access panics, except through the function *)
  Theorem C61_no_panic tr s i c k r : exec F (init d0) tr s -> In (Ret i c k r) tr ->
    r <> RPanic /\ (r = RPanicF -> In (Fun i c None) tr).
  Proof.
    intros E H. pose proof (ret_eff _ _ _ _ _ _ E H) as He. split.
    - destruct (eff_cell tr s i c k r E He) as (d1 & d & _ & C & Hq). eapply calls_ok; eauto.
    - intros ->. clear H. induction E as [s|s e s1 tr s2 E IH S]; [easy|]. apply in_or_app. apply in_app_or in He as [He|He]; [auto|right].
      destruct S; cbn in He; repeat (destruct He as [He|He]); try easy; [|destruct d; discriminate]. injection He as <- <- <-. now left.
  Qed.

  (** every cell ever created, and everything handed out, stands for the same content *)
  Theorem C61_clones_denote_the_same tr s : exec F (init d0) tr s ->
    (forall c x, nth_error (cells s) c = Some x -> stands F a (c_data x)) /\
    (forall i c b, In (Ret i c KCreate (RRef b)) tr -> F a b) /\
    (forall i c b, In (Ret i c KGet (RGet (Some b))) tr -> F a b) /\
    (forall i c d, In (Ret i c KClone (RClone d)) tr -> stands F a d).
  Proof.
    intros E. destruct (exec_inv F a d0 tr s D0 E) as [I T].
    assert (Hc : forall c d, dat s c = Some d -> stands F a d) by apply (i_den _ _ _ I).
    assert (G : forall i c k r b, In (Ret i c k r) tr -> (k, r) = (KCreate, RRef b) \/ (k, r) = (KGet, RGet (Some b)) -> F a b).
    { intros i c k r b Hr Q. apply (ret_eff tr s i c k r E) in Hr. destruct (eff_cell tr s i c k r E Hr) as (d1 & d & Hd & C & Hq).
      apply Hc in Hd. assert (d = inr b) by (eapply calls_b; eauto; destruct Q as [-> | ->]; auto). now subst. }
    split; [|split; [|split]]; eauto.
    - intros c x Hx. apply (Hc c). unfold dat. now rewrite Hx.
    - intros i c d Hr. apply (ret_eff tr s i c _ _ E) in Hr. clear I T Hc G.
      remember (init d0) as s0 eqn:Qs. induction E as [s|s e s1 tr s2 E IH S]; [easy|]. subst s. destruct (exec_inv F a d0 tr s1 D0 E) as [I _].
      apply in_app_or in Hr as [Hr|Hr]; [auto|].
      destruct S as [| | | | | | | | | |s i' c' l d' Hi Hn| |s i' c' l d' Hi Hn|]; cbn in Hr; repeat (destruct Hr as [Hr|Hr]); try easy.
      injection Hr as <- <- <-. apply (i_den _ _ _ I c'). unfold dat. now rewrite Hn.
  Qed.

  (** no data race: while one thread is about to write the data of a cell, no other is about to read or write it *)
  Theorem C61_no_data_race tr s i j c : exec F (init d0) tr s -> i <> j -> writes (thr s i) c -> ~ (reads (thr s j) c \/ writes (thr s j) c).
  Proof.
    intros E N Hw H. destruct (exec_inv F a d0 tr s D0 E) as [[Io Ih Ip Id] _].
    destruct (thr s i) eqn:Qi; cbn in Hw; try easy. subst c0. pose proof (Ip i) as Pi. rewrite Qi in Pi. destruct Pi as (x & Hd & _).
    assert (Li : lck s c = Some i) by (apply Io; rewrite Qi; reflexivity).
    destruct (thr s j) eqn:Qj; cbn in H; destruct H as [H|H]; try easy; subst.
    - assert (lck s c = Some j) by (apply Io; rewrite Qj; reflexivity). congruence.
    - assert (lck s c = Some j) by (apply Io; rewrite Qj; reflexivity). congruence.
    - pose proof (Ip j) as Pj. rewrite Qj in Pj. destruct Pj as (b' & Pj). congruence.
  Qed.

  (** no deadlock: while a call is in progress, some call in progress can take a step that brings it nearer to its
      return; a step moves one thread only, and no call takes more than six steps *)
  Theorem C61_no_deadlock tr s i : (forall x, exists b, F x b) -> exec F (init d0) tr s -> thr s i <> Idle ->
    exists j e s', step F s e s' /\ thr s j <> Idle /\ left (thr s' j) < left (thr s j) /\ forall k, ~ In (Fun j k None) e.
  Proof.
    intros Ft E Hi. destruct (exec_inv F a d0 tr s D0 E) as [[Io Ih Ip Id] _].
    assert (CRIT : forall j c, crit (thr s j) = Some c -> exists e s', step F s e s' /\ left (thr s' j) < left (thr s j) /\ forall k, ~ In (Fun j k None) e).
    { intros j c Hc. pose proof (Ip j) as Pj.
      assert (Hx : exists l d, nth_error (cells s) c = Some (MkC l d)).
      { pose proof (Io _ _ Hc) as L. unfold lck in L. destruct (nth_error (cells s) c) as [[l d]|]; [eauto|discriminate]. }
      destruct Hx as (l & d & Hx).
      assert (ST : forall e s' p, step F s e s' -> thr s' j = p -> left p < left (thr s j) -> (forall k, ~ In (Fun j k None) e) ->
                exists e s', step F s e s' /\ left (thr s' j) < left (thr s j) /\ forall k, ~ In (Fun j k None) e).
      { intros e s' p H1 H2 H3 H4. exists e, s'. subst p. auto. }
      destruct (thr s j) as [|c' k|c' k|c' x|c' b|c'|c'|c'|c' o|c' d'] eqn:Q; cbn in Hc; try discriminate; injection Hc as ->.
      - destruct k.
        + destruct d as [x|b].
          * eapply ST; [eapply s_start; eauto|rewrite thr_set, Nat.eqb_refl; reflexivity|cbn; lia|cbn; tauto].
          * eapply ST; [eapply s_done; eauto|rewrite thr_set, Nat.eqb_refl; reflexivity|cbn; lia|cbn; intuition discriminate].
        + eapply ST; [eapply s_get; eauto|rewrite thr_set, Nat.eqb_refl; reflexivity|cbn; lia|cbn; intuition discriminate].
        + eapply ST; [eapply s_clone; eauto|rewrite thr_set, Nat.eqb_refl; reflexivity|cbn; lia|cbn; intuition discriminate].
      - destruct (Ft x) as (b & Hb). eapply ST; [eapply s_run; eauto|rewrite thr_set, Nat.eqb_refl; reflexivity|cbn; lia|cbn; intuition discriminate].
      - eapply ST; [eapply s_write; eauto|rewrite thr_set, Nat.eqb_refl; reflexivity|cbn; lia|cbn; intuition discriminate].
      - eapply ST; [eapply s_unwind; eauto|rewrite thr_set, Nat.eqb_refl; reflexivity|cbn; lia|cbn; intuition discriminate].
      - eapply ST; [eapply s_rel; eauto|rewrite thr_set, Nat.eqb_refl; reflexivity|cbn; lia|cbn; tauto].
      - eapply ST; [eapply s_get_rel; eauto|rewrite thr_set, Nat.eqb_refl; reflexivity|cbn; lia|cbn; intuition discriminate].
      - eapply ST; [eapply s_clone_rel; eauto|rewrite thr_set, Nat.eqb_refl; reflexivity|cbn; lia|cbn; intuition discriminate]. }
    destruct (crit (thr s i)) as [c|] eqn:Qc.
    - destruct (CRIT i c Qc) as (e & s' & H1 & H2 & H3). exists i, e, s'. auto.
    - pose proof (Ip i) as Pi. destruct (thr s i) as [|c k|c k|c x|c b|c|c|c|c o|c d'] eqn:Q; try easy; cbn [pcok] in Pi.
      + unfold dat in Pi. destruct (nth_error (cells s) c) as [[[j|] d]|] eqn:Hx; [| |easy].
        * assert (Hj : crit (thr s j) = Some c) by (apply Ih; unfold lck; now rewrite Hx).
          destruct (CRIT j c Hj) as (e & s' & H1 & H2 & H3). exists j, e, s'. split; auto. split; auto. intros H. rewrite H in Hj. discriminate.
        * eexists i, _, _. split; [eapply s_lock; eauto|]. rewrite Q, thr_set, Nat.eqb_refl. split; [discriminate|]. split; [cbn; lia|cbn; tauto].
      + destruct Pi as (b & Pi). unfold dat in Pi. destruct (nth_error (cells s) c) as [[l d]|] eqn:Hx; [|easy].
        eexists i, _, _. split; [eapply s_read; eauto|]. rewrite Q, thr_set, Nat.eqb_refl. split; [discriminate|]. split; [cbn; lia|cbn; intuition discriminate].
  Qed.
  Theorem C61_calls_are_short s e s' : step F s e s' ->
    exists i, (forall j, j <> i -> thr s' j = thr s j) /\
      ((exists c k, e = [Call i c k] /\ thr s i = Idle /\ left (thr s' i) = 6) \/ left (thr s' i) < left (thr s i)).
  Proof.
    intros S. destruct S as [s i|s i|s i|s i|s i|s i|s i|s i|s i|s i|s i|s i|s i|s i]; exists i; rewrite thr_set, Nat.eqb_refl;
      (split; [intros j N; rewrite thr_set; now rewrite (proj2 (Nat.eqb_neq j i))|]);
      try (right; match goal with H : thr _ _ = _ |- _ => rewrite H end; cbn; lia).
    left. eexists _, _. auto.
  Qed.
End PropLazy.

(** ** A concrete schedule: two threads race for one lazily loaded cell, a third clones it in between *)
Definition F0 (a b : nat) : Prop := b = a + 1 \/ b = a + 2.
Example race : exists tr s, exec F0 (init (inl 5)) tr s /\
  In (Ret 1 0 KCreate (RRef 7)) tr /\ In (Ret 2 0 KCreate (RRef 7)) tr /\ In (Ret 3 0 KClone (RClone (inl 5))) tr /\ length (cells s) = 2.
Proof.
  eexists _, _. split.
  - repeat match goal with |- exec _ _ _ _ => idtac end.
    eapply e_step. eapply e_step. eapply e_step. eapply e_step. eapply e_step. eapply e_step. eapply e_step. eapply e_step. eapply e_step.
    eapply e_step. eapply e_step. eapply e_step. eapply e_step. eapply e_step. eapply e_step. eapply e_step. apply e_nil.
    + eapply (s_call _ _ 1 0 KCreate); [reflexivity|cbn; lia].
    + eapply (s_call _ _ 3 0 KClone); [reflexivity|cbn; lia].
    + eapply (s_lock _ _ 3 0); reflexivity.
    + eapply (s_clone _ _ 3 0); reflexivity.
    + eapply (s_clone_rel _ _ 3 0); reflexivity.
    + eapply (s_call _ _ 2 0 KCreate); [reflexivity|cbn; lia].
    + eapply (s_lock _ _ 1 0); reflexivity.
    + eapply (s_start _ _ 1 0); reflexivity.
    + eapply (s_run _ _ 1 0 5 7); [reflexivity|right; reflexivity].
    + eapply (s_write _ _ 1 0); reflexivity.
    + eapply (s_rel _ _ 1 0); reflexivity.
    + eapply (s_lock _ _ 2 0); reflexivity.
    + eapply (s_done _ _ 2 0); reflexivity.
    + eapply (s_read _ _ 1 0); reflexivity.
    + eapply (s_rel _ _ 2 0); reflexivity.
    + eapply (s_read _ _ 2 0); reflexivity.
  - cbn. intuition.
Qed.

Print Assumptions C61_linearizable.
Print Assumptions C61_created_once.
Print Assumptions C61_same_value.
Print Assumptions C61_reference_stable.
Print Assumptions C61_get_finds_it.
Print Assumptions C61_no_panic.
Print Assumptions C61_clones_denote_the_same.
Print Assumptions C61_no_data_race.
Print Assumptions C61_no_deadlock.
Print Assumptions C61_calls_are_short.
