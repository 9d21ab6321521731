(** Properties C97, C98 and C99: ArcRadixTrees used by several threads at once.

    [sts] are the threads: arbitrary programs that choose their next call by the answers to the previous ones. [sched] says
    which thread makes the next atomic access to a reference-counted vector. The trees [s0] built by the program [os] before the
    threads start are visible to all threads; everything else is owned by one thread, or by a slot (a mutex).
    [mrun] (ConcModel.v) is [None] after a data race, a use after free or a double free. The specification is the machine of
    ConcSpec.v ([vmrun]): plain trees, nothing shared, every call one indivisible step. *)
From Coq Require Import Permutation.
From Verif Require Export ConcRun.

Section Conc.
  Context {K V : Type}.
  Notation tree := (rtree K V).
  Notation ent := (node K V * tree)%type.
  Context (n : nat) (os : list (op K V)) (vs : regs tree) (h0 : heap K V) (s0 : regs (node K V)).
  (** [os] builds the shared trees [vs] *)
  Context (Hvs : vrun os (repeat None n) = Some vs) (Hs0 : hrun true os (hinit n) = Some (h0, s0)).
  Context (slots rgs : nat) (sts : list (strat K V)).
  Notation run sched := (mrun (held s0) sched (minit h0 slots rgs sts)).

  Lemma rel_held (h : heap K V) s v : rel h s v -> dens h (held s) (held v).
  Proof.
    induction 1 as [|o u s v A H IH]; [constructor|]. destruct o, u; cbn in A; try easy; cbn [held flat_map app]; auto. constructor; auto.
  Qed.
  Lemma held_repeat {X} k : held (repeat (@None X) k) = [].
  Proof. induction k; auto. Qed.
  Lemma rmap_repeat {X Y} (f : X -> Y) k : rmap f (repeat None k) = repeat None k.
  Proof. induction k; cbn; auto. now f_equal. Qed.

  Lemma shared_start : exists G : list ent, held s0 = fsts G /\ held vs = snds G /\ dens h0 (held s0) (held vs) /\
    Inv h0 (static :: held s0) /\ den h0 static (Node [] None []).
  Proof.
    destruct (run_good true os _ _ _ (init_good n) Hvs) as (st' & Q' & I & D & R). rewrite Hs0 in Q'. injection Q' as <-. cbn [fst snd] in *.
    pose proof (rel_held _ _ _ R) as Dh. pose proof (dens_length _ _ _ Dh) as El. exists (combine (held s0) (held vs)).
    rewrite fsts_combine, snds_combine by auto. auto 6.
  Qed.

  Lemma start : exists G X, held s0 = fsts G /\ held vs = snds G /\
    Sim G (minit h0 slots rgs sts) (vminit slots rgs sts) (repeat None slots) X.
  Proof.
    destruct shared_start as (G & Es & Ev & D & I & Ds). exists G.
    exists (map (fun st => MkC 0 (Idle (repeat None rgs) st) (MkR [] [] [] []) (repeat None rgs, st)) sts). split; auto. split; auto.
    assert (Eo : forall l : list (strat K V), owns (map c_R (map (fun st => MkC 0 (Idle (repeat None rgs) st) (MkR [] [] [] []) (repeat None rgs, st)) l)) = [] /\
                        bors (map c_R (map (fun st => @MkC K V 0 (Idle (repeat None rgs) st) (MkR [] [] [] []) (repeat None rgs, st)) l)) = []).
    { induction l as [|st l [IH1 IH2]]; auto. }
    constructor; cbn [minit vminit m_heap m_slots m_threads m_log v_slots v_threads v_log].
    - rewrite held_repeat. set (X := map _ sts).
      assert (Hall : forall R, In R (MkR [] [] [] [] :: map c_R X) -> R = MkR [] [] [] []).
      { intros R [<-|Hi]; auto. unfold X in Hi. rewrite map_map in Hi. apply in_map_iff in Hi as (st & <- & _). reflexivity. }
      intros R Os P. assert (R = MkR [] [] [] []) as -> by (apply Hall; eapply Permutation_in; [symmetry; exact P|now left]).
      assert (Z : owns Os = [] /\ bors Os = []).
      { assert (Ho : forall R, In R Os -> R = MkR [] [] [] []) by (intros R Hi; apply Hall; eapply Permutation_in; [symmetry; exact P|now right]).
        clear P. induction Os as [|R Os IH]; auto. cbn [owns bors flat_map]. rewrite (Ho R) by now left. apply IH. intros R' Hi. apply Ho. now right. }
      destruct Z as [-> ->]. apply plain_st. cbn [fsts snds map fst snd app r_own]. rewrite app_nil_r. fold (fsts G) (snds G). rewrite <- Es, <- Ev.
      split; auto. split; [constructor; auto|]. split; [constructor|]. split; [constructor|easy].
    - now rewrite rmap_repeat.
    - now rewrite rmap_repeat.
    - now rewrite map_map.
    - now rewrite map_map.
    - reflexivity.
    - rewrite Forall_forall. intros x Hi. apply in_map_iff in Hi as (st & <- & _). exists (repeat None rgs). cbn [c_t c_v c_R].
      now rewrite !rmap_repeat, held_repeat.
  Qed.

  (** ** C97: no schedule of any threads leads to a data race, a use after free or a double free; and what the threads have
      seen is what they see when the calls are indivisible, on plain trees that are not shared, in the order in which the
      calls returned. The slots and the threads between calls hold the same trees as there, a thread inside a call is just
      before that call there, and the shared trees are what they were. *)
  Theorem C97_threads_are_linearizable (sched : list nat) :
    exists m, run sched = Some m /\
      let c := vmrun (held vs) (rev (map fst (m_log m))) (vminit slots rgs sts) in
      m_log m = v_log c /\ stands (m_heap m) (m_slots m) (v_slots c) /\
      Forall2 (fun t '(r, st) => match t with
                                 | Idle s st' => stands (m_heap m) s r /\ st' = st
                                 | Busy _ k => exists o, st = SDo o k
                                 end) (m_threads m) (v_threads c) /\
      dens (m_heap m) (held s0) (held vs).
  Proof.
    destruct start as (G & X & Es & Ev & HS). rewrite Es, Ev.
    destruct (sim_run G sched (vminit slots rgs sts) _ _ _ _ HS eq_refl) as (m & vm & z & X' & Hr & HS' & Evm). exists m. split; auto. cbn [fst].
    rewrite <- Evm. cbv zeta. destruct (sim_heap _ _ _ _ _ HS') as (Dn & _ & Hsl). pose proof HS' as [Hg _ _ Ht Hv Hlog Hthr].
    split; auto. split; auto. split; [|now inversion Dn]. rewrite Ht, Hv. clear Hr Evm.
    assert (HX : forall i x, nth_error X' i = Some x -> match c_t x with Idle s st' => stands (m_heap m) s (fst (c_v x)) /\ st' = snd (c_v x) | Busy _ k => exists o, snd (c_v x) = SDo o k end).
    { intros i x Hi. destruct (c_t x) as [s st|p k] eqn:Et.
      - destruct (sim_idle _ _ _ _ _ _ _ _ _ HS' Hi Et) as (A & B & _). auto.
      - assert (Tx : thr G x) by (rewrite Forall_forall in Hthr; apply Hthr; eapply nth_error_In; eauto).
        unfold thr in Tx. rewrite Et in Tx. destruct Tx as (o & z1 & _ & Q & _). exists o. now rewrite Q. }
    clear - HX. induction X' as [|x X' IH]; cbn [map]; constructor.
    - specialize (HX 0 x eq_refl). destruct (c_v x). exact HX.
    - apply IH. intros i. apply (HX (S i)).
  Qed.
  (** the order respects real time: a call that has returned stays before all calls that return later *)
  Theorem C97_order_is_real_time (sched later : list nat) (m m' : mach K V) :
    run sched = Some m -> mrun (held s0) later m = Some m' -> exists l, rev (map fst (m_log m')) = rev (map fst (m_log m)) ++ l.
  Proof. intros _ H. destruct (log_run _ _ _ _ H) as (l & E). exists (rev (map fst l)). now rewrite E, map_app, rev_app_distr. Qed.

  (** ** C98: calls are wait-free. However the other threads interfere, a call returns after a number of steps of its own thread
      that depends only on the sizes of the trees its thread owns, the length of the path, and (From<RadixTree>) the size of
      the argument. *)
  Theorem C98_calls_are_wait_free (sched later : list nat) (m m' : mach K V) (i : nat) (s : regs (node K V)) (r : regs tree) o k :
    run sched = Some m -> nth_error (m_threads m) i = Some (Idle s (SDo o k)) -> stands (m_heap m) s r ->
    mrun (held s0) later m = Some m' -> work o r <= count_occ Nat.eq_dec later i -> returned i m < returned i m'.
  Proof.
    intros H Hi Hr H' Hc. destruct start as (G & X & Es & Ev & HS). rewrite Es in H, H'.
    destruct (sim_run G sched (vminit slots rgs sts) _ _ _ _ HS eq_refl) as (m1 & vm & z & X' & Hr1 & HS' & Evm).
    rewrite H in Hr1. injection Hr1 as <-. rewrite (sim_t _ _ _ _ _ HS'), nth_error_map in Hi. destruct (nth_error X' i) as [x|] eqn:Hx; [|discriminate].
    injection Hi as Et. destruct (sim_idle _ _ _ _ _ _ _ _ _ HS' Hx Et) as (A & B & _).
    rewrite (stands_fun _ _ _ _ Hr A) in Hc. eapply wait_idle; eauto.
  Qed.

  (** ** C99: memory. Between calls, counts are exact and every live vector can be reached from a shared tree, a slot or a
      register (or is the one that all childless nodes share); once the slots and registers are empty, nothing is
      left but the shared trees. *)
  Definition between_calls (m : mach K V) (ts : list (regs (node K V) * strat K V)) : Prop :=
    m_threads m = map (fun '(s, st) => Idle s st) ts.
  (** the nodes that are not inside a vector *)
  Definition roots (m : mach K V) (ts : list (regs (node K V) * strat K V)) : list (node K V) :=
    held s0 ++ held (m_slots m) ++ flat_map (fun '(s, _) => held s) ts.

  Lemma roots_inv sched m ts : run sched = Some m -> between_calls m ts -> Inv (m_heap m) (static :: roots m ts) /\ den (m_heap m) static (Node [] None []).
  Proof.
    intros H Hb. destruct start as (G & X & Es & Ev & HS). rewrite Es in H.
    destruct (sim_run G sched (vminit slots rgs sts) _ _ _ _ HS eq_refl) as (m1 & vm & z & X' & Hr1 & HS' & Evm).
    rewrite H in Hr1. injection Hr1 as <-. destruct (sim_heap _ _ _ _ _ HS') as (Dn & I & Hsl).
    assert (D0 : den (m_heap m) static (Node [] None [])) by now inversion Dn. split; auto.
    unfold roots. rewrite Es. replace (flat_map (fun '(s, _) => held s) ts) with (fsts (owns (map c_R X'))); [exact I|].
    unfold between_calls in Hb. rewrite (sim_t _ _ _ _ _ HS') in Hb.
    assert (HX : forall i x s st, nth_error X' i = Some x -> c_t x = Idle s st -> fsts (r_own (c_R x)) = held s).
    { intros i x s st Hi Et. now destruct (sim_idle _ _ _ _ _ _ _ _ _ HS' Hi Et) as (_ & _ & A). }
    clear - Hb HX. revert ts Hb. induction X' as [|x X' IH]; intros [|[s st] ts] Hb; try discriminate; auto.
    cbn [map] in Hb. injection Hb as E1 E2. cbn [map owns flat_map]. rewrite fsts_app, (HX 0 x s st eq_refl E1). f_equal.
    apply IH; auto. intros i. apply (HX (S i)).
  Qed.
  Theorem C99_counts_exact (sched : list nat) m ts : run sched = Some m -> between_calls m ts ->
    forall a rc ns, h_cell (m_heap m) a = Some (rc, ns) ->
      rc = (if a =? 0 then 1 else 0) + list_sum (map (ref a) (roots m ts))
           + list_sum (map (fun b => match h_cell (m_heap m) b with Some (_, ms) => list_sum (map (ref a) ms) | None => 0 end) (seq 0 (h_next (m_heap m))))
      /\ 0 < rc.
  Proof.
    intros H Hb a rc ns Ha. destruct (roots_inv _ _ _ H Hb) as [I _]. pose proof (inv_count _ _ I a) as C. rewrite Ha in C. destruct C as [C P]. split; auto.
    rewrite cnt_cons in C. replace (ref a static) with (if a =? 0 then 1 else 0) in C by (destruct a; reflexivity). exact C.
  Qed.
  Theorem C99_live_is_reachable (sched : list nat) m ts : run sched = Some m -> between_calls m ts ->
    forall a, h_cell (m_heap m) a <> None -> a = 0 \/ exists x, In x (roots m ts) /\ reach (m_heap m) x a.
  Proof.
    intros H Hb a Ha. destruct (roots_inv _ _ _ H Hb) as [I D]. destruct (h_cell (m_heap m) a) as [[rc ns]|] eqn:Qa; [|congruence].
    destruct (live_reach _ _ I a rc ns Qa) as (x & [<-|Hx] & R); [left|eauto].
    inversion R as [? ? Hk|? b rb nb x b' Hk Hb' Hm R']; subst; [cbn in Hk; congruence|]. exfalso.
    cbn in Hk. injection Hk as <-. inversion D; subst. match goal with H : dens _ _ _ |- _ => inversion H; subst end.
    match goal with H : h_cell _ 0 = Some (_, []) |- _ => rewrite Hb' in H; injection H as -> -> end. easy.
  Qed.
  Theorem C99_no_leak (sched : list nat) m ts : run sched = Some m -> between_calls m ts ->
    held (m_slots m) = [] -> (forall s st, In (s, st) ts -> held s = []) ->
    (forall a, h_cell (m_heap m) a <> None -> a = 0 \/ exists x, In x (held s0) /\ reach (m_heap m) x a) /\
    (held s0 = [] -> forall a, h_cell (m_heap m) a = if a =? 0 then Some (1, []) else None).
  Proof.
    intros H Hb E1 E2. assert (Er : roots m ts = held s0).
    { unfold roots. rewrite E1. cbn [app]. replace (flat_map (fun '(s, _) => held s) ts) with (@nil (node K V)); [apply app_nil_r|].
      clear - E2. induction ts as [|[s st] ts IH]; auto. cbn [flat_map]. rewrite (E2 s st) by now left. apply IH. intros s' st' Hi. apply (E2 s' st'). now right. }
    assert (HR : forall a, h_cell (m_heap m) a <> None -> a = 0 \/ exists x, In x (held s0) /\ reach (m_heap m) x a).
    { rewrite <- Er. apply (C99_live_is_reachable sched m ts H Hb). }
    split; auto. intros E0.
    assert (HN : forall a, a <> 0 -> h_cell (m_heap m) a = None).
    { intros a Ha. destruct (h_cell (m_heap m) a) eqn:Q; auto. destruct (HR a) as [->|(x & Hx & _)]; [congruence|easy|]. rewrite E0 in Hx. easy. }
    intros a. destruct (Nat.eqb_spec a 0) as [->|N]; [|auto].
    destruct (roots_inv _ _ _ H Hb) as [I D]. inversion D as [|? ? ? rc ns ts' Hc Dn]; subst. inversion Dn; subst. rewrite Hc. do 2 f_equal.
    destruct (C99_counts_exact sched m ts H Hb 0 rc [] Hc) as [C _]. rewrite Er, E0 in C. cbn [Nat.eqb map list_sum fold_right] in C.
    rewrite C. cbn. f_equal. 
    assert (Z : forall l, list_sum (map (fun b => match h_cell (m_heap m) b with Some (_, ms) => list_sum (map (ref 0) ms) | None => 0 end) l) = 0).
    { induction l as [|b l IH]; auto. cbn [map list_sum fold_right]. unfold list_sum in IH at 1. rewrite IH.
      destruct (Nat.eq_dec b 0) as [->|N]; [now rewrite Hc|now rewrite HN]. }
    apply Z.
  Qed.
End Conc.

(** ** Concrete cases that meet the hypotheses *)
(** a shared tree with two children; two threads that clone it, change the clone below the root, look at both, and drop the clone *)
Definition demo_setup : list (op nat nat) :=
  [ONew [2] (Some 5) [] 0; ONew [3] (Some 6) [] 1; ONew [1] None [0; 1] 2].
Definition demo_thread (v : nat) : strat nat nat :=
  SDo (CGet (Shared 0) [] 0) (fun _ => SDo (CValue 0 [0] (Some v)) (fun _ => SDo (CLook (Own 0) [0]) (fun _ => SDo (CLook (Shared 0) [0]) (fun _ =>
  SDo (CDrop 0) (fun _ => SEnd))))).
Example demo_setup_valid : exists vs h0 s0, vrun demo_setup (repeat None 3) = Some vs /\ hrun true demo_setup (hinit 3) = Some (h0, s0) /\
  held vs = [Node [1] None [Node [2] (Some 5) []; Node [3] (Some 6) []]].
Proof. eexists _, _, _. split; [now vm_compute|]. split; now vm_compute. Qed.
(** strictly alternating: both see their own change and the unchanged shared tree *)
Example demo_alternating : exists h0 s0 m, hrun true demo_setup (hinit 3) = Some (h0, s0) /\
  mrun (held s0) (concat (repeat [0; 1] 40)) (minit h0 1 2 [demo_thread 7; demo_thread 8]) = Some m /\
  rev (m_log m) = [(0, AOk); (1, AOk); (0, AOk); (1, AOk); (0, ASaw [2] (Some 7) 0); (1, ASaw [2] (Some 8) 0);
                   (0, ASaw [2] (Some 5) 0); (1, ASaw [2] (Some 5) 0); (0, AOk); (1, AOk)] /\
  m_threads m = [Idle [None; None] SEnd; Idle [None; None] SEnd].
Proof. eexists _, _, _. split; [now vm_compute|]. split; [now vm_compute|]. split; now vm_compute. Qed.
(** one thread makes a tree, keeps it and sends a clone to the other; then both change theirs at the same time. Both find the vector
    (address 1) shared and copy it, and the later of the two frees it *)
Definition demo_sender : strat nat nat :=
  SDo (CFrom (Node [1] None [Node [2] (Some 5) []]) 0) (fun _ => SDo (CGet (Own 0) [] 1) (fun _ => SDo (CSend 1 0) (fun _ =>
  SDo (CRemove 0 [] 0 1) (fun _ => SDo (CDrop 0) (fun _ => SDo (CDrop 1) (fun _ => SEnd)))))).
Definition demo_receiver : strat nat nat :=
  SDo (CRecv 0 0) (fun _ => SDo (CValue 0 [0] (Some 8)) (fun _ => SDo (CLook (Own 0) [0]) (fun _ => SDo (CDrop 0) (fun _ => SEnd)))).
Definition demo_race := repeat 0 8 ++ [1] ++ concat (repeat [0; 1] 4).
Example demo_both_copy : exists m, mrun [] demo_race (minit (fst (@hinit nat nat 0)) 1 2 [demo_sender; demo_receiver]) = Some m /\
  h_cell (m_heap m) 1 = Some (2, [MkN [2] (Some 5) (inr 0)]) /\
  exists m', mrun [] (concat (repeat [0; 1] 4)) m = Some m' /\ h_cell (m_heap m') 1 = None /\
  exists m'', mrun [] (concat (repeat [0; 1] 30)) m' = Some m'' /\ m_threads m'' = [Idle [None; None] SEnd; Idle [None; None] SEnd] /\
    rev (m_log m'') = [(0, AOk); (0, AOk); (0, AOk); (1, AOk); (0, AOk); (1, AOk); (0, AOk); (0, AOk); (1, ASaw [2] (Some 8) 0); (1, AOk)] /\
    h_cell (m_heap m'') 0 = Some (1, []) /\ h_next (m_heap m'') = 4.
Proof.
  eexists. split; [now vm_compute|]. split; [now vm_compute|]. eexists. split; [now vm_compute|]. split; [now vm_compute|].
  eexists. split; [now vm_compute|]. split; [now vm_compute|]. split; [now vm_compute|]. split; now vm_compute.
Qed.
(** the machine does detect undefined behaviour: reading a vector that another thread has exclusively borrowed, or that is freed *)
Example demo_detects : let h := MkH 2 (fun a => if a =? 1 then Some (1, [MkN [2] (Some 5) (inl [])]) else None) : heap nat nat in
  mrun [] [0; 1] (MkM h [] [Busy (PUniq 1 (fun _ => PFault)) (fun _ => SEnd); Busy (PRead 1 (fun _ => PFault)) (fun _ => SEnd)] []) = None /\
  mrun [] [0; 1] (MkM h [] [Busy (PDec 1 (fun _ => PFault)) (fun _ => SEnd); Busy (PInc 1 PFault) (fun _ => SEnd)] []) = None.
Proof. split; now vm_compute. Qed.
(** the bound of C98 for a concrete call: two nodes owned, a path of length one *)
Example demo_work : work (CValue 0 [0] (Some 8)) [Some (Node [1] None [Node [2] (Some 5) []]); None] = 30.
Proof. reflexivity. Qed.

Print Assumptions C97_threads_are_linearizable.
Print Assumptions C97_order_is_real_time.
Print Assumptions C98_calls_are_wait_free.
Print Assumptions C99_counts_exact.
Print Assumptions C99_live_is_reachable.
Print Assumptions C99_no_leak.
