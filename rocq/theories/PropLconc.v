(** Property C129: LazyRadixTrees used by several threads at once.

    [sts] are the threads: arbitrary programs that choose their next call by the answers to the previous ones. [sched] says
    which thread makes the next atomic access to a reference-counted vector or to the mutex of a Lazy in one. Trees get from
    thread to thread through slots (mutexes around an optional tree).
    [mrun] (LconcModel.v) is [None] after a data race, a use after free or a double free, or when get_or_create reads the
    children of a node that are not loaded and panics. The specification is the machine of LconcSpec.v ([vmrun]): plain trees,
    nothing shared, nothing to load, every call one indivisible step. *)
From Coq Require Import Permutation.
From Verif Require Export LconcRun.

Section Lconc.
  Context {K V : Type}.
  Notation tree := (rtree K V).
  Notation ent := (node K V * tree)%type.
  Context (slots rgs : nat) (sts : list (strat K V)).
  Notation run sched := (mrun sched (minit slots rgs sts)).

  Lemma held_repeat {X} k : held (repeat (@None X) k) = [].
  Proof. induction k; auto. Qed.
  Lemma rmap_repeat {X Y} (f : X -> Y) k : rmap f (repeat None k) = repeat None k.
  Proof. induction k; cbn; auto. now f_equal. Qed.

  Lemma start : exists X, Sim (minit slots rgs sts) (vminit slots rgs sts) (repeat None slots) X.
  Proof.
    exists (map (fun st => MkC 0 (Idle (repeat None rgs) st) (MkR [] [] [] []) (repeat None rgs, st)) sts).
    assert (Eo : forall l : list (strat K V), owns (map c_R (map (fun st => MkC 0 (Idle (repeat None rgs) st) (MkR [] [] [] []) (repeat None rgs, st)) l)) = [] /\
                        bors (map c_R (map (fun st => @MkC K V 0 (Idle (repeat None rgs) st) (MkR [] [] [] []) (repeat None rgs, st)) l)) = []).
    { induction l as [|st l [IH1 IH2]]; auto. }
    constructor; cbn [minit vminit m_heap m_slots m_threads m_log v_slots v_threads v_log].
    - rewrite held_repeat. set (X := map _ sts).
      assert (Hall : forall R, In R (MkR [] [] [] [] :: map c_R X) -> R = MkR [] [] [] []).
      { intros R [<-|Hi]; auto. unfold X in Hi. rewrite map_map in Hi. apply in_map_iff in Hi as (st & <- & _). reflexivity. }
      intros R Os P. assert (R = MkR [] [] [] []) as -> by (apply Hall; eapply Permutation_in; [symmetry; exact P|now left]).
      assert (Z : owns Os = [] /\ bors Os = []).
      { assert (Ho : forall R, In R Os -> R = MkR [] [] [] []) by (intros R Hi; apply Hall; eapply Permutation_in; [symmetry; exact P|now right]).
        clear P. induction Os as [|R Os IH]; auto. cbn [owns bors flat_map]. rewrite (Ho R) by now left. apply IH. intros R' Hi. apply Ho. now right. }
      destruct Z as [-> ->]. apply plain_st. cbn [fsts snds map fst snd app r_own]. split; [|split; [constructor|split; [constructor|split; [constructor|easy]]]].
      constructor; auto; easy.
    - now rewrite rmap_repeat.
    - now rewrite rmap_repeat.
    - now rewrite map_map.
    - now rewrite map_map.
    - reflexivity.
    - rewrite Forall_forall. intros x Hi. apply in_map_iff in Hi as (st & <- & _). exists (repeat None rgs). cbn [c_t c_v c_R].
      now rewrite !rmap_repeat, held_repeat.
  Qed.

  (** ** No schedule of any threads leads to a data race, a use after free, a double free or a panic of get_or_create; and what
      the threads have seen is what they see when the calls are indivisible, on plain trees that are not shared and have
      nothing to load, in the order in which the calls returned. The slots and the threads between calls hold the same trees
      as there, a thread inside a call is just before that call there. *)
  Theorem C129_threads_are_linearizable (sched : list nat) :
    exists m, run sched = Some m /\
      let c := vmrun (rev (map fst (m_log m))) (vminit slots rgs sts) in
      m_log m = v_log c /\ stands (m_heap m) (m_slots m) (v_slots c) /\
      Forall2 (fun t '(r, st) => match t with
                                 | Idle s st' => stands (m_heap m) s r /\ st' = st
                                 | Busy _ k => exists o, st = SDo o k
                                 end) (m_threads m) (v_threads c).
  Proof.
    destruct start as (X & HS).
    destruct (sim_run sched (vminit slots rgs sts) _ _ _ _ HS eq_refl) as (m & vm & z & X' & Hr & HS' & Evm). exists m. split; auto.
    rewrite <- Evm. cbv zeta. destruct (sim_heap _ _ _ _ HS') as (_ & Hsl). pose proof HS' as [Hg _ _ Ht Hv Hlog Hthr].
    split; auto. split; auto. rewrite Ht, Hv. clear Hr Evm.
    assert (HX : forall i x, nth_error X' i = Some x -> match c_t x with Idle s st' => stands (m_heap m) s (fst (c_v x)) /\ st' = snd (c_v x) | Busy _ k => exists o, snd (c_v x) = SDo o k end).
    { intros i x Hi. destruct (c_t x) as [s st|p k] eqn:Et.
      - destruct (sim_idle _ _ _ _ _ _ _ _ HS' Hi Et) as (A & B & _). auto.
      - assert (Tx : thr x) by (rewrite Forall_forall in Hthr; apply Hthr; eapply nth_error_In; eauto).
        unfold thr in Tx. rewrite Et in Tx. destruct Tx as (o & z1 & _ & Q & _). exists o. now rewrite Q. }
    clear - HX. induction X' as [|x X' IH]; cbn [map]; constructor.
    - specialize (HX 0 x eq_refl). destruct (c_v x). exact HX.
    - apply IH. intros i. apply (HX (S i)).
  Qed.
  (** the order respects real time: a call that has returned stays before all calls that return later *)
  Theorem C129_order_is_real_time (sched later : list nat) (m m' : mach K V) :
    run sched = Some m -> mrun later m = Some m' -> exists l, rev (map fst (m_log m')) = rev (map fst (m_log m)) ++ l.
  Proof. intros _ H. destruct (log_run _ _ _ H) as (l & E). exists (rev (map fst l)). now rewrite E, map_app, rev_app_distr. Qed.

  (** ** However the other threads interfere, a call returns after a number of accesses of its own thread (a critical section
      counting as one) that depends only on the sizes of the trees its thread owns, the length of the path, and (From) the
      size of the argument. *)
  Theorem C129_calls_take_bounded_steps (sched later : list nat) (m m' : mach K V) (i : nat) (s : regs (node K V)) (r : regs tree) o k :
    run sched = Some m -> nth_error (m_threads m) i = Some (Idle s (SDo o k)) -> stands (m_heap m) s r ->
    mrun later m = Some m' -> work o r <= count_occ Nat.eq_dec later i -> returned i m < returned i m'.
  Proof.
    intros H Hi Hr H' Hc. destruct start as (X & HS).
    destruct (sim_run sched (vminit slots rgs sts) _ _ _ _ HS eq_refl) as (m1 & vm & z & X' & Hr1 & HS' & Evm).
    rewrite H in Hr1. injection Hr1 as <-. rewrite (sim_t _ _ _ _ HS'), nth_error_map in Hi. destruct (nth_error X' i) as [x|] eqn:Hx; [|discriminate].
    injection Hi as Et. destruct (sim_idle _ _ _ _ _ _ _ _ HS' Hx Et) as (A & B & _).
    rewrite (stands_fun _ _ _ _ Hr A) in Hc. eapply wait_idle; eauto.
  Qed.

  (** ** Memory. Between calls, counts are exact and every live vector can be reached from a slot or a register; once the slots
      and registers are empty, nothing is left. *)
  Definition between_calls (m : mach K V) (ts : list (regs (node K V) * strat K V)) : Prop :=
    m_threads m = map (fun '(s, st) => Idle s st) ts.
  (** the nodes that are not inside a vector *)
  Definition roots (m : mach K V) (ts : list (regs (node K V) * strat K V)) : list (node K V) :=
    held (m_slots m) ++ flat_map (fun '(s, _) => held s) ts.

  Lemma roots_inv sched m ts : run sched = Some m -> between_calls m ts -> Inv (m_heap m) (roots m ts).
  Proof.
    intros H Hb. destruct start as (X & HS).
    destruct (sim_run sched (vminit slots rgs sts) _ _ _ _ HS eq_refl) as (m1 & vm & z & X' & Hr1 & HS' & Evm).
    rewrite H in Hr1. injection Hr1 as <-. destruct (sim_heap _ _ _ _ HS') as (I & Hsl).
    unfold roots. replace (flat_map (fun '(s, _) => held s) ts) with (fsts (owns (map c_R X'))); [exact I|].
    unfold between_calls in Hb. rewrite (sim_t _ _ _ _ HS') in Hb.
    assert (HX : forall i x s st, nth_error X' i = Some x -> c_t x = Idle s st -> fsts (r_own (c_R x)) = held s).
    { intros i x s st Hi Et. now destruct (sim_idle _ _ _ _ _ _ _ _ HS' Hi Et) as (_ & _ & A). }
    clear - Hb HX. revert ts Hb. induction X' as [|x X' IH]; intros [|[s st] ts] Hb; try discriminate; auto.
    cbn [map] in Hb. injection Hb as E1 E2. cbn [map owns flat_map]. rewrite fsts_app, (HX 0 x s st eq_refl E1). f_equal.
    apply IH; auto. intros i. apply (HX (S i)).
  Qed.
  Theorem C129_counts_exact (sched : list nat) m ts : run sched = Some m -> between_calls m ts ->
    forall a rc ns, h_cell (m_heap m) a = Some (rc, ns) ->
      rc = list_sum (map (ref a) (roots m ts))
           + list_sum (map (fun b => match h_cell (m_heap m) b with Some (_, ms) => list_sum (map (ref a) ms) | None => 0 end) (seq 0 (h_next (m_heap m))))
      /\ 0 < rc.
  Proof.
    intros H Hb a rc ns Ha. pose proof (roots_inv _ _ _ H Hb) as I. pose proof (inv_count _ _ I a) as C. rewrite Ha in C. exact C.
  Qed.
  Theorem C129_live_is_reachable (sched : list nat) m ts : run sched = Some m -> between_calls m ts ->
    forall a, h_cell (m_heap m) a <> None -> exists x, In x (roots m ts) /\ reach (m_heap m) x a.
  Proof.
    intros H Hb a Ha. pose proof (roots_inv _ _ _ H Hb) as I. destruct (h_cell (m_heap m) a) as [[rc ns]|] eqn:Qa; [|congruence].
    destruct (live_reach _ _ I a rc ns Qa) as (x & Hx & R). eauto.
  Qed.
  Theorem C129_no_leak (sched : list nat) m ts : run sched = Some m -> between_calls m ts ->
    held (m_slots m) = [] -> (forall s st, In (s, st) ts -> held s = []) -> forall a, h_cell (m_heap m) a = None.
  Proof.
    intros H Hb E1 E2. assert (Er : roots m ts = []).
    { unfold roots. rewrite E1. cbn [app].
      clear - E2. induction ts as [|[s st] ts IH]; auto. cbn [flat_map]. rewrite (E2 s st) by now left. apply IH. intros s' st' Hi. apply (E2 s' st'). now right. }
    intros a. destruct (h_cell (m_heap m) a) eqn:Q; auto. destruct (C129_live_is_reachable sched m ts H Hb a) as (x & Hx & _); [congruence|].
    rewrite Er in Hx. easy.
  Qed.
End Lconc.

(** ** Concrete cases that meet the hypotheses *)
(** one thread takes a tree out of an archive, clones it and sends the clone to the other; both then look at the child that
    neither has loaded, change its value, look again and drop their tree *)
Definition demo_tree : rtree nat nat := Node [1] None [Node [2] (Some 5) [Node [3] (Some 6) []]].
Definition demo_sender : strat nat nat :=
  SDo (CArchive demo_tree 0) (fun _ => SDo (CLook 0 []) (fun _ => SDo (CGet 0 [] 1) (fun _ => SDo (CSend 1 0) (fun _ =>
  SDo (CLook 0 [0]) (fun _ => SDo (CValue 0 [0] (Some 7)) (fun _ => SDo (CLook 0 [0]) (fun _ => SDo (CDrop 0) (fun _ => SEnd)))))))).
Definition demo_receiver : strat nat nat :=
  SDo (CRecv 0 0) (fun _ => SDo (CLook 0 [0]) (fun _ => SDo (CValue 0 [0] (Some 8)) (fun _ => SDo (CLook 0 [0; 0]) (fun _ => SDo (CDrop 0) (fun _ => SEnd))))).
Definition demo_before := repeat 0 12 ++ [1].
(** the vector at 0 is shared and its node is not loaded; eight accesses later each thread has loaded it, or found it loaded, and
    seen it; later the one that is done last with the vector at 0 frees it, while both trees share the vector at 1 *)
Example demo_race : exists m, mrun demo_before (minit 1 2 [demo_sender; demo_receiver]) = Some m /\
  h_cell (m_heap m) 0 = Some (2, [MkN [2] (Some 5) (inl [Node [3] (Some 6) []])]) /\ h_next (m_heap m) = 1 /\
  exists m1, mrun (concat (repeat [0; 1] 8)) m = Some m1 /\
    h_cell (m_heap m1) 0 = Some (2, [MkN [2] (Some 5) (inr 1)]) /\ h_cell (m_heap m1) 1 = Some (1, [MkN [3] (Some 6) (inl [])]) /\ h_next (m_heap m1) = 2 /\
    exists m2, mrun (concat (repeat [0; 1] 10)) m1 = Some m2 /\ h_cell (m_heap m2) 0 = None /\
      h_cell (m_heap m2) 2 = Some (1, [MkN [2] (Some 7) (inr 1)]) /\ h_cell (m_heap m2) 3 = Some (1, [MkN [2] (Some 8) (inr 1)]) /\
      exists m3, mrun (concat (repeat [0; 1] 30)) m2 = Some m3 /\ m_threads m3 = [Idle [None; None] SEnd; Idle [None; None] SEnd] /\
        rev (m_log m3) = [(0, AOk); (0, ASaw [1] None 1); (0, AOk); (0, AOk); (1, AOk); (0, ASaw [2] (Some 5) 1); (1, ASaw [2] (Some 5) 1);
                          (0, AOk); (1, AOk); (0, ASaw [2] (Some 7) 1); (0, AOk); (1, ASaw [3] (Some 6) 0); (1, AOk)] /\
        map (h_cell (m_heap m3)) (seq 0 (h_next (m_heap m3))) = repeat None 5.
Proof.
  eexists. split; [now vm_compute|]. split; [now vm_compute|]. split; [now vm_compute|]. eexists. split; [now vm_compute|].
  split; [now vm_compute|]. split; [now vm_compute|]. split; [now vm_compute|]. eexists. split; [now vm_compute|].
  split; [now vm_compute|]. split; [now vm_compute|]. split; [now vm_compute|]. eexists. split; [now vm_compute|].
  split; [now vm_compute|]. split; now vm_compute.
Qed.
(** the machine does detect undefined behaviour: reading a vector that another thread has exclusively borrowed or that is freed,
    and taking the children of a node that are not loaded *)
Example demo_detects : let h := MkH 2 (fun a => if a =? 1 then Some (1, [MkN [2] (Some 5) (inl [])]) else None) : heap nat nat in
  mrun [0; 1] (MkM h [] [Busy (PUniq 1 (fun _ => PFault)) (fun _ => SEnd); Busy (PSums 1 (fun _ => PFault)) (fun _ => SEnd)] []) = None /\
  mrun [0; 1] (MkM h [] [Busy (PDec 1 (fun _ => PFault)) (fun _ => SEnd); Busy (PForce 1 0 PFault) (fun _ => SEnd)] []) = None /\
  mrun [0] (MkM h [] [Busy (PKids 1 0 (fun _ => PFault)) (fun _ => SEnd)] []) = None.
Proof. split; [|split]; now vm_compute. Qed.
(** the bound for a concrete call: two nodes owned, a path of length one *)
Example demo_work : work (CValue 0 [0] (Some 8)) [Some (Node [1] None [Node [2] (Some 5) []]); None] = 30.
Proof. reflexivity. Qed.

Print Assumptions C129_threads_are_linearizable.
Print Assumptions C129_order_is_real_time.
Print Assumptions C129_calls_take_bounded_steps.
Print Assumptions C129_counts_exact.
Print Assumptions C129_live_is_reachable.
Print Assumptions C129_no_leak.
