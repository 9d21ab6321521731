(** C117: LazyRadixTrees read and cloned by several threads at once. *)
From Verif Require Import RadixFacts HeapFrame.
From Verif Require Export LazyTreeFacts.

Section C117.
  Context {K V X : Type}.
  Notation tree := (rtree K V).
  (** an execution of the programs [ws] on trees [ts] that the memory [m] holds, and what it loaded *)
  Definition lreach (bad : list tree -> Prop) (m : lmem K V) (roots : list (lnode K V)) (ts : list tree)
      (ws : list (walk K V X)) (ld : list nat) (s : lst K V X) : Prop :=
    unlocked m /\ Forall2 (shows m) roots ts /\ lexec bad (lstart m roots ws) ld s.

  Lemma reach_inv bad m roots ts ws ld s : lreach bad m roots ts ws ld s -> linv bad ws ts s ld.
  Proof. intros (U & F & E). eapply linv_exec; [exact E|]. now apply linv_start. Qed.
  Lemma reach_thr bad m roots ts ws ld s i t : lreach bad m roots ts ws ld s -> nth_error (s_thr s) i = Some t ->
    exists w, nth_error ws i = Some w /\ thr_ok bad ts w i (s_mem s) t.
  Proof.
    intros R Ht. destruct (reach_inv _ _ _ _ _ _ _ R) as [I1 I2 _ _]. destruct (nth_error ws i) as [w|] eqn:W.
    - exists w. split; [auto|]. eapply I2; eauto.
    - apply nth_error_None in W. apply nth_lt in Ht. lia.
  Qed.

  (** what a thread has answered is what its program answers when it runs alone on the plain trees, except that loading
      children may panic as user code does *)
  Theorem C117_answers_with_panics bad m roots ts ws ld s i w t x : lreach bad m roots ts ws ld s ->
    nth_error ws i = Some w -> nth_error (s_thr s) i = Some t -> answered t x -> yields bad w ts x.
  Proof.
    intros R W Ht (A1 & A2). destruct (reach_thr _ _ _ _ _ _ _ _ _ R Ht) as (w' & W' & ((env & _ & Y) & _)).
    rewrite W in W'. injection W' as <-. apply Y. rewrite A1. constructor.
  Qed.
  Lemma yields_eval (w : walk K V X) env x : yields (fun _ => False) w env x -> x = eval w env.
  Proof.
    induction 1 as [x env|r k env t x H _ IH|r k env t x H [] _ _|r k env x H _ IH|r k env t x H _ IH|r k env x H _ IH]; cbn [eval]; try rewrite H; auto.
  Qed.
  Theorem C117_answers m roots ts ws ld s i w t x : lreach (fun _ => False) m roots ts ws ld s ->
    nth_error ws i = Some w -> nth_error (s_thr s) i = Some t -> answered t x -> x = eval w ts.
  Proof. intros R W Ht A. eapply yields_eval, C117_answers_with_panics; eauto. Qed.

  (** the children of a node are loaded from the archive at most once, also when loads have panicked before *)
  Theorem C117_loaded_once bad m roots ts ws ld s c : lreach bad m roots ts ws ld s -> count_occ Nat.eq_dec ld c <= 1.
  Proof. intros R. apply (reach_inv _ _ _ _ _ _ _ R). Qed.

  (** no thread writes the data of a Lazy while another is about to write or read it *)
  Theorem C117_no_race bad m roots ts ws ld s i j ti tj c : lreach bad m roots ts ws ld s ->
    nth_error (s_thr s) i = Some ti -> nth_error (s_thr s) j = Some tj -> i <> j ->
    lwrites (t_at ti) c -> ~ lwrites (t_at tj) c /\ ~ lreads (t_at tj) c.
  Proof.
    intros R Hi Hj N (a & Pi). destruct (reach_thr _ _ _ _ _ _ _ _ _ R Hi) as (_ & _ & (_ & Ai)).
    destruct (reach_thr _ _ _ _ _ _ _ _ _ R Hj) as (_ & _ & (_ & Aj)). unfold at_ok in *. rewrite Pi in Ai.
    destruct Ai as (_ & us & ns & Ci & _). unfold cell_is in *. split.
    - intros (a' & Pj). rewrite Pj in Aj. destruct Aj as (_ & us' & ns' & Cj & _). congruence.
    - intros [Pj|[Pj|(n & Pj & <-)]]; rewrite Pj in Aj; destruct Aj as (_ & Aj).
      + destruct Aj as (d & Cj). congruence.
      + destruct Aj as (l & a' & Cj). congruence.
      + destruct Aj as (d & Cj). congruence.
  Qed.

  (** the read without the mutex always finds loaded children (the panic!() of line 312 never runs) *)
  Theorem C117_read_finds_children bad m roots ts ws ld s i t c : lreach bad m roots ts ws ld s ->
    nth_error (s_thr s) i = Some t -> t_at t = Rd c ->
    exists l a ns, nth_error (m_cells (s_mem s)) c = Some (MkL l (inr a)) /\ nth_error (m_vecs (s_mem s)) a = Some ns.
  Proof.
    intros R Ht P. destruct (reach_thr _ _ _ _ _ _ _ _ _ R Ht) as (w & _ & ((env & F & _) & A)). unfold at_ok in A. rewrite P in A.
    destruct A as ((r & k & n & W & Hr & Hn) & l & a & Hd). destruct (seen_kids t (s_mem s) env r n c F Hr Hn) as (u & Hu & l1 & d1 & Hc1 & S1).
    unfold cell_is in *. rewrite Hd in Hc1. injection Hc1 as _ <-. destruct S1 as (ns & Hv & _). eauto.
  Qed.

  (** a thread that holds a mutex can go on *)
  Lemma holder_steps bad ts w i m (t : lthread K V X) c : thr_ok bad ts w i m t -> locks (t_at t) = Some c ->
    exists m' t' l, lstep i false m t = Some (m', t', l).
  Proof.
    intros (_ & A) Lk. unfold at_ok in A. unfold lstep. destruct (t_at t) as [|c'|c'|c' us|c' a|c'|c'|c'|n|n|n d]; try discriminate.
    - destruct A as (_ & d & Hd). unfold cell_is in Hd. rewrite Hd. destruct d; eauto.
    - destruct (m_shallow m us) as [m1 a]. eauto.
    - destruct A as (_ & us & ns & Hd & _). unfold cell_is in Hd. rewrite Hd. eauto.
    - destruct A as ((r & k & n & W & _) & us & Hd & _). unfold cell_is in Hd. rewrite Hd, W. eauto.
    - destruct A as (_ & a & Hd). unfold cell_is in Hd. rewrite Hd. eauto.
    - destruct A as (_ & d & Hd). unfold cell_is in Hd. rewrite Hd. eauto.
    - destruct A as ((r & k & W & _) & Hd). unfold cell_is in Hd. rewrite Hd, W. eauto.
  Qed.
  (** as long as one thread has not answered, one can step, and need not panic *)
  Theorem C117_no_deadlock bad m roots ts ws ld s i t : lreach bad m roots ts ws ld s ->
    nth_error (s_thr s) i = Some t -> (forall x, ~ answered t x) -> exists l s', lsteps bad s l s'.
  Proof.
    intros R Ht NA. pose proof (reach_inv _ _ _ _ _ _ _ R) as [_ _ I3 _]. destruct s as [mm thr]. cbn [s_mem s_thr] in *.
    assert (GO : forall j u, nth_error thr j = Some u -> (exists m' t' l, lstep j false mm u = Some (m', t', l)) -> exists l s', lsteps bad (MkLs mm thr) l s').
    { intros j u Hu (m' & t' & l & H). exists l. eexists. eapply ls_step; [exact Hu|exact H|discriminate]. }
    assert (HOLD : forall c l d j, nth_error (m_cells mm) c = Some (MkL l d) -> l = Some j -> exists l' s', lsteps bad (MkLs mm thr) l' s').
    { intros c l d j Hc ->. destruct (I3 c _ j Hc eq_refl) as (u & Hu & Lk). destruct (reach_thr _ _ _ _ _ _ _ _ _ R Hu) as (w & _ & Ok).
      apply (GO j u Hu). eapply holder_steps; eauto. }
    destruct (reach_thr _ _ _ _ _ _ _ _ _ R Ht) as (w & _ & Ok). cbn [s_mem] in Ok.
    destruct (locks (t_at t)) as [c|] eqn:Lk; [apply (GO i t Ht); eapply holder_steps; eauto|].
    destruct Ok as ((env & F & _) & A). unfold at_ok in A. destruct (t_at t) as [|c|c|c us|c a|c|c|c|n|n|n d] eqn:P; try discriminate.
    - apply (GO i t Ht). unfold lstep. rewrite P. destruct (t_walk t) as [x|r k|r k] eqn:W.
      + exfalso. apply (NA x). split; auto.
      + destruct (nth_error (t_seen t) r); eauto.
      + destruct (nth_error (t_seen t) r); eauto.
    - destruct A as (r & k & n & W & Hr & Hn). destruct (seen_kids t mm env r n c F Hr Hn) as (u & Hu & l1 & d1 & Hc1 & S1). unfold cell_is in Hc1.
      destruct l1 as [j|]; [eapply HOLD; eauto|]. apply (GO i t Ht). unfold lstep. rewrite P, Hc1. eauto.
    - destruct (C117_read_finds_children _ _ _ _ _ _ _ _ _ _ R Ht P) as (l & a & ns & Hc & Hv). cbn [s_mem] in *.
      destruct A as ((r & k & n & W & _) & _). apply (GO i t Ht). unfold lstep. rewrite P, Hc, W, Hv. eauto.
    - destruct A as (r & k & W & Hr). destruct (seen_kids t mm env r n (snd n) F Hr eq_refl) as (u & Hu & l1 & d1 & Hc1 & S1). unfold cell_is in Hc1.
      destruct l1 as [j|]; [eapply HOLD; eauto|]. apply (GO i t Ht). unfold lstep. rewrite P, Hc1. eauto.
  Qed.

  (** ** Every execution ends *)
  Definition rank (p : at_ K V) : nat :=
    match p with
    | Between => 8 | Want _ => 7 | CWant _ => 7 | Crit _ => 6 | CCrit _ => 6 | Run _ _ => 5 | CRel _ _ => 5 | Wr _ _ => 4 | Unwind _ => 4 | Rel _ => 3 | Rd _ => 2
    end.
  Definition sub_walk (w' w : walk K V X) : Prop :=
    match w with Answer _ => False | Kids _ k => exists o, w' = k o | Copy _ k => w' = k end.
  Lemma sub_wf : well_founded sub_walk.
  Proof.
    intros w. induction w as [x|r k IH|r k IH]; constructor; cbn [sub_walk]; [easy| |].
    - intros w' (o & ->). apply IH.
    - intros w' ->. exact IH.
  Qed.
  Definition thr_lt (t' t : lthread K V X) : Prop :=
    sub_walk (t_walk t') (t_walk t) \/ (t_walk t' = t_walk t /\ rank (t_at t') < rank (t_at t)).
  Lemma thr_wf : well_founded thr_lt.
  Proof.
    intros [w s p]. revert s p. induction (sub_wf w) as [w _ IHw]. intros s p. remember (rank p) as n eqn:E. revert s p E.
    induction (lt_wf n) as [n _ IHn]. intros s p ->. constructor. intros [w' s' p'] [H|(H1 & H2)]; cbn [t_walk t_at] in *.
    - now apply IHw.
    - subst w'. eapply IHn; [exact H2|reflexivity].
  Qed.
  Lemma step_lt i crash (m : lmem K V) (t : lthread K V X) m' t' l : lstep i crash m t = Some (m', t', l) -> thr_lt t' t.
  Proof.
    unfold lstep, thr_lt. intros H. destruct (t_at t) as [|c|c|c us|c a|c|c|c|n|n|n d] eqn:P;
      repeat match type of H with
             | context [match ?x with _ => _ end] => first [destruct x eqn:? | discriminate H]
             | Some _ = Some _ => injection H as <- <- <-
             end; try discriminate; cbn [t_walk t_at rank sub_walk]; try (right; split; [congruence|lia]); left; eauto.
  Qed.
  Definition one_less (l' l : list (lthread K V X)) : Prop := exists i t t', nth_error l i = Some t /\ thr_lt t' t /\ l' = set_nth i t' l.
  Lemma list_acc l : Acc one_less l.
  Proof.
    induction l as [|t l IH].
    - constructor. intros l' ([|i] & t & t' & H & _); discriminate.
    - revert t. induction IH as [l _ IHl]. intros t. induction (thr_wf t) as [t _ IHt]. constructor. intros l' ([|i] & u & u' & H & L & ->); cbn [nth_error] in H.
      + injection H as ->. change (set_nth 0 u' (u :: l)) with (u' :: l). now apply IHt.
      + change (set_nth (S i) u' (t :: l)) with (t :: set_nth i u' l). apply IHl. exists i, u, u'. auto.
  Qed.
  Theorem C117_terminates bad (s : lst K V X) : Acc (fun s' s => exists l, lsteps bad s l s') s.
  Proof.
    destruct s as [m thr]. revert m. induction (list_acc thr) as [thr _ IH]. intros m. constructor. intros s' (l & H).
    inversion H as [i crash m0 thr0 t m' t' l' Ht Hs Hb]; subst. apply IH. exists i, t, t'. split; [auto|]. split; [|auto]. eapply step_lt; eauto.
  Qed.
  (** the same in other words: there is no infinite execution *)
  Theorem C117_no_infinite_run bad (f : nat -> lst K V X) : ~ forall n, exists l, lsteps bad (f n) l (f (S n)).
  Proof.
    intros H. assert (G : forall s, Acc (fun s' s => exists l, lsteps bad s l s') s -> forall n, f n = s -> False).
    { intros s A. induction A as [s _ IH]. intros n <-. exact (IH (f (S n)) (H n) (S n) eq_refl). }
    exact (G _ (C117_terminates bad (f 0)) 0 eq_refl).
  Qed.
  (** an execution that cannot be continued has answered everywhere: with C117_answers, every thread gets the answer of its
      program on the plain trees, whatever the schedule *)
  Theorem C117_all_answer m roots ts ws ld s : lreach (fun _ => False) m roots ts ws ld s ->
    (forall l s', ~ lsteps (fun _ => False) s l s') ->
    length (s_thr s) = length ws /\
    forall i w, nth_error ws i = Some w -> exists t, nth_error (s_thr s) i = Some t /\ answered t (eval w ts).
  Proof.
    intros R End. pose proof (li_len _ _ _ _ _ (reach_inv _ _ _ _ _ _ _ R)) as Len. split; [exact Len|]. intros i w W.
    destruct (nth_error (s_thr s) i) as [t|] eqn:Ht; [|apply nth_error_None in Ht; apply nth_lt in W; lia]. exists t. split; [reflexivity|].
    destruct (t_walk t) as [x|r k|r k] eqn:Q.
    - destruct (t_at t) eqn:P; try (exfalso; destruct (C117_no_deadlock _ _ _ _ _ _ _ _ _ R Ht) as (l & s' & H); [intros y (_ & Hy); congruence|exact (End l s' H)]).
      assert (A : answered t x) by (split; auto). now rewrite <- (C117_answers _ _ _ _ _ _ _ _ _ _ R W Ht A).
    - exfalso. destruct (C117_no_deadlock _ _ _ _ _ _ _ _ _ R Ht) as (l & s' & H); [intros y (Hy & _); congruence|exact (End l s' H)].
    - exfalso. destruct (C117_no_deadlock _ _ _ _ _ _ _ _ _ R Ht) as (l & s' & H); [intros y (Hy & _); congruence|exact (End l s' H)].
  Qed.
End C117.

Section C117Start.
  Context {K V : Type}.
  Notation tree := (rtree K V).
  (** a lazily or eagerly made LazyRadixTree holds its tree, nobody holds a mutex, and what memory held before is still held *)
  Lemma unlocked_more (m : lmem K V) cs vs : unlocked m -> (forall x, In x cs -> l_lock x = None) -> unlocked (MkMem (m_cells m ++ cs) vs).
  Proof.
    intros U Q c x H. cbn [m_cells] in H. destruct (lt_dec c (length (m_cells m))).
    - rewrite nth_error_app1 in H by auto. eauto.
    - rewrite nth_error_app2 in H by lia. apply Q. eapply nth_error_In; eauto.
  Qed.
  Theorem C117_start_lazy (m m' : lmem K V) n t : m_lazy m t = (m', n) -> unlocked m ->
    unlocked m' /\ shows m' n t /\ forall n0 t0, shows m n0 t0 -> shows m' n0 t0.
  Proof.
    unfold m_lazy. intros [= <- <-] U. split; [|split].
    - apply unlocked_more; [exact U|]. now intros x [<-|[]].
    - destruct t as [p v ts]. apply shows_eq. split; [reflexivity|]. exists None, (inl ts). cbn [snd m_cells]. split; [apply nth_last|reflexivity].
    - intros n0 t0. apply shows_refines. pose proof (more_refines m [MkL None (inl (t_children t))] []) as R. now rewrite app_nil_r in R.
  Qed.
  Lemma refines_more_trans (m1 m2 : lmem K V) cs vs : refines m1 m2 -> refines m1 (MkMem (m_cells m2 ++ cs) (m_vecs m2 ++ vs)).
  Proof. intros R. eapply refines_trans; [exact R|apply more_refines|]. intros c l d H _. exists l. cbn [m_cells]. now apply nth_snoc. Qed.
  Theorem C117_start_eager (m m' : lmem K V) n t : m_from m t = (m', n) -> unlocked m ->
    unlocked m' /\ shows m' n t /\ forall n0 t0, shows m n0 t0 -> shows m' n0 t0.
  Proof.
    revert m m' n. induction t as [p v ts IH] using rtree_ind'. intros m m' n. cbn [m_from].
    set (go := fix go (m : lmem K V) (ts : list tree) : lmem K V * list (lnode K V) := _).
    assert (G : forall ts, Forall (fun t => forall m m' n, m_from m t = (m', n) -> unlocked m -> unlocked m' /\ shows m' n t /\ forall n0 t0, shows m n0 t0 -> shows m' n0 t0) ts ->
              forall m m1 ns, go m ts = (m1, ns) -> unlocked m -> unlocked m1 /\ Forall2 (shows m1) ns ts /\ forall n0 t0, shows m n0 t0 -> shows m1 n0 t0).
    { clear. induction 1 as [|t ts H _ IHF]; intros m m1 ns; cbn [go]; [intros [= <- <-] U; split; [auto|split; [constructor|auto]]|].
      destruct (m_from m t) as [m2 n] eqn:Q. destruct (go m2 ts) as [m3 ns'] eqn:Q2. intros [= <- <-] U.
      destruct (H _ _ _ Q U) as (U2 & S2 & K2). destruct (IHF _ _ _ Q2 U2) as (U3 & S3 & K3). split; [exact U3|]. split; [constructor; auto|auto]. }
    destruct (go m ts) as [m1 ns] eqn:Q. intros [= <- <-] U. destruct (G ts IH m m1 ns Q U) as (U1 & S1 & K1).
    pose proof (more_refines m1 [MkL None (inr (length (m_vecs m1)))] [ns]) as R. split; [|split].
    - apply unlocked_more; [exact U1|]. now intros x [<-|[]].
    - apply shows_eq. split; [reflexivity|]. exists None, (inr (length (m_vecs m1))). cbn [snd m_cells]. split; [apply nth_last|]. exists ns. split; [cbn [m_vecs]; apply nth_last|].
      eapply F2_mono; [exact S1|]. intros; eapply shows_refines; eauto.
    - intros n0 t0 H0. eapply shows_refines; eauto.
  Qed.
End C117Start.

Section C117Get.
  Context {K V : Type} (kcmp : K -> K -> comparison).
  Notation tree := (rtree K V).
  (** the lookup of the model of C44 is such a program *)
  Lemma get_walk_find fuel (t : tree) key : forall env r next, nth_error env r = Some t -> next = length env ->
    eval (get_walk kcmp fuel r next (t_prefix t, t_value t) key) env =
      rbind (find_loop kcmp fuel t key) (fun x => Ok (match x with Found t' => t_value t' | _ => None end)).
  Proof.
    revert t key. induction fuel as [|fuel IH]; intros t key env r next Hr Hn; [reflexivity|]. cbn [get_walk find_loop fst snd].
    set (n := common_prefix kcmp (t_prefix t) key). destruct ((length key - n =? 0) && (length (t_prefix t) - n =? 0)); [reflexivity|].
    destruct (length key - n =? 0); [reflexivity|]. destruct (length (t_prefix t) - n =? 0); [|reflexivity]. destruct (nth_error key n) as [c|]; [|reflexivity].
    cbn [eval]. rewrite Hr.
    rewrite (bsearch_sim (fun e : list K * option V => match fst e with h :: _ => Some (kcmp h c) | [] => None end)
               (fun e : tree => match t_prefix e with h :: _ => Some (kcmp h c) | [] => None end) (heads (t_children t)) (t_children t)).
    - destruct (bsearch _ (t_children t)) as [i|i| |]; try reflexivity. unfold heads at 1. rewrite nth_error_map. destruct (nth_error (t_children t) i) as [u|] eqn:Hu; [|reflexivity].
      cbn [option_map]. apply IH; [|unfold heads; rewrite app_length, map_length; lia].
      rewrite nth_error_app2 by lia. replace (next + i - length env) with i by lia. exact Hu.
    - intros i. unfold heads. rewrite nth_error_map. destruct (nth_error (t_children t) i) as [u|]; cbn; [reflexivity|exact I].
    - unfold heads. now rewrite map_length.
  Qed.
  Theorem C117_get (t : tree) key : eval (get_walk kcmp (S (t_size t)) 0 1 (t_prefix t, t_value t) key) [t] = rt_get kcmp t key.
  Proof. unfold rt_get, t_find. now apply get_walk_find. Qed.
  (** so threads that look up keys in the same tree at the same time all get what [get] gives on the plain tree *)
  Theorem C117_concurrent_get m root (t : tree) keys ld s : unlocked m -> shows m root t ->
    lexec (fun _ => False) (lstart m [root] (map (fun key => get_walk kcmp (S (t_size t)) 0 1 (t_prefix t, t_value t) key) keys)) ld s ->
    (forall l s', ~ lsteps (fun _ => False) s l s') ->
    forall i key, nth_error keys i = Some key -> exists th, nth_error (s_thr s) i = Some th /\ answered th (rt_get kcmp t key).
  Proof.
    intros U Sh E End i key Hk.
    destruct (C117_all_answer m [root] [t] (map (fun key => get_walk kcmp (S (t_size t)) 0 1 (t_prefix t, t_value t) key) keys) ld s) as (_ & A).
    - split; [exact U|]. split; [constructor; [exact Sh|constructor]|exact E].
    - exact End.
    - destruct (A i (get_walk kcmp (S (t_size t)) 0 1 (t_prefix t, t_value t) key)) as (th & H1 & H2); [now rewrite nth_error_map, Hk|]. exists th. split; [exact H1|].
      now rewrite C117_get in H2.
  Qed.
End C117Get.

(** ** Witnesses *)
Section Sched.
  Context {K V X : Type}.
  (** run the threads in the given order, [true]: user code panics if the thread is materialising *)
  Fixpoint sched (is : list (nat * bool)) (s : lst K V X) : option (lst K V X * list nat) :=
    match is with
    | [] => Some (s, [])
    | (i, crash) :: is' =>
        match nth_error (s_thr s) i with
        | None => None
        | Some t => match lstep i crash (s_mem s) t with
                    | None => None
                    | Some (m', t', l) =>
                        match sched is' (MkLs m' (set_nth i t' (s_thr s))) with Some (s', l') => Some (s', l ++ l') | None => None end
                    end
        end
    end.
  Lemma exec_front (bad : list (rtree K V) -> Prop) (s : lst K V X) l s1 : lsteps bad s l s1 -> forall l1 s2, lexec bad s1 l1 s2 -> lexec bad s (l ++ l1) s2.
  Proof.
    intros St l1 s2 E. revert St. induction E as [s1|s1 l1 s2 l2 s3 E IH St2]; intros St.
    - rewrite app_nil_r. apply (le_step bad s [] s l s1); [constructor|exact St].
    - rewrite app_assoc. eapply le_step; [apply IH, St|exact St2].
  Qed.
  Lemma sched_exec is s s' l : sched is s = Some (s', l) -> lexec (fun _ => True) s l s'.
  Proof.
    revert s s' l. induction is as [|[i crash] is IH]; intros s s' l; cbn [sched]; [intros [= <- <-]; constructor|].
    destruct s as [m thr]. cbn [s_thr s_mem]. destruct (nth_error thr i) as [t|] eqn:Ht; [|discriminate].
    destruct (lstep i crash m t) as [[[m' t'] l1]|] eqn:Hs; [|discriminate]. destruct (sched is _) as [[s2 l2]|] eqn:Q; [|discriminate]. intros [= <- <-].
    eapply exec_front; [|apply IH, Q]. eapply ls_step; eauto.
  Qed.
  Lemma sched_exec_quiet is s s' l : forallb (fun p => negb (snd p)) is = true -> sched is s = Some (s', l) -> lexec (fun _ => False) s l s'.
  Proof.
    revert s s' l. induction is as [|[i crash] is IH]; intros s s' l; cbn [sched forallb snd]; [intros _ [= <- <-]; constructor|].
    destruct crash; [discriminate|]. cbn [negb andb]. intros F.
    destruct s as [m thr]. cbn [s_thr s_mem]. destruct (nth_error thr i) as [t|] eqn:Ht; [|discriminate].
    destruct (lstep i false m t) as [[[m' t'] l1]|] eqn:Hs; [|discriminate]. destruct (sched is _) as [[s2 l2]|] eqn:Q; [|discriminate]. intros [= <- <-].
    eapply exec_front; [|eapply IH; eauto]. eapply ls_step; eauto. discriminate.
  Qed.
End Sched.

Definition ltree : rtree nat nat := Node [] None [Node [1; 2] (Some 12) [Node [3] (Some 123) []]; Node [4] (Some 40) []].
Definition lroot : lmem nat nat * lnode nat nat := m_lazy (MkMem [] []) ltree.
Definition lget (key : list nat) := get_walk Nat.compare (S (t_size ltree)) 0 1 (t_prefix ltree, t_value ltree) key.
Definition lstart2 := lstart (fst lroot) [snd lroot] [lget [1; 2; 3]; Copy 0 (lget [4])].
(** two threads, one looks up a key, the other clones the root and looks up another: the second waits for the first, finds
    the root loaded and answers; only two of four nodes are loaded *)
Example run2 : exists s, sched (repeat (0, false) 5 ++ repeat (1, false) 1 ++ repeat (0, false) 9 ++ repeat (1, false) 8) lstart2 = Some (s, [0; 1]) /\
  map (@t_walk nat nat _) (s_thr s) = [Answer (Ok (Some 123)); Answer (Ok (Some 40))].
Proof. eexists. split; vm_compute; reflexivity. Qed.
Example run2_reach : exists ld s, lreach (fun _ => False) (fst lroot) [snd lroot] [ltree] [lget [1; 2; 3]; Copy 0 (lget [4])] ld s /\ forall l s', ~ lsteps (fun _ => False) s l s'.
Proof.
  exists [0; 1]. destruct run2 as (s & H & W). exists s. split; [split; [|split]|].
  - intros [|c] x; cbn; [now intros [= <-]|destruct c; discriminate].
  - constructor; [|constructor]. vm_compute. auto.
  - eapply sched_exec_quiet; [|exact H]. reflexivity.
  - intros l s' St. vm_compute in H. injection H as <-. inversion St as [i crash m thr t m' t' l' Ht Hs Hb]; subst.
    destruct i as [|[|i]]; cbn [nth_error] in Ht; [| |destruct i; discriminate]; injection Ht as <-; vm_compute in Hs; discriminate.
Qed.
(** the first load panics and the mutex is released; the other thread then loads the node *)
Definition lstart3 := lstart (fst lroot) [snd lroot] [lget [4]; lget [4]].
Example run3 : exists s, sched ([(0, false); (1, false); (0, false); (0, false); (0, true)] ++ repeat (0, false) 1 ++ repeat (1, false) 6) lstart3 = Some (s, [0]) /\
  map (@t_walk nat nat _) (s_thr s) = [Answer Panicked; Answer (Ok (Some 40))].
Proof. eexists. split; vm_compute; reflexivity. Qed.
Example run3_yields : yields (fun _ => True) (lget [4]) [ltree] Panicked /\ yields (fun _ => True) (lget [4]) [ltree] (Ok (Some 40)).
Proof. split; [eapply y_panic|eapply y_kids]; try reflexivity; vm_compute; constructor. Qed.
Print Assumptions C117_answers_with_panics.
Print Assumptions C117_answers.
Print Assumptions C117_loaded_once.
Print Assumptions C117_no_race.
Print Assumptions C117_read_finds_children.
Print Assumptions C117_no_deadlock.
Print Assumptions C117_terminates.
Print Assumptions C117_no_infinite_run.
Print Assumptions C117_all_answer.
Print Assumptions C117_start_lazy.
Print Assumptions C117_start_eager.
Print Assumptions C117_get.
Print Assumptions C117_concurrent_get.
