(** Histories of VecSet operations: a program with variables holding VecSets. *)
From Verif Require Export VecSetFacts.

Inductive sop := OpUnion | OpInter | OpXor | OpDiff.

Section Hist.
  Context {T : Type} (cmp : T -> T -> comparison) (strat : nat -> nat -> bool).

  (** The public API of VecSet; variables are numbered, [v] is the target. Every constructor
      names the code it runs. *)
  Inductive vcmd :=
  | CEmpty (v : nat)                              (* VecSet::empty / default, vec_set.rs:107,269 *)
  | CSingle (v : nat) (x : T)                     (* VecSet::single, vec_set.rs:263 *)
  | CFromVec (v : nat) (l : list T)               (* From<Vec>, vec_set.rs:473 *)
  | CCollect (v : nat) (l : list T)               (* FromIterator, vec_set.rs:494 *)
  | CFromBTree (v : nat) (l : {l : list T | sorted cmp l})  (* From<BTreeSet>, vec_set.rs:480 *)
  | CDeserialize (v : nat) (l : list T)           (* serde visit_seq, vec_set.rs:608 *)
  | CMacro (v : nat) (l : list T)                 (* vecset!, macros.rs:3 *)
  | CClone (v w : nat)                            (* v := w.clone(), vec_set.rs:225 *)
  | CInsert (v : nat) (x : T)                     (* vec_set.rs:306 *)
  | CRemove (v : nat) (x : T)                     (* vec_set.rs:323 *)
  | CContains (v : nat) (x : T)                   (* vec_set.rs:123 *)
  | CRetain (v : nat) (f : T -> bool)             (* vec_set.rs:333 *)
  | CExtend (v : nat) (l : list T)                (* vec_set.rs:502 *)
  | CBin (op : sop) (v a b : nat)                 (* v := &a op &b, vec_set.rs:382-409,720-754 *)
  | CAssign (op : sop) (v w : nat)                (* v op= w.clone() (by value), vec_set.rs:411-460 *)
  | CAssignRef (op : sop) (v w : nat)             (* v op= &w, vec_set.rs:417-466 *)
  | CWith (op : sop) (v w : nat).                 (* v.union_with(&w) etc, vec_set.rs:756-780 *)

  Inductive vout := OUnit | OBool (b : bool) | OCaughtPanic.

  Definition vstate_ := nat -> list T.
  Definition upd {X} (st : nat -> X) (v : nat) (x : X) : nat -> X :=
    fun w => if w =? v then x else st w.

  Definition pure_op (op : sop) : list T -> list T -> res (list T) :=
    match op with
    | OpUnion => vset_union cmp strat
    | OpInter => vset_intersection cmp strat
    | OpXor => vset_symmetric_difference cmp strat
    | OpDiff => vset_difference cmp strat
    end.
  Definition assign_op (op : sop) : list T -> list T -> done (list T) :=
    match op with
    | OpUnion => vset_bitor_assign cmp strat
    | OpInter => vset_bitand_assign cmp strat
    | OpXor => vset_bitxor_assign cmp strat
    | OpDiff => vset_sub_assign cmp strat
    end.
  Definition assign_ref_op (op : sop) : list T -> list T -> done (list T) :=
    match op with
    | OpUnion => vset_bitor_assign_ref cmp strat
    | OpInter => vset_bitand_assign_ref cmp strat
    | OpXor => vset_bitxor_assign_ref cmp strat
    | OpDiff => vset_sub_assign_ref cmp strat
    end.
  Definition with_op (op : sop) : list T -> list T -> done (list T) :=
    match op with
    | OpUnion => vset_union_with cmp strat
    | OpInter => vset_intersection_with cmp strat
    | OpXor => vset_xor_with cmp strat
    | OpDiff => vset_difference_with cmp strat
    end.

  (** [None]: a panic outside [CWith] (never happens); a panic in [CWith] is caught by the caller,
      who then sees the set left behind by unwinding. *)
  Definition vstep (st : vstate_) (c : vcmd) : option (vstate_ * vout) :=
    let set v x := Some (upd st v x, OUnit) in
    let set_o v (o : option (list T)) := match o with Some x => set v x | None => None end in
    let set_r v (o : res (list T)) := match o with Ok x => set v x | _ => None end in
    let set_b v (o : res (list T * bool)) :=
      match o with Ok (x, b) => Some (upd st v x, OBool b) | _ => None end in
    let set_d v (o : done (list T)) := match o with Done x => set v x | _ => None end in
    match c with
    | CEmpty v => set v vset_empty
    | CSingle v x => set v (vset_single x)
    | CFromVec v l => set v (vset_from_vec cmp l)
    | CCollect v l => set_o v (vset_from_iter cmp l)
    | CFromBTree v l => set v (vset_from_btreeset (proj1_sig l))
    | CDeserialize v l => set v (vset_visit_seq cmp l)
    | CMacro v l => set_r v (vecset_macro cmp l)
    | CClone v w => set v (st w)
    | CInsert v x => set_b v (vset_insert cmp (st v) x)
    | CRemove v x => set_b v (vset_remove cmp (st v) x)
    | CContains v x => Some (st, OBool (vset_contains cmp (st v) x))
    | CRetain v f => set v (vset_retain (st v) f)
    | CExtend v l =>
        match vset_extend cmp strat (st v) l with Some d => set_d v d | None => None end
    | CBin op v a b => set_r v (pure_op op (st a) (st b))
    | CAssign op v w => set_d v (assign_op op (st v) (st w))
    | CAssignRef op v w => set_d v (assign_ref_op op (st v) (st w))
    | CWith op v w =>
        match with_op op (st v) (st w) with
        | Done x => set v x
        | Unwound x => Some (upd st v x, OCaughtPanic)
        | DoneNoFuel => None
        end
    end.

  Fixpoint vrun (st : vstate_) (cs : list vcmd) : option (vstate_ * list vout) :=
    match cs with
    | [] => Some (st, [])
    | c :: cs' =>
        match vstep st c with
        | None => None
        | Some (st1, o) =>
            match vrun st1 cs' with
            | None => None
            | Some (st2, os) => Some (st2, o :: os)
            end
        end
    end.

  Definition vinit : vstate_ := fun _ => [].

  (** ** The abstract machine: every variable is a predicate on elements. *)
  Definition aset := T -> bool.
  Definition aop (op : sop) (p q : bool) : bool :=
    match op with
    | OpUnion => p || q
    | OpInter => p && q
    | OpXor => xorb p q
    | OpDiff => p && negb q
    end.
  Definition astep (st : nat -> aset) (c : vcmd) : (nat -> aset) * vout :=
    match c with
    | CEmpty v => (upd st v (fun _ => false), OUnit)
    | CSingle v x => (upd st v (fun z => eqb_of cmp z x), OUnit)
    | CFromVec v l | CCollect v l | CDeserialize v l | CMacro v l =>
        (upd st v (fun z => memb cmp z l), OUnit)
    | CFromBTree v l => (upd st v (fun z => memb cmp z (proj1_sig l)), OUnit)
    | CClone v w => (upd st v (st w), OUnit)
    | CInsert v x => (upd st v (fun z => eqb_of cmp z x || st v z), OBool (negb (st v x)))
    | CRemove v x => (upd st v (fun z => negb (eqb_of cmp z x) && st v z), OBool (st v x))
    | CContains v x => (st, OBool (st v x))
    | CRetain v f => (upd st v (fun z => st v z && f z), OUnit)
    | CExtend v l => (upd st v (fun z => st v z || memb cmp z l), OUnit)
    | CBin op v a b => (upd st v (fun z => aop op (st a z) (st b z)), OUnit)
    | CAssign op v w | CAssignRef op v w | CWith op v w =>
        (upd st v (fun z => aop op (st v z) (st w z)), OUnit)
    end.
  Fixpoint arun (st : nat -> aset) (cs : list vcmd) : (nat -> aset) * list vout :=
    match cs with
    | [] => (st, [])
    | c :: cs' => let (st1, o) := astep st c in
                  let (st2, os) := arun st1 cs' in (st2, o :: os)
    end.

  (** Commands whose abstract reading is meaningful: the retain predicate respects equality of
      elements; the two defective methods union_with and xor_with (see C11, C12) are not used. *)
  Definition wf_cmd (c : vcmd) : Prop :=
    match c with
    | CRetain _ f => forall x y, cmp x y = Eq -> f x = f y
    | CWith OpUnion _ _ | CWith OpXor _ _ => False
    | _ => True
    end.
End Hist.
Arguments CEmpty {T cmp}. Arguments CSingle {T cmp}. Arguments CFromVec {T cmp}.
Arguments CCollect {T cmp}. Arguments CFromBTree {T cmp}. Arguments CDeserialize {T cmp}.
Arguments CMacro {T cmp}. Arguments CClone {T cmp}. Arguments CInsert {T cmp}.
Arguments CRemove {T cmp}. Arguments CContains {T cmp}. Arguments CRetain {T cmp}.
Arguments CExtend {T cmp}. Arguments CBin {T cmp}. Arguments CAssign {T cmp}.
Arguments CAssignRef {T cmp}. Arguments CWith {T cmp}.

Section HistFacts.
  Context {T : Type} {cmp : T -> T -> comparison} (L : OrdLaws cmp).
  Context (strat : nat -> nat -> bool).

  (** the reference result of the four operations *)
  Definition op_ref (op : sop) (a b : list T) : list T :=
    match op with
    | OpUnion => set_ref (cmp := cmp) true true true a b
    | OpInter => set_ref (cmp := cmp) false false true a b
    | OpXor => set_ref (cmp := cmp) true true false a b
    | OpDiff => set_ref (cmp := cmp) true false false a b
    end.

  Lemma op_ref_sorted op a b : sorted cmp a -> sorted cmp b -> sorted cmp (op_ref op a b).
  Proof. destruct op; apply (set_ref_sorted L). Qed.

  Lemma pure_op_ref op a b : sorted cmp a -> sorted cmp b ->
    pure_op cmp strat op a b = Ok (op_ref op a b).
  Proof. intros Sa Sb. destruct op; apply (vs_merge_set L); auto. Qed.

  Lemma assign_op_full op a b : sorted cmp a -> sorted cmp b ->
    exists da db,
      match op with
      | OpUnion => vset_bitor_assign_full cmp strat
      | OpInter => vset_bitand_assign_full cmp strat
      | OpXor => vset_bitxor_assign_full cmp strat
      | OpDiff => vset_sub_assign_full cmp strat
      end a b = Done (op_ref op a b, da, db) /\
      Permutation (op_ref op a b ++ da ++ db) (a ++ b).
  Proof.
    intros Sa Sb. destruct op.
    - apply (ip_merge_set L strat true true true IdConverter a b); auto. intros _ y; reflexivity.
    - apply (ip_merge_set L strat false false true IdConverter a b); auto. intros _ y; reflexivity.
    - apply (ip_merge_set L strat true true false IdConverter a b); auto. intros _ y; reflexivity.
    - apply (ip_merge_set L strat true false false IdConverter a b); auto. intros _ y; reflexivity.
  Qed.

  Lemma assign_op_ref op a b : sorted cmp a -> sorted cmp b ->
    assign_op cmp strat op a b = Done (op_ref op a b).
  Proof.
    intros Sa Sb. destruct (assign_op_full op a b Sa Sb) as (da & db & E & _).
    destruct op; unfold assign_op, vset_bitor_assign, vset_bitand_assign, vset_bitxor_assign,
      vset_sub_assign; rewrite E; reflexivity.
  Qed.

  Lemma assign_ref_op_ref op a b : sorted cmp a -> sorted cmp b ->
    assign_ref_op cmp strat op a b = Done (op_ref op a b).
  Proof.
    intros Sa Sb. destruct op.
    - apply (ipr_merge_set L strat true true true CloneConverter a b); auto. intros _ y; reflexivity.
    - apply (ipr_merge_set L strat false false true CloneConverter a b); auto. intros _ y; reflexivity.
    - apply (ipr_merge_set L strat true true false CloneConverter a b); auto. intros _ y; reflexivity.
    - apply (ipr_merge_set L strat true false false CloneConverter a b); auto. intros _ y; reflexivity.
  Qed.

  Lemma inter_with_ref a b : sorted cmp a -> sorted cmp b ->
    vset_intersection_with cmp strat a b = Done (op_ref OpInter a b).
  Proof.
    intros Sa Sb. apply (ipr_merge_set L strat false false true NoConverter a b); auto.
    intros [=].
  Qed.
  Lemma xor_with_ref a b : sorted cmp a -> sorted cmp b ->
    vset_xor_with cmp strat a b = Done (op_ref OpInter a b).
  Proof. exact (inter_with_ref a b). Qed.
  Lemma diff_with_ref a b : sorted cmp a -> sorted cmp b ->
    vset_difference_with cmp strat a b = Done (op_ref OpDiff a b).
  Proof.
    intros Sa Sb. apply (ipr_merge_set L strat true false false NoConverter a b); auto.
    intros [=].
  Qed.

  Lemma from_iter_spec l :
    exists o, vset_from_iter cmp l = Some o /\ is_dedup (cmp := cmp) KeepFirst l o.
  Proof. exact (sort_dedup_by_spec L l KeepFirst). Qed.

  Lemma insert_all_spec xs : forall l, sorted cmp l ->
    exists l', vset_insert_all cmp l xs = Ok l' /\ sorted cmp l' /\
      (forall z, mem cmp z l' <-> mem cmp z l \/ mem cmp z xs).
  Proof.
    induction xs as [|x xs IH]; intros l Hs; simpl.
    - exists l. split; [reflexivity|]. split; [assumption|]. intros z. split; [auto|].
      intros [H|H]; auto. destruct (mem_nil _ H).
    - destruct (insert_spec L l x Hs) as (l1 & E1 & S1 & I1). rewrite E1. simpl.
      destruct (IH l1 S1) as (l2 & E2 & S2 & I2). exists l2. split; [assumption|].
      split; [assumption|]. intros z. rewrite I2, mem_cons.
      assert (Q : mem cmp z l1 <-> cmp z x = Eq \/ mem cmp z l).
      { split.
        - intros (w & Hw & Ew). apply I1 in Hw as [->|[Hw _]]; [now left|].
          right. exists w. auto.
        - intros [E|(w & Hw & Ew)].
          + exists x. split; auto. apply I1. now left.
          + destruct (cmp x w) eqn:Exw.
            * exists x. split; [apply I1; now left|]. now rewrite (cmp_eq_r L _ _ z Exw).
            * exists w. split; auto. apply I1. right. split; auto. congruence.
            * exists w. split; auto. apply I1. right. split; auto. congruence. }
      rewrite Q. tauto.
  Qed.

  Lemma insert_mem l l' x b z : sorted cmp l -> vset_insert cmp l x = Ok (l', b) ->
    mem cmp z l' <-> cmp z x = Eq \/ mem cmp z l.
  Proof.
    intros Hs E. destruct (insert_all_spec [x] l Hs) as (l2 & E2 & _ & H).
    simpl in E2. rewrite E in E2. simpl in E2. injection E2 as <-. rewrite H, mem_cons.
    split; [intros [?|[?|Q]]; auto; destruct (mem_nil _ Q)|tauto].
  Qed.

  Lemma extend_spec l items : sorted cmp l ->
    exists o, is_dedup (cmp := cmp) KeepFirst items o /\
      vset_extend cmp strat l items = Some (Done (op_ref OpUnion l o)).
  Proof.
    intros Hs. destruct (from_iter_spec items) as (o & E & D). exists o. split; [assumption|].
    unfold vset_extend. rewrite E.
    change (vset_bitor_assign cmp strat l o) with (assign_op cmp strat OpUnion l o).
    rewrite assign_op_ref; auto. apply D.
  Qed.

  (** invariant *)
  Definition all_sorted (st : nat -> list T) : Prop := forall v, sorted cmp (st v).

  Lemma upd_sorted st v x : all_sorted st -> sorted cmp x -> all_sorted (upd st v x).
  Proof. intros H Hx w. unfold upd. destruct (w =? v); auto. Qed.

  Lemma vstep_sorted st c : all_sorted st ->
    exists st' o, vstep cmp strat st c = Some (st', o) /\ all_sorted st'.
  Proof.
    intros H.
    assert (Set_ : forall v x (o : vout), sorted cmp x ->
      exists st' o', Some (upd st v x, o) = Some (st', o') /\ all_sorted st')
      by (intros; eexists; eexists; split; [reflexivity|]; now apply upd_sorted).
    destruct c; simpl.
    - apply Set_, sorted_nil.
    - apply Set_, sorted_single.
    - apply Set_. apply (sort_dedup_sorted L).
    - destruct (from_iter_spec l) as (o & E & D & _). rewrite E. now apply Set_.
    - apply Set_. exact (proj2_sig l).
    - apply Set_. apply (sort_dedup_sorted L).
    - unfold vecset_macro. destruct (insert_all_spec l [] (sorted_nil)) as (o & E & S & _).
      rewrite E. now apply Set_.
    - now apply Set_.
    - destruct (insert_spec L (st v) x (H v)) as (l' & E & S & _). rewrite E. now apply Set_.
    - destruct (remove_spec L (st v) x (H v)) as (l' & E & S & _). rewrite E. now apply Set_.
    - eexists. eexists. split; [reflexivity|assumption].
    - apply Set_. now apply sorted_filter.
    - destruct (extend_spec (st v) l (H v)) as (o & D & E). rewrite E. apply Set_.
      apply op_ref_sorted; auto. apply D.
    - rewrite pure_op_ref by auto. apply Set_, op_ref_sorted; auto.
    - rewrite assign_op_ref by auto. apply Set_, op_ref_sorted; auto.
    - rewrite assign_ref_op_ref by auto. apply Set_, op_ref_sorted; auto.
    - destruct op; cbn [with_op].
      + destruct (union_with_cases L strat (st v) (st w) (H v) (H w))
          as [(_ & E)|(_ & _ & _ & _ & _ & _ & a1 & a2 & E & Ea & _)]; rewrite E; apply Set_; auto.
        specialize (H v). rewrite Ea in H. now apply sorted_app in H.
      + rewrite inter_with_ref by auto. apply Set_, op_ref_sorted; auto.
      + rewrite xor_with_ref by auto. apply Set_, op_ref_sorted; auto.
      + rewrite diff_with_ref by auto. apply Set_, op_ref_sorted; auto.
  Qed.

  Theorem vrun_sorted cs : forall st, all_sorted st ->
    exists st' os, vrun cmp strat st cs = Some (st', os) /\ all_sorted st'.
  Proof.
    induction cs as [|c cs IH]; intros st H; simpl; [eauto|].
    destruct (vstep_sorted st c H) as (st1 & o & E & H1). rewrite E.
    destruct (IH st1 H1) as (st2 & os & E2 & H2). rewrite E2. eauto.
  Qed.

  Lemma vinit_sorted : all_sorted vinit.
  Proof. intros v. apply sorted_nil. Qed.

  (** refinement *)
  Definition abs_ok (st : nat -> list T) (ast : nat -> T -> bool) : Prop :=
    forall v z, ast v z = true <-> mem cmp z (st v).

  Lemma bool_iff b (P : Prop) c (Q : Prop) :
    (b = true <-> P) -> (c = true <-> Q) -> (P <-> Q) -> b = c.
  Proof. intros. apply eq_true_iff_eq. tauto. Qed.

  Lemma memb_eq_iff z l l' : (mem cmp z l <-> mem cmp z l') -> memb cmp z l = memb cmp z l'.
  Proof. intros H. eapply bool_iff; [apply memb_spec|apply memb_spec|assumption]. Qed.

  Lemma op_ref_mem op a b z : sorted cmp a -> sorted cmp b ->
    mem cmp z (op_ref op a b) <-> aop op (memb cmp z a) (memb cmp z b) = true.
  Proof.
    intros Sa Sb.
    pose proof (memb_spec (cmp := cmp) z a) as Ma. pose proof (memb_spec (cmp := cmp) z b) as Mb.
    destruct (memb cmp z a), (memb cmp z b), op; cbn [op_ref aop];
      rewrite (set_ref_mem L) by assumption; cbn;
      (split; [intros H | intros H]); try reflexivity; try discriminate H;
      intuition congruence.
  Qed.

  Lemma abs_upd st ast v l p :
    abs_ok st ast -> (forall z, p z = true <-> mem cmp z l) -> abs_ok (upd st v l) (upd ast v p).
  Proof. intros H Hp w z. unfold upd. destruct (w =? v); [apply Hp|apply H]. Qed.

  Lemma vstep_refines st ast c :
    all_sorted st -> abs_ok st ast -> wf_cmd cmp c ->
    exists st' o, vstep cmp strat st c = Some (st', o) /\ all_sorted st' /\
      o = snd (astep cmp ast c) /\ abs_ok st' (fst (astep cmp ast c)).
  Proof.
    intros H A W. destruct (vstep_sorted st c H) as (st' & o & E & H'). exists st', o.
    split; [assumption|]. split; [assumption|].
    assert (Aeq : forall v z, ast v z = memb cmp z (st v)).
    { intros v z. eapply bool_iff; [apply A|apply memb_spec|reflexivity]. }
    destruct c; simpl in E |- *.
    - injection E as <- <-. split; [reflexivity|]. apply abs_upd; auto. intros z.
      split; [discriminate|]. intros Q. destruct (mem_nil _ Q).
    - injection E as <- <-. split; [reflexivity|]. apply abs_upd; auto. intros z.
      rewrite eqb_of_true. unfold vset_single. rewrite mem_cons. split; auto.
      intros [Q|Q]; auto. destruct (mem_nil _ Q).
    - injection E as <- <-. split; [reflexivity|]. apply abs_upd; auto. intros z.
      rewrite memb_spec. symmetry. apply (is_dedup_mem KeepFirst).
      apply (std_sort_dedup L).
    - destruct (from_iter_spec l) as (o1 & E1 & D). rewrite E1 in E. injection E as <- <-.
      split; [reflexivity|]. apply abs_upd; auto. intros z.
      rewrite memb_spec. symmetry. now apply (is_dedup_mem KeepFirst).
    - injection E as <- <-. split; [reflexivity|]. apply abs_upd; auto. intros z.
      apply memb_spec.
    - injection E as <- <-. split; [reflexivity|]. apply abs_upd; auto. intros z.
      rewrite memb_spec. symmetry. apply (is_dedup_mem KeepFirst).
      apply (std_sort_dedup L).
    - unfold vecset_macro in E. destruct (insert_all_spec l [] (sorted_nil)) as (o1 & E1 & S & M).
      rewrite E1 in E. injection E as <- <-. split; [reflexivity|]. apply abs_upd; auto.
      intros z. rewrite memb_spec, M. split; auto. intros [Q|Q]; auto. destruct (mem_nil _ Q).
    - injection E as <- <-. split; [reflexivity|]. apply abs_upd; auto.
    - destruct (insert_spec L (st v) x (H v)) as (l' & E1 & S & _). pose proof E1 as E2.
      rewrite E1 in E. injection E as <- <-. rewrite Aeq. split; [reflexivity|].
      apply abs_upd; auto. intros z. rewrite orb_true_iff, eqb_of_true.
      rewrite (insert_mem _ _ _ _ z (H v) E2). rewrite (A v z). tauto.
    - destruct (remove_spec L (st v) x (H v)) as (l' & E1 & S & I).
      rewrite E1 in E. injection E as <- <-. rewrite Aeq. split; [reflexivity|].
      apply abs_upd; auto. intros z. rewrite andb_true_iff, negb_true_iff, (A v z). split.
      + intros [Q (w & Hw & Ew)]. exists w. split; auto. apply I. split; auto. intros Exw.
        assert (Ezx : cmp z x = Eq) by (rewrite (cmp_eq_r L _ _ z Exw); assumption).
        unfold eqb_of in Q. rewrite Ezx in Q. discriminate.
      + intros (w & Hw & Ew). apply I in Hw as [Hw Ne]. split; [|exists w; auto].
        unfold eqb_of. destruct (cmp z x) eqn:Ezx; auto. exfalso. apply Ne.
        rewrite <- (cmp_eq_l L _ _ w Ezx). assumption.
    - injection E as <- <-. split; [|assumption]. f_equal.
      eapply bool_iff; [apply (contains_spec L); auto|apply A|reflexivity].
    - injection E as <- <-. split; [reflexivity|]. apply abs_upd; auto. intros z.
      rewrite andb_true_iff, (A v z). unfold vset_retain. cbn in W. split.
      + intros [(w & Hw & Ew) Hf]. exists w. split; auto. apply filter_In. split; auto.
        now rewrite <- (W z w Ew).
      + intros (w & Hw & Ew). apply filter_In in Hw as [Hw Hf]. split; [exists w; auto|].
        now rewrite (W z w Ew).
    - destruct (extend_spec (st v) l (H v)) as (o1 & D & E1). rewrite E1 in E.
      injection E as <- <-. split; [reflexivity|]. apply abs_upd; auto. intros z.
      pose proof (op_ref_mem OpUnion (st v) o1 z (H v) (proj1 D)) as QQ. cbn [aop op_ref] in QQ.
      rewrite Aeq.
      assert (Q : memb cmp z l = memb cmp z o1).
      { apply memb_eq_iff. symmetry. now apply (is_dedup_mem KeepFirst). }
      rewrite Q. symmetry. exact QQ.
    - rewrite pure_op_ref in E by auto. injection E as <- <-. split; [reflexivity|].
      apply abs_upd; auto. intros z. rewrite op_ref_mem, !Aeq by auto. reflexivity.
    - rewrite assign_op_ref in E by auto. injection E as <- <-. split; [reflexivity|].
      apply abs_upd; auto. intros z. rewrite op_ref_mem, !Aeq by auto. reflexivity.
    - rewrite assign_ref_op_ref in E by auto. injection E as <- <-. split; [reflexivity|].
      apply abs_upd; auto. intros z. rewrite op_ref_mem, !Aeq by auto. reflexivity.
    - destruct op; try (destruct W; fail); cbn [with_op] in E.
      + rewrite inter_with_ref in E by auto. injection E as <- <-. split; [reflexivity|].
        apply abs_upd; auto. intros z. rewrite !Aeq. symmetry. exact (op_ref_mem OpInter (st v) (st w) z (H v) (H w)).
      + rewrite diff_with_ref in E by auto. injection E as <- <-. split; [reflexivity|].
        apply abs_upd; auto. intros z. rewrite !Aeq. symmetry. exact (op_ref_mem OpDiff (st v) (st w) z (H v) (H w)).
  Qed.

  Theorem vrun_refines cs : forall st ast,
    all_sorted st -> abs_ok st ast -> Forall (wf_cmd cmp) cs ->
    exists st' os, vrun cmp strat st cs = Some (st', os) /\ all_sorted st' /\
      os = snd (arun cmp ast cs) /\ abs_ok st' (fst (arun cmp ast cs)).
  Proof.
    induction cs as [|c cs IH]; intros st ast H A W; simpl.
    - exists st, []. auto.
    - inversion W as [|? ? W1 W2]; subst.
      destruct (vstep_refines st ast c H A W1) as (st1 & o & E & H1 & Eo & A1). rewrite E.
      destruct (astep cmp ast c) as [ast1 o1]. cbn [fst snd] in *.
      destruct (IH st1 ast1 H1 A1 W2) as (st2 & os & E2 & H2 & Eos & A2). rewrite E2.
      destruct (arun cmp ast1 cs) as [ast2 os2]. cbn [fst snd] in *.
      exists st2, (o :: os). subst. auto.
  Qed.

  (** number of elements *)
  Lemma sorted_distinct l : sorted cmp l -> distinct_list cmp l.
  Proof.
    induction l as [|x l IH]; intros S; [constructor|].
    apply sorted_cons_inv in S as [S Hx]. constructor; [|now apply IH].
    apply Forall_forall. intros y Hy. rewrite (Hx y Hy). discriminate.
  Qed.

  Lemma distinct_incl_length l1 : forall l2,
    distinct_list cmp l1 -> (forall z, mem cmp z l1 -> mem cmp z l2) -> length l1 <= length l2.
  Proof.
    induction l1 as [|x l1 IH]; intros l2 D H; [simpl; lia|].
    inversion D as [|? ? Hx D1]; subst. rewrite Forall_forall in Hx.
    destruct (H x) as (y & Hy & E). { apply mem_cons. left. apply (cmp_refl L). }
    apply in_split in Hy as (la & lb & ->).
    assert (Q : length l1 <= length (la ++ lb)).
    { apply IH; auto. intros z Hz. assert (Hz' : mem cmp z (x :: l1)) by (apply mem_cons; auto).
      apply H in Hz'. rewrite mem_app, mem_cons in Hz'. rewrite mem_app.
      destruct Hz' as [?|[Q|?]]; auto. exfalso. destruct Hz as (w & Hw & Ew).
      apply (Hx w Hw). rewrite (cmp_eq_l L _ _ w E). rewrite <- (cmp_eq_l L _ _ w Q). assumption. }
    rewrite app_length in *. simpl. lia.
  Qed.

  Lemma len_card l l2 : sorted cmp l -> distinct_list cmp l2 ->
    (forall z, mem cmp z l <-> mem cmp z l2) -> length l = length l2.
  Proof.
    intros S D H. apply Nat.le_antisymm; apply distinct_incl_length; auto using sorted_distinct;
      intros z Hz; now apply H.
  Qed.
End HistFacts.
