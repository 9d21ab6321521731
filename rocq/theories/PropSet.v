(** Properties C01-C20, C33 (set part) and C64 (set part): VecSet and dedup.
    The specification vocabulary ([sorted], [mem], [first_occ], ...) is in Spec.v, the abstract
    machine [arun] in VecSetHist.v. Every theorem is for an arbitrary lawful order [cmp] and an
    arbitrary choice [strat] of merge algorithm at every step. *)
From Verif Require Import VecSetHist.

(** a small type whose equality is coarser than identity: pairs ordered by their first component *)
Definition pcmp : nat * nat -> nat * nat -> comparison := by_key fst Nat.compare.
Lemma pcmp_ord : OrdLaws pcmp.
Proof. exact (by_key_ord fst _ nat_ord). Qed.
Definition alt (n m : nat) : bool := n <=? m.

(** ** C01: after any history of public operations every set is strictly ordered *)
Theorem C01_history_strictly_ordered :
  forall (T : Type) (cmp : T -> T -> comparison) (strat : nat -> nat -> bool) (cs : list (vcmd cmp)),
    OrdLaws cmp ->
    exists st outs, vrun cmp strat vinit cs = Some (st, outs) /\ forall v, sorted cmp (st v).
Proof. intros T cmp strat cs L. exact (vrun_sorted L strat cs vinit vinit_sorted). Qed.
Print Assumptions C01_history_strictly_ordered.

Definition demo_history : list (vcmd pcmp) :=
  [CCollect 0 [(3,0);(1,0);(3,1)]; CInsert 0 (2,7); CFromVec 1 [(9,0);(1,5)];
   CBin OpXor 2 0 1; CAssign OpUnion 0 1; CRemove 0 (3,9); CWith OpUnion 2 0].
Example C01_witness :
  exists outs st, vrun pcmp alt vinit demo_history = Some (st, outs) /\
    st 0 = [(1,0);(2,7);(9,0)] /\ st 1 = [(1,5);(9,0)] /\
    outs = [OUnit; OBool true; OUnit; OUnit; OUnit; OBool true; OCaughtPanic].
Proof. eexists. eexists. vm_compute. repeat split. Qed.

(** ** C02: refinement of a mathematical set *)
(** The abstract machine [arun] runs the same history on predicates; both machines produce the
    same outputs (results of contains, insert and remove) and agree on every later [contains]. *)
Theorem C02_refines_set :
  forall (T : Type) (cmp : T -> T -> comparison) (strat : nat -> nat -> bool) (cs : list (vcmd cmp)),
    OrdLaws cmp -> Forall (wf_cmd cmp) cs ->
    exists st outs, vrun cmp strat vinit cs = Some (st, outs) /\
      outs = snd (arun cmp (fun _ _ => false) cs) /\
      forall v x, vset_contains cmp (st v) x = fst (arun cmp (fun _ _ => false) cs) v x.
Proof.
  intros T cmp strat cs L W.
  destruct (vrun_refines L strat cs vinit (fun _ _ => false)) as (st & outs & E & S & Eo & A); auto.
  - apply vinit_sorted.
  - intros v z. split; [discriminate|]. intros H. destruct (mem_nil _ H).
  - exists st, outs. split; [assumption|]. split; [assumption|]. intros v x.
    apply eq_true_iff_eq. rewrite (A v x). apply (contains_spec L), S.
Qed.
Print Assumptions C02_refines_set.
(** len is the number of elements: it equals the length of every duplicate-free enumeration. *)
Theorem C02_len :
  forall (T : Type) (cmp : T -> T -> comparison) (l enum : list T),
    OrdLaws cmp -> sorted cmp l -> distinct_list cmp enum ->
    (forall z, vset_contains cmp l z = true <-> mem cmp z enum) ->
    vset_len l = length enum /\ (vset_is_empty l = true <-> enum = []).
Proof.
  intros T cmp l enum L S D H.
  assert (Q : length l = length enum).
  { apply (len_card L); auto. intros z. rewrite <- H. symmetry. now apply (contains_spec L). }
  split; [exact Q|]. destruct l, enum; simpl in *; split; congruence.
Qed.
Print Assumptions C02_len.
(** one insert / one remove: exactly the class of the element changes *)
Theorem C02_insert_remove_local :
  forall (T : Type) (cmp : T -> T -> comparison) (l : list T) (x : T),
    OrdLaws cmp -> sorted cmp l ->
    (exists l' r, vset_insert cmp l x = Ok (l', r) /\ (r = true <-> ~ mem cmp x l) /\
       forall z, vset_contains cmp l' z = true <-> cmp z x = Eq \/ vset_contains cmp l z = true) /\
    (exists l' r, vset_remove cmp l x = Ok (l', r) /\ (r = true <-> mem cmp x l) /\
       forall z, In z l' <-> In z l /\ cmp x z <> Eq).
Proof.
  intros T cmp l x L S. split.
  - destruct (insert_spec L l x S) as (l' & E & S' & I). exists l', (negb (memb cmp x l)).
    split; [assumption|]. split.
    + rewrite negb_true_iff. apply memb_false.
    + intros z. rewrite !(contains_spec L) by assumption. exact (insert_mem L l l' x _ z S E).
  - destruct (remove_spec L l x S) as (l' & E & S' & I). exists l', (memb cmp x l).
    split; [assumption|]. split; [apply memb_spec|assumption].
Qed.
Print Assumptions C02_insert_remove_local.
Example C02_witness :
  Forall (wf_cmd pcmp) (firstn 6 demo_history) /\
  snd (arun pcmp (fun _ _ => false) (firstn 6 demo_history)) =
    [OUnit; OBool true; OUnit; OUnit; OUnit; OBool true] /\
  sorted pcmp [(1,0);(2,7);(9,0)] /\ distinct_list pcmp [(9,3);(1,4);(2,2)].
Proof.
  split; [repeat constructor|]. split; [reflexivity|]. split; [now apply sortedb_ok|].
  repeat constructor; discriminate.
Qed.

(** ** C03: which of two equal instances is kept *)
Theorem C03_insert_replaces :
  forall (T : Type) (cmp : T -> T -> comparison) (l : list T) (x : T),
    OrdLaws cmp -> sorted cmp l ->
    exists l' r, vset_insert cmp l x = Ok (l', r) /\
      forall z, In z l' <-> z = x \/ (In z l /\ cmp x z <> Eq).
Proof.
  intros T cmp l x L S. destruct (insert_spec L l x S) as (l' & E & _ & I). eauto.
Qed.
Print Assumptions C03_insert_replaces.
Theorem C03_union_keeps_left :
  forall (T : Type) (cmp : T -> T -> comparison) (strat : nat -> nat -> bool) (a b : list T),
    OrdLaws cmp -> sorted cmp a -> sorted cmp b ->
    exists r, vset_union cmp strat a b = Ok r /\ vset_bitor_assign cmp strat a b = Done r /\
      vset_bitor_assign_ref cmp strat a b = Done r /\
      vset_extend cmp strat a b = Some (Done r) /\
      forall z, In z r <-> In z a \/ (In z b /\ ~ mem cmp z a).
Proof.
  intros T cmp strat a b L Sa Sb. exists (op_ref (cmp := cmp) OpUnion a b).
  split; [exact (pure_op_ref L strat OpUnion a b Sa Sb)|].
  split; [exact (assign_op_ref L strat OpUnion a b Sa Sb)|].
  split; [exact (assign_ref_op_ref L strat OpUnion a b Sa Sb)|].
  split.
  - destruct (extend_spec L strat a b Sa) as (o & D & E).
    rewrite (is_dedup_unique L KeepFirst b o b D (is_dedup_sorted L KeepFirst b Sb)) in E. exact E.
  - intros z. cbn [op_ref]. rewrite (set_ref_In L) by assumption.
    destruct (mem_dec (cmp := cmp) z b); intuition.
Qed.
Print Assumptions C03_union_keeps_left.
Theorem C03_extend_keeps_left :
  forall (T : Type) (cmp : T -> T -> comparison) (strat : nat -> nat -> bool) (a items : list T),
    OrdLaws cmp -> sorted cmp a ->
    exists r, vset_extend cmp strat a items = Some (Done r) /\ sorted cmp r /\
      forall z, In z r <-> In z a \/ (first_occ cmp z items /\ ~ mem cmp z a).
Proof.
  intros T cmp strat a items L Sa. destruct (extend_spec L strat a items Sa) as (o & D & E).
  exists (op_ref (cmp := cmp) OpUnion a o). split; [exact E|].
  assert (So : sorted cmp o) by apply D.
  split; [now apply (op_ref_sorted L)|].
  intros z. rewrite <- (is_dedup_In L KeepFirst items o z D : In z o <-> first_occ cmp z items).
  cbn [op_ref]. rewrite (set_ref_In L) by assumption. destruct (mem_dec (cmp := cmp) z o); intuition.
Qed.
Print Assumptions C03_extend_keeps_left.
Theorem C03_collect_keeps_first :
  forall (T : Type) (cmp : T -> T -> comparison) (l : list T), OrdLaws cmp ->
    exists r, vset_from_iter cmp l = Some r /\ forall z, In z r <-> first_occ cmp z l.
Proof.
  intros T cmp l L. destruct (from_iter_spec L l) as (o & E & D). exists o. split; [assumption|].
  intros z. exact (is_dedup_In L KeepFirst l o z D).
Qed.
Print Assumptions C03_collect_keeps_first.
Example C03_witness :
  sorted pcmp [(1,1);(2,2)] /\
  vset_insert pcmp [(1,1);(2,2)] (2,9) = Ok ([(1,1);(2,9)], false) /\
  vset_union pcmp alt [(1,1);(2,2)] [(2,9);(3,3)] = Ok [(1,1);(2,2);(3,3)] /\
  vset_from_iter pcmp [(2,2);(1,1);(2,9)] = Some [(1,1);(2,2)] /\
  vset_extend pcmp alt [(1,1);(2,2)] [(3,3);(2,9);(3,4)] = Some (Done [(1,1);(2,2);(3,3)]).
Proof. split; [now apply sortedb_ok|]. repeat split; reflexivity. Qed.

(** ** C04-C07: the four set operations are exact *)
Theorem C04_union_exact :
  forall (T : Type) (cmp : T -> T -> comparison) (strat : nat -> nat -> bool) (a b : list T),
    OrdLaws cmp -> sorted cmp a -> sorted cmp b ->
    exists r, vset_union cmp strat a b = Ok r /\ sorted cmp r /\
      forall x, In x r <-> In x a \/ (In x b /\ ~ mem cmp x a).
Proof.
  intros T cmp strat a b L Sa Sb. exists (op_ref (cmp := cmp) OpUnion a b).
  split; [exact (pure_op_ref L strat OpUnion a b Sa Sb)|].
  split; [now apply (op_ref_sorted L)|].
  intros x. cbn [op_ref]. rewrite (set_ref_In L) by assumption.
  destruct (mem_dec (cmp := cmp) x b); intuition.
Qed.
Print Assumptions C04_union_exact.
Theorem C05_intersection_exact :
  forall (T : Type) (cmp : T -> T -> comparison) (strat : nat -> nat -> bool) (a b : list T),
    OrdLaws cmp -> sorted cmp a -> sorted cmp b ->
    exists r, vset_intersection cmp strat a b = Ok r /\ sorted cmp r /\
      forall x, In x r <-> In x a /\ mem cmp x b.
Proof.
  intros T cmp strat a b L Sa Sb. exists (op_ref (cmp := cmp) OpInter a b).
  split; [exact (pure_op_ref L strat OpInter a b Sa Sb)|].
  split; [now apply (op_ref_sorted L)|].
  intros x. cbn [op_ref]. rewrite (set_ref_In L) by assumption. intuition congruence.
Qed.
Print Assumptions C05_intersection_exact.
Theorem C06_difference_exact :
  forall (T : Type) (cmp : T -> T -> comparison) (strat : nat -> nat -> bool) (a b : list T),
    OrdLaws cmp -> sorted cmp a -> sorted cmp b ->
    exists r, vset_difference cmp strat a b = Ok r /\ sorted cmp r /\
      forall x, In x r <-> In x a /\ ~ mem cmp x b.
Proof.
  intros T cmp strat a b L Sa Sb. exists (op_ref (cmp := cmp) OpDiff a b).
  split; [exact (pure_op_ref L strat OpDiff a b Sa Sb)|].
  split; [now apply (op_ref_sorted L)|].
  intros x. cbn [op_ref]. rewrite (set_ref_In L) by assumption. intuition congruence.
Qed.
Print Assumptions C06_difference_exact.
Theorem C07_symmetric_difference_exact :
  forall (T : Type) (cmp : T -> T -> comparison) (strat : nat -> nat -> bool) (a b : list T),
    OrdLaws cmp -> sorted cmp a -> sorted cmp b ->
    exists r, vset_symmetric_difference cmp strat a b = Ok r /\ sorted cmp r /\
      forall x, In x r <-> (In x a /\ ~ mem cmp x b) \/ (In x b /\ ~ mem cmp x a).
Proof.
  intros T cmp strat a b L Sa Sb. exists (op_ref (cmp := cmp) OpXor a b).
  split; [exact (pure_op_ref L strat OpXor a b Sa Sb)|].
  split; [now apply (op_ref_sorted L)|].
  intros x. cbn [op_ref]. rewrite (set_ref_In L) by assumption. intuition congruence.
Qed.
Print Assumptions C07_symmetric_difference_exact.

Definition ex_a : list (nat * nat) := [(1,1);(2,1);(4,1);(5,1);(8,1)].
Definition ex_b : list (nat * nat) := [(0,2);(2,2);(3,2);(8,2);(9,2)].
Example C04_C07_witness :
  sorted pcmp ex_a /\ sorted pcmp ex_b /\
  vset_union pcmp alt ex_a ex_b = Ok [(0,2);(1,1);(2,1);(3,2);(4,1);(5,1);(8,1);(9,2)] /\
  vset_intersection pcmp alt ex_a ex_b = Ok [(2,1);(8,1)] /\
  vset_difference pcmp alt ex_a ex_b = Ok [(1,1);(4,1);(5,1)] /\
  vset_symmetric_difference pcmp alt ex_a ex_b = Ok [(0,2);(1,1);(3,2);(4,1);(5,1);(9,2)].
Proof. do 2 (split; [now apply sortedb_ok|]). repeat split; reflexivity. Qed.

(** ** C08: assigning operators equal the pure ones and do not panic *)
Theorem C08_assign_equals_pure :
  forall (T : Type) (cmp : T -> T -> comparison) (strat strat' strat'' : nat -> nat -> bool) (a b : list T),
    OrdLaws cmp -> sorted cmp a -> sorted cmp b ->
    (exists r, vset_union cmp strat a b = Ok r /\
       vset_bitor_assign cmp strat' a b = Done r /\ vset_bitor_assign_ref cmp strat'' a b = Done r) /\
    (exists r, vset_intersection cmp strat a b = Ok r /\
       vset_bitand_assign cmp strat' a b = Done r /\ vset_bitand_assign_ref cmp strat'' a b = Done r) /\
    (exists r, vset_symmetric_difference cmp strat a b = Ok r /\
       vset_bitxor_assign cmp strat' a b = Done r /\ vset_bitxor_assign_ref cmp strat'' a b = Done r) /\
    (exists r, vset_difference cmp strat a b = Ok r /\
       vset_sub_assign cmp strat' a b = Done r /\ vset_sub_assign_ref cmp strat'' a b = Done r).
Proof.
  intros T cmp s1 s2 s3 a b L Sa Sb.
  assert (Q : forall op, exists r, pure_op cmp s1 op a b = Ok r /\
     assign_op cmp s2 op a b = Done r /\ assign_ref_op cmp s3 op a b = Done r).
  { intros op. exists (op_ref (cmp := cmp) op a b). repeat split;
      [exact (pure_op_ref L s1 op a b Sa Sb)|exact (assign_op_ref L s2 op a b Sa Sb)|
       exact (assign_ref_op_ref L s3 op a b Sa Sb)]. }
  exact (conj (Q OpUnion) (conj (Q OpInter) (conj (Q OpXor) (Q OpDiff)))).
Qed.
Print Assumptions C08_assign_equals_pure.
Example C08_witness :
  sorted pcmp ex_a /\ sorted pcmp ex_b /\
  vset_bitxor_assign pcmp alt ex_a ex_b = Done [(0,2);(1,1);(3,2);(4,1);(5,1);(9,2)] /\
  vset_sub_assign_ref pcmp alt ex_a ex_b = Done [(1,1);(4,1);(5,1)].
Proof. do 2 (split; [now apply sortedb_ok|]). split; reflexivity. Qed.

(** ** C09: the predicates decide the relations *)
Theorem C09_predicates_decide :
  forall (T : Type) (cmp : T -> T -> comparison) (strat : nat -> nat -> bool) (a b : list T),
    OrdLaws cmp -> sorted cmp a -> sorted cmp b ->
    (exists r, vset_is_disjoint cmp strat a b = Ok r /\
       (r = true <-> forall x, ~ (mem cmp x a /\ mem cmp x b))) /\
    (exists r, vset_is_subset cmp strat a b = Ok r /\
       (r = true <-> forall x, mem cmp x a -> mem cmp x b)) /\
    (exists r, vset_is_superset cmp strat a b = Ok r /\
       (r = true <-> forall x, mem cmp x b -> mem cmp x a)).
Proof.
  intros T cmp strat a b L Sa Sb.
  unfold vset_is_disjoint, vset_is_subset, vset_is_superset.
  assert (Sub : forall a b, sorted cmp a -> sorted cmp b ->
     (negb (nonempty (set_ref (cmp := cmp) true false false a b)) = true <->
      forall x, mem cmp x a -> mem cmp x b)).
  { clear a b Sa Sb. intros a b Sa Sb. rewrite negb_true_iff, nonempty_false, list_nil_In. split.
    - intros H x (y & Hy & E). destruct (mem_dec (cmp := cmp) x b) as [M|M]; [assumption|].
      exfalso. apply (H y). apply (set_ref_In L); auto. left. split; [reflexivity|].
      split; [assumption|]. intros Q. apply M. now apply (mem_eq L x y b E).
    - intros H x Hx. apply (set_ref_In L) in Hx; auto.
      destruct Hx as [(_ & Hx & N)|[(Q & _)|(Q & _)]]; try discriminate.
      apply N, H. now apply (mem_In L). }
  rewrite SetIntersectionOp_eq, !SetDiffOpt_eq.
  rewrite !(bs_merge_set L) by assumption.
  split; [|split]; eexists; (split; [reflexivity|]); auto.
  rewrite negb_true_iff, nonempty_false, list_nil_In. split.
  - intros H x [(y & Hy & E) M]. apply (H y). apply (set_ref_In L); auto. right. right.
    split; [reflexivity|]. split; [assumption|]. now apply (mem_eq L x y b E).
  - intros H x Hx. apply (set_ref_In L) in Hx; auto.
    destruct Hx as [(Q & _)|[(Q & _)|(_ & Hx & M)]]; try discriminate.
    apply (H x). split; [now apply (mem_In L)|assumption].
Qed.
Print Assumptions C09_predicates_decide.
Example C09_witness :
  sorted pcmp ex_a /\ sorted pcmp ex_b /\
  vset_is_disjoint pcmp alt ex_a ex_b = Ok false /\
  vset_is_disjoint pcmp alt [(1,1);(4,1)] ex_b = Ok true /\
  vset_is_subset pcmp alt [(2,7);(8,7)] ex_b = Ok true /\
  vset_is_superset pcmp alt ex_a ex_b = Ok false.
Proof. do 2 (split; [now apply sortedb_ok|]). repeat split; reflexivity. Qed.

(** ** C10: intersection_with and difference_with *)
Theorem C10_named_in_place :
  forall (T : Type) (cmp : T -> T -> comparison) (strat : nat -> nat -> bool) (a b : list T),
    OrdLaws cmp -> sorted cmp a -> sorted cmp b ->
    (exists r, vset_intersection_with cmp strat a b = Done r /\ sorted cmp r /\
       forall x, In x r <-> In x a /\ mem cmp x b) /\
    (exists r, vset_difference_with cmp strat a b = Done r /\ sorted cmp r /\
       forall x, In x r <-> In x a /\ ~ mem cmp x b).
Proof.
  intros T cmp strat a b L Sa Sb. split.
  - exists (op_ref (cmp := cmp) OpInter a b). split; [exact (inter_with_ref L strat a b Sa Sb)|].
    split; [now apply (op_ref_sorted L)|].
    intros x. cbn [op_ref]. rewrite (set_ref_In L) by assumption. intuition congruence.
  - exists (op_ref (cmp := cmp) OpDiff a b). split; [exact (diff_with_ref L strat a b Sa Sb)|].
    split; [now apply (op_ref_sorted L)|].
    intros x. cbn [op_ref]. rewrite (set_ref_In L) by assumption. intuition congruence.
Qed.
Print Assumptions C10_named_in_place.
Example C10_witness :
  sorted pcmp ex_a /\ sorted pcmp ex_b /\
  vset_intersection_with pcmp alt ex_a ex_b = Done [(2,1);(8,1)] /\
  vset_difference_with pcmp alt ex_a ex_b = Done [(1,1);(4,1);(5,1)].
Proof. do 2 (split; [now apply sortedb_ok|]). split; reflexivity. Qed.

(** ** C11: union_with. The property is FALSE of the code: it panics. *)
Theorem C11_union_with_refuted :
  exists (a b : list nat), sorted Nat.compare a /\ sorted Nat.compare b /\
    forall strat, exists left, vset_union_with Nat.compare strat a b = Unwound left.
Proof.
  exists [1], [2]. split; [now apply sortedb_ok|]. split; [now apply sortedb_ok|].
  intros strat.
  destruct (union_with_cases nat_ord strat [1] [2]) as [[H _]|(_ & _ & _ & _ & _ & _ & a1 & a2 & E & _)];
    try (now apply sortedb_ok).
  - destruct (H 2) as (y & [<-|[]] & E); [now left|discriminate].
  - eauto.
Qed.
Print Assumptions C11_union_with_refuted.
(** The exact behaviour: it returns normally exactly when b adds nothing (and then a is the union,
    unchanged); otherwise it panics, leaving a prefix of a. *)
Theorem C11_union_with_exact :
  forall (T : Type) (cmp : T -> T -> comparison) (strat : nat -> nat -> bool) (a b : list T),
    OrdLaws cmp -> sorted cmp a -> sorted cmp b ->
    ((forall x, mem cmp x b -> mem cmp x a) -> vset_union_with cmp strat a b = Done a) /\
    (~ (forall x, mem cmp x b -> mem cmp x a) ->
       (* it panics at the least element y of b that a lacks, and a has lost what is above y *)
       exists y b1 b2 a1 a2, vset_union_with cmp strat a b = Unwound a1 /\
         b = b1 ++ y :: b2 /\ (forall z, In z b1 -> mem cmp z a) /\ ~ mem cmp y a /\
         a = a1 ++ a2 /\ (forall z, In z a1 -> cmp z y = Lt) /\ (forall z, In z a2 -> cmp z y = Gt)).
Proof.
  intros T cmp strat a b L Sa Sb.
  destruct (union_with_cases L strat a b Sa Sb) as [[H E]|(y & b1 & b2 & Eb & Hb1 & N & a1 & a2 & E & Ea & H1 & H2)].
  - split; [auto|]. intros N. exfalso. apply N. intros x (y & Hy & E'). apply (mem_eq L x y a E').
    now apply H.
  - split.
    + intros Q. exfalso. apply N, Q. apply (mem_In L). rewrite Eb. apply in_or_app. right. now left.
    + intros _. exists y, b1, b2, a1, a2. auto 8.
Qed.
Print Assumptions C11_union_with_exact.
Example C11_exact_witness :
  vset_union_with Nat.compare alt [1;3;5;7] [1;4;6] = Unwound [1;3] /\
  vset_union_with Nat.compare alt [1;3;5;7] [1;5] = Done [1;3;5;7].
Proof. split; reflexivity. Qed.

(** ** C12: xor_with. The property is FALSE of the code: it computes the intersection. *)
Theorem C12_xor_with_refuted :
  exists (a b : list nat), sorted Nat.compare a /\ sorted Nat.compare b /\
    forall strat, exists r, vset_xor_with Nat.compare strat a b = Done r /\
      vset_symmetric_difference Nat.compare strat a b <> Ok r.
Proof.
  exists [1;2], [2;3]. split; [now apply sortedb_ok|]. split; [now apply sortedb_ok|].
  assert (S1 : sorted Nat.compare [1;2]) by now apply sortedb_ok.
  assert (S2 : sorted Nat.compare [2;3]) by now apply sortedb_ok.
  intros strat. exists [2]. split.
  - exact (xor_with_ref nat_ord strat [1;2] [2;3] S1 S2).
  - pose proof (pure_op_ref nat_ord strat OpXor [1;2] [2;3] S1 S2) as E. cbn [pure_op] in E. rewrite E.
    vm_compute. discriminate.
Qed.
Print Assumptions C12_xor_with_refuted.
Theorem C12_xor_with_exact :
  forall (T : Type) (cmp : T -> T -> comparison) (strat : nat -> nat -> bool) (a b : list T),
    OrdLaws cmp -> sorted cmp a -> sorted cmp b ->
    exists r, vset_xor_with cmp strat a b = Done r /\ forall x, In x r <-> In x a /\ mem cmp x b.
Proof.
  intros T cmp strat a b L Sa Sb. exists (op_ref (cmp := cmp) OpInter a b).
  split; [exact (xor_with_ref L strat a b Sa Sb)|].
  intros x. cbn [op_ref]. rewrite (set_ref_In L) by assumption. intuition congruence.
Qed.
Print Assumptions C12_xor_with_exact.

(** ** C13: collect *)
Theorem C13_collect_first_occurrences :
  forall (T : Type) (cmp : T -> T -> comparison) (l : list T), OrdLaws cmp ->
    exists r, vset_from_iter cmp l = Some r /\ sorted cmp r /\
      (forall z, In z r <-> first_occ cmp z l) /\
      (forall z, vset_contains cmp r z = true <-> mem cmp z l).
Proof.
  intros T cmp l L. destruct (from_iter_spec L l) as (o & E & D). exists o. split; [assumption|].
  split; [apply D|]. split.
  - intros z. exact (is_dedup_In L KeepFirst l o z D).
  - intros z. rewrite (contains_spec L) by apply D. now apply (is_dedup_mem KeepFirst).
Qed.
Print Assumptions C13_collect_first_occurrences.

(** a long, unsorted input with duplicates, long enough to trigger intermediate compactions *)
Definition long_input : list (nat * nat) :=
  map (fun i => ((i * 7) mod 11, i)) (seq 0 50).
Example C13_witness :
  vset_from_iter pcmp long_input =
    Some [(0,0);(1,8);(2,5);(3,2);(4,10);(5,7);(6,4);(7,1);(8,9);(9,6);(10,3)].
Proof. vm_compute. reflexivity. Qed.

(** ** C14: the construction paths agree; serde round trip *)
Theorem C14_constructions_agree :
  forall (T : Type) (cmp : T -> T -> comparison) (l : list T), OrdLaws cmp ->
    vset_from_iter cmp l = Some (vset_from_vec cmp l) /\
    vset_visit_seq cmp l = vset_from_vec cmp l.
Proof.
  intros T cmp l L. split; [|reflexivity].
  destruct (from_iter_spec L l) as (o & E & D). rewrite E. f_equal.
  exact (is_dedup_unique L KeepFirst l _ _ D (std_sort_dedup L l)).
Qed.
Print Assumptions C14_constructions_agree.
Theorem C14_serde_roundtrip :
  forall (T : Type) (cmp : T -> T -> comparison) (l : list T), OrdLaws cmp -> sorted cmp l ->
    vset_visit_seq cmp (vset_serialize l) = l.
Proof.
  intros T cmp l L S.
  exact (is_dedup_unique L KeepFirst l _ _ (std_sort_dedup L l) (is_dedup_sorted L KeepFirst l S)).
Qed.
Print Assumptions C14_serde_roundtrip.
(** From<Vec> also keeps the first of equal elements and is strictly ordered, on any input *)
Theorem C14_from_vec_exact :
  forall (T : Type) (cmp : T -> T -> comparison) (l : list T), OrdLaws cmp ->
    sorted cmp (vset_from_vec cmp l) /\
    forall z, In z (vset_from_vec cmp l) <-> first_occ cmp z l.
Proof.
  intros T cmp l L. split; [apply (std_sort_dedup L)|]. intros z.
  exact (is_dedup_In L KeepFirst l _ z (std_sort_dedup L l)).
Qed.
Print Assumptions C14_from_vec_exact.
Example C14_witness :
  vset_from_vec pcmp [(3,0);(1,0);(3,1);(2,2)] = [(1,0);(2,2);(3,0)] /\
  sorted pcmp ex_a /\ vset_visit_seq pcmp (vset_serialize ex_a) = ex_a.
Proof. split; [reflexivity|]. split; [now apply sortedb_ok|reflexivity]. Qed.

(** ** C15: sort_dedup_by_key and Keep *)
Theorem C15_sort_dedup_by_key_keep :
  forall (T K : Type) (kcmp : K -> K -> comparison) (key : T -> K) (l : list T) (kp : keep),
    OrdLaws kcmp ->
    exists r, sort_dedup_by_key kcmp key l kp = Some r /\
      sorted (by_key key kcmp) r /\
      forall z, In z r <-> match kp with
                           | KeepFirst => first_occ (by_key key kcmp) z l
                           | KeepLast => last_occ (by_key key kcmp) z l
                           end.
Proof.
  intros T K kcmp key l kp L. pose proof (by_key_ord key kcmp L) as L'.
  destruct (sort_dedup_by_spec L' l kp) as (o & E & D). exists o.
  split; [exact E|]. split; [apply D|]. intros z. exact (is_dedup_In L' kp l o z D).
Qed.
Print Assumptions C15_sort_dedup_by_key_keep.
Example C15_witness :
  sort_dedup_by_key Nat.compare fst long_input KeepLast =
    Some [(0,44);(1,41);(2,49);(3,46);(4,43);(5,40);(6,48);(7,45);(8,42);(9,39);(10,47)] /\
  sort_dedup_by_key Nat.compare fst long_input KeepFirst =
    Some [(0,0);(1,8);(2,5);(3,2);(4,10);(5,7);(6,4);(7,1);(8,9);(9,6);(10,3)].
Proof. split; vm_compute; reflexivity. Qed.

(** ** C16: storage bound while collecting *)
(** After any prefix [l] of the input, and also in the middle of the next push, before its
    compaction, the buffer holds at most max(16, 2d+1) elements, d the number of distinct elements
    in the prefix (= length of any duplicate-free enumeration [enum] of its classes). *)
Theorem C16_storage_bound :
  forall (T : Type) (cmp : T -> T -> comparison) (kp : keep) (l enum : list T) (x : T),
    OrdLaws cmp -> distinct_list cmp enum -> (forall z, mem cmp z enum <-> mem cmp z l) ->
    exists s, sd_push_all cmp (sd_init kp) l = Some s /\
      length (sd_data s) <= Nat.max 16 (2 * length enum + 1) /\
      length (sd_data (sd_push_raw cmp s x)) <= Nat.max 16 (2 * length enum + 1).
Proof.
  intros T cmp kp l enum x L D H.
  destruct (sd_push_all_spec L kp l [] (sd_init kp) (sd_init_inv kp)) as (s & E & _).
  exists s. split; [assumption|].
  assert (Q : length (distinct (cmp := cmp) l) = length enum).
  { apply (len_card L); auto; [apply (std_sort_dedup L)|]. intros z.
    rewrite H. apply (is_dedup_mem KeepFirst), (std_sort_dedup L). }
  rewrite <- Q. now apply (sd_storage L kp l x s).
Qed.
Print Assumptions C16_storage_bound.
Example C16_witness :
  distinct_list Nat.compare [0;1;2] /\
  (forall z, mem Nat.compare z [0;1;2] <->
             mem Nat.compare z (map (fun i => i mod 3) (seq 0 40))) /\
  option_map (fun s => length (sd_data s))
    (sd_push_all Nat.compare (sd_init KeepFirst) (map (fun i => i mod 3) (seq 0 40))) = Some 13.
Proof.
  split; [repeat constructor; discriminate|]. split; [|vm_compute; reflexivity].
  assert (Q : forall z l, mem Nat.compare z l <-> In z l).
  { intros z l. split; [intros (y & H & E); now apply Nat.compare_eq in E as ->|].
    intros H. exists z. split; auto. apply Nat.compare_refl. }
  intros z. rewrite !Q. cbv [map seq]. simpl. intuition.
Qed.

(** ** C17: Eq, Ord, Hash *)
Theorem C17_eq_ord_hash :
  forall (T : Type) (cmp : T -> T -> comparison), OrdLaws cmp ->
    (forall a b, sorted cmp a -> sorted cmp b ->
       (vset_eqb cmp a b = true <-> forall x, mem cmp x a <-> mem cmp x b)) /\
    OrdLaws (vset_cmp cmp) /\
    (forall a b, vset_cmp cmp a b = Eq <-> vset_eqb cmp a b = true) /\
    (forall (H : Type) (hl : nat -> list H) (h : T -> list H) a b,
       (forall x y, cmp x y = Eq -> h x = h y) ->
       vset_eqb cmp a b = true -> vset_hash hl h a = vset_hash hl h b).
Proof.
  intros T cmp L. split; [|split; [|split]].
  - exact (vset_eq_ext L).
  - exact (vset_cmp_laws L).
  - exact vset_cmp_eq.
  - intros H hl h a b Hh. exact (vset_hash_eq hl h a b Hh).
Qed.
Print Assumptions C17_eq_ord_hash.
Example C17_witness :
  sorted pcmp [(1,1);(2,1)] /\ sorted pcmp [(1,5);(2,6)] /\
  vset_eqb pcmp [(1,1);(2,1)] [(1,5);(2,6)] = true /\
  vset_hash (fun n => [n]) (fun x => [fst x]) [(1,1);(2,1)] = [2;1;2] /\
  vset_cmp pcmp [(1,1)] [(1,5);(2,6)] = Lt.
Proof. do 2 (split; [now apply sortedb_ok|]). repeat split; reflexivity. Qed.

(** ** C18: elements are conserved by the in-place operators taking b by value *)
Theorem C18_elements_conserved :
  forall (T : Type) (cmp : T -> T -> comparison) (strat : nat -> nat -> bool) (a b : list T),
    OrdLaws cmp -> sorted cmp a -> sorted cmp b ->
    let conserved op := exists kept dropped_a dropped_b,
      op cmp strat a b = Done (kept, dropped_a, dropped_b) /\
      Permutation (kept ++ dropped_a ++ dropped_b) (a ++ b) in
    conserved (@vset_bitor_assign_full T) /\ conserved (@vset_bitand_assign_full T) /\
    conserved (@vset_bitxor_assign_full T) /\ conserved (@vset_sub_assign_full T).
Proof.
  intros T cmp strat a b L Sa Sb. cbv zeta.
  repeat split; eexists;
    [exact (assign_op_full L strat OpUnion a b Sa Sb)|exact (assign_op_full L strat OpInter a b Sa Sb)|
     exact (assign_op_full L strat OpXor a b Sa Sb)|exact (assign_op_full L strat OpDiff a b Sa Sb)].
Qed.
Print Assumptions C18_elements_conserved.
Example C18_witness :
  sorted pcmp ex_a /\ sorted pcmp ex_b /\
  vset_bitxor_assign_full pcmp alt ex_a ex_b =
    Done ([(0,2);(1,1);(3,2);(4,1);(5,1);(9,2)], [(2,1);(8,1)], [(2,2);(8,2)]).
Proof. do 2 (split; [now apply sortedb_ok|]). reflexivity. Qed.

(** ** C19: logarithmic number of comparisons (set part; the map part is in PropMap.v) *)
Theorem C19_contains_logarithmic :
  forall (T : Type) (cmp : T -> T -> comparison) (l : list T) (x : T),
    vset_contains_count cmp l x <= match length l with 0 => 0 | n => Nat.log2 n + 1 end.
Proof. intros T cmp l x. exact (bs_count_bound (probe cmp x) l). Qed.
Print Assumptions C19_contains_logarithmic.
Example C19_witness :
  vset_contains_count Nat.compare (seq 0 100) 37 = 6 /\
  vset_contains Nat.compare (seq 0 100) 37 = true.
Proof. split; vm_compute; reflexivity. Qed.

(** ** C20: boolean algebra laws, as [==] of the results *)
Definition set_equal {T} (cmp : T -> T -> comparison) (x y : res (list T)) : Prop :=
  exists a b, x = Ok a /\ y = Ok b /\ vset_eqb cmp a b = true.
Section Laws.
  Context {T : Type} {cmp : T -> T -> comparison} (L : OrdLaws cmp) (strat : nat -> nat -> bool).
  Definition memop (x : res (list T)) (z : T) : bool := match x with Ok l => memb cmp z l | _ => false end.
  Definition okset (x : res (list T)) : Prop := exists l, x = Ok l /\ sorted cmp l.
  Definition binop (op : sop) (x y : res (list T)) : res (list T) :=
    rbind x (fun a => rbind y (fun b => pure_op cmp strat op a b)).
  Lemma okset_op op x y : okset x -> okset y -> okset (binop op x y).
  Proof.
    intros (a & -> & Sa) (b & -> & Sb). unfold binop. cbn [rbind]. rewrite (pure_op_ref L) by assumption.
    eexists. split; [reflexivity|]. now apply (op_ref_sorted L).
  Qed.
  Lemma memop_op op x y z : okset x -> okset y -> memop (binop op x y) z = aop op (memop x z) (memop y z).
  Proof.
    intros (a & -> & Sa) (b & -> & Sb). unfold binop. cbn [rbind]. rewrite (pure_op_ref L) by assumption.
    cbn [memop]. apply eq_true_iff_eq. rewrite memb_spec. now apply (op_ref_mem L).
  Qed.
  Lemma set_equal_ok x y : okset x -> okset y -> (forall z, memop x z = memop y z) -> set_equal cmp x y.
  Proof.
    intros (a & -> & Sa) (b & -> & Sb) H. exists a, b. repeat split; auto.
    apply (vset_eq_ext L); auto. intros z. specialize (H z). cbn [memop] in H.
    rewrite <- !memb_spec, H. reflexivity.
  Qed.
  Lemma okset_Ok l : sorted cmp l -> okset (Ok l).
  Proof. intros S. exists l. auto. Qed.
End Laws.

Theorem C20_boolean_algebra :
  forall (T : Type) (cmp : T -> T -> comparison) (strat : nat -> nat -> bool) (a b c : list T),
    OrdLaws cmp -> sorted cmp a -> sorted cmp b -> sorted cmp c ->
    let U x y := rbind x (fun p => rbind y (fun q => vset_union cmp strat p q)) in
    let I x y := rbind x (fun p => rbind y (fun q => vset_intersection cmp strat p q)) in
    let X x y := rbind x (fun p => rbind y (fun q => vset_symmetric_difference cmp strat p q)) in
    let D x y := rbind x (fun p => rbind y (fun q => vset_difference cmp strat p q)) in
    let eq := set_equal cmp in
    let A := Ok a in let B := Ok b in let C := Ok c in
    (eq (U A B) (U B A) /\ eq (I A B) (I B A) /\ eq (X A B) (X B A)) /\
    (eq (U (U A B) C) (U A (U B C)) /\ eq (I (I A B) C) (I A (I B C)) /\
     eq (X (X A B) C) (X A (X B C))) /\
    (eq (U A A) A /\ eq (I A A) A /\ eq (X A A) (Ok []) /\ eq (D A A) (Ok [])) /\
    (eq (I A (U B C)) (U (I A B) (I A C)) /\ eq (U A (I B C)) (I (U A B) (U A C)) /\
     eq (I A (X B C)) (X (I A B) (I A C))) /\
    (eq (U A (I A B)) A /\ eq (I A (U A B)) A) /\
    (eq (D A (U B C)) (I (D A B) (D A C)) /\ eq (D A (I B C)) (U (D A B) (D A C))) /\
    (eq (X A B) (U (D A B) (D B A)) /\ eq (U (D A B) (I A B)) A /\ eq (I (D A B) B) (Ok [])) /\
    (eq (U A (Ok [])) A /\ eq (I A (Ok [])) (Ok []) /\ eq (X A (Ok [])) A /\ eq (D A (Ok [])) A).
Proof.
  intros T cmp strat a b c L Sa Sb Sc. cbv zeta.
  pose proof (okset_Ok (cmp := cmp) a Sa) as Oa. pose proof (okset_Ok (cmp := cmp) b Sb) as Ob.
  pose proof (okset_Ok (cmp := cmp) c Sc) as Oc.
  pose proof (okset_Ok (cmp := cmp) [] sorted_nil) as On.
  repeat match goal with |- _ /\ _ => split end;
  repeat first
    [ progress change (fun p => rbind ?y (fun q => vset_union cmp strat p q))
        with (fun p => rbind y (fun q => pure_op cmp strat OpUnion p q))
    | progress change (fun p => rbind ?y (fun q => vset_intersection cmp strat p q))
        with (fun p => rbind y (fun q => pure_op cmp strat OpInter p q))
    | progress change (fun p => rbind ?y (fun q => vset_symmetric_difference cmp strat p q))
        with (fun p => rbind y (fun q => pure_op cmp strat OpXor p q))
    | progress change (fun p => rbind ?y (fun q => vset_difference cmp strat p q))
        with (fun p => rbind y (fun q => pure_op cmp strat OpDiff p q)) ];
  repeat match goal with
    |- context [rbind ?x (fun p => rbind ?y (fun q => pure_op cmp strat ?o p q))] =>
      change (rbind x (fun p => rbind y (fun q => pure_op cmp strat o p q)))
        with (binop (cmp := cmp) strat o x y) end;
  (apply (set_equal_ok L);
   [repeat first [assumption | apply (okset_op L)]
   |repeat first [assumption | apply (okset_op L)]
   |intros z; repeat rewrite (memop_op L strat) by (repeat first [assumption | apply (okset_op L)]);
    change (memop (cmp := cmp) (Ok []) z) with false; cbn [aop];
    destruct (memop (cmp := cmp) (Ok a) z), (memop (cmp := cmp) (Ok b) z),
      (memop (cmp := cmp) (Ok c) z); reflexivity]).
Qed.
Print Assumptions C20_boolean_algebra.
Example C20_witness : sorted pcmp ex_a /\ sorted pcmp ex_b /\ sorted pcmp [(4,4);(9,9)].
Proof. repeat split; now apply sortedb_ok. Qed.

(** ** C33 (set part): the archive check accepts exactly the strictly ordered archives *)
Theorem C33_set_check_iff_sorted :
  forall (T : Type) (cmp : T -> T -> comparison) (valid : T -> bool) (l : list T), OrdLaws cmp ->
    (vset_check_bytes cmp valid l = CheckOk <->
       (forall x, In x l -> valid x = true) /\ sorted cmp l) /\
    (vset_check_bytes cmp valid l = OrderCheckError <->
       (forall x, In x l -> valid x = true) /\ ~ sorted cmp l).
Proof.
  intros T cmp valid l L. unfold vset_check_bytes.
  pose proof (check_order_spec L l) as O. pose proof (forallb_forall valid l) as F.
  destruct (forallb valid l), (vset_check_order cmp l); intuition congruence.
Qed.
Print Assumptions C33_set_check_iff_sorted.
Example C33_set_witness :
  vset_check_bytes pcmp (fun x => snd x <? 5) ex_a = CheckOk /\
  vset_check_bytes pcmp (fun x => snd x <? 5) [(1,1);(1,2)] = OrderCheckError /\
  vset_check_bytes pcmp (fun x => snd x <? 5) [(1,9)] = ValueCheckError.
Proof. repeat split; reflexivity. Qed.

(** archiving (element by element, by an order-preserving and reversible [ar]) and reading back: the
    archive passes the check, deserializing it gives the original, and membership agrees *)
Lemma sorted_map_mono {X Y} (xc : X -> X -> comparison) (yc : Y -> Y -> comparison) (f : X -> Y) l :
  (forall x y, yc (f x) (f y) = xc x y) -> sorted xc l -> sorted yc (map f l).
Proof.
  intros M S. unfold sorted in *. induction S as [|x l S IH F]; [constructor|].
  cbn [map]. constructor; [exact IH|]. apply Forall_map. eapply Forall_impl; [|exact F].
  intros y H. cbn beta. now rewrite M.
Qed.
Lemma mem_map_mono {X Y} (xc : X -> X -> comparison) (yc : Y -> Y -> comparison) (f : X -> Y) l x :
  (forall x y, yc (f x) (f y) = xc x y) -> mem yc (f x) (map f l) <-> mem xc x l.
Proof.
  intros M. split.
  - intros (y & H & E). apply in_map_iff in H as (z & <- & H). exists z. now rewrite M in E.
  - intros (y & H & E). exists (f y). split; [now apply in_map|now rewrite M].
Qed.
Theorem C33_set_archive_roundtrip :
  forall (T A : Type) (cmp : T -> T -> comparison) (acmp : A -> A -> comparison)
    (ar : T -> A) (de : A -> T) (valid : A -> bool) (l : list T),
    OrdLaws cmp -> OrdLaws acmp ->
    (forall x y, acmp (ar x) (ar y) = cmp x y) -> (forall x, de (ar x) = x) -> (forall x, valid (ar x) = true) ->
    sorted cmp l ->
    vset_check_bytes acmp valid (vset_archive ar l) = CheckOk /\
    vset_unarchive de (vset_archive ar l) = l /\
    forall x, vset_contains acmp (vset_archive ar l) (ar x) = vset_contains cmp l x.
Proof.
  intros T A cmp acmp ar de valid l L LA M R Va S.
  assert (SA : sorted acmp (vset_archive ar l)) by (apply (sorted_map_mono cmp); assumption).
  split; [|split].
  - apply (C33_set_check_iff_sorted A acmp valid _ LA). split; [|exact SA].
    intros y H. apply in_map_iff in H as (x & <- & _). apply Va.
  - unfold vset_unarchive, vset_archive. rewrite map_map. rewrite <- (map_id l) at 2.
    apply map_ext. exact R.
  - intros x. apply eq_true_iff_eq. rewrite (contains_spec LA _ _ SA), (contains_spec L _ _ S).
    now apply mem_map_mono.
Qed.
Print Assumptions C33_set_archive_roundtrip.
(** whatever sequence of valid elements an archive holds: once the check accepts it, lookups on it are
    exact and what it deserializes to is a valid set with the same members (archives that are not
    checked are trusted: [vset_unarchive] does not sort) *)
Theorem C33_set_validated_is_exact :
  forall (T A : Type) (cmp : T -> T -> comparison) (acmp : A -> A -> comparison)
    (de : A -> T) (valid : A -> bool) (al : list A),
    OrdLaws cmp -> OrdLaws acmp -> (forall x y, cmp (de x) (de y) = acmp x y) ->
    vset_check_bytes acmp valid al = CheckOk ->
    (forall a, vset_contains acmp al a = true <-> mem acmp a al) /\
    sorted cmp (vset_unarchive de al) /\
    forall a, vset_contains cmp (vset_unarchive de al) (de a) = vset_contains acmp al a.
Proof.
  intros T A cmp acmp de valid al L LA M C.
  apply (C33_set_check_iff_sorted A acmp valid _ LA) in C as [_ SA].
  assert (S : sorted cmp (vset_unarchive de al)) by (apply (sorted_map_mono acmp); assumption).
  split; [|split]; [|exact S|].
  - intros a. apply (contains_spec LA _ _ SA).
  - intros a. apply eq_true_iff_eq. rewrite (contains_spec LA _ _ SA), (contains_spec L _ _ S).
    now apply mem_map_mono.
Qed.
Print Assumptions C33_set_validated_is_exact.
(** an archived number stored in a record, checked, with an order of its own *)
Example C33_set_archive_witness :
  vset_check_bytes pcmp (fun x => Nat.eqb (snd x) 7) (vset_archive (fun n => (n, 7)) [1;4;6]) = CheckOk /\
  vset_unarchive fst (vset_archive (fun n : nat => (n, 7)) [1;4;6]) = [1;4;6] /\
  vset_contains pcmp (vset_archive (fun n => (n, 7)) [1;4;6]) (4,7) = true /\
  vset_check_bytes pcmp (fun x => Nat.eqb (snd x) 7) [(4,7);(1,7)] = OrderCheckError /\
  vset_unarchive fst [(4,7);(1,7)] = [4;1].
Proof. repeat split; reflexivity. Qed.

(** ** C64 (set part): the vecset! macro *)
Theorem C64_vecset_macro :
  forall (T : Type) (cmp : T -> T -> comparison) (xs : list T), OrdLaws cmp ->
    exists r, vecset_macro cmp xs = Ok r /\ sorted cmp r /\
      forall z, In z r <-> last_occ cmp z xs.
Proof.
  intros T cmp xs L.
  assert (G : forall xs l, sorted cmp l -> exists r, vset_insert_all cmp l xs = Ok r /\ sorted cmp r /\
    forall z, In z r <-> last_occ cmp z xs \/ (In z l /\ ~ mem cmp z xs)).
  { clear xs. induction xs as [|x xs IH]; intros l S; simpl.
    - exists l. split; [reflexivity|]. split; [assumption|]. intros z. split.
      + intros H. right. split; [assumption|apply mem_nil].
      + intros [(l1 & l2 & E & _)|[H _]]; [destruct l1; discriminate|assumption].
    - destruct (insert_spec L l x S) as (l1 & E1 & S1 & I1). rewrite E1. cbn [rbind fst].
      destruct (IH l1 S1) as (r & Er & Sr & Ir). exists r. split; [assumption|].
      split; [assumption|]. intros z. rewrite Ir, I1, mem_cons. split.
      + intros [(p & q & -> & N)|[[->|[H Ne]] N]].
        * left. exists (x :: p), q. auto.
        * left. exists [], xs. auto.
        * right. split; [assumption|]. intros [E|M]; [|contradiction].
          apply Ne. now apply (cmp_sym L).
      + intros [([|u p] & q & E & N)|[H N]].
        * injection E as -> ->. right. split; [now left|assumption].
        * injection E as -> ->. left. exists p, q. auto.
        * right. split; [|tauto]. right. split; [assumption|]. intros E. apply N. left.
          now apply (cmp_sym L). }
  destruct (G xs [] sorted_nil) as (r & E & S & I). exists r. split; [exact E|]. split; [assumption|].
  intros z. rewrite I. simpl. tauto.
Qed.
Print Assumptions C64_vecset_macro.
Example C64_set_witness : vecset_macro pcmp [(2,0);(1,0);(2,5)] = Ok [(1,0);(2,5)].
Proof. reflexivity. Qed.
