(** Properties C85-C87: how many comparisons are made, and collecting under any comparison.
    [counted c] is the comparison [c] with a call counter beside its world; [snd (snd r)] is the counter
    after a call with result [r]. [c] is arbitrary unless said otherwise: it may have effects, break the
    laws of an order and panic. [srt] is the standard library's stable sort (a parameter). *)
From Verif Require Import CollectModel CollectFacts CostFacts DedupFacts OracleFacts VecSetFacts PropOracle.
Require Import Coq.Sorting.Permutation.

Lemma counted_cc {W A B} (c : W -> A -> B -> W * option comparison) w x y :
  snd (fst (counted c w x y)) <= S (snd w).
Proof. unfold counted. destruct (c (fst w) x y). cbn. lia. Qed.

(** a sort that is charged exactly m (log2 m + 1) comparisons, to show that the hypotheses about [srt]
    can be met; not part of the model *)
Definition charged {T W} (cmp : T -> T -> comparison) (s : list T) (w : W * nat) : (list T * bool) * (W * nat) :=
  ((sort_by cmp s, true), (fst w, snd w + length s * (Nat.log2 (length s) + 1))).

(** ** C85: the cost of collecting *)
(** If the sort makes at most K m (log2 m + 1) comparisons on a slice of m elements, collecting n items
    makes at most (4 + 3 K (log2 n + 1)) n comparisons, whatever the items and whatever the comparison. *)
Theorem C85_collect_n_log_n :
  forall (T W : Type) (c : W -> T -> T -> W * option comparison)
    (srt : list T -> W * nat -> (list T * bool) * (W * nat)) (K : nat) (l : list T) (kp : keep) (w : W),
    (forall s w, Permutation (fst (fst (srt s w))) s) ->
    (forall s w, snd (snd (srt s w)) <= snd w + K * (length s * (Nat.log2 (length s) + 1))) ->
    snd (snd (wsort_dedup_by (counted c) srt l kp (w, 0)))
      <= (4 + 3 * K * (Nat.log2 (length l) + 1)) * length l.
Proof.
  intros T W c srt K l kp w SP SC. set (N := length l). set (lg := Nat.log2 N + 1).
  pose proof (wsd_run_ok (counted c) srt SP True (fun _ _ _ => or_intror I) snd (counted_cc c)
    (fun m => K * (m * (Nat.log2 m + 1))) SC N (K * lg + 1)) as H.
  assert (GB : forall m, m <= N -> K * (m * (Nat.log2 m + 1)) + m <= (K * lg + 1) * m).
  { intros m Hm. pose proof (Nat.log2_le_mono m N Hm). unfold lg.
    assert (K * (m * (Nat.log2 m + 1)) <= K * (m * (Nat.log2 N + 1)))
      by (apply Nat.mul_le_mono_l, Nat.mul_le_mono_l; lia). nia. }
  specialize (H GB l (MkWsad [] 0 kp []) (w, 0) ltac:(cbn; lia)). cbv zeta in H. destruct H as [H _].
  specialize (H ltac:(cbn; lia)). unfold unsorted in H. cbn [wd_data wd_sorted length snd] in H. fold N in H.
  unfold wsort_dedup_by. nia.
Qed.
Print Assumptions C85_collect_n_log_n.

(** For an already sorted input of n items (equal neighbours allowed), n-1 comparisons are made and
    the sort is not called: it may be anything here. *)
Theorem C85_collect_sorted_linear :
  forall (T W : Type) (cmp : T -> T -> comparison)
    (srt : list T -> W * nat -> (list T * bool) * (W * nat)) (l : list T) (kp : keep) (w : W),
    OrdLaws cmp -> Sorted.StronglySorted (fun x y => cmp x y <> Gt) l ->
    exists r dropped,
      sort_dedup_by cmp l kp = Some r /\
      wsort_dedup_by (counted (plain cmp)) srt l kp (w, 0) = (Done (r, dropped, []), (w, length l - 1)).
Proof.
  intros T W cmp srt l kp w L S.
  destruct (run_sorted (W := W) (cmp := cmp) kp l [] [] w 0) as (r & d & E); [intros x y []|exact S|].
  exists r, d. split; [|exact (E srt)].
  destruct (sort_dedup_by_spec L l kp) as (r2 & E2 & _). rewrite E2. f_equal.
  pose proof (fun C1 C2 => wsort_dedup_erase cmp (counted (W := W) (plain cmp)) C1
    (fun s wn => ((s, false), wn)) C2 l kp (w, 0) r2 E2) as H.
  specialize (H ltac:(intros w0 x y q; cbn; now intros [= <-]) ltac:(intros s wn; discriminate)).
  unfold wsort_dedup_by in H. cbn [length] in E. rewrite E in H. destruct H as [H _]. now symmetry.
Qed.
Print Assumptions C85_collect_sorted_linear.

(** 40 unsorted items with duplicates: 2 compactions on the way and one at the end;
    sorted ones need 39 comparisons *)
Definition messy : list nat := map (fun i => (i * 7) mod 31) (seq 0 40).
Example C85_witness :
  let srt := charged (W := unit) Nat.compare in
  let run := wsort_dedup_by (counted (plain Nat.compare)) srt in
  (forall s w, Permutation (fst (fst (srt s w))) s) /\
  (forall s w, snd (snd (srt s w)) <= snd w + 1 * (length s * (Nat.log2 (length s) + 1))) /\
  OrdLaws Nat.compare /\
  Sorted.StronglySorted (fun x y => Nat.compare x y <> Gt) (map (fun i => i / 3) (seq 0 40)) /\
  match run messy KeepFirst (tt, 0) with
  | (Done (r, d, rest), (_, n)) => r = seq 0 31 /\ length d = 9 /\ rest = [] /\ n = 597
  | _ => False
  end /\
  snd (snd (run (map (fun i => i / 3) (seq 0 40)) KeepLast (tt, 0))) = 39.
Proof.
  cbv zeta. split; [intros s w; apply sort_by_perm|]. split; [intros s w; cbn; lia|].
  split; [exact nat_ord|]. split; [|vm_compute; repeat split].
  vm_compute. repeat (constructor; [|repeat (constructor; [discriminate|]); constructor]). constructor.
Qed.

(** ** C86: the cost of the set operations, the map joins and the searches *)
(** [cost r]: the comparisons made *)
Definition cost {X W : Type} (r : X * (W * nat)) : nat := snd (snd r).

(** For every choice of merge algorithm, every comparison and all inputs: at most 6|a| + |b|. *)
Theorem C86_set_operations_linear :
  forall (T W : Type) (c : W -> T -> T -> W * option comparison) (strat : nat -> nat -> bool)
    (a b : list T) (w : W),
    (forall o,
       cost (wset_pure (counted c) strat o a b (w, 0)) <= 6 * length a + length b /\
       cost (wset_assign (counted c) strat o a b (w, 0)) <= 6 * length a + length b /\
       cost (wset_assign_ref (counted c) strat o a b (w, 0)) <= 6 * length a + length b) /\
    cost (wset_is_disjoint (counted c) strat a b (w, 0)) <= 6 * length a + length b /\
    cost (wset_is_subset (counted c) strat a b (w, 0)) <= 6 * length a + length b /\
    cost (wset_is_superset (counted c) strat a b (w, 0)) <= 6 * length b + length a.
Proof.
  intros T W c strat a b w.
  assert (BS : forall o x y, snd (snd (wbs_merge (counted c) strat (bop_op o bs_msm) x y (w, 0))) <= 6 * length x + length y).
  { intros o x y. unfold wbs_merge.
    pose proof (wmerge_linear (bop_op o (@bs_msm T T)) (counted c) snd (counted_cc c) _ _
      (bop_steps _ _ (fun _ _ => True) o (bs_advs _ (fun _ _ _ _ => I))) strat (bs_new x y) (w, 0)) as H.
    replace (mo_a (bop_op o bs_msm) (bs_new x y)) with x in H by now destruct o.
    replace (mo_b (bop_op o bs_msm) (bs_new x y)) with y in H by now destruct o.
    destruct (wmerge _ _ _ _ _) as [q w']. exact H. }
  split; [intros o; split; [|split]|split; [|split]]; unfold cost.
  - unfold wset_pure, wvs_merge.
    pose proof (wmerge_linear (bop_op o (vs_msm CloneConverter CloneConverter)) (counted c) snd (counted_cc c) _ _
      (bop_steps _ _ (fun _ _ => True) o (vs_advs _ (fun _ _ _ _ _ => I))) strat (vs_new a b) (w, 0)) as H.
    replace (mo_a (bop_op o (vs_msm CloneConverter CloneConverter)) (vs_new a b)) with a in H by now destruct o.
    replace (mo_b (bop_op o (vs_msm CloneConverter CloneConverter)) (vs_new a b)) with b in H by now destruct o.
    destruct (wmerge _ _ _ _ _) as [q w']. exact H.
  - unfold wset_assign, wip_merge.
    pose proof (wmerge_linear (bop_op o (ip_msm IdConverter)) (counted c) snd (counted_cc c) _ _
      (bop_steps _ _ (fun _ _ => True) o (ip_advs _ (fun _ _ _ _ _ => I))) strat (ip_new a b) (w, 0)) as H.
    replace (mo_a (bop_op o (ip_msm IdConverter)) (ip_new a b)) with a in H by now destruct o.
    replace (mo_b (bop_op o (ip_msm IdConverter)) (ip_new a b)) with b in H by now destruct o.
    destruct (wmerge _ _ _ _ _) as [q w']. exact H.
  - unfold wset_assign_ref, wipr_merge.
    pose proof (wmerge_linear (bop_op o (ipr_msm CloneConverter)) (counted c) snd (counted_cc c) _ _
      (bop_steps _ _ (fun _ _ => True) o (ipr_advs _ (fun _ _ _ _ _ => I))) strat (ipr_new a b) (w, 0)) as H.
    replace (mo_a (bop_op o (ipr_msm CloneConverter)) (ipr_new a b)) with a in H by now destruct o.
    replace (mo_b (bop_op o (ipr_msm CloneConverter)) (ipr_new a b)) with b in H by now destruct o.
    destruct (wmerge _ _ _ _ _) as [q w']. exact H.
  - unfold wset_is_disjoint. specialize (BS Inter a b). destruct (wbs_merge _ _ _ _ _ _). exact BS.
  - unfold wset_is_subset. specialize (BS Diff a b). destruct (wbs_merge _ _ _ _ _ _). exact BS.
  - unfold wset_is_superset, wset_is_subset. specialize (BS Diff b a). destruct (wbs_merge _ _ _ _ _ _). exact BS.
Qed.
Print Assumptions C86_set_operations_linear.

(** When the binary strategy is chosen: at most |a| (log2 |b| + 1). A few elements against a large set
    cost a logarithm each. *)
Theorem C86_set_operations_logarithmic :
  forall (T W : Type) (c : W -> T -> T -> W * option comparison) (strat : nat -> nat -> bool)
    (a b : list T) (w : W) (o : bop),
    strat (length a) (length b) = false ->
    cost (wset_pure (counted c) strat o a b (w, 0)) <= length a * (Nat.log2 (length b) + 1) /\
    cost (wset_assign (counted c) strat o a b (w, 0)) <= length a * (Nat.log2 (length b) + 1) /\
    cost (wset_assign_ref (counted c) strat o a b (w, 0)) <= length a * (Nat.log2 (length b) + 1).
Proof.
  intros T W c strat a b w o SB.
  assert (D : length a * digits (length b) <= length a * (Nat.log2 (length b) + 1)).
  { apply Nat.mul_le_mono_l. unfold digits. destruct (length b); cbn; lia. }
  assert (G : forall S (O : mop S T T) s, mo_a O s = a -> mo_b O s = b ->
    snd (snd (wmerge (counted c) O strat s (w, 0))) <= length a * digits (length b)).
  { intros S O s E1 E2. unfold wmerge. rewrite E1, E2, SB.
    pose proof (wbinary_log O (counted c) snd (counted_cc c) (Datatypes.S (length a)) s (length a) (length b) (w, 0)) as H.
    exact H. }
  split; [|split]; unfold cost; (etransitivity; [|exact D]).
  - unfold wset_pure, wvs_merge.
    specialize (G _ (bop_op o (vs_msm CloneConverter CloneConverter)) (vs_new a b) ltac:(now destruct o) ltac:(now destruct o)).
    destruct (wmerge _ _ _ _ _) as [q w']. exact G.
  - unfold wset_assign, wip_merge.
    specialize (G _ (bop_op o (ip_msm IdConverter)) (ip_new a b) ltac:(now destruct o) ltac:(now destruct o)).
    destruct (wmerge _ _ _ _ _) as [q w']. exact G.
  - unfold wset_assign_ref, wipr_merge.
    specialize (G _ (bop_op o (ipr_msm CloneConverter)) (ipr_new a b) ltac:(now destruct o) ltac:(now destruct o)).
    destruct (wmerge _ _ _ _ _) as [q w']. exact G.
Qed.
Print Assumptions C86_set_operations_logarithmic.

(** the in-place map joins and combine_with, with arbitrary (effectful, panicking) closures *)
Theorem C86_map_joins_linear :
  forall (K V V2 W E : Type) (c : W -> K -> K -> W * option comparison) (strat : nat -> nat -> bool)
    (a : list (K * V)) (b : list (K * V2)) (b1 : list (K * V)) (e : E) (w : W),
    (forall f, cost (wmap_outer_join_with (counted c) strat f a b e (w, 0)) <= 6 * length a + length b) /\
    (forall f, cost (wmap_left_join_with (counted c) strat f a b e (w, 0)) <= 6 * length a + length b) /\
    (forall f, cost (wmap_right_join_with (counted c) strat f a b e (w, 0)) <= 6 * length a + length b) /\
    (forall f, cost (wmap_inner_join_with (counted c) strat f a b e (w, 0)) <= 6 * length a + length b) /\
    (forall f, cost (wmap_combine_with (counted c) strat f a b1 e (w, 0)) <= 6 * length a + length b1).
Proof.
  intros K V V2 W E c strat a b b1 e w.
  assert (KC : forall (V2 : Type) w0 (x : K * V) (y : K * V2), snd (fst (wkv (counted c) w0 x y)) <= S (snd w0)).
  { intros X w0 x y. apply counted_cc. }
  assert (G : forall (O : mop (iprstate (K * V) (K * V2) * E) (K * V) (K * V2)),
    steps O mi_R (fun _ _ => True) -> mo_a O (ipr_new a b, e) = a -> mo_b O (ipr_new a b, e) = b ->
    snd (snd (wipr_join (counted c) strat O a b e (w, 0))) <= 6 * length a + length b).
  { intros O ST E1 E2. unfold wipr_join.
    pose proof (wmerge_linear O (wkv (counted c)) snd (KC V2) _ _ ST strat (ipr_new a b, e) (w, 0)) as H.
    rewrite E1, E2 in H. destruct (wmerge _ _ _ _ _) as [q w']. exact H. }
  unfold cost. split; [|split; [|split; [|split]]]; intros f.
  - apply G; try reflexivity. apply outer_i_steps; [tauto|tauto].
  - apply G; try reflexivity. apply left_i_steps; [tauto|tauto].
  - apply G; try reflexivity. apply right_i_steps; [tauto|tauto].
  - apply G; try reflexivity. apply inner_i_steps; [tauto|tauto].
  - unfold wmap_combine_with.
    pose proof (wmerge_linear (OuterJoinOp_p unused_cmp (combine_clos f)) (wkv (counted c)) snd (KC V) _ (fun _ _ => True)
      (outer_p_steps (fun _ _ => True) ltac:(tauto) (combine_clos f) ltac:(tauto)) strat (ip_new a b1, e) (w, 0)) as H.
    destruct (wmerge _ _ _ _ _) as [q w']. exact H.
Qed.
Print Assumptions C86_map_joins_linear.

(** contains, insert and remove: log2 n + 1 comparisons (C19 without any assumption on the comparison) *)
Theorem C86_single_element :
  forall (T W : Type) (c : W -> T -> T -> W * option comparison) (l : list T) (x : T) (w : W),
    let bound := match length l with 0 => 0 | n => Nat.log2 n + 1 end in
    cost (wset_contains (counted c) l x (w, 0)) <= bound /\
    cost (wset_insert (counted c) l x (w, 0)) <= bound /\
    cost (wset_remove (counted c) l x (w, 0)) <= bound.
Proof.
  intros T W c l x w bound. unfold cost, wset_contains, wset_insert, wset_remove.
  pose proof (wbsearch_cost (fun w0 y => counted c w0 y x) snd (fun w0 y => counted_cc c w0 y x) l (w, 0)) as H.
  replace (digits (length l)) with bound in H by (unfold bound, digits; now destruct (length l)).
  destruct (wbsearch (fun w0 y => counted c w0 y x) l (w, 0)) as [r w']. cbn [snd] in *.
  split; [exact H|]. split; exact H.
Qed.
Print Assumptions C86_single_element.

Example C86_witness :
  let big := map (fun i => 2 * i) (seq 0 100) in
  let cc := counted (W := unit) (plain Nat.compare) in
  let run strat a b := wset_assign cc strat Union a b (tt, 0) in
  cost (run (fun _ _ => true) [51; 101] big) = 53 /\
  cost (run (fun _ _ => false) [51; 101] big) = 13 /\
  cost (run (fun _ _ => false) big [51; 101]) = 14 /\
  cost (run (fun _ _ => false) big (map S big)) = 248 /\
  cost (wset_assign (counted cyclic) (fun _ _ => false) Xor [5;1;5] [2;9] (0, 0)) = 3.
Proof. vm_compute. repeat split. Qed.

(** ** C87: collecting and extending under any comparison *)
(** [noticed]: the standard library's sort may also unwind when it notices that the comparison is not an
    order (recent versions do); nothing else makes it unwind. *)
Theorem C87_collect_conserves :
  forall (T W : Type) (c : W -> T -> T -> W * option comparison) (srt : list T -> W -> (list T * bool) * W)
    (noticed : Prop) (l : list T) (kp : keep) (w : W),
    (forall s w, Permutation (fst (fst (srt s w))) s) ->
    (forall s w, snd (fst (srt s w)) = false -> ~ never_panics c \/ noticed) ->
    (exists r dropped, fst (wsort_dedup_by c srt l kp w) = Done (r, dropped, []) /\
       Permutation (r ++ dropped) l) \/
    (exists r dropped rest, fst (wsort_dedup_by c srt l kp w) = Unwound (r, dropped, rest) /\
       Permutation (r ++ dropped ++ rest) l /\ (~ never_panics c \/ noticed)).
Proof.
  intros T W c srt noticed l kp w SP SB.
  pose proof (wsd_run_ok c srt SP noticed SB (fun _ => 0) (fun _ _ _ => Nat.le_0_l _) (fun _ => 0)
    (fun _ _ => Nat.le_0_l _) 0 1 ltac:(intros; cbn; lia) l (MkWsad [] 0 kp []) w ltac:(cbn; lia)) as H.
  cbv zeta in H. destruct H as [_ H]. fold (wsort_dedup_by c srt l kp w) in H.
  destruct (fst (wsort_dedup_by c srt l kp w)) as [[[d dr] rs]|[[d dr] rs]|]; [left|right|destruct H].
  - destruct H as [P ->]. eauto.
  - destruct H as [P B]. eauto 8.
Qed.
Print Assumptions C87_collect_conserves.

(** an order that may panic at any call: the collection is the right one, or nothing is handed out *)
Theorem C87_collect_interrupted :
  forall (T W : Type) (cmp : T -> T -> comparison) (c : W -> T -> T -> W * option comparison)
    (srt : list T -> W -> (list T * bool) * W) (l : list T) (kp : keep) (w : W),
    OrdLaws cmp ->
    (forall w x y q, snd (c w x y) = Some q -> q = cmp x y) ->
    (forall s w, snd (fst (srt s w)) = true -> fst (fst (srt s w)) = sort_by cmp s) ->
    (exists r dropped, sort_dedup_by cmp l kp = Some r /\
       fst (wsort_dedup_by c srt l kp w) = Done (r, dropped, [])) \/
    (exists lost, fst (wsort_dedup_by c srt l kp w) = Unwound lost).
Proof.
  intros T W cmp c srt l kp w L CE SE. destruct (sort_dedup_by_spec L l kp) as (r & E & _).
  pose proof (wsort_dedup_erase cmp c CE srt SE l kp w r E) as H.
  destruct (fst (wsort_dedup_by c srt l kp w)) as [[[d dr] rs]|x|]; [left|right; eauto|destruct H].
  destruct H as [-> ->]. eauto.
Qed.
Print Assumptions C87_collect_interrupted.

(** extend: nothing lost, nothing duplicated, under any comparison *)
Theorem C87_extend_conserves :
  forall (T W : Type) (c : W -> T -> T -> W * option comparison) (srt : list T -> W -> (list T * bool) * W)
    (strat : nat -> nat -> bool) (noticed : Prop) (self l : list T) (w : W),
    (forall s w, Permutation (fst (fst (srt s w))) s) ->
    (forall s w, snd (fst (srt s w)) = false -> ~ never_panics c \/ noticed) ->
    exists kept dropped, Permutation (kept ++ dropped) (self ++ l) /\
      (fst (wset_extend c srt strat self l w) = Done (kept, dropped) \/
       fst (wset_extend c srt strat self l w) = Unwound (kept, dropped) /\ (~ never_panics c \/ noticed)).
Proof.
  intros T W c srt strat noticed self l w SP SB. unfold wset_extend.
  destruct (C87_collect_conserves T W c srt noticed l KeepFirst w SP SB) as [(r & d & E & P)|(r & d & rs & E & P & B)].
  - destruct (wsort_dedup_by c srt l KeepFirst w) as [o w']. cbn [fst] in E. subst o.
    destruct (C71_assign_conserves T W c strat Union self r w') as (k & da & db & P2 & Q).
    assert (PP : Permutation (k ++ d ++ [] ++ da ++ db) (self ++ l)).
    { cbn [app]. rewrite <- P, (app_assoc self r d), (Permutation_app_comm (self ++ r) d), <- P2, !app_assoc.
      do 2 apply Permutation_app_tail. apply Permutation_app_comm. }
    exists k, (d ++ [] ++ da ++ db). split; [exact PP|].
    destruct (wset_assign c strat Union self r w') as [o w'']; cbn [fst] in Q.
    destruct Q as [Q|[Q NP]]; subst o; [now left|right; split; [reflexivity|now left]].
  - destruct (wsort_dedup_by c srt l KeepFirst w) as [o w']. cbn [fst] in E. subst o.
    exists self, (r ++ d ++ rs). split; [now apply Permutation_app_head|]. right. split; [reflexivity|exact B].
Qed.
Print Assumptions C87_extend_conserves.

(** extend with an order whose n+1st comparison panics (anywhere: while collecting, sorting or
    merging): self is untouched, or a prefix of the union, or the union; always a valid set *)
Theorem C87_extend_interrupted :
  forall (T : Type) (cmp : T -> T -> comparison) (srt : list T -> unit * nat -> (list T * bool) * (unit * nat))
    (strat : nat -> nat -> bool) (self l : list T) (n : nat),
    OrdLaws cmp -> sorted cmp self ->
    (forall s w, snd (fst (srt s w)) = true -> fst (fst (srt s w)) = sort_by cmp s) ->
    exists that r, vset_from_iter cmp l = Some that /\ vset_extend cmp strat self l = Some (Done r) /\
      ((exists dropped, fst (wset_extend (panics_after (lawful cmp)) srt strat self l (tt, n)) = Done (r, dropped)) \/
       (exists p dropped, fst (wset_extend (panics_after (lawful cmp)) srt strat self l (tt, n)) = Unwound (p, dropped) /\
          (p = self \/ exists t, r = p ++ t) /\ sorted cmp p)).
Proof.
  intros T cmp srt strat self l n L S SE.
  destruct (sort_dedup_by_spec L l KeepFirst) as (that & E & D).
  destruct (C72_panicking_cmp_leaves_valid_set T cmp strat Union self that 0 L S (proj1 D)) as (r & E1 & _ & Sr & _).
  exists that, r. split; [exact E|]. split.
  { unfold vset_extend, vset_from_iter. rewrite E. f_equal. exact E1. }
  destruct (C87_collect_interrupted T _ cmp (panics_after (lawful cmp)) srt l KeepFirst (tt, n) L) as [(r0 & d & E0 & Q)|(x & Q)].
  - intros [[] [|m]] x y q; cbn; [discriminate|]. now intros [= <-].
  - exact SE.
  - unfold wset_extend. destruct (wsort_dedup_by _ srt l KeepFirst (tt, n)) as [o [[] m]]. cbn [fst] in Q. subst o.
    assert (r0 = that) as -> by congruence.
    destruct (C72_panicking_cmp_leaves_valid_set T cmp strat Union self that m L S (proj1 D)) as (r' & E1' & _ & _ & H & _).
    assert (r' = r) as -> by congruence.
    destruct H as [(da & db & H)|(p & da & db & H & HT & Sp & _)];
      destruct (wset_assign _ strat Union self that (tt, m)) as [o w'']; cbn [fst] in H; subst o; [left|right].
    + eexists. reflexivity.
    + do 2 eexists. split; [reflexivity|]. split; [now right|exact Sp].
  - right. unfold wset_extend. destruct (wsort_dedup_by _ srt l KeepFirst (tt, n)) as [o [[] m]]. cbn [fst] in Q. subst o.
    destruct x as [[a b] cc]. do 2 eexists. split; [reflexivity|]. split; [now left|exact S].
Qed.
Print Assumptions C87_extend_interrupted.

(** comparison number n+1 panics, the sort is an insertion sort using that comparison. The witness runs:
    interrupted in the first compaction, interrupted in the union, and completed. *)
Fixpoint ins_w {T W} (c : W -> T -> T -> W * option comparison) (x : T) (l : list T) (w : W)
  : (list T * bool) * W :=
  match l with
  | [] => (([x], true), w)
  | y :: l' =>
      let (w', r) := c w y x in
      match r with
      | None => ((x :: y :: l', false), w')
      | Some Gt => ((x :: y :: l', true), w')
      | Some _ => let '((l2, ok), w2) := ins_w c x l' w' in ((y :: l2, ok), w2)
      end
  end.
Fixpoint sort_w {T W} (c : W -> T -> T -> W * option comparison) (done rest : list T) (w : W)
  : (list T * bool) * W :=
  match rest with
  | [] => ((done, true), w)
  | x :: rest' =>
      let '((d, ok), w') := ins_w c x done w in
      if ok then sort_w c d rest' w' else ((d ++ rest', false), w')
  end.
Lemma ins_w_perm {T W} (c : W -> T -> T -> W * option comparison) x : forall l w,
  Permutation (fst (fst (ins_w c x l w))) (x :: l).
Proof.
  induction l as [|y l IH]; intros w; cbn; [reflexivity|]. destruct (c w y x) as [w' [[]|]]; cbn; try reflexivity.
  all: specialize (IH w'); destruct (ins_w c x l w') as [[l2 ok] w2]; cbn in *; rewrite IH; apply perm_swap.
Qed.
Lemma sort_w_perm {T W} (c : W -> T -> T -> W * option comparison) : forall r d w,
  Permutation (fst (fst (sort_w c d r w))) (d ++ r).
Proof.
  induction r as [|x r IH]; intros d w; cbn; [now rewrite app_nil_r|].
  pose proof (ins_w_perm c x d w) as P. destruct (ins_w c x d w) as [[d' ok] w']. cbn in P. destruct ok; cbn.
  - rewrite IH, P. cbn. apply Permutation_middle.
  - rewrite P. cbn. apply Permutation_middle.
Qed.
Lemma ins_w_quiet {T W} (c : W -> T -> T -> W * option comparison) x : forall l w,
  snd (fst (ins_w c x l w)) = false -> ~ never_panics c.
Proof.
  induction l as [|y l IH]; intros w; cbn; [discriminate|]. destruct (c w y x) as [w' [[]|]] eqn:Q; cbn.
  3:{ discriminate. } 3:{ intros _ NP. apply (NP w y x). now rewrite Q. }
  all: specialize (IH w'); destruct (ins_w c x l w') as [[l2 ok] w2]; exact IH.
Qed.
Lemma sort_w_quiet {T W} (c : W -> T -> T -> W * option comparison) : forall r d w,
  snd (fst (sort_w c d r w)) = false -> ~ never_panics c.
Proof.
  induction r as [|x r IH]; intros d w; cbn; [discriminate|].
  pose proof (ins_w_quiet c x d w) as P. destruct (ins_w c x d w) as [[d' ok] w']. destruct ok; cbn in *; [apply IH|exact P].
Qed.

Example C87_witness :
  let c := panics_after (lawful Nat.compare) in
  let srt := sort_w c [] in
  (forall s w, Permutation (fst (fst (srt s w))) s) /\
  (forall s w, snd (fst (srt s w)) = false -> ~ never_panics c \/ False) /\
  (let cy := sort_w cyclic [] in
   fst (wsort_dedup_by cyclic cy [3;1;2;1] KeepFirst 0) = Done ([3;1], [2;1], [])) /\
  fst (wset_extend c srt (fun _ _ => true) [1;5;9] [4;2;5;4] (tt, 3)) = Unwound ([1;5;9], [2;5;4;4]) /\
  fst (wset_extend c srt (fun _ _ => true) [1;5;9] [4;2;5;4] (tt, 13)) = Unwound ([1;2;4], [4;5;9;5]) /\
  fst (wset_extend c srt (fun _ _ => true) [1;5;9] [4;2;5;4] (tt, 30)) = Done ([1;2;4;5;9], [4;5]).
Proof.
  cbv zeta. split; [intros s w; apply sort_w_perm|]. split; [intros s w H; left; exact (sort_w_quiet _ _ _ _ H)|].
  vm_compute. repeat split.
Qed.
