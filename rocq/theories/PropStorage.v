(** Properties C100-C102: where the elements of a VecSet / VecMap live and when memory is allocated.
    [sv] (StorageModel.v) is a SmallVec: [sv_items] its elements, [sv_cap] its capacity, [sv_allocs] the
    number of heap blocks requested so far; [sv_spilled N s]: the elements are on the heap, not in the
    inline array of size [N]. The growth policy of SmallVec is an arbitrary [grow]. *)
From Verif Require Import StorageFacts VecMapSpec PropSet PropMap.

(** ** C100: collecting *)
(** For every inline size, growth policy, size hint and sequence of items: the collected set is the one
    of the list model (C13); afterwards it is on the heap exactly if it has more than [N] elements; nothing
    is ever allocated if the hint (capped at 16) fits inline and either there are at most [N] items, or the
    items arrive in non-decreasing order and at most [N] are distinct, or [N] is at least 16 and at least
    twice the number of distinct items plus one. *)
Theorem C100_collect :
  forall (T : Type) (cmp : T -> T -> comparison) (N : nat) (grow : nat -> nat) (hint : nat) (l : list T),
    OrdLaws cmp -> (forall n, n <= grow n) ->
    exists s, sset_from_iter N grow cmp hint l = Some s /\ vset_from_iter cmp l = Some (sv_items s) /\
      let d := length (sv_items s) in
      (sv_spilled N s = true <-> N < d) /\
      sv_cap s = Nat.max N d /\
      (Nat.min hint 16 <= N ->
       length l <= N \/
       (StronglySorted (fun x y => cmp x y <> Gt) l /\ d <= N) \/
       Nat.max 16 (2 * d + 1) <= N ->
       sv_allocs s = 0) /\
      (sv_allocs s = 0 -> Nat.min hint 16 <= N /\ d <= N).
Proof.
  intros T cmp N grow hint l L G. unfold sset_from_iter, vset_from_iter.
  destruct (ss_sort_dedup_spec N grow G cmp L hint l KeepFirst) as (v & Ev & El & Ov & A & C & C'). rewrite Ev, El.
  destruct (sv_shrink_spec N v Ov) as (I & O & Cap & Al).
  exists (sv_shrink_to_fit N v). split; [reflexivity|]. rewrite I. split; [reflexivity|]. cbn zeta.
  fold (sv_len v). rewrite Cap, Al. unfold sv_spilled. rewrite Cap, Nat.ltb_lt.
  assert (D : length (distinct (cmp := cmp) l) = sv_len v).
  { destruct (sort_dedup_by_spec L l KeepFirst) as (o & Eo & Do). assert (o = sv_items v) as -> by congruence.
    unfold sv_len. f_equal. exact (is_dedup_unique L _ _ _ _ (std_sort_dedup L l) Do). }
  split; [split; lia|]. split; [reflexivity|]. split.
  - intros H1 H2.
    assert (F : fits_all cmp (sd_init KeepFirst) l N).
    { destruct H2 as [H2|[[H2 H3]|H2]].
      - now apply fits_few.
      - apply fits_inorder; auto. lia.
      - apply fits_general; auto. lia. }
    assert (Z : sv_allocs v = 0) by (apply A; auto). specialize (C Z). destruct Ov as [Ov _].
    destruct (Nat.ltb_spec N (sv_len v)); [lia|]. cbn [andb]. lia.
  - intros H. assert (Z : sv_allocs v = 0) by lia. destruct (proj1 A Z) as [A1 _]. split; [exact A1|].
    specialize (C Z). destruct Ov as [Ov _]. lia.
Qed.
Print Assumptions C100_collect.
(** the growth policy of smallvec: the next power of two *)
Definition next_pow2 (n : nat) : nat := 2 ^ Nat.log2_up n.
Lemma next_pow2_ok n : n <= next_pow2 n.
Proof.
  unfold next_pow2. destruct (Nat.le_gt_cases n 1) as [H|H].
  - assert (2 ^ Nat.log2_up n <> 0) by (apply Nat.pow_nonzero; lia). lia.
  - destruct (Nat.log2_up_spec n H). lia.
Qed.
(** the documentation's example [(0..4).collect()] into [VecSet<[u32; 4]>], and one that spills *)
Example C100_collect_witness :
  sset_from_iter 4 next_pow2 Nat.compare 4 [0;1;2;3] = Some (MkSv [0;1;2;3] 4 0) /\
  sset_from_iter 4 next_pow2 Nat.compare 5 [4;3;2;1;0] = Some (MkSv [0;1;2;3;4] 5 1) /\
  sset_from_iter 4 next_pow2 Nat.compare 0 [1;1;2;2;3;3;4;4] = Some (MkSv [1;2;3;4] 4 0).
Proof. repeat split; reflexivity. Qed.

(** The plain claim (src/vec_set.rs:42-44, read for collect) "what fits in the array is collected without
    allocating" is false: unsorted duplicates are buffered before they are removed, and a long size hint
    allocates at once. *)
Theorem C100_fits_so_no_allocation_refuted :
  ~ (forall (T : Type) (cmp : T -> T -> comparison) (N : nat) (grow : nat -> nat) (hint : nat) (l : list T) (s : sv T),
       OrdLaws cmp -> (forall n, n <= grow n) -> hint <= length l ->
       sset_from_iter N grow cmp hint l = Some s -> length (sv_items s) <= N -> sv_allocs s = 0).
Proof.
  intros H.
  specialize (H nat Nat.compare 4 next_pow2 0 [1;0;0;0;0] (MkSv [0;1] 4 1) nat_ord next_pow2_ok (Nat.le_0_l _)).
  cbn in H. specialize (H eq_refl). lia.
Qed.
Print Assumptions C100_fits_so_no_allocation_refuted.
Example C100_refuted_by_hint :
  sset_from_iter 4 next_pow2 Nat.compare 16 (repeat 7 16) = Some (MkSv [7] 4 1) /\
  sset_from_iter 4 next_pow2 Nat.compare 0 (repeat 7 16) = Some (MkSv [7] 4 0).
Proof. split; reflexivity. Qed.

(** VecMap: the same entries as the list model; nothing allocated under the same conditions; but no
    [shrink_to_fit], so unlike a set a small map may stay on the heap *)
Theorem C100_map_collect :
  forall (K V : Type) (kcmp : K -> K -> comparison) (N : nat) (grow : nat -> nat) (hint : nat) (l : list (K * V)),
    OrdLaws kcmp -> (forall n, n <= grow n) ->
    exists s, smap_from_iter N grow kcmp hint l = Some s /\ vmap_from_iter kcmp l = Some (sv_items s) /\
      let d := length (sv_items s) in
      (N < d -> sv_spilled N s = true) /\ (sv_spilled N s = true <-> 0 < sv_allocs s) /\
      (Nat.min hint 16 <= N ->
       length l <= N \/
       (StronglySorted (fun x y => kcmp (fst x) (fst y) <> Gt) l /\ d <= N) \/
       Nat.max 16 (2 * d + 1) <= N ->
       sv_allocs s = 0).
Proof.
  intros K V kcmp N grow hint l L G. unfold smap_from_iter, vmap_from_iter, sort_dedup_by_key.
  pose proof (by_key_ord fst kcmp L : OrdLaws (by_key (@fst K V) kcmp)) as LK.
  destruct (ss_sort_dedup_spec N grow G (by_key fst kcmp) LK hint l KeepLast) as (v & Ev & El & Ov & A & C & C').
  exists v. split; [exact Ev|]. split; [exact El|]. cbn zeta. fold (sv_len v). unfold sv_spilled. rewrite Nat.ltb_lt.
  assert (D : length (distinct (cmp := by_key fst kcmp) l) = sv_len v).
  { destruct (sort_dedup_by_spec LK l KeepLast) as (o & Eo & Do). assert (o = sv_items v) as -> by congruence.
    unfold sv_len. apply (len_card LK); [apply (std_sort_dedup LK)|apply sorted_distinct, Do|].
    intros z. rewrite (is_dedup_mem KeepFirst _ _ z (std_sort_dedup LK l)), (is_dedup_mem KeepLast _ _ z Do). reflexivity. }
  destruct Ov as [O1 O2]. split; [lia|]. split.
  { split; [|apply C']. intros H. destruct (sv_allocs v) eqn:Q; [specialize (C eq_refl); lia|lia]. }
  intros H1 H2. apply A. split; [exact H1|]. destruct H2 as [H2|[[H2 H3]|H2]].
  - now apply fits_few.
  - apply fits_inorder; auto. lia.
  - apply fits_general; auto. lia.
Qed.
Print Assumptions C100_map_collect.
Example C100_map_witness :
  smap_from_iter 2 next_pow2 Nat.compare 2 [(5,1);(4,2)] = Some (MkSv [(4,2);(5,1)] 2 0) /\
  smap_from_iter 2 next_pow2 Nat.compare 5 [(5,1);(4,2);(5,3);(4,4);(4,5)] = Some (MkSv [(4,5);(5,3)] 5 1).
Proof. split; reflexivity. Qed.

(** ** C101: the other operations *)
(** a well-formed SmallVec *)
Definition sane {T} (N : nat) (s : sv T) : Prop := length (sv_items s) <= sv_cap s /\ N <= sv_cap s.

(** the operators on references allocate exactly if their result does not fit inline *)
Theorem C101_pure_operators :
  forall (T : Type) (cmp : T -> T -> comparison) (N : nat) (grow : nat -> nat) (strat : nat -> nat -> bool) (a b : list T),
    OrdLaws cmp -> (forall n, n <= grow n) -> sorted cmp a -> sorted cmp b ->
    let stored (r : res (sv T)) (m : res (list T)) :=
      exists s, r = Ok s /\ m = Ok (sv_items s) /\ sane N s /\
        (sv_allocs s = 0 <-> length (sv_items s) <= N) /\ (sv_spilled N s = true <-> N < length (sv_items s)) in
    stored (sset_union N grow cmp strat a b) (vset_union cmp strat a b) /\
    stored (sset_intersection N grow cmp strat a b) (vset_intersection cmp strat a b) /\
    stored (sset_symmetric_difference N grow cmp strat a b) (vset_symmetric_difference cmp strat a b) /\
    stored (sset_difference N grow cmp strat a b) (vset_difference cmp strat a b).
Proof.
  intros T cmp N grow strat a b L G Sa Sb. cbn zeta.
  assert (X : forall ta tb tc m,
    m = vs_merge strat (setop (cmp := cmp) ta tb tc (vs_msm CloneConverter CloneConverter)) a b ->
    exists s, svs_merge N strat (setop (cmp := cmp) ta tb tc (svs_msm N grow)) a b = Ok s /\ m = Ok (sv_items s) /\
      sane N s /\ (sv_allocs s = 0 <-> length (sv_items s) <= N) /\ (sv_spilled N s = true <-> N < length (sv_items s))).
  { intros ta tb tc m ->. destruct (svs_merge_spec N grow G L strat ta tb tc a b Sa Sb) as (r & E & I & F).
    exists r. split; [exact E|]. rewrite (vs_merge_set L) by assumption. split; [now rewrite I|].
    split; [exact (proj1 F)|]. exact (filled_iff N r F). }
  unfold sset_union, sset_intersection, sset_symmetric_difference, sset_difference.
  rewrite SetUnionOp_eq, SetIntersectionOp_eq, SetXorOp_eq, SetDiffOpt_eq.
  unfold vset_union, vset_intersection, vset_symmetric_difference, vset_difference.
  rewrite SetUnionOp_eq, SetIntersectionOp_eq, SetXorOp_eq, SetDiffOpt_eq.
  repeat split; now apply X.
Qed.
Print Assumptions C101_pure_operators.
(** the documentation's [&a | &b], which "will spill over to the heap" *)
Example C101_pure_witness :
  sset_union 4 next_pow2 Nat.compare alt [0;1;2;3] [4;5] = Ok (MkSv [0;1;2;3;4;5] 8 1) /\
  sset_intersection 4 next_pow2 Nat.compare alt [0;1;2;3] [2;3;4;5] = Ok (MkSv [2;3] 4 0).
Proof. split; reflexivity. Qed.

(** In place: [&=] and [-=] (by value or by reference), intersection_with and difference_with never ask
    the vector for room, so they cannot allocate; [|=] and [^=] ask for exactly as many places as there are
    elements of [b] not in [a] (the policy of the external builder for providing them is not modelled). *)
Theorem C101_in_place :
  forall (T : Type) (cmp : T -> T -> comparison) (strat : nat -> nat -> bool) (a b : list T),
    OrdLaws cmp -> sorted cmp a -> sorted cmp b ->
    let asks (k : nat) (r : done (list T * nat)) (m : done (list T)) :=
      exists x, r = Done (x, k) /\ m = Done x in
    asks 0 (room_bitand_assign cmp strat a b) (vset_bitand_assign cmp strat a b) /\
    asks 0 (room_sub_assign cmp strat a b) (vset_sub_assign cmp strat a b) /\
    asks 0 (room_bitand_assign_ref cmp strat a b) (vset_bitand_assign_ref cmp strat a b) /\
    asks 0 (room_sub_assign_ref cmp strat a b) (vset_sub_assign_ref cmp strat a b) /\
    asks 0 (room_intersection_with cmp strat a b) (vset_intersection_with cmp strat a b) /\
    asks 0 (room_difference_with cmp strat a b) (vset_difference_with cmp strat a b) /\
    exists new, vset_difference cmp strat b a = Ok new /\
      asks (length new) (room_bitor_assign cmp strat a b) (vset_bitor_assign cmp strat a b) /\
      asks (length new) (room_bitxor_assign cmp strat a b) (vset_bitxor_assign cmp strat a b) /\
      asks (length new) (room_bitor_assign_ref cmp strat a b) (vset_bitor_assign_ref cmp strat a b) /\
      asks (length new) (room_bitxor_assign_ref cmp strat a b) (vset_bitxor_assign_ref cmp strat a b).
Proof.
  intros T cmp strat a b L Sa Sb. cbn zeta.
  assert (Z : forall x y, length (set_ref (cmp := cmp) false false false x y) = 0).
  { intros x y. unfold set_ref. revert y. induction x as [|u x IH]; intros y; cbn [tape_ref].
    - induction y as [|v y IHy]; [reflexivity|exact IHy].
    - induction y as [|v y IHy].
      + clear IH. induction x as [|w x IHx]; [reflexivity|exact IHx].
      + destruct (cmp u v); cbn [sel o2l app]; [apply IH|apply IH|exact IHy]. }
  assert (V : forall ta tb tc, exists x da db,
    ip_merge strat (setop (cmp := cmp) ta tb tc (ip_msm IdConverter)) a b = Done (x, da, db) /\
    room_ip strat (setop (cmp := cmp) ta tb tc (asked (ip_msm IdConverter))) a b =
      Done (x, length (set_ref (cmp := cmp) false tb false a b))).
  { intros ta tb tc.
    assert (Hc : total_conv tb (@IdConverter T)) by (unfold total_conv; destruct tb; auto).
    destruct (ip_merge_set L strat ta tb tc IdConverter a b Hc Sa Sb) as (da & db & E & _).
    exists (set_ref (cmp := cmp) ta tb tc a b), da, db. split; [exact E|]. now apply room_ip_spec. }
  assert (R : forall ta tb tc conv, total_conv tb conv -> exists x,
    room_ipr strat (setop (cmp := cmp) ta tb tc (asked (ipr_msm conv))) a b =
      Done (x, length (set_ref (cmp := cmp) false tb false a b)) /\
    ipr_merge strat (setop (cmp := cmp) ta tb tc (ipr_msm conv)) a b = Done x).
  { intros ta tb tc conv Hc. exists (set_ref (cmp := cmp) ta tb tc a b).
    split; [now apply room_ipr_spec|now apply (ipr_merge_set L)]. }
  assert (Hcl : total_conv true (@CloneConverter T)) by (unfold total_conv; auto).
  assert (Hf : forall conv : T -> option T, total_conv false conv) by (unfold total_conv; discriminate).
  assert (NW : exists new, vset_difference cmp strat b a = Ok new /\
    length (set_ref (cmp := cmp) false true false a b) = length new).
  { exists (set_ref (cmp := cmp) true false false b a). split.
    - unfold vset_difference. rewrite SetDiffOpt_eq. now apply (vs_merge_set L).
    - apply (len_card L); [now apply set_ref_sorted|apply (sorted_distinct), (set_ref_sorted L); assumption|].
      intros z. rewrite !(set_ref_mem L) by assumption. intuition congruence. }
  destruct NW as (new & Enew & Hn).
  unfold room_bitand_assign, room_sub_assign, room_bitand_assign_ref, room_sub_assign_ref,
    room_intersection_with, room_difference_with, room_bitor_assign, room_bitxor_assign,
    room_bitor_assign_ref, room_bitxor_assign_ref,
    vset_bitand_assign, vset_sub_assign, vset_bitor_assign, vset_bitxor_assign,
    vset_bitand_assign_full, vset_sub_assign_full, vset_bitor_assign_full, vset_bitxor_assign_full,
    vset_bitand_assign_ref, vset_sub_assign_ref, vset_bitor_assign_ref, vset_bitxor_assign_ref,
    vset_intersection_with, vset_difference_with.
  rewrite ?SetUnionOp_eq, ?SetIntersectionOp_eq, ?SetXorOp_eq, ?SetDiffOpt_eq.
  split; [|split; [|split; [|split; [|split; [|split]]]]].
  - destruct (V false false true) as (x & da & db & E1 & E2). exists x. rewrite E1, E2, Z. auto.
  - destruct (V true false false) as (x & da & db & E1 & E2). exists x. rewrite E1, E2, Z. auto.
  - destruct (R false false true CloneConverter (Hf _)) as (x & E1 & E2). exists x. rewrite E1, E2, Z. auto.
  - destruct (R true false false CloneConverter (Hf _)) as (x & E1 & E2). exists x. rewrite E1, E2, Z. auto.
  - destruct (R false false true NoConverter (Hf _)) as (x & E1 & E2). exists x. rewrite E1, E2, Z. auto.
  - destruct (R true false false NoConverter (Hf _)) as (x & E1 & E2). exists x. rewrite E1, E2, Z. auto.
  - exists new. split; [exact Enew|]. rewrite <- Hn. split; [|split; [|split]].
    + destruct (V true true true) as (x & da & db & E1 & E2). exists x. rewrite E1, E2. auto.
    + destruct (V true true false) as (x & da & db & E1 & E2). exists x. rewrite E1, E2. auto.
    + destruct (R true true true CloneConverter Hcl) as (x & E1 & E2). exists x. rewrite E1, E2. auto.
    + destruct (R true true false CloneConverter Hcl) as (x & E1 & E2). exists x. rewrite E1, E2. auto.
Qed.
Print Assumptions C101_in_place.
Example C101_in_place_witness :
  room_bitand_assign Nat.compare alt [0;1;2;3] [2;3;4;5] = Done ([2;3], 0) /\
  room_bitor_assign Nat.compare alt [0;1;2;3] [2;3;4;5] = Done ([0;1;2;3;4;5], 2) /\
  room_bitxor_assign_ref Nat.compare alt [0;1;2;3] [2;3;4;5] = Done ([0;1;4;5], 2).
Proof. repeat split; reflexivity. Qed.

Lemma filter_len {T} (f : T -> bool) : forall l, length (filter f l) <= length l.
Proof. induction l as [|x l IH]; cbn [filter length]; [lia|]. destruct (f x); cbn [length]; lia. Qed.

(** insert allocates only for a new element when the vector is full; everything that removes keeps the
    storage as it is *)
Theorem C101_insert_remove :
  forall (T : Type) (cmp : T -> T -> comparison) (N : nat) (grow : nat -> nat) (s : sv T) (x : T),
    OrdLaws cmp -> (forall n, n <= grow n) -> sorted cmp (sv_items s) -> sane N s ->
    (exists s' fresh, sset_insert N grow cmp s x = Ok (s', fresh) /\
       vset_insert cmp (sv_items s) x = Ok (sv_items s', fresh) /\ sane N s' /\
       sv_allocs s' = sv_allocs s + (if fresh && (sv_cap s <=? length (sv_items s)) then 1 else 0)) /\
    (exists s' found, sset_remove cmp s x = Ok (s', found) /\
       vset_remove cmp (sv_items s) x = Ok (sv_items s', found) /\ sane N s' /\
       sv_cap s' = sv_cap s /\ sv_allocs s' = sv_allocs s) /\
    (forall f, let s' := sset_retain s f in
       sv_items s' = vset_retain (sv_items s) f /\ sane N s' /\ sv_cap s' = sv_cap s /\ sv_allocs s' = sv_allocs s).
Proof.
  intros T cmp N grow s x L G Ss O. split; [|split].
  - unfold sset_insert, vset_insert.
    destruct (search_cases L (sv_items s) x Ss) as [(l1 & y & l2 & El & _ & Eb & _)|(l1 & l2 & El & _ & Eb & _)]; rewrite Eb.
    + eexists. exists false. split; [reflexivity|]. split; [reflexivity|]. split.
      * destruct O as [O1 O2]. unfold sane, sv_slice. cbn [sv_items sv_cap]. split; [|exact O2].
        rewrite El in *. unfold set_at. rewrite firstn_app_exact.
        replace (skipn (S (length l1)) (l1 ++ y :: l2)) with l2.
        -- rewrite !app_length in *. cbn [length] in *. exact O1.
        -- rewrite skipn_app, skipn_all2 by lia. replace (S (length l1) - length l1) with 1 by lia. reflexivity.
      * cbn [sv_slice sv_allocs andb]. lia.
    + eexists. exists true. split; [reflexivity|]. unfold sv_insert, sv_slice. cbn [sv_items sv_cap sv_allocs].
      rewrite sv_reserve_items. split; [reflexivity|].
      assert (Q : length (insert_at (length l1) x (sv_items s)) = S (length (sv_items s))).
      { rewrite El. unfold insert_at. rewrite firstn_app_exact, skipn_app_exact, !app_length. cbn [length]. lia. }
      unfold sane. cbn [sv_items sv_cap andb]. rewrite Q.
      destruct (Nat.leb_spec (sv_cap s) (length (sv_items s))) as [H|H].
      * destruct (sv_reserve_grows N grow G s 1 O) as (_ & C & C' & A); [unfold sv_len; lia|].
        rewrite A. unfold sv_len in C. split; [split|]; lia.
      * rewrite sv_reserve_fits by (unfold sv_len; lia). destruct O. split; [split|]; lia.
  - unfold sset_remove, vset_remove.
    destruct (search_cases L (sv_items s) x Ss) as [(l1 & y & l2 & El & _ & Eb & _)|(l1 & l2 & El & _ & Eb & _)]; rewrite Eb.
    + eexists. exists true. split; [reflexivity|]. split; [reflexivity|]. split; [|split; reflexivity].
      destruct O as [O1 O2]. unfold sane, sv_remove, sv_slice. cbn [sv_items sv_cap]. split; [|exact O2].
      unfold remove_at. rewrite app_length, firstn_length, skipn_length. lia.
    + exists s, false. auto 6.
  - intros f. cbn zeta. split; [reflexivity|]. split; [|split; reflexivity].
    destruct O as [O1 O2]. unfold sane, sset_retain, sv_retain, sv_slice. cbn [sv_items sv_cap]. split; [|exact O2].
    pose proof (filter_len f (sv_items s)). lia.
Qed.
Print Assumptions C101_insert_remove.
Example C101_insert_witness :
  sset_insert 2 next_pow2 Nat.compare (MkSv [1;3] 2 0) 2 = Ok (MkSv [1;2;3] 4 1, true) /\
  sset_insert 2 next_pow2 Nat.compare (MkSv [1;3] 2 0) 3 = Ok (MkSv [1;3] 2 0, false) /\
  sset_remove Nat.compare (MkSv [1;2;3] 4 1) 1 = Ok (MkSv [2;3] 4 1, true).
Proof. repeat split; reflexivity. Qed.

(** shrink_to_fit leaves the elements inline exactly if they fit; from a Vec nothing is allocated, and the
    Vec's heap block is kept unless its capacity fits inline; single, empty and From<BTreeSet>/From<BTreeMap>
    allocate only what cannot be inline; a new key of a full map allocates *)
Theorem C101_shrink_and_conversions :
  forall (T : Type) (cmp : T -> T -> comparison) (N : nat) (grow : nat -> nat),
    OrdLaws cmp -> (forall n, n <= grow n) ->
    (forall s : sv T, sane N s ->
       let s' := sv_shrink_to_fit N s in
       sv_items s' = sv_items s /\ sane N s' /\
       (sv_spilled N s' = true <-> N < length (sv_items s)) /\ sv_cap s' = Nat.max N (length (sv_items s)) /\
       (length (sv_items s) <= N -> sv_allocs s' = sv_allocs s)) /\
    (forall l c, length l <= c ->
       let s := sset_from_vec N cmp l c in
       sv_items s = vset_from_vec cmp l /\ sane N s /\ sv_allocs s = 0 /\ (sv_spilled N s = true <-> N < c)) /\
    (forall l : list T,
       let s := sset_from_btreeset N grow l in
       sv_items s = vset_from_btreeset l /\ sane N s /\
       (sv_allocs s = 0 <-> length l <= N) /\ (sv_spilled N s = true <-> N < length l)) /\
    (forall x : T, sv_items (sset_single N grow x) = vset_single x /\ (1 <= N -> sv_allocs (sset_single N grow x) = 0)) /\
    (sv_items (sset_empty (T := T) N) = [] /\ sv_allocs (sset_empty (T := T) N) = 0).
Proof.
  intros T cmp N grow L G. split; [|split; [|split; [|split]]].
  - intros s O. cbn zeta. destruct (sv_shrink_spec N s O) as (I & O' & C & A).
    split; [exact I|]. split; [unfold sane; rewrite I; rewrite C; unfold sv_len; lia|].
    unfold sv_spilled. rewrite Nat.ltb_lt, C, A. unfold sv_len. split; [lia|]. split; [reflexivity|].
    intros H. destruct (Nat.ltb_spec N (length (sv_items s))); [lia|]. cbn [andb]. lia.
  - intros l c H. cbn zeta. unfold sset_from_vec, sv_from_vec, sv_spilled, sane. rewrite Nat.ltb_lt.
    assert (Q : length (vset_from_vec cmp l) <= length l).
    { unfold vset_from_vec. transitivity (length (sort_by cmp l)).
      - generalize (sort_by cmp l). intros m. destruct m as [|u m]; [reflexivity|]. cbn [dedup].
        cbn [length]. revert u. induction m as [|v m IH]; intros u; cbn [dedup_from length]; [lia|].
        destruct (eqb_of cmp v u); [specialize (IH u); lia|]. cbn [length]. specialize (IH v). lia.
      - now rewrite (Permutation_length (sort_by_perm l)). }
    destruct (Nat.leb_spec c N); cbn [sv_items sv_cap sv_allocs]; repeat split; lia.
  - intros l. cbn zeta. pose proof (filled_batch N grow G (sv_new N) l (filled_new N)) as F.
    fold (sset_from_btreeset N grow l) in F.
    assert (I : sv_items (sset_from_btreeset N grow l) = l)
      by (unfold sset_from_btreeset; now rewrite sv_pushes_items, sv_reserve_items).
    split; [exact I|]. split; [exact (proj1 F)|]. destruct (filled_iff N _ F) as [F1 F2].
    unfold sv_len in *. rewrite I in F1, F2. auto.
  - intros x. unfold sset_single. split; [now rewrite sv_push_items|].
    intros H. destruct (sv_push_fits N grow (sv_new N) x) as [_ E]; [cbn; lia|]. exact E.
  - split; reflexivity.
Qed.
Print Assumptions C101_shrink_and_conversions.
Example C101_shrink_witness :
  sv_shrink_to_fit 4 (MkSv [2;3] 16 1) = MkSv [2;3] 4 1 /\
  sv_shrink_to_fit 1 (MkSv [2;3] 16 1) = MkSv [2;3] 2 2 /\
  sset_from_vec 4 Nat.compare [3;3;1] 10 = MkSv [1;3] 10 0 /\
  sset_from_btreeset 4 next_pow2 [1;2;3;4;5] = MkSv [1;2;3;4;5] 8 1.
Proof. repeat split; reflexivity. Qed.

(** From<BTreeMap>: as for sets *)
Theorem C101_map_from_btreemap :
  forall (K V : Type) (N : nat) (grow : nat -> nat) (l : list (K * V)),
    (forall n, n <= grow n) ->
    let m := smap_from_btreemap N grow l in
    sv_items m = l /\ sane N m /\ (sv_allocs m = 0 <-> length l <= N) /\ (sv_spilled N m = true <-> N < length l).
Proof.
  intros K V N grow l G. cbn zeta. pose proof (filled_batch N grow G (sv_new N) l (filled_new N)) as F.
  fold (smap_from_btreemap N grow l) in F.
  assert (I : sv_items (smap_from_btreemap N grow l) = l)
    by (unfold smap_from_btreemap; now rewrite sv_pushes_items, sv_reserve_items).
  split; [exact I|]. split; [exact (proj1 F)|]. destruct (filled_iff N _ F) as [F1 F2].
  unfold sv_len in *. rewrite I in F1, F2. auto.
Qed.
Print Assumptions C101_map_from_btreemap.
Example C101_map_from_btreemap_witness :
  smap_from_btreemap 2 next_pow2 [(1,1);(2,2);(3,3)] = MkSv [(1,1);(2,2);(3,3)] 4 1 /\
  smap_from_btreemap 2 next_pow2 [(1,1);(2,2)] = MkSv [(1,1);(2,2)] 2 0.
Proof. split; reflexivity. Qed.

Theorem C101_map_insert :
  forall (K V : Type) (kcmp : K -> K -> comparison) (N : nat) (grow : nat -> nat) (m : sv (K * V)) (k : K) (v : V),
    OrdLaws kcmp -> (forall n, n <= grow n) -> keys_sorted kcmp (sv_items m) -> sane N m ->
    exists m' old, smap_insert N grow kcmp m k v = Ok (m', old) /\
      vmap_insert kcmp (sv_items m) k v = Ok (sv_items m', old) /\
      sv_allocs m' = sv_allocs m +
        (match old with Some _ => 0 | None => if sv_cap m <=? length (sv_items m) then 1 else 0 end).
Proof.
  intros K V kcmp N grow m k v L G Ss O. unfold smap_insert, vmap_insert.
  destruct (minsert_spec L (sv_items m) k v Ss) as (r & E & _). unfold vmap_insert in E.
  destruct (bsearch (kprobe kcmp k) (sv_items m)) as [i|i| |]; try discriminate.
  - destruct (nth_error (sv_items m) i) as [[k0 v0]|]; [|discriminate].
    eexists. exists (Some v0). split; [reflexivity|]. split; [reflexivity|]. cbn [sv_slice sv_allocs]. lia.
  - eexists. exists None. split; [reflexivity|]. unfold sv_insert, sv_slice. cbn [sv_items sv_allocs].
    rewrite sv_reserve_items. split; [reflexivity|].
    destruct (Nat.leb_spec (sv_cap m) (length (sv_items m))) as [H|H].
    + destruct (sv_reserve_grows N grow G m 1 O) as (_ & _ & _ & A); [unfold sv_len; lia|]. lia.
    + rewrite sv_reserve_fits by (unfold sv_len; lia). lia.
Qed.
Print Assumptions C101_map_insert.
Example C101_map_insert_witness :
  smap_insert 2 next_pow2 Nat.compare (MkSv [(1,1);(3,3)] 2 0) 2 2 = Ok (MkSv [(1,1);(2,2);(3,3)] 4 1, None) /\
  smap_insert 2 next_pow2 Nat.compare (MkSv [(1,1);(3,3)] 2 0) 3 9 = Ok (MkSv [(1,1);(3,9)] 2 0, Some 3).
Proof. split; reflexivity. Qed.

(** ** C102: the memory used while deserializing is bounded by the input *)
(** It is not: the length the input claims to have is allocated up front. *)
Theorem C102_deserialize_memory_refuted :
  ~ (exists bound : nat -> nat, forall (hint : nat) (l : list nat),
       sv_cap (sset_visit_seq 2 next_pow2 Nat.compare hint l) <= bound (length l) /\
       sv_cap (smap_visit_map 2 next_pow2 Nat.compare hint (map (fun x => (x, x)) l)) <= bound (length l)).
Proof.
  intros [bound H]. destruct (H (bound 0 + 3) []) as [H1 _]. cbn in H1.
  unfold sset_visit_seq, sv_with_capacity in H1. cbn [fold_left length] in H1.
  destruct (Nat.leb_spec (bound 0 + 3) 2); [lia|]. cbn [sv_slice sv_cap] in H1. lia.
Qed.
Print Assumptions C102_deserialize_memory_refuted.
(** What holds: for every claimed length the result is the one of the list model (C14, C31), the claimed
    length and the growth policy bound the memory, and with an exact claim one allocation of at most the
    input's length (or none, if it fits inline) is made. *)
Theorem C102_deserialize :
  forall (T : Type) (cmp : T -> T -> comparison) (N : nat) (grow : nat -> nat) (hint : nat) (l : list T),
    OrdLaws cmp -> (forall n, n <= grow n) ->
    let s := sset_visit_seq N grow cmp hint l in
    sv_items s = vset_visit_seq cmp l /\ Nat.max N hint <= sv_cap s /\
    (length l <= Nat.max N hint ->
       sv_cap s = Nat.max N hint /\ sv_allocs s = if hint <=? N then 0 else 1) /\
    (hint = length l -> sv_cap s = Nat.max N (length l)).
Proof.
  intros T cmp N grow hint l L G. cbn zeta. unfold sset_visit_seq. cbn [sv_slice sv_items sv_cap sv_allocs].
  set (s0 := sv_with_capacity N hint).
  assert (E0 : sv_items s0 = [] /\ sv_cap s0 = Nat.max N hint /\ sv_allocs s0 = if hint <=? N then 0 else 1).
  { unfold s0, sv_with_capacity. destruct (Nat.leb_spec hint N); cbn; repeat split; lia. }
  destruct E0 as (I0 & C0 & A0).
  assert (O0 : sv_ok N s0) by (unfold sv_ok, sv_len; rewrite I0, C0; cbn; lia).
  split; [now rewrite sv_pushes_items, I0|].
  assert (Fit : length l <= Nat.max N hint ->
    sv_cap (fold_left (sv_push N grow) l s0) = Nat.max N hint /\
    sv_allocs (fold_left (sv_push N grow) l s0) = if hint <=? N then 0 else 1).
  { intros H. destruct (sv_pushes_fits N grow l s0) as [E1 E2]; [unfold sv_len; rewrite I0, C0; cbn; lia|].
    rewrite E1, E2. auto. }
  split; [|split; [exact Fit|]].
  - destruct (Nat.le_gt_cases (length l) (Nat.max N hint)) as [H|H]; [rewrite (proj1 (Fit H)); lia|].
    pose proof (sv_pushes_ok N grow G l s0 O0) as [P _]. unfold sv_len in P.
    rewrite sv_pushes_items, I0 in P. cbn [app] in P. lia.
  - intros H. rewrite (proj1 (Fit ltac:(lia))). lia.
Qed.
Print Assumptions C102_deserialize.
(** the same for VecMap *)
Theorem C102_map_deserialize :
  forall (K V : Type) (kcmp : K -> K -> comparison) (N : nat) (grow : nat -> nat) (hint : nat) (l : list (K * V)),
    OrdLaws kcmp -> (forall n, n <= grow n) ->
    let s := smap_visit_map N grow kcmp hint l in
    sv_items s = vmap_visit_map kcmp l /\ Nat.max N hint <= sv_cap s /\
    (length l <= Nat.max N hint ->
       sv_cap s = Nat.max N hint /\ sv_allocs s = if hint <=? N then 0 else 1) /\
    (hint = length l -> sv_cap s = Nat.max N (length l)).
Proof.
  intros K V kcmp N grow hint l L G. cbn zeta.
  destruct (C102_deserialize (K * V) (by_key fst kcmp) N grow hint l (by_key_ord fst kcmp L) G) as (E1 & E2 & E3 & E4).
  split; [|split; [exact E2|split; [exact E3|exact E4]]].
  unfold smap_visit_map, vmap_visit_map. cbn [sv_slice sv_items].
  rewrite sv_pushes_items. unfold sv_with_capacity. destruct (hint <=? N); reflexivity.
Qed.
Print Assumptions C102_map_deserialize.
Example C102_witness :
  smap_visit_map 2 next_pow2 Nat.compare 7 [(3,1);(1,1);(3,2)] = MkSv [(1,1);(3,1)] 7 1 /\
  sset_visit_seq 2 next_pow2 Nat.compare 1000 [3;1;3] = MkSv [1;3] 1000 1 /\
  sset_visit_seq 2 next_pow2 Nat.compare 0 [3;1;3] = MkSv [1;3] 4 1 /\
  sset_visit_seq 4 next_pow2 Nat.compare 3 [3;1;3] = MkSv [1;3] 4 0.
Proof. vm_compute. auto. Qed.
