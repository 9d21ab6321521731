(** Where the elements live: the SmallVec behind VecSet and VecMap, with its capacity.
    The other model files treat a SmallVec as the list of its elements. Here it also has a capacity and
    a ghost count of the heap blocks requested so far, so that the documented claim "the size of this
    array is the maximum size this collection can hold without allocating" (src/vec_set.rs:42-44) can
    be stated.
    External code modelled from its documentation (smallvec 1.x): a SmallVec with inline size [N] is
    inline exactly when its capacity is [N]; it spills when more room is requested than there is.
    The growth policy is the arbitrary function [grow] (smallvec: next power of two); the theorems
    assume only [n <= grow n]. Scratch memory of [slice::sort_by] and the memory behind the elements
    themselves are not counted. *)
From Verif Require Export VecSetModel VecMapModel.

Record sv (T : Type) := MkSv { sv_items : list T; sv_cap : nat; sv_allocs : nat }.
Arguments MkSv {T}. Arguments sv_items {T}. Arguments sv_cap {T}. Arguments sv_allocs {T}.

Section SmallVec.
  Context {T : Type} (N : nat) (grow : nat -> nat).

  Definition sv_len (s : sv T) : nat := length (sv_items s).
  (** SmallVec::spilled *)
  Definition sv_spilled (s : sv T) : bool := N <? sv_cap s.
  (** SmallVec::new (src/vec_set.rs:264,270, src/vec_map.rs:629) *)
  Definition sv_new : sv T := MkSv [] N 0.
  (** SmallVec::with_capacity (src/dedup.rs:65, src/vec_set.rs:615, src/vec_map.rs:819) *)
  Definition sv_with_capacity (c : nat) : sv T := if c <=? N then MkSv [] N 0 else MkSv [] c 1.
  (** the same slice, changed in place (sort, swap, assignment through an index) *)
  Definition sv_slice (f : list T -> list T) (s : sv T) : sv T := MkSv (f (sv_items s)) (sv_cap s) (sv_allocs s).
  (** SmallVec::grow *)
  Definition sv_grow (s : sv T) (c : nat) : sv T :=
    if c <=? N then MkSv (sv_items s) N (sv_allocs s)
    else if c =? sv_cap s then s else MkSv (sv_items s) c (S (sv_allocs s)).
  (** SmallVec::reserve (src/merge_state.rs:380,391) *)
  Definition sv_reserve (s : sv T) (k : nat) : sv T :=
    if sv_len s + k <=? sv_cap s then s else sv_grow s (grow (sv_len s + k)).
  (** SmallVec::push (src/dedup.rs:68, src/merge_state.rs:382,393, src/vec_set.rs:265) *)
  Definition sv_push (s : sv T) (x : T) : sv T := sv_slice (fun l => l ++ [x]) (sv_reserve s 1).
  (** SmallVec::insert (src/vec_set.rs:313, src/vec_map.rs:671) *)
  Definition sv_insert (s : sv T) (i : nat) (x : T) : sv T := sv_slice (insert_at i x) (sv_reserve s 1).
  (** SmallVec::remove (src/vec_set.rs:325), truncate (src/dedup.rs:70), retain (src/vec_set.rs:334):
      the capacity stays *)
  Definition sv_remove (s : sv T) (i : nat) : sv T := sv_slice (remove_at i) s.
  Definition sv_truncate (s : sv T) (n : nat) : sv T := sv_slice (firstn n) s.
  Definition sv_retain (s : sv T) (f : T -> bool) : sv T := sv_slice (filter f) s.
  (** SmallVec::shrink_to_fit (src/vec_set.rs:286,497) *)
  Definition sv_shrink_to_fit (s : sv T) : sv T :=
    if sv_spilled s then
      if sv_len s <=? N then MkSv (sv_items s) N (sv_allocs s)
      else if sv_len s <? sv_cap s then sv_grow s (sv_len s) else s
    else s.
  (** SmallVec::from_vec of a Vec with the given capacity (src/vec_set.rs:348): copied inline if the
      capacity fits, otherwise the heap block of the Vec is kept; nothing is allocated *)
  Definition sv_from_vec (l : list T) (c : nat) : sv T := if c <=? N then MkSv l N 0 else MkSv l c 0.
End SmallVec.

Section Collect.
  Context {T : Type} (N : nat) (grow : nat -> nat) (cmp : T -> T -> comparison).

  (** src/dedup.rs:81-92 [struct SortAndDedup] with a SmallVec as [data] *)
  Record ssad := MkSsad { ss_data : sv T; ss_sorted : nat; ss_keep : keep }.

  (** src/dedup.rs:142-153 [sort_and_dedup] *)
  Definition ss_compact (s : ssad) : option ssad :=
    if ss_sorted s <? sv_len (ss_data s) then
      let slice := sort_by cmp (sv_items (ss_data s)) in
      match dedup_by slice (fun a b => eqb_of cmp a b) (ss_keep s) with
      | None => None
      | Some (slice', unique) =>
          let data := sv_truncate (sv_slice (fun _ => slice') (ss_data s)) unique in
          Some (MkSsad data (sv_len data) (ss_keep s))
      end
    else Some s.

  (** src/dedup.rs:162-189: the first half of [push] *)
  Definition ss_push_raw (s : ssad) (x : T) : ssad :=
    if ss_sorted s =? sv_len (ss_data s) then
      match rev (sv_items (ss_data s)) with
      | last :: front_rev =>
          match cmp last x with
          | Lt => MkSsad (sv_push N grow (ss_data s) x) (ss_sorted s + 1) (ss_keep s)
          | Eq => match ss_keep s with
                  | KeepLast => MkSsad (sv_slice (fun _ => rev front_rev ++ [x]) (ss_data s)) (ss_sorted s) (ss_keep s)
                  | KeepFirst => s
                  end
          | Gt => MkSsad (sv_push N grow (ss_data s) x) (ss_sorted s) (ss_keep s)
          end
      | [] => MkSsad (sv_push N grow (ss_data s) x) (ss_sorted s + 1) (ss_keep s)
      end
    else MkSsad (sv_push N grow (ss_data s) x) (ss_sorted s) (ss_keep s).

  (** src/dedup.rs:161-200 [push] *)
  Definition ss_push (s : ssad) (x : T) : option ssad :=
    let s1 := ss_push_raw s x in
    if 16 <=? sv_len (ss_data s1) then
      let sorted := ss_sorted s1 in
      let unsorted := sv_len (ss_data s1) - sorted in
      if sorted <? unsorted then ss_compact s1 else Some s1
    else Some s1.

  (** src/dedup.rs:119-121 *)
  Fixpoint ss_push_all (s : ssad) (l : list T) : option ssad :=
    match l with
    | [] => Some s
    | x :: l' => match ss_push s x with Some s' => ss_push_all s' l' | None => None end
    end.

  (** src/dedup.rs:108-123 [sort_dedup_by], 155-159 [into_inner]; [hint] is the lower bound of the
      iterator's [size_hint], which need not be honest *)
  Definition ss_sort_dedup_by (hint : nat) (l : list T) (kp : keep) : option (sv T) :=
    match ss_push_all (MkSsad (sv_with_capacity N (Nat.min hint 16)) 0 kp) l with
    | Some s => match ss_compact s with Some s' => Some (ss_data s') | None => None end
    | None => None
    end.

  (** VecSet::from_iter: src/vec_set.rs:494-500, with the [shrink_to_fit] of line 497 *)
  Definition sset_from_iter (hint : nat) (l : list T) : option (sv T) :=
    match ss_sort_dedup_by hint l KeepFirst with
    | Some v => Some (sv_shrink_to_fit N v)
    | None => None
    end.

  (** VecSet::from_vec: src/vec_set.rs:344-349; sort and dedup happen inside the Vec of capacity [c] *)
  Definition sset_from_vec (l : list T) (c : nat) : sv T := sv_from_vec N (vset_from_vec cmp l) c.

  (** visit_seq: src/vec_set.rs:610-623. [hint]: what the format claims as the length (0 if nothing) *)
  Definition sset_visit_seq (hint : nat) (l : list T) : sv T :=
    sv_slice (fun l => dedup (eqb_of cmp) (sort_by cmp l))
             (fold_left (sv_push N grow) l (sv_with_capacity N hint)).

  (** From<BTreeSet>: src/vec_set.rs:480-484: SmallVec::from_iter reserves the (exact) size hint and
      pushes *)
  Definition sset_from_btreeset (l : list T) : sv T :=
    fold_left (sv_push N grow) l (sv_reserve N grow (sv_new N) (length l)).

  (** VecSet::insert: src/vec_set.rs:306-317 *)
  Definition sset_insert (s : sv T) (that : T) : res (sv T * bool) :=
    match bsearch (probe cmp that) (sv_items s) with
    | BsOk index => Ok (sv_slice (set_at index that) s, false)
    | BsErr index => Ok (sv_insert N grow s index that, true)
    | BsPanic => Panicked
    | BsNoFuel => OutOfFuel
    end.
  (** VecSet::remove: src/vec_set.rs:323-330 *)
  Definition sset_remove (s : sv T) (that : T) : res (sv T * bool) :=
    match bsearch (probe cmp that) (sv_items s) with
    | BsOk index => Ok (sv_remove s index, true)
    | BsErr _ => Ok (s, false)
    | BsPanic => Panicked
    | BsNoFuel => OutOfFuel
    end.
  (** VecSet::retain: src/vec_set.rs:333-335 *)
  Definition sset_retain (s : sv T) (f : T -> bool) : sv T := sv_retain s f.
  (** VecSet::single, empty: src/vec_set.rs:263-271 *)
  Definition sset_single (x : T) : sv T := sv_push N grow (sv_new N) x.
  Definition sset_empty : sv T := sv_new N.
End Collect.

(** ** SmallVecMergeState with its result vector: src/merge_state.rs:327-400 *)
Record svstate (A B R : Type) := MkSvs { svs_a : list A; svs_b : list B; svs_r : sv R }.
Arguments MkSvs {A B R}. Arguments svs_a {A B R}. Arguments svs_b {A B R}. Arguments svs_r {A B R}.

Section PureOps.
  Context {T : Type} (N : nat) (grow : nat -> nat) (cmp : T -> T -> comparison) (strat : nat -> nat -> bool).

  (** src/merge_state.rs:378-388: [self.r.reserve(n)], then push clones of the taken elements *)
  Definition svs_adv_a (s : svstate T T T) (n : nat) (take : bool) : out (svstate T T T) :=
    if take then
      let r := sv_reserve N grow (svs_r s) n in
      match si_take_front (svs_a s) n with
      | None => Panic (MkSvs (svs_a s) (svs_b s) r)
      | Some (h, t) => Cont (MkSvs t (svs_b s) (fold_left (sv_push N grow) h r))
      end
    else match si_drop_front (svs_a s) n with
         | Some t => Cont (MkSvs t (svs_b s) (svs_r s))
         | None => Panic s
         end.
  (** src/merge_state.rs:389-399 *)
  Definition svs_adv_b (s : svstate T T T) (n : nat) (take : bool) : out (svstate T T T) :=
    if take then
      let r := sv_reserve N grow (svs_r s) n in
      match si_take_front (svs_b s) n with
      | None => Panic (MkSvs (svs_a s) (svs_b s) r)
      | Some (h, t) => Cont (MkSvs (svs_a s) t (fold_left (sv_push N grow) h r))
      end
    else match si_drop_front (svs_b s) n with
         | Some t => Cont (MkSvs (svs_a s) t (svs_r s))
         | None => Panic s
         end.
  (** src/merge_state.rs:362-400 *)
  Definition svs_msm : msm (svstate T T T) T T := MkMsm svs_a svs_b svs_adv_a svs_adv_b.
  (** SmallVecMergeState::merge: src/merge_state.rs:354-359 *)
  Definition svs_merge (O : mop (svstate T T T) T T) (a b : list T) : res (sv T) :=
    to_res svs_r (merge O strat (MkSvs a b (sv_new N))).

  (** union, intersection, symmetric_difference, difference: src/vec_set.rs:720-754, called by the
      operators on references (src/vec_set.rs:381-407) *)
  Definition sset_union (a b : list T) : res (sv T) := svs_merge (SetUnionOp cmp svs_msm) a b.
  Definition sset_intersection (a b : list T) : res (sv T) := svs_merge (SetIntersectionOp cmp svs_msm) a b.
  Definition sset_symmetric_difference (a b : list T) : res (sv T) := svs_merge (SetXorOp cmp svs_msm) a b.
  Definition sset_difference (a b : list T) : res (sv T) := svs_merge (SetDiffOpt cmp svs_msm) a b.
End PureOps.

(** ** The in-place operations: how many elements the builder is asked to make room for.
    The allocation policy of inplace-vec-builder is external and unknown; only its [extend_from_iter]
    and [push] can need room (src/merge_state.rs:66,129: [extend_from_iter(.., n)]). [asked] wraps a
    merge state with a count of the elements so requested. *)
Definition asked {S A B} (M : msm S A B) : msm (S * nat) A B :=
  MkMsm (fun s => ms_a M (fst s)) (fun s => ms_b M (fst s))
    (fun s n take => match adv_a M (fst s) n take with
                     | Cont s' => Cont (s', snd s) | Stop s' => Stop (s', snd s)
                     | Panic s' => Panic (s', snd s) | NoFuel => NoFuel end)
    (fun s n take => let k := if take then snd s + n else snd s in
                     match adv_b M (fst s) n take with
                     | Cont s' => Cont (s', k) | Stop s' => Stop (s', k)
                     | Panic s' => Panic (s', k) | NoFuel => NoFuel end).

Section InPlace.
  Context {T : Type} (cmp : T -> T -> comparison) (strat : nat -> nat -> bool).

  (** [&=], [|=], [^=], [-=] by value: src/vec_set.rs:411-413, 430-432, 442-444, 456-458 *)
  Definition room_ip (O : mop (ipstate T T * nat) T T) (a b : list T) : done (list T * nat) :=
    to_done (fun s => (bd_tgt (ip_a (fst s)), snd s)) (merge O strat (ip_new a b, 0)).
  Definition room_bitand_assign := room_ip (SetIntersectionOp cmp (asked (ip_msm IdConverter))).
  Definition room_bitor_assign := room_ip (SetUnionOp cmp (asked (ip_msm IdConverter))).
  Definition room_bitxor_assign := room_ip (SetXorOp cmp (asked (ip_msm IdConverter))).
  Definition room_sub_assign := room_ip (SetDiffOpt cmp (asked (ip_msm IdConverter))).

  (** [&=], [|=], [^=], [-=] by reference: src/vec_set.rs:419-426, 436-438, 450-452, 462-464 *)
  Definition room_ipr (O : mop (iprstate T T * nat) T T) (a b : list T) : done (list T * nat) :=
    to_done (fun s => (bd_tgt (ipr_a (fst s)), snd s)) (merge O strat (ipr_new a b, 0)).
  Definition room_bitand_assign_ref := room_ipr (SetIntersectionOp cmp (asked (ipr_msm CloneConverter))).
  Definition room_bitor_assign_ref := room_ipr (SetUnionOp cmp (asked (ipr_msm CloneConverter))).
  Definition room_bitxor_assign_ref := room_ipr (SetXorOp cmp (asked (ipr_msm CloneConverter))).
  Definition room_sub_assign_ref := room_ipr (SetDiffOpt cmp (asked (ipr_msm CloneConverter))).
  (** intersection_with, difference_with: src/vec_set.rs:760-767, 778-780 *)
  Definition room_intersection_with := room_ipr (SetIntersectionOp cmp (asked (ipr_msm NoConverter))).
  Definition room_difference_with := room_ipr (SetDiffOpt cmp (asked (ipr_msm NoConverter))).
End InPlace.

(** ** VecMap *)
Section Maps.
  Context {K V : Type} (N : nat) (grow : nat -> nat) (kcmp : K -> K -> comparison).

  (** VecMap::from_iter: src/vec_map.rs:243-247; unlike VecSet it does not shrink the result *)
  Definition smap_from_iter (hint : nat) (l : list (K * V)) : option (sv (K * V)) :=
    ss_sort_dedup_by N grow (by_key fst kcmp) hint l KeepLast.
  (** From<BTreeMap>: src/vec_map.rs:249-253, as for sets *)
  Definition smap_from_btreemap (l : list (K * V)) : sv (K * V) :=
    fold_left (sv_push N grow) l (sv_reserve N grow (sv_new N) (length l)).
  (** VecMap::insert: src/vec_map.rs:663-675 *)
  Definition smap_insert (m : sv (K * V)) (key : K) (value : V) : res (sv (K * V) * option V) :=
    match bsearch (kprobe kcmp key) (sv_items m) with
    | BsOk index =>
        match nth_error (sv_items m) index with
        | Some (_, v) => Ok (sv_slice (set_at index (key, value)) m, Some v)
        | None => Panicked
        end
    | BsErr index => Ok (sv_insert N grow m index (key, value), None)
    | BsPanic => Panicked
    | BsNoFuel => OutOfFuel
    end.
  (** visit_map: src/vec_map.rs:817-828 *)
  Definition smap_visit_map (hint : nat) (l : list (K * V)) : sv (K * V) :=
    sv_slice (fun l => dedup (fun a b => eqb_of kcmp (fst a) (fst b)) (sort_by (by_key fst kcmp) l))
             (fold_left (sv_push N grow) l (sv_with_capacity N hint)).
End Maps.
