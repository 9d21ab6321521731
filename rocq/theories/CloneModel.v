(** VecSet and VecMap once more, with [Clone] as user code: [clone e x] runs in a world [e]
    (counters, allocator, clocks), moves to another world and returns a value or panics ([Throw]).
    Only the functions that clone are repeated here: the operators on references and the joins
    (CloneConverter: src/merge_state.rs:309-316, [value.clone()]; [k.clone()] in
    src/vec_map.rs:273-604). Operators with the rhs by value and combine_with / merge_with move, they
    have no Clone bound. *)
From Verif Require Export VecMapModel.

Section CloneSet.
  Context {T E : Type} (clone : clos E T T).

  (** [for e in ...iter() { self.r.push(C::convert(e)) }], see [push_all]: src/merge_state.rs:381-383,
      392-394 *)
  Fixpoint cpush_all (l r : list T) (e : E) : list T * E * bool :=
    match l with
    | [] => (r, e, true)
    | x :: l' => let (e', o) := clone e x in
                 match o with
                 | Ret y => cpush_all l' (r ++ [y]) e'
                 | Throw => (r, e', false)
                 end
    end.
  (** [extend_from_iter(iter.map(C::convert), n)], see [bd_extend]: src/merge_state.rs:127-136 *)
  Fixpoint cbd_extend (n : nat) (bd : builder T) (b : list T) (e : E) : builder T * list T * E * bool :=
    match n with
    | 0 => (bd, b, e, true)
    | Datatypes.S n' =>
        match b with
        | [] => (bd, [], e, true)
        | y :: b' => let (e', o) := clone e y in
                     match o with
                     | Ret x => cbd_extend n' (bd_push bd x) b' e'
                     | Throw => (bd, b', e', false)
                     end
        end
    end.

  (** SmallVecMergeState: src/merge_state.rs:378-388 *)
  Definition cvs_adv_a (s : vstate T T T * E) (n : nat) (take : bool) : out (vstate T T T * E) :=
    let (m, e) := s in
    if take then
      match si_take_front (vs_a m) n with
      | None => Panic s
      | Some (h, t) =>
          let '(r, e', ok) := cpush_all h (vs_r m) e in
          let s' := (MkVs t (vs_b m) r, e') in if ok then Cont s' else Panic s'
      end
    else match si_drop_front (vs_a m) n with
         | Some t => Cont (MkVs t (vs_b m) (vs_r m), e)
         | None => Panic s
         end.
  (** src/merge_state.rs:389-399 *)
  Definition cvs_adv_b (s : vstate T T T * E) (n : nat) (take : bool) : out (vstate T T T * E) :=
    let (m, e) := s in
    if take then
      match si_take_front (vs_b m) n with
      | None => Panic s
      | Some (h, t) =>
          let '(r, e', ok) := cpush_all h (vs_r m) e in
          let s' := (MkVs (vs_a m) t r, e') in if ok then Cont s' else Panic s'
      end
    else match si_drop_front (vs_b m) n with
         | Some t => Cont (MkVs (vs_a m) t (vs_r m), e)
         | None => Panic s
         end.
  (** src/merge_state.rs:362-400 *)
  Definition cvs_msm : msm (vstate T T T * E) T T :=
    MkMsm (fun s => vs_a (fst s)) (fun s => vs_b (fst s)) cvs_adv_a cvs_adv_b.

  (** InPlaceSmallVecMergeStateRef: src/merge_state.rs:123-126 *)
  Definition cipr_adv_a (s : iprstate T T * E) (n : nat) (take : bool) : out (iprstate T T * E) :=
    Cont (MkIpr (bd_consume (ipr_a (fst s)) n take) (ipr_b (fst s)), snd s).
  (** src/merge_state.rs:127-136 *)
  Definition cipr_adv_b (s : iprstate T T * E) (n : nat) (take : bool) : out (iprstate T T * E) :=
    let (m, e) := s in
    if take then
      let '(bd, b, e', ok) := cbd_extend n (ipr_a m) (ipr_b m) e in
      let s' := (MkIpr bd b, e') in
      if ok then Cont s' else Panic s'
    else Cont (MkIpr (ipr_a m) (skipn n (ipr_b m)), e).
  (** src/merge_state.rs:105-137 *)
  Definition cipr_msm : msm (iprstate T T * E) T T :=
    MkMsm (fun s => bd_src (ipr_a (fst s))) (fun s => ipr_b (fst s)) cipr_adv_a cipr_adv_b.

  Context (cmp : T -> T -> comparison) (strat : nat -> nat -> bool).
  (** SmallVecMergeState::merge src/merge_state.rs:354-359. After a panic the partial result is dropped
      with the merge state: it is listed to show what was dropped. *)
  Definition cvs_merge (O : mop (vstate T T T * E) T T) (a b : list T) (e : E) : done (list T * E) :=
    to_done (fun s => (vs_r (fst s), snd s)) (merge O strat (vs_new a b, e)).
  (** InPlaceSmallVecMergeStateRef::merge src/merge_state.rs:150-159: what self holds afterwards *)
  Definition cipr_merge (O : mop (iprstate T T * E) T T) (a b : list T) (e : E) : done (list T * E) :=
    to_done (fun s => (bd_tgt (ipr_a (fst s)), snd s)) (merge O strat (ipr_new a b, e)).

  (** &a | &b, union(): src/vec_set.rs:146-156, 390-395 *)
  Definition cset_union := cvs_merge (SetUnionOp cmp cvs_msm).
  (** &a & &b: src/vec_set.rs:158-168, 382-387 *)
  Definition cset_intersection := cvs_merge (SetIntersectionOp cmp cvs_msm).
  (** &a ^ &b: src/vec_set.rs:170-180, 397-402 *)
  Definition cset_symmetric_difference := cvs_merge (SetXorOp cmp cvs_msm).
  (** &a - &b: src/vec_set.rs:182-192, 404-409 *)
  Definition cset_difference := cvs_merge (SetDiffOpt cmp cvs_msm).
  (** a |= &b: src/vec_set.rs:436-440 *)
  Definition cset_or_assign_ref := cipr_merge (SetUnionOp cmp cipr_msm).
  (** a &= &b: src/vec_set.rs:417-428 *)
  Definition cset_and_assign_ref := cipr_merge (SetIntersectionOp cmp cipr_msm).
  (** a ^= &b: src/vec_set.rs:448-454 *)
  Definition cset_xor_assign_ref := cipr_merge (SetXorOp cmp cipr_msm).
  (** a -= &b: src/vec_set.rs:462-466 *)
  Definition cset_sub_assign_ref := cipr_merge (SetDiffOpt cmp cipr_msm).
End CloneSet.

(** calls the closure, and if it returned Some clones the key for the new entry; a panic in either
    leaves the state [thrown] ([m.r.push((k.clone(), res))]: the clone is evaluated before the push) *)
Definition ccall {E X Y K S} (clone : clos E K K) (f : clos E X (option Y)) (e : E) (x : X) (k : K)
  (emit : K -> Y -> S) (skip thrown : S) : out (S * E) :=
  let (e1, r) := f e x in
  match r with
  | Throw => Panic (thrown, e1)
  | Ret None => Cont (skip, e1)
  | Ret (Some y) => let (e2, k') := clone e1 k in
                    match k' with Ret k2 => Cont (emit k2 y, e2) | Throw => Panic (thrown, e2) end
  end.

Section CloneMap.
  Context {K E : Type} (clone : clos E K K) (kcmp : K -> K -> comparison) (strat : nat -> nat -> bool).

  Section VS.
    Context {V W R : Type}.
    Local Notation vst := (vstate (K * V) (K * W) (K * R)).
    (** [m.r.push((k, r))] *)
    Definition cvs_emit (m : vst) (k : K) (r : R) : vst := MkVs (vs_a m) (vs_b m) (vs_r m ++ [(k, r)]).
    (** src/vec_map.rs:283-293 and, with another argument, 412-421 *)
    Definition cjv_a {X} (f : clos E X (option R)) (arg : K -> V -> X) (s : vst * E) : out (vst * E) :=
      let (m, e) := s in
      match vs_a m with
      | (k, a) :: a' => let m' := MkVs a' (vs_b m) (vs_r m) in
                        ccall clone f e (arg k a) k (cvs_emit m') m' m'
      | [] => Cont s
      end.
    (** src/vec_map.rs:294-304, 488-497 *)
    Definition cjv_b {X} (f : clos E X (option R)) (arg : K -> W -> X) (s : vst * E) : out (vst * E) :=
      let (m, e) := s in
      match vs_b m with
      | (k, b) :: b' => let m' := MkVs (vs_a m) b' (vs_r m) in
                        ccall clone f e (arg k b) k (cvs_emit m') m' m'
      | [] => Cont s
      end.
    (** src/vec_map.rs:305-315, 426-435, 498-507, 564-573 *)
    Definition cjv_coll {X} (f : clos E X (option R)) (arg : K -> V -> W -> X) (s : vst * E) : out (vst * E) :=
      let (m, e) := s in
      match vs_a m with
      | (k, a) :: a' =>
          match vs_b m with
          | (_, b) :: b' => let m' := MkVs a' b' (vs_r m) in ccall clone f e (arg k a b) k (cvs_emit m') m' m'
          | [] => Cont (MkVs a' [] (vs_r m), e)
          end
      | [] => Cont s
      end.
    Local Notation mk := (MkMop (fun s : vst * E => vs_a (fst s)) (fun s : vst * E => vs_b (fst s)) (kvcmp kcmp)).
    (** OuterJoinOp: src/vec_map.rs:273-316 *)
    Definition COuterJoinOp_v (f : clos E (ojarg K V W) (option R)) :=
      mk (fun s n => for_n n (cjv_a f OJLeft) s) (fun s n => for_n n (cjv_b f OJRight) s) (cjv_coll f OJBoth).
    (** LeftJoinOp: src/vec_map.rs:402-436 *)
    Definition CLeftJoinOp_v (f : clos E (K * V * option W) (option R)) :=
      mk (fun s n => for_n n (cjv_a f (fun k v => (k, v, None))) s) jv_drop_b
         (cjv_coll f (fun k a b => (k, a, Some b))).
    (** RightJoinOp: src/vec_map.rs:474-508 *)
    Definition CRightJoinOp_v (f : clos E (K * option V * W) (option R)) :=
      mk jv_drop_a (fun s n => for_n n (cjv_b f (fun k w => (k, None, w))) s)
         (cjv_coll f (fun k a b => (k, Some a, b))).
    (** InnerJoinOp: src/vec_map.rs:546-574 *)
    Definition CInnerJoinOp_v (f : clos E (K * V * W) (option R)) :=
      mk jv_drop_a jv_drop_b (cjv_coll f (fun k a b => (k, a, b))).
    (** as [vs_join] *)
    Definition cvs_join (O : mop (vst * E) (K * V) (K * W)) (a : list (K * V)) (b : list (K * W)) (e : E)
      : done (list (K * R) * E) :=
      to_done (fun s => (vs_r (fst s), snd s)) (merge O strat (vs_new a b, e)).
    (** src/vec_map.rs:61-73 *)
    Definition cmap_outer_join f := cvs_join (COuterJoinOp_v f).
    (** src/vec_map.rs:75-87 *)
    Definition cmap_left_join f := cvs_join (CLeftJoinOp_v f).
    (** src/vec_map.rs:89-101 *)
    Definition cmap_right_join f := cvs_join (CRightJoinOp_v f).
    (** src/vec_map.rs:103-115 *)
    Definition cmap_inner_join f := cvs_join (CInnerJoinOp_v f).
  End VS.

  (** in place: only the keys taken from the rhs are cloned *)
  Section IPR.
    Context {V W : Type}.
    Local Notation ist := (iprstate (K * V) (K * W)).
    (** [m.a.push((k, v))] *)
    Definition cipr_emit (m : ist) (k : K) (v : V) : ist := MkIpr (bd_push (ipr_a m) (k, v)) (ipr_b m).
    (** src/vec_map.rs:338-347, 524-533 *)
    Definition cji_b {X} (f : clos E X (option V)) (arg : K -> W -> X) (s : ist * E) : out (ist * E) :=
      let (m, e) := s in
      match ipr_b m with
      | (k, b) :: b' => let m' := MkIpr (ipr_a m) b' in
                        ccall clone f e (arg k b) k (cipr_emit m') m' m'
      | [] => Cont s
      end.
    Local Notation mk := (MkMop (fun s : ist * E => bd_src (ipr_a (fst s))) (fun s : ist * E => ipr_b (fst s)) (kvcmp kcmp)).
    (** OuterJoinOp: src/vec_map.rs:318-358 *)
    Definition COuterJoinOp_i (f : clos E (ojarg K V W) (option V)) :=
      mk (fun s n => for_n n (oji_a f) s) (fun s n => for_n n (cji_b f OJRight) s) (ji_coll f OJBoth).
    (** RightJoinOp: src/vec_map.rs:510-544 *)
    Definition CRightJoinOp_i (f : clos E (K * option V * W) (option V)) :=
      mk ji_drop_a (fun s n => for_n n (cji_b f (fun k w => (k, None, w))) s)
         (ji_coll f (fun k v w => (k, Some v, w))).
    (** as [ipr_join] *)
    Definition cipr_join (O : mop (ist * E) (K * V) (K * W)) (a : list (K * V)) (b : list (K * W)) (e : E)
      : done (list (K * V) * E) :=
      to_done (fun s => (bd_tgt (ipr_a (fst s)), snd s)) (merge O strat (ipr_new a b, e)).
    (** outer_join_with: src/vec_map.rs:716-727 *)
    Definition cmap_outer_join_with f := cipr_join (COuterJoinOp_i f).
    (** right_join_with: src/vec_map.rs:703-714 *)
    Definition cmap_right_join_with f := cipr_join (CRightJoinOp_i f).
  End IPR.
End CloneMap.
