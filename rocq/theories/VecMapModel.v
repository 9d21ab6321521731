(** Model of /repo/src/vec_map.rs (and the vecmap! macro, src/macros.rs:16-27).
    A VecMap is the list of the entries of its SmallVec. The [Borrow<Q>] lookups are modelled with
    Q = K (the Borrow contract makes the two orders agree; any Q: ApiModel.v). ArchivedVecMap implements the same
    trait AbstractVecMap over the same slice, so one model covers both. *)
From Verif Require Export VecSetModel.

(** ** Closures
    A user closure runs in an environment [E] (everything it can read or write through captured
    references or interior mutability) and may panic. *)
Inductive cres (X : Type) := Ret (x : X) | Throw.
Arguments Ret {X}. Arguments Throw {X}.
Definition clos (E X Y : Type) := E -> X -> E * cres Y.
(** a closure without effects *)
Definition pure_clos {E X Y} (g : X -> Y) : clos E X Y := fun e x => (e, Ret (g x)).
(** a closure that records its calls *)
Definition log_clos {X Y} (g : X -> Y) : clos (list X) X Y := fun e x => (e ++ [x], Ret (g x)).
(** calls [f]; [ret] is the state after it returned, [thrown] the state when it panicked *)
Definition call {E X Y S} (f : clos E X Y) (e : E) (x : X) (ret : Y -> S) (thrown : S) : out (S * E) :=
  let (e', r) := f e x in
  match r with Ret y => Cont (ret y, e') | Throw => Panic (thrown, e') end.

(** Rust's [for _ in 0..n { body }] *)
Fixpoint for_n {S} (n : nat) (body : S -> out S) (s : S) : out S :=
  match n with
  | 0 => Cont s
  | Datatypes.S n' => obind (body s) (for_n n' body)
  end.

(** OuterJoinArg: src/vec_map.rs:232-236 *)
Inductive ojarg (K A B : Type) := OJLeft (k : K) (a : A) | OJRight (k : K) (b : B) | OJBoth (k : K) (a : A) (b : B).
Arguments OJLeft {K A B}. Arguments OJRight {K A B}. Arguments OJBoth {K A B}.

Section VecMap.
  Context {K : Type} (kcmp : K -> K -> comparison) (strat : nat -> nat -> bool).

  (** [a.0.cmp(&b.0)]: src/vec_map.rs:280, 325, 367, 409, 445, 481, 517, 553, 583 *)
  Definition kvcmp {V W} (a : K * V) (b : K * W) : option comparison := Some (kcmp (fst a) (fst b)).

  (** *** Operations on SmallVecMergeState *)
  Section VS.
    Context {V W R E : Type}.
    Local Notation vst := (vstate (K * V) (K * W) (K * R)).
    (** [if let Some(res) = o { m.r.push((k.clone(), res)) }] *)
    Definition vs_emit (m : vst) (k : K) (o : option R) : vst :=
      match o with Some r => MkVs (vs_a m) (vs_b m) (vs_r m ++ [(k, r)]) | None => m end.

    (** OuterJoinOp: src/vec_map.rs:283-293 *)
    Definition ojv_a (f : clos E (ojarg K V W) (option R)) (s : vst * E) : out (vst * E) :=
      let (m, e) := s in
      match vs_a m with
      | (k, a) :: a' => let m' := MkVs a' (vs_b m) (vs_r m) in
                        call f e (OJLeft k a) (vs_emit m' k) m'
      | [] => Cont s
      end.
    (** OuterJoinOp: src/vec_map.rs:294-304 *)
    Definition ojv_b (f : clos E (ojarg K V W) (option R)) (s : vst * E) : out (vst * E) :=
      let (m, e) := s in
      match vs_b m with
      | (k, b) :: b' => let m' := MkVs (vs_a m) b' (vs_r m) in
                        call f e (OJRight k b) (vs_emit m' k) m'
      | [] => Cont s
      end.
    (** a collision calls the closure with both values; shared shape of src/vec_map.rs:305-315,
        426-435, 498-507, 564-573: [m.a.next()], then [m.b.next()] *)
    Definition jv_coll {X} (f : clos E X (option R)) (arg : K -> V -> W -> X) (s : vst * E) : out (vst * E) :=
      let (m, e) := s in
      match vs_a m with
      | (k, a) :: a' =>
          match vs_b m with
          | (_, b) :: b' => let m' := MkVs a' b' (vs_r m) in call f e (arg k a b) (vs_emit m' k) m'
          | [] => Cont (MkVs a' [] (vs_r m), e)
          end
      | [] => Cont s
      end.
    (** [m.a.drop_front(n)]: src/vec_map.rs:485, 557 *)
    Definition jv_drop_a (s : vst * E) (n : nat) : out (vst * E) :=
      match si_drop_front (vs_a (fst s)) n with
      | Some a' => Cont (MkVs a' (vs_b (fst s)) (vs_r (fst s)), snd s)
      | None => Panic s
      end.
    (** [m.b.drop_front(n)]: src/vec_map.rs:423, 561 *)
    Definition jv_drop_b (s : vst * E) (n : nat) : out (vst * E) :=
      match si_drop_front (vs_b (fst s)) n with
      | Some b' => Cont (MkVs (vs_a (fst s)) b' (vs_r (fst s)), snd s)
      | None => Panic s
      end.
    (** OuterJoinOp on SmallVecMergeState: src/vec_map.rs:273-316 *)
    Definition OuterJoinOp_v (f : clos E (ojarg K V W) (option R)) : mop (vst * E) (K * V) (K * W) :=
      MkMop (fun s => vs_a (fst s)) (fun s => vs_b (fst s)) kvcmp
        (fun s n => for_n n (ojv_a f) s) (fun s n => for_n n (ojv_b f) s)
        (jv_coll f OJBoth).
    (** LeftJoinOp: src/vec_map.rs:412-421 *)
    Definition ljv_a (f : clos E (K * V * option W) (option R)) (s : vst * E) : out (vst * E) :=
      let (m, e) := s in
      match vs_a m with
      | (k, a) :: a' => let m' := MkVs a' (vs_b m) (vs_r m) in
                        call f e (k, a, None) (vs_emit m' k) m'
      | [] => Cont s
      end.
    (** LeftJoinOp on SmallVecMergeState: src/vec_map.rs:402-436 *)
    Definition LeftJoinOp_v (f : clos E (K * V * option W) (option R)) : mop (vst * E) (K * V) (K * W) :=
      MkMop (fun s => vs_a (fst s)) (fun s => vs_b (fst s)) kvcmp
        (fun s n => for_n n (ljv_a f) s) jv_drop_b
        (jv_coll f (fun k a b => (k, a, Some b))).
    (** RightJoinOp: src/vec_map.rs:488-497 *)
    Definition rjv_b (f : clos E (K * option V * W) (option R)) (s : vst * E) : out (vst * E) :=
      let (m, e) := s in
      match vs_b m with
      | (k, b) :: b' => let m' := MkVs (vs_a m) b' (vs_r m) in
                        call f e (k, None, b) (vs_emit m' k) m'
      | [] => Cont s
      end.
    (** RightJoinOp on SmallVecMergeState: src/vec_map.rs:474-508 *)
    Definition RightJoinOp_v (f : clos E (K * option V * W) (option R)) : mop (vst * E) (K * V) (K * W) :=
      MkMop (fun s => vs_a (fst s)) (fun s => vs_b (fst s)) kvcmp
        jv_drop_a (fun s n => for_n n (rjv_b f) s)
        (jv_coll f (fun k a b => (k, Some a, b))).
    (** InnerJoinOp on SmallVecMergeState: src/vec_map.rs:546-574 *)
    Definition InnerJoinOp_v (f : clos E (K * V * W) (option R)) : mop (vst * E) (K * V) (K * W) :=
      MkMop (fun s => vs_a (fst s)) (fun s => vs_b (fst s)) kvcmp
        jv_drop_a jv_drop_b
        (jv_coll f (fun k a b => (k, a, b))).

    (** result of a pure join: the new map and the environment; on a panic the partial result is
        dropped with the merge state, only the environment is observable *)
    Definition vs_join (O : mop (vst * E) (K * V) (K * W)) (a : list (K * V)) (b : list (K * W)) (e : E)
      : done (list (K * R) * E) :=
      to_done (fun s => (vs_r (fst s), snd s)) (merge O strat (vs_new a b, e)).
    (** src/vec_map.rs:61-73 *)
    Definition vmap_outer_join f := vs_join (OuterJoinOp_v f).
    (** src/vec_map.rs:75-87 *)
    Definition vmap_left_join f := vs_join (LeftJoinOp_v f).
    (** src/vec_map.rs:89-101 *)
    Definition vmap_right_join f := vs_join (RightJoinOp_v f).
    (** src/vec_map.rs:103-115 *)
    Definition vmap_inner_join f := vs_join (InnerJoinOp_v f).
  End VS.

  (** *** Operations on InPlaceSmallVecMergeStateRef *)
  Section IPR.
    Context {V W E : Type}.
    Local Notation ist := (iprstate (K * V) (K * W)).
    (** [if let Some(v) = o { m.a.push((k, v)) }] *)
    Definition ipr_emit (m : ist) (k : K) (o : option V) : ist :=
      match o with Some v => MkIpr (bd_push (ipr_a m) (k, v)) (ipr_b m) | None => m end.
    (** src/vec_map.rs:328-337 *)
    Definition oji_a (f : clos E (ojarg K V W) (option V)) (s : ist * E) : out (ist * E) :=
      let (m, e) := s in
      match bd_pop_front (ipr_a m) with
      | Some ((k, v), bd) => let m' := MkIpr bd (ipr_b m) in
                             call f e (OJLeft k v) (ipr_emit m' k) m'
      | None => Cont s
      end.
    (** src/vec_map.rs:338-347 *)
    Definition oji_b (f : clos E (ojarg K V W) (option V)) (s : ist * E) : out (ist * E) :=
      let (m, e) := s in
      match ipr_b m with
      | (k, b) :: b' => let m' := MkIpr (ipr_a m) b' in
                        call f e (OJRight k b) (ipr_emit m' k) m'
      | [] => Cont s
      end.
    (** shared shape of src/vec_map.rs:348-357, 462-471, 534-543, 594-603: [m.a.pop_front()], then
        [m.b.next()] *)
    Definition ji_coll {X} (f : clos E X (option V)) (arg : K -> V -> W -> X) (s : ist * E) : out (ist * E) :=
      let (m, e) := s in
      match bd_pop_front (ipr_a m) with
      | Some ((k, v), bd) =>
          match ipr_b m with
          | (_, w) :: b' => let m' := MkIpr bd b' in call f e (arg k v w) (ipr_emit m' k) m'
          | [] => Cont (MkIpr bd [], e)
          end
      | None => Cont s
      end.
    (** [m.a.consume(n, false)]: src/vec_map.rs:521, 587 *)
    Definition ji_drop_a (s : ist * E) (n : nat) : out (ist * E) :=
      Cont (MkIpr (bd_consume (ipr_a (fst s)) n false) (ipr_b (fst s)), snd s).
    (** [m.b.drop_front(n)]: src/vec_map.rs:459, 591 *)
    Definition ji_drop_b (s : ist * E) (n : nat) : out (ist * E) :=
      match si_drop_front (ipr_b (fst s)) n with
      | Some b' => Cont (MkIpr (ipr_a (fst s)) b', snd s)
      | None => Panic s
      end.
    (** OuterJoinOp on InPlaceSmallVecMergeStateRef: src/vec_map.rs:318-358 *)
    Definition OuterJoinOp_i (f : clos E (ojarg K V W) (option V)) : mop (ist * E) (K * V) (K * W) :=
      MkMop (fun s => bd_src (ipr_a (fst s))) (fun s => ipr_b (fst s)) kvcmp
        (fun s n => for_n n (oji_a f) s) (fun s n => for_n n (oji_b f) s) (ji_coll f OJBoth).
    (** src/vec_map.rs:448-457 *)
    Definition lji_a (f : clos E (K * V * option W) (option V)) (s : ist * E) : out (ist * E) :=
      let (m, e) := s in
      match bd_pop_front (ipr_a m) with
      | Some ((k, v), bd) => let m' := MkIpr bd (ipr_b m) in
                             call f e (k, v, None) (ipr_emit m' k) m'
      | None => Cont s
      end.
    (** LeftJoinOp on InPlaceSmallVecMergeStateRef: src/vec_map.rs:438-472 *)
    Definition LeftJoinOp_i (f : clos E (K * V * option W) (option V)) : mop (ist * E) (K * V) (K * W) :=
      MkMop (fun s => bd_src (ipr_a (fst s))) (fun s => ipr_b (fst s)) kvcmp
        (fun s n => for_n n (lji_a f) s) ji_drop_b (ji_coll f (fun k v w => (k, v, Some w))).
    (** src/vec_map.rs:524-533 *)
    Definition rji_b (f : clos E (K * option V * W) (option V)) (s : ist * E) : out (ist * E) :=
      let (m, e) := s in
      match ipr_b m with
      | (k, w) :: b' => let m' := MkIpr (ipr_a m) b' in
                        call f e (k, None, w) (ipr_emit m' k) m'
      | [] => Cont s
      end.
    (** RightJoinOp on InPlaceSmallVecMergeStateRef: src/vec_map.rs:510-544 *)
    Definition RightJoinOp_i (f : clos E (K * option V * W) (option V)) : mop (ist * E) (K * V) (K * W) :=
      MkMop (fun s => bd_src (ipr_a (fst s))) (fun s => ipr_b (fst s)) kvcmp
        ji_drop_a (fun s n => for_n n (rji_b f) s) (ji_coll f (fun k v w => (k, Some v, w))).
    (** InnerJoinOp on InPlaceSmallVecMergeStateRef: src/vec_map.rs:576-604 *)
    Definition InnerJoinOp_i (f : clos E (K * V * W) (option V)) : mop (ist * E) (K * V) (K * W) :=
      MkMop (fun s => bd_src (ipr_a (fst s))) (fun s => ipr_b (fst s)) kvcmp
        ji_drop_a ji_drop_b (ji_coll f (fun k v w => (k, v, w))).

    (** an in-place join: the map left in self and the environment *)
    Definition ipr_join (O : mop (ist * E) (K * V) (K * W)) (a : list (K * V)) (b : list (K * W)) (e : E)
      : done (list (K * V) * E) :=
      to_done (fun s => (bd_tgt (ipr_a (fst s)), snd s)) (merge O strat (ipr_new a b, e)).
    (** src/vec_map.rs:716-727 *)
    Definition vmap_outer_join_with f := ipr_join (OuterJoinOp_i f).
    (** src/vec_map.rs:690-701 *)
    Definition vmap_left_join_with f := ipr_join (LeftJoinOp_i f).
    (** src/vec_map.rs:703-714 *)
    Definition vmap_right_join_with f := ipr_join (RightJoinOp_i f).
    (** src/vec_map.rs:677-688 *)
    Definition vmap_inner_join_with f := ipr_join (InnerJoinOp_i f).
  End IPR.

  (** *** OuterJoinOp on InPlaceMergeState (rhs by value): src/vec_map.rs:360-400.
      Keys and values dropped by this operation are not logged. *)
  Section IP.
    Context {V W E : Type}.
    Local Notation ist := (ipstate (K * V) (K * W)).
    Definition ip_emit (m : ist) (k : K) (o : option V) : ist :=
      match o with Some v => MkIp (bd_push (ip_a m) (k, v)) (ip_b m) (ip_drop_b m) | None => m end.
    (** src/vec_map.rs:370-379 *)
    Definition ojp_a (f : clos E (ojarg K V W) (option V)) (s : ist * E) : out (ist * E) :=
      let (m, e) := s in
      match bd_pop_front (ip_a m) with
      | Some ((k, v), bd) => let m' := MkIp bd (ip_b m) (ip_drop_b m) in
                             call f e (OJLeft k v) (ip_emit m' k) m'
      | None => Cont s
      end.
    (** src/vec_map.rs:380-389 *)
    Definition ojp_b (f : clos E (ojarg K V W) (option V)) (s : ist * E) : out (ist * E) :=
      let (m, e) := s in
      match ip_b m with
      | (k, b) :: b' => let m' := MkIp (ip_a m) b' (ip_drop_b m) in
                        call f e (OJRight k b) (ip_emit m' k) m'
      | [] => Cont s
      end.
    (** src/vec_map.rs:390-399 *)
    Definition ojp_coll (f : clos E (ojarg K V W) (option V)) (s : ist * E) : out (ist * E) :=
      let (m, e) := s in
      match bd_pop_front (ip_a m) with
      | Some ((k, v), bd) =>
          match ip_b m with
          | (_, w) :: b' => let m' := MkIp bd b' (ip_drop_b m) in
                            call f e (OJBoth k v w) (ip_emit m' k) m'
          | [] => Cont (MkIp bd [] (ip_drop_b m), e)
          end
      | None => Cont s
      end.
    Definition OuterJoinOp_p (f : clos E (ojarg K V W) (option V)) : mop (ist * E) (K * V) (K * W) :=
      MkMop (fun s => bd_src (ip_a (fst s))) (fun s => ip_b (fst s)) kvcmp
        (fun s n => for_n n (ojp_a f) s) (fun s n => for_n n (ojp_b f) s) (ojp_coll f).
  End IP.

  Section Rest.
    Context {V E : Type}.

    (** the closure wrapped by combine_with: src/vec_map.rs:745-751 *)
    Definition combine_clos (f : clos E (V * V) V) : clos E (ojarg K V V) (option V) :=
      fun e arg =>
        match arg with
        | OJLeft _ v => (e, Ret (Some v))
        | OJRight _ v => (e, Ret (Some v))
        | OJBoth _ v w => let (e', r) := f e (v, w) in
                          (e', match r with Ret x => Ret (Some x) | Throw => Throw end)
        end.
    (** src/vec_map.rs:737-754 *)
    Definition vmap_combine_with (f : clos E (V * V) V) (a b : list (K * V)) (e : E)
      : done (list (K * V) * E) :=
      to_done (fun s => (bd_tgt (ip_a (fst s)), snd s))
        (merge (OuterJoinOp_p (combine_clos f)) strat (ip_new a b, e)).
    (** src/vec_map.rs:731-733 *)
    Definition vmap_merge_with (a b : list (K * V)) (e : E) : done (list (K * V) * E) :=
      vmap_combine_with (pure_clos snd) a b e.

    (** the comparator of the lookups: src/vec_map.rs:54, 664, 764 *)
    Definition kprobe (key : K) (p : K * V) : option comparison := Some (kcmp (fst p) key).
    (** src/vec_map.rs:47-57 *)
    Definition vmap_get (m : list (K * V)) (key : K) : option V :=
      match bsearch (kprobe key) m with
      | BsOk i => option_map snd (nth_error m i)
      | _ => None
      end.
    (** number of key comparisons [get] performs: src/vec_map.rs:47-57 *)
    Definition vmap_get_count (m : list (K * V)) (key : K) : nat := snd (bs_count (kprobe key) m).
    (** get_mut: src/vec_map.rs:758-768. The returned [&mut V] is used to replace the value v by
        [g v]; returns the new map and whether the key was found. *)
    Definition vmap_get_mut (m : list (K * V)) (key : K) (g : V -> V) : list (K * V) * bool :=
      match bsearch (kprobe key) m with
      | BsOk i => match nth_error m i with
                  | Some (k, v) => (set_at i (k, g v) m, true)
                  | None => (m, false)
                  end
      | _ => (m, false)
      end.
    (** insert: src/vec_map.rs:663-675 *)
    Definition vmap_insert (m : list (K * V)) (key : K) (value : V) : res (list (K * V) * option V) :=
      match bsearch (kprobe key) m with
      | BsOk index => match nth_error m index with
                      | Some (_, v) => Ok (set_at index (key, value) m, Some v)
                      | None => Panicked
                      end
      | BsErr ip => Ok (insert_at ip (key, value) m, None)
      | BsPanic => Panicked
      | BsNoFuel => OutOfFuel
      end.
    (** src/vec_map.rs:643-645; the closure is a pure predicate on entries *)
    Definition vmap_retain (m : list (K * V)) (f : K * V -> bool) : list (K * V) := filter f m.
    (** src/vec_map.rs:608-615; the closure is a pure function *)
    Definition vmap_map_values {R} (f : V -> R) (m : list (K * V)) : list (K * R) :=
      map (fun p => (fst p, f (snd p))) m.
    (** src/vec_map.rs:628-630 and Default 195-199 *)
    Definition vmap_empty : list (K * V) := [].
    (** src/vec_map.rs:657-659 *)
    Definition vmap_single (p : K * V) : list (K * V) := [p].
    (** src/vec_map.rs:624-626, 633-635 *)
    Definition vmap_is_empty (m : list (K * V)) : bool := match m with [] => true | _ => false end.
    Definition vmap_len (m : list (K * V)) : nat := length m.
    (** FromIterator: src/vec_map.rs:243-247 *)
    Definition vmap_from_iter (l : list (K * V)) : option (list (K * V)) :=
      sort_dedup_by_key kcmp fst l KeepLast.
    (** From<BTreeMap>: src/vec_map.rs:249-253; a BTreeMap is its list of entries in key order *)
    Definition vmap_from_btreemap (l : list (K * V)) : list (K * V) := l.
    (** Extend: src/vec_map.rs:255-259. [None]: the collecting phase panicked *)
    Definition vmap_extend (m items : list (K * V)) (e : E) : option (done (list (K * V) * E)) :=
      match vmap_from_iter items with
      | Some b => Some (vmap_merge_with m b e)
      | None => None
      end.
    (** From<VecMap> for VecSet: src/vec_map.rs:201-206 *)
    Definition vset_from_vmap (m : list (K * V)) : list (K * V) := m.
    (** the tuple order used by that VecSet (Ord for (K, V) in std) *)
    Definition pair_cmp (vcmp : V -> V -> comparison) (a b : K * V) : comparison :=
      match kcmp (fst a) (fst b) with Eq => vcmp (snd a) (snd b) | c => c end.

    (** serde: src/vec_map.rs:771-784; the serialized form is the sequence of entries *)
    Definition vmap_serialize (m : list (K * V)) : list (K * V) := m.
    (** visit_map: src/vec_map.rs:817-828: stable sort by key, then dedup_by_key (keeps the first) *)
    Definition vmap_visit_map (entries : list (K * V)) : list (K * V) :=
      dedup (fun a b => eqb_of kcmp (fst a) (fst b)) (sort_by (by_key fst kcmp) entries).

    (** rkyv check_bytes: src/vec_map.rs:910-925 *)
    Definition vmap_check_order (m : list (K * V)) : bool :=
      forallb (fun p => match kcmp (fst (fst p)) (fst (snd p)) with Lt => true | _ => false end)
              (combine m (skipn 1 m)).
    Definition vmap_check_bytes (valid : K * V -> bool) (m : list (K * V)) : check_result :=
      if forallb valid m then (if vmap_check_order m then CheckOk else OrderCheckError)
      else ValueCheckError.

    (** rkyv archiving: key and value of each entry archived in order (src/vec_map.rs:845-861);
        deserializing maps the entries back, without sorting (src/vec_map.rs:873-877) *)
    Definition vmap_archive {AK AV} (ark : K -> AK) (arv : V -> AV) (m : list (K * V)) : list (AK * AV) :=
      map (fun p => (ark (fst p), arv (snd p))) m.
    Definition vmap_unarchive {AK AV} (dek : AK -> K) (dev : AV -> V) (m : list (AK * AV)) : list (K * V) :=
      map (fun p => (dek (fst p), dev (snd p))) m.

    (** PartialEq, Ord, Hash: src/vec_map.rs:153-177: those of the slice of pairs *)
    Definition vmap_eqb (veqb : V -> V -> bool) : list (K * V) -> list (K * V) -> bool :=
      fix go a b :=
        match a, b with
        | [], [] => true
        | x :: a', y :: b' => eqb_of kcmp (fst x) (fst y) && veqb (snd x) (snd y) && go a' b'
        | _, _ => false
        end.
    Definition vmap_cmp (vcmp : V -> V -> comparison) : list (K * V) -> list (K * V) -> comparison :=
      vset_cmp (pair_cmp vcmp).
    Definition vmap_hash {H} (hl : nat -> list H) (hk : K -> list H) (hv : V -> list H)
      (m : list (K * V)) : list H :=
      hl (length m) ++ flat_map (fun p => hk (fst p) ++ hv (snd p)) m.

    (** vecmap!: src/macros.rs:16-27: Default, then insert each pair *)
    Fixpoint vmap_insert_all (m : list (K * V)) (ps : list (K * V)) : res (list (K * V)) :=
      match ps with
      | [] => Ok m
      | (k, v) :: ps' => rbind (vmap_insert m k v) (fun r => vmap_insert_all (fst r) ps')
      end.
    Definition vecmap_macro (ps : list (K * V)) : res (list (K * V)) := vmap_insert_all [] ps.
  End Rest.
End VecMap.
