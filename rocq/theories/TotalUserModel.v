(** VecSet operators with a moved right side, TotalVecSet and TotalVecMap with all user code left open at once, as in
    VecUserModel.v: comparisons of elements, keys and values, [Clone], the closures and the arithmetic of the values run in one
    world [E], may answer differently each time, break every law, and panic. *)
From Verif Require Export VecUserModel TotalModel RetainModel.

Section UMoved.
  Context {T E : Type} (cmp : clos E (T * T) comparison) (strat : nat -> nat -> bool).
  (** InPlaceMergeState with IdConverter: src/merge_state.rs:23-81; nothing is cloned, only the world is carried along *)
  Definition lift_out {S} (e : E) (o : out S) : out (S * E) :=
    match o with Cont s => Cont (s, e) | Stop s => Stop (s, e) | Panic s => Panic (s, e) | NoFuel => NoFuel end.
  Definition uip_msm : msm (ipstate T T * E) T T :=
    MkMsm (fun s => bd_src (ip_a (fst s))) (fun s => ip_b (fst s)) (fun s n t => lift_out (snd s) (ip_adv_a (fst s) n t))
      (fun s n t => lift_out (snd s) (ip_adv_b IdConverter (fst s) n t)).
  (** InPlaceMergeState::merge src/merge_state.rs:77-81: what self holds afterwards *)
  Definition uip_merge (O : mop (ipstate T T * E) T T) (a b : list T) (e : E) : done (list T * E) :=
    to_done (fun s => (bd_tgt (ip_a (fst s)), snd s)) (gmerge (wcmp cmp element element) O strat (ip_new a b, e)).
  (** a |= b: src/vec_set.rs:429-433 *)
  Definition uset_or_assign := uip_merge (SetUnionOp unasked uip_msm).
  (** a &= b: src/vec_set.rs:410-414 *)
  Definition uset_and_assign := uip_merge (SetIntersectionOp unasked uip_msm).
  (** a ^= b: src/vec_set.rs:441-445 *)
  Definition uset_xor_assign := uip_merge (SetXorOp unasked uip_msm).
  (** a -= b: src/vec_set.rs:455-459 *)
  Definition uset_sub_assign := uip_merge (SetDiffOpt unasked uip_msm).
End UMoved.

Section UTotalSet.
  Context {T E : Type} (cmp : clos E (T * T) comparison) (clone : clos E T T) (strat : nat -> nat -> bool).
  (** the set with this flag, or, when the operation on the elements unwinds, the elements left with the flag [n0] *)
  Definition utag (n n0 : bool) (r : done (list T * E)) : done (tset T * E) :=
    match r with
    | Done (l, e) => Done (TSet l n, e)
    | Unwound (l, e) => Unwound (TSet l n0, e)
    | DoneNoFuel => DoneNoFuel
    end.
  (** The operators on references. (What is shown after a panic is the half-built result, which is dropped.)
      BitAnd src/total_vec_set.rs:173-187 *)
  Definition utset_and (a b : tset T) (e : E) : done (tset T * E) :=
    match ts_negated a, ts_negated b with
    | false, false => utag false false (uset_intersection cmp clone strat (ts_elements a) (ts_elements b) e)
    | false, true => utag false false (uset_difference cmp clone strat (ts_elements a) (ts_elements b) e)
    | true, false => utag false false (uset_difference cmp clone strat (ts_elements b) (ts_elements a) e)
    | true, true => utag true true (uset_union cmp clone strat (ts_elements b) (ts_elements a) e)
    end.
  (** BitOr: src/total_vec_set.rs:218-232 *)
  Definition utset_or (a b : tset T) (e : E) : done (tset T * E) :=
    match ts_negated a, ts_negated b with
    | false, false => utag false false (uset_union cmp clone strat (ts_elements a) (ts_elements b) e)
    | false, true => utag true true (uset_difference cmp clone strat (ts_elements b) (ts_elements a) e)
    | true, false => utag true true (uset_difference cmp clone strat (ts_elements a) (ts_elements b) e)
    | true, true => utag true true (uset_intersection cmp clone strat (ts_elements b) (ts_elements a) e)
    end.
  (** BitXor: src/total_vec_set.rs:263-268 *)
  Definition utset_xor (a b : tset T) (e : E) : done (tset T * E) :=
    let n := xorb (ts_negated a) (ts_negated b) in
    utag n n (uset_symmetric_difference cmp clone strat (ts_elements a) (ts_elements b) e).
  (** Sub: src/total_vec_set.rs:278-292 *)
  Definition utset_sub (a b : tset T) (e : E) : done (tset T * E) :=
    match ts_negated a, ts_negated b with
    | false, false => utag false false (uset_difference cmp clone strat (ts_elements a) (ts_elements b) e)
    | false, true => utag false false (uset_intersection cmp clone strat (ts_elements a) (ts_elements b) e)
    | true, false => utag true true (uset_union cmp clone strat (ts_elements a) (ts_elements b) e)
    | true, true => utag false false (uset_difference cmp clone strat (ts_elements b) (ts_elements a) e)
    end.
  (** Not for &TotalVecSet: src/total_vec_set.rs:323-328 *)
  Definition utset_not (a : tset T) (e : E) : done (tset T * E) :=
    let '(r, e', ok) := cpush_all clone (ts_elements a) [] e in
    if ok then Done (TSet r (negb (ts_negated a)), e') else Unwound (TSet r (negb (ts_negated a)), e').
  (** The assigning operators set [negated] after the elements; some swap the elements of the two sets first.
      BitAndAssign: src/total_vec_set.rs:189-216 *)
  Definition utset_and_assign (a b : tset T) (e : E) : done (tset T * E) :=
    match ts_negated a, ts_negated b with
    | false, false => utag false (ts_negated a) (uset_and_assign cmp strat (ts_elements a) (ts_elements b) e)
    | false, true => utag false (ts_negated a) (uset_sub_assign cmp strat (ts_elements a) (ts_elements b) e)
    | true, false => utag false (ts_negated a) (uset_sub_assign cmp strat (ts_elements b) (ts_elements a) e)
    | true, true => utag true (ts_negated a) (uset_or_assign cmp strat (ts_elements a) (ts_elements b) e)
    end.
  (** BitOrAssign: src/total_vec_set.rs:234-261 *)
  Definition utset_or_assign (a b : tset T) (e : E) : done (tset T * E) :=
    match ts_negated a, ts_negated b with
    | false, false => utag false (ts_negated a) (uset_or_assign cmp strat (ts_elements a) (ts_elements b) e)
    | false, true => utag true (ts_negated a) (uset_sub_assign cmp strat (ts_elements b) (ts_elements a) e)
    | true, false => utag true (ts_negated a) (uset_sub_assign cmp strat (ts_elements a) (ts_elements b) e)
    | true, true => utag true (ts_negated a) (uset_and_assign cmp strat (ts_elements a) (ts_elements b) e)
    end.
  (** BitXorAssign: src/total_vec_set.rs:270-275 *)
  Definition utset_xor_assign (a b : tset T) (e : E) : done (tset T * E) :=
    utag (xorb (ts_negated a) (ts_negated b)) (ts_negated a) (uset_xor_assign cmp strat (ts_elements a) (ts_elements b) e).
  (** SubAssign: src/total_vec_set.rs:294-321 *)
  Definition utset_sub_assign (a b : tset T) (e : E) : done (tset T * E) :=
    match ts_negated a, ts_negated b with
    | false, false => utag false (ts_negated a) (uset_sub_assign cmp strat (ts_elements a) (ts_elements b) e)
    | false, true => utag false (ts_negated a) (uset_and_assign cmp strat (ts_elements a) (ts_elements b) e)
    | true, false => utag true (ts_negated a) (uset_or_assign cmp strat (ts_elements a) (ts_elements b) e)
    | true, true => utag false (ts_negated a) (uset_sub_assign cmp strat (ts_elements b) (ts_elements a) e)
    end.
End UTotalSet.

Section UTotalMap.
  Context {K E : Type} (cmp : clos E (K * K) comparison) (clone : clos E K K) (strat : nat -> nat -> bool).
  (** new: src/total_vec_map.rs:98-103; [ne] is [!=] of V *)
  Definition utmap_new {V} (ne : clos E (V * V) bool) (m : list (K * V)) (default : V) (e : E) : option (E * cres (tmap K V)) :=
    match wmap_retain (fun e p => ne e (snd p, default)) m e with
    | Done (l, e') => Some (e', Ret (TMap l default))
    | Unwound (_, e') => Some (e', Throw)
    | DoneNoFuel => None
    end.
  (** the closure that combine_ref passes to outer_join: src/total_vec_map.rs:216-227 *)
  Definition ref_clos {V} (ne : clos E (V * V) bool) (f : clos E (V * V) V) (da db d : V) : clos E (ojarg K V V) (option V) :=
    fun e arg =>
      match f e match arg with OJLeft _ v => (v, db) | OJRight _ w => (da, w) | OJBoth _ v w => (v, w) end with
      | (e1, Ret r) => match ne e1 (r, d) with
                       | (e2, Ret q) => (e2, Ret (if q then Some r else None))
                       | (e2, Throw) => (e2, Throw)
                       end
      | (e1, Throw) => (e1, Throw)
      end.
  (** combine_ref: src/total_vec_map.rs:213-231 *)
  Definition utmap_combine_ref {V} (ne : clos E (V * V) bool) (f : clos E (V * V) V) (a b : tmap K V) (e : E)
    : option (E * cres (tmap K V)) :=
    match f e (tm_default a, tm_default b) with
    | (e1, Throw) => Some (e1, Throw)
    | (e1, Ret d) =>
        match umap_outer_join cmp clone strat (ref_clos ne f (tm_default a) (tm_default b) d) (tm_map a) (tm_map b) e1 with
        | Done (r, e2) => Some (e2, Ret (TMap r d))
        | Unwound (_, e2) => Some (e2, Throw)
        | DoneNoFuel => None
        end
    end.
  (** [|a, b| a.clone() + b.clone()] and the like: src/total_vec_map.rs:148-150, 158-160, 178-180, 188-190 *)
  Definition arith_clos {V} (vclone : clos E V V) (op : clos E (V * V) V) : clos E (V * V) V :=
    fun e p =>
      match vclone e (fst p) with
      | (e1, Throw) => (e1, Throw)
      | (e1, Ret x) => match vclone e1 (snd p) with
                       | (e2, Throw) => (e2, Throw)
                       | (e2, Ret y) => op e2 (x, y)
                       end
      end.
  (** Add, Sub, Mul, Div: src/total_vec_map.rs:143-191 *)
  Definition utmap_arith {V} ne (vclone : clos E V V) op (a b : tmap K V) (e : E) := utmap_combine_ref ne (arith_clos vclone op) a b e.
  (** [cmp::max(a, b).clone()], [cmp::min(a, b).clone()]: src/total_vec_map.rs:234, 237; [gt] says whether the first is greater *)
  Definition max_clos {V} (gt : clos E (V * V) bool) (vclone : clos E V V) : clos E (V * V) V :=
    fun e p => match gt e p with (e1, Ret q) => vclone e1 (if q then fst p else snd p) | (e1, Throw) => (e1, Throw) end.
  Definition min_clos {V} (gt : clos E (V * V) bool) (vclone : clos E V V) : clos E (V * V) V :=
    fun e p => match gt e p with (e1, Ret q) => vclone e1 (if q then snd p else fst p) | (e1, Throw) => (e1, Throw) end.
  (** supremum, infimum: src/total_vec_map.rs:233-238 *)
  Definition utmap_supremum {V} ne gt (vclone : clos E V V) (a b : tmap K V) (e : E) := utmap_combine_ref ne (max_clos gt vclone) a b e.
  Definition utmap_infimum {V} ne gt (vclone : clos E V V) (a b : tmap K V) (e : E) := utmap_combine_ref ne (min_clos gt vclone) a b e.
  (** the loop of map_values: src/total_vec_map.rs:247-258 *)
  Fixpoint utmap_entries {V W} (ne : clos E (W * W) bool) (f : clos E V W) (d : W) (l : list (K * V)) (e : E) : E * cres (list (K * W)) :=
    match l with
    | [] => (e, Ret [])
    | (k, v) :: l' =>
        match f e v with
        | (e1, Throw) => (e1, Throw)
        | (e1, Ret w) =>
            match ne e1 (w, d) with
            | (e2, Throw) => (e2, Throw)
            | (e2, Ret false) => utmap_entries ne f d l' e2
            | (e2, Ret true) =>
                match clone e2 k with
                | (e3, Throw) => (e3, Throw)
                | (e3, Ret k') => match utmap_entries ne f d l' e3 with
                                  | (e4, Ret r) => (e4, Ret ((k', w) :: r))
                                  | (e4, Throw) => (e4, Throw)
                                  end
                end
            end
        end
    end.
  (** map_values: src/total_vec_map.rs:242-260; Neg: 163-171 with [f] a clone and [-] *)
  Definition utmap_map_values {V W} (ne : clos E (W * W) bool) (f : clos E V W) (m : tmap K V) (e : E) : E * cres (tmap K W) :=
    match f e (tm_default m) with
    | (e1, Throw) => (e1, Throw)
    | (e1, Ret d) => match utmap_entries ne f d (tm_map m) e1 with
                     | (e2, Ret r) => (e2, Ret (TMap r d))
                     | (e2, Throw) => (e2, Throw)
                     end
    end.
End UTotalMap.
