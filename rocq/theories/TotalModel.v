(** Model of /repo/src/total_vec_map.rs and /repo/src/total_vec_set.rs.
    Debug (total_vec_map.rs:118-125, total_vec_set.rs:76-83) is in DebugModel.v. Not modelled here: shrink_to_fit
    (total_vec_set.rs:110-112). *)
From Verif Require Export VecMapModel VecSetModel.

(** ** TotalVecMap *)
(** pub struct TotalVecMap<V, A>(VecMap<A>, V): src/total_vec_map.rs:27 *)
Record tmap (K V : Type) := TMap { tm_map : list (K * V); tm_default : V }.
Arguments TMap {K V}. Arguments tm_map {K V}. Arguments tm_default {K V}.

Section TotalMap.
  Context {K : Type} (kcmp : K -> K -> comparison) (strat : nat -> nat -> bool).

  (** new: src/total_vec_map.rs:98-103; [veqb] is the PartialEq of V *)
  Definition tmap_new {V} (veqb : V -> V -> bool) (m : list (K * V)) (default : V) : tmap K V :=
    let entries := vmap_retain m (fun p => negb (veqb (snd p) default)) in
    TMap entries default.
  (** constant, From<V>: src/total_vec_map.rs:108-110, 128-132 *)
  Definition tmap_constant {V} (value : V) : tmap K V := TMap [] value.
  (** Default: src/total_vec_map.rs:87-91; [vdefault] is V::default() *)
  Definition tmap_default {V} (vdefault : V) : tmap K V := TMap [] vdefault.
  (** non_default_mappings: src/total_vec_map.rs:113-115 *)
  Definition tmap_non_default_mappings {V} (m : tmap K V) : list (K * V) := tm_map m.
  (** Index: src/total_vec_map.rs:263-275 *)
  Definition tmap_index {V} (m : tmap K V) (k : K) : V :=
    match vmap_get kcmp (tm_map m) k with Some v => v | None => tm_default m end.

  (** combine_ref: src/total_vec_map.rs:213-231. The closure is arbitrary (environment E, may
      panic); [None]: out of fuel. After a panic nothing but the environment remains. *)
  Definition tmap_combine_ref {V E} (veqb : V -> V -> bool) (f : clos E (V * V) V) (a b : tmap K V) (e : E)
    : option (E * cres (tmap K V)) :=
    match f e (tm_default a, tm_default b) with
    | (e1, Throw) => Some (e1, Throw)
    | (e1, Ret r_default) =>
        let g : clos E (ojarg K V V) (option V) := fun e' arg =>
          match
            match arg with
            | OJLeft _ v => f e' (v, tm_default b)
            | OJRight _ w => f e' (tm_default a, w)
            | OJBoth _ v w => f e' (v, w)
            end
          with
          | (e2, Ret r) => (e2, Ret (if negb (veqb r r_default) then Some r else None))
          | (e2, Throw) => (e2, Throw)
          end in
        match vmap_outer_join kcmp strat g (tm_map a) (tm_map b) e1 with
        | Done (r, e2) => Some (e2, Ret (TMap r r_default))
        | Unwound (_, e2) => Some (e2, Throw)
        | DoneNoFuel => None
        end
    end.

  (** supremum, infimum: src/total_vec_map.rs:233-238; std::cmp::max(a, b) is b unless b < a,
      std::cmp::min(a, b) is a unless b < a *)
  Definition std_max {V} (vcmp : V -> V -> comparison) (a b : V) : V := match vcmp b a with Lt => a | _ => b end.
  Definition std_min {V} (vcmp : V -> V -> comparison) (a b : V) : V := match vcmp b a with Lt => b | _ => a end.
  Definition tmap_supremum {V E} (vcmp : V -> V -> comparison) (a b : tmap K V) (e : E) :=
    tmap_combine_ref (eqb_of vcmp) (pure_clos (fun p => std_max vcmp (fst p) (snd p))) a b e.
  Definition tmap_infimum {V E} (vcmp : V -> V -> comparison) (a b : tmap K V) (e : E) :=
    tmap_combine_ref (eqb_of vcmp) (pure_clos (fun p => std_min vcmp (fst p) (snd p))) a b e.
  (** Add, Sub, Mul, Div: src/total_vec_map.rs:143-191: combine_ref with the operator of V. The
      operators of V may panic (overflow, division by zero): [None]. *)
  Definition part_clos {E V} (op : V -> V -> option V) : clos E (V * V) V :=
    fun e p => (e, match op (fst p) (snd p) with Some r => Ret r | None => Throw end).
  Definition tmap_arith {V E} (veqb : V -> V -> bool) (op : V -> V -> option V) (a b : tmap K V) (e : E) :=
    tmap_combine_ref veqb (part_clos op) a b e.

  (** map_values: src/total_vec_map.rs:242-260 *)
  Fixpoint filter_map_entries {V W E} (weqb : W -> W -> bool) (f : clos E V W) (default : W)
    (l : list (K * V)) (e : E) : E * cres (list (K * W)) :=
    match l with
    | [] => (e, Ret [])
    | (k, v) :: l' =>
        match f e v with
        | (e1, Throw) => (e1, Throw)
        | (e1, Ret w) =>
            match filter_map_entries weqb f default l' e1 with
            | (e2, Ret r) => (e2, Ret (if negb (weqb w default) then (k, w) :: r else r))
            | (e2, Throw) => (e2, Throw)
            end
        end
    end.
  Definition tmap_map_values {V W E} (weqb : W -> W -> bool) (f : clos E V W) (m : tmap K V) (e : E)
    : E * cres (tmap K W) :=
    match f e (tm_default m) with
    | (e1, Throw) => (e1, Throw)
    | (e1, Ret default) =>
        match filter_map_entries weqb f default (tm_map m) e1 with
        | (e2, Ret r) => (e2, Ret (TMap r default))
        | (e2, Throw) => (e2, Throw)
        end
    end.
  (** Neg: src/total_vec_map.rs:163-171 *)
  Definition tmap_neg {V E} (veqb : V -> V -> bool) (neg : V -> V) (m : tmap K V) (e : E) :=
    tmap_map_values veqb (pure_clos neg) m e.

  (** Zero, One (is_zero / is_one): src/total_vec_map.rs:193-209; Bounded: 134-141. All the
      constructors are [tmap_constant]. *)
  Definition tmap_is_const {V} (is_c : V -> bool) (m : tmap K V) : bool :=
    vmap_is_empty (tm_map m) && is_c (tm_default m).

  (** PartialEq: src/total_vec_map.rs:67-71: compares the maps only *)
  Definition tmap_eqb {V} (veqb : V -> V -> bool) (a b : tmap K V) : bool := vmap_eqb kcmp veqb (tm_map a) (tm_map b).
  (** Hash: src/total_vec_map.rs:61-65: hashes the map only *)
  Definition tmap_hash {V H} (hl : nat -> list H) (hk : K -> list H) (hv : V -> list H) (m : tmap K V) : list H :=
    vmap_hash hl hk hv (tm_map m).
  (** PartialOrd, Ord: src/total_vec_map.rs:75-85: the pairs (map, default) *)
  Definition tmap_cmp {V} (vcmp : V -> V -> comparison) (a b : tmap K V) : comparison :=
    match vmap_cmp kcmp vcmp (tm_map a) (tm_map b) with
    | Eq => vcmp (tm_default a) (tm_default b)
    | c => c
    end.

  (** serde: src/total_vec_map.rs:29-50: the pair of the serialized map and the default;
      deserialization goes through VecMap's and then [new] *)
  Definition tmap_serialize {V} (m : tmap K V) : list (K * V) * V := (vmap_serialize (tm_map m), tm_default m).
  Definition tmap_deserialize {V} (veqb : V -> V -> bool) (d : list (K * V) * V) : tmap K V :=
    tmap_new veqb (vmap_visit_map kcmp (fst d)) (snd d).
End TotalMap.

(** ** TotalVecSet *)
(** src/total_vec_set.rs:23-26 *)
Record tset (T : Type) := TSet { ts_elements : list T; ts_negated : bool }.
Arguments TSet {T}. Arguments ts_elements {T}. Arguments ts_negated {T}.

Section TotalSet.
  Context {T : Type} (cmp : T -> T -> comparison) (strat : nat -> nat -> bool).

  (** is_empty, is_all: src/total_vec_set.rs:90-96 *)
  Definition tset_is_empty (s : tset T) : bool := negb (ts_negated s) && vset_is_empty (ts_elements s).
  Definition tset_is_all (s : tset T) : bool := ts_negated s && vset_is_empty (ts_elements s).
  (** constant, empty, all, From<bool>: src/total_vec_set.rs:98-108, 115-119 *)
  Definition tset_constant (value : bool) : tset T := TSet vset_empty value.
  Definition tset_empty : tset T := tset_constant false.
  Definition tset_all : tset T := tset_constant true.
  (** From<VecSet>: src/total_vec_set.rs:121-125 *)
  Definition tset_from (l : list T) : tset T := TSet l false.
  (** contains: src/total_vec_set.rs:128-130 *)
  Definition tset_contains (s : tset T) (x : T) : bool :=
    xorb (ts_negated s) (vset_contains cmp (ts_elements s) x).
  (** insert: src/total_vec_set.rs:132-138 *)
  Definition tset_insert (s : tset T) (that : T) : res (tset T) :=
    if negb (ts_negated s)
    then rmap (fun r => TSet (fst r) (ts_negated s)) (vset_insert cmp (ts_elements s) that)
    else rmap (fun r => TSet (fst r) (ts_negated s)) (vset_remove cmp (ts_elements s) that).
  (** remove: src/total_vec_set.rs:164-170 *)
  Definition tset_remove (s : tset T) (that : T) : res (tset T) :=
    if ts_negated s
    then rmap (fun r => TSet (fst r) (ts_negated s)) (vset_insert cmp (ts_elements s) that)
    else rmap (fun r => TSet (fst r) (ts_negated s)) (vset_remove cmp (ts_elements s) that).
  (** is_subset: src/total_vec_set.rs:144-151 *)
  Definition tset_is_subset (a b : tset T) : res bool :=
    match ts_negated a, ts_negated b with
    | false, false => vset_is_subset cmp strat (ts_elements a) (ts_elements b)
    | false, true => vset_is_disjoint cmp strat (ts_elements a) (ts_elements b)
    | true, false => Ok false
    | true, true => vset_is_superset cmp strat (ts_elements a) (ts_elements b)
    end.
  (** is_superset: src/total_vec_set.rs:140-142: the negation of is_subset, as in the source *)
  Definition tset_is_superset (a b : tset T) : res bool := rmap negb (tset_is_subset a b).
  (** is_disjoint: src/total_vec_set.rs:153-160 *)
  Definition tset_is_disjoint (a b : tset T) : res bool :=
    match ts_negated a, ts_negated b with
    | false, false => vset_is_disjoint cmp strat (ts_elements a) (ts_elements b)
    | false, true => vset_is_subset cmp strat (ts_elements a) (ts_elements b)
    | true, false => vset_is_superset cmp strat (ts_elements a) (ts_elements b)
    | true, true => Ok false
    end.

  Definition mk (n : bool) (r : res (list T)) : res (tset T) := rmap (fun l => TSet l n) r.
  (** BitAnd for &TotalVecSet: src/total_vec_set.rs:173-187 *)
  Definition tset_and (a b : tset T) : res (tset T) :=
    match ts_negated a, ts_negated b with
    | false, false => mk false (vset_intersection cmp strat (ts_elements a) (ts_elements b))
    | false, true => mk false (vset_difference cmp strat (ts_elements a) (ts_elements b))
    | true, false => mk false (vset_difference cmp strat (ts_elements b) (ts_elements a))
    | true, true => mk true (vset_union cmp strat (ts_elements b) (ts_elements a))
    end.
  (** BitOr for &TotalVecSet: src/total_vec_set.rs:218-232 *)
  Definition tset_or (a b : tset T) : res (tset T) :=
    match ts_negated a, ts_negated b with
    | false, false => mk false (vset_union cmp strat (ts_elements a) (ts_elements b))
    | false, true => mk true (vset_difference cmp strat (ts_elements b) (ts_elements a))
    | true, false => mk true (vset_difference cmp strat (ts_elements a) (ts_elements b))
    | true, true => mk true (vset_intersection cmp strat (ts_elements b) (ts_elements a))
    end.
  (** BitXor for &TotalVecSet: src/total_vec_set.rs:263-268 *)
  Definition tset_xor (a b : tset T) : res (tset T) :=
    mk (xorb (ts_negated a) (ts_negated b))
       (vset_symmetric_difference cmp strat (ts_elements a) (ts_elements b)).
  (** Sub for &TotalVecSet: src/total_vec_set.rs:278-292 *)
  Definition tset_sub (a b : tset T) : res (tset T) :=
    match ts_negated a, ts_negated b with
    | false, false => mk false (vset_difference cmp strat (ts_elements a) (ts_elements b))
    | false, true => mk false (vset_intersection cmp strat (ts_elements a) (ts_elements b))
    | true, false => mk true (vset_union cmp strat (ts_elements a) (ts_elements b))
    | true, true => mk false (vset_difference cmp strat (ts_elements b) (ts_elements a))
    end.
  (** Not: src/total_vec_set.rs:323-335 (both impls) *)
  Definition tset_not (a : tset T) : tset T := TSet (ts_elements a) (negb (ts_negated a)).

  (** the assigning operators: update [elements], then set [negated]; when the element operation
      unwinds, [negated] keeps its old value [n0] *)
  Definition mka (n n0 : bool) (r : done (list T)) : done (tset T) :=
    match r with
    | Done l => Done (TSet l n)
    | Unwound l => Unwound (TSet l n0)
    | DoneNoFuel => DoneNoFuel
    end.
  (** BitAndAssign: src/total_vec_set.rs:189-216; (true, false) swaps the element lists first *)
  Definition tset_and_assign (a b : tset T) : done (tset T) :=
    match ts_negated a, ts_negated b with
    | false, false => mka false (ts_negated a) (vset_bitand_assign cmp strat (ts_elements a) (ts_elements b))
    | false, true => mka false (ts_negated a) (vset_sub_assign cmp strat (ts_elements a) (ts_elements b))
    | true, false => mka false (ts_negated a) (vset_sub_assign cmp strat (ts_elements b) (ts_elements a))
    | true, true => mka true (ts_negated a) (vset_bitor_assign cmp strat (ts_elements a) (ts_elements b))
    end.
  (** BitOrAssign: src/total_vec_set.rs:234-261; (false, true) swaps *)
  Definition tset_or_assign (a b : tset T) : done (tset T) :=
    match ts_negated a, ts_negated b with
    | false, false => mka false (ts_negated a) (vset_bitor_assign cmp strat (ts_elements a) (ts_elements b))
    | false, true => mka true (ts_negated a) (vset_sub_assign cmp strat (ts_elements b) (ts_elements a))
    | true, false => mka true (ts_negated a) (vset_sub_assign cmp strat (ts_elements a) (ts_elements b))
    | true, true => mka true (ts_negated a) (vset_bitand_assign cmp strat (ts_elements a) (ts_elements b))
    end.
  (** BitXorAssign: src/total_vec_set.rs:270-275 *)
  Definition tset_xor_assign (a b : tset T) : done (tset T) :=
    mka (xorb (ts_negated a) (ts_negated b)) (ts_negated a)
        (vset_bitxor_assign cmp strat (ts_elements a) (ts_elements b)).
  (** SubAssign: src/total_vec_set.rs:294-321; (true, true) swaps *)
  Definition tset_sub_assign (a b : tset T) : done (tset T) :=
    match ts_negated a, ts_negated b with
    | false, false => mka false (ts_negated a) (vset_sub_assign cmp strat (ts_elements a) (ts_elements b))
    | false, true => mka false (ts_negated a) (vset_bitand_assign cmp strat (ts_elements a) (ts_elements b))
    | true, false => mka true (ts_negated a) (vset_bitor_assign cmp strat (ts_elements a) (ts_elements b))
    | true, true => mka false (ts_negated a) (vset_sub_assign cmp strat (ts_elements b) (ts_elements a))
    end.

  (** PartialEq: src/total_vec_set.rs:68-72 *)
  Definition tset_eqb (a b : tset T) : bool :=
    vset_eqb cmp (ts_elements a) (ts_elements b) && Bool.eqb (ts_negated a) (ts_negated b).
  (** Hash: src/total_vec_set.rs:61-66 *)
  Definition tset_hash {H} (hl : nat -> list H) (h : T -> list H) (hb : bool -> list H) (s : tset T) : list H :=
    vset_hash hl h (ts_elements s) ++ hb (ts_negated s).
  (** serde: src/total_vec_set.rs:31-50 *)
  Definition tset_serialize (s : tset T) : list T * bool := (vset_serialize (ts_elements s), ts_negated s).
  Definition tset_deserialize (d : list T * bool) : tset T := TSet (vset_visit_seq cmp (fst d)) (snd d).
End TotalSet.
