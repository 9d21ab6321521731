(** Lookups, single-element operations and relations with all user code open: the operations of OracleModel.v and OracleMapModel.v
    with a comparison in the form of VecUserModel.v, and those of TotalVecSet and TotalVecMap. *)
From Verif Require Export OracleMapModel TotalUserModel.

(** a comparison in the form that OracleModel.v takes *)
Definition asks {T E : Type} (cmp : clos E (T * T) comparison) (e : E) (x y : T) : E * option comparison :=
  match cmp e (x, y) with (e', Ret q) => (e', Some q) | (e', Throw) => (e', None) end.

Section LookTotalSet.
  Context {T E : Type} (cmp : clos E (T * T) comparison) (clone : clos E T T) (strat : nat -> nat -> bool).
  (** contains: src/total_vec_set.rs:128-130 *)
  Definition utset_contains (s : tset T) (x : T) (e : E) : res bool * E :=
    let (r, e') := wset_contains (asks cmp) (ts_elements s) x e in (rmap (xorb (ts_negated s)) r, e').
  (** the set with what a call on its elements left *)
  Definition with_elements (s : tset T) (o : done (list T * bool) * E) : done (tset T) * E :=
    let (d, e') := o in
    (match d with
     | Done (l, _) => Done (TSet l (ts_negated s))
     | Unwound (l, _) => Unwound (TSet l (ts_negated s))
     | DoneNoFuel => DoneNoFuel
     end, e').
  (** insert: src/total_vec_set.rs:132-138 *)
  Definition utset_insert (s : tset T) (that : T) (e : E) : done (tset T) * E :=
    with_elements s (if ts_negated s then wset_remove (asks cmp) (ts_elements s) that e else wset_insert (asks cmp) (ts_elements s) that e).
  (** remove: src/total_vec_set.rs:164-170 *)
  Definition utset_remove (s : tset T) (that : T) (e : E) : done (tset T) * E :=
    if ts_negated s then
      match clone e that with
      | (e1, Ret x) => with_elements s (wset_insert (asks cmp) (ts_elements s) x e1)
      | (e1, Throw) => (Unwound s, e1)
      end
    else with_elements s (wset_remove (asks cmp) (ts_elements s) that e).
  (** is_subset: src/total_vec_set.rs:144-151 *)
  Definition utset_is_subset (a b : tset T) (e : E) : res bool * E :=
    match ts_negated a, ts_negated b with
    | false, false => wset_is_subset (asks cmp) strat (ts_elements a) (ts_elements b) e
    | false, true => wset_is_disjoint (asks cmp) strat (ts_elements a) (ts_elements b) e
    | true, false => (Ok false, e)
    | true, true => wset_is_superset (asks cmp) strat (ts_elements a) (ts_elements b) e
    end.
  (** is_disjoint: src/total_vec_set.rs:153-160 *)
  Definition utset_is_disjoint (a b : tset T) (e : E) : res bool * E :=
    match ts_negated a, ts_negated b with
    | false, false => wset_is_disjoint (asks cmp) strat (ts_elements a) (ts_elements b) e
    | false, true => wset_is_subset (asks cmp) strat (ts_elements a) (ts_elements b) e
    | true, false => wset_is_superset (asks cmp) strat (ts_elements a) (ts_elements b) e
    | true, true => (Ok false, e)
    end.
End LookTotalSet.

(** TotalVecMap, Index: src/total_vec_map.rs:263-275 *)
Definition utmap_index {K V E : Type} (cmp : clos E (K * K) comparison) (m : tmap K V) (k : K) (e : E) : res V * E :=
  let (r, e') := wmap_get (asks cmp) (tm_map m) k e in
  (rmap (fun o => match o with Some v => v | None => tm_default m end) r, e').

(** VecSet::extend: src/vec_set.rs:503-505, see [wset_extend]; [*self |= …] is [uset_or_assign] *)
Definition uset_extend {T E : Type} (cmp : clos E (T * T) comparison) (srt : list T -> E -> (list T * bool) * E)
  (strat : nat -> nat -> bool) (self items : list T) (e : E) : done (list T * E) :=
  match wsort_dedup_by (asks cmp) srt items KeepFirst e with
  | (Done (that, _, _), e') => uset_or_assign cmp strat self that e'
  | (Unwound _, e') => Unwound (self, e')
  | (DoneNoFuel, _) => DoneNoFuel
  end.
(** VecMap::extend: src/vec_map.rs:255-259, merge_with: src/vec_map.rs:731-733, see [wmap_extend] *)
Definition umap_extend {K V E : Type} (cmp : clos E (K * K) comparison) (srt : list (K * V) -> E -> (list (K * V) * bool) * E)
  (strat : nat -> nat -> bool) (m items : list (K * V)) (e : E) : done (list (K * V) * E) :=
  match wmap_from_iter (asks cmp) srt items e with
  | (Done (that, _, _), e') => umap_combine_with cmp strat (pure_clos snd) m that e'
  | (Unwound _, e') => Unwound (m, e')
  | (DoneNoFuel, _) => DoneNoFuel
  end.
