(** The constructors that consume a caller's iterator, with the iterator as user code: src/dedup.rs:108-123,
    VecSet/VecMap [FromIterator] and [Extend], RadixTree [FromIterator].
    [next] and [size_hint] may have effects, may panic at any call, need not be consistent with each other,
    and share the world [W] with the comparison (so they may communicate with it). An iterator may go on for
    ever: [fuel] bounds the number of calls of [next] the model performs, and running out of it is the
    separate outcome [DoneNoFuel] (the real call would still be running). *)
From Verif Require Export CollectModel OracleMapModel RadixModel.

(** the result of [next()]: [Ret None] is the end, [Throw] a panic *)
Definition iterator (W T : Type) : Type := W -> W * cres (option T).

Section IDedup.
  Context {T W : Type} (c : W -> T -> T -> W * option comparison).
  Context (srt : list T -> W -> (list T * bool) * W).
  Context (nx : iterator W T).

  (** src/dedup.rs:119-122: [for x in iter { agg.push(x); } agg.into_inner()]. Result: the data, what was
      dropped on the way, and the items the iterator has given so far (ghost). When [next] panics the
      aggregator (the data) is dropped. *)
  Fixpoint isd_run (fuel : nat) (s : wsad) (got : list T) (w : W) : done (list T * list T * list T) * W :=
    match fuel with
    | 0 => (DoneNoFuel, w)
    | S fuel' =>
        match nx w with
        | (w1, Throw) => (Unwound (wd_data s, wd_drop s, got), w1)
        | (w1, Ret None) =>
            match wsd_compact c srt s w1 with
            | (Done s', w2) => (Done (wd_data s', wd_drop s', got), w2)
            | (Unwound s', w2) => (Unwound (wd_data s', wd_drop s', got), w2)
            | (DoneNoFuel, w2) => (DoneNoFuel, w2)
            end
        | (w1, Ret (Some x)) =>
            match wsd_push c srt s x w1 with
            | (Done s', w2) => isd_run fuel' s' (got ++ [x]) w2
            | (Unwound s', w2) => (Unwound (wd_data s', wd_drop s', got ++ [x]), w2)
            | (DoneNoFuel, w2) => (DoneNoFuel, w2)
            end
        end
    end.

  (** src/dedup.rs:108-123 [sort_dedup_by]: [size_hint] is asked once, first (112); its answer only sets the
      initial capacity (StorageModel.v) *)
  Definition isort_dedup_by (hint : W -> W * cres nat) (fuel : nat) (kp : keep) (w : W)
    : done (list T * list T * list T) * W :=
    match hint w with
    | (w1, Throw) => (Unwound ([], [], []), w1)
    | (w1, Ret _) => isd_run fuel (MkWsad [] 0 kp []) [] w1
    end.
End IDedup.

(** VecSet::from_iter: src/vec_set.rs:494-500 *)
Definition iset_from_iter {T W : Type} (c : W -> T -> T -> W * option comparison) srt
  (nx : iterator W T) (hint : W -> W * cres nat) (fuel : nat) (w : W) :=
  isort_dedup_by c srt nx hint fuel KeepFirst w.

(** VecMap::from_iter: src/vec_map.rs:243-247 *)
Definition imap_from_iter {K V W : Type} (c : W -> K -> K -> W * option comparison) srt
  (nx : iterator W (K * V)) (hint : W -> W * cres nat) (fuel : nat) (w : W) :=
  isort_dedup_by (wkv c) srt nx hint fuel KeepLast w.

(** VecSet::extend: src/vec_set.rs:502-506 [*self |= Self::from_iter(iter)]. Result: self afterwards, everything
    dropped, and the items taken from the iterator (ghost). *)
Definition iset_extend {T W : Type} (c : W -> T -> T -> W * option comparison) srt (strat : nat -> nat -> bool)
  (self : list T) (nx : iterator W T) (hint : W -> W * cres nat) (fuel : nat) (w : W)
  : done (list T * list T * list T) * W :=
  match iset_from_iter c srt nx hint fuel w with
  | (Done (that, drop, got), w1) =>
      match wset_assign c strat Union self that w1 with
      | (Done (kept, da, db), w2) => (Done (kept, drop ++ da ++ db, got), w2)
      | (Unwound (kept, da, db), w2) => (Unwound (kept, drop ++ da ++ db, got), w2)
      | (DoneNoFuel, w2) => (DoneNoFuel, w2)
      end
  | (Unwound (that, drop, got), w1) => (Unwound (self, that ++ drop, got), w1)
  | (DoneNoFuel, w1) => (DoneNoFuel, w1)
  end.

(** VecMap::extend: src/vec_map.rs:255-259 [self.merge_with(iter.into_iter().collect())] *)
Definition imap_extend {K V W : Type} (c : W -> K -> K -> W * option comparison) srt (strat : nat -> nat -> bool)
  (self : list (K * V)) (nx : iterator W (K * V)) (hint : W -> W * cres nat) (fuel : nat) (w : W)
  : done (list (K * V) * list (K * V)) * W :=
  match imap_from_iter c srt nx hint fuel w with
  | (Done (that, _, got), w1) =>
      match wmap_merge_with c strat self that w1 with
      | (Done (r, _), w2) => (Done (r, got), w2)
      | (Unwound (r, _), w2) => (Unwound (r, got), w2)
      | (DoneNoFuel, w2) => (DoneNoFuel, w2)
      end
  | (Unwound (_, _, got), w1) => (Unwound (self, got), w1)
  | (DoneNoFuel, w1) => (DoneNoFuel, w1)
  end.

(** RadixTree: FromIterator src/radix_tree/flat_radix_tree.rs:29-37 (no [size_hint]). The key comparison is pure
    here. When [next] panics the tree built so far is dropped. *)
Fixpoint irt_insert_all {K V W : Type} (kcmp : K -> K -> comparison) (strat : nat -> nat -> bool)
  (nx : iterator W (list K * V)) (fuel : nat) (t : rtree K V) (w : W) : res (rtree K V) * W :=
  match fuel with
  | 0 => (OutOfFuel, w)
  | S fuel' =>
      match nx w with
      | (w1, Throw) => (Panicked, w1)
      | (w1, Ret None) => (Ok t, w1)
      | (w1, Ret (Some (k, v))) =>
          match rt_insert kcmp strat t k v with
          | Ok t' => irt_insert_all kcmp strat nx fuel' t' w1
          | Panicked => (Panicked, w1)
          | OutOfFuel => (OutOfFuel, w1)
          end
      end
  end.
Definition irt_from_iter {K V W : Type} (kcmp : K -> K -> comparison) (strat : nat -> nat -> bool)
  (nx : iterator W (list K * V)) (fuel : nat) (w : W) : res (rtree K V) * W :=
  irt_insert_all kcmp strat nx fuel rt_empty w.
