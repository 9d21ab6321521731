(** src/dedup.rs and the collecting constructors once more, with a comparison that may do anything
    (see OracleModel.v): it runs in a world [W], may break every law of an order and may panic.
    The standard library's sort is external and is a parameter [srt]; all that is assumed of it is what
    its documentation promises for every comparison: afterwards the slice is a permutation of what it
    was, also when it unwinds.
    Elements that are dropped are recorded in a ghost list. *)
From Verif Require Export DedupModel OracleModel.

(** a comparison [c] together with a call counter (a measuring device, no code of /repo) *)
Definition counted {W A B : Type} (c : W -> A -> B -> W * option comparison)
  : W * nat -> A -> B -> (W * nat) * option comparison :=
  fun wn x y => let (w', r) := c (fst wn) x y in ((w', S (snd wn)), r).

(** a comparison without effects *)
Definition plain {W A B : Type} (cmp : A -> B -> comparison) : W -> A -> B -> W * option comparison :=
  fun w x y => (w, Some (cmp x y)).

Section WDedup.
  Context {T W : Type} (c : W -> T -> T -> W * option comparison).
  (** [slice::sort_by] with the comparison [c]: the slice afterwards, and whether it returned
      normally (false: it unwound) *)
  Context (srt : list T -> W -> (list T * bool) * W).

  (** src/dedup.rs:19-28: the loop of [dedup_by]; the comparison is [same_bucket(&d[i], &d[j])]
      with [|a, b| cmp(a, b) == Equal] (148). Result: slice, [j], normal return?, world *)
  Fixpoint wdedup_loop (kp : keep) (is : list nat) (d : list T) (j : nat) (w : W)
    : (list T * nat * bool) * W :=
    match is with
    | [] => ((d, j, true), w)
    | i :: is' =>
        match nth_error d i, nth_error d j with
        | Some x, Some y =>
            let (w', r) := c w x y in
            match r with
            | None => ((d, j, false), w')
            | Some q =>
                if match q with Eq => false | _ => true end then
                  let j' := j + 1 in
                  if negb (i =? j') then
                    match swap_at i j' d with
                    | Some d' => wdedup_loop kp is' d' j' w'
                    | None => ((d, j', false), w')
                    end
                  else wdedup_loop kp is' d j' w'
                else
                  match kp with
                  | KeepLast =>
                      match swap_at i j d with
                      | Some d' => wdedup_loop kp is' d' j w'
                      | None => ((d, j, false), w')
                      end
                  | KeepFirst => wdedup_loop kp is' d j w'
                  end
            end
        | _, _ => ((d, j, false), w)
        end
    end.
  (** src/dedup.rs:14-30 *)
  Definition wdedup_by (d : list T) (kp : keep) (w : W) : (list T * nat * bool) * W :=
    match d with
    | [] => ((d, 0, true), w)
    | _ => let '((d', j, ok), w') := wdedup_loop kp (seq 1 (length d - 1)) d 0 w in
           ((d', j + 1, ok), w')
    end.

  (** src/dedup.rs:81-92 [struct SortAndDedup]; [wd_drop]: the elements dropped so far (ghost) *)
  Record wsad := MkWsad { wd_data : list T; wd_sorted : nat; wd_keep : keep; wd_drop : list T }.

  (** src/dedup.rs:142-153 [sort_and_dedup]. When the sort or the comparison unwinds, data is the
      permuted slice, not truncated, and [sorted] is not updated. *)
  Definition wsd_compact (s : wsad) (w : W) : done wsad * W :=
    if wd_sorted s <? length (wd_data s) then
      let '((slice, ok), w1) := srt (wd_data s) w in
      if ok then
        let '((slice', unique, ok2), w2) := wdedup_by slice (wd_keep s) w1 in
        if ok2 then
          let data := firstn unique slice' in
          (Done (MkWsad data (length data) (wd_keep s) (wd_drop s ++ skipn unique slice')), w2)
        else (Unwound (MkWsad slice' (wd_sorted s) (wd_keep s) (wd_drop s)), w2)
      else (Unwound (MkWsad slice (wd_sorted s) (wd_keep s) (wd_drop s)), w1)
    else (Done s, w).

  (** src/dedup.rs:162-189: the first half of [push]. When the comparison unwinds, [elem] is dropped.
      [*last = elem] drops the old last element. *)
  Definition wsd_push_raw (s : wsad) (x : T) (w : W) : done wsad * W :=
    let app n := MkWsad (wd_data s ++ [x]) n (wd_keep s) (wd_drop s) in
    if wd_sorted s =? length (wd_data s) then
      match rev (wd_data s) with
      | last :: front_rev =>
          let (w', r) := c w last x in
          match r with
          | None => (Unwound (MkWsad (wd_data s) (wd_sorted s) (wd_keep s) (wd_drop s ++ [x])), w')
          | Some Lt => (Done (app (wd_sorted s + 1)), w')
          | Some Eq =>
              match wd_keep s with
              | KeepLast =>
                  (Done (MkWsad (rev front_rev ++ [x]) (wd_sorted s) (wd_keep s) (wd_drop s ++ [last])), w')
              | KeepFirst =>
                  (Done (MkWsad (wd_data s) (wd_sorted s) (wd_keep s) (wd_drop s ++ [x])), w')
              end
          | Some Gt => (Done (app (wd_sorted s)), w')
          end
      | [] => (Done (app (wd_sorted s + 1)), w)
      end
    else (Done (app (wd_sorted s)), w).

  (** src/dedup.rs:161-200 [push] *)
  Definition wsd_push (s : wsad) (x : T) (w : W) : done wsad * W :=
    match wsd_push_raw s x w with
    | (Done s1, w1) =>
        if 16 <=? length (wd_data s1) then
          let sorted := wd_sorted s1 in
          let unsorted := length (wd_data s1) - sorted in
          if sorted <? unsorted then wsd_compact s1 w1 else (Done s1, w1)
        else (Done s1, w1)
    | r => r
    end.

  (** src/dedup.rs:119-122: the loop over the iterator and [into_inner] (155-159). Result: the data,
      what was dropped on the way, and the items of the iterator not yet consumed. *)
  Fixpoint wsd_run (s : wsad) (l : list T) (w : W) : done (list T * list T * list T) * W :=
    match l with
    | [] =>
        match wsd_compact s w with
        | (Done s', w') => (Done (wd_data s', wd_drop s', []), w')
        | (Unwound s', w') => (Unwound (wd_data s', wd_drop s', []), w')
        | (DoneNoFuel, w') => (DoneNoFuel, w')
        end
    | x :: l' =>
        match wsd_push s x w with
        | (Done s', w') => wsd_run s' l' w'
        | (Unwound s', w') => (Unwound (wd_data s', wd_drop s', l'), w')
        | (DoneNoFuel, w') => (DoneNoFuel, w')
        end
    end.

  (** src/dedup.rs:108-123 [sort_dedup_by]. VecSet::from_iter (src/vec_set.rs:495-499) is this with
      Keep::First. On Unwound everything listed is dropped: the collection was never handed out. *)
  Definition wsort_dedup_by (l : list T) (kp : keep) (w : W) : done (list T * list T * list T) * W :=
    wsd_run (MkWsad [] 0 kp []) l w.
End WDedup.

(** VecMap::from_iter: src/vec_map.rs:244-246, through [sort_dedup_by_key] src/dedup.rs:129-135 *)
Definition wmap_from_iter {K V W : Type} (c : W -> K -> K -> W * option comparison)
  (srt : list (K * V) -> W -> (list (K * V) * bool) * W) (l : list (K * V)) (w : W) :=
  wsort_dedup_by (wkv c) srt l KeepLast w.

(** VecSet::extend: src/vec_set.rs:503-505 [*self |= Self::from_iter(iter)]. Result: self afterwards,
      and everything dropped (the unconsumed items of the iterator included). *)
Definition wset_extend {T W : Type} (c : W -> T -> T -> W * option comparison)
  (srt : list T -> W -> (list T * bool) * W) (strat : nat -> nat -> bool) (self : list T) (l : list T) (w : W)
  : done (list T * list T) * W :=
  match wsort_dedup_by c srt l KeepFirst w with
  | (Done (that, drop, rest), w') =>
      match wset_assign c strat Union self that w' with
      | (Done (kept, da, db), w'') => (Done (kept, drop ++ rest ++ da ++ db), w'')
      | (Unwound (kept, da, db), w'') => (Unwound (kept, drop ++ rest ++ da ++ db), w'')
      | (DoneNoFuel, w'') => (DoneNoFuel, w'')
      end
  | (Unwound (that, drop, rest), w') => (Unwound (self, that ++ drop ++ rest), w')
  | (DoneNoFuel, w') => (DoneNoFuel, w')
  end.
