(** The rest of VecMap under an arbitrary comparison of keys (see OracleModel.v): lookups, insert,
    collecting, extend and the joins that produce a new map. *)
From Verif Require Export CollectModel.

Section WLook.
  Context {K V W : Type} (c : W -> K -> K -> W * option comparison).
  (** the comparator of the lookups: src/vec_map.rs:54, 664, 764; the stored key is asked *)
  Definition wkprobe (key : K) (w : W) (p : K * V) : W * option comparison := c w (fst p) key.
  (** get: src/vec_map.rs:47-57 *)
  Definition wmap_get (m : list (K * V)) (key : K) (w : W) : res (option V) * W :=
    let (r, w') := wbsearch (wkprobe key) m w in
    (match r with
     | BsOk index => match nth_error m index with Some (_, v) => Ok (Some v) | None => Panicked end
     | BsErr _ => Ok None
     | BsPanic => Panicked
     | BsNoFuel => OutOfFuel
     end, w').
  (** get_mut: src/vec_map.rs:758-768; the returned [&mut V] replaces the value v by [g v] *)
  Definition wmap_get_mut (m : list (K * V)) (key : K) (g : V -> V) (w : W) : done (list (K * V) * bool) * W :=
    let (r, w') := wbsearch (wkprobe key) m w in
    (match r with
     | BsOk index => match nth_error m index with
                     | Some (k, v) => Done (set_at index (k, g v) m, true)
                     | None => Unwound (m, false)
                     end
     | BsErr _ => Done (m, false)
     | BsPanic => Unwound (m, false)
     | BsNoFuel => DoneNoFuel
     end, w').
  (** insert: src/vec_map.rs:663-675: the search comes first *)
  Definition wmap_insert (m : list (K * V)) (key : K) (value : V) (w : W) : done (list (K * V) * option V) * W :=
    let (r, w') := wbsearch (wkprobe key) m w in
    (match r with
     | BsOk index => match nth_error m index with
                     | Some (_, v) => Done (set_at index (key, value) m, Some v)
                     | None => Unwound (m, None)
                     end
     | BsErr ip => Done (insert_at ip (key, value) m, None)
     | BsPanic => Unwound (m, None)
     | BsNoFuel => DoneNoFuel
     end, w').
  (** merge_with: src/vec_map.rs:731-733 *)
  Definition wmap_merge_with (strat : nat -> nat -> bool) (a b : list (K * V)) (w : W) : done (list (K * V) * unit) * W :=
    wmap_combine_with c strat (pure_clos snd) a b tt w.
  (** Extend: src/vec_map.rs:255-259: the iterator is collected first, then merged *)
  Definition wmap_extend (srt : list (K * V) -> W -> (list (K * V) * bool) * W) (strat : nat -> nat -> bool)
    (m items : list (K * V)) (w : W) : done (list (K * V)) * W :=
    match wmap_from_iter c srt items w with
    | (Done (that, _, _), w') =>
        match wmap_merge_with strat m that w' with
        | (Done (r, _), w'') => (Done r, w'')
        | (Unwound (r, _), w'') => (Unwound r, w'')
        | (DoneNoFuel, w'') => (DoneNoFuel, w'')
        end
    | (Unwound _, w') => (Unwound m, w')
    | (DoneNoFuel, w') => (DoneNoFuel, w')
    end.
End WLook.

(** ** The joins that produce a new map *)
Section WJoin.
  Context {K V V2 R W E : Type} (c : W -> K -> K -> W * option comparison) (strat : nat -> nat -> bool).
  (** see [vs_join] in VecMapModel.v *)
  Definition wvs_join (O : mop (vstate (K * V) (K * V2) (K * R) * E) (K * V) (K * V2))
    (a : list (K * V)) (b : list (K * V2)) (e : E) (w : W) : done (list (K * R) * E) * W :=
    let (o, w') := wmerge (wkv c) O strat (vs_new a b, e) w in
    (to_done (fun s => (vs_r (fst s), snd s)) o, w').
  (** outer_join: src/vec_map.rs:61-73 *)
  Definition wmap_outer_join f := wvs_join (OuterJoinOp_v unused_cmp f).
  (** left_join: src/vec_map.rs:75-87 *)
  Definition wmap_left_join f := wvs_join (LeftJoinOp_v unused_cmp f).
  (** right_join: src/vec_map.rs:89-101 *)
  Definition wmap_right_join f := wvs_join (RightJoinOp_v unused_cmp f).
  (** inner_join: src/vec_map.rs:103-115 *)
  Definition wmap_inner_join f := wvs_join (InnerJoinOp_v unused_cmp f).
End WJoin.
