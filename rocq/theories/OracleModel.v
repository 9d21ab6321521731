(** The merge machinery and the binary searches once more, with a comparison that may do anything:
    [Ord::cmp] is user code. It runs in a world [W] (everything it can read or change: counters,
    interior mutability of the elements, clocks), may answer differently each time it is asked, may
    break every law of an order, and may panic ([None]).
    The operations ([mop]) are those of Merge.v, VecSetModel.v and VecMapModel.v, unchanged; their
    [mo_cmp] field is not consulted here, the oracle is asked instead. The engine below is the one of
    Merge.v with the world threaded through (theorems [wmerge_pure], [wbsearch_pure] in
    OracleFacts.v: for a comparison without effects the two coincide). *)
From Verif Require Export VecMapModel.

Section WBs.
  Context {T W : Type} (f : W -> T -> W * option comparison).
  (** std::slice::binary_search_by, as [bs_loop] in StdModel.v (src/vec_set.rs:124,307,324,
      src/vec_map.rs:54,664,764) *)
  Fixpoint wbs_loop (l : list T) (fuel left right : nat) (w : W) : bsres * W :=
    match fuel with
    | O => (BsNoFuel, w)
    | S fuel' =>
        if left <? right then
          let mid := left + (right - left) / 2 in
          match nth_error l mid with
          | None => (BsPanic, w)
          | Some x =>
              let (w', r) := f w x in
              match r with
              | None => (BsPanic, w')
              | Some Lt => wbs_loop l fuel' (mid + 1) right w'
              | Some Gt => wbs_loop l fuel' left mid w'
              | Some Eq => (BsOk mid, w')
              end
          end
        else (BsErr left, w)
    end.
  Definition wbsearch (l : list T) (w : W) : bsres * W := wbs_loop l (S (length l)) 0 (length l) w.
End WBs.

Section WAlg.
  Context {W S A B : Type} (c : W -> A -> B -> W * option comparison) (O : mop S A B).

  (** binary-merge, minimum-comparison strategy; as [binary_merge] in Merge.v *)
  Fixpoint wbinary_merge (fuel : nat) (s : S) (an bn : nat) (w : W) : out S * W :=
    match fuel with
    | 0 => (NoFuel, w)
    | Datatypes.S fuel' =>
        if an =? 0 then ((if bn =? 0 then Cont s else mo_from_b O s bn), w)
        else if bn =? 0 then (mo_from_a O s an, w)
        else
          let am := an / 2 in
          match nth_error (mo_a O s) am with
          | None => (Panic s, w)
          | Some x =>
              let (r, w1) := wbsearch (fun w y => let (w', q) := c w x y in (w', option_map CompOpp q))
                               (firstn bn (mo_b O s)) w in
              match r with
              | BsOk bm =>
                  match wbinary_merge fuel' s am bm w1 with
                  | (Cont s1, w2) =>
                      match mo_coll O s1 with
                      | Cont s2 => wbinary_merge fuel' s2 (an - am - 1) (bn - bm - 1) w2
                      | o => (o, w2)
                      end
                  | q => q
                  end
              | BsErr bi =>
                  match wbinary_merge fuel' s am bi w1 with
                  | (Cont s1, w2) =>
                      match mo_from_a O s1 1 with
                      | Cont s2 => wbinary_merge fuel' s2 (an - am - 1) (bn - bi) w2
                      | o => (o, w2)
                      end
                  | q => q
                  end
              | BsPanic => (Panic s, w1)
              | BsNoFuel => (NoFuel, w1)
              end
          end
    end.

  (** binary-merge, linear strategy; as [tape_merge] in Merge.v *)
  Fixpoint wtape_merge (fuel : nat) (s : S) (w : W) : out S * W :=
    match fuel with
    | 0 => (NoFuel, w)
    | Datatypes.S fuel' =>
        match mo_a O s, mo_b O s with
        | [], [] => (Cont s, w)
        | [], _ :: _ => (mo_from_b O s (length (mo_b O s)), w)
        | _ :: _, [] => (mo_from_a O s (length (mo_a O s)), w)
        | x :: _, y :: _ =>
            let (w', r) := c w x y in
            match r with
            | None => (Panic s, w')
            | Some q =>
                match (match q with Lt => mo_from_a O s 1 | Gt => mo_from_b O s 1 | Eq => mo_coll O s end) with
                | Cont s' => wtape_merge fuel' s' w'
                | o => (o, w')
                end
            end
        end
    end.

  (** [MergeOperation::merge]; as [merge] in Merge.v *)
  Definition wmerge (strat : nat -> nat -> bool) (s : S) (w : W) : out S * W :=
    let an := length (mo_a O s) in
    let bn := length (mo_b O s) in
    if strat an bn then wtape_merge (Datatypes.S (an + bn)) s w
    else wbinary_merge (Datatypes.S an) s an bn w.
End WAlg.

(** the field the engine above does not look at *)
Definition unused_cmp {T : Type} (_ _ : T) : comparison := Eq.

(** ** VecSet under an arbitrary comparison *)
Section WSet.
  Context {T W : Type} (c : W -> T -> T -> W * option comparison) (strat : nat -> nat -> bool).

  (** InPlaceMergeState::merge src/merge_state.rs:77-80, see [ip_merge] *)
  Definition wip_merge (O : mop (ipstate T T) T T) (a b : list T) (w : W)
    : done (list T * list T * list T) * W :=
    let (o, w') := wmerge c O strat (ip_new a b) w in
    (to_done (fun s => (bd_tgt (ip_a s), bd_drop (ip_a s) ++ bd_src (ip_a s), ip_drop_b s ++ ip_b s)) o, w').
  (** src/merge_state.rs:150-159, see [ipr_merge] *)
  Definition wipr_merge (O : mop (iprstate T T) T T) (a b : list T) (w : W) : done (list T) * W :=
    let (o, w') := wmerge c O strat (ipr_new a b) w in (to_done (fun s => bd_tgt (ipr_a s)) o, w').
  (** src/merge_state.rs:256-260, see [bs_merge] *)
  Definition wbs_merge (O : mop (bstate T T) T T) (a b : list T) (w : W) : res bool * W :=
    let (o, w') := wmerge c O strat (bs_new a b) w in (to_res bs_r o, w').
  (** src/merge_state.rs:354-359, see [vs_merge] *)
  Definition wvs_merge (O : mop (vstate T T T) T T) (a b : list T) (w : W) : res (list T) * W :=
    let (o, w') := wmerge c O strat (vs_new a b) w in (to_res vs_r o, w').

  (** the four set operations: src/vec_set.rs:508-566 *)
  Inductive bop := Union | Inter | Diff | Xor.
  Definition bop_op {S} (o : bop) (M : msm S T T) : mop S T T :=
    match o with
    | Union => SetUnionOp unused_cmp M
    | Inter => SetIntersectionOp unused_cmp M
    | Diff => SetDiffOpt unused_cmp M
    | Xor => SetXorOp unused_cmp M
    end.
  (** assigning operators, rhs by value: src/vec_set.rs:411-415, 430-434, 442-446, 456-460.
      Result: the kept elements, the elements dropped from self, the elements dropped from rhs. *)
  Definition wset_assign (o : bop) := wip_merge (bop_op o (ip_msm IdConverter)).
  (** assigning operators, rhs by reference: src/vec_set.rs:417-428, 436-440, 448-454, 462-466 *)
  Definition wset_assign_ref (o : bop) := wipr_merge (bop_op o (ipr_msm CloneConverter)).
  (** new set from references: src/vec_set.rs:146-192, 382-409, 720-754 *)
  Definition wset_pure (o : bop) := wvs_merge (bop_op o (vs_msm CloneConverter CloneConverter)).
  (** is_disjoint / is_subset / is_superset: src/vec_set.rs:128-144 *)
  Definition wset_is_disjoint (a b : list T) (w : W) : res bool * W :=
    let (r, w') := wbs_merge (bop_op Inter bs_msm) a b w in (rmap negb r, w').
  Definition wset_is_subset (a b : list T) (w : W) : res bool * W :=
    let (r, w') := wbs_merge (bop_op Diff bs_msm) a b w in (rmap negb r, w').
  Definition wset_is_superset (a b : list T) (w : W) : res bool * W := wset_is_subset b a w.
  (** contains: src/vec_set.rs:123-125. The probed element is compared with the argument. *)
  Definition wset_contains (l : list T) (x : T) (w : W) : res bool * W :=
    let (r, w') := wbsearch (fun w y => c w y x) l w in
    (match r with BsOk _ => Ok true | BsErr _ => Ok false | BsPanic => Panicked | BsNoFuel => OutOfFuel end, w').
  (** insert: src/vec_set.rs:306-317: the search comes first, so that a panic leaves self as it was *)
  Definition wset_insert (l : list T) (that : T) (w : W) : done (list T * bool) * W :=
    let (r, w') := wbsearch (fun w y => c w y that) l w in
    (match r with
     | BsOk index => Done (set_at index that l, false)
     | BsErr index => Done (insert_at index that l, true)
     | BsPanic => Unwound (l, false)
     | BsNoFuel => DoneNoFuel
     end, w').
  (** remove: src/vec_set.rs:323-330 *)
  Definition wset_remove (l : list T) (that : T) (w : W) : done (list T * bool) * W :=
    let (r, w') := wbsearch (fun w y => c w y that) l w in
    (match r with
     | BsOk index => Done (remove_at index l, true)
     | BsErr _ => Done (l, false)
     | BsPanic => Unwound (l, false)
     | BsNoFuel => DoneNoFuel
     end, w').
End WSet.

(** ** VecMap in-place joins under an arbitrary comparison of keys *)
Section WMap.
  Context {K V V2 W E : Type} (c : W -> K -> K -> W * option comparison) (strat : nat -> nat -> bool).
  (** [a.0.cmp(&b.0)], see [kvcmp] *)
  Definition wkv (w : W) (x : K * V) (y : K * V2) : W * option comparison := c w (fst x) (fst y).
  (** see [ipr_join] *)
  Definition wipr_join (O : mop (iprstate (K * V) (K * V2) * E) (K * V) (K * V2))
    (a : list (K * V)) (b : list (K * V2)) (e : E) (w : W) : done (list (K * V) * E) * W :=
    let (o, w') := wmerge wkv O strat (ipr_new a b, e) w in
    (to_done (fun s => (bd_tgt (ipr_a (fst s)), snd s)) o, w').
  (** outer_join_with: src/vec_map.rs:716-727 *)
  Definition wmap_outer_join_with f := wipr_join (OuterJoinOp_i unused_cmp f).
  (** left_join_with: src/vec_map.rs:690-701 *)
  Definition wmap_left_join_with f := wipr_join (LeftJoinOp_i unused_cmp f).
  (** right_join_with: src/vec_map.rs:703-714 *)
  Definition wmap_right_join_with f := wipr_join (RightJoinOp_i unused_cmp f).
  (** inner_join_with: src/vec_map.rs:677-688 *)
  Definition wmap_inner_join_with f := wipr_join (InnerJoinOp_i unused_cmp f).
End WMap.
(** combine_with: src/vec_map.rs:737-754 *)
Definition wmap_combine_with {K V W E : Type} (c : W -> K -> K -> W * option comparison)
  (strat : nat -> nat -> bool) (f : clos E (V * V) V) (a b : list (K * V)) (e : E) (w : W)
  : done (list (K * V) * E) * W :=
  let (o, w') := wmerge (wkv c) (OuterJoinOp_p unused_cmp (combine_clos f)) strat (ip_new a b, e) w in
  (to_done (fun s => (bd_tgt (ip_a (fst s)), snd s)) o, w').
