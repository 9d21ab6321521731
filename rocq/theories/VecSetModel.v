(** Model of /repo/src/vec_set.rs (and the vecset! macro, src/macros.rs:3-12).
    A VecSet is the list of the elements of its SmallVec. *)
From Verif Require Export Merge DedupModel.

Section VecSet.
  Context {T : Type} (cmp : T -> T -> comparison).
  (** strategy of the external merge algorithm, arbitrary *)
  Context (strat : nat -> nat -> bool).

  Definition tcmp (a b : T) : option comparison := Some (cmp a b).

  (** ** The set operations *)
  (** SetUnionOp: src/vec_set.rs:508-521 *)
  Definition SetUnionOp {S} (M : msm S T T) : mop S T T :=
    MkMop (ms_a M) (ms_b M) tcmp
      (fun m n => adv_a M m n true)
      (fun m n => adv_b M m n true)
      (fun m => obind (adv_a M m 1 true) (fun m => adv_b M m 1 false)).
  (** SetIntersectionOp: src/vec_set.rs:523-536 *)
  Definition SetIntersectionOp {S} (M : msm S T T) : mop S T T :=
    MkMop (ms_a M) (ms_b M) tcmp
      (fun m n => adv_a M m n false)
      (fun m n => adv_b M m n false)
      (fun m => obind (adv_a M m 1 true) (fun m => adv_b M m 1 false)).
  (** SetDiffOpt: src/vec_set.rs:538-551 *)
  Definition SetDiffOpt {S} (M : msm S T T) : mop S T T :=
    MkMop (ms_a M) (ms_b M) tcmp
      (fun m n => adv_a M m n true)
      (fun m n => adv_b M m n false)
      (fun m => obind (adv_a M m 1 false) (fun m => adv_b M m 1 false)).
  (** SetXorOp: src/vec_set.rs:553-566 *)
  Definition SetXorOp {S} (M : msm S T T) : mop S T T :=
    MkMop (ms_a M) (ms_b M) tcmp
      (fun m n => adv_a M m n true)
      (fun m n => adv_b M m n true)
      (fun m => obind (adv_a M m 1 false) (fun m => adv_b M m 1 false)).

  (** ** Lookup *)
  (** the comparator of [slice::binary_search(value)] *)
  Definition probe (x : T) (y : T) : option comparison := Some (cmp y x).
  (** AbstractVecSet::contains: src/vec_set.rs:123-125 *)
  Definition vset_contains (l : list T) (x : T) : bool :=
    match bsearch (probe x) l with BsOk _ => true | _ => false end.
  (** number of comparisons [contains] performs: src/vec_set.rs:123-125 *)
  Definition vset_contains_count (l : list T) (x : T) : nat := snd (bs_count (probe x) l).
  (** is_empty / len: src/vec_set.rs:120-122, 280-282, 288-290 *)
  Definition vset_is_empty (l : list T) : bool := match l with [] => true | _ => false end.
  Definition vset_len (l : list T) : nat := length l.

  (** ** Predicates *)
  (** src/vec_set.rs:128-130 *)
  Definition vset_is_disjoint (a b : list T) : res bool :=
    rmap negb (bs_merge strat (SetIntersectionOp bs_msm) a b).
  (** src/vec_set.rs:135-137 *)
  Definition vset_is_subset (a b : list T) : res bool :=
    rmap negb (bs_merge strat (SetDiffOpt bs_msm) a b).
  (** src/vec_set.rs:142-144 *)
  Definition vset_is_superset (a b : list T) : res bool :=
    rmap negb (bs_merge strat (SetDiffOpt bs_msm) b a).

  (** ** Pure set operations; SmallVecMergeState with a cloned and CloneConverter for b.
      The trait methods (src/vec_set.rs:146-192), the inherent methods (720-754) and the
      operators on references (382-408) have the same body. *)
  (** src/vec_set.rs:146-156, 720-727, 390-395 *)
  Definition vset_union (a b : list T) : res (list T) :=
    vs_merge strat (SetUnionOp (vs_msm CloneConverter CloneConverter)) a b.
  (** src/vec_set.rs:158-168, 729-736, 382-388 *)
  Definition vset_intersection (a b : list T) : res (list T) :=
    vs_merge strat (SetIntersectionOp (vs_msm CloneConverter CloneConverter)) a b.
  (** src/vec_set.rs:170-180, 738-745, 397-402 *)
  Definition vset_symmetric_difference (a b : list T) : res (list T) :=
    vs_merge strat (SetXorOp (vs_msm CloneConverter CloneConverter)) a b.
  (** src/vec_set.rs:182-192, 747-754, 404-409 *)
  Definition vset_difference (a b : list T) : res (list T) :=
    vs_merge strat (SetDiffOpt (vs_msm CloneConverter CloneConverter)) a b.

  (** ** Constructors *)
  (** src/vec_set.rs:263-267 *)
  Definition vset_single (x : T) : list T := [x].
  (** src/vec_set.rs:269-271 (and the derived Default, 107) *)
  Definition vset_empty : list T := [].
  (** src/vec_set.rs:344-349, 473-477: [sort], [dedup] (PartialEq is cmp = Equal) *)
  Definition vset_from_vec (v : list T) : list T := dedup (eqb_of cmp) (sort_by cmp v).
  (** FromIterator: src/vec_set.rs:494-500 *)
  Definition vset_from_iter (l : list T) : option (list T) := sort_dedup_by cmp l KeepFirst.
  (** From<BTreeSet>: src/vec_set.rs:480-484; a BTreeSet is the list of its elements in order *)
  Definition vset_from_btreeset (l : list T) : list T := l.

  (** ** Single element updates *)
  (** src/vec_set.rs:306-317 *)
  Definition vset_insert (l : list T) (that : T) : res (list T * bool) :=
    match bsearch (probe that) l with
    | BsOk index => Ok (set_at index that l, false)
    | BsErr index => Ok (insert_at index that l, true)
    | BsPanic => Panicked
    | BsNoFuel => OutOfFuel
    end.
  (** src/vec_set.rs:323-330 *)
  Definition vset_remove (l : list T) (that : T) : res (list T * bool) :=
    match bsearch (probe that) l with
    | BsOk index => Ok (remove_at index l, true)
    | BsErr _ => Ok (l, false)
    | BsPanic => Panicked
    | BsNoFuel => OutOfFuel
    end.
  (** src/vec_set.rs:333-335; the closure is a pure predicate *)
  Definition vset_retain (l : list T) (f : T -> bool) : list T := filter f l.

  (** ** Assigning operators, rhs by value (src/vec_set.rs:411-413, 430-434, 442-446, 456-460).
      Returns the new set and (ghost) the elements dropped from a and from b. *)
  Definition vset_bitand_assign_full (a b : list T) := ip_merge strat (SetIntersectionOp (ip_msm IdConverter)) a b.
  Definition vset_bitor_assign_full (a b : list T) := ip_merge strat (SetUnionOp (ip_msm IdConverter)) a b.
  Definition vset_bitxor_assign_full (a b : list T) := ip_merge strat (SetXorOp (ip_msm IdConverter)) a b.
  Definition vset_sub_assign_full (a b : list T) := ip_merge strat (SetDiffOpt (ip_msm IdConverter)) a b.

  Definition kept (d : done (list T * list T * list T)) : done (list T) :=
    match d with
    | Done (x, _, _) => Done x
    | Unwound (x, _, _) => Unwound x
    | DoneNoFuel => DoneNoFuel
    end.
  (** src/vec_set.rs:411-413 *)
  Definition vset_bitand_assign (a b : list T) := kept (vset_bitand_assign_full a b).
  (** src/vec_set.rs:430-432 *)
  Definition vset_bitor_assign (a b : list T) := kept (vset_bitor_assign_full a b).
  (** src/vec_set.rs:442-444 *)
  Definition vset_bitxor_assign (a b : list T) := kept (vset_bitxor_assign_full a b).
  (** src/vec_set.rs:456-458 *)
  Definition vset_sub_assign (a b : list T) := kept (vset_sub_assign_full a b).

  (** rhs by reference: src/vec_set.rs:419-426 *)
  Definition vset_bitand_assign_ref (a b : list T) : done (list T) :=
    ipr_merge strat (SetIntersectionOp (ipr_msm CloneConverter)) a b.
  (** src/vec_set.rs:436-438 *)
  Definition vset_bitor_assign_ref (a b : list T) : done (list T) :=
    ipr_merge strat (SetUnionOp (ipr_msm CloneConverter)) a b.
  (** src/vec_set.rs:450-452 *)
  Definition vset_bitxor_assign_ref (a b : list T) : done (list T) :=
    ipr_merge strat (SetXorOp (ipr_msm CloneConverter)) a b.
  (** src/vec_set.rs:462-464 *)
  Definition vset_sub_assign_ref (a b : list T) : done (list T) :=
    ipr_merge strat (SetDiffOpt (ipr_msm CloneConverter)) a b.

  (** ** Named in-place methods *)
  (** src/vec_set.rs:756-758 *)
  Definition vset_union_with (a b : list T) : done (list T) :=
    ipr_merge strat (SetUnionOp (ipr_msm NoConverter)) a b.
  (** src/vec_set.rs:760-767 *)
  Definition vset_intersection_with (a b : list T) : done (list T) :=
    ipr_merge strat (SetIntersectionOp (ipr_msm NoConverter)) a b.
  (** src/vec_set.rs:769-776: uses SetIntersectionOp, as in the source *)
  Definition vset_xor_with (a b : list T) : done (list T) :=
    ipr_merge strat (SetIntersectionOp (ipr_msm NoConverter)) a b.
  (** src/vec_set.rs:778-780 *)
  Definition vset_difference_with (a b : list T) : done (list T) :=
    ipr_merge strat (SetDiffOpt (ipr_msm NoConverter)) a b.

  (** Extend: src/vec_set.rs:502-506. [None]: the collecting phase panicked. *)
  Definition vset_extend (l : list T) (items : list T) : option (done (list T)) :=
    match vset_from_iter items with
    | Some s => Some (vset_bitor_assign l s)
    | None => None
    end.

  (** ** Equality, order, hash *)
  (** PartialEq: src/vec_set.rs:237-241: slice equality: same length and equal elements *)
  Fixpoint vset_eqb (a b : list T) : bool :=
    match a, b with
    | [], [] => true
    | x :: a', y :: b' => eqb_of cmp x y && vset_eqb a' b'
    | _, _ => false
    end.
  (** Ord: src/vec_set.rs:251-255: lexicographic order of slices *)
  Fixpoint vset_cmp (a b : list T) : comparison :=
    match a, b with
    | [], [] => Eq
    | [], _ :: _ => Lt
    | _ :: _, [] => Gt
    | x :: a', y :: b' => match cmp x y with Eq => vset_cmp a' b' | c => c end
    end.
  (** Hash: src/vec_set.rs:231-235: SmallVec hashes as a slice: the length, then every element.
      The data fed to the hasher, for an arbitrary element hash [h] and length encoding [hl]. *)
  Definition vset_hash {H} (hl : nat -> list H) (h : T -> list H) (l : list T) : list H :=
    hl (length l) ++ flat_map h l.

  (** ** serde: src/vec_set.rs:568-624. The serialized form is the sequence of elements. *)
  Definition vset_serialize (l : list T) : list T := l.
  (** visit_seq: src/vec_set.rs:610-623 *)
  Definition vset_visit_seq (seq : list T) : list T := dedup (eqb_of cmp) (sort_by cmp seq).

  (** ** rkyv: the order check of src/vec_set.rs:709:
      [values.iter().zip(values.iter().skip(1)).all(|(a, b)| a < b)] *)
  Definition vset_check_order (l : list T) : bool :=
    forallb (fun p => match cmp (fst p) (snd p) with Lt => true | _ => false end)
            (combine l (skipn 1 l)).
  (** check_bytes: src/vec_set.rs:702-713; [valid] says whether the element bytes are valid *)
  Inductive check_result := CheckOk | ValueCheckError | OrderCheckError.
  Definition vset_check_bytes (valid : T -> bool) (l : list T) : check_result :=
    if forallb valid l then (if vset_check_order l then CheckOk else OrderCheckError)
    else ValueCheckError.

  (** ** rkyv: archiving writes the archived form of each element in order
      ([serialize_from_slice] / [resolve_from_slice], src/vec_set.rs:640-655, for an element archived
      by [ar]); deserializing maps each archived element back, without sorting (src/vec_set.rs:667-671).
      The byte layout is rkyv's and not modelled. *)
  Definition vset_archive {A} (ar : T -> A) (l : list T) : list A := map ar l.
  Definition vset_unarchive {A} (de : A -> T) (l : list A) : list T := map de l.

  (** ** vecset! macro: src/macros.rs:3-12: Default, then insert each element *)
  Fixpoint vset_insert_all (l : list T) (xs : list T) : res (list T) :=
    match xs with
    | [] => Ok l
    | x :: xs' => rbind (vset_insert l x) (fun r => vset_insert_all (fst r) xs')
    end.
  Definition vecset_macro (xs : list T) : res (list T) := vset_insert_all [] xs.
End VecSet.
