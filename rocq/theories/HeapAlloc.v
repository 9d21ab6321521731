(** Specification of allocation bounds: what counts as an allocation, and the size that bounds it. *)
From Verif Require Export HeapApi.

Section Alloc.
  Context {K V : Type}.
  (** Vectors of nodes allocated between two states ([Arc::new]; addresses are never reused). *)
  Definition allocated (st st' : state K V) : nat := h_next (fst st') - h_next (fst st).
  (** vectors that a copy of a tree needs: one for every node with children (all others share one empty vector) *)
  Fixpoint vectors (t : rtree K V) : nat :=
    let 'Node _ _ c := t in match c with [] => 0 | _ => 1 end + list_sum (map vectors c).
  (** A node with prefix p at the root of a subtree counts (v + 1) |p| + 1, where v is the number of vectors of the subtree: it is
      copied at most once for every component of p. For a single leaf with key k this is |k| + 1. *)
  Fixpoint copies (t : rtree K V) : nat :=
    let 'Node p _ c := t in
    S (match c with [] => 0 | _ => 1 end + list_sum (map vectors c)) * length p + S (list_sum (map copies c)).
  (** the borrowed argument of an in-place operation *)
  Definition argument (o : api K V) : option nat :=
    match o with
    | AOuterWith _ _ b | AInnerWith _ _ b | ALeftWith _ _ b | ARemoveWith _ _ b | ARetainWith _ _ b => Some b
    | _ => None
    end.
  (** calls that only read, or hand over what is already there: Default, clone, drop, move, single, prepend, filter_prefix, get, iter,
      intersects, is_subset *)
  Definition cheap (o : api K V) : bool :=
    match o with
    | ABase (OEmpty _) | ABase (OClone _ _) | ABase (ODrop _) | ABase (OMove _ _) => true
    | ASingle _ _ _ | APrepend _ _ | AFilter _ _ _ | AGet _ _ | AIter _ | AIntersects _ _ | AIsSubset _ _ => true
    | _ => false
    end.
End Alloc.
