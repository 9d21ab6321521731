(** What the combinations of radix trees that build a new tree do, in terms of the listings of the
    operands, when the closures have effects and may panic. Independent of the model's functions: it
    uses the tree datatype, the lexicographic order and the type of closures only. *)
From Verif Require Export RadixEffSpec.

Section PureEffSpec.
  Context {K : Type} (kcmp : K -> K -> comparison) {E : Type}.
  (** put these entries in front of what the rest gives *)
  Definition prepending {V} (l : list (list K * V)) (r : E * cres (list (list K * V))) : E * cres (list (list K * V)) :=
    match r with (e, Ret m) => (e, Ret (l ++ m)) | (e, Throw) => (e, Throw) end.

  (** Walk two listings in key order: an entry of the left alone is kept iff [ka]; one of the right
      alone is turned into an entry by [hb]; for a key in both the closure is called, in the world the
      previous calls left, and its answer is the value, or there is none. A panic ends the walk. *)
  Section Pairs.
    Context {V W : Type} (ka : bool) (hb : W -> option V) (f : clos E (V * W) (option V)).
    Fixpoint pairs (a : list (list K * V)) : list (list K * W) -> E -> E * cres (list (list K * V)) :=
      fix aux (b : list (list K * W)) (e : E) :=
        match a, b with
        | [], [] => (e, Ret [])
        | [], y :: b' => prepending (match hb (snd y) with Some v => [(fst y, v)] | None => [] end) (aux b' e)
        | x :: a', [] => prepending (if ka then [x] else []) (pairs a' [] e)
        | x :: a', y :: b' =>
            match lex kcmp (fst x) (fst y) with
            | Lt => prepending (if ka then [x] else []) (pairs a' b e)
            | Gt => prepending (match hb (snd y) with Some v => [(fst y, v)] | None => [] end) (aux b' e)
            | Eq => match f e (snd x, snd y) with
                    | (e', Throw) => (e', Throw)
                    | (e', Ret (Some v)) => prepending [(fst x, v)] (pairs a' b' e')
                    | (e', Ret None) => pairs a' b' e'
                    end
            end
        end.
  End Pairs.

  (** the nodes of a tree, from the root down and from left to right: the key spelled on the way and
      the value, if any *)
  Fixpoint nodes {W} (t : rtree K W) : list (list K * option W) :=
    let 'Node p ow cs := t in map (under p) (([], ow) :: flat_map nodes cs).
  (** two keys of the tree go on differently after [k] *)
  Definition forks {W} (t : rtree K W) (k : list K) : Prop :=
    exists x y r s v w, x <> y /\ has t (k ++ x :: r) v /\ has t (k ++ y :: s) w.
End PureEffSpec.
