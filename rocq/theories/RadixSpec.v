(** What a radix tree means: the pairs it holds, the mapping it denotes, its well-formedness.
    Uses only the tree datatype of RadixModel.v, none of its functions except the field accessors
    and [t_is_empty]. *)
From Verif Require Export RadixModel.

Section RadixSpec.
  Context {K : Type} (kcmp : K -> K -> comparison).

  (** [has t k v]: the tree holds the pair (k,v): k is the concatenation of the prefixes on a path
      from the root to a node with value v. *)
  Inductive has {V} : rtree K V -> list K -> V -> Prop :=
  | has_here : forall p v cs, has (Node p (Some v) cs) p v
  | has_child : forall p ov cs c k v, In c cs -> has c k v -> has (Node p ov cs) (p ++ k) v.

  (** what a lookup of [k] must answer *)
  Definition holds {V} (t : rtree K V) (k : list K) (o : option V) : Prop :=
    match o with Some v => has t k v | None => forall v, ~ has t k v end.

  (** [at_node t k ov]: some path from the root spells exactly [k] and ends in a node with the
      optional value [ov] *)
  Inductive at_node {V} : rtree K V -> list K -> option V -> Prop :=
  | at_here : forall p ov cs, at_node (Node p ov cs) p ov
  | at_child : forall p ov cs c k o, In c cs -> at_node c k o -> at_node (Node p ov cs) (p ++ k) o.

  (** the rest of [k] after the prefix [p] *)
  Fixpoint strip (p k : list K) : option (list K) :=
    match p, k with
    | [], _ => Some k
    | x :: p', y :: k' => match kcmp x y with Eq => strip p' k' | _ => None end
    | _ :: _, [] => None
    end.

  (** the mapping denoted by a tree, and by a list of child trees (theorem [lk_has] relates it to
      [has]) *)
  Fixpoint lk {V} (t : rtree K V) (k : list K) : option V :=
    let 'Node p ov cs := t in
    match strip p k with
    | None => None
    | Some [] => ov
    | Some k' => fold_right (fun c acc => match lk c k' with Some v => Some v | None => acc end) None cs
    end.

  (** the first key component of a is smaller than that of b *)
  Definition head_lt {V} (a b : rtree K V) : Prop :=
    match t_prefix a, t_prefix b with x :: _, y :: _ => kcmp x y = Lt | _, _ => False end.

  (** Well ordered ([canon = false]): at every node the children have non-empty prefixes, strictly
      increasing in their first component.
      Canonical ([canon = true]): moreover the empty tree has an empty prefix, no child is empty,
      and no node without value has exactly one child. *)
  Fixpoint wf {V} (canon : bool) (t : rtree K V) : Prop :=
    let 'Node p ov cs := t in
    Forall (fun c => t_prefix c <> []) cs /\
    StronglySorted head_lt cs /\
    (canon = true -> (ov = None -> cs = [] -> p = []) /\
                     (ov = None -> length cs <> 1) /\
                     Forall (fun c => t_is_empty c = false) cs) /\
    fold_right (fun c P => wf canon c /\ P) True cs.

  Definition WO {V} (t : rtree K V) : Prop := wf false t.
  Definition Canon {V} (t : rtree K V) : Prop := wf true t.

  (** lexicographic order on keys *)
  Fixpoint lex (a b : list K) : comparison :=
    match a, b with
    | [], [] => Eq
    | [], _ :: _ => Lt
    | _ :: _, [] => Gt
    | x :: a', y :: b' => match kcmp x y with Eq => lex a' b' | c => c end
    end.

  (** some prefix of [k] is a key of the tree with a value accepted by [f] *)
  Definition covered {W} (f : W -> bool) (t : rtree K W) (k : list K) : Prop :=
    exists k1 k2 w, k = k1 ++ k2 /\ has t k1 w /\ f w = true.
End RadixSpec.
