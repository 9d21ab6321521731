(** What the in-place combinations of radix trees do, in terms of the listings of their entries, when
    the closures have effects and may panic. Independent of the model's functions: it uses the tree
    datatype, the lexicographic order and the type of closures only. *)
From Verif Require Export RadixSpec RadixEffModel.

Section EffSpec.
  Context {K : Type} (kcmp : K -> K -> comparison) {E : Type}.
  Definition under {V} (p : list K) (kv : list K * V) : list K * V := (p ++ fst kv, snd kv).
  (** the entries of a tree, listed from the root down and from left to right *)
  Fixpoint listing {V} (t : rtree K V) : list (list K * V) :=
    let 'Node p ov cs := t in
    map (under p) (match ov with Some v => [([], v)] | None => [] end ++ flat_map listing cs).

  (** How a run ends: [None]: it returns; [Some (k, v)]: the closure panicked when it was called for
      the key k, after it had changed the value to v *)
  Definition ending (V : Type) := option (list K * V).

  (** The join of two listings: walk both in key order; an entry of the left alone is kept iff [ka];
      one of the right alone is turned into an entry by [hb]; for a key in both the closure is called
      and its answer decides. Result: the entries produced so far, the world, and how it ended. *)
  Section Join.
    Context {V W : Type} (ka : bool) (hb : W -> option V) (f : mclos E V W).
    Definition emit (l : list (list K * V)) (r : list (list K * V) * E * ending V) : list (list K * V) * E * ending V :=
      let '(o, e, p) := r in (l ++ o, e, p).
    Definition left_only (x : list K * V) : list (list K * V) := if ka then [x] else [].
    Definition right_only (y : list K * W) : list (list K * V) :=
      match hb (snd y) with Some v => [(fst y, v)] | None => [] end.
    Fixpoint join (a : list (list K * V)) : list (list K * W) -> E -> list (list K * V) * E * ending V :=
      fix aux (b : list (list K * W)) (e : E) :=
        match a, b with
        | [], [] => ([], e, None)
        | [], y :: b' => emit (right_only y) (aux b' e)
        | x :: a', [] => emit (left_only x) (join a' [] e)
        | x :: a', y :: b' =>
            match lex kcmp (fst x) (fst y) with
            | Lt => emit (left_only x) (join a' b e)
            | Gt => emit (right_only y) (aux b' e)
            | Eq => let '(e', v, r) := f e (snd x) (snd y) in
                    match r with
                    | Throw => ([], e', Some (fst x, v))
                    | Ret true => emit [(fst x, v)] (join a' b' e')
                    | Ret false => join a' b' e'
                    end
            end
        end.
  End Join.

  (** the key [k] extends [p] *)
  Definition extends (p k : list K) : bool := match strip kcmp p k with Some _ => true | None => false end.

  (** What is left in the tree after a panic for the key [k], when the two roots have the longest
      common prefix [r]: [out] are the entries produced before the panic. If [k] is [r] itself then
      the tree is as before, up to the value for [k]; otherwise the tree holds the entries produced so
      far except those in the same child of the root as [k]. *)
  Definition remains {V} (r : list K) (self : rtree K V) (out : list (list K * V)) (k : list K) (v : V)
    (t : rtree K V) : Prop :=
    (k = r /\ out = [] /\ exists v0 l, listing self = (k, v0) :: l /\ listing t = (k, v) :: l) \/
    (exists c s, k = r ++ c :: s /\
       listing t = filter (fun x => negb (extends (r ++ [c]) (fst x))) out).

  (** the longest common prefix of two keys *)
  Fixpoint lcp (a b : list K) : list K :=
    match a, b with
    | x :: a', y :: b' => match kcmp x y with Eq => x :: lcp a' b' | _ => [] end
    | _, _ => []
    end.

  (** Which keys of [b] a predicate on the values of [b] accepts, when it is asked about a key iff an
      entry of [a] extends it and no accepted key is a prefix of it. Result: the accepted keys, the
      world, and the key for which the predicate panicked, if it did. *)
  Section Asks.
    Context {V W : Type} (f : clos E W bool).
    Fixpoint asks (a : list (list K * V)) (b : list (list K * W)) (e : E) : list (list K) * E * option (list K) :=
      match b with
      | [] => ([], e, None)
      | (k, w) :: b' =>
          if existsb (fun x => extends k (fst x)) a then
            let (e', r) := f e w in
            match r with
            | Throw => ([], e', Some k)
            | Ret true => let '(h, e'', p) := asks (filter (fun x => negb (extends k (fst x))) a) b' e' in (k :: h, e'', p)
            | Ret false => asks a b' e'
            end
          else asks a b' e
      end.
  End Asks.
  (** [k] has one of the accepted keys [h] as a prefix *)
  Definition under_some (h : list (list K)) (k : list K) : bool := existsb (fun p => extends p k) h.
  (** what remove_prefix ([rm = true]) and retain_prefix ([rm = false]) keep *)
  Definition selected {V} (rm : bool) (h : list (list K)) (x : list K * V) : bool := xorb rm (under_some h (fst x)).
  (** What is left after a panic for the key [k], when the two roots have the longest common prefix
      [r]: if [k] is [r] then everything is as before; otherwise the entries selected before [k],
      except those in the same child of the root as [k]. *)
  Definition remains_prefix {V} (rm : bool) (r : list K) (self : rtree K V) (h : list (list K)) (k : list K) (t : rtree K V) : Prop :=
    (k = r /\ t = self) \/
    (exists c s, k = r ++ c :: s /\
       listing t = filter (fun x => selected rm h x && (match lex kcmp (fst x) k with Lt => true | _ => false end)
                                    && negb (extends (r ++ [c]) (fst x))) (listing self)).
End EffSpec.
