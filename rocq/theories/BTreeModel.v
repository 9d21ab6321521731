(** Model of /repo/src/btree_map.rs: joins of (archived) BTreeMaps.
    std's BTreeMap and rkyv's ArchivedBTreeMap are external: a map is the list of its entries in
    iteration order, strictly increasing in the key. Closures are functions; a closure that takes
    [&mut V] is a function that also returns the new value. *)
From Verif Require Export VecMapModel.

Section BTree.
  Context {K : Type} (kcmp : K -> K -> comparison).

  (** BTreeMap::get / ArchivedBTreeMap::get, src/btree_map.rs:33-39, 47-53 *)
  Fixpoint btm_get {V} (m : list (K * V)) (k : K) : option V :=
    match m with
    | [] => None
    | (k', v) :: m' => match kcmp k k' with Eq => Some v | _ => btm_get m' k end
    end.
  (** BTreeMap::insert (std): an equal key stays in place, its value is replaced *)
  Fixpoint btm_insert {V} (m : list (K * V)) (k : K) (v : V) : list (K * V) :=
    match m with
    | [] => [(k, v)]
    | (k', v') :: m' =>
        match kcmp k k' with
        | Eq => (k', v) :: m'
        | Lt => (k, v) :: (k', v') :: m'
        | Gt => (k', v') :: btm_insert m' k v
        end
    end.
  (** BTreeMap::remove (std) *)
  Fixpoint btm_remove {V} (m : list (K * V)) (k : K) : list (K * V) :=
    match m with
    | [] => []
    | (k', v') :: m' => match kcmp k k' with Eq => m' | _ => (k', v') :: btm_remove m' k end
    end.
  (** writing through BTreeMap::get_mut (std) *)
  Fixpoint btm_set {V} (m : list (K * V)) (k : K) (v : V) : list (K * V) :=
    match m with
    | [] => []
    | (k', v') :: m' => match kcmp k k' with Eq => (k', v) :: m' | _ => (k', v') :: btm_set m' k v end
    end.
  (** BTreeMap::retain (std) with a closure that may write the value *)
  Fixpoint btm_retain {V} (m : list (K * V)) (f : K -> V -> V * bool) : list (K * V) :=
    match m with
    | [] => []
    | (k, v) :: m' => let '(v', keep) := f k v in if keep then (k, v') :: btm_retain m' f else btm_retain m' f
    end.

  (** ** AbstractBTreeMap *)
  Section Joins.
    Context {V W R : Type}.
    (** [if let Some(r) = .. { res.insert(k.clone(), r); }] *)
    Definition ins_some (res : list (K * R)) (k : K) (r : option R) : list (K * R) :=
      match r with Some r => btm_insert res k r | None => res end.
    (** src/btree_map.rs:63-87 *)
    Definition btm_outer_join (self : list (K * V)) (that : list (K * W)) (f : ojarg K V W -> option R)
      : list (K * R) :=
      let res := fold_left (fun res '(k, v) =>
        ins_some res k (f (match btm_get that k with Some w => OJBoth k v w | None => OJLeft k v end))) self [] in
      fold_left (fun res '(k, w) =>
        match btm_get self k with
        | None => ins_some res k (f (OJRight k w))
        | Some _ => res
        end) that res.
    (** src/btree_map.rs:89-102 *)
    Definition btm_left_join (self : list (K * V)) (that : list (K * W)) (f : K -> V -> option W -> option R) :=
      fold_left (fun res '(k, v) => ins_some res k (f k v (btm_get that k))) self [].
    (** src/btree_map.rs:104-117 *)
    Definition btm_right_join (self : list (K * V)) (that : list (K * W)) (f : K -> option V -> W -> option R) :=
      fold_left (fun res '(k, w) => ins_some res k (f k (btm_get self k) w)) that [].
    (** src/btree_map.rs:119-145; [ha], [hb] are the lower size hints of the two iterators *)
    Definition btm_inner_join_hint (ha hb : nat) (self : list (K * V)) (that : list (K * W)) (f : K -> V -> W -> option R) :=
      if ha <? hb then
        fold_left (fun res '(k, v) =>
          match btm_get that k with Some w => ins_some res k (f k v w) | None => res end) self []
      else
        fold_left (fun res '(k, w) =>
          match btm_get self k with Some v => ins_some res k (f k v w) | None => res end) that [].
    (** AbstractBTreeMapIter does not define size_hint (src/btree_map.rs:17-26), so it is the default
        of Iterator: (0, None), whatever the map *)
    Definition abstract_size_hint {X} (_ : list (K * X)) : nat := 0.
    Definition btm_inner_join (self : list (K * V)) (that : list (K * W)) (f : K -> V -> W -> option R) :=
      btm_inner_join_hint (abstract_size_hint self) (abstract_size_hint that) self that f.
  End Joins.

  (** ** InPlaceRelationalOps *)
  Section InPlace.
    Context {V W : Type}.
    (** src/btree_map.rs:172-178; unwrap_or_default of bool is false (the value is then dropped) *)
    Definition btm_inner_join_with (self : list (K * V)) (that : list (K * W)) (f : K -> V -> W -> V * bool) :=
      btm_retain self (fun k v => match btm_get that k with Some w => f k v w | None => (v, false) end).
    (** src/btree_map.rs:180-186 *)
    Definition btm_left_join_with (self : list (K * V)) (that : list (K * W)) (f : K -> V -> option W -> V * bool) :=
      btm_retain self (fun k v => f k v (btm_get that k)).
    (** src/btree_map.rs:188-198. The closure takes Option<&mut V>: [fs] on Some, [fn] on None *)
    Definition btm_right_join_with (self : list (K * V)) (that : list (K * W))
      (fs : K -> V -> W -> V * bool) (fn : K -> W -> bool) : list (K * V) :=
      fold_left (fun m '(k, w) =>
        match btm_get m k with
        | Some v => let '(v', keep) := fs k v w in let m1 := btm_set m k v' in if keep then m1 else btm_remove m1 k
        | None => if fn k w then m else btm_remove m k
        end) that self.
    (** src/btree_map.rs:200-223 *)
    Definition btm_outer_join_with (self : list (K * V)) (that : list (K * W))
      (l : K -> V -> option W -> V * bool) (r : K -> W -> option V) : list (K * V) :=
      let m := fold_left (fun m '(k, w) =>
        match btm_get m k with
        | Some v => let '(v', keep) := l k v (Some w) in let m1 := btm_set m k v' in if keep then m1 else btm_remove m1 k
        | None => match r k w with Some v => btm_insert m k v | None => m end
        end) that self in
      btm_retain m (fun k v => match btm_get that k with Some _ => (v, true) | None => l k v None end).
  End InPlace.
End BTree.
