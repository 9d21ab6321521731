(** Model of smaller parts of the API: lookups through a borrowed form of the key, the Bounded instance of
    TotalVecMap, the iterators VecSetIter / VecMapIter, the conversions out of a VecSet / VecMap, and
    VecMap::map_values with a closure that has effects and may panic. *)
From Verif Require Export TotalModel.

(** ** Lookups through [K: Borrow<Q>] *)
Section Borrowed.
  Context {K Q V : Type} (borrow : K -> Q) (qcmp : Q -> Q -> comparison).
  (** the comparator [|p| p.0.borrow().cmp(key)]: src/vec_map.rs:54, 764 *)
  Definition qprobe (key : Q) (p : K * V) : option comparison := Some (qcmp (borrow (fst p)) key).
  (** AbstractVecMap::get: src/vec_map.rs:47-57 *)
  Definition vmap_get_q (m : list (K * V)) (key : Q) : option V :=
    match bsearch (qprobe key) m with
    | BsOk i => option_map snd (nth_error m i)
    | _ => None
    end.
  (** get_mut: src/vec_map.rs:758-768; see [vmap_get_mut] *)
  Definition vmap_get_mut_q (m : list (K * V)) (key : Q) (g : V -> V) : list (K * V) * bool :=
    match bsearch (qprobe key) m with
    | BsOk i => match nth_error m i with
                | Some (k, v) => (set_at i (k, g v) m, true)
                | None => (m, false)
                end
    | _ => (m, false)
    end.
  (** Index<&Q> for TotalVecMap: src/total_vec_map.rs:271-273 *)
  Definition tmap_index_q (m : tmap K V) (key : Q) : V :=
    match vmap_get_q (tm_map m) key with Some v => v | None => tm_default m end.
End Borrowed.

(** ** Bounded for TotalVecMap *)
(** min_value: src/total_vec_map.rs:135-137; [vmin] is V::min_value() *)
Definition tmap_min_value {K V} (vmin : V) : tmap K V := tmap_constant vmin.
(** max_value: src/total_vec_map.rs:138-140 *)
Definition tmap_max_value {K V} (vmax : V) : tmap K V := tmap_constant vmax.

(** ** Iterators *)
(** VecSetIter and VecMapIter forward next and size_hint to the iterator they wrap, core::slice::Iter or
    smallvec::IntoIter: src/iterators.rs:14-24, 39-49. The state is the elements still to come. *)
Section Iter.
  Context {T : Type}.
  (** iter, into_iter: src/vec_set.rs:195-197, 273-275, 352-368; src/vec_map.rs:42-44, 179-193 *)
  Definition it_new (l : list T) : list T := l.
  Definition it_next (s : list T) : list T * option T :=
    match s with [] => ([], None) | x :: s' => (s', Some x) end.
  Definition it_size_hint (s : list T) : nat * option nat := (length s, Some (length s)).
  (** a caller that calls next and size_hint in any order *)
  Inductive icall := INext | ISizeHint.
  Inductive ians := AItem (o : option T) | AHint (lo : nat) (hi : option nat).
  Definition it_call (s : list T) (c : icall) : list T * ians :=
    match c with
    | INext => let (s', o) := it_next s in (s', AItem o)
    | ISizeHint => let (lo, hi) := it_size_hint s in (s, AHint lo hi)
    end.
  Fixpoint it_run (s : list T) (cs : list icall) : list T * list ians :=
    match cs with
    | [] => (s, [])
    | c :: cs' => let (s1, a) := it_call s c in let (s2, l) := it_run s1 cs' in (s2, a :: l)
    end.
  (** [for x in it]: everything next yields until it says None; [fuel] bounds the number of calls *)
  Fixpoint it_drain (fuel : nat) (s : list T) : option (list T) :=
    match fuel with
    | 0 => None
    | S fuel' => match it_next s with
                 | (_, None) => Some []
                 | (s', Some x) => option_map (cons x) (it_drain fuel' s')
                 end
    end.
End Iter.
Arguments ians : clear implicits.

(** ** Conversions *)
(** From<VecSet> for Vec, for SmallVec, into_inner, AsRef: src/vec_set.rs:293-295, 370-380, 467-471 *)
Definition vset_into_vec {T} (l : list T) : list T := l.
(** From<VecMap> for SmallVec, into_inner, AsRef: src/vec_map.rs:261-271, 652-654 *)
Definition vmap_into_inner {K V} (m : list (K * V)) : list (K * V) := m.

(** ** map_values with effects: src/vec_map.rs:608-615 *)
(** [self.0.into_iter().map(|entry| (entry.0, f(entry.1))).collect()]: the entries are consumed one after
    the other. When the closure panics, the entries produced so far and the ones not reached are dropped
    (returned here), the value being mapped and its key too. *)
Fixpoint vmap_map_values_eff {K V R E} (f : clos E V R) (m : list (K * V)) (e : E)
  : done (list (K * R) * list (K * V) * E) :=
  match m with
  | [] => Done ([], [], e)
  | (k, v) :: m' =>
      match f e v with
      | (e1, Throw) => Unwound ([], m, e1)
      | (e1, Ret r) =>
          match vmap_map_values_eff f m' e1 with
          | Done (rs, rest, e2) => Done ((k, r) :: rs, rest, e2)
          | Unwound (rs, rest, e2) => Unwound ((k, r) :: rs, rest, e2)
          | DoneNoFuel => DoneNoFuel
          end
      end
  end.
