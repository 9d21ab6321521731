(** Model of VecSet::retain and VecMap::retain (src/vec_set.rs:333-335, src/vec_map.rs:643-645) with a
    predicate that has effects and may panic. Both forward to smallvec's [SmallVec::retain] (external
    crate, 1.4 and later), modelled from its source:
    [let mut del = 0; for i in 0..len { if !f(&mut self[i]) { del += 1 } else if del > 0
     { self.swap(i - del, i) } } self.truncate(len - del)]. *)
From Verif Require Export VecMapModel.

Section Retain.
  Context {T E : Type} (f : clos E T bool).
  (** the loop, [n] more rounds from index [i], with [del] elements rejected so far *)
  Fixpoint retain_loop (n i del : nat) (l : list T) (e : E) : done (list T * E) :=
    match n with
    | 0 => Done (firstn (length l - del) l, e)
    | S n' =>
        match nth_error l i with
        | None => Unwound (l, e)
        | Some x =>
            let (e', r) := f e x in
            match r with
            | Throw => Unwound (l, e')
            | Ret false => retain_loop n' (S i) (S del) l e'
            | Ret true =>
                if 0 <? del
                then match swap_at (i - del) i l with
                     | Some l' => retain_loop n' (S i) del l' e'
                     | None => Unwound (l, e')
                     end
                else retain_loop n' (S i) del l e'
            end
        end
    end.
  (** src/vec_set.rs:333-335 *)
  Definition wset_retain (l : list T) (e : E) : done (list T * E) := retain_loop (length l) 0 0 l e.
End Retain.
(** src/vec_map.rs:643-645: the same on entries *)
Definition wmap_retain {K V E} (f : clos E (K * V) bool) (m : list (K * V)) (e : E) := wset_retain f m e.
