(** The joins of BTreeMaps (src/btree_map.rs) once more, with closures that have effects and may
    panic. A closure that takes [&mut V] leaves a new value behind its reference also when it panics.
    [Done (m, e)]: returned; [Unwound (m, e)]: the call panicked with the closure's environment in
    state [e]; for the in-place joins [m] is what the map is then, for the pure joins it is the
    partial result, which the unwinding drops. *)
From Verif Require Export BTreeModel.

(** [Fn(&K, &mut V, X) -> bool] *)
Definition kmclos (E K V X : Type) := E -> K -> V -> X -> E * V * cres bool.

Section BTreeEff.
  Context {K E : Type} (kcmp : K -> K -> comparison).

  (** [for x in l { .. }] whose body may panic *)
  Fixpoint eloop {S X} (body : S -> E -> X -> done (S * E)) (l : list X) (s : S) (e : E) : done (S * E) :=
    match l with
    | [] => Done (s, e)
    | x :: l' => match body s e x with Done (s', e') => eloop body l' s' e' | r => r end
    end.
  (** BTreeMap::retain (std): the entries are visited in order and removed as they are rejected; when
      the closure panics the entry it was called for and all later ones stay *)
  Fixpoint ebtm_retain {V} (m : list (K * V)) (f : E -> K -> V -> E * V * cres bool) (e : E)
    : done (list (K * V) * E) :=
    match m with
    | [] => Done ([], e)
    | (k, v) :: m' =>
        let '(e', v', r) := f e k v in
        match r with
        | Throw => Unwound ((k, v') :: m', e')
        | Ret keep =>
            match ebtm_retain m' f e' with
            | Done (m'', e'') => Done (if keep then (k, v') :: m'' else m'', e'')
            | Unwound (m'', e'') => Unwound (if keep then (k, v') :: m'' else m'', e'')
            | DoneNoFuel => DoneNoFuel
            end
        end
    end.

  Section Joins.
    Context {V W R : Type}.
    (** [if let Some(r) = f(arg) { res.insert(k.clone(), r); }] *)
    Definition ecall_ins {X} (f : clos E X (option R)) (x : X) (k : K) (res : list (K * R)) (e : E)
      : done (list (K * R) * E) :=
      match f e x with
      | (e', Ret (Some r)) => Done (btm_insert kcmp res k r, e')
      | (e', Ret None) => Done (res, e')
      | (e', Throw) => Unwound (res, e')
      end.
    (** src/btree_map.rs:63-87 *)
    Definition ebtm_outer_join (self : list (K * V)) (that : list (K * W)) (f : clos E (ojarg K V W) (option R)) (e : E)
      : done (list (K * R) * E) :=
      match eloop (fun res e '(k, v) =>
              ecall_ins f (match btm_get kcmp that k with Some w => OJBoth k v w | None => OJLeft k v end) k res e)
              self [] e with
      | Done (res, e') =>
          eloop (fun res e '(k, w) =>
            match btm_get kcmp self k with
            | None => ecall_ins f (OJRight k w) k res e
            | Some _ => Done (res, e)
            end) that res e'
      | r => r
      end.
    (** src/btree_map.rs:89-102 *)
    Definition ebtm_left_join (self : list (K * V)) (that : list (K * W)) (f : clos E (K * V * option W) (option R)) (e : E) :=
      eloop (fun res e '(k, v) => ecall_ins f (k, v, btm_get kcmp that k) k res e) self [] e.
    (** src/btree_map.rs:104-117 *)
    Definition ebtm_right_join (self : list (K * V)) (that : list (K * W)) (f : clos E (K * option V * W) (option R)) (e : E) :=
      eloop (fun res e '(k, w) => ecall_ins f (k, btm_get kcmp self k, w) k res e) that [] e.
    (** src/btree_map.rs:119-145, see [btm_inner_join_hint] *)
    Definition ebtm_inner_join_hint (ha hb : nat) (self : list (K * V)) (that : list (K * W))
      (f : clos E (K * V * W) (option R)) (e : E) :=
      if ha <? hb then
        eloop (fun res e '(k, v) =>
          match btm_get kcmp that k with Some w => ecall_ins f (k, v, w) k res e | None => Done (res, e) end) self [] e
      else
        eloop (fun res e '(k, w) =>
          match btm_get kcmp self k with Some v => ecall_ins f (k, v, w) k res e | None => Done (res, e) end) that [] e.
    (** src/btree_map.rs:17-26, 119-145 *)
    Definition ebtm_inner_join (self : list (K * V)) (that : list (K * W)) (f : clos E (K * V * W) (option R)) (e : E) :=
      ebtm_inner_join_hint (abstract_size_hint self) (abstract_size_hint that) self that f e.
  End Joins.

  Section InPlace.
    Context {V W : Type}.
    (** [if !f(k, v, x) { self.remove(k); }] where v is behind [self.get_mut(k)] *)
    Definition ecall_mut {X} (f : kmclos E K V X) (x : X) (k : K) (v : V) (m : list (K * V)) (e : E)
      : done (list (K * V) * E) :=
      let '(e', v', r) := f e k v x in
      let m1 := btm_set kcmp m k v' in
      match r with
      | Ret true => Done (m1, e')
      | Ret false => Done (btm_remove kcmp m1 k, e')
      | Throw => Unwound (m1, e')
      end.
    (** src/btree_map.rs:172-178 *)
    Definition ebtm_inner_join_with (self : list (K * V)) (that : list (K * W)) (f : kmclos E K V W) (e : E) :=
      ebtm_retain self (fun e k v => match btm_get kcmp that k with Some w => f e k v w | None => (e, v, Ret false) end) e.
    (** src/btree_map.rs:180-186 *)
    Definition ebtm_left_join_with (self : list (K * V)) (that : list (K * W)) (f : kmclos E K V (option W)) (e : E) :=
      ebtm_retain self (fun e k v => f e k v (btm_get kcmp that k)) e.
    (** src/btree_map.rs:188-198; the closure on Some: [fs], on None: [fn] *)
    Definition ebtm_right_join_with (self : list (K * V)) (that : list (K * W))
      (fs : kmclos E K V W) (fn : clos E (K * W) bool) (e : E) :=
      eloop (fun m e '(k, w) =>
        match btm_get kcmp m k with
        | Some v => ecall_mut fs w k v m e
        | None => match fn e (k, w) with
                  | (e', Ret true) => Done (m, e')
                  | (e', Ret false) => Done (btm_remove kcmp m k, e')
                  | (e', Throw) => Unwound (m, e')
                  end
        end) that self e.
    (** src/btree_map.rs:200-223 *)
    Definition ebtm_outer_join_with (self : list (K * V)) (that : list (K * W))
      (l : kmclos E K V (option W)) (r : clos E (K * W) (option V)) (e : E) :=
      match eloop (fun m e '(k, w) =>
              match btm_get kcmp m k with
              | Some v => ecall_mut l (Some w) k v m e
              | None => match r e (k, w) with
                        | (e', Ret (Some v)) => Done (btm_insert kcmp m k v, e')
                        | (e', Ret None) => Done (m, e')
                        | (e', Throw) => Unwound (m, e')
                        end
              end) that self e with
      | Done (m, e') =>
          ebtm_retain m (fun e k v => match btm_get kcmp that k with Some _ => (e, v, Ret true) | None => l e k v None end) e'
      | r => r
      end.
  End InPlace.
End BTreeEff.
