(** The in-place combinations of radix trees once more, with closures that have effects and may panic
    (src/radix_tree/mod.rs:345-550, 1262-1557). A closure of type [F: Fn(&mut V, &W) -> bool] runs in
    a world [E]; it leaves a new value behind its [&mut V] also when it panics. A predicate
    [Fn(&W) -> bool] is a [clos E W bool] (VecMapModel.v).
    The result of an in-place call is a [done] (Merge.v): [Done (t, e)]: returned; [Unwound (t, e)]:
    the call panicked, the panic was caught by the caller, [t] is what [self] is then.
    The children are merged in the builder of InPlaceVecMergeStateRef, whose Drop keeps the target and
    drops the remaining source, including the child in whose subtree the panic happened; the
    [unsplit] after the merge does not run. Everything else is as in RadixModel.v. *)
From Verif Require Export RadixModel VecMapModel.

(** [F: Fn(&mut V, &W) -> bool + Copy] *)
Definition mclos (E V W : Type) := E -> V -> W -> E * V * cres bool.

Section Eff.
  Context {K : Type} (kcmp : K -> K -> comparison) (strat : nat -> nat -> bool) {E : Type}.

  Section Children.
    Context {V W : Type} (rec : rtree K V -> rtree K W -> E -> done (rtree K V * E)).
    Notation ist := (iprstate (rtree K V) (rtree K W) * E)%type.
    (** mod.rs:1283-1292, 1358-1368, 1436-1446, 1512-1522, 1546-1556; see [coll_with] *)
    Definition ecoll_with (conv : rtree K W -> option (rtree K V)) (s : ist) : out ist :=
      let (m, e) := s in
      match bd_src (ipr_a m), ipr_b m with
      | av :: a', bv :: _ =>
          match rec av bv e with
          | Done (av', e') =>
              let m' := MkIpr (MkB (bd_tgt (ipr_a m)) (av' :: a') (bd_drop (ipr_a m))) (ipr_b m) in
              match obind (adv_a (ipr_msm conv) m' 1 (negb (t_is_empty av')))
                          (fun m'' => adv_b (ipr_msm conv) m'' 1 false) with
              | Cont m'' => Cont (m'', e')
              | Stop m'' => Stop (m'', e')
              | Panic m'' => Panic (m'', e')
              | NoFuel => NoFuel
              end
          | Unwound (av', e') =>
              Panic (MkIpr (MkB (bd_tgt (ipr_a m)) (av' :: a') (bd_drop (ipr_a m))) (ipr_b m), e')
          | DoneNoFuel => NoFuel
          end
      | _, _ => Panic s
      end.
    (** runs a step that makes no calls *)
    Definition quietly (o : out (iprstate (rtree K V) (rtree K W))) (e : E) : out ist :=
      match o with
      | Cont m => Cont (m, e)
      | Stop m => Stop (m, e)
      | Panic m => Panic (m, e)
      | NoFuel => NoFuel
      end.
    (** see [op_with] *)
    Definition eop_with (ta tb : bool) (conv : rtree K W -> option (rtree K V)) : mop ist (rtree K V) (rtree K W) :=
      MkMop (fun s => bd_src (ipr_a (fst s))) (fun s => ipr_b (fst s)) (head_cmp kcmp)
            (fun s n => quietly (adv_a (ipr_msm conv) (fst s) n ta) (snd s))
            (fun s n => quietly (adv_b (ipr_msm conv) (fst s) n tb) (snd s))
            (ecoll_with conv).
    (** InPlaceVecMergeStateRef::merge(self.children_mut(), &rhs, op, conv) mod.rs:169-235 *)
    Definition echildren_with (ta tb : bool) (conv : rtree K W -> option (rtree K V))
               (a : list (rtree K V)) (b : list (rtree K W)) (e : E) : done (list (rtree K V) * E) :=
      to_done (fun s => (bd_tgt (ipr_a (fst s)), snd s)) (merge (eop_with ta tb conv) strat (ipr_new a b, e)).
  End Children.

  (** [self.unsplit()] after the children are merged, or the unwinding out of the merge *)
  Definition efinish {V} (p : list K) (v : option V) (r : done (list (rtree K V) * E)) : done (rtree K V * E) :=
    match r with
    | Done (c, e) => Done (t_unsplit (Node p v c), e)
    | Unwound (c, e) => Unwound (Node p v c, e)
    | DoneNoFuel => DoneNoFuel
    end.
  (** a step that makes no calls; [self] is what remains if it panics (the theorems show it does not) *)
  Definition elift {V X} (self : rtree K V) (e : E) (r : res X) (k : X -> done (rtree K V * E)) : done (rtree K V * E) :=
    match r with Ok x => k x | Panicked => Unwound (self, e) | OutOfFuel => DoneNoFuel end.
  (** a value update: the new value, the world, and whether the closure returned *)
  Definition evalue {V} (p : list K) (c : list (rtree K V)) (r : option V * E * bool)
    (k : option V -> E -> done (rtree K V * E)) : done (rtree K V * E) :=
    let '(v, e, ok) := r in if ok then k v e else Unwound (Node p v c, e).

  Section OuterWith.
    Context {V : Type} (f : mclos E V V).
    (** mod.rs:353-361 and 376-384; see [upd_outer] *)
    Definition eupd_outer (v w : option V) (e : E) : option V * E * bool :=
      match w with
      | Some w => match v with
                  | Some v => let '(e', v', r) := f e v w in
                              match r with
                              | Ret true => (Some v', e', true)
                              | Ret false => (None, e', true)
                              | Throw => (Some v', e', false)
                              end
                  | None => (Some w, e, true)
                  end
      | None => (v, e, true)
      end.
    (** outer_combine_with mod.rs:345-391; OuterCombineOp (in place) mod.rs:1261-1293 *)
    Fixpoint eouter_with (fuel : nat) (self that : rtree K V) (e : E) : done (rtree K V * E) :=
      match fuel with
      | 0 => DoneNoFuel
      | S fuel' =>
          let merge_children := echildren_with (eouter_with fuel') true true mat_conv in
          let n := common_prefix kcmp (t_prefix self) (t_prefix that) in
          if (n =? length (t_prefix self)) && (n =? length (t_prefix that)) then
            evalue (t_prefix self) (t_children self) (eupd_outer (t_value self) (t_value that) e) (fun v e =>
            efinish (t_prefix self) v (merge_children (t_children self) (t_children that) e))
          else if n =? length (t_prefix self) then
            elift self e (mat_short that n) (fun that =>
            efinish (t_prefix self) (t_value self) (merge_children (t_children self) [that] e))
          else if n =? length (t_prefix that) then
            elift self e (t_split self n) (fun self =>
            evalue (t_prefix self) (t_children self) (eupd_outer (t_value self) (t_value that) e) (fun v e =>
            efinish (t_prefix self) v (merge_children (t_children self) (t_children that) e)))
          else
            elift self e (t_split self n) (fun self =>
            elift self e (mat_short that n) (fun that =>
            elift self e (sort_heads kcmp (t_children self ++ [that])) (fun c =>
            Done (t_unsplit (Node (t_prefix self) (t_value self) c), e))))
      end.
    Definition ert_outer_combine_with (self that : rtree K V) (e : E) : done (rtree K V * E) :=
      eouter_with (S (t_size self + t_size that)) self that e.
  End OuterWith.

  Section InnerLeftWith.
    Context {V W : Type} (f : mclos E V W).
    (** mod.rs:406-412; see [upd_inner] *)
    Definition eupd_inner (v : option V) (w : option W) (e : E) : option V * E * bool :=
      match v, w with
      | Some v, Some w => let '(e', v', r) := f e v w in
                          match r with
                          | Ret true => (Some v', e', true)
                          | Ret false => (None, e', true)
                          | Throw => (Some v', e', false)
                          end
      | _, _ => (None, e, true)
      end.
    (** inner_combine_with mod.rs:398-431; InnerCombineOp (in place) mod.rs:1338-1369 *)
    Fixpoint einner_with (fuel : nat) (self : rtree K V) (that : rtree K W) (e : E) : done (rtree K V * E) :=
      match fuel with
      | 0 => DoneNoFuel
      | S fuel' =>
          let merge_children := echildren_with (einner_with fuel') false false NoConverter in
          let n := common_prefix kcmp (t_prefix self) (t_prefix that) in
          if (n =? length (t_prefix self)) && (n =? length (t_prefix that)) then
            evalue (t_prefix self) (t_children self) (eupd_inner (t_value self) (t_value that) e) (fun v e =>
            efinish (t_prefix self) v (merge_children (t_children self) (t_children that) e))
          else if n =? length (t_prefix self) then
            elift (Node (t_prefix self) None (t_children self)) e (mat_short that n) (fun that =>
            efinish (t_prefix self) None (merge_children (t_children self) [that] e))
          else if n =? length (t_prefix that) then
            elift self e (t_split self n) (fun self =>
            efinish (t_prefix self) (t_value self) (merge_children (t_children self) (t_children that) e))
          else Done (t_unsplit (Node (t_prefix self) None []), e)
      end.
    Definition ert_inner_combine_with (self : rtree K V) (that : rtree K W) (e : E) : done (rtree K V * E) :=
      einner_with (S (t_size self + t_size that)) self that e.

    (** mod.rs:448-454; see [upd_left] *)
    Definition eupd_left (v : option V) (w : option W) (e : E) : option V * E * bool :=
      match w with
      | Some w => match v with
                  | Some v => let '(e', v', r) := f e v w in
                              match r with
                              | Ret true => (Some v', e', true)
                              | Ret false => (None, e', true)
                              | Throw => (Some v', e', false)
                              end
                  | None => (None, e, true)
                  end
      | None => (v, e, true)
      end.
    (** left_combine_with mod.rs:440-468; LeftCombineOp (in place) mod.rs:1415-1447 *)
    Fixpoint eleft_with (fuel : nat) (self : rtree K V) (that : rtree K W) (e : E) : done (rtree K V * E) :=
      match fuel with
      | 0 => DoneNoFuel
      | S fuel' =>
          let merge_children := echildren_with (eleft_with fuel') true false NoConverter in
          let n := common_prefix kcmp (t_prefix self) (t_prefix that) in
          if (n =? length (t_prefix self)) && (n =? length (t_prefix that)) then
            evalue (t_prefix self) (t_children self) (eupd_left (t_value self) (t_value that) e) (fun v e =>
            efinish (t_prefix self) v (merge_children (t_children self) (t_children that) e))
          else if n =? length (t_prefix self) then
            elift self e (mat_short that n) (fun that =>
            efinish (t_prefix self) (t_value self) (merge_children (t_children self) [that] e))
          else if n =? length (t_prefix that) then
            elift self e (t_split self n) (fun self =>
            efinish (t_prefix self) (t_value self) (merge_children (t_children self) (t_children that) e))
          else Done (t_unsplit self, e)
      end.
    Definition ert_left_combine_with (self : rtree K V) (that : rtree K W) (e : E) : done (rtree K V * E) :=
      eleft_with (S (t_size self + t_size that)) self that e.
  End InnerLeftWith.

  Section PrefixWith.
    Context {V W : Type} (f : clos E W bool).
    (** [Some(value) if f(value)] mod.rs:483, 495; [!(value().is_none() || !f(value))] 525, 531:
        [self] is untouched when the predicate panics *)
    Definition ehit (self : rtree K V) (w : option W) (e : E) (k : bool -> E -> done (rtree K V * E)) : done (rtree K V * E) :=
      match w with
      | None => k false e
      | Some w => let (e', r) := f e w in
                  match r with Ret b => k b e' | Throw => Unwound (self, e') end
      end.
    (** remove_prefix_with mod.rs:474-511; RemovePrefixOp mod.rs:1492-1523 *)
    Fixpoint eremove_with (fuel : nat) (self : rtree K V) (that : rtree K W) (e : E) : done (rtree K V * E) :=
      match fuel with
      | 0 => DoneNoFuel
      | S fuel' =>
          let merge_children := echildren_with (eremove_with fuel') true false NoConverter in
          let n := common_prefix kcmp (t_prefix self) (t_prefix that) in
          if (n =? length (t_prefix self)) && (n =? length (t_prefix that)) then
            ehit self (t_value that) e (fun b e =>
            if b then Done (t_unsplit (Node (t_prefix self) None []), e)
            else efinish (t_prefix self) (t_value self) (merge_children (t_children self) (t_children that) e))
          else if n =? length (t_prefix that) then
            ehit self (t_value that) e (fun b e =>
            if b then Done (t_unsplit (Node (t_prefix self) None []), e)
            else elift self e (t_split self n) (fun self =>
                 efinish (t_prefix self) (t_value self) (merge_children (t_children self) (t_children that) e)))
          else if n =? length (t_prefix self) then
            elift self e (mat_short that n) (fun that =>
            efinish (t_prefix self) (t_value self) (merge_children (t_children self) [that] e))
          else Done (t_unsplit self, e)
      end.
    Definition ert_remove_prefix_with (self : rtree K V) (that : rtree K W) (e : E) : done (rtree K V * E) :=
      eremove_with (S (t_size self + t_size that)) self that e.

    (** retain_prefix_with mod.rs:517-546; RetainPrefixOp mod.rs:1526-1557 *)
    Fixpoint eretain_with (fuel : nat) (self : rtree K V) (that : rtree K W) (e : E) : done (rtree K V * E) :=
      match fuel with
      | 0 => DoneNoFuel
      | S fuel' =>
          let merge_children := echildren_with (eretain_with fuel') false false NoConverter in
          let n := common_prefix kcmp (t_prefix self) (t_prefix that) in
          if (n =? length (t_prefix self)) && (n =? length (t_prefix that)) then
            ehit self (t_value that) e (fun b e =>
            if b then Done (t_unsplit self, e)
            else efinish (t_prefix self) None (merge_children (t_children self) (t_children that) e))
          else if n =? length (t_prefix that) then
            ehit self (t_value that) e (fun b e =>
            if b then Done (t_unsplit self, e)
            else elift self e (t_split self n) (fun self =>
                 efinish (t_prefix self) (t_value self) (merge_children (t_children self) (t_children that) e)))
          else if n =? length (t_prefix self) then
            elift (Node (t_prefix self) None (t_children self)) e (mat_short that n) (fun that =>
            efinish (t_prefix self) None (merge_children (t_children self) [that] e))
          else Done (t_unsplit (Node (t_prefix self) None []), e)
      end.
    Definition ert_retain_prefix_with (self : rtree K V) (that : rtree K W) (e : E) : done (rtree K V * E) :=
      eretain_with (S (t_size self + t_size that)) self that e.
  End PrefixWith.
End Eff.
