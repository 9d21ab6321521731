(** What property C131 speaks about: programs on plain trees that share nothing, in which a step may panic. *)
From Verif Require Export HeapThrowModel.

Section HeapThrowSpec.
  Context {K V : Type}.
  Notation tree := (rtree K V).
  (** steps that copy values, and therefore may panic *)
  Definition may_panic (o : op K V) : bool :=
    match o with
    | OEmpty _ | ONew _ _ _ _ | OFrom true _ _ | OArchive _ _ | ODrop _ | OMove _ _ => false
    | _ => true
    end.
  (** a step that panics changes no tree; a tree moved into it is gone *)
  Definition vpanic (o : op K V) (s : regs tree) : option (regs tree) :=
    if may_panic o then
      match o with
      | OInsert _ _ _ src => match rtake src s with Some (_, s1) => Some s1 | None => None end
      | _ => Some s
      end
    else None.
  (** the trees at the end, when the steps went as [oks] says *)
  Fixpoint vruns (q : tprog K V) (oks : list bool) (s : regs tree) : option (regs tree) :=
    match q, oks with
    | TEnd, [] => Some s
    | TDo o q1 q2, ok :: oks' =>
        match (if ok then vstep o s else vpanic o s) with
        | Some s1 => vruns (if ok then q1 else q2) oks' s1
        | None => None
        end
    | _, _ => None
    end.
  (** registers and indices exist, whichever steps panic *)
  Fixpoint meaningful (q : tprog K V) (s : regs tree) : Prop :=
    match q with
    | TEnd => True
    | TDo o q1 q2 =>
        (exists s1, vstep o s = Some s1 /\ meaningful q1 s1) /\
        forall s2, vpanic o s = Some s2 -> meaningful q2 s2
    end.
End HeapThrowSpec.
