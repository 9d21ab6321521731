(** What property C91 speaks about: calls of public methods, and programs that use their variables meaningfully. *)
From Verif Require Export HeapEffModel RadixSpec.

Section HeapEffSpec.
  Context {K V : Type} (kcmp : K -> K -> comparison) {E : Type}.
  (** Calls of public methods: no direct change of prefixes, values or child vectors. Trees that are converted or loaded
      must be in order, which loading checks (C59). *)
  Definition epublic (o : eapi K V E) : Prop :=
    match o with
    | EPlain (ABase o) =>
        match o with
        | OEmpty _ | OClone _ _ | ODrop _ | OMove _ _ | OTouch _ _ => True
        | OFrom _ t _ | OArchive t _ => WO kcmp t
        | _ => False
        end
    | _ => True
    end.
  (** Which variables are full: reading needs a full variable, a result goes into an empty one, an in-place
      combination needs two different full ones. [None]: the program is not meaningful. *)
  Definition u_put (j : nat) (us : regs unit) : option (regs unit) := rput j tt us.
  Definition u_take (i : nat) (us : regs unit) : option (regs unit) := match rtake i us with Some (_, s1) => Some s1 | None => None end.
  Definition u_has (i : nat) (us : regs unit) : option (regs unit) := match rget i us with Some _ => Some us | None => None end.
  Definition u_then (r : option (regs unit)) (f : regs unit -> option (regs unit)) : option (regs unit) :=
    match r with Some us => f us | None => None end.
  Definition u_both (i b : nat) (us : regs unit) : option (regs unit) :=
    u_then (u_take i us) (fun s => u_then (u_has b s) (u_put i)).
  Definition u_step (o : eapi K V E) (us : regs unit) : option (regs unit) :=
    match o with
    | EPlain o =>
        match o with
        | ABase (OEmpty j) | ABase (OFrom _ _ j) | ABase (OArchive _ j) | ASingle _ _ j => u_put j us
        | ABase (OClone i j) | AFilter i _ j => u_then (u_has i us) (u_put j)
        | ABase (ODrop i) => u_take i us
        | ABase (OMove i j) => u_then (u_take i us) (u_put j)
        | ABase _ => None
        | AInsert i _ _ | APrepend i _ => u_then (u_take i us) (u_put i)
        | AOuterWith _ i b | AInnerWith _ i b | ALeftWith _ i b | ARemoveWith _ i b | ARetainWith _ i b => u_both i b us
        | AOuter _ a b j | AInner _ a b j | ALeft _ a b j => u_then (u_has a us) (fun s => u_then (u_has b s) (u_put j))
        | AGet i _ | AIter i => u_has i us
        | AIntersects a b | AIsSubset a b => u_then (u_has a us) (u_has b)
        end
    | EOuterWith _ i b | EInnerWith _ i b | ELeftWith _ i b | ERemoveWith _ i b | ERetainWith _ i b => u_both i b us
    end.
  Fixpoint u_run (os : list (eapi K V E)) (us : regs unit) : option (regs unit) :=
    match os with [] => Some us | o :: os' => u_then (u_step o us) (u_run os') end.
  (** the variables a call may change *)
  Definition etarget (o : eapi K V E) : list nat :=
    match o with
    | EPlain (ABase o) => match o with OEmpty j | OFrom _ _ j | OArchive _ j | OClone _ j => [j] | ODrop i => [i] | OMove i j => [i; j] | _ => [] end
    | EPlain (ASingle _ _ j) | EPlain (AFilter _ _ j) | EPlain (AOuter _ _ _ j) | EPlain (AInner _ _ _ j) | EPlain (ALeft _ _ _ j) => [j]
    | EPlain (AInsert i _ _) | EPlain (APrepend i _) | EPlain (AOuterWith _ i _) | EPlain (AInnerWith _ i _) | EPlain (ALeftWith _ i _)
    | EPlain (ARemoveWith _ i _) | EPlain (ARetainWith _ i _) => [i]
    | EPlain _ => []
    | EOuterWith _ i _ | EInnerWith _ i _ | ELeftWith _ i _ | ERemoveWith _ i _ | ERetainWith _ i _ => [i]
    end.
End HeapEffSpec.
