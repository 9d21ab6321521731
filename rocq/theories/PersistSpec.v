(** What a file of records means, and the database of PersistModel.v on plain trees: no heap, no sharing, no
    registry, no positions. *)
From Verif Require Export PersistModel.

Section PersistSpec.
  Context {K V : Type} (kcmp : K -> K -> comparison) (strat : nat -> nat -> bool).
  Notation tree := (rtree K V).
  Notation frec := (frec K V).
  Notation anode := (anode K V).

  (** following the pointers of the vector at position [p] gives the trees [ts] *)
  Inductive fden (g : list frec) : nat -> list tree -> Prop :=
  | fden_vec p l ts : nth_error g p = Some (RVec l) -> fdens g p l ts -> fden g p ts
  with fdens (g : list frec) : nat -> list anode -> list tree -> Prop :=
  | fdens_nil p : fdens g p [] []
  | fdens_cons p q v k l us ts : 0 < k -> k <= p -> fden g (p - k) us -> fdens g p l ts ->
      fdens g p (MkA q v k :: l) (Node q v us :: ts).
  (** the file ends with a root, which stands for the tree [t] *)
  Inductive froot (g : list frec) : tree -> Prop :=
  | froot_intro q v k us : 0 < length g -> nth_error g (length g - 1) = Some (RRoot (MkA q v k)) -> 0 < k -> k <= length g - 1 ->
      fden g (length g - 1 - k) us -> froot g (Node q v us).
  (** an empty or missing file stands for the empty tree *)
  Definition readable (g : list frec) (t : tree) : Prop := (g = [] /\ t = Node [] None []) \/ froot g t.

  (** the vector below the node that the indices [path] lead to: two paths with the same address are shared *)
  Fixpoint at_path (h : heap K V) (n : node K V) (path : list nat) : option nat :=
    match n_kids n with
    | inl _ => None
    | inr a =>
        match path with
        | [] => Some a
        | i :: path' =>
            match h_cell h a with
            | Some (_, ns) => match nth_error ns i with Some m => at_path h m path' | None => None end
            | None => None
            end
        end
    end.

  (** ** The database as a specification: the registers of the user (the tree of the database is in register
      0), and the tree on disk: what a new process would load, if that is determined *)
  Definition sdb := (regs tree * option tree)%type.
  (** an append that fails may or may not have changed the file *)
  Definition clean (o : outcome K V) : bool :=
    match o with Written => true | Fails k junk => match k, junk with 0, [] => true | _, _ => false end end.
  Definition s_step (o : dop K V) (b : sdb) : option (sdb * list (obs K V)) :=
    let (vs, on_disk) := b in
    match o with
    | DUser o => match pstep kcmp strat o vs with Some (vs', l) => Some ((vs', on_disk), l) | None => None end
    | DFlush Written => match rget 0 vs with Some t => Some ((vs, Some t), []) | None => None end
    | DFlush o => match rget 0 vs with Some _ => Some ((vs, if clean o then on_disk else None), []) | None => None end
    | DVacuum Written true => match rget 0 vs with Some t => Some ((vs, Some t), []) | None => None end
    | DVacuum _ _ => match rget 0 vs with Some _ => Some ((vs, on_disk), []) | None => None end
    | DRestart =>
        match on_disk, vs with
        | Some t, _ :: vs' => Some ((Some t :: map (fun _ => None) vs', Some t), [])
        | _, _ => None
        end
    end.
  Fixpoint s_run (os : list (dop K V)) (b : sdb) : option (sdb * list (obs K V)) :=
    match os with
    | [] => Some (b, [])
    | o :: os' =>
        match s_step o b with
        | Some (b1, l1) => match s_run os' b1 with Some (b2, l2) => Some (b2, l1 ++ l2) | None => None end
        | None => None
        end
    end.
  (** a new database with [n] further registers *)
  Definition s_init (n : nat) : sdb := (Some (Node [] None []) :: repeat None n, Some (Node [] None [])).
End PersistSpec.
