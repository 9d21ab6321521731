(** Value semantics: the register machine of HeapModel.v on plain trees, where every register owns its
    tree and nothing is shared; and the tree a heap node stands for. *)
From Verif Require Export HeapModel.

Section HeapSpec.
  Context {K V : Type}.
  Notation tree := (rtree K V).

  (** the tree that prefix() / value() / children() of a node describe *)
  Inductive den (h : heap K V) : node K V -> tree -> Prop :=
  | den_archive p v ts : den h (MkN p v (inl ts)) (Node p v ts)
  | den_arc p v a rc ns ts : h_cell h a = Some (rc, ns) -> dens h ns ts -> den h (MkN p v (inr a)) (Node p v ts)
  with dens (h : heap K V) : list (node K V) -> list tree -> Prop :=
  | dens_nil : dens h [] []
  | dens_cons n t ns ts : den h n t -> dens h ns ts -> dens h (n :: ns) (t :: ts).

  (** change the node at [path] *)
  Fixpoint tmut (path : list nat) (act : tree -> option (tree * option tree)) (t : tree) : option (tree * option tree) :=
    match path with
    | [] => act t
    | i :: path' =>
        let 'Node p v ts := t in
        match nth_error ts i with
        | Some c => match tmut path' act c with
                    | Some (c', x) => Some (Node p v (firstn i ts ++ c' :: skipn (S i) ts), x)
                    | None => None
                    end
        | None => None
        end
    end.
  Definition t_set_prefix p (t : tree) : option (tree * option tree) := let 'Node _ v ts := t in Some (Node p v ts, None).
  Definition t_set_value v (t : tree) : option (tree * option tree) := let 'Node p _ ts := t in Some (Node p v ts, None).
  Definition t_insert j m (t : tree) : option (tree * option tree) :=
    let 'Node p v ts := t in
    if j <=? length ts then Some (Node p v (firstn j ts ++ m :: skipn j ts), None) else None.
  Definition t_remove j (t : tree) : option (tree * option tree) :=
    let 'Node p v ts := t in
    match nth_error ts j with Some m => Some (Node p v (firstn j ts ++ skipn (S j) ts), Some m) | None => None end.
  (** the node at [path] *)
  Fixpoint t_sub (path : list nat) (t : tree) : option tree :=
    match path with
    | [] => Some t
    | i :: path' => match nth_error (t_children t) i with Some c => t_sub path' c | None => None end
    end.

  Definition vreg (i : nat) (act : tree -> option (tree * option tree)) (s : regs tree) : option (regs tree * option tree) :=
    match rtake i s with
    | Some (t, s1) =>
        match act t with
        | Some (t', x) => match rput i t' s1 with Some s2 => Some (s2, x) | None => None end
        | None => None
        end
    | None => None
    end.
  Definition vstep (o : op K V) (s : regs tree) : option (regs tree) :=
    match o with
    | OEmpty j => rput j (Node [] None []) s
    | ONew p v src j =>
        match rtakes src s with Some (ts, s1) => rput j (Node p v ts) s1 | None => None end
    | OFrom _ t j => rput j t s
    | OArchive t j => rput j t s
    | OClone i j => match rget i s with Some t => rput j t s | None => None end
    | ODrop i => match rtake i s with Some (_, s1) => Some s1 | None => None end
    | OMove i j => match rtake i s with Some (t, s1) => rput j t s1 | None => None end
    | OTouch i path => match rget i s with Some t => match t_sub path t with Some _ => Some s | None => None end | None => None end
    | OSub i path k j =>
        match rget i s with
        | Some t =>
            match t_sub path t with
            | Some u => match nth_error (t_children u) k with Some c => rput j c s | None => None end
            | None => None
            end
        | None => None
        end
    | OPrefix i path p => match vreg i (tmut path (t_set_prefix p)) s with Some (s1, _) => Some s1 | None => None end
    | OValue i path v => match vreg i (tmut path (t_set_value v)) s with Some (s1, _) => Some s1 | None => None end
    | OInsert i path pos src =>
        match rtake src s with
        | Some (m, s0) => match vreg i (tmut path (t_insert pos m)) s0 with Some (s1, _) => Some s1 | None => None end
        | None => None
        end
    | ORemove i path pos j =>
        match vreg i (tmut path (t_remove pos)) s with
        | Some (s1, Some m) => rput j m s1
        | _ => None
        end
    end.
  Fixpoint vrun (os : list (op K V)) (s : regs tree) : option (regs tree) :=
    match os with
    | [] => Some s
    | o :: os' => match vstep o s with Some s' => vrun os' s' | None => None end
    end.

  (** the registers an operation names *)
  Definition names (o : op K V) : list nat :=
    match o with
    | OEmpty j | OArchive _ j | OFrom _ _ j => [j]
    | ONew _ _ src j => j :: src
    | OClone i j | OMove i j => [i; j]
    | ODrop i | OTouch i _ | OPrefix i _ _ | OValue i _ _ => [i]
    | OInsert i _ _ src => [i; src]
    | OSub i _ _ j | ORemove i _ _ j => [i; j]
    end.
  (** the registers it may change: not the source of a clone, nor a tree that is only read *)
  Definition changes (o : op K V) : list nat := match o with OClone _ j | OSub _ _ _ j => [j] | OTouch _ _ => [] | _ => names o end.

  (** what register i holds *)
  Definition holds_tree (st : state K V) (i : nat) (t : tree) : Prop :=
    exists n, rget i (snd st) = Some n /\ den (fst st) n t.
  (** the vector at [a] can be reached from node [n] *)
  Inductive reach (h : heap K V) : node K V -> nat -> Prop :=
  | reach_here n a : n_kids n = inr a -> reach h n a
  | reach_below n a rc ns m b : n_kids n = inr a -> h_cell h a = Some (rc, ns) -> In m ns -> reach h m b -> reach h n b.
End HeapSpec.
