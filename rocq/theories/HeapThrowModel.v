(** ArcRadixTree and LazyRadixTree when Clone of a value may panic: the operations of HeapModel.v with the calls of
    [V::clone] made explicit. [vcl e v]: a call of Clone for the value [v] in the environment [e]: the new environment,
    and whether it returned (a copy that is equal to the original) or panicked. Keys are Copy (radix_tree/mod.rs:23), so
    copying a prefix runs no user code. Values are copied
    - when a node is cloned (derive(Clone), arc_radix_tree.rs:34, lazy_radix_tree.rs:22), so also when [Arc::make_mut]
      copies a shared vector (arc_radix_tree.rs:95, lazy_radix_tree.rs:79);
    - when the children of a lazily loaded node are materialised (lazy_radix_tree.rs:162);
    - when an archived tree is converted (arc_radix_tree.rs:141, lazy_radix_tree.rs:134).
    A panic unwinds to the caller, who catches it. Drop of a value does not panic. *)
From Verif Require Export HeapSpec.

Section HeapThrow.
  Context {K V : Type} {E : Type} (vcl : E -> V -> E * bool).
  Notation tree := (rtree K V).
  Notation node := (node K V).
  Notation heap := (heap K V).

  (** [EOk x]: returned; [EThrow y]: panicked, [y] is what is left after unwinding; [EFault]: a use of freed memory, an
      overflow or underflow of a count, an index out of bounds *)
  Inductive eres (X Y : Type) := EOk (x : X) | EThrow (y : Y) | EFault.
  Arguments EOk {X Y}. Arguments EThrow {X Y}. Arguments EFault {X Y}.
  Definition tlift {X Y} (r : option X) (e : E) : eres (X * E) Y := match r with Some x => EOk (x, e) | None => EFault end.

  (** Option<V>::clone (std), Option<&V>::cloned (std) *)
  Definition ocl (e : E) (v : option V) : E * bool := match v with Some w => vcl e w | None => (e, true) end.

  (** derive(Clone) arc_radix_tree.rs:34, lazy_radix_tree.rs:22: prefix, value, children; see [node_clone] *)
  Definition te_node_clone (h : heap) (n : node) (e : E) : eres (heap * node * E) (heap * E) :=
    let (e1, ok) := ocl e (n_value n) in
    if ok then tlift (node_clone h n) e1 else EThrow (h, e1).
  (** std Vec::clone: on a panic the copies made so far ([done]) are dropped; see [nodes_clone] *)
  Fixpoint te_nodes_clone (done : list node) (h : heap) (ns : list node) (e : E) : eres (heap * list node * E) (heap * E) :=
    match ns with
    | [] => EOk (h, done, e)
    | n :: ns' =>
        match te_node_clone h n e with
        | EOk (h1, n', e1) => te_nodes_clone (done ++ [n']) h1 ns' e1
        | EThrow (h1, e1) => match drop_all h1 done with Some h2 => EThrow (h2, e1) | None => EFault end
        | EFault => EFault
        end
    end.
  (** std Arc::make_mut: the old Arc is given up only after the copy is complete; see [make_mut] *)
  Definition te_make_mut (h : heap) (a : nat) (e : E) : eres (heap * nat * E) (heap * E) :=
    match h_cell h a with
    | None | Some (0, _) => EFault
    | Some (1, _) => EOk (h, a, e)
    | Some (S (S _), ns) =>
        match te_nodes_clone [] h ns e with
        | EOk (h1, ns', e1) =>
            let (h2, a') := arc_new h1 ns' in
            match h_cell h2 a with
            | Some (S (S r), ms) => EOk (h_upd h2 a (Some (S r, ms)), a', e1)
            | _ => EFault
            end
        | EThrow (h1, e1) => EThrow (h1, e1)
        | EFault => EFault
        end
    end.

  (** materialize_shallow lazy_radix_tree.rs:154-167: the values of the children, in order. On a panic the copies made
      so far, which own no vector, are dropped. *)
  Fixpoint te_values (ts : list tree) (e : E) : E * bool :=
    match ts with
    | [] => (e, true)
    | t :: ts' => let (e1, ok) := ocl e (t_value t) in if ok then te_values ts' e1 else (e1, false)
    end.
  (** Lazy::get_or_create / get_or_create_mut lazy_radix_tree.rs:303-330 with a_to_b 274-278: the new state is stored
      after the closure has returned; when it panics the lock is released and the node stays as it was; see [force] *)
  Definition te_force (h : heap) (n : node) (e : E) : eres (heap * nat * E) E :=
    match n_kids n with
    | inl ts => let (e1, ok) := te_values ts e in if ok then EOk (force h n, e1) else EThrow e1
    | inr a => EOk (h, a, e)
    end.
  (** children_mut arc_radix_tree.rs:89-96, lazy_radix_tree.rs:78-80; see [children_mut] *)
  Definition te_children_mut (h : heap) (n : node) (e : E) : eres (heap * node * nat * E) (heap * node * E) :=
    match te_force h n e with
    | EOk (h1, a, e1) =>
        match te_make_mut h1 a e1 with
        | EOk (h2, a', e2) => EOk (h2, with_arc n a', a', e2)
        | EThrow (h2, e2) => EThrow (h2, with_arc n a, e2)
        | EFault => EFault
        end
    | EThrow e1 => EThrow (h, n, e1)
    | EFault => EFault
    end.
  (** see [force_at] *)
  Definition te_force_at (h : heap) (a i : nat) (e : E) : eres (heap * E) E :=
    match h_cell h a with
    | Some (rc, ns) =>
        match nth_error ns i with
        | Some c => match te_force h c e with
                    | EOk (h1, b, e1) => EOk (h_upd h1 a (Some (rc, upd_nth i (with_arc c b) ns)), e1)
                    | EThrow e1 => EThrow e1
                    | EFault => EFault
                    end
        | None => EFault
        end
    | None => EFault
    end.
  (** see [touch_at], [touch] *)
  Fixpoint te_touch_at (path : list nat) (h : heap) (a : nat) (e : E) : eres (heap * nat * E) (heap * E) :=
    match path with
    | [] => EOk (h, a, e)
    | i :: path' =>
        match te_force_at h a i e with
        | EOk (h1, e1) =>
            match h_cell h1 a with
            | Some (_, ns) =>
                match nth_error ns i with
                | Some c => match n_kids c with inr b => te_touch_at path' h1 b e1 | inl _ => EFault end
                | None => EFault
                end
            | None => EFault
            end
        | EThrow e1 => EThrow (h, e1)
        | EFault => EFault
        end
    end.
  Definition te_touch (path : list nat) (h : heap) (n : node) (e : E) : eres (heap * node * nat * E) (heap * node * E) :=
    match te_force h n e with
    | EOk (h1, a, e1) =>
        match te_touch_at path h1 a e1 with
        | EOk (h2, b, e2) => EOk (h2, with_arc n a, b, e2)
        | EThrow (h2, e2) => EThrow (h2, with_arc n a, e2)
        | EFault => EFault
        end
    | EThrow e1 => EThrow (h, n, e1)
    | EFault => EFault
    end.

  (** see [action], [mut_at]: a borrowed element goes back to its place when a panic unwinds *)
  Definition taction := heap -> node -> E -> eres (heap * node * option node * E) (heap * node * E).
  Fixpoint te_mut_at (path : list nat) (act : taction) : taction := fun h n e =>
    match path with
    | [] => act h n e
    | i :: path' =>
        match te_children_mut h n e with
        | EOk (h1, n1, a, e1) =>
            match h_cell h1 a with
            | Some (rc, ns) =>
                match nth_error ns i with
                | Some c =>
                    match te_mut_at path' act (h_upd h1 a None) c e1 with
                    | EOk (h2, c', x, e2) => EOk (h_upd h2 a (Some (rc, upd_nth i c' ns)), n1, x, e2)
                    | EThrow (h2, c', e2) => EThrow (h_upd h2 a (Some (rc, upd_nth i c' ns)), n1, e2)
                    | EFault => EFault
                    end
                | None => EFault
                end
            | None => EFault
            end
        | EThrow (h1, n1, e1) => EThrow (h1, n1, e1)
        | EFault => EFault
        end
    end.
  (** prefix_mut and value_mut copy no vector; see [act_prefix], [act_value] *)
  Definition te_act_prefix (p : list K) : taction := fun h n e => tlift (act_prefix p h n) e.
  Definition te_act_value (v : option V) : taction := fun h n e => tlift (act_value v h n) e.
  (** [children_mut().insert(j, m)], [children_mut().remove(j)]; see [act_insert], [act_remove] *)
  Definition te_act_insert (j : nat) (m : node) : taction := fun h n e =>
    match te_children_mut h n e with
    | EOk (h1, n1, a, e1) =>
        match h_cell h1 a with
        | Some (rc, ns) =>
            if j <=? length ns then EOk (h_upd h1 a (Some (rc, firstn j ns ++ m :: skipn j ns)), n1, None, e1) else EFault
        | None => EFault
        end
    | EThrow (h1, n1, e1) => EThrow (h1, n1, e1)
    | EFault => EFault
    end.
  Definition te_act_remove (j : nat) : taction := fun h n e =>
    match te_children_mut h n e with
    | EOk (h1, n1, a, e1) =>
        match h_cell h1 a with
        | Some (rc, ns) =>
            match nth_error ns j with
            | Some m => EOk (h_upd h1 a (Some (rc, firstn j ns ++ skipn (S j) ns)), n1, Some m, e1)
            | None => EFault
            end
        | None => EFault
        end
    | EThrow (h1, n1, e1) => EThrow (h1, n1, e1)
    | EFault => EFault
    end.

  Section Machine.
  Context (arc : bool).
  (** From<&Archived> arc_radix_tree.rs:133-145, lazy_radix_tree.rs:124-136: the children in order, their vector, then
      the value; on a panic the children built so far are dropped. See [of_tree]; From<RadixTree> ([w = true]) moves the
      values. *)
  Fixpoint te_of_tree (h : heap) (t : tree) (e : E) : eres (heap * node * E) (heap * E) :=
    let 'Node p v ts := t in
    match (fix go (done : list node) (h : heap) (ts : list tree) (e : E) : eres (heap * list node * E) (heap * E) :=
             match ts with
             | [] => EOk (h, done, e)
             | c :: ts' =>
                 match te_of_tree h c e with
                 | EOk (h1, n, e1) => go (done ++ [n]) h1 ts' e1
                 | EThrow (h1, e1) => match drop_all h1 done with Some h2 => EThrow (h2, e1) | None => EFault end
                 | EFault => EFault
                 end
             end) [] h ts e with
    | EOk (h1, ns, e1) =>
        let (h2, a) := arc_new h1 ns in
        let (e2, ok) := ocl e1 v in
        if ok then EOk (h2, MkN p v (inr a), e2)
        else match drop_all h2 [MkN p None (inr a)] with Some h3 => EThrow (h3, e2) | None => EFault end
    | EThrow (h1, e1) => EThrow (h1, e1)
    | EFault => EFault
    end.

  (** an in-place change of the tree in register i: after a panic it is there as it was left; see [in_reg] *)
  Definition te_in_reg (i : nat) (act : taction) (h : heap) (s : regs node) (e : E)
    : eres (heap * regs node * option node * E) (heap * regs node * E) :=
    match rtake i s with
    | Some (n, s1) =>
        match act h n e with
        | EOk (h1, n1, x, e1) => match rput i n1 s1 with Some s2 => EOk (h1, s2, x, e1) | None => EFault end
        | EThrow (h1, n1, e1) => match rput i n1 s1 with Some s2 => EThrow (h1, s2, e1) | None => EFault end
        | EFault => EFault
        end
    | None => EFault
    end.
  (** One step: the state after it and whether it returned ([true]) or panicked ([false]); [None]: a fault. See [hstep]. *)
  Definition te_step (o : op K V) (st : state K V) (e : E) : option (state K V * E * bool) :=
    let (h, s) := st in
    match o with
    | OClone i j =>
        match rget i s with
        | Some n =>
            match te_node_clone h n e with
            | EOk (h1, n', e1) => match rput j n' s with Some s1 => Some ((h1, s1), e1, true) | None => None end
            | EThrow (h1, e1) => Some ((h1, s), e1, false)
            | EFault => None
            end
        | None => None
        end
    | OFrom false t j =>
        match te_of_tree h t e with
        | EOk (h1, n, e1) => match rput j n s with Some s1 => Some ((h1, s1), e1, true) | None => None end
        | EThrow (h1, e1) => Some ((h1, s), e1, false)
        | EFault => None
        end
    | OTouch i path =>
        match rtake i s with
        | Some (n, s1) =>
            match te_touch path h n e with
            | EOk (h1, n1, _, e1) => match rput i n1 s1 with Some s2 => Some ((h1, s2), e1, true) | None => None end
            | EThrow (h1, n1, e1) => match rput i n1 s1 with Some s2 => Some ((h1, s2), e1, false) | None => None end
            | EFault => None
            end
        | None => None
        end
    | OSub i path k j =>
        match rtake i s with
        | Some (n, s1) =>
            match te_touch path h n e with
            | EOk (h1, n1, b, e1) =>
                match rput i n1 s1, h_cell h1 b with
                | Some s2, Some (_, ns) =>
                    match nth_error ns k with
                    | Some c =>
                        match te_node_clone h1 c e1 with
                        | EOk (h2, c', e2) => match rput j c' s2 with Some s3 => Some ((h2, s3), e2, true) | None => None end
                        | EThrow (h2, e2) => Some ((h2, s2), e2, false)
                        | EFault => None
                        end
                    | None => None
                    end
                | _, _ => None
                end
            | EThrow (h1, n1, e1) => match rput i n1 s1 with Some s2 => Some ((h1, s2), e1, false) | None => None end
            | EFault => None
            end
        | None => None
        end
    | OPrefix i path p =>
        match te_in_reg i (te_mut_at path (te_act_prefix p)) h s e with
        | EOk (h1, s1, _, e1) => Some ((h1, s1), e1, true)
        | EThrow (h1, s1, e1) => Some ((h1, s1), e1, false)
        | EFault => None
        end
    | OValue i path v =>
        match te_in_reg i (te_mut_at path (te_act_value v)) h s e with
        | EOk (h1, s1, _, e1) => Some ((h1, s1), e1, true)
        | EThrow (h1, s1, e1) => Some ((h1, s1), e1, false)
        | EFault => None
        end
    | OInsert i path pos src =>
        match rtake src s with
        | Some (m, s0) =>
            match te_in_reg i (te_mut_at path (te_act_insert pos m)) h s0 e with
            | EOk (h1, s1, _, e1) => Some ((h1, s1), e1, true)
            | EThrow (h1, s1, e1) =>    (* the moved argument is dropped *)
                match drop_all h1 [m] with Some h2 => Some ((h2, s1), e1, false) | None => None end
            | EFault => None
            end
        | None => None
        end
    | ORemove i path pos j =>
        match te_in_reg i (te_mut_at path (te_act_remove pos)) h s e with
        | EOk (h1, s1, Some m, e1) => match rput j m s1 with Some s2 => Some ((h1, s2), e1, true) | None => None end
        | EOk (_, _, None, _) => None
        | EThrow (h1, s1, e1) => Some ((h1, s1), e1, false)
        | EFault => None
        end
    | OEmpty _ | ONew _ _ _ _ | OFrom true _ _ | OArchive _ _ | ODrop _ | OMove _ _ =>   (* nothing is cloned *)
        match hstep arc o st with Some st1 => Some (st1, e, true) | None => None end
    end.

  (** Programs that catch panics: after every step they go on as they like, depending on whether it panicked. *)
  Inductive tprog := TEnd | TDo (o : op K V) (returned panicked : tprog).
  (** the final state, and which steps returned *)
  Fixpoint te_run (q : tprog) (st : state K V) (e : E) : option (state K V * E * list bool) :=
    match q with
    | TEnd => Some (st, e, [])
    | TDo o q1 q2 =>
        match te_step o st e with
        | Some (st1, e1, ok) =>
            match te_run (if ok then q1 else q2) st1 e1 with
            | Some (st2, e2, l) => Some (st2, e2, ok :: l)
            | None => None
            end
        | None => None
        end
    end.
  End Machine.
End HeapThrow.
Arguments EOk {X Y}. Arguments EThrow {X Y}. Arguments EFault {X Y}.
Arguments tprog : clear implicits.
