(** Model of a LazyRadixTree that several threads read at once (/repo/src/radix_tree/lazy_radix_tree.rs).

    LazyModel.v has one Lazy; here the whole tree: every node has a Lazy of its own, loading the children of a node makes
    new nodes with new Lazys, and every thread runs a program that walks through the tree by prefix(), value() and
    children() and may clone any node it has reached. One step is one atomic action of one thread: taking or releasing a
    mutex, inspecting the data, the end of materialize_shallow, writing the data, the final read outside the mutex.
    The threads start with references to the same roots, which is more sharing than Rust allows (LazyRadixTree is Send, not
    Sync: safe code shares the Lazys below clones only). The memory they start with may be loaded to any degree.
    Simplifications: as in LazyModel.v (sequentially consistent memory, ideal mutex). Nothing is freed (reference counts
    are the subject of C68, C97 and C99), and a thread does not change the tree (children_mut works on vectors that
    nobody else can see, or reads and clones them). *)
From Verif Require Export RadixModel.

Section LazyTree.
  Context {K V : Type}.
  Notation tree := (rtree K V).
  (** V::clone may panic when the children [ts] of a node are materialised *)
  Context (bad : list tree -> Prop).

  (** LazyRadixTree lazy_radix_tree.rs:22-32: prefix, value, the number of its Lazy *)
  Definition lnode : Type := list K * option V * nat.
  (** Either<&[Archived], Arc<Vec<Self>>> lazy_radix_tree.rs:31, 261-265: a slice of the archive (immutable, a list of
      trees), or the address of a vector of nodes *)
  Notation content := (list tree + nat)%type.
  (** Lazy lazy_radix_tree.rs:236-239: who holds the mutex, the data *)
  Record lcell := MkL { l_lock : option nat; l_data : content }.
  Record lmem := MkMem { m_cells : list lcell; m_vecs : list (list lnode) }.

  (** ** What a thread does: any program that decides by what it has seen so far. Nodes are numbered in the order in which
      the thread got to know them; [Kids r] calls children() of the r-th, the answer are the prefixes and values of the children
      (which get the next numbers), or [None] if the call panicked (and the panic was caught) or there is no r-th node;
      [Copy r] clones the r-th node and gives the clone the next number *)
  Inductive walk (X : Type) : Type :=
  | Answer (x : X)
  | Kids (r : nat) (k : option (list (list K * option V)) -> walk X)
  | Copy (r : nat) (k : walk X).
  Arguments Answer {X}. Arguments Kids {X}. Arguments Copy {X}.

  Section Machine.
  Context {X : Type}.
  (** where a thread is in a call; the comments give the line of get_or_create 303-315 or Clone 249-259 *)
  Inductive at_ :=
  | Between                            (* between two calls *)
  | Want (c : nat)                     (* get_or_create, before mutex.lock(), 305 *)
  | Crit (c : nat)                     (* holds the mutex, about to look at the data, 275 *)
  | Run (c : nat) (ts : list tree)     (* running materialize_shallow, 276 *)
  | Wr (c : nat) (a : nat)             (* about to write the data, 276 *)
  | Unwind (c : nat)                   (* V::clone panicked, the guard is about to be dropped *)
  | Rel (c : nat)                      (* before drop(guard), 308 *)
  | Rd (c : nat)                       (* before the read without the mutex, 309 *)
  | CWant (n : lnode)                  (* clone, before mutex.lock(), 251 *)
  | CCrit (n : lnode)                  (* clone, holds the mutex, 252 *)
  | CRel (n : lnode) (d : content).    (* clone, before drop(guard), 253 *)
  (** [Seen]: the nodes the thread has references to *)
  Record lthread := MkT { t_walk : walk X; t_seen : list lnode; t_at : at_ }.
  Record lst := MkLs { s_mem : lmem; s_thr : list lthread }.
  (** what an observer counts: materialize_shallow finished for the Lazy [c] *)
  Definition loads := list nat.

  Definition set_nth {Y} (i : nat) (y : Y) (l : list Y) : list Y := firstn i l ++ y :: skipn (S i) l.
  Definition lock_cell (m : lmem) (c : nat) (o : option nat) (d : content) : lmem :=
    MkMem (set_nth c (MkL o d) (m_cells m)) (m_vecs m).
  Definition summary (n : lnode) : list K * option V := fst n.
  (** materialize_shallow lazy_radix_tree.rs:154-167: a new vector of nodes with new Lazys that hold slices of the archive *)
  Definition m_shallow (m : lmem) (ts : list tree) : lmem * nat :=
    let first := length (m_cells m) in
    let nodes := map (fun '(t, j) => (t_prefix t, t_value t, first + j)) (combine ts (seq 0 (length ts))) in
    (MkMem (m_cells m ++ map (fun t => MkL None (inl (t_children t))) ts) (m_vecs m ++ [nodes]), length (m_vecs m)).

  (** one step of thread [i], from where it is; [None]: it cannot step (it waits for a mutex, or has answered, or memory that
      does not exist is accessed). [crash]: user code panics in this step. The last component: the Lazy that was loaded *)
  Definition lstep (i : nat) (crash : bool) (m : lmem) (t : lthread) : option (lmem * lthread * loads) :=
    let go m' w s a := Some (m', MkT w s a, []) in
    match t_at t with
    | Between =>
        match t_walk t with
        | Answer _ => None
        | Kids r k => match nth_error (t_seen t) r with
                      | Some n => go m (t_walk t) (t_seen t) (Want (snd n))
                      | None => go m (k None) (t_seen t) Between
                      end
        | Copy r k => match nth_error (t_seen t) r with
                      | Some n => go m (t_walk t) (t_seen t) (CWant n)
                      | None => go m k (t_seen t) Between
                      end
        end
    | Want c =>
        match nth_error (m_cells m) c with
        | Some (MkL None d) => go (lock_cell m c (Some i) d) (t_walk t) (t_seen t) (Crit c)
        | _ => None
        end
    | Crit c =>
        match nth_error (m_cells m) c with
        | Some (MkL _ (inl ts)) => go m (t_walk t) (t_seen t) (Run c ts)
        | Some (MkL _ (inr _)) => go m (t_walk t) (t_seen t) (Rel c)
        | None => None
        end
    | Run c ts =>
        if crash then go m (t_walk t) (t_seen t) (Unwind c)
        else let (m', a) := m_shallow m ts in Some (m', MkT (t_walk t) (t_seen t) (Wr c a), [c])
    | Wr c a =>
        match nth_error (m_cells m) c with
        | Some (MkL l _) => go (lock_cell m c l (inr a)) (t_walk t) (t_seen t) (Rel c)
        | None => None
        end
    | Unwind c =>
        match nth_error (m_cells m) c, t_walk t with
        | Some (MkL _ d), Kids _ k => go (lock_cell m c None d) (k None) (t_seen t) Between
        | _, _ => None
        end
    | Rel c =>
        match nth_error (m_cells m) c with
        | Some (MkL _ d) => go (lock_cell m c None d) (t_walk t) (t_seen t) (Rd c)
        | None => None
        end
    | Rd c =>
        match nth_error (m_cells m) c, t_walk t with
        | Some (MkL _ (inr a)), Kids _ k =>
            match nth_error (m_vecs m) a with
            | Some ns => go m (k (Some (map summary ns))) (t_seen t ++ ns) Between
            | None => None
            end
        | Some (MkL _ (inl _)), Kids _ k => go m (k None) (t_seen t) Between   (* the panic!() of line 312 *)
        | _, _ => None
        end
    | CWant n =>
        match nth_error (m_cells m) (snd n) with
        | Some (MkL None d) => go (lock_cell m (snd n) (Some i) d) (t_walk t) (t_seen t) (CCrit n)
        | _ => None
        end
    | CCrit n =>
        match nth_error (m_cells m) (snd n) with
        | Some (MkL _ d) => go m (t_walk t) (t_seen t) (CRel n d)
        | None => None
        end
    | CRel n d =>
        (* unlock, and a new Lazy with the copied data, 253-257 *)
        match nth_error (m_cells m) (snd n), t_walk t with
        | Some (MkL _ d0), Copy _ k =>
            let m1 := lock_cell m (snd n) None d0 in
            go (MkMem (m_cells m1 ++ [MkL None d]) (m_vecs m1)) k (t_seen t ++ [(fst n, length (m_cells m1))]) Between
        | _, _ => None
        end
    end.

  (** the scheduler picks a thread that can step; user code may panic while it materialises a [bad] list of children *)
  Inductive lsteps : lst -> loads -> lst -> Prop :=
  | ls_step i (crash : bool) m ts t m' t' l : nth_error ts i = Some t -> lstep i crash m t = Some (m', t', l) ->
      (crash = true -> forall c cs, t_at t = Run c cs -> bad cs) ->
      lsteps (MkLs m ts) l (MkLs m' (set_nth i t' ts)).
  (** any execution, with the loads it did *)
  Inductive lexec : lst -> loads -> lst -> Prop :=
  | le_nil s : lexec s [] s
  | le_step s l s1 l1 s2 : lexec s l s1 -> lsteps s1 l1 s2 -> lexec s (l ++ l1) s2.
  (** every thread has references to the same trees [roots], and nobody is inside a call *)
  Definition lstart (m : lmem) (roots : list lnode) (ws : list (walk X)) : lst :=
    MkLs m (map (fun w => MkT w roots Between) ws).
  End Machine.

  (** ** Where the trees come from *)
  (** Lazy::uninitialized lazy_radix_tree.rs:282-284: a root whose children are a slice of the archive *)
  Definition m_lazy (m : lmem) (t : tree) : lmem * lnode :=
    (MkMem (m_cells m ++ [MkL None (inl (t_children t))]) (m_vecs m), (t_prefix t, t_value t, length (m_cells m))).
  (** From<&ArchivedLazyRadixTree> lazy_radix_tree.rs:124-136 and From<RadixTree> lazy_radix_tree.rs:83-98: the children first,
      then their vector, everything loaded *)
  Fixpoint m_from (m : lmem) (t : tree) : lmem * lnode :=
    let 'Node p v ts := t in
    let '(m1, ns) := (fix go (m : lmem) (ts : list tree) : lmem * list lnode :=
                        match ts with
                        | [] => (m, [])
                        | t :: ts' => let '(m1, n) := m_from m t in let '(m2, ns) := go m1 ts' in (m2, n :: ns)
                        end) m ts in
    (MkMem (m_cells m1 ++ [MkL None (inr (length (m_vecs m1)))]) (m_vecs m1 ++ [ns]), (p, v, length (m_cells m1))).
End LazyTree.
Arguments walk : clear implicits.
Arguments lthread : clear implicits.
Arguments lst : clear implicits.
Arguments lnode : clear implicits.
Arguments lmem : clear implicits.
Arguments lcell : clear implicits.
Arguments at_ : clear implicits.
Arguments Answer {K V X}. Arguments Kids {K V X}. Arguments Copy {K V X}.
