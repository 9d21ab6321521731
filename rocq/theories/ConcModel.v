(** Model of ArcRadixTrees used from several threads at once (/repo/src/radix_tree/arc_radix_tree.rs; Arc<Vec<Self>> makes the
    tree Send and Sync). HeapModel.v runs one operation at a time; here every operation is a program of atomic accesses to
    the reference-counted vectors, and the scheduler may switch to another thread between any two of them.

    Interleavings are sequentially consistent: the Acquire/Release orderings of std's Arc are taken to be strong enough.
    Counts are unbounded. No Weak is ever created. The archive case [inl] of a node does not occur in an ArcRadixTree; it is
    given the obvious meaning. *)
From Verif Require Export HeapModel.

Section Conc.
  Context {K V : Type}.
  Notation tree := (rtree K V).
  Notation node := (node K V).
  Notation heap := (heap K V).

  (** ** Programs of atomic accesses *)
  CoInductive prog (A : Type) : Type :=
  | PRet (a : A)
  | PTau (k : prog A)                                       (* a step of this thread that touches nothing shared *)
  | PInc (a : nat) (k : prog A)                             (* std Arc::clone: fetch_add *)
  | PDec (a : nat) (k : option (list node) -> prog A)       (* std drop of an Arc: fetch_sub; the last owner gets the contents, to drop them *)
  | PNew (ns : list node) (k : nat -> prog A)               (* std Arc::new *)
  | PRead (a : nat) (k : list node -> prog A)               (* read the vector through a shared reference *)
  | PUniq (a : nat) (k : option (list node) -> prog A)      (* std Arc::make_mut: compare_exchange(1, 0) of the count. The sole owner
                                                               gets the vector to itself: until PBack nobody else may access it *)
  | PBack (a : nat) (ns : list node) (k : prog A)           (* the end of that exclusive access, with the new contents *)
  | PFault.                                                 (* undefined behaviour *)
  Arguments PRet {A}. Arguments PTau {A}. Arguments PInc {A}. Arguments PDec {A}. Arguments PNew {A}.
  Arguments PRead {A}. Arguments PUniq {A}. Arguments PBack {A}. Arguments PFault {A}.

  (** one atomic access; [None]: freed, unallocated or exclusively borrowed memory is touched (a data race or a use after
      free), or a count would underflow *)
  Definition pstep {A} (h : heap) (p : prog A) : option (heap * prog A) :=
    match p with
    | PRet _ | PFault => None
    | PTau k => Some (h, k)
    | PInc a k => match arc_clone h a with Some h' => Some (h', k) | None => None end
    | PDec a k =>
        match h_cell h a with
        | Some (1, ns) => Some (h_upd h a None, k (Some ns))
        | Some (S (S r), ns) => Some (h_upd h a (Some (S r, ns)), k None)
        | _ => None
        end
    | PNew ns k => let (h', a) := arc_new h ns in Some (h', k a)
    | PRead a k => match h_cell h a with Some (S _, ns) => Some (h, k ns) | _ => None end
    | PUniq a k =>
        match h_cell h a with
        | Some (1, ns) => Some (h_upd h a None, k (Some ns))
        | Some (S (S _), _) => Some (h, k None)
        | _ => None
        end
    | PBack a ns k =>
        match h_cell h a with
        | None => if a <? h_next h then Some (h_upd h a (Some (1, ns)), k) else None
        | Some _ => None
        end
    end.
  CoFixpoint pbind {A B} (p : prog A) (f : A -> prog B) : prog B :=
    match p with
    | PRet a => f a
    | PTau k => PTau (pbind k f)
    | PInc a k => PInc a (pbind k f)
    | PDec a k => PDec a (fun r => pbind (k r) f)
    | PNew ns k => PNew ns (fun a => pbind (k a) f)
    | PRead a k => PRead a (fun ns => pbind (k ns) f)
    | PUniq a k => PUniq a (fun r => pbind (k r) f)
    | PBack a ns k => PBack a ns (pbind k f)
    | PFault => PFault
    end.

  (** drop glue of nodes, in order (std Arc::drop, drop_slow, Vec::drop) *)
  CoFixpoint p_drop (work : list node) : prog unit :=
    match work with
    | [] => PRet tt
    | n :: work' =>
        match n_kids n with
        | inl _ => PTau (p_drop work')
        | inr a => PDec a (fun r => match r with Some ns => p_drop (ns ++ work') | None => p_drop work' end)
        end
    end.
  (** the count increments of std Vec::clone with derive(Clone) arc_radix_tree.rs:34 *)
  Fixpoint p_clone (ns : list node) : prog unit :=
    match ns with
    | [] => PRet tt
    | n :: ns' => match n_kids n with inl _ => PTau (p_clone ns') | inr a => PInc a (p_clone ns') end
    end.
  (** children() arc_radix_tree.rs:66-68 *)
  Definition p_children (n : node) : prog (list node) :=
    match n_kids n with inl ts => PTau (PRet (map shallow ts)) | inr a => PRead a (fun ns => PRet ns) end.
  (** children()[p1].children()[p2]...: [None] when an index is out of bounds *)
  Fixpoint p_walk (path : list nat) (n : node) : prog (option node) :=
    match path with
    | [] => PRet (Some n)
    | i :: path' =>
        pbind (p_children n) (fun ns => match nth_error ns i with Some c => p_walk path' c | None => PRet None end)
    end.
  (** children_mut arc_radix_tree.rs:89-96 (std Arc::make_mut): the node afterwards, the address of its vector and the
      vector, which is now exclusively borrowed. A shared vector is read and cloned element by element, the copy put into a new Arc,
      and this owner's share of the old Arc dropped: if all other owners went away meanwhile, that frees the old vector *)
  Definition p_children_mut (n : node) : prog (node * nat * list node) :=
    let uniq a :=
      PUniq a (fun r =>
        match r with
        | Some ns => PRet (with_arc n a, a, ns)
        | None =>
            PRead a (fun ns =>
            pbind (p_clone ns) (fun _ =>
            PNew ns (fun a' =>
            pbind (PDec a (fun r => match r with Some ms => p_drop ms | None => PRet tt end)) (fun _ =>
            PUniq a' (fun r => match r with Some ms => PRet (with_arc n a', a', ms) | None => PFault end)))))
        end) in
    match n_kids n with
    | inl ts => PNew (map shallow ts) uniq
    | inr a => uniq a
    end.
  (** a mutable borrow of the node at [path]; [None] when an index is out of bounds: the panic unwinds and the borrows end *)
  Fixpoint p_mut {X} (path : list nat) (act : node -> prog (node * option X)) (n : node) : prog (node * option X) :=
    match path with
    | [] => act n
    | i :: path' =>
        pbind (p_children_mut n) (fun '(n1, a, ns) =>
        match nth_error ns i with
        | Some c => pbind (p_mut path' act c) (fun '(c', x) => PBack a (upd_nth i c' ns) (PRet (n1, x)))
        | None => PBack a ns (PRet (n1, None))
        end)
    end.
  (** prefix_mut, value_mut arc_radix_tree.rs:81-87 *)
  Definition a_prefix (p : list K) (n : node) : prog (node * option unit) :=
    PTau (PRet (MkN p (n_value n) (n_kids n), Some tt)).
  Definition a_value (v : option V) (n : node) : prog (node * option unit) :=
    PTau (PRet (MkN (n_prefix n) v (n_kids n), Some tt)).
  (** children_mut().insert(j, m): [Some false] when j is out of bounds, which panics and drops m (std Vec::insert) *)
  Definition a_insert (j : nat) (m : node) (n : node) : prog (node * option bool) :=
    pbind (p_children_mut n) (fun '(n1, a, ns) =>
    if j <=? length ns then PBack a (firstn j ns ++ m :: skipn j ns) (PRet (n1, Some true))
    else pbind (p_drop [m]) (fun _ => PBack a ns (PRet (n1, Some false)))).
  (** children_mut().remove(j) *)
  Definition a_remove (j : nat) (n : node) : prog (node * option node) :=
    pbind (p_children_mut n) (fun '(n1, a, ns) =>
    match nth_error ns j with
    | Some m => PBack a (firstn j ns ++ skipn (S j) ns) (PRet (n1, Some m))
    | None => PBack a ns (PRet (n1, None))
    end).
  (** wrap_in_arc arc_radix_tree.rs:23-29 *)
  Definition p_wrap (ns : list node) : prog nat :=
    match ns with [] => PInc 0 (PRet 0) | _ => PNew ns (fun a => PRet a) end.
  (** From<RadixTree> arc_radix_tree.rs:99-109 *)
  Fixpoint p_from (t : tree) : prog node :=
    let 'Node p v ts := t in
    pbind ((fix go (ts : list tree) : prog (list node) :=
              match ts with
              | [] => PRet []
              | c :: ts' => pbind (p_from c) (fun n => pbind (go ts') (fun ns => PRet (n :: ns)))
              end) ts) (fun ns => pbind (p_wrap ns) (fun a => PRet (MkN p v (inr a)))).

  (** ** Threads. Each has registers of its own; [Shared g] is a shared reference to the g-th tree of a list that outlives all
      threads; the slots are mutexes that trees can be moved into, moved out of and cloned from. *)
  Inductive place := Own (i : nat) | Shared (g : nat).
  Inductive cop :=
  | CEmpty (j : nat)                                        (* j = Default::default() *)
  | CNew (p : list K) (v : option V) (src : list nat) (j : nat) (* j = new(p, v, vec![src..]) *)
  | CFrom (t : tree) (j : nat)                              (* j = t.into(), t a RadixTree *)
  | CGet (x : place) (path : list nat) (j : nat)            (* j = x.children()[p1].children()[p2]....clone() *)
  | CLook (x : place) (path : list nat)                     (* read prefix(), value(), children().len() of that node *)
  | CDrop (i : nat)                                         (* drop(i) *)
  | CMove (i j : nat)                                       (* j = i *)
  | CPrefix (i : nat) (path : list nat) (p : list K)        (* *i[path].prefix_mut() = p *)
  | CValue (i : nat) (path : list nat) (v : option V)       (* *i[path].value_mut() = v *)
  | CInsert (i : nat) (path : list nat) (pos src : nat)     (* i[path].children_mut().insert(pos, src) *)
  | CRemove (i : nat) (path : list nat) (pos j : nat)       (* j = i[path].children_mut().remove(pos) *)
  | CSend (i s : nat)                                       (* move i into the slot s, if it is empty *)
  | CRecv (s j : nat)                                       (* move the tree in slot s to j *)
  | CPeek (s j : nat).                                      (* j = clone of the tree in slot s *)
  (** what the caller learns. [ABad]: an index is out of bounds and the call panics, which the thread catches; or a register
      or slot is not in the state the call needs (which the compiler, or the caller, would rule out): nothing is done *)
  Inductive answer := AOk | ABad | ASaw (p : list K) (v : option V) (kids : nat).
  (** a thread decides what to do next by what it has learnt so far *)
  CoInductive strat := SEnd | SDo (o : cop) (k : answer -> strat).

  Definition pick (G : list node) (s : regs node) (x : place) : option node :=
    match x with Own i => rget i s | Shared g => nth_error G g end.
  Definition p_ret (s : regs node) (a : answer) : prog (regs node * answer) := PRet (s, a).
  (** a call, from the registers [s] before it to the registers and the answer after it (not for the slots) *)
  Definition code (G : list node) (o : cop) (s : regs node) : prog (regs node * answer) :=
    match o with
    | CEmpty j =>
        match nth_error s j with
        | Some None => PInc 0 (p_ret (upd_nth j (Some (MkN [] None (inr 0))) s) AOk)
        | _ => p_ret s ABad
        end
    | CNew p v src j =>
        match rtakes src s with
        | Some (ns, s1) =>
            match nth_error s1 j with
            | Some None => pbind (p_wrap ns) (fun a => p_ret (upd_nth j (Some (MkN p v (inr a))) s1) AOk)
            | _ => p_ret s ABad
            end
        | None => p_ret s ABad
        end
    | CFrom t j =>
        match nth_error s j with
        | Some None => pbind (p_from t) (fun n => p_ret (upd_nth j (Some n) s) AOk)
        | _ => p_ret s ABad
        end
    | CGet x path j =>
        match pick G s x, nth_error s j with
        | Some n, Some None =>
            pbind (p_walk path n) (fun r =>
              match r with
              | Some c => pbind (p_clone [c]) (fun _ => p_ret (upd_nth j (Some c) s) AOk)
              | None => p_ret s ABad
              end)
        | _, _ => p_ret s ABad
        end
    | CLook x path =>
        match pick G s x with
        | Some n =>
            pbind (p_walk path n) (fun r =>
              match r with
              | Some c => pbind (p_children c) (fun ns => p_ret s (ASaw (n_prefix c) (n_value c) (length ns)))
              | None => p_ret s ABad
              end)
        | None => p_ret s ABad
        end
    | CDrop i =>
        match rtake i s with
        | Some (n, s1) => pbind (p_drop [n]) (fun _ => p_ret s1 AOk)
        | None => p_ret s ABad
        end
    | CMove i j =>
        match rtake i s with
        | Some (n, s1) => match rput j n s1 with Some s2 => PTau (p_ret s2 AOk) | None => p_ret s ABad end
        | None => p_ret s ABad
        end
    | CPrefix i path p =>
        match rget i s with
        | Some n =>
            pbind (p_mut path (a_prefix p) n) (fun '(n1, x) =>
              p_ret (upd_nth i (Some n1) s) (match x with Some _ => AOk | None => ABad end))
        | None => p_ret s ABad
        end
    | CValue i path v =>
        match rget i s with
        | Some n =>
            pbind (p_mut path (a_value v) n) (fun '(n1, x) =>
              p_ret (upd_nth i (Some n1) s) (match x with Some _ => AOk | None => ABad end))
        | None => p_ret s ABad
        end
    | CInsert i path pos src =>
        match rtake src s with
        | Some (m, s0) =>
            match rget i s0 with
            | Some n =>
                pbind (p_mut path (a_insert pos m) n) (fun '(n1, x) =>
                  match x with
                  | Some true => p_ret (upd_nth i (Some n1) s0) AOk
                  | Some false => p_ret (upd_nth i (Some n1) s0) ABad
                  | None => p_ret (upd_nth i (Some n1) s) ABad
                  end)
            | None => p_ret s ABad
            end
        | None => p_ret s ABad
        end
    | CRemove i path pos j =>
        match rget i s, nth_error s j with
        | Some n, Some None =>
            pbind (p_mut path (a_remove pos) n) (fun '(n1, x) =>
              match x with
              | Some m => p_ret (upd_nth j (Some m) (upd_nth i (Some n1) s)) AOk
              | None => p_ret (upd_nth i (Some n1) s) ABad
              end)
        | _, _ => p_ret s ABad
        end
    | CSend _ _ | CRecv _ _ | CPeek _ _ => p_ret s ABad
    end.

  (** a thread between calls, with its registers; or inside a call *)
  Inductive thread := Idle (s : regs node) (st : strat) | Busy (p : prog (regs node * answer)) (k : answer -> strat).
  (** [m_log]: the answers in the order in which the calls returned, last first, with the thread that got them *)
  Record mach := MkM { m_heap : heap; m_slots : regs node; m_threads : list thread; m_log : list (nat * answer) }.

  (** a call on a slot, which is locked for its duration: one atomic step *)
  Inductive slotres := SNone | SDone (h : heap) (sl s : regs node) | SRefused | SFault.
  Definition slot_op (o : cop) (h : heap) (sl s : regs node) : slotres :=
    match o with
    | CSend i x =>
        match rtake i s with
        | Some (n, s1) => match rput x n sl with Some sl1 => SDone h sl1 s1 | None => SRefused end
        | None => SRefused
        end
    | CRecv x j =>
        match rtake x sl with
        | Some (n, sl1) => match rput j n s with Some s1 => SDone h sl1 s1 | None => SRefused end
        | None => SRefused
        end
    | CPeek x j =>
        match rget x sl with
        | Some n =>
            match rput j n s with
            | Some s1 => match node_clone h n with Some (h1, _) => SDone h1 sl s1 | None => SFault end
            | None => SRefused
            end
        | None => SRefused
        end
    | _ => SNone
    end.

  (** [SkipT]: the thread has nothing to do; [FaultT]: undefined behaviour *)
  Inductive outcome := RanT (m : mach) | SkipT | FaultT.
  (** thread [i] makes one step *)
  Definition mstep (G : list node) (i : nat) (m : mach) : outcome :=
    match nth_error (m_threads m) i with
    | None | Some (Idle _ SEnd) => SkipT
    | Some (Idle s (SDo o k)) =>
        match slot_op o (m_heap m) (m_slots m) s with
        | SDone h1 sl1 s1 => RanT (MkM h1 sl1 (upd_nth i (Idle s1 (k AOk)) (m_threads m)) ((i, AOk) :: m_log m))
        | SRefused => RanT (MkM (m_heap m) (m_slots m) (upd_nth i (Idle s (k ABad)) (m_threads m)) ((i, ABad) :: m_log m))
        | SFault => FaultT
        | SNone => RanT (MkM (m_heap m) (m_slots m) (upd_nth i (Busy (code G o s) k) (m_threads m)) (m_log m))
        end
    | Some (Busy (PRet (s, a)) k) => RanT (MkM (m_heap m) (m_slots m) (upd_nth i (Idle s (k a)) (m_threads m)) ((i, a) :: m_log m))
    | Some (Busy p k) =>
        match pstep (m_heap m) p with
        | Some (h1, p1) => RanT (MkM h1 (m_slots m) (upd_nth i (Busy p1 k) (m_threads m)) (m_log m))
        | None => FaultT
        end
    end.
  (** the scheduler picks the threads one after the other; [None]: undefined behaviour *)
  Fixpoint mrun (G : list node) (sched : list nat) (m : mach) : option mach :=
    match sched with
    | [] => Some m
    | i :: sched' =>
        match mstep G i m with
        | RanT m' => mrun G sched' m'
        | SkipT => mrun G sched' m
        | FaultT => None
        end
    end.
  (** all registers and slots are empty, no call has been made *)
  Definition minit (h : heap) (slots regs : nat) (sts : list strat) : mach :=
    MkM h (repeat None slots) (map (Idle (repeat None regs)) sts) [].
End Conc.
Arguments prog : clear implicits.
Arguments cop : clear implicits.
Arguments strat : clear implicits.
Arguments answer : clear implicits.
Arguments mach : clear implicits.
Arguments thread : clear implicits.
Arguments PRet {K V A}. Arguments PTau {K V A}. Arguments PInc {K V A}. Arguments PDec {K V A}. Arguments PNew {K V A}.
Arguments PRead {K V A}. Arguments PUniq {K V A}. Arguments PBack {K V A}. Arguments PFault {K V A}.
