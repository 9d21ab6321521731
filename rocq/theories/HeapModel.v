(** Model of the shared, copy-on-write nodes of
    /repo/src/radix_tree/arc_radix_tree.rs and lazy_radix_tree.rs: a heap of reference-counted
    vectors of nodes ([Arc<Vec<Self>>]).

    ArcRadixTree and LazyRadixTree differ only in the type of the children field:
    [Arc<Vec<Self>>] (arc_radix_tree.rs:42) and [Lazy<&[Archived], Arc<Vec<Self>>>]
    (lazy_radix_tree.rs:31), so one node type serves both; ArcRadixTree never builds [inl].
    An operation returns [None] when it would touch freed or unallocated memory, overflow or
    underflow a count, or index out of bounds. Counts are unbounded (Arc aborts at isize::MAX).
    One operation runs at a time; concurrent access to one Lazy is LazyModel.v. *)
From Verif Require Export RadixSpec.

Section Heap.
  Context {K V : Type}.
  Notation tree := (rtree K V).

  (** arc_radix_tree.rs:35-43, lazy_radix_tree.rs:22-32: [inl] is Either::A (a slice of the archive,
      immutable, so a list of trees), [inr] an Arc *)
  Record node := MkN { n_prefix : list K; n_value : option V; n_kids : list tree + nat }.

  (** strong count and contents of every live Arc; an address is never reused *)
  Record heap := MkH { h_next : nat; h_cell : nat -> option (nat * list node) }.
  Definition h_upd (h : heap) (a : nat) (c : option (nat * list node)) : heap :=
    MkH (h_next h) (fun b => if b =? a then c else h_cell h b).

  (** std Arc::new *)
  Definition arc_new (h : heap) (ns : list node) : heap * nat :=
    (MkH (S (h_next h)) (fun b => if b =? h_next h then Some (1, ns) else h_cell h b), h_next h).
  (** std Arc::clone *)
  Definition arc_clone (h : heap) (a : nat) : option heap :=
    match h_cell h a with
    | Some (rc, ns) => Some (h_upd h a (Some (S rc, ns)))
    | None => None
    end.
  (** derive(Clone) arc_radix_tree.rs:34; lazy_radix_tree.rs:22 with Clone for Lazy 249-259. The
      copies of prefix and value are equal to the originals. *)
  Definition node_clone (h : heap) (n : node) : option (heap * node) :=
    match n_kids n with
    | inl _ => Some (h, n)
    | inr a => match arc_clone h a with Some h' => Some (h', n) | None => None end
    end.
  (** std Vec::clone *)
  Fixpoint nodes_clone (h : heap) (ns : list node) : option (heap * list node) :=
    match ns with
    | [] => Some (h, [])
    | n :: ns' =>
        match node_clone h n with
        | Some (h1, n') =>
            match nodes_clone h1 ns' with
            | Some (h2, l) => Some (h2, n' :: l)
            | None => None
            end
        | None => None
        end
    end.
  (** std Arc::make_mut (no Weak is ever created): the sole owner keeps the vector, any other owner
      gets a copy in a new Arc and gives up its share of the old one *)
  Definition make_mut (h : heap) (a : nat) : option (heap * nat) :=
    match h_cell h a with
    | None | Some (0, _) => None
    | Some (1, _) => Some (h, a)
    | Some (S (S _), ns) =>
        match nodes_clone h ns with
        | Some (h1, ns') =>
            let (h2, a') := arc_new h1 ns' in
            match h_cell h2 a with
            | Some (S (S r), ms) => Some (h_upd h2 a (Some (S r, ms)), a')
            | _ => None
            end
        | None => None
        end
    end.

  (** drop of nodes, in order; the last owner of a vector frees it and drops its elements.
      [drop_all] has fuel for every node on the heap (std drop glue has no such bound) *)
  Fixpoint drop_loop (fuel : nat) (h : heap) (work : list node) : option heap :=
    match fuel with
    | 0 => None
    | S fuel' =>
        match work with
        | [] => Some h
        | n :: work' =>
            match n_kids n with
            | inl _ => drop_loop fuel' h work'
            | inr a =>
                match h_cell h a with
                | Some (1, ns) => drop_loop fuel' (h_upd h a None) (ns ++ work')
                | Some (S (S r), ns) => drop_loop fuel' (h_upd h a (Some (S r, ns))) work'
                | _ => None
                end
            end
        end
    end.
  Definition cell_len (h : heap) (a : nat) : nat :=
    match h_cell h a with Some (_, ns) => length ns | None => 0 end.
  Definition h_nodes (h : heap) : nat := list_sum (map (cell_len h) (seq 0 (h_next h))).
  Definition drop_all (h : heap) (work : list node) : option heap :=
    drop_loop (S (length work + h_nodes h)) h work.

  (** the closure of materialize_shallow lazy_radix_tree.rs:160-164 *)
  Definition shallow (t : tree) : node := let 'Node p v ts := t in MkN p v (inl ts).
  (** Lazy::get_or_create / get_or_create_mut with materialize_shallow
      lazy_radix_tree.rs:101-107, 154-167, 303-330 *)
  Definition force (h : heap) (n : node) : heap * nat :=
    match n_kids n with
    | inl ts => arc_new h (map shallow ts)
    | inr a => (h, a)
    end.
  Definition with_arc (n : node) (a : nat) : node := MkN (n_prefix n) (n_value n) (inr a).

  (** children_mut arc_radix_tree.rs:89-96, lazy_radix_tree.rs:78-80 *)
  Definition children_mut (h : heap) (n : node) : option (heap * node * nat) :=
    let (h1, a) := force h n in
    match make_mut h1 a with
    | Some (h2, a') => Some (h2, with_arc n a', a')
    | None => None
    end.

  (** children() through a shared reference forces the children of the node where it lies: in slot
      [i] of the vector at [a], which may be shared (interior mutability) *)
  Definition upd_nth {X} (i : nat) (x : X) (l : list X) : list X := firstn i l ++ x :: skipn (S i) l.
  Definition force_at (h : heap) (a i : nat) : option heap :=
    match h_cell h a with
    | Some (rc, ns) =>
        match nth_error ns i with
        | Some c => let (h1, b) := force h c in
                    Some (h_upd h1 a (Some (rc, upd_nth i (with_arc c b) ns)))
        | None => None
        end
    | None => None
    end.
  (** children(): force every node along [path] below the vector at [a]; the address of the children of
      the last one *)
  Fixpoint touch_at (path : list nat) (h : heap) (a : nat) : option (heap * nat) :=
    match path with
    | [] => Some (h, a)
    | i :: path' =>
        match force_at h a i with
        | Some h1 =>
            match h_cell h1 a with
            | Some (_, ns) =>
                match nth_error ns i with
                | Some c => match n_kids c with inr b => touch_at path' h1 b | inl _ => None end
                | None => None
                end
            | None => None
            end
        | None => None
        end
    end.
  Definition touch (path : list nat) (h : heap) (n : node) : option (heap * node * nat) :=
    let (h1, a) := force h n in
    match touch_at path h1 a with
    | Some (h2, b) => Some (h2, with_arc n a, b)
    | None => None
    end.

  (** A mutable borrow of a node below another one: [children_mut] at every level. While the element
      is borrowed, the vector it lies in is inaccessible: it is taken out of the heap. *)
  Definition action := heap -> node -> option (heap * node * option node).
  Fixpoint mut_at (path : list nat) (act : action) : action := fun h n =>
    match path with
    | [] => act h n
    | i :: path' =>
        match children_mut h n with
        | Some (h1, n1, a) =>
            match h_cell h1 a with
            | Some (rc, ns) =>
                match nth_error ns i with
                | Some c =>
                    match mut_at path' act (h_upd h1 a None) c with
                    | Some (h2, c', x) => Some (h_upd h2 a (Some (rc, upd_nth i c' ns)), n1, x)
                    | None => None
                    end
                | None => None
                end
            | None => None
            end
        | None => None
        end
    end.
  (** through prefix_mut / value_mut arc_radix_tree.rs:81-87, lazy_radix_tree.rs:70-76 *)
  Definition act_prefix (p : list K) : action := fun h n => Some (h, MkN p (n_value n) (n_kids n), None).
  Definition act_value (v : option V) : action := fun h n => Some (h, MkN (n_prefix n) v (n_kids n), None).
  (** [children_mut().insert(j, m)] and [children_mut().remove(j)]: every other way of changing a vector
      of nodes (push, retain, mem::take, the in-place merges) is a sequence of these *)
  Definition act_insert (j : nat) (m : node) : action := fun h n =>
    match children_mut h n with
    | Some (h1, n1, a) =>
        match h_cell h1 a with
        | Some (rc, ns) =>
            if j <=? length ns then Some (h_upd h1 a (Some (rc, firstn j ns ++ m :: skipn j ns)), n1, None) else None
        | None => None
        end
    | None => None
    end.
  Definition act_remove (j : nat) : action := fun h n =>
    match children_mut h n with
    | Some (h1, n1, a) =>
        match h_cell h1 a with
        | Some (rc, ns) =>
            match nth_error ns j with
            | Some m => Some (h_upd h1 a (Some (rc, firstn j ns ++ skipn (S j) ns)), n1, Some m)
            | None => None
            end
        | None => None
        end
    | None => None
    end.

  (** ** A machine with registers holding owned trees.
      Address 0 is the shared empty vector of arc_radix_tree.rs:16 (EMPTY_ARC_VEC), of which the
      static keeps one share for ever. *)
  Definition regs (X : Type) := list (option X).
  Definition rget {X} (i : nat) (s : regs X) : option X :=
    match nth_error s i with Some (Some x) => Some x | _ => None end.
  Definition rset {X} (i : nat) (x : option X) (s : regs X) : option (regs X) :=
    match nth_error s i with Some _ => Some (upd_nth i x s) | None => None end.
  (** store into an empty register *)
  Definition rput {X} (i : nat) (x : X) (s : regs X) : option (regs X) :=
    match nth_error s i with Some None => Some (upd_nth i (Some x) s) | _ => None end.
  (** move out of a register *)
  Definition rtake {X} (i : nat) (s : regs X) : option (X * regs X) :=
    match rget i s with Some x => Some (x, upd_nth i None s) | None => None end.
  Fixpoint rtakes {X} (l : list nat) (s : regs X) : option (list X * regs X) :=
    match l with
    | [] => Some ([], s)
    | i :: l' =>
        match rtake i s with
        | Some (x, s1) => match rtakes l' s1 with Some (xs, s2) => Some (x :: xs, s2) | None => None end
        | None => None
        end
    end.

  Inductive op :=
  | OEmpty (j : nat)                                            (* j = Default::default() *)
  | ONew (p : list K) (v : option V) (src : list nat) (j : nat) (* j = new(p, v, vec![src..]), moving src *)
  | OFrom (w : bool) (t : tree) (j : nat)                       (* j = t.into(), t a RadixTree (w = true) or an archived tree (w = false) *)
  | OArchive (t : tree) (j : nat)                               (* j = a node whose children lie in an archive *)
  | OClone (i j : nat)                                          (* j = i.clone() *)
  | ODrop (i : nat)                                             (* drop(i) *)
  | OMove (i j : nat)                                           (* j = i *)
  | OTouch (i : nat) (path : list nat)                          (* i.children()[p1].children()[p2]... *)
  | OSub (i : nat) (path : list nat) (k j : nat)                (* j = i.children()[p1].children()[p2]...children()[k].clone() *)
  | OPrefix (i : nat) (path : list nat) (p : list K)            (* *i[path].prefix_mut() = p *)
  | OValue (i : nat) (path : list nat) (v : option V)           (* *i[path].value_mut() = v *)
  | OInsert (i : nat) (path : list nat) (pos src : nat)         (* i[path].children_mut().insert(pos, src) *)
  | ORemove (i : nat) (path : list nat) (pos j : nat).          (* j = i[path].children_mut().remove(pos) *)

  (** [arc]: true for ArcRadixTree, false for LazyRadixTree *)
  Section Machine.
  Context (arc : bool).
  (** wrap_in_arc arc_radix_tree.rs:23-29 (used by new, 72-79); Arc::new in LazyRadixTree::new lazy_radix_tree.rs:61-68 *)
  Definition wrap (h : heap) (ns : list node) : option (heap * nat) :=
    match arc, ns with
    | true, [] => match arc_clone h 0 with Some h' => Some (h', 0) | None => None end
    | _, _ => Some (arc_new h ns)
    end.
  (** From<RadixTree> arc_radix_tree.rs:99-109 (through new); From<&Archived> arc_radix_tree.rs:133-145;
      lazy_radix_tree.rs:83-98 and 124-136: children first, then their vector *)
  Fixpoint of_tree (w : bool) (h : heap) (t : tree) : option (heap * node) :=
    let 'Node p v ts := t in
    match (fix go (h : heap) (ts : list tree) : option (heap * list node) :=
             match ts with
             | [] => Some (h, [])
             | c :: ts' =>
                 match of_tree w h c with
                 | Some (h1, n) => match go h1 ts' with Some (h2, ns) => Some (h2, n :: ns) | None => None end
                 | None => None
                 end
             end) h ts with
    | Some (h1, ns) =>
        match (if w then wrap h1 ns else Some (arc_new h1 ns)) with
        | Some (h2, a) => Some (h2, MkN p v (inr a))
        | None => None
        end
    | None => None
    end.
  (** Default: arc_radix_tree.rs:45-53; lazy_radix_tree.rs:34-42 with Default for Lazy / Either
      (235, 267-271): an empty slice *)
  Definition mk_empty (h : heap) : option (heap * node) :=
    if arc then match arc_clone h 0 with Some h' => Some (h', MkN [] None (inr 0)) | None => None end
    else Some (h, MkN [] None (inl [])).

  Definition state := (heap * regs node)%type.
  (** mutate the tree in register i in place *)
  Definition in_reg (i : nat) (act : action) (h : heap) (s : regs node) : option (heap * regs node * option node) :=
    match rtake i s with
    | Some (n, s1) =>
        match act h n with
        | Some (h1, n1, x) => match rput i n1 s1 with Some s2 => Some (h1, s2, x) | None => None end
        | None => None
        end
    | None => None
    end.
  Definition hstep (o : op) (st : state) : option state :=
    let (h, s) := st in
    match o with
    | OEmpty j =>
        match mk_empty h with
        | Some (h1, n) => match rput j n s with Some s1 => Some (h1, s1) | None => None end
        | None => None
        end
    | ONew p v src j =>
        match rtakes src s with
        | Some (ns, s1) =>
            match wrap h ns with
            | Some (h1, a) => match rput j (MkN p v (inr a)) s1 with Some s2 => Some (h1, s2) | None => None end
            | None => None
            end
        | None => None
        end
    | OFrom w t j =>
        match of_tree w h t with
        | Some (h1, n) => match rput j n s with Some s1 => Some (h1, s1) | None => None end
        | None => None
        end
    | OArchive t j => match rput j (shallow t) s with Some s1 => Some (h, s1) | None => None end
    | OClone i j =>
        match rget i s with
        | Some n =>
            match node_clone h n with
            | Some (h1, n') => match rput j n' s with Some s1 => Some (h1, s1) | None => None end
            | None => None
            end
        | None => None
        end
    | ODrop i =>
        match rtake i s with
        | Some (n, s1) => match drop_all h [n] with Some h1 => Some (h1, s1) | None => None end
        | None => None
        end
    | OMove i j =>
        match rtake i s with
        | Some (n, s1) => match rput j n s1 with Some s2 => Some (h, s2) | None => None end
        | None => None
        end
    | OTouch i path =>
        match rtake i s with
        | Some (n, s1) =>
            match touch path h n with
            | Some (h1, n1, _) => match rput i n1 s1 with Some s2 => Some (h1, s2) | None => None end
            | None => None
            end
        | None => None
        end
    | OSub i path k j =>
        match rtake i s with
        | Some (n, s1) =>
            match touch path h n with
            | Some (h1, n1, b) =>
                match rput i n1 s1, h_cell h1 b with
                | Some s2, Some (_, ns) =>
                    match nth_error ns k with
                    | Some c =>
                        match node_clone h1 c with
                        | Some (h2, c') => match rput j c' s2 with Some s3 => Some (h2, s3) | None => None end
                        | None => None
                        end
                    | None => None
                    end
                | _, _ => None
                end
            | None => None
            end
        | None => None
        end
    | OPrefix i path p => match in_reg i (mut_at path (act_prefix p)) h s with Some (h1, s1, _) => Some (h1, s1) | None => None end
    | OValue i path v => match in_reg i (mut_at path (act_value v)) h s with Some (h1, s1, _) => Some (h1, s1) | None => None end
    | OInsert i path pos src =>
        match rtake src s with
        | Some (m, s0) => match in_reg i (mut_at path (act_insert pos m)) h s0 with Some (h1, s1, _) => Some (h1, s1) | None => None end
        | None => None
        end
    | ORemove i path pos j =>
        match in_reg i (mut_at path (act_remove pos)) h s with
        | Some (h1, s1, Some m) => match rput j m s1 with Some s2 => Some (h1, s2) | None => None end
        | _ => None
        end
    end.
  Fixpoint hrun (os : list op) (st : state) : option state :=
    match os with
    | [] => Some st
    | o :: os' => match hstep o st with Some st' => hrun os' st' | None => None end
    end.
  (** only the static empty vector exists, all [n] registers are empty *)
  Definition hinit (n : nat) : state :=
    (MkH 1 (fun a => if a =? 0 then Some (1, []) else None), repeat None n).
  End Machine.
End Heap.
Arguments node : clear implicits.
Arguments heap : clear implicits.
Arguments op : clear implicits.
Arguments state : clear implicits.
