(** Model of saving shared trees to an append-only file and loading them again:
    Serialize / Deserialize of ArcRadixTree and LazyRadixTree
    (/repo/src/radix_tree/arc_radix_tree.rs:165-243, lazy_radix_tree.rs:169-227), all_arcs
    (arc_radix_tree.rs:120-130, lazy_radix_tree.rs:113-121) and the database built from them in
    /repo/examples/radix_db.rs. The trees live on the heap of HeapModel.v.

    A file is a list of records instead of bytes; a position is an index into it. A record is one
    archived vector of nodes, or one archived root. Prefix and value of a node are written out of line
    by rkyv but never shared, so they are part of the record. Pointers are relative, as in rkyv
    (RelPtr): the distance back from the record that contains the pointer. Alignment and the i32 range of
    RelPtr are not modelled. *)
From Verif Require Export HeapApi.

Section Persist.
  Context {K V : Type} (kcmp : K -> K -> comparison) (strat : nat -> nat -> bool).
  Notation tree := (rtree K V).
  Notation node := (node K V).
  Notation heap := (heap K V).
  Notation state := (state K V).

  (** ArchivedArcRadixTree arc_radix_tree.rs:171-180, ArchivedLazyRadixTree lazy_radix_tree.rs:175-184 *)
  Record anode := MkA { a_prefix : list K; a_value : option V; a_back : nat }.
  Inductive frec := RVec (ns : list anode) | RRoot (n : anode).

  (** a finite map, newest entry first: HashMap of examples/radix_db.rs:51-55 and 79-83 *)
  Fixpoint look (m : list (nat * nat)) (k : nat) : option nat :=
    match m with [] => None | (x, y) :: m' => if x =? k then Some y else look m' k end.

  (** the serializer: SharedSerializeMap2 (address of a vector -> position), what has been written, and
      the position at which the writer started (WriteSerializer::with_pos) *)
  Record ser := MkS { s_map : list (nat * nat); s_out : list frec; s_base : nat }.
  Definition s_pos (w : ser) : nat := s_base w + length (s_out w).
  Definition s_write (r : frec) (w : ser) : ser := MkS (s_map w) (s_out w ++ [r]) (s_base w).
  (** add_shared_ptr radix_db.rs:66-76 *)
  Definition s_add (a p : nat) (w : ser) : option ser :=
    match look (s_map w) a with Some _ => None | None => Some (MkS ((a, p) :: s_map w) (s_out w) (s_base w)) end.

  (** resolve arc_radix_tree.rs:187-202: the node at position p, whose children are at position c *)
  Definition resolve (p : nat) (x : list K * option V * nat) : anode :=
    let '(q, v, c) := x in MkA q v (p - c).

  (** Serialize for ArcRadixTree arc_radix_tree.rs:205-223 / LazyRadixTree lazy_radix_tree.rs:209-227 on
      the elements i, i+1, .. i+k-1 of the vector at [a]: children_arc() (which materialises a lazy child
      where it lies), then the Arc *)
  Fixpoint ser_slots (rec : heap -> nat -> ser -> option (heap * ser * nat)) (a : nat) (k i : nat) (h : heap) (w : ser)
    : option (heap * ser * list (list K * option V * nat)) :=
    match k with
    | 0 => Some (h, w, [])
    | S k' =>
        match force_at h a i with
        | Some h1 =>
            match h_cell h1 a with
            | Some (_, ns) =>
                match nth_error ns i with
                | Some c =>
                    match n_kids c with
                    | inr b =>
                        match rec h1 b w with
                        | Some (h2, w2, p) =>
                            match ser_slots rec a k' (S i) h2 w2 with
                            | Some (h3, w3, l) => Some (h3, w3, (n_prefix c, n_value c, p) :: l)
                            | None => None
                            end
                        | None => None
                        end
                    | inl _ => None
                    end
                | None => None
                end
            | None => None
            end
        | None => None
        end
    end.
  (** rkyv: Serialize for Arc / SharedSerializeRegistry::serialize_shared: a vector that is registered is
      not written again; otherwise its elements are serialized, then the vector is written and
      registered. [F] bounds the depth. *)
  Fixpoint ser_arc (F : nat) (h : heap) (a : nat) (w : ser) : option (heap * ser * nat) :=
    match look (s_map w) a with
    | Some p => Some (h, w, p)
    | None =>
        match F with
        | 0 => None
        | S F' =>
            match h_cell h a with
            | Some (_, ns) =>
                match ser_slots (ser_arc F') a (length ns) 0 h w with
                | Some (h1, w1, l) =>
                    let p := s_pos w1 in
                    match s_add a p (s_write (RVec (map (resolve p) l)) w1) with
                    | Some w2 => Some (h1, w2, p)
                    | None => None
                    end
                | None => None
                end
            | None => None
            end
        end
    end.
  (** Serializer::serialize_value on a tree: its parts, then the root itself *)
  Definition ser_root (F : nat) (h : heap) (n : node) (w : ser) : option (heap * node * ser) :=
    match touch [] h n with
    | Some (h1, n1, a) =>
        match ser_arc F h1 a w with
        | Some (h2, w2, p) => Some (h2, n1, s_write (RRoot (resolve (s_pos w2) (n_prefix n1, n_value n1, p))) w2)
        | None => None
        end
    | None => None
    end.

  (** a share of the vector at [a] that is not inside a tree: an element of the map filled by all_arcs, or
      of SharedDeserializeMap2 *)
  Definition pin (a : nat) : node := MkN [] None (inr a).
  (** the loop over the children *)
  Fixpoint arcs_nodes (rec : heap -> node -> list nat -> option (heap * list nat)) (ns : list node) (h : heap) (P : list nat) : option (heap * list nat) :=
    match ns with
    | [] => Some (h, P)
    | m :: ns' => match rec h m P with Some (h', P') => arcs_nodes rec ns' h' P' | None => None end
    end.
  (** all_arcs arc_radix_tree.rs:120-130, lazy_radix_tree.rs:113-121: BTreeMap::insert replaces (and
      drops) the share that is already there *)
  Fixpoint all_arcs (F : nat) (h : heap) (n : node) (P : list nat) : option (heap * list nat) :=
    match n_kids n with
    | inl _ => Some (h, P)
    | inr a =>
        match F with
        | 0 => None
        | S F' =>
            match arc_clone h a with
            | Some h1 =>
                match (if existsb (Nat.eqb a) P then match drop_all h1 [pin a] with Some h2 => Some (h2, P) | None => None end
                       else Some (h1, a :: P)) with
                | Some (h2, P2) =>
                    match h_cell h2 a with
                    | Some (_, ns) => arcs_nodes (all_arcs F') ns h2 P2
                    | None => None
                    end
                | None => None
                end
            | None => None
            end
        end
    end.

  (** Deserialize for ArchivedArcRadixTree arc_radix_tree.rs:225-243 on the elements of a vector at position
      [p] *)
  Fixpoint de_nodes (rec : heap -> nat -> list (nat * nat) -> option (heap * list (nat * nat) * nat)) (p : nat)
    (l : list anode) (h : heap) (dm : list (nat * nat)) : option (heap * list (nat * nat) * list node) :=
    match l with
    | [] => Some (h, dm, [])
    | x :: l' =>
        if a_back x <=? p then
          match rec h (p - a_back x) dm with
          | Some (h1, dm1, a) =>
              match de_nodes rec p l' h1 dm1 with
              | Some (h2, dm2, ns) => Some (h2, dm2, MkN (a_prefix x) (a_value x) (inr a) :: ns)
              | None => None
              end
          | None => None
          end
        else None
    end.
  (** rkyv: Deserialize for Arc / SharedDeserializeRegistry::deserialize_shared: a position that has been
      seen gives another share of the same Arc; otherwise the vector is read, put into a new Arc, and the
      registry keeps a share (SharedDeserializeMap2 radix_db.rs:112-131) *)
  Fixpoint de_arc (F : nat) (g : list frec) (h : heap) (p : nat) (dm : list (nat * nat)) : option (heap * list (nat * nat) * nat) :=
    match look dm p with
    | Some a => match arc_clone h a with Some h1 => Some (h1, dm, a) | None => None end
    | None =>
        match F with
        | 0 => None
        | S F' =>
            match nth_error g p with
            | Some (RVec l) =>
                match de_nodes (de_arc F' g) p l h dm with
                | Some (h1, dm1, ns) =>
                    let (h2, a) := arc_new h1 ns in
                    match look dm1 p with
                    | Some _ => None
                    | None => match arc_clone h2 a with Some h3 => Some (h3, (p, a) :: dm1, a) | None => None end
                    end
                | None => None
                end
            | _ => None
            end
        end
    end.
  (** archived_root radix_db.rs:322-323: the end of the file is taken to be a root (unchecked; the model
      fails where the code would read something else as a root) *)
  Definition file_root (g : list frec) : option (nat * anode) :=
    match nth_error g (length g - 1) with Some (RRoot x) => Some (length g - 1, x) | _ => None end.
  (** radix_db.rs:317-326 *)
  Definition de_root (F : nat) (g : list frec) (h : heap) : option (heap * list (nat * nat) * node) :=
    match file_root g with
    | Some (p, x) =>
        if a_back x <=? p then
          match de_arc F g h (p - a_back x) [] with
          | Some (h1, dm, a) => Some (h1, dm, MkN (a_prefix x) (a_value x) (inr a))
          | None => None
          end
        else None
    | None => None
    end.

  (** ** Storage, radix_db.rs:151-166, 168-212, 227-262: two files, [None] where there is none *)
  Record disk := MkD { d_main : option (list frec); d_tmp : option (list frec) }.
  Definition contents (o : option (list frec)) : list frec := match o with Some g => g | None => [] end.
  (** append: an empty chunk does not create the file *)
  Definition append (o : option (list frec)) (c : list frec) : option (list frec) :=
    match c with [] => o | _ => Some (contents o ++ c) end.
  (** mv(tmp, main): a missing source deletes the target, and so does an empty one (MemStorage 197-211; the
      program never moves an empty file) *)
  Definition mv (d : disk) : disk :=
    match d_tmp d with Some (r :: g) => MkD (Some (r :: g)) None | _ => MkD None None end.
  (** what becomes of an append: all of it is written; or some of it, followed by anything at all, and then
      an error is returned or the process dies *)
  Inductive outcome := Written | Fails (k : nat) (junk : list frec).
  Definition written (c : list frec) (o : outcome) : list frec :=
    match o with Written => c | Fails k junk => firstn k c ++ junk end.

  (** ** The database, radix_db.rs:264-275. The tree is in register 0; the other registers belong to the
      user (clones, snapshots sent to watchers, ..) *)
  Record db := MkDb { b_mem : state; b_disk : disk; b_map : list (nat * nat); b_arcs : list nat; b_pos : nat }.

  (** load radix_db.rs:302-342 into a fresh process with [n] registers. to_shared_serializer_map 86-98 swaps
      the registry; the deserializer's own shares are dropped at the end. *)
  Definition db_load (F n : nat) (d : disk) : option db :=
    let (h0, s0) := hinit n in
    match contents (d_main d) with
    | [] =>
        match mk_empty true h0 with
        | Some (h1, t) => match rput 0 t s0 with Some s1 => Some (MkDb (h1, s1) d [] [] 0) | None => None end
        | None => None
        end
    | g =>
        match de_root F g h0 with
        | Some (h1, dm, t) =>
            match all_arcs F h1 t [] with
            | Some (h2, P) =>
                match drop_all h2 (map (fun e => pin (snd e)) dm) with
                | Some h3 =>
                    match rput 0 t s0 with
                    | Some s1 => Some (MkDb (h3, s1) d (map (fun e => (snd e, fst e)) dm) P (length g))
                    | None => None
                    end
                | None => None
                end
            | None => None
            end
        | None => None
        end
    end.

  (** flush radix_db.rs:396-414: serialize what is new, pin it, append. If append returns an error the
      registry and the pins are gone (serializers = None, which the next flush takes as empty) and pos stays. *)
  Definition db_flush (F : nat) (o : outcome) (b : db) : option db :=
    let (h, s) := b_mem b in
    match rtake 0 s with
    | Some (n, s1) =>
        match ser_root F h n (MkS (b_map b) [] (b_pos b)) with
        | Some (h1, n1, w) =>
            match all_arcs F h1 n1 (b_arcs b) with
            | Some (h2, P) =>
                let d := MkD (append (d_main (b_disk b)) (written (s_out w) o)) (d_tmp (b_disk b)) in
                match rput 0 n1 s1 with
                | Some s2 =>
                    match o with
                    | Written => Some (MkDb (h2, s2) d (s_map w) P (b_pos b + length (s_out w)))
                    | Fails _ _ =>
                        match drop_all h2 (map pin P) with
                        | Some h3 => Some (MkDb (h3, s2) d [] [] (b_pos b))
                        | None => None
                        end
                    end
                | None => None
                end
            | None => None
            end
        | None => None
        end
    | None => None
    end.

  (** vacuum radix_db.rs:371-394: everything is written to another file, which then replaces the file. If
      either step fails, registry, pins and pos stay, and what has been written to the other file stays
      there. [moved]: whether mv succeeds. *)
  Definition db_vacuum (F : nat) (o : outcome) (moved : bool) (b : db) : option db :=
    let (h, s) := b_mem b in
    match rtake 0 s with
    | Some (n, s1) =>
        match ser_root F h n (MkS [] [] 0) with
        | Some (h1, n1, w) =>
            match all_arcs F h1 n1 [] with
            | Some (h2, P) =>
                let d := MkD (d_main (b_disk b)) (append (d_tmp (b_disk b)) (written (s_out w) o)) in
                match rput 0 n1 s1 with
                | Some s2 =>
                    match o, moved with
                    | Written, true =>
                        match drop_all h2 (map pin (b_arcs b)) with
                        | Some h3 => Some (MkDb (h3, s2) (mv d) (s_map w) P (length (s_out w)))
                        | None => None
                        end
                    | _, _ =>
                        match drop_all h2 (map pin P) with
                        | Some h3 => Some (MkDb (h3, s2) d (b_map b) (b_arcs b) (b_pos b))
                        | None => None
                        end
                    end
                | None => None
                end
            | None => None
            end
        | None => None
        end
    | None => None
    end.

  (** ** Histories *)
  Inductive dop :=
  | DUser (o : api K V)                       (* anything the user does with trees, tree_mut() included *)
  | DFlush (o : outcome)                      (* flush() *)
  | DVacuum (o : outcome) (moved : bool)      (* vacuum() *)
  | DRestart.                                 (* the process ends or dies; a new one calls load() *)
  Definition db_step (F : nat) (o : dop) (b : db) : option (db * list (obs K V)) :=
    match o with
    | DUser o =>
        match astep kcmp strat true F o (b_mem b) with
        | Some (st, l) => Some (MkDb st (b_disk b) (b_map b) (b_arcs b) (b_pos b), l)
        | None => None
        end
    | DFlush o => match db_flush F o b with Some b' => Some (b', []) | None => None end
    | DVacuum o moved => match db_vacuum F o moved b with Some b' => Some (b', []) | None => None end
    | DRestart => match db_load F (length (snd (b_mem b))) (b_disk b) with Some b' => Some (b', []) | None => None end
    end.
  Fixpoint db_run (F : nat) (os : list dop) (b : db) : option (db * list (obs K V)) :=
    match os with
    | [] => Some (b, [])
    | o :: os' =>
        match db_step F o b with
        | Some (b1, l1) => match db_run F os' b1 with Some (b2, l2) => Some (b2, l1 ++ l2) | None => None end
        | None => None
        end
    end.

  (** ** Watching, radix_db.rs:34-49 and 140-149. Every flush and vacuum that returns sends the tree to the watchers
      (notify 344-348); [watch_prefix] is a stream over what is sent. *)
  (** StreamExt::scan of the futures crate *)
  Fixpoint scan {S A B : Type} (f : S -> A -> S * B) (s : S) (l : list A) : list B :=
    match l with [] => [] | a :: l' => let (s', b) := f s a in b :: scan f s' l' end.
  (** radix_db.rs:140-149: the closure never assigns to *prev *)
  Definition watch_prefix (tree0 : tree) (p : list K) (sent : list tree) : list (res tree * res tree) :=
    scan (fun prev curr => (prev, (rt_filter_prefix kcmp prev p, rt_filter_prefix kcmp curr p))) tree0 sent.
  (** Batch::added, removed radix_db.rs:40-49 *)
  Definition batch_added (b : res tree * res tree) : res tree :=
    match b with (Ok v0, Ok v1) => rt_difference_with kcmp strat v1 v0 | _ => Panicked end.
  Definition batch_removed (b : res tree * res tree) : res tree :=
    match b with (Ok v0, Ok v1) => rt_difference_with kcmp strat v0 v1 | _ => Panicked end.
End Persist.
Arguments anode : clear implicits.
Arguments frec : clear implicits.
Arguments ser : clear implicits.
Arguments disk : clear implicits.
Arguments outcome : clear implicits.
Arguments db : clear implicits.
Arguments dop : clear implicits.
