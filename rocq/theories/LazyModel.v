(** Model of Lazy<A, B> of /repo/src/radix_tree/lazy_radix_tree.rs:234-337 used by any number of threads.

    LazyRadixTree is Send, and clones of a tree share the vectors of materialised children, so the Lazy
    cells inside such a vector are accessed concurrently by every thread that owns a clone.
    The state is a pool of cells (a mutex and the data) and, for every thread, where it is. One step is one
    atomic action: taking or releasing the mutex, inspecting the data, the end of the user's function,
    writing the data, or the final read outside the mutex.
    Simplifications: memory is sequentially consistent (justified by C61_no_data_race); the mutex is the ideal one (one
    holder, not poisoned by a panic, like parking_lot); [f] itself takes no Lazy's lock (materialize_shallow does
    not); cells are never freed; get_or_create_mut needs exclusive access and is not interleaved (it is
    [force] in HeapModel.v). *)
From Coq Require Export List Arith Lia.
Export ListNotations.

Section Lazy.
  Context {A B : Type}.
  (** [F a b]: [b] is a possible result of the function given to get_or_create (it allocates, so two runs differ) *)
  Context (F : A -> B -> Prop).

  (** Either lazy_radix_tree.rs:261-265 *)
  Notation either := (A + B)%type.
  (** Lazy lazy_radix_tree.rs:236-239: the thread that holds the mutex, the data *)
  Record cell := MkC { c_lock : option nat; c_data : either }.
  (** get_or_create 303-315, get 290-301, Clone 249-259 *)
  Inductive kind := KCreate | KGet | KClone.
  Inductive result :=
  | RRef (b : B)              (* &B from get_or_create *)
  | RPanicF                   (* f panicked *)
  | RPanic                    (* the panic!() of line 312 *)
  | RGet (o : option B)       (* Option<&B> from get *)
  | RClone (d : either).      (* the copy from clone *)
  (** where a thread is *)
  Inductive pc :=
  | Idle
  | Want (c : nat) (k : kind)      (* before mutex.lock() *)
  | Crit (c : nat) (k : kind)      (* holds the mutex, about to look at the data *)
  | Run (c : nat) (a : A)          (* a_to_b: running f on a, line 276 *)
  | Wr (c : nat) (b : B)           (* a_to_b: f returned, about to write *self, line 276 *)
  | Unwind (c : nat)               (* f panicked, the guard is about to be dropped *)
  | RelCreate (c : nat)            (* before drop(guard), line 308 *)
  | Rd (c : nat)                   (* before the read without the mutex, line 309 *)
  | RelGet (c : nat) (o : option B)(* before drop(guard), line 299 *)
  | RelClone (c : nat) (d : either)(* before drop(guard), line 253 *).
  Record st := MkS { cells : list cell; thr : nat -> pc }.

  (** what an observer of an execution sees; [Eff]: the instant the call looks at or changes the data *)
  Inductive event :=
  | Call (i c : nat) (k : kind)
  | Fun (i c : nat) (o : option B)          (* the function returned Some b, or panicked *)
  | Eff (i c : nat) (k : kind) (r : result)
  | Ret (i c : nat) (k : kind) (r : result) (* returned (or unwound) *)
  | New (c : nat) (d : either).             (* cell c was created by cloning, holding d *)

  Definition upd {X} (i : nat) (x : X) (l : list X) : list X := firstn i l ++ x :: skipn (S i) l.
  Definition set_pc (s : st) (i : nat) (p : pc) : st := MkS (cells s) (fun j => if j =? i then p else thr s j).
  Definition set_cell (s : st) (c : nat) (x : cell) : st := MkS (upd c x (cells s)) (thr s).

  Definition of_data (k : kind) (d : either) : result :=
    match k, d with
    | KCreate, inr b => RRef b
    | KCreate, inl _ => RPanic
    | KGet, inr b => RGet (Some b)
    | KGet, inl _ => RGet None
    | KClone, _ => RClone d
    end.

  Inductive step : st -> list event -> st -> Prop :=
  | s_call s i c k : thr s i = Idle -> c < length (cells s) ->
      step s [Call i c k] (set_pc s i (Want c k))
  (* mutex.lock(): 251, 291, 305 *)
  | s_lock s i c k d : thr s i = Want c k -> nth_error (cells s) c = Some (MkC None d) ->
      step s [] (set_pc (set_cell s c (MkC (Some i) d)) i (Crit c k))
  (* a_to_b, data is A: 275 *)
  | s_start s i c l a : thr s i = Crit c KCreate -> nth_error (cells s) c = Some (MkC l (inl a)) ->
      step s [] (set_pc s i (Run c a))
  (* a_to_b, data is B: nothing to do *)
  | s_done s i c l b : thr s i = Crit c KCreate -> nth_error (cells s) c = Some (MkC l (inr b)) ->
      step s [Eff i c KCreate (RRef b)] (set_pc s i (RelCreate c))
  (* f returns *)
  | s_run s i c a b : thr s i = Run c a -> F a b ->
      step s [Fun i c (Some b)] (set_pc s i (Wr c b))
  (* f panics; the data is untouched *)
  | s_panic s i c a : thr s i = Run c a ->
      step s [Fun i c None; Eff i c KCreate RPanicF] (set_pc s i (Unwind c))
  (* *self = Either::B(..): 276 *)
  | s_write s i c b l d : thr s i = Wr c b -> nth_error (cells s) c = Some (MkC l d) ->
      step s [Eff i c KCreate (RRef b)] (set_pc (set_cell s c (MkC l (inr b))) i (RelCreate c))
  (* the guard is dropped while unwinding *)
  | s_unwind s i c l d : thr s i = Unwind c -> nth_error (cells s) c = Some (MkC l d) ->
      step s [Ret i c KCreate RPanicF] (set_pc (set_cell s c (MkC None d)) i Idle)
  (* drop(guard): 308 *)
  | s_rel s i c l d : thr s i = RelCreate c -> nth_error (cells s) c = Some (MkC l d) ->
      step s [] (set_pc (set_cell s c (MkC None d)) i (Rd c))
  (* the read without the mutex: 309-313 *)
  | s_read s i c l d : thr s i = Rd c -> nth_error (cells s) c = Some (MkC l d) ->
      step s [Ret i c KCreate (of_data KCreate d)] (set_pc s i Idle)
  (* get: 292-298 *)
  | s_get s i c l d : thr s i = Crit c KGet -> nth_error (cells s) c = Some (MkC l d) ->
      step s [Eff i c KGet (of_data KGet d)] (set_pc s i (RelGet c (match d with inr b => Some b | inl _ => None end)))
  (* get: 299-300 *)
  | s_get_rel s i c l d o : thr s i = RelGet c o -> nth_error (cells s) c = Some (MkC l d) ->
      step s [Ret i c KGet (RGet o)] (set_pc (set_cell s c (MkC None d)) i Idle)
  (* clone: 252 *)
  | s_clone s i c l d : thr s i = Crit c KClone -> nth_error (cells s) c = Some (MkC l d) ->
      step s [Eff i c KClone (RClone d)] (set_pc s i (RelClone c d))
  (* clone: 253-257, a new mutex and the copied data *)
  | s_clone_rel s i c l d d' : thr s i = RelClone c d' -> nth_error (cells s) c = Some (MkC l d) ->
      step s [Ret i c KClone (RClone d'); New (length (cells s)) d']
             (set_pc (MkS (upd c (MkC None d) (cells s) ++ [MkC None d']) (thr s)) i Idle).

  (** an execution, with everything it showed *)
  Inductive exec : st -> list event -> st -> Prop :=
  | e_nil s : exec s [] s
  | e_step s e s1 tr s2 : exec s tr s1 -> step s1 e s2 -> exec s (tr ++ e) s2.

  (** one Lazy, not locked, all threads idle: Lazy::uninitialized / initialized 281-288 *)
  Definition init (d : either) : st := MkS [MkC None d] (fun _ => Idle).
End Lazy.
Arguments cell : clear implicits.
Arguments result : clear implicits.
Arguments pc : clear implicits.
Arguments st : clear implicits.
Arguments event : clear implicits.
