(** The threads of ConcModel.v on plain trees: a call is one indivisible step, every register and slot owns its tree, nothing
    is shared. And how much work a call is. *)
From Verif Require Export ConcModel HeapSpec.

(** what the registers hold, in order *)
Definition held {X} (s : regs X) : list X := flat_map (fun o => match o with Some x => [x] | None => [] end) s.

Section ConcSpec.
  Context {K V : Type}.
  Notation tree := (rtree K V).
  Notation cop := (cop K V).
  Notation answer := (answer K V).
  Notation strat := (strat K V).

  Definition vpick (G : list tree) (s : regs tree) (x : place) : option tree :=
    match x with Own i => rget i s | Shared g => nth_error G g end.
  Definition stored (r : option (regs tree)) (s : regs tree) : regs tree * answer :=
    match r with Some s' => (s', AOk) | None => (s, ABad) end.
  (** change the tree in register [i] at [path] *)
  Definition changed (i : nat) (path : list nat) (act : tree -> option (tree * option tree)) (s : regs tree) : regs tree * answer :=
    match rget i s with
    | Some t => match tmut path act t with Some (t', _) => (upd_nth i (Some t') s, AOk) | None => (s, ABad) end
    | None => (s, ABad)
    end.
  (** a call that does not involve slots *)
  Definition vcall (G : list tree) (o : cop) (s : regs tree) : regs tree * answer :=
    match o with
    | CEmpty j => stored (rput j (Node [] None []) s) s
    | CNew p v src j => match rtakes src s with Some (ts, s1) => stored (rput j (Node p v ts) s1) s | None => (s, ABad) end
    | CFrom t j => stored (rput j t s) s
    | CGet x path j =>
        match vpick G s x with
        | Some t => match t_sub path t with Some u => stored (rput j u s) s | None => (s, ABad) end
        | None => (s, ABad)
        end
    | CLook x path =>
        match vpick G s x with
        | Some t => match t_sub path t with Some (Node p v ts) => (s, ASaw p v (length ts)) | None => (s, ABad) end
        | None => (s, ABad)
        end
    | CDrop i => match rtake i s with Some (_, s1) => (s1, AOk) | None => (s, ABad) end
    | CMove i j => match rtake i s with Some (t, s1) => stored (rput j t s1) s | None => (s, ABad) end
    | CPrefix i path p => changed i path (t_set_prefix p) s
    | CValue i path v => changed i path (t_set_value v) s
    | CInsert i path pos src =>
        match rtake src s with
        | Some (m, s0) =>
            match rget i s0 with
            | Some t =>
                match t_sub path t with
                | Some u => if pos <=? length (t_children u) then changed i path (t_insert pos m) s0
                            else (s0, ABad)                       (* Vec::insert panics and drops m *)
                | None => (s, ABad)
                end
            | None => (s, ABad)
            end
        | None => (s, ABad)
        end
    | CRemove i path pos j =>
        match rget i s, nth_error s j with
        | Some t, Some None =>
            match tmut path (t_remove pos) t with
            | Some (t', Some m) => (upd_nth j (Some m) (upd_nth i (Some t') s), AOk)
            | _ => (s, ABad)
            end
        | _, _ => (s, ABad)
        end
    | CSend _ _ | CRecv _ _ | CPeek _ _ => (s, ABad)
    end.
  (** any call, on the slots and the registers of the calling thread *)
  Definition vdo (G : list tree) (o : cop) (sl s : regs tree) : regs tree * regs tree * answer :=
    match o with
    | CSend i x =>
        match rtake i s with
        | Some (t, s1) => match rput x t sl with Some sl1 => (sl1, s1, AOk) | None => (sl, s, ABad) end
        | None => (sl, s, ABad)
        end
    | CRecv x j =>
        match rtake x sl with
        | Some (t, sl1) => match rput j t s with Some s1 => (sl1, s1, AOk) | None => (sl, s, ABad) end
        | None => (sl, s, ABad)
        end
    | CPeek x j =>
        match rget x sl with
        | Some t => match rput j t s with Some s1 => (sl, s1, AOk) | None => (sl, s, ABad) end
        | None => (sl, s, ABad)
        end
    | _ => let (s', a) := vcall G o s in (sl, s', a)
    end.

  (** a machine whose threads are always between two calls *)
  Record vmach := MkV { v_slots : regs tree; v_threads : list (regs tree * strat); v_log : list (nat * answer) }.
  Definition vmstep (G : list tree) (i : nat) (m : vmach) : vmach :=
    match nth_error (v_threads m) i with
    | Some (s, SDo o k) =>
        let '(sl', s', a) := vdo G o (v_slots m) s in MkV sl' (upd_nth i (s', k a) (v_threads m)) ((i, a) :: v_log m)
    | _ => m
    end.
  Definition vmrun (G : list tree) (sched : list nat) (m : vmach) : vmach := fold_left (fun m i => vmstep G i m) sched m.
  Definition vminit (slots regs : nat) (sts : list strat) : vmach :=
    MkV (repeat None slots) (map (fun st => (repeat None regs, st)) sts) [].

  (** number of nodes *)
  Fixpoint nodes (t : tree) : nat := let 'Node _ _ ts := t in S (list_sum (map nodes ts)).
  Definition rnodes (s : regs tree) : nat := list_sum (map (fun o => match o with Some t => nodes t | None => 0 end) s).
  Definition path_of (o : cop) : list nat :=
    match o with CGet _ path _ | CLook _ path | CPrefix _ path _ | CValue _ path _ | CInsert _ path _ _ | CRemove _ path _ _ => path | _ => [] end.
  Definition arg_nodes (o : cop) : nat := match o with CFrom t _ => nodes t | _ => 0 end.
  (** a bound on the atomic steps that call [o] takes from registers [s] *)
  Definition work (o : cop) (s : regs tree) : nat := (length (path_of o) + 2) * (2 * rnodes s + 6) + arg_nodes o.

  (** the registers [s] describe the trees [v] *)
  Definition stands (h : heap K V) (s : regs (node K V)) (v : regs tree) : Prop :=
    Forall2 (fun o u => match o, u with Some n, Some t => den h n t | None, None => True | _, _ => False end) s v.
  (** how many calls of thread [i] have returned *)
  Definition returned (i : nat) (m : mach K V) : nat := count_occ Nat.eq_dec (map fst (m_log m)) i.
End ConcSpec.
