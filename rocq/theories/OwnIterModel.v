(** into_iter of radix trees: src/radix_tree/mod.rs:595-598 and ObjAndIter 1903-1925. The iterator owns the tree in
    a Box and borrows from it with an invented 'static lifetime (transmute, 1913); what it yields, [&'static V], may be
    kept by the caller for ever.

    Memory is modelled at the granularity that matters for this: every Box is an allocation that holds a tree until it
    is freed (with all it owns); a reference to a node is an allocation and the path of child positions in it. Following
    a reference into a freed allocation is undefined behaviour. Addresses are not reused.
    Simplifications: the nodes of the tree below the root are freed together with the Box (true of the flat RadixTree;
    in ArcRadixTree and LazyRadixTree a node shared with another tree would live on); keys are plain lists (IterKey is
    modelled in KeyModel.v); aliasing rules finer than liveness (noalias of Box) are not modelled. *)
From Verif Require Export RadixModel.

Section OwnIter.
  Context {K V : Type}.
  Notation tree := (rtree K V).

  (** [&'static T]: the allocation and the child positions from the root *)
  Definition nref : Type := nat * list nat.
  (** the allocations made so far; None: freed *)
  Definition boxes : Type := list (option tree).
  Fixpoint node_at (t : tree) (path : list nat) : option tree :=
    match path with
    | [] => Some t
    | i :: path' => match nth_error (t_children t) i with Some c => node_at c path' | None => None end
    end.
  (** None: undefined behaviour *)
  Definition deref (m : boxes) (r : nref) : option tree :=
    match nth_error m (fst r) with
    | Some (Some t) => node_at t (snd r)
    | _ => None
    end.

  (** ObjAndIter<Self, Iter<'static, ..>> mod.rs:1906-1909: the Box, and Iter (885-889): path and stack *)
  Record obj_iter := MkOI { oi_box : nat; oi_path : list K; oi_stack : list (nref * nat) }.
  (** into_iter mod.rs:596-598, ObjAndIter::new 1912-1916, iter 588-593, Iter::new 900-906: the tree is moved to a new
      Box; the reference given to [iter] points into the Box *)
  Definition oi_new (m : boxes) (t : tree) : boxes * obj_iter :=
    (m ++ [Some t], MkOI (length m) (t_prefix t) [((length m, []), 0)]).

  (** one round of the while loop of Iter::next mod.rs:925-941 *)
  Inductive oistep := OIYield (k : list K) (r : nref) (o : obj_iter) | OITau (o : obj_iter) | OIEnd | OIUb.
  Definition oi_step (m : boxes) (o : obj_iter) : oistep :=
    match oi_stack o with
    | [] => OIEnd
    | (r, pos) :: st =>
        match deref m r with
        | None => OIUb
        | Some t =>
            match pos with
            | 0 => match t_value t with
                   | Some _ => OIYield (oi_path o) r (MkOI (oi_box o) (oi_path o) ((r, 1) :: st))
                   | None => OITau (MkOI (oi_box o) (oi_path o) ((r, 1) :: st))
                   end
            | S i =>
                match nth_error (t_children t) i with
                | Some c => OITau (MkOI (oi_box o) (key_append (oi_path o) (t_prefix c))
                                        (((fst r, snd r ++ [i]), 0) :: (r, S pos) :: st))
                | None => OITau (MkOI (oi_box o) (key_pop (oi_path o) (length (t_prefix t))) st)
                end
            end
        end
    end.
  (** ObjAndIter::next mod.rs:1922-1924. The reference that is yielded is to the value of the node [r]. *)
  Inductive oinext := ONSome (k : list K) (r : nref) (o : obj_iter) | ONNone (o : obj_iter) | ONUb | ONFuel.
  Fixpoint oi_next (m : boxes) (fuel : nat) (o : obj_iter) : oinext :=
    match fuel with
    | 0 => ONFuel
    | S fuel' =>
        match oi_step m o with
        | OIEnd => ONNone o
        | OIUb => ONUb
        | OIYield k r o' => ONSome k r o'
        | OITau o' => oi_next m fuel' o'
        end
    end.
  (** the loop can run at most three times per node of the tree *)
  Definition oi_fuel (m : boxes) (o : obj_iter) : nat :=
    match nth_error m (oi_box o) with Some (Some t) => S (3 * t_size t) | _ => 1 end.
  (** dropping an ObjAndIter: the fields in order of declaration, so the Box with the tree (1907), then the Iter
      (1908), which owns nothing in the tree *)
  Definition box_free (m : boxes) (a : nat) : boxes := firstn a m ++ None :: skipn (S a) m.

  (** *** What safe code can do with these: variables hold iterators; a variable is emptied by moving from it or
      dropping. The values that were yielded are kept, as their type [&'static V] allows. *)
  Inductive oop := OInto (t : tree)   (* let x = t.into_iter() in the next variable *)
                 | ONext (i : nat)    (* x_i.next(), keeping what it yields *)
                 | OMove (i : nat)    (* let x = x_i: the next variable *)
                 | ODrop (i : nat)    (* drop(x_i) *)
                 | ORead (j : nat).   (* read the j-th value that was yielded *)
  Inductive oobs := Quiet               (* nothing to see *)
                  | Item (k : list K)   (* Some((k, reference)) *)
                  | NoMore              (* None *)
                  | Value (v : V)       (* what was read *)
                  | Ub                  (* undefined behaviour *)
                  | NotRust.            (* the variable is empty: does not compile *)
  Record ostate := MkO { o_mem : boxes; o_vars : list (option obj_iter); o_refs : list nref }.
  Definition set_var {X} (i : nat) (x : X) (l : list X) : list X := firstn i l ++ x :: skipn (S i) l.
  Definition o_step (op : oop) (s : ostate) : oobs * ostate :=
    match op with
    | OInto t => let (m, o) := oi_new (o_mem s) t in (Quiet, MkO m (o_vars s ++ [Some o]) (o_refs s))
    | ONext i =>
        match nth_error (o_vars s) i with
        | Some (Some o) =>
            match oi_next (o_mem s) (oi_fuel (o_mem s) o) o with
            | ONSome k r o' => (Item k, MkO (o_mem s) (set_var i (Some o') (o_vars s)) (o_refs s ++ [r]))
            | ONNone o' => (NoMore, MkO (o_mem s) (set_var i (Some o') (o_vars s)) (o_refs s))
            | ONUb | ONFuel => (Ub, s)
            end
        | _ => (NotRust, s)
        end
    | OMove i =>
        match nth_error (o_vars s) i with
        | Some (Some o) => (Quiet, MkO (o_mem s) (set_var i None (o_vars s) ++ [Some o]) (o_refs s))
        | _ => (NotRust, s)
        end
    | ODrop i =>
        match nth_error (o_vars s) i with
        | Some (Some o) => (Quiet, MkO (box_free (o_mem s) (oi_box o)) (set_var i None (o_vars s)) (o_refs s))
        | _ => (NotRust, s)
        end
    | ORead j =>
        match nth_error (o_refs s) j with
        | Some r => match deref (o_mem s) r with
                    | Some t => match t_value t with Some v => (Value v, s) | None => (Ub, s) end
                    | None => (Ub, s)
                    end
        | None => (NotRust, s)
        end
    end.
  Fixpoint o_run (ops : list oop) (s : ostate) : list oobs :=
    match ops with
    | [] => []
    | op :: ops' => let (b, s') := o_step op s in b :: o_run ops' s'
    end.
  Definition o_init : ostate := MkO [] [] [].
End OwnIter.
Arguments oop : clear implicits.
Arguments oobs : clear implicits.
Arguments ostate : clear implicits.
Arguments obj_iter : clear implicits.
Arguments boxes : clear implicits.
