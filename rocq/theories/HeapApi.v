(** Programs over the public interface of ArcRadixTree and LazyRadixTree: registers own trees that may
    share vectors; an operation is a call of one method of /repo/src/radix_tree/mod.rs. *)
From Verif Require Export HeapOps.

Section HeapApi.
  Context {K V : Type} (kcmp : K -> K -> comparison) (strat : nat -> nat -> bool) (arc : bool).
  Notation tree := (rtree K V).
  Notation node := (node K V).
  Notation heap := (heap K V).
  Notation state := (state K V).

  (** what a call returns *)
  Inductive obs := GotValue (o : option V) | GotPairs (l : list (list K * V)) | GotBool (b : bool).
  Inductive api :=
  | ABase (o : op K V)                                          (* the operations of HeapModel.v *)
  | ASingle (k : list K) (v : V) (j : nat)                      (* j = single(k, v) *)
  | AInsert (i : nat) (k : list K) (v : V)                      (* i.insert(k, v) *)
  | APrepend (i : nat) (p : list K)                             (* i.prepend(p) *)
  | AFilter (i : nat) (p : list K) (j : nat)                    (* j = i.filter_prefix(p) *)
  | AOuterWith (f : V -> V -> V * bool) (i b : nat)             (* i.outer_combine_with(&b, f) *)
  | AInnerWith (f : V -> V -> V * bool) (i b : nat)
  | ALeftWith (f : V -> V -> V * bool) (i b : nat)
  | ARemoveWith (f : V -> bool) (i b : nat)                     (* i.remove_prefix_with(&b, f) *)
  | ARetainWith (f : V -> bool) (i b : nat)
  | AOuter (f : V -> V -> option V) (a b j : nat)               (* j = a.outer_combine(&b, f) *)
  | AInner (f : V -> V -> option V) (a b j : nat)
  | ALeft (f : V -> option V -> option V) (a b j : nat)
  | AGet (i : nat) (k : list K)                                 (* i.get(k) *)
  | AIter (i : nat)                                             (* i.iter().collect() *)
  | AIntersects (a b : nat)                                     (* a.intersects(&b) *)
  | AIsSubset (a b : nat).                                      (* a.is_subset(&b) *)

  (** ** On the heap. [F] bounds the depth of recursions and the steps of loops. *)
  (** [self] is out of its register while it is mutably borrowed, so [that] is another register *)
  Definition in_place (act : heap -> node -> node -> option (heap * node)) (i b : nat) (st : state) : option (state * list obs) :=
    let (h, s) := st in
    match rtake i s with
    | Some (n, s1) =>
        match rget b s1 with
        | Some m =>
            match act h n m with
            | Some (h1, n1) => match rput i n1 s1 with Some s2 => Some ((h1, s2), []) | None => None end
            | None => None
            end
        | None => None
        end
    | None => None
    end.
  Definition into_reg (r : option (heap * node)) (s : regs node) (j : nat) : option (state * list obs) :=
    match r with
    | Some (h1, n1) => match rput j n1 s with Some s1 => Some ((h1, s1), []) | None => None end
    | None => None
    end.
  Definition pure_into (act : heap -> node -> node -> option (heap * node)) (a b j : nat) (st : state) : option (state * list obs) :=
    let (h, s) := st in
    match rget a s, rget b s with
    | Some n, Some m => into_reg (act h n m) s j
    | _, _ => None
    end.
  Definition answer {X} (mk : X -> obs) (st : state) (r : res X) : option (state * list obs) :=
    match r with Ok x => Some (st, [mk x]) | _ => None end.
  (** insert mod.rs:261-266: the temporary [single(key, value)] is dropped at the end *)
  Definition h_insert (F : nat) (k : list K) (v : V) (h : heap) (n : node) : option (heap * node) :=
    match n_new arc k (Some v) [] h with
    | Some (h1, tmp) =>
        match h_outer kcmp strat arc (fun _ b => (b, true)) F h1 n tmp with
        | Some (h2, n1) => match drop_all h2 [tmp] with Some h3 => Some (h3, n1) | None => None end
        | None => None
        end
    | None => None
    end.
  Definition astep (F : nat) (o : api) (st : state) : option (state * list obs) :=
    let (h, s) := st in
    match o with
    | ABase o => match hstep arc o st with Some st' => Some (st', []) | None => None end
    | ASingle k v j => into_reg (n_new arc k (Some v) [] h) s j   (* mod.rs:256-258 *)
    | AInsert i k v =>
        match rtake i s with
        | Some (n, s1) => into_reg (h_insert F k v h n) s1 i
        | None => None
        end
    | APrepend i p =>
        match rtake i s with
        | Some (n, s1) => into_reg (match h_prepend h n p with Some n1 => Some (h, n1) | None => None end) s1 i
        | None => None
        end
    | AFilter i p j =>
        match rget i s with Some n => into_reg (h_filter_prefix kcmp arc F h n p) s j | None => None end
    | AOuterWith f i b => in_place (h_outer kcmp strat arc f F) i b st
    | AInnerWith f i b => in_place (h_inner kcmp strat arc f F) i b st
    | ALeftWith f i b => in_place (h_left kcmp strat arc f F) i b st
    | ARemoveWith f i b => in_place (h_remove kcmp strat arc f F) i b st
    | ARetainWith f i b => in_place (h_retain kcmp strat arc f F) i b st
    | AOuter f a b j => pure_into (h_outer_pure kcmp strat arc f F) a b j st
    | AInner f a b j => pure_into (h_inner_pure kcmp strat arc f F) a b j st
    | ALeft f a b j => pure_into (h_left_pure kcmp strat arc f F) a b j st
    | AGet i k =>
        match rget i s with
        | Some n => match h_get kcmp F h n k with Some o => Some (st, [GotValue o]) | None => None end
        | None => None
        end
    | AIter i => match rget i s with Some n => answer GotPairs st (h_iter F h n) | None => None end
    | AIntersects a b =>
        match rget a s, rget b s with
        | Some n, Some m => answer GotBool st (h_intersects0 kcmp strat h F n (n_prefix n) m (n_prefix m))
        | _, _ => None
        end
    | AIsSubset a b =>
        match rget a s, rget b s with
        | Some n, Some m => answer GotBool st (h_is_subset0 kcmp strat h F n (n_prefix n) m (n_prefix m))
        | _, _ => None
        end
    end.
  Fixpoint arun (F : nat) (os : list api) (st : state) : option (state * list obs) :=
    match os with
    | [] => Some (st, [])
    | o :: os' =>
        match astep F o st with
        | Some (st1, l1) => match arun F os' st1 with Some (st2, l2) => Some (st2, l1 ++ l2) | None => None end
        | None => None
        end
    end.

  (** ** On plain trees: nothing is shared, the operations are those of RadixModel.v *)
  Definition p_in_place (act : tree -> tree -> res tree) (i b : nat) (vs : regs tree) : option (regs tree * list obs) :=
    match rtake i vs with
    | Some (x, s1) =>
        match rget b s1 with
        | Some y => match act x y with Ok x' => match rput i x' s1 with Some s2 => Some (s2, []) | None => None end | _ => None end
        | None => None
        end
    | None => None
    end.
  Definition p_into (act : tree -> tree -> res tree) (a b j : nat) (vs : regs tree) : option (regs tree * list obs) :=
    match rget a vs, rget b vs with
    | Some x, Some y => match act x y with Ok z => match rput j z vs with Some s2 => Some (s2, []) | None => None end | _ => None end
    | _, _ => None
    end.
  Definition p_answer {X} (mk : X -> obs) (vs : regs tree) (r : res X) : option (regs tree * list obs) :=
    match r with Ok x => Some (vs, [mk x]) | _ => None end.
  Definition pstep (o : api) (vs : regs tree) : option (regs tree * list obs) :=
    match o with
    | ABase o => match vstep o vs with Some vs' => Some (vs', []) | None => None end
    | ASingle k v j => match rput j (rt_single k v) vs with Some vs' => Some (vs', []) | None => None end
    | AInsert i k v =>
        match rtake i vs with
        | Some (x, s1) => match rt_insert kcmp strat x k v with Ok x' => match rput i x' s1 with Some s2 => Some (s2, []) | None => None end | _ => None end
        | None => None
        end
    | APrepend i p =>
        match rtake i vs with
        | Some (x, s1) => match rput i (rt_prepend x p) s1 with Some s2 => Some (s2, []) | None => None end
        | None => None
        end
    | AFilter i p j =>
        match rget i vs with
        | Some x => match rt_filter_prefix kcmp x p with Ok z => match rput j z vs with Some s2 => Some (s2, []) | None => None end | _ => None end
        | None => None
        end
    | AOuterWith f i b => p_in_place (rt_outer_combine_with kcmp strat f) i b vs
    | AInnerWith f i b => p_in_place (rt_inner_combine_with kcmp strat f) i b vs
    | ALeftWith f i b => p_in_place (rt_left_combine_with kcmp strat f) i b vs
    | ARemoveWith f i b => p_in_place (rt_remove_prefix_with kcmp strat f) i b vs
    | ARetainWith f i b => p_in_place (rt_retain_prefix_with kcmp strat f) i b vs
    | AOuter f a b j => p_into (rt_outer_combine kcmp strat f) a b j vs
    | AInner f a b j => p_into (rt_inner_combine kcmp strat f) a b j vs
    | ALeft f a b j => p_into (rt_left_combine kcmp strat f) a b j vs
    | AGet i k => match rget i vs with Some x => p_answer GotValue vs (rt_get kcmp x k) | None => None end
    | AIter i => match rget i vs with Some x => p_answer GotPairs vs (rt_iter x) | None => None end
    | AIntersects a b =>
        match rget a vs, rget b vs with Some x, Some y => p_answer GotBool vs (rt_intersects kcmp strat x y) | _, _ => None end
    | AIsSubset a b =>
        match rget a vs, rget b vs with Some x, Some y => p_answer GotBool vs (rt_is_subset kcmp strat x y) | _, _ => None end
    end.
  Fixpoint prun (os : list api) (vs : regs tree) : option (regs tree * list obs) :=
    match os with
    | [] => Some (vs, [])
    | o :: os' =>
        match pstep o vs with
        | Some (vs1, l1) => match prun os' vs1 with Some (vs2, l2) => Some (vs2, l1 ++ l2) | None => None end
        | None => None
        end
    end.
End HeapApi.
Arguments api : clear implicits.
Arguments obs : clear implicits.
