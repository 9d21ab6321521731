(** The register machine of HeapApi.v on mathematical mappings: a register holds a mapping from keys to values, given by
    its pairs. No tree, node or heap occurs in the meaning of an operation. *)
From Verif Require Export HeapApi RadixSpec.

Section ApiSpec.
  Context {K V : Type} (kcmp : K -> K -> comparison).
  Definition mapping := list K -> V -> Prop.
  (** what a mapping binds k to *)
  Definition bound (M : mapping) (k : list K) (o : option V) : Prop :=
    match o with Some v => M k v | None => forall v, ~ M k v end.
  Definition m_empty : mapping := fun _ _ => False.
  Definition m_single (k0 : list K) (v0 : V) : mapping := fun k v => k = k0 /\ v = v0.
  Definition m_insert (k0 : list K) (v0 : V) (M : mapping) : mapping := fun k v => (k = k0 /\ v = v0) \/ (k <> k0 /\ M k v).
  Definition m_prepend (p : list K) (M : mapping) : mapping := fun k v => exists s, k = p ++ s /\ M s v.
  Definition m_filter (p : list K) (M : mapping) : mapping := fun k v => M k v /\ exists s, k = p ++ s.
  (** combine pointwise *)
  Definition m_combine (g : option V -> option V -> option V) (M N : mapping) : mapping :=
    fun k v => exists x y, bound M k x /\ bound N k y /\ g x y = Some v.
  Definition g_outer (f : V -> V -> option V) (x y : option V) : option V :=
    match x, y with Some v, Some w => f v w | Some v, None => Some v | None, y => y end.
  Definition g_inner (f : V -> V -> option V) (x y : option V) : option V :=
    match x, y with Some v, Some w => f v w | _, _ => None end.
  Definition g_leftc (f : V -> option V -> option V) (x y : option V) : option V :=
    match x with Some v => f v y | None => None end.
  (** an in-place closure changes its first argument and says whether to keep it *)
  Definition keeps (f : V -> V -> V * bool) (v w : V) : option V := let (v', b) := f v w in if b then Some v' else None.
  Definition keeps_left (f : V -> V -> V * bool) (v : V) (y : option V) : option V :=
    match y with Some w => keeps f v w | None => Some v end.
  (** some prefix of k is bound in N to a value accepted by f *)
  Definition covers (f : V -> bool) (N : mapping) (k : list K) : Prop := exists k1 k2 w, k = k1 ++ k2 /\ N k1 w /\ f w = true.
  Definition m_remove (f : V -> bool) (M N : mapping) : mapping := fun k v => M k v /\ ~ covers f N k.
  Definition m_retain (f : V -> bool) (M N : mapping) : mapping := fun k v => M k v /\ covers f N k.

  (** a new mapping for every register, and what may be answered *)
  Definition answers := list (obs K V) -> Prop.
  Definition silent : answers := fun out => out = [].
  Definition m_put (j : nat) (M : mapping) (ms : regs mapping) : option (regs mapping * answers) :=
    match rput j M ms with Some ms' => Some (ms', silent) | None => None end.
  Definition m_upd (i b : nat) (f : mapping -> mapping -> mapping) (ms : regs mapping) : option (regs mapping * answers) :=
    match rtake i ms with
    | Some (M, s1) => match rget b s1 with Some N => m_put i (f M N) s1 | None => None end
    | None => None
    end.
  Definition m_new (a b j : nat) (f : mapping -> mapping -> mapping) (ms : regs mapping) : option (regs mapping * answers) :=
    match rget a ms, rget b ms with Some M, Some N => m_put j (f M N) ms | _, _ => None end.
  Definition m_ask (a b : nat) (P : mapping -> mapping -> Prop) (ms : regs mapping) : option (regs mapping * answers) :=
    match rget a ms, rget b ms with
    | Some M, Some N => Some (ms, fun out => exists r, out = [GotBool r] /\ (r = true <-> P M N))
    | _, _ => None
    end.
  Definition m_base (o : op K V) (ms : regs mapping) : option (regs mapping * answers) :=
    match o with
    | OEmpty j => m_put j m_empty ms
    | OFrom _ t j | OArchive t j => m_put j (has t) ms
    | OClone i j => match rget i ms with Some M => m_put j M ms | None => None end
    | ODrop i => match rtake i ms with Some (_, s1) => Some (s1, silent) | None => None end
    | OMove i j => match rtake i ms with Some (M, s1) => m_put j M s1 | None => None end
    | OTouch i _ => match rget i ms with Some _ => Some (ms, silent) | None => None end
    | _ => None
    end.
  Definition mstep (o : api K V) (ms : regs mapping) : option (regs mapping * answers) :=
    match o with
    | ABase o => m_base o ms
    | ASingle k v j => m_put j (m_single k v) ms
    | AInsert i k v => match rtake i ms with Some (M, s1) => m_put i (m_insert k v M) s1 | None => None end
    | APrepend i p => match rtake i ms with Some (M, s1) => m_put i (m_prepend p M) s1 | None => None end
    | AFilter i p j => match rget i ms with Some M => m_put j (m_filter p M) ms | None => None end
    | AOuterWith f i b => m_upd i b (m_combine (g_outer (keeps f))) ms
    | AInnerWith f i b => m_upd i b (m_combine (g_inner (keeps f))) ms
    | ALeftWith f i b => m_upd i b (m_combine (g_leftc (keeps_left f))) ms
    | ARemoveWith f i b => m_upd i b (m_remove f) ms
    | ARetainWith f i b => m_upd i b (m_retain f) ms
    | AOuter f a b j => m_new a b j (m_combine (g_outer f)) ms
    | AInner f a b j => m_new a b j (m_combine (g_inner f)) ms
    | ALeft f a b j => m_new a b j (m_combine (g_leftc f)) ms
    | AGet i k => match rget i ms with Some M => Some (ms, fun out => exists o, out = [GotValue o] /\ bound M k o) | None => None end
    | AIter i =>
        match rget i ms with
        | Some M => Some (ms, fun out => exists l, out = [GotPairs l] /\ StronglySorted (fun x y => lex kcmp (fst x) (fst y) = Lt) l /\ forall k v, In (k, v) l <-> M k v)
        | None => None
        end
    | AIntersects a b => m_ask a b (fun M N => exists k v w, M k v /\ N k w) ms
    | AIsSubset a b => m_ask a b (fun M N => forall k v, M k v -> exists w, N k w) ms
    end.
  (** a whole program, and what it may have answered, in order *)
  Fixpoint mrun (os : list (api K V)) (ms : regs mapping) : option (regs mapping * answers) :=
    match os with
    | [] => Some (ms, silent)
    | o :: os' =>
        match mstep o ms with
        | Some (m1, A1) =>
            match mrun os' m1 with
            | Some (m2, A2) => Some (m2, fun out => exists l1 l2, out = l1 ++ l2 /\ A1 l1 /\ A2 l2)
            | None => None
            end
        | None => None
        end
    end.
  (** Calls of public methods: no direct change of prefixes, values or child vectors. Trees that are converted or loaded
      must be canonical (as every tree built through the interface is, C46); left_combine must keep the values of keys
      that the other tree does not have (C51 says what happens otherwise). *)
  Definition public (o : api K V) : Prop :=
    match o with
    | ABase o =>
        match o with
        | OEmpty _ | OClone _ _ | ODrop _ | OMove _ _ | OTouch _ _ => True
        | OFrom _ t _ | OArchive t _ => Canon kcmp t
        | _ => False
        end
    | ALeft f _ _ _ => (forall v, f v None = Some v)
    | _ => True
    end.
  (** a call that reads a given node of the tree: the only one that needs more than registers *)
  Definition reads_path (o : api K V) : bool := match o with ABase (OTouch _ _) => true | _ => false end.
End ApiSpec.
