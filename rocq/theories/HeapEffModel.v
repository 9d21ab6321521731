(** The in-place combinations of ArcRadixTree and LazyRadixTree with closures that have effects and may
    panic (src/radix_tree/mod.rs:345-550, 1262-1557): HeapOps.v with the closures of RadixEffModel.v.
    The result of a call is a [done] (Merge.v): [Done (h, n, e)]: it returned; [Unwound (h, n, e)]: the
    closure panicked, the panic was caught by the caller, [self] is [n] then and the heap is [h]; both with
    everything dropped that is dropped on the way. [DoneNoFuel]: a use of freed memory, an overflow or
    underflow of a count, an index out of bounds, or lack of fuel.
    While a panic unwinds, every merge in progress gives its vector back with the finished part only and
    drops the rest of its source (the Drop of the builder of InPlaceVecMergeStateRef), temporaries are
    dropped, and [unsplit] does not run.
    A panic of Clone while a vector is copied is modelled in HeapThrowModel.v, for the operations of HeapModel.v, and not here; a panic
    of Drop is not modelled. *)
From Verif Require Export HeapApi RadixEffModel.

Section HeapEff.
  Context {K V : Type} (kcmp : K -> K -> comparison) (strat : nat -> nat -> bool) (arc : bool) {E : Type}.
  Notation tree := (rtree K V).
  Notation node := (node K V).
  Notation heap := (heap K V).
  Notation hst := (@hst K V).
  Notation result := (done (heap * node * E)).

  (** steps that run no closure cannot panic: a failure is a fault *)
  Definition h_quietly (o : out hst) (e : E) : out (hst * E) :=
    match o with Cont s => Cont (s, e) | Stop s => Stop (s, e) | _ => NoFuel end.
  Definition he_lift (r : option (heap * node)) (k : heap -> node -> result) : result :=
    match r with Some (h, n) => k h n | None => DoneNoFuel end.

  (** [f(n.children_mut())], see [with_children]: the vector is borrowed while [f] runs, and is given back also
      when [f] panics *)
  Definition he_with_children (f : heap -> list node -> done (heap * list node * E)) (h : heap) (n : node) : result :=
    match children_mut h n with
    | Some (h1, n1, a) =>
        match h_cell h1 a with
        | Some (rc, ns) =>
            match f (h_upd h1 a None) ns with
            | Done (h2, ns', e) => Done (h_upd h2 a (Some (rc, ns')), n1, e)
            | Unwound (h2, ns', e) => Unwound (h_upd h2 a (Some (rc, ns')), n1, e)
            | DoneNoFuel => DoneNoFuel
            end
        | None => DoneNoFuel
        end
    | None => DoneNoFuel
    end.

  Section Merge.
    Context (rec : heap -> node -> node -> E -> result) (fuel : nat).
    (** mod.rs:1283-1292, 1358-1368, 1436-1446, 1512-1522, 1546-1556; see [h_coll] *)
    Definition he_coll (conv : bool) (se : hst * E) : out (hst * E) :=
      let (s, e) := se in
      match hs_src s, hs_b s with
      | av :: a', bv :: _ =>
          match rec (hs_h s) av bv e with
          | Done (h', av', e') =>
              match n_is_empty h' av' with
              | Some b =>
                  h_quietly (obind (hs_adv_a (MkHst h' (hs_tgt s) (av' :: a') (hs_b s)) 1 (negb b))
                                   (fun s' => hs_adv_b arc fuel conv s' 1 false)) e'
              | None => NoFuel
              end
          | Unwound (h', av', e') => Panic (MkHst h' (hs_tgt s) (av' :: a') (hs_b s), e')
          | DoneNoFuel => NoFuel
          end
      | _, _ => Panic se
      end.
    (** see [h_op] *)
    Definition he_op (ta tb conv : bool) : mop (hst * E) node node :=
      MkMop (fun s => hs_src (fst s)) (fun s => hs_b (fst s)) (n_head_cmp kcmp)
            (fun s n => h_quietly (hs_adv_a (fst s) n ta) (snd s))
            (fun s n => h_quietly (hs_adv_b arc fuel conv (fst s) n tb) (snd s))
            (he_coll conv).
    (** InPlaceVecMergeStateRef::merge(self.children_mut(), &rhs, op, conv) mod.rs:169-235; see [h_merge] *)
    Definition he_merge (ta tb conv : bool) (rhs : list node) (e : E) (h : heap) (ns : list node) : done (heap * list node * E) :=
      match merge (he_op ta tb conv) strat (MkHst h [] ns rhs, e) with
      | Cont (s, e') | Stop (s, e') =>
          match drop_all (hs_h s) (hs_src s) with Some h' => Done (h', hs_tgt s, e') | None => DoneNoFuel end
      | Panic (s, e') =>
          match drop_all (hs_h s) (hs_src s) with Some h' => Unwound (h', hs_tgt s, e') | None => DoneNoFuel end
      | NoFuel => DoneNoFuel
      end.
    (** with [&[that.materialize_shortened(n)]]; see [h_merge_mat]. The temporary is dropped in any case. *)
    Definition he_merge_mat (ta tb conv : bool) (that : node) (k : nat) (h : heap) (self : node) (e : E) : result :=
      match h_mat arc fuel h that k with
      | Some (h1, tmp) =>
          match he_with_children (he_merge ta tb conv [tmp] e) h1 self with
          | Done (h2, self', e') => match drop_all h2 [tmp] with Some h3 => Done (h3, self', e') | None => DoneNoFuel end
          | Unwound (h2, self', e') => match drop_all h2 [tmp] with Some h3 => Unwound (h3, self', e') | None => DoneNoFuel end
          | DoneNoFuel => DoneNoFuel
          end
      | None => DoneNoFuel
      end.
    (** with [that.children()]; see [h_merge_kids] *)
    Definition he_merge_kids (ta tb conv : bool) (that : node) (h : heap) (self : node) (e : E) : result :=
      match kids_of h that with
      | Some rhs => he_with_children (he_merge ta tb conv rhs e) h self
      | None => DoneNoFuel
      end.
  End Merge.

  (** [self.unsplit()], unless a panic unwinds *)
  Definition he_unsplit (r : result) : result :=
    match r with
    | Done (h, n, e) => match h_unsplit h n with Some (h', n') => Done (h', n', e) | None => DoneNoFuel end
    | _ => r
    end.
  (** an update of the value of [self]; see [evalue] *)
  Definition he_value (h : heap) (self : node) (r : option V * E * bool) (k : node -> E -> result) : result :=
    let '(v, e, ok) := r in
    if ok then k (n_set_value v self) e else Unwound (h, n_set_value v self, e).
  (** [self.value_mut().take(); self.children_mut().clear()] *)
  Definition he_clear (h : heap) (self : node) (e : E) : result :=
    he_lift (with_children vec_clear h (n_set_value None self)) (fun h self => Done (h, self, e)).

  (** outer_combine_with mod.rs:345-391 *)
  Fixpoint he_outer (f : mclos E V V) (fuel : nat) (h : heap) (self that : node) (e : E) : result :=
    match fuel with
    | 0 => DoneNoFuel
    | S fuel' =>
        let n := common_prefix kcmp (n_prefix self) (n_prefix that) in
        let rec := he_outer f fuel' in
        he_unsplit (
          if (n =? length (n_prefix self)) && (n =? length (n_prefix that)) then
            he_value h self (eupd_outer f (n_value self) (n_value that) e) (fun self e =>
            he_merge_kids rec fuel' true true true that h self e)
          else if n =? length (n_prefix self) then
            he_merge_mat rec fuel' true true true that n h self e
          else if n =? length (n_prefix that) then
            he_lift (h_split arc h self n) (fun h self =>
            he_value h self (eupd_outer f (n_value self) (n_value that) e) (fun self e =>
            he_merge_kids rec fuel' true true true that h self e))
          else
            he_lift (h_split arc h self n) (fun h self =>
            he_lift (h_mat arc fuel' h that n) (fun h c =>
            he_lift (with_children (vec_push c) h self) (fun h self =>
            he_lift (with_children (vec_sort kcmp) h self) (fun h self => Done (h, self, e))))))
    end.

  (** inner_combine_with mod.rs:398-431 *)
  Fixpoint he_inner (f : mclos E V V) (fuel : nat) (h : heap) (self that : node) (e : E) : result :=
    match fuel with
    | 0 => DoneNoFuel
    | S fuel' =>
        let n := common_prefix kcmp (n_prefix self) (n_prefix that) in
        let rec := he_inner f fuel' in
        he_unsplit (
          if (n =? length (n_prefix self)) && (n =? length (n_prefix that)) then
            he_value h self (eupd_inner f (n_value self) (n_value that) e) (fun self e =>
            he_merge_kids rec fuel' false false false that h self e)
          else if n =? length (n_prefix self) then
            he_merge_mat rec fuel' false false false that n h (n_set_value None self) e
          else if n =? length (n_prefix that) then
            he_lift (h_split arc h self n) (fun h self =>
            he_merge_kids rec fuel' false false false that h self e)
          else he_clear h self e)
    end.

  (** left_combine_with mod.rs:440-468 *)
  Fixpoint he_left (f : mclos E V V) (fuel : nat) (h : heap) (self that : node) (e : E) : result :=
    match fuel with
    | 0 => DoneNoFuel
    | S fuel' =>
        let n := common_prefix kcmp (n_prefix self) (n_prefix that) in
        let rec := he_left f fuel' in
        he_unsplit (
          if (n =? length (n_prefix self)) && (n =? length (n_prefix that)) then
            he_value h self (eupd_left f (n_value self) (n_value that) e) (fun self e =>
            he_merge_kids rec fuel' true false false that h self e)
          else if n =? length (n_prefix self) then
            he_merge_mat rec fuel' true false false that n h self e
          else if n =? length (n_prefix that) then
            he_lift (h_split arc h self n) (fun h self =>
            he_merge_kids rec fuel' true false false that h self e)
          else Done (h, self, e))
    end.

  (** [Some(value) if f(value)] mod.rs:483, 495, 525, 531; see [ehit] *)
  Definition he_hit (f : clos E V bool) (h : heap) (self : node) (w : option V) (e : E) (k : bool -> E -> result) : result :=
    match w with
    | None => k false e
    | Some w => let (e', r) := f e w in
                match r with Ret b => k b e' | Throw => Unwound (h, self, e') end
    end.
  (** remove_prefix_with mod.rs:474-511 *)
  Fixpoint he_remove (f : clos E V bool) (fuel : nat) (h : heap) (self that : node) (e : E) : result :=
    match fuel with
    | 0 => DoneNoFuel
    | S fuel' =>
        let n := common_prefix kcmp (n_prefix self) (n_prefix that) in
        let rec := he_remove f fuel' in
        he_unsplit (
          if (n =? length (n_prefix self)) && (n =? length (n_prefix that)) then
            he_hit f h self (n_value that) e (fun b e =>
            if b then he_clear h self e
            else he_merge_kids rec fuel' true false false that h self e)
          else if n =? length (n_prefix that) then
            he_hit f h self (n_value that) e (fun b e =>
            if b then he_clear h self e
            else he_lift (h_split arc h self n) (fun h self =>
                 he_merge_kids rec fuel' true false false that h self e))
          else if n =? length (n_prefix self) then
            he_merge_mat rec fuel' true false false that n h self e
          else Done (h, self, e))
    end.

  (** retain_prefix_with mod.rs:517-546 *)
  Fixpoint he_retain (f : clos E V bool) (fuel : nat) (h : heap) (self that : node) (e : E) : result :=
    match fuel with
    | 0 => DoneNoFuel
    | S fuel' =>
        let n := common_prefix kcmp (n_prefix self) (n_prefix that) in
        let rec := he_retain f fuel' in
        he_unsplit (
          if (n =? length (n_prefix self)) && (n =? length (n_prefix that)) then
            he_hit f h self (n_value that) e (fun b e =>
            if b then Done (h, self, e)
            else he_merge_kids rec fuel' false false false that h (n_set_value None self) e)
          else if n =? length (n_prefix that) then
            he_hit f h self (n_value that) e (fun b e =>
            if b then Done (h, self, e)
            else he_lift (h_split arc h self n) (fun h self =>
                 he_merge_kids rec fuel' false false false that h self e))
          else if n =? length (n_prefix self) then
            he_merge_mat rec fuel' false false false that n h (n_set_value None self) e
          else he_clear h self e)
    end.

  (** ** Programs with such calls. A panic is caught at the call; the program goes on. *)
  Inductive eapi :=
  | EPlain (o : api K V)                          (* a call of HeapApi.v *)
  | EOuterWith (f : mclos E V V) (i b : nat)      (* i.outer_combine_with(&b, f) *)
  | EInnerWith (f : mclos E V V) (i b : nat)
  | ELeftWith (f : mclos E V V) (i b : nat)
  | ERemoveWith (f : clos E V bool) (i b : nat)   (* i.remove_prefix_with(&b, f) *)
  | ERetainWith (f : clos E V bool) (i b : nat).
  (** what the caller sees: an answer, or that the closure's panic came through *)
  Inductive eobs := Saw (o : obs K V) | Caught.

  Definition he_in_place (act : heap -> node -> node -> E -> result) (i b : nat) (st : state K V) (e : E)
    : option (state K V * E * list eobs) :=
    let (h, s) := st in
    match rtake i s with
    | Some (n, s1) =>
        match rget b s1 with
        | Some m =>
            match act h n m e with
            | Done (h1, n1, e1) => match rput i n1 s1 with Some s2 => Some ((h1, s2), e1, []) | None => None end
            | Unwound (h1, n1, e1) => match rput i n1 s1 with Some s2 => Some ((h1, s2), e1, [Caught]) | None => None end
            | DoneNoFuel => None
            end
        | None => None
        end
    | None => None
    end.
  Definition he_step (F : nat) (o : eapi) (st : state K V) (e : E) : option (state K V * E * list eobs) :=
    match o with
    | EPlain o => match astep kcmp strat arc F o st with Some (st', l) => Some (st', e, map Saw l) | None => None end
    | EOuterWith f i b => he_in_place (he_outer f F) i b st e
    | EInnerWith f i b => he_in_place (he_inner f F) i b st e
    | ELeftWith f i b => he_in_place (he_left f F) i b st e
    | ERemoveWith f i b => he_in_place (he_remove f F) i b st e
    | ERetainWith f i b => he_in_place (he_retain f F) i b st e
    end.
  Fixpoint he_run (F : nat) (os : list eapi) (st : state K V) (e : E) : option (state K V * E * list eobs) :=
    match os with
    | [] => Some (st, e, [])
    | o :: os' =>
        match he_step F o st e with
        | Some (st1, e1, l1) =>
            match he_run F os' st1 e1 with Some (st2, e2, l2) => Some (st2, e2, l1 ++ l2) | None => None end
        | None => None
        end
    end.

  (** the same on plain trees that share nothing, with the operations of RadixModel.v and RadixEffModel.v *)
  Definition pe_in_place (act : tree -> tree -> E -> done (tree * E)) (i b : nat) (vs : regs tree) (e : E)
    : option (regs tree * E * list eobs) :=
    match rtake i vs with
    | Some (x, s1) =>
        match rget b s1 with
        | Some y =>
            match act x y e with
            | Done (x', e1) => match rput i x' s1 with Some s2 => Some (s2, e1, []) | None => None end
            | Unwound (x', e1) => match rput i x' s1 with Some s2 => Some (s2, e1, [Caught]) | None => None end
            | DoneNoFuel => None
            end
        | None => None
        end
    | None => None
    end.
  Definition pe_step (o : eapi) (vs : regs tree) (e : E) : option (regs tree * E * list eobs) :=
    match o with
    | EPlain o => match pstep kcmp strat o vs with Some (vs', l) => Some (vs', e, map Saw l) | None => None end
    | EOuterWith f i b => pe_in_place (ert_outer_combine_with kcmp strat f) i b vs e
    | EInnerWith f i b => pe_in_place (ert_inner_combine_with kcmp strat f) i b vs e
    | ELeftWith f i b => pe_in_place (ert_left_combine_with kcmp strat f) i b vs e
    | ERemoveWith f i b => pe_in_place (ert_remove_prefix_with kcmp strat f) i b vs e
    | ERetainWith f i b => pe_in_place (ert_retain_prefix_with kcmp strat f) i b vs e
    end.
  Fixpoint pe_run (os : list eapi) (vs : regs tree) (e : E) : option (regs tree * E * list eobs) :=
    match os with
    | [] => Some (vs, e, [])
    | o :: os' =>
        match pe_step o vs e with
        | Some (v1, e1, l1) =>
            match pe_run os' v1 e1 with Some (v2, e2, l2) => Some (v2, e2, l1 ++ l2) | None => None end
        | None => None
        end
    end.
End HeapEff.
Arguments eapi : clear implicits.
Arguments eobs : clear implicits.
