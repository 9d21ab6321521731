(** Model of the operations of /repo/src/radix_tree/mod.rs as they run on the shared nodes of
    HeapModel.v, where RadixModel.v runs them on plain trees: every [children_mut] may copy a vector,
    every removed node is dropped, [new] allocates, and the borrowed argument [that] may share vectors
    with the tree that is being changed.
    [None]: a panic, a use of freed memory, or lack of fuel. A panic in the caller's closure is not
    modelled (closures are functions). Reading children() of a LazyRadixTree node that is still in the
    archive gives the archived children; that the node remembers them is [touch] in HeapModel.v. *)
From Verif Require Export RadixModel HeapSpec.

Section HeapOps.
  Context {K V : Type} (kcmp : K -> K -> comparison) (strat : nat -> nat -> bool) (arc : bool).
  Notation tree := (rtree K V).
  Notation node := (node K V).
  Notation heap := (heap K V).

  (** children() arc_radix_tree.rs:66-68, lazy_radix_tree.rs:55-57 *)
  Definition kids_of (h : heap) (n : node) : option (list node) :=
    match n_kids n with
    | inl ts => Some (map shallow ts)
    | inr a => match h_cell h a with Some (_, ns) => Some ns | None => None end
    end.
  (** is_empty mod.rs:573-575 *)
  Definition n_is_empty (h : heap) (n : node) : option bool :=
    match kids_of h n with
    | Some l => Some (match n_value n, l with None, [] => true | _, _ => false end)
    | None => None
    end.
  (** [*n.prefix_mut() = p], [*n.value_mut() = v] *)
  Definition n_set_prefix (p : list K) (n : node) : node := MkN p (n_value n) (n_kids n).
  Definition n_set_value (v : option V) (n : node) : node := MkN (n_prefix n) v (n_kids n).

  (** [f(n.children_mut())]: while [f] runs the vector is mutably borrowed, so out of the heap *)
  Definition with_children (f : heap -> list node -> option (heap * list node)) (h : heap) (n : node)
    : option (heap * node) :=
    match children_mut h n with
    | Some (h1, n1, a) =>
        match h_cell h1 a with
        | Some (rc, ns) =>
            match f (h_upd h1 a None) ns with
            | Some (h2, ns') => Some (h_upd h2 a (Some (rc, ns')), n1)
            | None => None
            end
        | None => None
        end
    | None => None
    end.
  (** Vec::push *)
  Definition vec_push (x : node) (h : heap) (ns : list node) : option (heap * list node) := Some (h, ns ++ [x]).
  (** Vec::clear *)
  Definition vec_clear (h : heap) (ns : list node) : option (heap * list node) :=
    match drop_all h ns with Some h' => Some (h', []) | None => None end.
  (** [retain(|x| !x.is_empty())] mod.rs:146 *)
  Fixpoint vec_retain (h : heap) (ns : list node) : option (heap * list node) :=
    match ns with
    | [] => Some (h, [])
    | x :: ns' =>
        match n_is_empty h x with
        | Some true =>
            match drop_all h [x] with Some h1 => vec_retain h1 ns' | None => None end
        | Some false =>
            match vec_retain h ns' with Some (h1, l) => Some (h1, x :: l) | None => None end
        | None => None
        end
    end.
  (** [sort_by_key(|x| x.prefix()[0])] mod.rs:388, 1087 *)
  Definition n_has_head (n : node) : bool := match n_prefix n with [] => false | _ => true end.
  Definition n_head_cmp (a b : node) : option comparison :=
    match n_prefix a, n_prefix b with
    | x :: _, y :: _ => Some (kcmp x y)
    | _, _ => None
    end.
  Definition n_head_ord (a b : node) : comparison := match n_head_cmp a b with Some c => c | None => Eq end.
  Definition vec_sort (h : heap) (ns : list node) : option (heap * list node) :=
    if (length ns <? 2) || forallb n_has_head ns then Some (h, sort_by n_head_ord ns) else None.

  (** new arc_radix_tree.rs:72-79, lazy_radix_tree.rs:61-68 *)
  Definition n_new (p : list K) (v : option V) (ns : list node) (h : heap) : option (heap * node) :=
    match wrap arc h ns with Some (h', a) => Some (h', MkN p v (inr a)) | None => None end.

  (** split mod.rs:131-140 *)
  Definition h_split (h : heap) (n : node) (k : nat) : option (heap * node) :=
    if k <? length (n_prefix n) then
      match n_new (firstn k (n_prefix n)) None [] h with
      | Some (h1, s) => with_children (vec_push (n_set_prefix (skipn k (n_prefix n)) n)) h1 s
      | None => None
      end
    else None.
  (** prepend0 mod.rs:160-167, prepend mod.rs:288-295 *)
  Definition h_prepend (h : heap) (n : node) (q : list K) : option node :=
    match q with
    | [] => Some n
    | _ => match n_is_empty h n with
           | Some true => Some n
           | Some false => Some (n_set_prefix (q ++ n_prefix n) n)
           | None => None
           end
    end.
  (** [self.children_mut().pop().unwrap()], then [child.prepend0(self.prefix()); *self = child], which
      drops the old self mod.rs:149-151 *)
  Definition h_collapse (h : heap) (n : node) : option (heap * node) :=
    match children_mut h n with
    | Some (h1, n1, a) =>
        match h_cell h1 a with
        | Some (rc, ns) =>
            match rev ns with
            | c :: r =>
                let h2 := h_upd h1 a (Some (rc, rev r)) in
                match h_prepend h2 c (n_prefix n1) with
                | Some c' => match drop_all h2 [n1] with Some h3 => Some (h3, c') | None => None end
                | None => None
                end
            | [] => None
            end
        | None => None
        end
    | None => None
    end.
  (** unsplit mod.rs:143-158 *)
  Definition h_unsplit (h : heap) (n : node) : option (heap * node) :=
    match with_children vec_retain h n with
    | Some (h1, n1) =>
        match kids_of h1 n1 with
        | Some ns =>
            match (match n_value n1, ns with
                   | None, [_] => h_collapse h1 n1
                   | _, _ => Some (h1, n1)
                   end) with
            | Some (h2, n2) =>
                match n_is_empty h2 n2 with
                | Some true => Some (h2, n_set_prefix [] n2)
                | Some false => Some (h2, n2)
                | None => None
                end
            | None => None
            end
        | None => None
        end
    | None => None
    end.

  (** materialize_shortened mod.rs:642-652, 762-783: a deep copy; [m] is only read *)
  Fixpoint h_mat (fuel : nat) (h : heap) (m : node) (k : nat) : option (heap * node) :=
    match fuel with
    | 0 => None
    | S fuel' =>
        if k <? length (n_prefix m) then
          match kids_of h m with
          | Some ns =>
              match (fix go (h : heap) (l : list node) : option (heap * list node) :=
                       match l with
                       | [] => Some (h, [])
                       | x :: l' =>
                           match h_mat fuel' h x 0 with
                           | Some (h1, x') => match go h1 l' with Some (h2, l'') => Some (h2, x' :: l'') | None => None end
                           | None => None
                           end
                       end) h ns with
              | Some (h1, l) => n_new (skipn k (n_prefix m)) (n_value m) l h1
              | None => None
              end
          | None => None
          end
        else None
    end.
  (** [iter().map(materialize).collect()] mod.rs:1195-1199 *)
  Fixpoint h_mat_all (fuel : nat) (h : heap) (l : list node) : option (heap * list node) :=
    match l with
    | [] => Some (h, [])
    | x :: l' =>
        match h_mat fuel h x 0 with
        | Some (h1, x') => match h_mat_all fuel h1 l' with Some (h2, l'') => Some (h2, x' :: l'') | None => None end
        | None => None
        end
    end.

  (** ** InPlaceVecMergeStateRef merge_state.rs:163-224 on nodes: the builder owns its target and
      source, [hs_b] is borrowed. The order of the operations is that of Merge.v; a dropped element
      gives up its share of its children. *)
  Record hst := MkHst { hs_h : heap; hs_tgt : list node; hs_src : list node; hs_b : list node }.
  (** merge_state.rs:199-200 *)
  Definition hs_adv_a (s : hst) (n : nat) (take : bool) : out hst :=
    if take then Cont (MkHst (hs_h s) (hs_tgt s ++ firstn n (hs_src s)) (skipn n (hs_src s)) (hs_b s))
    else match drop_all (hs_h s) (firstn n (hs_src s)) with
         | Some h' => Cont (MkHst h' (hs_tgt s) (skipn n (hs_src s)) (hs_b s))
         | None => Panic s
         end.
  (** merge_state.rs:198-207; [conv]: RadixTreeConverter mod.rs:944-952 (true) or NoConverter *)
  Fixpoint hs_extend (fuel : nat) (conv : bool) (n : nat) (s : hst) : out hst :=
    match n with
    | 0 => Cont s
    | S n' =>
        match hs_b s with
        | [] => Cont s
        | y :: b' =>
            if conv then
              match h_mat fuel (hs_h s) y 0 with
              | Some (h', x) => hs_extend fuel conv n' (MkHst h' (hs_tgt s ++ [x]) (hs_src s) b')
              | None => Panic s
              end
            else Panic s
        end
    end.
  Definition hs_adv_b (fuel : nat) (conv : bool) (s : hst) (n : nat) (take : bool) : out hst :=
    if take then hs_extend fuel conv n s
    else Cont (MkHst (hs_h s) (hs_tgt s) (hs_src s) (skipn n (hs_b s))).

  Section HInPlace.
    Context (rec : heap -> node -> node -> option (heap * node)) (fuel : nat).
    (** the collision handlers mod.rs:1283-1292, 1358-1368, 1436-1446, 1512-1522, 1546-1556 *)
    Definition h_coll (conv : bool) (s : hst) : out hst :=
      match hs_src s, hs_b s with
      | av :: a', bv :: _ =>
          match rec (hs_h s) av bv with
          | Some (h', av') =>
              match n_is_empty h' av' with
              | Some e =>
                  obind (hs_adv_a (MkHst h' (hs_tgt s) (av' :: a') (hs_b s)) 1 (negb e))
                        (fun s' => hs_adv_b fuel conv s' 1 false)
              | None => Panic s
              end
          | None => Panic s
          end
      | _, _ => Panic s
      end.
    Definition h_op (ta tb conv : bool) : mop hst node node :=
      MkMop hs_src hs_b n_head_cmp
            (fun s n => hs_adv_a s n ta)
            (fun s n => hs_adv_b fuel conv s n tb)
            (h_coll conv).
    (** [InPlaceVecMergeStateRef::merge(self.children_mut(), &rhs, op, conv)] mod.rs:169-235; when the
        builder is dropped it drops what is left of its source *)
    Definition h_merge (ta tb conv : bool) (rhs : list node) (h : heap) (ns : list node) : option (heap * list node) :=
      match merge (h_op ta tb conv) strat (MkHst h [] ns rhs) with
      | Cont s | Stop s =>
          match drop_all (hs_h s) (hs_src s) with Some h' => Some (h', hs_tgt s) | None => None end
      | _ => None
      end.
    (** the same with [&[that.materialize_shortened(n)]], a temporary that is dropped afterwards *)
    Definition h_merge_mat (ta tb conv : bool) (that : node) (k : nat) (h : heap) (self : node) : option (heap * node) :=
      match h_mat fuel h that k with
      | Some (h1, tmp) =>
          match with_children (h_merge ta tb conv [tmp]) h1 self with
          | Some (h2, self') => match drop_all h2 [tmp] with Some h3 => Some (h3, self') | None => None end
          | None => None
          end
      | None => None
      end.
    (** ... and with [that.children()] *)
    Definition h_merge_kids (ta tb conv : bool) (that : node) (h : heap) (self : node) : option (heap * node) :=
      match kids_of h that with
      | Some rhs => with_children (h_merge ta tb conv rhs) h self
      | None => None
      end.
  End HInPlace.

  Definition and_unsplit (r : option (heap * node)) : option (heap * node) :=
    match r with Some (h, n) => h_unsplit h n | None => None end.
  Definition and_then (r : option (heap * node)) (k : heap -> node -> option (heap * node)) : option (heap * node) :=
    match r with Some (h, n) => k h n | None => None end.

  (** outer_combine_with mod.rs:345-391 *)
  Fixpoint h_outer (f : V -> V -> V * bool) (fuel : nat) (h : heap) (self that : node) : option (heap * node) :=
    match fuel with
    | 0 => None
    | S fuel' =>
        let n := common_prefix kcmp (n_prefix self) (n_prefix that) in
        let rec := h_outer f fuel' in
        and_unsplit (
          if (n =? length (n_prefix self)) && (n =? length (n_prefix that)) then
            h_merge_kids rec fuel' true true true that h
              (n_set_value (upd_outer f (n_value self) (n_value that)) self)
          else if n =? length (n_prefix self) then
            h_merge_mat rec fuel' true true true that n h self
          else if n =? length (n_prefix that) then
            and_then (h_split h self n) (fun h self =>
              h_merge_kids rec fuel' true true true that h
                (n_set_value (upd_outer f (n_value self) (n_value that)) self))
          else
            and_then (h_split h self n) (fun h self =>
              match h_mat fuel' h that n with
              | Some (h, c) =>
                  and_then (with_children (vec_push c) h self) (fun h self =>
                    with_children vec_sort h self)
              | None => None
              end))
    end.

  (** inner_combine_with mod.rs:398-431 *)
  Fixpoint h_inner (f : V -> V -> V * bool) (fuel : nat) (h : heap) (self that : node) : option (heap * node) :=
    match fuel with
    | 0 => None
    | S fuel' =>
        let n := common_prefix kcmp (n_prefix self) (n_prefix that) in
        let rec := h_inner f fuel' in
        and_unsplit (
          if (n =? length (n_prefix self)) && (n =? length (n_prefix that)) then
            h_merge_kids rec fuel' false false false that h
              (n_set_value (upd_inner f (n_value self) (n_value that)) self)
          else if n =? length (n_prefix self) then
            h_merge_mat rec fuel' false false false that n h (n_set_value None self)
          else if n =? length (n_prefix that) then
            and_then (h_split h self n) (fun h self =>
              h_merge_kids rec fuel' false false false that h self)
          else with_children vec_clear h (n_set_value None self))
    end.

  (** left_combine_with mod.rs:440-468 *)
  Fixpoint h_left (f : V -> V -> V * bool) (fuel : nat) (h : heap) (self that : node) : option (heap * node) :=
    match fuel with
    | 0 => None
    | S fuel' =>
        let n := common_prefix kcmp (n_prefix self) (n_prefix that) in
        let rec := h_left f fuel' in
        and_unsplit (
          if (n =? length (n_prefix self)) && (n =? length (n_prefix that)) then
            h_merge_kids rec fuel' true false false that h
              (n_set_value (upd_left f (n_value self) (n_value that)) self)
          else if n =? length (n_prefix self) then
            h_merge_mat rec fuel' true false false that n h self
          else if n =? length (n_prefix that) then
            and_then (h_split h self n) (fun h self =>
              h_merge_kids rec fuel' true false false that h self)
          else Some (h, self))
    end.

  (** remove_prefix_with mod.rs:474-511 *)
  Fixpoint h_remove (f : V -> bool) (fuel : nat) (h : heap) (self that : node) : option (heap * node) :=
    match fuel with
    | 0 => None
    | S fuel' =>
        let n := common_prefix kcmp (n_prefix self) (n_prefix that) in
        let rec := h_remove f fuel' in
        and_unsplit (
          if (n =? length (n_prefix self)) && (n =? length (n_prefix that)) then
            if hit f (n_value that) then with_children vec_clear h (n_set_value None self)
            else h_merge_kids rec fuel' true false false that h self
          else if n =? length (n_prefix that) then
            if hit f (n_value that) then with_children vec_clear h (n_set_value None self)
            else and_then (h_split h self n) (fun h self =>
                   h_merge_kids rec fuel' true false false that h self)
          else if n =? length (n_prefix self) then
            h_merge_mat rec fuel' true false false that n h self
          else Some (h, self))
    end.

  (** retain_prefix_with mod.rs:517-546 *)
  Fixpoint h_retain (f : V -> bool) (fuel : nat) (h : heap) (self that : node) : option (heap * node) :=
    match fuel with
    | 0 => None
    | S fuel' =>
        let n := common_prefix kcmp (n_prefix self) (n_prefix that) in
        let rec := h_retain f fuel' in
        and_unsplit (
          if (n =? length (n_prefix self)) && (n =? length (n_prefix that)) then
            if hit f (n_value that) then Some (h, self)
            else h_merge_kids rec fuel' false false false that h (n_set_value None self)
          else if n =? length (n_prefix that) then
            if hit f (n_value that) then Some (h, self)
            else and_then (h_split h self n) (fun h self =>
                   h_merge_kids rec fuel' false false false that h self)
          else if n =? length (n_prefix self) then
            h_merge_mat rec fuel' false false false that n h (n_set_value None self)
          else with_children vec_clear h (n_set_value None self))
    end.

  (** ** VecMergeState merge_state.rs:403-482 on nodes: both inputs are borrowed, the result is owned *)
  Record pst := MkPst { ps_h : heap; ps_a : list node; ps_b : list node; ps_r : list node }.
  (** [for e in ...iter() { self.r.push(C::convert(e)) }] merge_state.rs:463-465, 473-475 *)
  Fixpoint ps_push (fuel : nat) (conv : bool) (h : heap) (l r : list node) : option (heap * list node) :=
    match l with
    | [] => Some (h, r)
    | x :: l' =>
        if conv then
          match h_mat fuel h x 0 with
          | Some (h1, x') => ps_push fuel conv h1 l' (r ++ [x'])
          | None => None
          end
        else None
    end.
  (** merge_state.rs:460-470; the converter of the first input is always RadixTreeConverter *)
  Definition ps_adv_a (fuel : nat) (s : pst) (n : nat) (take : bool) : out pst :=
    match si_take_front (ps_a s) n with
    | None => Panic s
    | Some (l, a') =>
        if take then
          match ps_push fuel true (ps_h s) l (ps_r s) with
          | Some (h', r) => Cont (MkPst h' a' (ps_b s) r)
          | None => Panic s
          end
        else Cont (MkPst (ps_h s) a' (ps_b s) (ps_r s))
    end.
  (** merge_state.rs:471-481 *)
  Definition ps_adv_b (fuel : nat) (conv : bool) (s : pst) (n : nat) (take : bool) : out pst :=
    match si_take_front (ps_b s) n with
    | None => Panic s
    | Some (l, b') =>
        if take then
          match ps_push fuel conv (ps_h s) l (ps_r s) with
          | Some (h', r) => Cont (MkPst h' (ps_a s) b' r)
          | None => Panic s
          end
        else Cont (MkPst (ps_h s) (ps_a s) b' (ps_r s))
    end.
  Section HPure.
    Context (rec : heap -> node -> node -> option (heap * node)) (fuel : nat).
    (** the collision handlers mod.rs:1323-1334, 1402-1411, 1479-1488 *)
    Definition h_pcoll (s : pst) : out pst :=
      match ps_a s, ps_b s with
      | a :: a', b :: b' =>
          match rec (ps_h s) a b with
          | Some (h', r) =>
              match n_is_empty h' r with
              | Some true => match drop_all h' [r] with Some h'' => Cont (MkPst h'' a' b' (ps_r s)) | None => Panic s end
              | Some false => Cont (MkPst h' a' b' (ps_r s ++ [r]))
              | None => Panic s
              end
          | None => Panic s
          end
      | _, _ => Panic s
      end.
    Definition h_pop (ta tb cb : bool) : mop pst node node :=
      MkMop ps_a ps_b n_head_cmp
            (fun s n => ps_adv_a fuel s n ta)
            (fun s n => ps_adv_b fuel cb s n tb)
            h_pcoll.
    (** [VecMergeState::merge(a, b, op, ca, cb)] *)
    Definition h_pmerge (ta tb cb : bool) (h : heap) (la lb : list node) : option (heap * list node) :=
      match merge (h_pop ta tb cb) strat (MkPst h la lb []) with
      | Cont s | Stop s => Some (ps_h s, ps_r s)
      | _ => None
      end.
    (** merges of [a.children()] and [b.children()]; of [a.children()] and [&[b.materialize_shortened(n)]];
        of [&[a.materialize_shortened(n)]] and [b.children()] *)
    Definition h_pkids (ta tb cb : bool) (h : heap) (a b : node) : option (heap * list node) :=
      match kids_of h a, kids_of h b with
      | Some la, Some lb => h_pmerge ta tb cb h la lb
      | _, _ => None
      end.
    Definition h_pmat_b (ta tb cb : bool) (n : nat) (h : heap) (a b : node) : option (heap * list node) :=
      match kids_of h a, h_mat fuel h b n with
      | Some la, Some (h1, tmp) =>
          match h_pmerge ta tb cb h1 la [tmp] with
          | Some (h2, r) => match drop_all h2 [tmp] with Some h3 => Some (h3, r) | None => None end
          | None => None
          end
      | _, _ => None
      end.
    Definition h_pmat_a (ta tb cb : bool) (n : nat) (h : heap) (a b : node) : option (heap * list node) :=
      match kids_of h b, h_mat fuel h a n with
      | Some lb, Some (h1, tmp) =>
          match h_pmerge ta tb cb h1 [tmp] lb with
          | Some (h2, r) => match drop_all h2 [tmp] with Some h3 => Some (h3, r) | None => None end
          | None => None
          end
      | _, _ => None
      end.
  End HPure.
  (** [let mut res = R::new(prefix, value, children); res.unsplit()] mod.rs:1087-1089, 1138-1140, 1199-1201 *)
  Definition build (p : list K) (v : option V) (r : option (heap * list node)) : option (heap * node) :=
    match r with
    | Some (h, ns) => and_unsplit (n_new p v ns h)
    | None => None
    end.

  (** outer_combine mod.rs:1031-1092 *)
  Fixpoint h_outer_pure (f : V -> V -> option V) (fuel : nat) (h : heap) (a b : node) : option (heap * node) :=
    match fuel with
    | 0 => None
    | S fuel' =>
        let n := common_prefix kcmp (n_prefix a) (n_prefix b) in
        let rec := h_outer_pure f fuel' in
        let prefix := firstn n (n_prefix a) in
        if (n =? length (n_prefix a)) && (n =? length (n_prefix b)) then
          build prefix (val_outer f (n_value a) (n_value b)) (h_pkids rec fuel' true true true h a b)
        else if n =? length (n_prefix a) then
          build prefix (n_value a) (h_pmat_b rec fuel' true true true n h a b)
        else if n =? length (n_prefix b) then
          build prefix (n_value b) (h_pmat_a rec fuel' true true true n h a b)
        else
          build prefix None
            match h_mat fuel' h a n with
            | Some (h1, ca) =>
                match h_mat fuel' h1 b n with
                | Some (h2, cb) => vec_sort h2 [ca; cb]
                | None => None
                end
            | None => None
            end
    end.
  (** inner_combine mod.rs:1095-1143 *)
  Fixpoint h_inner_pure (f : V -> V -> option V) (fuel : nat) (h : heap) (a b : node) : option (heap * node) :=
    match fuel with
    | 0 => None
    | S fuel' =>
        let n := common_prefix kcmp (n_prefix a) (n_prefix b) in
        let rec := h_inner_pure f fuel' in
        let prefix := firstn n (n_prefix a) in
        if (n =? length (n_prefix a)) && (n =? length (n_prefix b)) then
          build prefix (val_inner f (n_value a) (n_value b)) (h_pkids rec fuel' false false false h a b)
        else if n =? length (n_prefix a) then
          build prefix None (h_pmat_b rec fuel' false false false n h a b)
        else if n =? length (n_prefix b) then
          build prefix None (h_pmat_a rec fuel' false false false n h a b)
        else build prefix None (Some (h, []))
    end.
  (** left_combine mod.rs:1146-1202 *)
  Fixpoint h_left_pure (f : V -> option V -> option V) (fuel : nat) (h : heap) (a b : node) : option (heap * node) :=
    match fuel with
    | 0 => None
    | S fuel' =>
        let n := common_prefix kcmp (n_prefix a) (n_prefix b) in
        let rec := h_left_pure f fuel' in
        let prefix := firstn n (n_prefix a) in
        if (n =? length (n_prefix a)) && (n =? length (n_prefix b)) then
          build prefix (val_left f (n_value a) (n_value b)) (h_pkids rec fuel' true false false h a b)
        else if n =? length (n_prefix a) then
          build prefix (n_value a) (h_pmat_b rec fuel' true false false n h a b)
        else if n =? length (n_prefix b) then
          build prefix None (h_pmat_a rec fuel' true false false n h a b)
        else
          build (n_prefix a) (n_value a)
            match kids_of h a with Some la => h_mat_all fuel' h la | None => None end
    end.

  (** ** Predicates: read-only *)
  (** IntersectOp mod.rs:1204-1231 ([ta] = false), NonSubsetOp mod.rs:1232-1258 ([ta] = true) *)
  Section HBool.
    Context (rec : node -> node -> res bool).
    Notation bst := (bstate node node).
    Definition h_coll_bool (m : bst) : out bst :=
      match bs_a m, bs_b m with
      | a :: _, b :: _ =>
          match rec a b with
          | Ok take => obind (adv_a bs_msm m 1 take) (fun m' => adv_b bs_msm m' 1 false)
          | Panicked => Panic m
          | OutOfFuel => NoFuel
          end
      | _, _ => Panic m
      end.
    Definition h_op_bool (ta : bool) : mop bst node node :=
      MkMop bs_a bs_b n_head_cmp
            (fun m n => adv_a bs_msm m n ta) (fun m n => adv_b bs_msm m n false) h_coll_bool.
  End HBool.
  (** a use of freed memory counts as a panic *)
  Definition kids_res (h : heap) (n : node) : res (list node) :=
    match kids_of h n with Some l => Ok l | None => Panicked end.
  (** intersects0 mod.rs:1001-1028 *)
  Fixpoint h_intersects0 (h : heap) (fuel : nat) (l : node) (lp : list K) (r : node) (rp : list K) : res bool :=
    match fuel with
    | 0 => OutOfFuel
    | S fuel' =>
        let n := common_prefix kcmp lp rp in
        if (n =? length lp) && (n =? length rp) then
          if (match n_value l, n_value r with Some _, Some _ => true | _, _ => false end) then Ok true
          else rbind (kids_res h l) (fun lk => rbind (kids_res h r) (fun rk =>
                 bs_merge strat (h_op_bool (fun a b => h_intersects0 h fuel' a (n_prefix a) b (n_prefix b)) false) lk rk))
        else if n =? length lp then
          rbind (kids_res h l) (any_res (fun lc => h_intersects0 h fuel' lc (n_prefix lc) r (skipn n rp)))
        else if n =? length rp then
          rbind (kids_res h r) (any_res (fun rc => h_intersects0 h fuel' l (skipn n lp) rc (n_prefix rc)))
        else Ok false
    end.
  (** is_subset0 mod.rs:961-992 *)
  Fixpoint h_is_subset0 (h : heap) (fuel : nat) (l : node) (lp : list K) (r : node) (rp : list K) : res bool :=
    match fuel with
    | 0 => OutOfFuel
    | S fuel' =>
        let n := common_prefix kcmp lp rp in
        if (n =? length lp) && (n =? length rp) then
          if (match n_value l, n_value r with None, _ => true | _, Some _ => true | _, _ => false end) then
            rbind (kids_res h l) (fun lk => rbind (kids_res h r) (fun rk =>
              rmap negb (bs_merge strat
                 (h_op_bool (fun a b => rmap negb (h_is_subset0 h fuel' a (n_prefix a) b (n_prefix b))) true) lk rk)))
          else Ok false
        else if n =? length lp then
          match n_value l with
          | None => rbind (kids_res h l) (all_res (fun lc => h_is_subset0 h fuel' lc (n_prefix lc) r (skipn n rp)))
          | Some _ => Ok false
          end
        else if n =? length rp then
          rbind (kids_res h r) (any_res (fun rc => h_is_subset0 h fuel' l (skipn n lp) rc (n_prefix rc)))
        else Ok false
    end.

  (** ** Iter mod.rs:885-942 over borrowed nodes *)
  Definition h_istate := (list K * list (node * nat))%type.
  Inductive h_istep := HYield (k : list K) (v : V) (s : h_istate) | HTau (s : h_istate) | HEnd | HFault.
  Definition h_iter_step (h : heap) (s : h_istate) : h_istep :=
    let (path, st) := s in
    match st with
    | [] => HEnd
    | (t, pos) :: s' =>
        match pos with
        | 0 => match n_value t with
               | Some v => HYield path v (path, (t, 1) :: s')
               | None => HTau (path, (t, 1) :: s')
               end
        | S i =>
            match kids_of h t with
            | Some ns =>
                match nth_error ns i with
                | Some c => HTau (key_append path (n_prefix c), (c, 0) :: (t, S pos) :: s')
                | None => HTau (key_pop path (length (n_prefix t)), s')
                end
            | None => HFault
            end
        end
    end.
  Fixpoint h_iter_next (fuel : nat) (h : heap) (s : h_istate) : res (option (list K * V * h_istate)) :=
    match fuel with
    | 0 => OutOfFuel
    | S fuel' => match h_iter_step h s with
                 | HEnd => Ok None
                 | HYield k v s' => Ok (Some (k, v, s'))
                 | HTau s' => h_iter_next fuel' h s'
                 | HFault => Panicked
                 end
    end.
  Fixpoint h_iter_collect (calls fuel : nat) (h : heap) (s : h_istate) : res (list (list K * V)) :=
    match calls with
    | 0 => OutOfFuel
    | S calls' => rbind (h_iter_next fuel h s) (fun r =>
        match r with
        | None => Ok []
        | Some (k, v, s') => rbind (h_iter_collect calls' fuel h s') (fun l => Ok ((k, v) :: l))
        end)
    end.
  (** iter mod.rs:588-593 *)
  Definition h_iter (fuel : nat) (h : heap) (n : node) : res (list (list K * V)) :=
    h_iter_collect fuel (3 * fuel) h (n_prefix n, [(n, 0)]).

  (** ** find and what is built on it *)
  (** find mod.rs:699-760 *)
  Inductive h_find_result := HFound (n : node) | HPrefix (n : node) (rt : nat) | HNotFound.
  Fixpoint h_find (fuel : nat) (h : heap) (m : node) (key : list K) : option h_find_result :=
    match fuel with
    | 0 => None
    | S fuel' =>
        let n := common_prefix kcmp (n_prefix m) key in
        let rp := length key - n in
        let rt := length (n_prefix m) - n in
        if (rp =? 0) && (rt =? 0) then Some (HFound m)
        else if rp =? 0 then Some (HPrefix m rt)
        else if rt =? 0 then
          match nth_error key n, kids_of h m with
          | Some c, Some ns =>
              match bsearch (fun e => match n_prefix e with x :: _ => Some (kcmp x c) | [] => None end) ns with
              | BsOk i => match nth_error ns i with
                          | Some child => h_find fuel' h child (skipn n key)
                          | None => None
                          end
              | BsErr _ => Some HNotFound
              | _ => None
              end
          | _, _ => None
          end
        else Some HNotFound
    end.
  (** get mod.rs:619-626 *)
  Definition h_get (fuel : nat) (h : heap) (m : node) (key : list K) : option (option V) :=
    match h_find fuel h m key with
    | Some (HFound n) => Some (n_value n)
    | Some _ => Some None
    | None => None
    end.
  (** filter_prefix mod.rs:269-285 *)
  Definition h_filter_prefix (fuel : nat) (h : heap) (m : node) (prefix : list K) : option (heap * node) :=
    match h_find fuel h m prefix with
    | Some (HFound n) =>
        match node_clone h n with Some (h1, n') => Some (h1, n_set_prefix prefix n') | None => None end
    | Some (HPrefix n rt) =>
        if rt <=? length (n_prefix n) then
          match node_clone h n with
          | Some (h1, n') =>
              match h_prepend h1 (n_set_prefix (skipn (length (n_prefix n') - rt) (n_prefix n')) n') prefix with
              | Some n'' => Some (h1, n'')
              | None => None
              end
          | None => None
          end
        else None
    | Some HNotFound => mk_empty arc h
    | None => None
    end.
End HeapOps.
