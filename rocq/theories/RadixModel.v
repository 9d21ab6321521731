(** Model of /repo/src/radix_tree/mod.rs and flat_radix_tree.rs.
    The algorithms are default methods of the traits AbstractRadixTree / AbstractRadixTreeMut and
    free functions generic over them; they see a tree only through prefix / value / children, so
    they are modelled once on the plain tree below. Arc and lazy nodes: HeapModel.v, LazyModel.v.
    Closures are functions; one that takes [&mut V] also returns the new value. A recursive call
    needs fuel; the public entry points supply enough (proved: OutOfFuel never comes out). *)
From Verif Require Export Merge.

(** RadixTree src/radix_tree/flat_radix_tree.rs:6-11; Fragment<K> (mod.rs:61) is a list *)
Inductive rtree (K V : Type) : Type :=
| Node (prefix : list K) (value : option V) (children : list (rtree K V)).
Arguments Node {K V}.

Section Access.
  Context {K V : Type}.
  (** flat_radix_tree.rs:16-18, 57-59 *)
  Definition t_prefix (t : rtree K V) : list K := let 'Node p _ _ := t in p.
  (** flat_radix_tree.rs:20-22, 49-51 *)
  Definition t_value (t : rtree K V) : option V := let 'Node _ v _ := t in v.
  (** flat_radix_tree.rs:24-26, 53-55 *)
  Definition t_children (t : rtree K V) : list (rtree K V) := let 'Node _ _ c := t in c.
  (** mod.rs:573-575 *)
  Definition t_is_empty (t : rtree K V) : bool :=
    match t_value t, t_children t with None, [] => true | _, _ => false end.
  (** Default for RadixTree flat_radix_tree.rs:61-69; AbstractRadixTreeMut::empty mod.rs:246-248 *)
  Definition rt_empty : rtree K V := Node [] None [].
  (** mod.rs:251-253 *)
  Definition rt_leaf (v : V) : rtree K V := Node [] (Some v) [].
  (** mod.rs:256-258 *)
  Definition rt_single (key : list K) (v : V) : rtree K V := Node key (Some v) [].
  (** number of nodes: not in the code, used to supply fuel *)
  Fixpoint t_size (t : rtree K V) : nat :=
    let 'Node _ _ c := t in S (list_sum (map t_size c)).
End Access.

Section Radix.
  Context {K : Type} (kcmp : K -> K -> comparison) (strat : nat -> nat -> bool).

  (** [==] on keys; Ord and Eq of a key component are assumed consistent *)
  Definition keqb (x y : K) : bool := match kcmp x y with Eq => true | _ => false end.

  (** common_prefix mod.rs:53-55 *)
  Fixpoint common_prefix (a b : list K) : nat :=
    match a, b with
    | x :: a', y :: b' => if keqb x y then S (common_prefix a' b') else 0
    | _, _ => 0
    end.

  (** Fragment::cmp mod.rs:96-100 and the [cmp] of every MergeOperation below
      (mod.rs:1215, 1243, 1274, 1306, 1350, 1383, 1427, 1460, 1504, 1538):
      [a.prefix()[0].cmp(&b.prefix()[0])], a panic ([None]) on an empty prefix *)
  Definition head_cmp {V W} (a : rtree K V) (b : rtree K W) : option comparison :=
    match t_prefix a, t_prefix b with
    | x :: _, y :: _ => Some (kcmp x y)
    | _, _ => None
    end.

  Section One.
    Context {V : Type}.
    Notation tree := (rtree K V).

    (** split mod.rs:131-140 *)
    Definition t_split (t : tree) (n : nat) : res tree :=
      let 'Node p v c := t in
      if n <? length p then Ok (Node (firstn n p) None [Node (skipn n p) v c]) else Panicked.

    (** prepend0 mod.rs:160-167, prepend mod.rs:288-295 (same text) *)
    Definition rt_prepend (t : tree) (q : list K) : tree :=
      let 'Node p v c := t in
      match q with
      | [] => t
      | _ => if t_is_empty t then t else Node (q ++ p) v c
      end.

    (** unsplit mod.rs:143-158 *)
    Definition t_unsplit (t : tree) : tree :=
      let 'Node p v c := t in
      let c := filter (fun x => negb (t_is_empty x)) c in
      let t1 := match v, c with
                | None, [child] => rt_prepend child p
                | _, _ => Node p v c
                end in
      let 'Node p1 v1 c1 := t1 in
      if t_is_empty t1 then Node [] v1 c1 else t1.

    (** materialize_shortened mod.rs:642-652 (method), 762-783 (free functions): deep copy with a
        shorter prefix; asserts a non-empty remaining prefix at every node. *)
    Fixpoint mat_short (t : tree) (n : nat) : res tree :=
      let 'Node p v c := t in
      if n <? length p then
        rbind ((fix go (l : list tree) : res (list tree) :=
                  match l with
                  | [] => Ok []
                  | x :: l' => rbind (mat_short x 0) (fun x' => rbind (go l') (fun l'' => Ok (x' :: l'')))
                  end) c)
              (fun c' => Ok (Node (skipn n p) v c'))
      else Panicked.
    (** [children.iter().map(materialize).collect()] mod.rs:647-650, 782, 1195-1199 *)
    Fixpoint mat_all (l : list tree) : res (list tree) :=
      match l with
      | [] => Ok []
      | x :: l' => rbind (mat_short x 0) (fun x' => rbind (mat_all l') (fun l'' => Ok (x' :: l'')))
      end.
    (** RadixTreeConverter mod.rs:944-952 *)
    Definition mat_conv (t : tree) : option tree :=
      match mat_short t 0 with Ok t' => Some t' | _ => None end.

    (** [children.sort_by_key(|x| x.prefix()[0])] mod.rs:388, 1087. A key is only taken when there
        are two elements to compare. *)
    Definition has_head (t : tree) : bool := match t_prefix t with [] => false | _ => true end.
    Definition head_ord (a b : tree) : comparison :=
      match head_cmp a b with Some c => c | None => Eq end.
    Definition sort_heads (l : list tree) : res (list tree) :=
      if (length l <? 2) || forallb has_head l then Ok (sort_by head_ord l) else Panicked.

    (** ** find mod.rs:699-760 *)
    Inductive find_result := Found (t : tree) | FPrefix (t : tree) (rt : nat) | NotFound (t : tree) (rt rp : nat).

    Fixpoint find_loop (fuel : nat) (t : tree) (key : list K) : res find_result :=
      match fuel with
      | 0 => OutOfFuel
      | S fuel' =>
          let n := common_prefix (t_prefix t) key in
          let rp := length key - n in
          let rt := length (t_prefix t) - n in
          if (rp =? 0) && (rt =? 0) then Ok (Found t)
          else if rp =? 0 then Ok (FPrefix t rt)
          else if rt =? 0 then
            match nth_error key n with
            | None => Panicked
            | Some c =>
                match bsearch (fun e => match t_prefix e with h :: _ => Some (kcmp h c) | [] => None end)
                              (t_children t) with
                | BsOk i => match nth_error (t_children t) i with
                            | Some child => find_loop fuel' child (skipn n key)
                            | None => Panicked
                            end
                | BsErr _ => Ok (NotFound t rt rp)
                | BsPanic => Panicked
                | BsNoFuel => OutOfFuel
                end
            end
          else Ok (NotFound t rt rp)
      end.
    Definition t_find (t : tree) (key : list K) : res find_result := find_loop (S (t_size t)) t key.

    (** contains_key mod.rs:609-616 *)
    Definition rt_contains_key (t : tree) (key : list K) : res bool :=
      rbind (t_find t key) (fun r => Ok (match r with
        | Found t' => match t_value t' with Some _ => true | None => false end
        | _ => false end)).
    (** get mod.rs:619-626 *)
    Definition rt_get (t : tree) (key : list K) : res (option V) :=
      rbind (t_find t key) (fun r => Ok (match r with Found t' => t_value t' | _ => None end)).
    (** filter_prefix mod.rs:269-285 *)
    Definition rt_filter_prefix (t : tree) (prefix : list K) : res tree :=
      rbind (t_find t prefix) (fun r =>
        match r with
        | Found (Node _ v c) => Ok (Node prefix v c)
        | FPrefix (Node p v c) rt =>
            if rt <=? length p then Ok (rt_prepend (Node (skipn (length p - rt) p) v c) prefix)
            else Panicked
        | NotFound _ _ _ => Ok rt_empty
        end).

    (** ** Values mod.rs:830-879 and Iter mod.rs:885-942: an explicit stack; the second component of
        an entry counts how often the node has been visited. [usize] counters are unbounded here. *)
    Definition stack := list (tree * nat).
    (** one round of the while loop of Values::next mod.rs:866-876 *)
    Inductive vstep := VYield (v : V) (s : stack) | VTau (s : stack) | VEnd.
    Definition values_step (s : stack) : vstep :=
      match s with
      | [] => VEnd
      | (t, pos) :: s' =>
          match pos with
          | 0 => match t_value t with Some v => VYield v ((t, 1) :: s') | None => VTau ((t, 1) :: s') end
          | S i =>
              match nth_error (t_children t) i with
              | Some c => VTau ((c, 0) :: (t, S pos) :: s')
              | None => VTau s'
              end
          end
      end.
    (** Values::next mod.rs:865-878 *)
    Fixpoint values_next (fuel : nat) (s : stack) : res (option (V * stack)) :=
      match fuel with
      | 0 => OutOfFuel
      | S fuel' => match values_step s with
                   | VEnd => Ok None
                   | VYield v s' => Ok (Some (v, s'))
                   | VTau s' => values_next fuel' s'
                   end
      end.
    (** values mod.rs:601-606 and collecting it: [calls] bounds the calls of next *)
    Fixpoint values_collect (calls fuel : nat) (s : stack) : res (list V) :=
      match calls with
      | 0 => OutOfFuel
      | S calls' => rbind (values_next fuel s) (fun r =>
          match r with
          | None => Ok []
          | Some (v, s') => rbind (values_collect calls' fuel s') (fun l => Ok (v :: l))
          end)
      end.
    Definition rt_values (t : tree) : res (list V) :=
      values_collect (S (t_size t)) (S (3 * t_size t)) [(t, 0)].

    (** IterKey::append mod.rs:796-802, IterKey::pop 805-808 (saturating_sub); the sharing of the
        buffer is modelled in KeyModel.v *)
    Definition key_append (p d : list K) : list K := p ++ d.
    Definition key_pop (p : list K) (n : nat) : list K := firstn (length p - n) p.
    Definition istate := (list K * stack)%type.
    (** one round of the while loop of Iter::next mod.rs:925-941 *)
    Inductive istep := IYield (k : list K) (v : V) (s : istate) | ITau (s : istate) | IEnd.
    Definition iter_step (s : istate) : istep :=
      let (path, st) := s in
      match st with
      | [] => IEnd
      | (t, pos) :: s' =>
          match pos with
          | 0 => match t_value t with
                 | Some v => IYield path v (path, (t, 1) :: s')
                 | None => ITau (path, (t, 1) :: s')
                 end
          | S i =>
              match nth_error (t_children t) i with
              | Some c => ITau (key_append path (t_prefix c), (c, 0) :: (t, S pos) :: s')
              | None => ITau (key_pop path (length (t_prefix t)), s')
              end
          end
      end.
    (** Iter::next mod.rs:924-941 *)
    Fixpoint iter_next (fuel : nat) (s : istate) : res (option (list K * V * istate)) :=
      match fuel with
      | 0 => OutOfFuel
      | S fuel' => match iter_step s with
                   | IEnd => Ok None
                   | IYield k v s' => Ok (Some (k, v, s'))
                   | ITau s' => iter_next fuel' s'
                   end
      end.
    Fixpoint iter_collect (calls fuel : nat) (s : istate) : res (list (list K * V)) :=
      match calls with
      | 0 => OutOfFuel
      | S calls' => rbind (iter_next fuel s) (fun r =>
          match r with
          | None => Ok []
          | Some (k, v, s') => rbind (iter_collect calls' fuel s') (fun l => Ok ((k, v) :: l))
          end)
      end.
    (** Iter::new mod.rs:900-906 and collecting it *)
    Definition iter_from (t : tree) (path : list K) : res (list (list K * V)) :=
      iter_collect (S (t_size t)) (S (3 * t_size t)) (path, [(t, 0)]).
    (** iter mod.rs:588-593, into_iter mod.rs:596-598 *)
    Definition rt_iter (t : tree) : res (list (list K * V)) := iter_from t (t_prefix t).
    (** scan_prefix mod.rs:682-696; Iter::empty mod.rs:892-898 *)
    Definition rt_scan_prefix (t : tree) (prefix : list K) : res (list (list K * V)) :=
      rbind (t_find t prefix) (fun r =>
        match r with
        | Found t' => iter_from t' prefix
        | FPrefix t' rt =>
            if rt <=? length (t_prefix t')
            then iter_from t' (key_append prefix (skipn (length (t_prefix t') - rt) (t_prefix t')))
            else Panicked
        | NotFound _ _ _ => iter_collect 1 1 ([], [])
        end).

    (** derive(PartialEq) flat_radix_tree.rs:6, mod.rs:61 *)
    Fixpoint list_eqb {X} (eqb : X -> X -> bool) (a b : list X) : bool :=
      match a, b with
      | [], [] => true
      | x :: a', y :: b' => eqb x y && list_eqb eqb a' b'
      | _, _ => false
      end.
    Definition option_eqb {X} (eqb : X -> X -> bool) (a b : option X) : bool :=
      match a, b with
      | None, None => true
      | Some x, Some y => eqb x y
      | _, _ => false
      end.
    Fixpoint rt_eqb (veqb : V -> V -> bool) (a b : tree) : bool :=
      let 'Node pa va ca := a in let 'Node pb vb cb := b in
      list_eqb keqb pa pb && option_eqb veqb va vb &&
      (fix go (l m : list tree) : bool :=
         match l, m with
         | [], [] => true
         | x :: l', y :: m' => rt_eqb veqb x y && go l' m'
         | _, _ => false
         end) ca cb.
  End One.

  (** ** In-place merges of children
      [InPlaceVecMergeStateRef::merge(self.children_mut(), &rhs, op, conv)] mod.rs:169-235.
      [ta]/[tb]: the flag the operation passes to advance_a / advance_b. The collision handler
      mutates the first element of a in place and keeps it iff it is non-empty
      (mod.rs:1283-1292, 1358-1368, 1436-1446, 1512-1522, 1546-1556). *)
  Section InPlace.
    Context {V W : Type} (rec : rtree K V -> rtree K W -> res (rtree K V)).
    Notation ist := (iprstate (rtree K V) (rtree K W)).

    Definition coll_with (conv : rtree K W -> option (rtree K V)) (m : ist) : out ist :=
      match bd_src (ipr_a m), ipr_b m with
      | av :: a', bv :: _ =>
          match rec av bv with
          | Ok av' =>
              let bd := ipr_a m in
              let m' := MkIpr (MkB (bd_tgt bd) (av' :: a') (bd_drop bd)) (ipr_b m) in
              obind (adv_a (ipr_msm conv) m' 1 (negb (t_is_empty av')))
                    (fun m'' => adv_b (ipr_msm conv) m'' 1 false)
          | Panicked => Panic m
          | OutOfFuel => NoFuel
          end
      | _, _ => Panic m
      end.
    Definition op_with (ta tb : bool) (conv : rtree K W -> option (rtree K V)) : mop ist (rtree K V) (rtree K W) :=
      MkMop (fun m => bd_src (ipr_a m)) ipr_b head_cmp
            (fun m n => adv_a (ipr_msm conv) m n ta)
            (fun m n => adv_b (ipr_msm conv) m n tb)
            (coll_with conv).
    (** a panic loses the tree (the theorems show there is none) *)
    Definition children_with (ta tb : bool) (conv : rtree K W -> option (rtree K V))
               (a : list (rtree K V)) (b : list (rtree K W)) : res (list (rtree K V)) :=
      match ipr_merge strat (op_with ta tb conv) a b with
      | Done l => Ok l
      | Unwound _ => Panicked
      | DoneNoFuel => OutOfFuel
      end.
  End InPlace.

  (** ** Pure merges of children: [VecMergeState::merge(a, b, op, ca, cb)]; the collision handler
      pushes the combined node iff it is non-empty
      (mod.rs:1323-1334, 1402-1411, 1479-1488) *)
  Section Pure.
    Context {V W : Type} (rec : rtree K V -> rtree K W -> res (rtree K V)).
    Notation vst := (vstate (rtree K V) (rtree K W) (rtree K V)).

    Definition coll_pure (m : vst) : out vst :=
      match vs_a m, vs_b m with
      | a :: a', b :: b' =>
          match rec a b with
          | Ok r => Cont (MkVs a' b' (if t_is_empty r then vs_r m else vs_r m ++ [r]))
          | Panicked => Panic (MkVs a' b' (vs_r m))
          | OutOfFuel => NoFuel
          end
      | _, _ => Panic m
      end.
    Definition op_pure (ta tb : bool) (ca : rtree K V -> option (rtree K V)) (cb : rtree K W -> option (rtree K V))
      : mop vst (rtree K V) (rtree K W) :=
      MkMop vs_a vs_b head_cmp
            (fun m n => adv_a (vs_msm ca cb) m n ta)
            (fun m n => adv_b (vs_msm ca cb) m n tb)
            coll_pure.
    Definition children_pure (ta tb : bool) ca cb (a : list (rtree K V)) (b : list (rtree K W))
      : res (list (rtree K V)) := vs_merge strat (op_pure ta tb ca cb) a b.
  End Pure.

  (** ** AbstractRadixTreeMut: in place *)
  Section OuterWith.
    Context {V : Type} (f : V -> V -> V * bool).
    (** the value update mod.rs:353-361 and 376-384 *)
    Definition upd_outer (v w : option V) : option V :=
      match w with
      | Some w => match v with
                  | Some v => let (v', keep) := f v w in if keep then Some v' else None
                  | None => Some w
                  end
      | None => v
      end.
    (** outer_combine_with mod.rs:345-391; OuterCombineOp (in place) mod.rs:1261-1293 *)
    Fixpoint outer_with (fuel : nat) (self that : rtree K V) : res (rtree K V) :=
      match fuel with
      | 0 => OutOfFuel
      | S fuel' =>
          let merge_children := children_with (outer_with fuel') true true mat_conv in
          let n := common_prefix (t_prefix self) (t_prefix that) in
          let r :=
            if (n =? length (t_prefix self)) && (n =? length (t_prefix that)) then
              let v := upd_outer (t_value self) (t_value that) in
              rbind (merge_children (t_children self) (t_children that)) (fun c =>
              Ok (Node (t_prefix self) v c))
            else if n =? length (t_prefix self) then
              rbind (mat_short that n) (fun that =>
              rbind (merge_children (t_children self) [that]) (fun c =>
              Ok (Node (t_prefix self) (t_value self) c)))
            else if n =? length (t_prefix that) then
              rbind (t_split self n) (fun self =>
              let v := upd_outer (t_value self) (t_value that) in
              rbind (merge_children (t_children self) (t_children that)) (fun c =>
              Ok (Node (t_prefix self) v c)))
            else
              rbind (t_split self n) (fun self =>
              rbind (mat_short that n) (fun that =>
              rbind (sort_heads (t_children self ++ [that])) (fun c =>
              Ok (Node (t_prefix self) (t_value self) c)))) in
          rbind r (fun t => Ok (t_unsplit t))
      end.
    Definition rt_outer_combine_with (self that : rtree K V) : res (rtree K V) :=
      outer_with (S (t_size self + t_size that)) self that.
  End OuterWith.

  (** insert mod.rs:261-266 *)
  Definition rt_insert {V} (t : rtree K V) (key : list K) (value : V) : res (rtree K V) :=
    rt_outer_combine_with (fun _ b => (b, true)) t (rt_single key value).
  (** FromIterator flat_radix_tree.rs:29-37 *)
  Fixpoint rt_insert_all {V} (t : rtree K V) (l : list (list K * V)) : res (rtree K V) :=
    match l with
    | [] => Ok t
    | (k, v) :: l' => rbind (rt_insert t k v) (fun t' => rt_insert_all t' l')
    end.
  Definition rt_from_iter {V} (l : list (list K * V)) : res (rtree K V) := rt_insert_all rt_empty l.
  (** union_with mod.rs:310-315 *)
  Definition rt_union_with {V} (a b : rtree K V) : res (rtree K V) :=
    rt_outer_combine_with (fun v _ => (v, true)) a b.

  Section InnerLeftWith.
    Context {V W : Type} (f : V -> W -> V * bool).
    (** the value update mod.rs:406-412 *)
    Definition upd_inner (v : option V) (w : option W) : option V :=
      match v, w with
      | Some v, Some w => let (v', keep) := f v w in if keep then Some v' else None
      | _, _ => None
      end.
    (** inner_combine_with mod.rs:398-431; InnerCombineOp (in place) mod.rs:1338-1369 *)
    Fixpoint inner_with (fuel : nat) (self : rtree K V) (that : rtree K W) : res (rtree K V) :=
      match fuel with
      | 0 => OutOfFuel
      | S fuel' =>
          let merge_children := children_with (inner_with fuel') false false NoConverter in
          let n := common_prefix (t_prefix self) (t_prefix that) in
          let r :=
            if (n =? length (t_prefix self)) && (n =? length (t_prefix that)) then
              let v := upd_inner (t_value self) (t_value that) in
              rbind (merge_children (t_children self) (t_children that)) (fun c =>
              Ok (Node (t_prefix self) v c))
            else if n =? length (t_prefix self) then
              rbind (mat_short that n) (fun that =>
              rbind (merge_children (t_children self) [that]) (fun c =>
              Ok (Node (t_prefix self) None c)))
            else if n =? length (t_prefix that) then
              rbind (t_split self n) (fun self =>
              rbind (merge_children (t_children self) (t_children that)) (fun c =>
              Ok (Node (t_prefix self) (t_value self) c)))
            else
              Ok (Node (t_prefix self) None []) in
          rbind r (fun t => Ok (t_unsplit t))
      end.
    Definition rt_inner_combine_with (self : rtree K V) (that : rtree K W) : res (rtree K V) :=
      inner_with (S (t_size self + t_size that)) self that.

    (** the value update mod.rs:448-454 *)
    Definition upd_left (v : option V) (w : option W) : option V :=
      match w with
      | Some w => match v with
                  | Some v => let (v', keep) := f v w in if keep then Some v' else None
                  | None => None
                  end
      | None => v
      end.
    (** left_combine_with mod.rs:440-468; LeftCombineOp (in place) mod.rs:1415-1447 *)
    Fixpoint left_with (fuel : nat) (self : rtree K V) (that : rtree K W) : res (rtree K V) :=
      match fuel with
      | 0 => OutOfFuel
      | S fuel' =>
          let merge_children := children_with (left_with fuel') true false NoConverter in
          let n := common_prefix (t_prefix self) (t_prefix that) in
          let r :=
            if (n =? length (t_prefix self)) && (n =? length (t_prefix that)) then
              let v := upd_left (t_value self) (t_value that) in
              rbind (merge_children (t_children self) (t_children that)) (fun c =>
              Ok (Node (t_prefix self) v c))
            else if n =? length (t_prefix self) then
              rbind (mat_short that n) (fun that =>
              rbind (merge_children (t_children self) [that]) (fun c =>
              Ok (Node (t_prefix self) (t_value self) c)))
            else if n =? length (t_prefix that) then
              rbind (t_split self n) (fun self =>
              rbind (merge_children (t_children self) (t_children that)) (fun c =>
              Ok (Node (t_prefix self) (t_value self) c)))
            else Ok self in
          rbind r (fun t => Ok (t_unsplit t))
      end.
    Definition rt_left_combine_with (self : rtree K V) (that : rtree K W) : res (rtree K V) :=
      left_with (S (t_size self + t_size that)) self that.
  End InnerLeftWith.

  (** intersection_with mod.rs:323-325 *)
  Definition rt_intersection_with {V W} (a : rtree K V) (b : rtree K W) : res (rtree K V) :=
    rt_inner_combine_with (fun v _ => (v, true)) a b.
  (** difference_with mod.rs:336-338 *)
  Definition rt_difference_with {V W} (a : rtree K V) (b : rtree K W) : res (rtree K V) :=
    rt_left_combine_with (fun v _ => (v, false)) a b.

  Section PrefixWith.
    Context {V W : Type} (f : W -> bool).
    (** [Some(value) if f(value)] mod.rs:483, 495; [!(value().is_none() || !f(value))] 525, 531 *)
    Definition hit (w : option W) : bool := match w with Some w => f w | None => false end.
    (** remove_prefix_with mod.rs:474-511; RemovePrefixOp mod.rs:1492-1523 *)
    Fixpoint remove_with (fuel : nat) (self : rtree K V) (that : rtree K W) : res (rtree K V) :=
      match fuel with
      | 0 => OutOfFuel
      | S fuel' =>
          let merge_children := children_with (remove_with fuel') true false NoConverter in
          let n := common_prefix (t_prefix self) (t_prefix that) in
          let r :=
            if (n =? length (t_prefix self)) && (n =? length (t_prefix that)) then
              if hit (t_value that) then Ok (Node (t_prefix self) None [])
              else rbind (merge_children (t_children self) (t_children that)) (fun c =>
                   Ok (Node (t_prefix self) (t_value self) c))
            else if n =? length (t_prefix that) then
              if hit (t_value that) then Ok (Node (t_prefix self) None [])
              else rbind (t_split self n) (fun self =>
                   rbind (merge_children (t_children self) (t_children that)) (fun c =>
                   Ok (Node (t_prefix self) (t_value self) c)))
            else if n =? length (t_prefix self) then
              rbind (mat_short that n) (fun that =>
              rbind (merge_children (t_children self) [that]) (fun c =>
              Ok (Node (t_prefix self) (t_value self) c)))
            else Ok self in
          rbind r (fun t => Ok (t_unsplit t))
      end.
    Definition rt_remove_prefix_with (self : rtree K V) (that : rtree K W) : res (rtree K V) :=
      remove_with (S (t_size self + t_size that)) self that.

    (** retain_prefix_with mod.rs:517-546; RetainPrefixOp mod.rs:1526-1557 *)
    Fixpoint retain_with (fuel : nat) (self : rtree K V) (that : rtree K W) : res (rtree K V) :=
      match fuel with
      | 0 => OutOfFuel
      | S fuel' =>
          let merge_children := children_with (retain_with fuel') false false NoConverter in
          let n := common_prefix (t_prefix self) (t_prefix that) in
          let r :=
            if (n =? length (t_prefix self)) && (n =? length (t_prefix that)) then
              if hit (t_value that) then Ok self
              else rbind (merge_children (t_children self) (t_children that)) (fun c =>
                   Ok (Node (t_prefix self) None c))
            else if n =? length (t_prefix that) then
              if hit (t_value that) then Ok self
              else rbind (t_split self n) (fun self =>
                   rbind (merge_children (t_children self) (t_children that)) (fun c =>
                   Ok (Node (t_prefix self) (t_value self) c)))
            else if n =? length (t_prefix self) then
              rbind (mat_short that n) (fun that =>
              rbind (merge_children (t_children self) [that]) (fun c =>
              Ok (Node (t_prefix self) None c)))
            else Ok (Node (t_prefix self) None []) in
          rbind r (fun t => Ok (t_unsplit t))
      end.
    Definition rt_retain_prefix_with (self : rtree K V) (that : rtree K W) : res (rtree K V) :=
      retain_with (S (t_size self + t_size that)) self that.
  End PrefixWith.

  (** ** Pure combinations *)
  Section OuterPure.
    Context {V : Type} (f : V -> V -> option V).
    (** mod.rs:1048-1053 *)
    Definition val_outer (v w : option V) : option V :=
      match v, w with
      | Some a, Some b => f a b
      | Some a, None => Some a
      | None, Some b => Some b
      | None, None => None
      end.
    (** outer_combine mod.rs:1031-1092 (method mod.rs:655-661); OuterCombineOp (pure) mod.rs:1297-1335 *)
    Fixpoint outer_pure (fuel : nat) (a b : rtree K V) : res (rtree K V) :=
      match fuel with
      | 0 => OutOfFuel
      | S fuel' =>
          let merge_children := children_pure (outer_pure fuel') true true mat_conv mat_conv in
          let n := common_prefix (t_prefix a) (t_prefix b) in
          let prefix := firstn n (t_prefix a) in
          let r :=
            if (n =? length (t_prefix a)) && (n =? length (t_prefix b)) then
              rbind (merge_children (t_children a) (t_children b)) (fun c =>
              Ok (Node prefix (val_outer (t_value a) (t_value b)) c))
            else if n =? length (t_prefix a) then
              rbind (mat_short b n) (fun b =>
              rbind (merge_children (t_children a) [b]) (fun c =>
              Ok (Node prefix (t_value a) c)))
            else if n =? length (t_prefix b) then
              rbind (mat_short a n) (fun a =>
              rbind (merge_children [a] (t_children b)) (fun c =>
              Ok (Node prefix (t_value b) c)))
            else
              rbind (mat_short a n) (fun a =>
              rbind (mat_short b n) (fun b =>
              rbind (sort_heads [a; b]) (fun c => Ok (Node prefix None c)))) in
          rbind r (fun t => Ok (t_unsplit t))
      end.
    Definition rt_outer_combine (a b : rtree K V) : res (rtree K V) :=
      outer_pure (S (t_size a + t_size b)) a b.
  End OuterPure.
  (** union mod.rs:300-305 *)
  Definition rt_union {V} (a b : rtree K V) : res (rtree K V) := rt_outer_combine (fun v _ => Some v) a b.

  Section InnerPure.
    Context {V W : Type} (f : V -> W -> option V).
    (** mod.rs:1104-1107 *)
    Definition val_inner (v : option V) (w : option W) : option V :=
      match v, w with Some a, Some b => f a b | _, _ => None end.
    (** inner_combine mod.rs:1095-1143 (method mod.rs:664-670); InnerCombineOp (pure) mod.rs:1371-1412 *)
    Fixpoint inner_pure (fuel : nat) (a : rtree K V) (b : rtree K W) : res (rtree K V) :=
      match fuel with
      | 0 => OutOfFuel
      | S fuel' =>
          let merge_children := children_pure (inner_pure fuel') false false mat_conv NoConverter in
          let n := common_prefix (t_prefix a) (t_prefix b) in
          let prefix := firstn n (t_prefix a) in
          let r :=
            if (n =? length (t_prefix a)) && (n =? length (t_prefix b)) then
              rbind (merge_children (t_children a) (t_children b)) (fun c =>
              Ok (Node prefix (val_inner (t_value a) (t_value b)) c))
            else if n =? length (t_prefix a) then
              rbind (mat_short b n) (fun b =>
              rbind (merge_children (t_children a) [b]) (fun c =>
              Ok (Node prefix None c)))
            else if n =? length (t_prefix b) then
              rbind (mat_short a n) (fun a =>
              rbind (merge_children [a] (t_children b)) (fun c =>
              Ok (Node prefix None c)))
            else Ok (Node prefix None []) in
          rbind r (fun t => Ok (t_unsplit t))
      end.
    Definition rt_inner_combine (a : rtree K V) (b : rtree K W) : res (rtree K V) :=
      inner_pure (S (t_size a + t_size b)) a b.
  End InnerPure.
  (** intersection mod.rs:318-320 *)
  Definition rt_intersection {V W} (a : rtree K V) (b : rtree K W) : res (rtree K V) :=
    rt_inner_combine (fun v _ => Some v) a b.

  Section LeftPure.
    Context {V W : Type} (f : V -> option W -> option V).
    (** mod.rs:1157-1160 *)
    Definition val_left (v : option V) (w : option W) : option V :=
      match v with Some a => f a w | None => None end.
    (** left_combine mod.rs:1146-1202 (method mod.rs:673-679); LeftCombineOp (pure) mod.rs:1449-1489 *)
    Fixpoint left_pure (fuel : nat) (a : rtree K V) (b : rtree K W) : res (rtree K V) :=
      match fuel with
      | 0 => OutOfFuel
      | S fuel' =>
          let merge_children := children_pure (left_pure fuel') true false mat_conv NoConverter in
          let n := common_prefix (t_prefix a) (t_prefix b) in
          let prefix := firstn n (t_prefix a) in
          let r :=
            if (n =? length (t_prefix a)) && (n =? length (t_prefix b)) then
              rbind (merge_children (t_children a) (t_children b)) (fun c =>
              Ok (Node prefix (val_left (t_value a) (t_value b)) c))
            else if n =? length (t_prefix a) then
              rbind (mat_short b n) (fun b =>
              rbind (merge_children (t_children a) [b]) (fun c =>
              Ok (Node prefix (t_value a) c)))
            else if n =? length (t_prefix b) then
              rbind (mat_short a n) (fun a =>
              rbind (merge_children [a] (t_children b)) (fun c =>
              Ok (Node prefix None c)))
            else
              rbind (mat_all (t_children a)) (fun c => Ok (Node (t_prefix a) (t_value a) c)) in
          rbind r (fun t => Ok (t_unsplit t))
      end.
    Definition rt_left_combine (a : rtree K V) (b : rtree K W) : res (rtree K V) :=
      left_pure (S (t_size a + t_size b)) a b.
  End LeftPure.
  (** difference mod.rs:328-333 *)
  Definition rt_difference {V W} (a : rtree K V) (b : rtree K W) : res (rtree K V) :=
    rt_left_combine (fun v w => match w with None => Some v | Some _ => None end) a b.

  (** ** Predicates *)
  Section Bool.
    Context {V W : Type} (rec : rtree K V -> rtree K W -> res bool).
    Notation bst := (bstate (rtree K V) (rtree K W)).
    (** IntersectOp::collision mod.rs:1224-1230, NonSubsetOp::collision 1250-1257 *)
    Definition coll_bool (m : bst) : out bst :=
      match bs_a m, bs_b m with
      | a :: _, b :: _ =>
          match rec a b with
          | Ok take => obind (adv_a bs_msm m 1 take) (fun m' => adv_b bs_msm m' 1 false)
          | Panicked => Panic m
          | OutOfFuel => NoFuel
          end
      | _, _ => Panic m
      end.
    (** IntersectOp mod.rs:1204-1231 ([ta] = false), NonSubsetOp mod.rs:1232-1258 ([ta] = true) *)
    Definition op_bool (ta : bool) : mop bst (rtree K V) (rtree K W) :=
      MkMop bs_a bs_b head_cmp
            (fun m n => adv_a bs_msm m n ta) (fun m n => adv_b bs_msm m n false) coll_bool.
  End Bool.

  (** [iter().any(..)], [iter().all(..)] with a callee that may panic *)
  Fixpoint any_res {X} (p : X -> res bool) (l : list X) : res bool :=
    match l with
    | [] => Ok false
    | x :: l' => rbind (p x) (fun b => if b then Ok true else any_res p l')
    end.
  Fixpoint all_res {X} (p : X -> res bool) (l : list X) : res bool :=
    match l with
    | [] => Ok true
    | x :: l' => rbind (p x) (fun b => if b then all_res p l' else Ok false)
    end.

  Section Preds.
    Context {V W : Type}.
    Notation isSome := (fun o => match o with Some _ => true | None => false end).
    (** intersects0 mod.rs:1001-1028 *)
    Fixpoint intersects0 (fuel : nat) (l : rtree K V) (lp : list K) (r : rtree K W) (rp : list K) : res bool :=
      match fuel with
      | 0 => OutOfFuel
      | S fuel' =>
          let n := common_prefix lp rp in
          if (n =? length lp) && (n =? length rp) then
            if (match t_value l, t_value r with Some _, Some _ => true | _, _ => false end) then Ok true
            else bs_merge strat (op_bool (fun a b => intersects0 fuel' a (t_prefix a) b (t_prefix b)) false)
                          (t_children l) (t_children r)
          else if n =? length lp then
            any_res (fun lc => intersects0 fuel' lc (t_prefix lc) r (skipn n rp)) (t_children l)
          else if n =? length rp then
            any_res (fun rc => intersects0 fuel' l (skipn n lp) rc (t_prefix rc)) (t_children r)
          else Ok false
      end.
    (** intersects mod.rs:994-999 (method 578-580) *)
    Definition rt_intersects (l : rtree K V) (r : rtree K W) : res bool :=
      intersects0 (S (t_size l + t_size r)) l (t_prefix l) r (t_prefix r).
    (** is_disjoint mod.rs:583-585 *)
    Definition rt_is_disjoint (l : rtree K V) (r : rtree K W) : res bool :=
      rmap negb (rt_intersects l r).

    (** is_subset0 mod.rs:961-992 *)
    Fixpoint is_subset0 (fuel : nat) (l : rtree K V) (lp : list K) (r : rtree K W) (rp : list K) : res bool :=
      match fuel with
      | 0 => OutOfFuel
      | S fuel' =>
          let n := common_prefix lp rp in
          if (n =? length lp) && (n =? length rp) then
            if (match t_value l, t_value r with None, _ => true | _, Some _ => true | _, _ => false end) then
              rmap negb
                (bs_merge strat
                   (op_bool (fun a b => rmap negb (is_subset0 fuel' a (t_prefix a) b (t_prefix b))) true)
                   (t_children l) (t_children r))
            else Ok false
          else if n =? length lp then
            match t_value l with
            | None => all_res (fun lc => is_subset0 fuel' lc (t_prefix lc) r (skipn n rp)) (t_children l)
            | Some _ => Ok false
            end
          else if n =? length rp then
            any_res (fun rc => is_subset0 fuel' l (skipn n lp) rc (t_prefix rc)) (t_children r)
          else Ok false
      end.
    (** is_subset mod.rs:954-959 (method 631-633) *)
    Definition rt_is_subset (l : rtree K V) (r : rtree K W) : res bool :=
      is_subset0 (S (t_size l + t_size r)) l (t_prefix l) r (t_prefix r).
  End Preds.
  (** is_superset mod.rs:638-640 *)
  Definition rt_is_superset {V W} (l : rtree K V) (r : rtree K W) : res bool := rt_is_subset r l.

  (** ** Validation *)
  (** check_bytes for ArchivedRadixTree flat_radix_tree.rs:235-267 and for the Arc tree arc_radix_tree.rs:287-319, same text (after the byte-level checks of
      the parts, which rkyv does): non-empty child prefixes, strictly increasing first components,
      then recursively the children. [a.prefix[0]] cannot panic after the first test. *)
  Fixpoint adjacent_lt {V} (l : list (rtree K V)) : bool :=
    match l with
    | a :: ((b :: _) as l') =>
        (match head_cmp a b with Some Lt => true | _ => false end) && adjacent_lt l'
    | _ => true
    end.
  Fixpoint rt_check {V} (t : rtree K V) : bool :=
    let 'Node _ _ c := t in
    forallb has_head c && adjacent_lt c && forallb rt_check c.
End Radix.
