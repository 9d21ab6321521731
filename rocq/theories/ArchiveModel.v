(** Model of reading, validating and writing rkyv archives as memory: ArchivedVecSet
    (/repo/src/vec_set.rs:626-756), ArchivedVecMap (vec_map.rs:832-926) and ArchivedRadixTree
    (/repo/src/radix_tree/flat_radix_tree.rs:85-268).

    An archive is a sequence of words. A pointer is an absolute position (rkyv stores the distance from
    the pointer itself); a length, a tag, a key component and a value take one word each; alignment
    plays no part. An access outside the archive is undefined behaviour: [Ub]. Of rkyv 0.7 itself only
    the validation of ArchivedVec is modelled, from its documentation. *)
From Verif Require Export RadixSpec VecMapModel.

(** [Reject]: the validator returns an error. [TooDeep]: recursion deeper than the fuel. *)
Inductive mout (X : Type) := Ub | Reject | TooDeep | Got (x : X).
Arguments Ub {X}. Arguments Reject {X}. Arguments TooDeep {X}. Arguments Got {X}.
Definition mbind {X Y} (x : mout X) (f : X -> mout Y) : mout Y :=
  match x with Got a => f a | Ub => Ub | Reject => Reject | TooDeep => TooDeep end.
Notation "x <~ a ;; b" := (mbind a (fun x => b)) (at level 60, a at next level, right associativity).

Definition buf := list nat.
(** reading one word *)
Definition rd (b : buf) (i : nat) : mout nat := match nth_error b i with Some w => Got w | None => Ub end.
(** reading [n] consecutive words *)
Fixpoint rd_slice (b : buf) (p n : nat) : mout (list nat) :=
  match n with
  | 0 => Got []
  | S n' => w <~ rd b p ;; ws <~ rd_slice b (S p) n' ;; Got (w :: ws)
  end.
(** reading the elements of an ArchivedVec of [n] elements of [sz] words each, at [p] *)
Fixpoint rd_elems {X} (elem : nat -> mout X) (sz p n : nat) : mout (list X) :=
  match n with
  | 0 => Got []
  | S n' => x <~ elem p ;; xs <~ rd_elems elem sz (p + sz) n' ;; Got (x :: xs)
  end.

(** rkyv's validation of ArchivedVec: the vector must lie in the part [lo, hi) of the archive not yet
    claimed ([bounds_check_subtree_ptr]); its elements are checked with only [lo, p) available to them
    ([push_prefix_subtree]); afterwards [end of the vector, hi) is available ([pop_prefix_range]).
    A checker returns the new [lo]. *)
Definition in_range (lo hi p n : nat) : bool := (lo <=? p) && (p + n <=? hi).
Fixpoint check_elems (elem : nat -> nat -> nat -> mout nat) (sz p n lo hi : nat) : mout nat :=
  match n with
  | 0 => Got lo
  | S n' => lo1 <~ elem p lo hi ;; check_elems elem sz (p + sz) n' lo1 hi
  end.
Definition check_vec (b : buf) (elem : nat -> nat -> nat -> mout nat) (sz pos lo hi : nat) : mout nat :=
  p <~ rd b pos ;; n <~ rd b (S pos) ;;
  if in_range lo hi p (sz * n) then _ <~ check_elems elem sz p n lo p ;; Got (p + sz * n) else Reject.
(** every word is a valid key component *)
Definition check_word (b : buf) (p lo hi : nat) : mout nat := _ <~ rd b p ;; Got lo.

(** ** Collections of strings: an element is a pointer and a length (ArchivedString, as ArchivedVec of words) *)
Section Colls.
  Context (kcmp : nat -> nat -> comparison) (b : buf).
  Definition check_string (p lo hi : nat) : mout nat := check_vec b (check_word b) 1 p lo hi.
  Definition rd_string (p : nat) : mout (list nat) :=
    q <~ rd b p ;; n <~ rd b (S p) ;; rd_slice b q n.
  (** [all(|(a, b)| a < b)] over neighbours (Ord for str is lexicographic): reads each pair, stops at the first failure *)
  Fixpoint all_lt (sz p n : nat) : mout bool :=
    match n with
    | S ((S _) as n') =>
        x <~ rd_string p ;; y <~ rd_string (p + sz) ;;
        match lex kcmp x y with Lt => all_lt sz (p + sz) n' | _ => Got false end
    | _ => Got true
    end.
  (** ArchivedVecSet::check_bytes vec_set.rs:702-713: first the vector, then the order *)
  Definition set_check (pos lo hi : nat) : mout nat :=
    lo' <~ check_vec b check_string 2 pos lo hi ;;
    p <~ rd b pos ;; n <~ rd b (S pos) ;;
    ok <~ all_lt 2 p n ;; if ok then Got lo' else Reject.
  Definition rd_set (pos : nat) : mout (list (list nat)) :=
    p <~ rd b pos ;; n <~ rd b (S pos) ;; rd_elems rd_string 2 p n.
  (** ArchivedVecMap::check_bytes vec_map.rs:910-925; an entry is a string and a one-word value *)
  Definition check_entry (p lo hi : nat) : mout nat := lo' <~ check_string p lo hi ;; _ <~ rd b (p + 2) ;; Got lo'.
  Definition map_check (pos lo hi : nat) : mout nat :=
    lo' <~ check_vec b check_entry 3 pos lo hi ;;
    p <~ rd b pos ;; n <~ rd b (S pos) ;;
    ok <~ all_lt 3 p n ;; if ok then Got lo' else Reject.
  Definition rd_entry (p : nat) : mout (list nat * nat) := k <~ rd_string p ;; v <~ rd b (p + 2) ;; Got (k, v).
  Definition rd_map (pos : nat) : mout (list (list nat * nat)) :=
    p <~ rd b pos ;; n <~ rd b (S pos) ;; rd_elems rd_entry 3 p n.
End Colls.

(** ** Radix trees. ArchivedRadixTree flat_radix_tree.rs:85-90, six words:
    prefix pointer, prefix length, value tag, value, children pointer, number of children *)
Section Tree.
  Context (kcmp : nat -> nat -> comparison) (b : buf).
  Definition nw : nat := 6.
  (** flat_radix_tree.rs:251: [children.iter().all(|child| !child.prefix.is_empty())], before the
      children have been validated *)
  Fixpoint all_nonempty (p n : nat) : mout bool :=
    match n with
    | 0 => Got true
    | S n' => l <~ rd b (p + 1) ;; if l =? 0 then Got false else all_nonempty (p + nw) n'
    end.
  (** [a.prefix[0]] of the node at p: the length was found to be positive *)
  Definition rd_head (p : nat) : mout nat := q <~ rd b p ;; rd b q.
  (** flat_radix_tree.rs:255-261 *)
  Fixpoint heads_lt (p n : nat) : mout bool :=
    match n with
    | S ((S _) as n') =>
        x <~ rd_head p ;; y <~ rd_head (p + nw) ;;
        match kcmp x y with Lt => heads_lt (p + nw) n' | _ => Got false end
    | _ => Got true
    end.
  (** check_bytes flat_radix_tree.rs:235-267 and arc_radix_tree.rs:287-319 (same text) of the node at [pos] with [lo, hi) available *)
  Fixpoint node_check (fuel : nat) (pos lo hi : nat) : mout nat :=
    match fuel with
    | 0 => TooDeep
    | S f =>
        lo1 <~ check_vec b (check_word b) 1 pos lo hi ;;
        tag <~ rd b (pos + 2) ;;
        if 1 <? tag then Reject else
        _ <~ rd b (pos + 3) ;;
        kp <~ rd b (pos + 4) ;; kn <~ rd b (pos + 5) ;;
        ne <~ all_nonempty kp kn ;;
        if negb ne then Reject else
        od <~ heads_lt kp kn ;;
        if negb od then Reject else
        check_vec b (node_check f) nw (pos + 4) lo1 hi
    end.
  (** reading everything reachable through prefix(), value() and children() (flat_radix_tree.rs:104-120),
      as deserialize (176-194) does *)
  Fixpoint rd_tree (fuel : nat) (pos : nat) : mout (rtree nat nat) :=
    match fuel with
    | 0 => TooDeep
    | S f =>
        pp <~ rd b pos ;; pn <~ rd b (pos + 1) ;; pre <~ rd_slice b pp pn ;;
        tag <~ rd b (pos + 2) ;; v <~ rd b (pos + 3) ;;
        kp <~ rd b (pos + 4) ;; kn <~ rd b (pos + 5) ;;
        kids <~ rd_elems (rd_tree f) nw kp kn ;;
        Got (Node pre (if tag =? 0 then None else Some v) kids)
    end.
End Tree.

(** Lookup in place: find mod.rs:699-760 and get 619-626 on ArchivedRadixTree. A comparison with the
    first component of a child indexes its prefix: [None] (a panic, here also [Ub]) when it is empty or
    outside the archive. *)
Section Lookup.
  Context (kcmp : nat -> nat -> comparison) (b : buf).
  Definition kid_cmp (c : nat) (p : nat) : option comparison :=
    match rd b (p + 1), rd_head b p with
    | Got (S _), Got h => Some (kcmp h c)
    | _, _ => None
    end.
  Fixpoint mem_get (fuel : nat) (pos : nat) (key : list nat) : mout (option nat) :=
    match fuel with
    | 0 => TooDeep
    | S f =>
        pp <~ rd b pos ;; pn <~ rd b (pos + 1) ;; pre <~ rd_slice b pp pn ;;
        let n := common_prefix kcmp pre key in
        let rp := length key - n in
        let rt := length pre - n in
        if (rp =? 0) && (rt =? 0) then
          tag <~ rd b (pos + 2) ;; v <~ rd b (pos + 3) ;; Got (if tag =? 0 then None else Some v)
        else if rp =? 0 then Got None
        else if rt =? 0 then
          match nth_error key n with
          | None => Ub
          | Some c =>
              kp <~ rd b (pos + 4) ;; kn <~ rd b (pos + 5) ;;
              match bsearch (kid_cmp c) (map (fun i => kp + nw * i) (seq 0 kn)) with
              | BsOk i => mem_get f (kp + nw * i) (skipn n key)
              | BsErr _ => Got None
              | BsPanic => Ub
              | BsNoFuel => TooDeep
              end
          end
        else Got None
    end.
End Lookup.

(** check_archived_root: the root is the last object of the archive and must be inside it; everything
    before it is available. [rsz] is the size of the root. *)
Definition check_root (b : buf) (rsz : nat) (chk : nat -> nat -> nat -> mout nat) : mout nat :=
  if rsz <=? length b then let root := length b - rsz in _ <~ chk root 0 root ;; Got root else Reject.
Definition set_validate (kcmp : nat -> nat -> comparison) (b : buf) : mout nat := check_root b 2 (set_check kcmp b).
Definition map_validate (kcmp : nat -> nat -> comparison) (b : buf) : mout nat := check_root b 2 (map_check kcmp b).
Definition tree_validate (kcmp : nat -> nat -> comparison) (b : buf) : mout nat :=
  check_root b nw (node_check kcmp b (S (length b))).
(** the tree at the position that validation returned *)
Definition tree_read (b : buf) (root : nat) : mout (rtree nat nat) := rd_tree b (S (length b)) root.

(** ** Writing: Serialize for RadixTree flat_radix_tree.rs:158-174 and Archive::resolve 131-155.
    ArchivedVec::serialize_from_slice: first what the elements refer to, then the elements. Returns the
    longer archive and the words of the node itself. *)
Definition ser_list {X} (ser : buf -> X -> buf * list nat) : buf -> list X -> buf * list (list nat) :=
  fix go (b : buf) (xs : list X) :=
    match xs with
    | [] => (b, [])
    | x :: xs' => let (b1, w) := ser b x in let (b2, ws) := go b1 xs' in (b2, w :: ws)
    end.
Fixpoint ser_tree (b : buf) (t : rtree nat nat) : buf * list nat :=
  let 'Node pre v kids := t in
  let b1 := b ++ pre in
  let (b2, ws) := ser_list ser_tree b1 kids in
  (b2 ++ concat ws,
   [length b; length pre; match v with Some _ => 1 | None => 0 end; match v with Some x => x | None => 0 end;
    length b2; length kids]).
(** serialize_value of the root *)
Definition tree_save (t : rtree nat nat) : buf := let (b, w) := ser_tree [] t in b ++ w.
(** Serialize for VecSet vec_set.rs:626-700 (derived: the SmallVec as a vector) *)
Definition ser_string (b : buf) (s : list nat) : buf * list nat := (b ++ s, [length b; length s]).
Definition set_save (s : list (list nat)) : buf :=
  let (b, ws) := ser_list ser_string [] s in b ++ concat ws ++ [length b; length s].
Definition ser_entry (b : buf) (e : list nat * nat) : buf * list nat := (b ++ fst e, [length b; length (fst e); snd e]).
Definition map_save (m : list (list nat * nat)) : buf :=
  let (b, ws) := ser_list ser_entry [] m in b ++ concat ws ++ [length b; length m].
