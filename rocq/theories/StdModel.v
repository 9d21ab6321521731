(** Model of the parts of the Rust standard library (and smallvec) the code relies on.
    External code: modelled from its documentation, see DESIGN.md (trusted base). *)
From Verif Require Export Spec.

(** Outcome of a step of a merge. [Cont]: returned true, [Stop]: returned false,
    [Panic]: unwinding, with the state at that moment, [NoFuel]: artefact of fuel. *)
Inductive out (S : Type) : Type :=
| Cont (s : S)
| Stop (s : S)
| Panic (s : S)
| NoFuel.
Arguments Cont {S}. Arguments Stop {S}. Arguments Panic {S}. Arguments NoFuel {S}.

(** Rust's short-circuiting [x && y] / sequencing on steps. *)
Definition obind {S} (o : out S) (k : S -> out S) : out S :=
  match o with
  | Cont s => k s
  | Stop s => Stop s
  | Panic s => Panic s
  | NoFuel => NoFuel
  end.

(** Plain computations: value, panic, or out of fuel (never a real behaviour). *)
Inductive res (T : Type) : Type :=
| Ok (x : T)
| Panicked
| OutOfFuel.
Arguments Ok {T}. Arguments Panicked {T}. Arguments OutOfFuel {T}.

Definition rbind {X Y} (r : res X) (k : X -> res Y) : res Y :=
  match r with Ok x => k x | Panicked => Panicked | OutOfFuel => OutOfFuel end.
Definition rmap {X Y} (f : X -> Y) (r : res X) : res Y := rbind r (fun x => Ok (f x)).

(** ** [slice::binary_search_by] *)
Inductive bsres := BsOk (i : nat) | BsErr (i : nat) | BsPanic | BsNoFuel.

(** std::slice::binary_search_by (rust std; called from src/vec_set.rs:124,307,324,
    src/vec_map.rs:54,664,764, src/radix_tree/mod.rs:742 and inside binary-merge):
    [while left < right { mid = left + size/2; match f(&self[mid]) ... ; size = right-left }].
    [f] answers how the probed element compares to the target ([None] = the comparator panics).
    Also counts the calls of [f]. *)
Fixpoint bs_loop {T} (f : T -> option comparison) (l : list T) (fuel left right cnt : nat)
  : bsres * nat :=
  match fuel with
  | O => (BsNoFuel, cnt)
  | S fuel' =>
      if left <? right then
        let mid := left + (right - left) / 2 in
        match nth_error l mid with
        | None => (BsPanic, cnt)
        | Some x =>
            match f x with
            | None => (BsPanic, S cnt)
            | Some Lt => bs_loop f l fuel' (mid + 1) right (S cnt)
            | Some Gt => bs_loop f l fuel' left mid (S cnt)
            | Some Eq => (BsOk mid, S cnt)
            end
        end
      else (BsErr left, cnt)
  end.

Definition bs_count {T} (f : T -> option comparison) (l : list T) : bsres * nat :=
  bs_loop f l (S (length l)) 0 (length l) 0.
Definition bsearch {T} (f : T -> option comparison) (l : list T) : bsres := fst (bs_count f l).

(** ** Vec / SmallVec primitives *)
(** [Vec::insert] / [SmallVec::insert] at a valid index (called from vec_set.rs:313, vec_map.rs:671) *)
Definition insert_at {T} (i : nat) (x : T) (l : list T) : list T := firstn i l ++ x :: skipn i l.
(** [SmallVec::remove] at a valid index (vec_set.rs:325) *)
Definition remove_at {T} (i : nat) (l : list T) : list T := firstn i l ++ skipn (S i) l.
(** [v[i] = x] at a valid index (vec_set.rs:309) *)
Definition set_at {T} (i : nat) (x : T) (l : list T) : list T := firstn i l ++ x :: skipn (S i) l.
(** [slice::swap]; panics (None) when out of bounds (dedup.rs:23,26) *)
Definition swap_at {T} (i j : nat) (l : list T) : option (list T) :=
  match nth_error l i, nth_error l j with
  | Some x, Some y => Some (set_at i y (set_at j x l))
  | _, _ => None
  end.

(** [slice::sort_by] is stable. Modelled as insertion sort; any stable sort gives the same list
    (theorem [stable_sort_unique] in StdFacts.v). *)
Fixpoint sort_insert {T} (cmp : T -> T -> comparison) (x : T) (l : list T) : list T :=
  match l with
  | [] => [x]
  | y :: l' => match cmp x y with Gt => y :: sort_insert cmp x l' | _ => x :: y :: l' end
  end.
Definition sort_by {T} (cmp : T -> T -> comparison) (l : list T) : list T :=
  fold_right (sort_insert cmp) [] l.

(** [Vec::dedup_by]: drops every element equal to its predecessor among the kept ones
    (vec_set.rs:347 via [dedup], vec_map.rs:825 via [dedup_by_key], BTree not used). *)
Fixpoint dedup_from {T} (same : T -> T -> bool) (x : T) (l : list T) : list T :=
  match l with
  | [] => [x]
  | y :: l' => if same y x then dedup_from same x l' else x :: dedup_from same y l'
  end.
Definition dedup {T} (same : T -> T -> bool) (l : list T) : list T :=
  match l with [] => [] | x :: l' => dedup_from same x l' end.
