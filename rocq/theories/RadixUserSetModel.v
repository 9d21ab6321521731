(** The set operations on radix trees, with user code as in RadixUserModel.v. *)
From Verif Require Export RadixUserModel.

Section Sets.
  Context {E K : Type} (u : ucode E K) (strat : nat -> nat -> bool).
  (** [|a, _| Some(a.clone())] mod.rs:304, 319 *)
  Definition first_clone {V X} (cl : clos E V V) : clos E (V * X) (option V) := fun e p =>
    let (e', r) := cl e (fst p) in (e', match r with Ret v => Ret (Some v) | Throw => Throw end).
  (** union mod.rs:300-305 *)
  Definition urt_union {V} (cl : clos E V V) (a b : rtree K V) (e : E) : given_back E (rtree K V) :=
    urt_outer_combine u strat cl (first_clone cl) a b e.
  (** union_with mod.rs:310-315: [|_, _| true] *)
  Definition urt_union_with {V} (cl : clos E V V) (a b : rtree K V) (e : E) : done (rtree K V * E) :=
    urt_outer_combine_with u strat cl (fun e v _ => (e, v, Ret true)) a b e.
  (** intersection mod.rs:318-320 *)
  Definition urt_intersection {V X} (cl : clos E V V) (cx : clos E X X) (a : rtree K V) (b : rtree K X) (e : E) : given_back E (rtree K V) :=
    urt_inner_combine u strat cl cx (first_clone cl) a b e.
  (** intersection_with mod.rs:323-325 *)
  Definition urt_intersection_with {V X} (cx : clos E X X) (a : rtree K V) (b : rtree K X) (e : E) : done (rtree K V * E) :=
    urt_inner_combine_with u strat cx (fun e v _ => (e, v, Ret true)) a b e.
  (** [|a, b| if b.is_none() { Some(a.clone()) } else { None }] mod.rs:331 *)
  Definition clone_unless {V X} (cl : clos E V V) : clos E (V * option X) (option V) := fun e p =>
    match snd p with
    | None => let (e', r) := cl e (fst p) in (e', match r with Ret v => Ret (Some v) | Throw => Throw end)
    | Some _ => (e, Ret None)
    end.
  (** difference mod.rs:328-333 *)
  Definition urt_difference {V X} (cl : clos E V V) (cx : clos E X X) (a : rtree K V) (b : rtree K X) (e : E) : given_back E (rtree K V) :=
    urt_left_combine u strat cl cx (clone_unless cl) a b e.
  (** difference_with mod.rs:336-338 *)
  Definition urt_difference_with {V X} (cx : clos E X X) (a : rtree K V) (b : rtree K X) (e : E) : done (rtree K V * E) :=
    urt_left_combine_with u strat cx (fun e v _ => (e, v, Ret false)) a b e.
  (** is_disjoint mod.rs:583-585, is_superset mod.rs:638-640 *)
  Definition urt_is_disjoint {V X} (a : rtree K V) (b : rtree K X) (e : E) : given_back E bool :=
    then_ (urt_intersects u strat a b e) (fun r e => Some (e, Ret (negb r))).
  Definition urt_is_superset {V X} (a : rtree K V) (b : rtree K X) (e : E) : given_back E bool := urt_is_subset u strat b a e.
End Sets.
