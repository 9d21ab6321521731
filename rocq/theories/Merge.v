(** Model of the merge machinery: external crates binary-merge and inplace-vec-builder (from
    their documentation) and /repo/src/merge_state.rs, /repo/src/iterators.rs. *)
From Verif Require Export StdModel.

(** ** binary-merge: trait MergeState + MergeOperation
    (external crate binary-merge 0.1.2; used through [o.merge(&mut state)] in
    src/merge_state.rs:79,158,222,258,357,441).
    [mo_a]/[mo_b] are [MergeState::a_slice]/[b_slice]; the other fields are the methods of
    [MergeOperation]. [mo_cmp] returns [None] when the comparison panics. *)
Record mop (S A B : Type) := MkMop {
  mo_a : S -> list A;
  mo_b : S -> list B;
  mo_cmp : A -> B -> option comparison;
  mo_from_a : S -> nat -> out S;
  mo_from_b : S -> nat -> out S;
  mo_coll : S -> out S
}.
Arguments MkMop {S A B}.
Arguments mo_a {S A B}. Arguments mo_b {S A B}. Arguments mo_cmp {S A B}.
Arguments mo_from_a {S A B}. Arguments mo_from_b {S A B}. Arguments mo_coll {S A B}.

Section Alg.
  Context {S A B : Type} (O : mop S A B).

  (** binary-merge: the minimum-comparison strategy. Picks the middle of the [an] pending
      elements of a, finds it in the [bn] pending elements of b by binary search and recurses. *)
  Fixpoint binary_merge (fuel : nat) (s : S) (an bn : nat) : out S :=
    match fuel with
    | 0 => NoFuel
    | Datatypes.S fuel' =>
        if an =? 0 then (if bn =? 0 then Cont s else mo_from_b O s bn)
        else if bn =? 0 then mo_from_a O s an
        else
          let am := an / 2 in
          match nth_error (mo_a O s) am with
          | None => Panic s
          | Some x =>
              match bsearch (fun y => option_map CompOpp (mo_cmp O x y)) (firstn bn (mo_b O s)) with
              | BsOk bm =>
                  obind (binary_merge fuel' s am bm) (fun s1 =>
                  obind (mo_coll O s1) (fun s2 =>
                  binary_merge fuel' s2 (an - am - 1) (bn - bm - 1)))
              | BsErr bi =>
                  obind (binary_merge fuel' s am bi) (fun s1 =>
                  obind (mo_from_a O s1 1) (fun s2 =>
                  binary_merge fuel' s2 (an - am - 1) (bn - bi)))
              | BsPanic => Panic s
              | BsNoFuel => NoFuel
              end
          end
    end.

  (** binary-merge: the linear strategy. *)
  Fixpoint tape_merge (fuel : nat) (s : S) : out S :=
    match fuel with
    | 0 => NoFuel
    | Datatypes.S fuel' =>
        match mo_a O s, mo_b O s with
        | [], [] => Cont s
        | [], _ :: _ => mo_from_b O s (length (mo_b O s))
        | _ :: _, [] => mo_from_a O s (length (mo_a O s))
        | x :: _, y :: _ =>
            match mo_cmp O x y with
            | None => Panic s
            | Some Lt => obind (mo_from_a O s 1) (tape_merge fuel')
            | Some Gt => obind (mo_from_b O s 1) (tape_merge fuel')
            | Some Eq => obind (mo_coll O s) (tape_merge fuel')
            end
        end
    end.

  (** [MergeOperation::merge]: picks a strategy from the lengths. The choice is the arbitrary
      oracle [strat]; all theorems hold for every oracle. *)
  Definition merge (strat : nat -> nat -> bool) (s : S) : out S :=
    let an := length (mo_a O s) in
    let bn := length (mo_b O s) in
    if strat an bn then tape_merge (Datatypes.S (an + bn)) s
    else binary_merge (Datatypes.S an) s an bn.
End Alg.

(** ** Converters: src/merge_state.rs:295-324. [None] models the panic of NoConverter. *)
(** src/merge_state.rs:300-306 *)
Definition NoConverter {X Y : Type} : X -> option Y := fun _ => None.
(** src/merge_state.rs:309-315; Clone is the identity on values *)
Definition CloneConverter {X : Type} : X -> option X := fun x => Some x.
(** src/merge_state.rs:318-324 *)
Definition IdConverter {X : Type} : X -> option X := fun x => Some x.

(** ** trait MergeStateMut: src/merge_state.rs:12-17 *)
Record msm (S A B : Type) := MkMsm {
  ms_a : S -> list A;
  ms_b : S -> list B;
  adv_a : S -> nat -> bool -> out S;
  adv_b : S -> nat -> bool -> out S
}.
Arguments MkMsm {S A B}.
Arguments ms_a {S A B}. Arguments ms_b {S A B}. Arguments adv_a {S A B}. Arguments adv_b {S A B}.

(** ** inplace-vec-builder (external crate 0.1.1): a vector split into a finished target part and
    a remaining source part. [bd_drop] is a ghost log of the elements dropped so far. *)
Record builder (A : Type) := MkB { bd_tgt : list A; bd_src : list A; bd_drop : list A }.
Arguments MkB {A}. Arguments bd_tgt {A}. Arguments bd_src {A}. Arguments bd_drop {A}.

(** [From<&mut SmallVec<A>> for InPlaceSmallVecBuilder], [From<&mut Vec<A>> for InPlaceVecBuilder] *)
Definition bd_new {A} (l : list A) : builder A := MkB [] l [].
(** [consume(n, take)]: moves the next n source elements to the target, or drops them *)
Definition bd_consume {A} (b : builder A) (n : nat) (take : bool) : builder A :=
  if take then MkB (bd_tgt b ++ firstn n (bd_src b)) (skipn n (bd_src b)) (bd_drop b)
  else MkB (bd_tgt b) (skipn n (bd_src b)) (bd_drop b ++ firstn n (bd_src b)).
(** [push(value)] *)
Definition bd_push {A} (b : builder A) (x : A) : builder A :=
  MkB (bd_tgt b ++ [x]) (bd_src b) (bd_drop b).
(** [pop_front()]: takes the next source element out *)
Definition bd_pop_front {A} (b : builder A) : option (A * builder A) :=
  match bd_src b with
  | [] => None
  | x :: l => Some (x, MkB (bd_tgt b) l (bd_drop b))
  end.

(** [extend_from_iter(iter.map(C::convert), n)]: pushes at most n converted elements. Returns the
    new builder, the rest of the iterator, and whether it completed ([false]: the converter
    panicked on an element, which is gone from the iterator). *)
Fixpoint bd_extend {A B} (conv : B -> option A) (n : nat) (bd : builder A) (b : list B)
  : builder A * list B * bool :=
  match n with
  | 0 => (bd, b, true)
  | Datatypes.S n' =>
      match b with
      | [] => (bd, [], true)
      | y :: b' =>
          match conv y with
          | Some x => bd_extend conv n' (bd_push bd x) b'
          | None => (bd, b', false)
          end
      end
  end.

(** ** InPlaceMergeState (rhs by value): src/merge_state.rs:23-81.
    [ip_drop_b]: ghost log of dropped rhs elements. *)
Record ipstate (A B : Type) := MkIp { ip_a : builder A; ip_b : list B; ip_drop_b : list B }.
Arguments MkIp {A B}. Arguments ip_a {A B}. Arguments ip_b {A B}. Arguments ip_drop_b {A B}.

(** src/merge_state.rs:35-41 *)
Definition ip_new {A B} (a : list A) (b : list B) : ipstate A B := MkIp (bd_new a) b [].
(** src/merge_state.rs:60-63 *)
Definition ip_adv_a {A B} (s : ipstate A B) (n : nat) (take : bool) : out (ipstate A B) :=
  Cont (MkIp (bd_consume (ip_a s) n take) (ip_b s) (ip_drop_b s)).
(** src/merge_state.rs:64-73 *)
Definition ip_adv_b {A B} (conv : B -> option A) (s : ipstate A B) (n : nat) (take : bool)
  : out (ipstate A B) :=
  if take then
    let '(bd, b, ok) := bd_extend conv n (ip_a s) (ip_b s) in
    let s' := MkIp bd b (ip_drop_b s) in
    if ok then Cont s' else Panic s'
  else Cont (MkIp (ip_a s) (skipn n (ip_b s)) (ip_drop_b s ++ firstn n (ip_b s))).
(** src/merge_state.rs:44-74 *)
Definition ip_msm {A B} (conv : B -> option A) : msm (ipstate A B) A B :=
  MkMsm (fun s => bd_src (ip_a s)) (fun s => ip_b s) ip_adv_a (ip_adv_b conv).

(** ** InPlaceSmallVecMergeStateRef / InPlaceVecMergeStateRef (rhs by reference):
    src/merge_state.rs:84-160 and 163-224. The two are the same text up to the container type
    (SmallVec or Vec), modelled once. *)
Record iprstate (A B : Type) := MkIpr { ipr_a : builder A; ipr_b : list B }.
Arguments MkIpr {A B}. Arguments ipr_a {A B}. Arguments ipr_b {A B}.

(** src/merge_state.rs:96-102, 171-177 *)
Definition ipr_new {A B} (a : list A) (b : list B) : iprstate A B := MkIpr (bd_new a) b.
(** src/merge_state.rs:123-126, 194-197 *)
Definition ipr_adv_a {A B} (s : iprstate A B) (n : nat) (take : bool) : out (iprstate A B) :=
  Cont (MkIpr (bd_consume (ipr_a s) n take) (ipr_b s)).
(** src/merge_state.rs:127-136, 198-207 *)
Definition ipr_adv_b {A B} (conv : B -> option A) (s : iprstate A B) (n : nat) (take : bool)
  : out (iprstate A B) :=
  if take then
    let '(bd, b, ok) := bd_extend conv n (ipr_a s) (ipr_b s) in
    let s' := MkIpr bd b in
    if ok then Cont s' else Panic s'
  else Cont (MkIpr (ipr_a s) (skipn n (ipr_b s))).
(** src/merge_state.rs:105-137, 177-208 *)
Definition ipr_msm {A B} (conv : B -> option A) : msm (iprstate A B) A B :=
  MkMsm (fun s => bd_src (ipr_a s)) (fun s => ipr_b s) ipr_adv_a (ipr_adv_b conv).

(** ** SliceIterator: src/iterators.rs:51-81. [None] models the slice-index panic. *)
(** src/iterators.rs:72-74 *)
Definition si_drop_front {X} (l : list X) (n : nat) : option (list X) :=
  if n <=? length l then Some (skipn n l) else None.
(** src/iterators.rs:76-80 *)
Definition si_take_front {X} (l : list X) (n : nat) : option (list X * list X) :=
  if n <=? length l then Some (firstn n l, skipn n l) else None.

(** ** BoolOpMergeState: src/merge_state.rs:227-293 *)
Record bstate (A B : Type) := MkBs { bs_a : list A; bs_b : list B; bs_r : bool }.
Arguments MkBs {A B}. Arguments bs_a {A B}. Arguments bs_b {A B}. Arguments bs_r {A B}.

(** src/merge_state.rs:246-252 *)
Definition bs_new {A B} (a : list A) (b : list B) : bstate A B := MkBs a b false.
(** src/merge_state.rs:275-283 *)
Definition bs_adv_a {A B} (s : bstate A B) (n : nat) (take : bool) : out (bstate A B) :=
  if take then Stop (MkBs (bs_a s) (bs_b s) true)
  else match si_drop_front (bs_a s) n with
       | Some a' => Cont (MkBs a' (bs_b s) (bs_r s))
       | None => Panic s
       end.
(** src/merge_state.rs:284-292 *)
Definition bs_adv_b {A B} (s : bstate A B) (n : nat) (take : bool) : out (bstate A B) :=
  if take then Stop (MkBs (bs_a s) (bs_b s) true)
  else match si_drop_front (bs_b s) n with
       | Some b' => Cont (MkBs (bs_a s) b' (bs_r s))
       | None => Panic s
       end.
(** src/merge_state.rs:263-293 *)
Definition bs_msm {A B} : msm (bstate A B) A B := MkMsm bs_a bs_b bs_adv_a bs_adv_b.

(** ** VecMergeState: src/merge_state.rs:403-482, and SmallVecMergeState: 327-400, which is the
    case R = A with [ac] = clone. [reserve] is not modelled. *)
Record vstate (A B R : Type) := MkVs { vs_a : list A; vs_b : list B; vs_r : list R }.
Arguments MkVs {A B R}. Arguments vs_a {A B R}. Arguments vs_b {A B R}. Arguments vs_r {A B R}.

(** src/merge_state.rs:341-348, 419-426 *)
Definition vs_new {A B R} (a : list A) (b : list B) : vstate A B R := MkVs a b [].

(** [for e in ...iter() { self.r.push(C::convert(e)) }]: src/merge_state.rs:381-383, 392-394,
    463-465, 473-475 *)
Fixpoint push_all {X R} (conv : X -> option R) (l : list X) (r : list R) : list R * bool :=
  match l with
  | [] => (r, true)
  | x :: l' => match conv x with
               | Some y => push_all conv l' (r ++ [y])
               | None => (r, false)
               end
  end.

(** src/merge_state.rs:378-388, 460-470 *)
Definition vs_adv_a {A B R} (ac : A -> option R) (s : vstate A B R) (n : nat) (take : bool)
  : out (vstate A B R) :=
  if take then
    match si_take_front (vs_a s) n with
    | None => Panic s
    | Some (h, t) =>
        let (r, ok) := push_all ac h (vs_r s) in
        if ok then Cont (MkVs t (vs_b s) r) else Panic (MkVs t (vs_b s) r)
    end
  else match si_drop_front (vs_a s) n with
       | Some t => Cont (MkVs t (vs_b s) (vs_r s))
       | None => Panic s
       end.
(** src/merge_state.rs:389-399, 471-481 *)
Definition vs_adv_b {A B R} (bc : B -> option R) (s : vstate A B R) (n : nat) (take : bool)
  : out (vstate A B R) :=
  if take then
    match si_take_front (vs_b s) n with
    | None => Panic s
    | Some (h, t) =>
        let (r, ok) := push_all bc h (vs_r s) in
        if ok then Cont (MkVs (vs_a s) t r) else Panic (MkVs (vs_a s) t r)
    end
  else match si_drop_front (vs_b s) n with
       | Some t => Cont (MkVs (vs_a s) t (vs_r s))
       | None => Panic s
       end.
(** src/merge_state.rs:362-400, 446-482 *)
Definition vs_msm {A B R} (ac : A -> option R) (bc : B -> option R) : msm (vstate A B R) A B :=
  MkMsm vs_a vs_b (vs_adv_a ac) (vs_adv_b bc).

(** ** The [merge] entry points *)
(** Result of an in-place call: [Done x]: returned, the collection now holds x;
    [Unwound x]: the call panicked and, after unwinding (the builder's Drop keeps the target and
    drops the rest of the source), the collection holds x. *)
Inductive done (X : Type) := Done (x : X) | Unwound (x : X) | DoneNoFuel.
Arguments Done {X}. Arguments Unwound {X}. Arguments DoneNoFuel {X}.

Definition to_done {S X} (f : S -> X) (o : out S) : done X :=
  match o with
  | Cont s => Done (f s)
  | Stop s => Done (f s)
  | Panic s => Unwound (f s)
  | NoFuel => DoneNoFuel
  end.
Definition to_res {S X} (f : S -> X) (o : out S) : res X :=
  match o with
  | Cont s => Ok (f s)
  | Stop s => Ok (f s)
  | Panic _ => Panicked
  | NoFuel => OutOfFuel
  end.

Section Entry.
  Context (strat : nat -> nat -> bool).

  (** InPlaceMergeState::merge src/merge_state.rs:77-80; returns the kept elements and (ghost) the
      dropped ones: those dropped on the way, then the remaining source and rhs dropped at the end. *)
  Definition ip_merge {A B} (O : mop (ipstate A B) A B) (a : list A) (b : list B)
    : done (list A * list A * list B) :=
    to_done (fun s => (bd_tgt (ip_a s), bd_drop (ip_a s) ++ bd_src (ip_a s), ip_drop_b s ++ ip_b s))
            (merge O strat (ip_new a b)).
  (** InPlaceSmallVecMergeStateRef::merge src/merge_state.rs:150-159,
      InPlaceVecMergeStateRef::merge src/merge_state.rs:220-223 *)
  Definition ipr_merge {A B} (O : mop (iprstate A B) A B) (a : list A) (b : list B)
    : done (list A) :=
    to_done (fun s => bd_tgt (ipr_a s)) (merge O strat (ipr_new a b)).
  (** BoolOpMergeState::merge src/merge_state.rs:256-260 *)
  Definition bs_merge {A B} (O : mop (bstate A B) A B) (a : list A) (b : list B) : res bool :=
    to_res bs_r (merge O strat (bs_new a b)).
  (** SmallVecMergeState::merge src/merge_state.rs:354-359, VecMergeState::merge 432-443 *)
  Definition vs_merge {A B R} (O : mop (vstate A B R) A B) (a : list A) (b : list B)
    : res (list R) :=
    to_res vs_r (merge O strat (vs_new a b)).
End Entry.
