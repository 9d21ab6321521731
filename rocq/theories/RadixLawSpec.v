(** Vocabulary for the radix tree operations when the comparisons of the key components answer like one total order, but
    may have effects and panic, and [Clone] of the values and the closures are arbitrary. *)
From Verif Require Export RadixUserModel RadixSpec.

(** whenever [==], [cmp] and [<] return, the answer is that of the order [kcmp]; what they do to the world, and whether
    they panic, is left open *)
Record answers_like {E K : Type} (kcmp : K -> K -> comparison) (u : ucode E K) : Prop := {
  an_eq : forall e x y e' b, u_eq u e (x, y) = (e', Ret b) -> b = match kcmp x y with Eq => true | _ => false end;
  an_cmp : forall e x y e' c, u_cmp u e (x, y) = (e', Ret c) -> c = kcmp x y;
  an_lt : forall e x y e' b, u_lt u e (x, y) = (e', Ret b) -> b = match kcmp x y with Lt => true | _ => false end }.
(** [<] never panics *)
Definition lt_returns {E K : Type} (u : ucode E K) : Prop := forall e x y, snd (u_lt u e (x, y)) <> Throw.

(** [w'] was made from [w] by cloning, any number of times in a row (no time: it is [w]) ... *)
Inductive copies {E X : Type} (cl : clos E X X) : X -> X -> Prop :=
| copies_refl w : copies cl w w
| copies_step w w1 w' e e' : cl e w = (e', Ret w1) -> copies cl w1 w' -> copies cl w w'.
(** ... at least once *)
Definition copied {E X : Type} (cl : clos E X X) (w w' : X) : Prop :=
  exists e e' w1, cl e w = (e', Ret w1) /\ copies cl w1 w'.

(** [f], called once with the value of [self] and a copy of the value of [that], decided about the entry *)
Definition decided {E V X : Type} (cx : clos E X X) (f : mclos E V X) (v : V) (w : X) (r : option V) : Prop :=
  exists w' e e' v' b, copies cx w w' /\ f e v w' = (e', v', Ret b) /\ r = if b then Some v' else None.
(** [f] was called with them and left [z], whether it returned or panicked *)
Definition touched {E V X : Type} (cx : clos E X X) (f : mclos E V X) (v : V) (w : X) (z : V) : Prop :=
  exists w' e e' r, copies cx w w' /\ f e v w' = (e', z, r).
(** [f] returned [b] for a copy of [w] *)
Definition answered {E X : Type} (cx : clos E X X) (f : clos E X bool) (w : X) (b : bool) : Prop :=
  exists w' e e', copies cx w w' /\ f e w' = (e', Ret b).

(** the entry of the result, from the entries of [self] and [that] *)
Definition outer_entry {E V : Type} (cl : clos E V V) (f : mclos E V V) (v w r : option V) : Prop :=
  match v, w with
  | None, None => r = None
  | Some v, None => r = Some v
  | None, Some w => exists w', copied cl w w' /\ r = Some w'
  | Some v, Some w => decided cl f v w r
  end.
Definition inner_entry {E V X : Type} (cx : clos E X X) (f : mclos E V X) (v : option V) (w : option X) (r : option V) : Prop :=
  match v, w with Some v, Some w => decided cx f v w r | _, _ => r = None end.
Definition left_entry {E V X : Type} (cx : clos E X X) (f : mclos E V X) (v : option V) (w : option X) (r : option V) : Prop :=
  match v, w with Some v, Some w => decided cx f v w r | _, _ => r = v end.

Definition is_prefix {K : Type} (k' k : list K) : Prop := exists r, k = k' ++ r.
(** [f] said true of the value at some prefix of [k]; [f] said false of the value at every prefix of [k] *)
Definition some_accepted {E K X : Type} (cx : clos E X X) (f : clos E X bool) (g : list K -> option X) (k : list K) : Prop :=
  exists k' w, is_prefix k' k /\ g k' = Some w /\ answered cx f w true.
Definition all_refused {E K X : Type} (cx : clos E X X) (f : clos E X bool) (g : list K -> option X) (k : list K) : Prop :=
  forall k' w, is_prefix k' k -> g k' = Some w -> answered cx f w false.
Definition remove_entry {E K V X : Type} (cx : clos E X X) (f : clos E X bool) (v : option V) (g : list K -> option X) (k : list K)
  (r : option V) : Prop :=
  match v with
  | None => r = None
  | Some v => (r = Some v /\ all_refused cx f g k) \/ (r = None /\ some_accepted cx f g k)
  end.
Definition retain_entry {E K V X : Type} (cx : clos E X X) (f : clos E X bool) (v : option V) (g : list K -> option X) (k : list K)
  (r : option V) : Prop :=
  match v with
  | None => r = None
  | Some v => (r = Some v /\ some_accepted cx f g k) \/ (r = None /\ all_refused cx f g k)
  end.

(** an entry of what a panic left behind *)
Definition outer_rest {E V : Type} (cl : clos E V V) (f : mclos E V V) (v w : option V) (z : V) : Prop :=
  match v, w with
  | None, None => False
  | Some v, None => z = v
  | None, Some w => copied cl w z
  | Some v, Some w => z = v \/ touched cl f v w z
  end.
Definition with_rest {E V X : Type} (cx : clos E X X) (f : mclos E V X) (v : option V) (w : option X) (z : V) : Prop :=
  match v, w with
  | None, _ => False
  | Some v, None => z = v
  | Some v, Some w => z = v \/ touched cx f v w z
  end.

(** ** the combinations that build a new tree *)
(** [f] returned [r] for copies of [v] and [w] *)
Definition returned {E V X : Type} (cl : clos E V V) (cx : clos E X X) (f : clos E (V * X) (option V)) (v : V) (w : X) (r : option V) : Prop :=
  exists v' w' e e', copies cl v v' /\ copies cx w w' /\ f e (v', w') = (e', Ret r).
Definition outer_made {E V : Type} (cl : clos E V V) (f : clos E (V * V) (option V)) (v w r : option V) : Prop :=
  match v, w with
  | None, None => r = None
  | Some v, None => exists v', copied cl v v' /\ r = Some v'
  | None, Some w => exists w', copied cl w w' /\ r = Some w'
  | Some v, Some w => returned cl cl f v w r
  end.
Definition inner_made {E V X : Type} (cl : clos E V V) (cx : clos E X X) (f : clos E (V * X) (option V)) (v : option V) (w : option X) (r : option V) : Prop :=
  match v, w with Some v, Some w => returned cl cx f v w r | _, _ => r = None end.
(** where only the left tree has the key, it keeps a copy or [f] is asked, without a value of the right tree *)
Definition left_made {E V X : Type} (cl : clos E V V) (cx : clos E X X) (f : clos E (V * option X) (option V)) (v : option V) (w : option X) (r : option V) : Prop :=
  match v, w with
  | None, _ => r = None
  | Some v, Some w => exists v' w' e e', copies cl v v' /\ copies cx w w' /\ f e (v', Some w') = (e', Ret r)
  | Some v, None => (exists v', copied cl v v' /\ r = Some v') \/ exists v' e e', copies cl v v' /\ f e (v', None) = (e', Ret r)
  end.
