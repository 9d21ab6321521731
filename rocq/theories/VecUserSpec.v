(** What can become of the elements of two lists that are merged. *)
From Verif Require Export VecMapModel VecMapSpec Spec.

Definition olist {X : Type} (o : option X) : list X := match o with Some x => [x] | None => [] end.

(** [woven a b r a' b']: going through [a] and [b] from the front, each element was dealt with once, alone or together with one
    of the other list, which gave the elements [r] in this order; [a'] and [b'] are left. [FA x b o]: [x] dealt with alone, when
    [b] was left on the other side, may give [o]; [FC x y o]: [x] and [y] together may give [o]. *)
Inductive woven {A B R : Type} (FA : A -> list B -> option R -> Prop) (FB : B -> list A -> option R -> Prop)
  (FC : A -> B -> option R -> Prop) : list A -> list B -> list R -> list A -> list B -> Prop :=
| woven_stop a b : woven FA FB FC a b [] a b
| woven_a x a b o r a' b' : FA x b o -> woven FA FB FC a b r a' b' -> woven FA FB FC (x :: a) b (olist o ++ r) a' b'
| woven_b y a b o r a' b' : FB y a o -> woven FA FB FC a b r a' b' -> woven FA FB FC a (y :: b) (olist o ++ r) a' b'
| woven_c x y a b o r a' b' : FC x y o -> woven FA FB FC a b r a' b' -> woven FA FB FC (x :: a) (y :: b) (olist o ++ r) a' b'.

(** a call that merges [a] and [b] returns, having dealt with all of both, or panics, having dealt with the front of both *)
Definition merges {E A B R : Type} (W : list A -> list B -> list R -> list A -> list B -> Prop) (a : list A) (b : list B)
  (o : done (list R * E)) : Prop :=
  match o with
  | Done (r, _) => W a b r [] []
  | Unwound (r, _) => exists a' b', W a b r a' b'
  | DoneNoFuel => False
  end.

Section Fates.
  Context {E : Type}.
  (** one call of clone on [x] returned [y] *)
  Definition one_clone {X : Type} (clone : clos E X X) (x y : X) : Prop := exists e e', clone e x = (e', Ret y).
  (** the comparison called them equal *)
  Definition said_equal {X : Type} (cmp : clos E (X * X) comparison) (x y : X) : Prop := exists e e', cmp e (x, y) = (e', Ret Eq).
  (** dropped, or passed on as [via] says *)
  Definition dropped {X R : Type} (_ : X) (o : option R) : Prop := o = None.
  Definition passed {X R : Type} (via : X -> R -> Prop) (x : X) (o : option R) : Prop := exists y, via x y /\ o = Some y.
  (** one call of the closure on [x] returned: nothing, or a value that was put under the key [k], passed on as [via] says *)
  Definition put_under {K X Y : Type} (via : K -> K -> Prop) (f : clos E X (option Y)) (x : X) (k : K) (o : option (K * Y)) : Prop :=
    exists e e' q, f e x = (e', Ret q) /\
    match q with Some y => exists k', via k k' /\ o = Some (k', y) | None => o = None end.
End Fates.

(** a call of the user's [f] panicked and left the world [e'] *)
Definition threw {E X Y : Type} (f : clos E X Y) (e' : E) : Prop := exists e x, f e x = (e', Throw).
(** the call panics only when user code did, and calls no user code after that *)
Definition blames {E X : Type} (guilty : E -> Prop) (o : done (X * E)) : Prop :=
  match o with Unwound (_, e) => guilty e | _ => True end.

(** ** With comparisons that answer like an order *)
(** whenever the comparison returns it answers like [kcmp] *)
Definition answers_like {E C : Type} (kcmp : C -> C -> comparison) (cmp : clos E (C * C) comparison) : Prop :=
  forall e x y e' q, cmp e (x, y) = (e', Ret q) -> q = kcmp x y.
(** a clone, when there is one, is equal to the original *)
Definition clones_equal {E C : Type} (kcmp : C -> C -> comparison) (clone : clos E C C) : Prop :=
  forall x y, one_clone clone x y -> kcmp y x = Eq.
(** what becomes of what the two sides have for a key *)
Definition point {A B R : Type} (FA : A -> option R -> Prop) (FB : B -> option R -> Prop) (FC : A -> B -> option R -> Prop)
  (x : option A) (y : option B) (o : option R) : Prop :=
  match x, y with
  | Some x, Some y => FC x y o
  | Some x, None => FA x o
  | None, Some y => FB y o
  | None, None => o = None
  end.
(** the call returns an ascending result that has for each key what [P] says, or panics: then both sides split at one place in
    the order of the keys and the result so far has, for each key, what [P] says about the parts before that place *)
Definition merges_keys {E C A B R : Type} {kcmp : C -> C -> comparison} (kA : A -> C) (kB : B -> C) (kR : R -> C)
  (P : option A -> option B -> option R -> Prop) (a : list A) (b : list B) (o : done (list R * E)) : Prop :=
  match o with
  | Done (r, _) => ksorted (cmp := kcmp) kR r /\ forall k, P (kfind kcmp kA k a) (kfind kcmp kB k b) (kfind kcmp kR k r)
  | Unwound (r, _) =>
    exists a1 a' b1 b', a = a1 ++ a' /\ b = b1 ++ b' /\
      (forall x y, In x a1 -> In y b' -> kcmp (kA x) (kB y) = Lt) /\ (forall x y, In x a' -> In y b1 -> kcmp (kA x) (kB y) = Gt) /\
      ksorted (cmp := kcmp) kR r /\ forall k, P (kfind kcmp kA k a1) (kfind kcmp kB k b1) (kfind kcmp kR k r)
  | DoneNoFuel => False
  end.
