(** What TotalVecSet and TotalVecMap promise, for C125 and C126. *)
From Verif Require Export VecUserSpec TotalModel.

Section TotalSets.
  Context {T E : Type} (kcmp : T -> T -> comparison).
  Definition listed (l : list T) (x : T) : bool := existsb (fun y => match kcmp x y with Eq => true | _ => false end) l.
  (** [x] is in the set: among the elements, or not among them if the set is negated *)
  Definition member (s : tset T) (x : T) : bool := if ts_negated s then negb (listed (ts_elements s) x) else listed (ts_elements s) x.
  Definition ascending (s : tset T) : Prop := StronglySorted (fun x y => kcmp x y = Lt) (ts_elements s).
  (** each element of the result is a [via] of an element of [a] or [b] *)
  Definition taken (via : T -> T -> Prop) (a b r : tset T) : Prop :=
    forall z, In z (ts_elements r) -> exists y, (In y (ts_elements a) \/ In y (ts_elements b)) /\ via y z.
  (** the call ends; if it returns the result is the set that [op] describes *)
  Definition computes (via : T -> T -> Prop) (op : bool -> bool -> bool) (a b : tset T) (o : done (tset T * E)) : Prop :=
    match o with
    | Done (r, _) => ascending r /\ (forall x, member r x = op (member a x) (member b x)) /\ taken via a b r
    | Unwound _ => True
    | DoneNoFuel => False
    end.
  (** after a panic the set is still a set, of elements of both operands, negated as before *)
  Definition salvages (a b : tset T) (o : done (tset T * E)) : Prop :=
    match o with
    | Unwound (r, _) => ascending r /\ ts_negated r = ts_negated a /\ taken eq a b r
    | _ => True
    end.
End TotalSets.

Section TotalMaps.
  Context {K V E : Type}.
  Definition value_or (d : V) (x : option (K * V)) : V := match x with Some (_, v) => v | None => d end.
  (** what one call of [f] on the two values, then one [!=] against the new default, made of an entry *)
  Definition answered (clone : clos E K K) (ne : clos E (V * V) bool) (f : clos E (V * V) V) (va vb d : V) (k : K) (o : option (K * V)) : Prop :=
    exists e e1 e2 v q, f e (va, vb) = (e1, Ret v) /\ ne e1 (v, d) = (e2, Ret q) /\
      if q then exists k', one_clone clone k k' /\ o = Some (k', v) else o = None.
  Definition combined_at (clone : clos E K K) (ne : clos E (V * V) bool) (f : clos E (V * V) V) (da db d : V)
    (x y o : option (K * V)) : Prop :=
    match x, y with
    | None, None => o = None
    | Some (k, v), _ => answered clone ne f v (value_or db y) d k o
    | None, Some (k, w) => answered clone ne f da w d k o
    end.
End TotalMaps.
(** what one call of [f] on the value, then one [!=] against the new default, made of an entry: map_values *)
Definition mapped_to {K V W E : Type} (clone : clos E K K) (ne : clos E (W * W) bool) (f : clos E V W) (d : W) (x : K * V) (o : option (K * W)) : Prop :=
  exists e e1 e2 w q, f e (snd x) = (e1, Ret w) /\ ne e1 (w, d) = (e2, Ret q) /\
    if q : bool then exists k', one_clone clone (fst x) k' /\ o = Some (k', w) else o = None.
(** [r]: what became of the elements of [l], in order, each as [P] says *)
Definition each_to {X Y : Type} (P : X -> option Y -> Prop) (l : list X) (r : list Y) : Prop :=
  exists os, Forall2 P l os /\ r = concat (map olist os).
(** what becomes of an entry in [new] *)
Definition sifted {K V E : Type} (ne : clos E (V * V) bool) (d : V) (x : K * V) (o : option (K * V)) : Prop :=
  exists e e' q, ne e (snd x, d) = (e', Ret q) /\ o = if q : bool then Some x else None.
(** ** user code on values that behaves *)
(** what [f] returns is equal to what [g] is *)
Definition acts_like {V X E : Type} (veqb : V -> V -> bool) (g : X -> V) (f : clos E X V) : Prop :=
  forall e x e' v, f e x = (e', Ret v) -> veqb v (g x) = true.
(** [!=] is the opposite of [==] *)
Definition differs_by {V E : Type} (veqb : V -> V -> bool) (ne : clos E (V * V) bool) : Prop :=
  forall e x y e' q, ne e (x, y) = (e', Ret q) -> q = negb (veqb x y).
(** no entry holds the default *)
Definition canonical {K V : Type} (veqb : V -> V -> bool) (m : tmap K V) : Prop :=
  Forall (fun x => veqb (snd x) (tm_default m) = false) (tm_map m).
(** the value at [k] *)
Definition value_at {K V : Type} (kcmp : K -> K -> comparison) (m : tmap K V) (k : K) : V :=
  value_or (tm_default m) (kfind kcmp fst k (tm_map m)).
