(** What the theorems of PropClone.v compare the operators with: putting things into a collection one
    after the other, in order, where a step may panic. *)
From Verif Require Export VecMapModel Spec.

(** Performing jobs in order until one panics: what they put into the collection, the world
    afterwards, and whether all were performed. *)
Fixpoint runj {X R E} (perform : clos E X (option R)) (jobs : list X) (e : E) : list R * E * bool :=
  match jobs with
  | [] => ([], e, true)
  | x :: js =>
      let (e1, o) := perform e x in
      match o with
      | Throw => ([], e1, false)
      | Ret q => let '(rs, e2, ok) := runj perform js e1 in
                 (match q with Some r => r :: rs | None => rs end, e2, ok)
      end
  end.
(** returned, or unwound by a panic, with what was put so far *)
Definition finished {R E} (p : list R * E * bool) : done (list R * E) :=
  let '(rs, e, ok) := p in if ok then Done (rs, e) else Unwound (rs, e).

(** an element to put into a set: moved ([true]) or cloned ([false]) *)
Definition put {T E} (clone : clos E T T) : clos E (bool * T) (option T) := fun e p =>
  if fst p then (e, Ret (Some (snd p)))
  else let (e', o) := clone e (snd p) in (e', match o with Ret y => Ret (Some y) | Throw => Throw end).
(** does the list have the element? *)
Definition has {T} (cmp : T -> T -> comparison) (a : list T) (x : T) : bool :=
  existsb (fun y => match cmp x y with Eq => true | _ => false end) a.

(** an entry to put into a map: call the closure, and if it returns a value put it under the key of the
    argument, which is moved ([true]) or cloned ([false]) *)
Definition put_entry {K X R E} (clone : clos E K K) (f : clos E X (option R)) (key : X -> K)
  : clos E (bool * X) (option (K * R)) := fun e p =>
  let (e1, o) := f e (snd p) in
  match o with
  | Throw => (e1, Throw)
  | Ret None => (e1, Ret None)
  | Ret (Some r) =>
      if fst p then (e1, Ret (Some (key (snd p), r)))
      else let (e2, k) := clone e1 (key (snd p)) in
           (e2, match k with Ret k' => Ret (Some (k', r)) | Throw => Throw end)
  end.
