(** What calls that may panic give back, for C127. *)
From Verif Require Export TotalUserSpec LookUserModel.

(** the call returns an answer of which [P] holds, or panics because the user did *)
Definition answers_or {X E : Type} (guilty : E -> Prop) (P : X -> Prop) (o : res X * E) : Prop :=
  match o with (Ok x, _) => P x | (Panicked, e') => guilty e' | (OutOfFuel, _) => False end.
(** the call returns having changed the collection as [P] says, or panics because the user did, having changed nothing *)
Definition changes_or {X Y E : Type} (guilty : E -> Prop) (look : X -> Y) (before : Y) (P : X -> Prop) (o : done X * E) : Prop :=
  match o with (Done x, _) => P x | (Unwound x, e') => look x = before /\ guilty e' | (DoneNoFuel, _) => False end.
(** a type with more elements than any list *)
Definition inexhaustible {T : Type} (kcmp : T -> T -> comparison) : Prop := forall l : list T, exists x, listed kcmp l x = false.
(** the standard library's sort: whenever it returns, the slice is sorted stably *)
Definition sorts {T E : Type} (kcmp : T -> T -> comparison) (srt : list T -> E -> (list T * bool) * E) : Prop :=
  forall l e, snd (fst (srt l e)) = true -> fst (fst (srt l e)) = sort_by kcmp l.
(** for witnesses: the sort with a comparison that has no effects *)
Definition plain_sort {X E} (kcmp : X -> X -> comparison) (l : list X) (e : E) : (list X * bool) * E := ((sort_by kcmp l, true), e).
