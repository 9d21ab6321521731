(** What C128 says about serializers and deserializers. *)
From Verif Require Export LookUserSpec SerdeModel.
Require Export Coq.Sorting.Permutation.

(** the calls a serializer is to receive for the items [l] *)
Inductive ser_call (T : Type) : Type := Begin (len : option nat) | Item (x : T) | End.
Arguments Begin {T}. Arguments Item {T}. Arguments End {T}.
Definition script {T : Type} (l : list T) : list (ser_call T) := Begin (Some (length l)) :: map Item l ++ [End].
Section Ser.
  Context {T Out X E : Type} (s : serializer T Out X E).
  (** what one call gives: success with a value at the end only, an error, or a panic *)
  Definition ser_answer (c : ser_call T) (e : E) : E * cres (option Out + X) :=
    let quietly (r : E * cres (unit + X)) := match r with
      | (e', Ret (inl _)) => (e', Ret (inl None)) | (e', Ret (inr x)) => (e', Ret (inr x)) | (e', Throw) => (e', Throw) end in
    match c with
    | Begin n => quietly (se_begin s e n)
    | Item x => quietly (se_item s e x)
    | End => match se_end s e tt with
             | (e', Ret (inl o)) => (e', Ret (inl (Some o))) | (e', Ret (inr x)) => (e', Ret (inr x)) | (e', Throw) => (e', Throw) end
    end.
  (** the calls succeed one after the other *)
  Inductive accepts : list (ser_call T) -> E -> E -> Prop :=
  | accepts_nil e : accepts [] e e
  | accepts_cons c cs e e1 e2 o : ser_answer c e = (e1, Ret (inl o)) -> accepts cs e1 e2 -> accepts (c :: cs) e e2.
End Ser.

(** how a deserializer stops handing out items *)
Inductive stop (X : Type) : Type := Ended | Failed (err : X) | Panics.
Arguments Ended {X}. Arguments Failed {X}. Arguments Panics {X}.
(** successive calls hand out [xs], then stop; the last call leaves the world [e'] *)
Inductive delivers {T X E : Type} (next : clos E unit (option T + X)) : E -> list T -> E -> stop X -> Prop :=
| delivers_ended e e' : next e tt = (e', Ret (inl None)) -> delivers next e [] e' Ended
| delivers_failed e e' x : next e tt = (e', Ret (inr x)) -> delivers next e [] e' (Failed x)
| delivers_panics e e' : next e tt = (e', Throw) -> delivers next e [] e' Panics
| delivers_item e e1 e' x xs st : next e tt = (e1, Ret (inl (Some x))) -> delivers next e1 xs e' st -> delivers next e (x :: xs) e' st.

(** the sort gives back the same elements, also when it panics *)
Definition sort_permutes {T E : Type} (srt : list T -> E -> (list T * bool) * E) : Prop := forall l e, Permutation (fst (fst (srt l e))) l.
(** [==] agrees with the order *)
Definition same_as {T E : Type} (kcmp : T -> T -> comparison) (same : clos E (T * T) bool) : Prop :=
  forall e x y e' q, same e (x, y) = (e', Ret q) -> q = eqb_of kcmp x y.
