(** Serialize and Deserialize of VecSet and VecMap (feature serde), with the serializer, the deserializer and all user code open.
    serde itself is outside /repo: what is used of it is its interface. A serializer is three calls on a state ([E] holds it), a
    deserializer hands a [SeqAccess] or [MapAccess] to the visitor; each call may change the world, return a value or an error, or
    panic. An error type is [X]. TotalVecSet and TotalVecMap serialize as pairs of these and are not modelled here. *)
From Verif Require Export LookUserModel.

Section Serialize.
  Context {T Out X E : Type}.
  (** serialize_seq / serialize_map, serialize_element / serialize_entry, end *)
  Record serializer := MkSer { se_begin : clos E (option nat) (unit + X); se_item : clos E T (unit + X); se_end : clos E unit (Out + X) }.
  (** the loop and [end()]: src/vec_set.rs:575-578, src/vec_map.rs:779-782 *)
  Fixpoint ser_items (s : serializer) (l : list T) (e : E) : E * cres (Out + X) :=
    match l with
    | [] => se_end s e tt
    | x :: l' =>
        match se_item s e x with
        | (e', Ret (inl _)) => ser_items s l' e'
        | (e', Ret (inr err)) => (e', Ret (inr err))
        | (e', Throw) => (e', Throw)
        end
    end.
  (** VecSet: src/vec_set.rs:573-579; VecMap (items are entries): src/vec_map.rs:777-783 *)
  Definition serialize_to (s : serializer) (l : list T) (e : E) : E * cres (Out + X) :=
    match se_begin s e (Some (length l)) with
    | (e', Ret (inl _)) => ser_items s l e'
    | (e', Ret (inr err)) => (e', Ret (inr err))
    | (e', Throw) => (e', Throw)
    end.
End Serialize.
Arguments serializer : clear implicits.

Section Deserialize.
  Context {T X E : Type}.
  (** size_hint, next_element / next_entry *)
  Record seq_access := MkSeq { sa_hint : clos E unit (option nat); sa_next : clos E unit (option T + X) }.
  (** the loop: src/vec_set.rs:617-619, src/vec_map.rs:821-823; [None]: still running after [fuel] calls *)
  Fixpoint take_all (a : seq_access) (fuel : nat) (values : list T) (e : E) : option (E * cres (list T + X)) :=
    match fuel with
    | 0 => None
    | S fuel' =>
        match sa_next a e tt with
        | (e', Ret (inl (Some v))) => take_all a fuel' (values ++ [v]) e'
        | (e', Ret (inl None)) => Some (e', Ret (inl values))
        | (e', Ret (inr err)) => Some (e', Ret (inr err))
        | (e', Throw) => Some (e', Throw)
        end
    end.
  (** smallvec's dedup_by: an element is dropped if [same_bucket] says so of it and the last one kept (see [dedup] in StdModel.v) *)
  Fixpoint udedup_from (same : clos E (T * T) bool) (x : T) (l : list T) (e : E) : E * cres (list T) :=
    match l with
    | [] => (e, Ret [x])
    | y :: l' =>
        match same e (y, x) with
        | (e', Ret true) => udedup_from same x l' e'
        | (e', Ret false) =>
            match udedup_from same y l' e' with
            | (e'', Ret r) => (e'', Ret (x :: r))
            | (e'', Throw) => (e'', Throw)
            end
        | (e', Throw) => (e', Throw)
        end
    end.
  Definition udedup (same : clos E (T * T) bool) (l : list T) (e : E) : E * cres (list T) :=
    match l with [] => (e, Ret []) | x :: l' => udedup_from same x l' e end.
  (** visit_seq: src/vec_set.rs:610-623. [srt]: the standard library's sort with the comparison of the elements, as in
      CollectModel.v; [same]: [==]. size_hint sets the capacity (StorageModel.v) *)
  Definition visit_seq (srt : list T -> E -> (list T * bool) * E) (same : clos E (T * T) bool) (a : seq_access) (fuel : nat) (e : E)
    : option (E * cres (list T + X)) :=
    match sa_hint a e tt with
    | (e1, Throw) => Some (e1, Throw)
    | (e1, Ret _) =>
        match take_all a fuel [] e1 with
        | Some (e2, Ret (inl values)) =>
            match srt values e2 with
            | ((sorted, true), e3) =>
                match udedup same sorted e3 with
                | (e4, Ret r) => Some (e4, Ret (inl r))
                | (e4, Throw) => Some (e4, Throw)
                end
            | ((_, false), e3) => Some (e3, Throw)
            end
        | o => o
        end
    end.
End Deserialize.
Arguments seq_access : clear implicits.

(** [|x| x.0.clone()] on both and [==]: src/vec_map.rs:825 *)
Definition same_key {K V E : Type} (clone : clos E K K) (eq : clos E (K * K) bool) (e : E) (p : (K * V) * (K * V)) : E * cres bool :=
  match clone e (fst (fst p)) with
  | (e1, Ret k1) =>
      match clone e1 (fst (snd p)) with
      | (e2, Ret k2) => eq e2 (k1, k2)
      | (e2, Throw) => (e2, Throw)
      end
  | (e1, Throw) => (e1, Throw)
  end.
(** visit_map: src/vec_map.rs:817-828. [srt]: the sort by cloned keys (824) *)
Definition visit_map {K V X E : Type} (srt : list (K * V) -> E -> (list (K * V) * bool) * E) (clone : clos E K K) (eq : clos E (K * K) bool)
  : seq_access (K * V) X E -> nat -> E -> option (E * cres (list (K * V) + X)) :=
  visit_seq srt (same_key clone eq).
