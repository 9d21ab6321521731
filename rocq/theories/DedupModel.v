(** Model of /repo/src/dedup.rs. *)
From Verif Require Export StdModel.

(** src/dedup.rs:33-39 *)
Inductive keep := KeepFirst | KeepLast.

Section Dedup.
  Context {T : Type}.

  (** src/dedup.rs:19-28: the loop of [dedup_by] over the remaining indices [is], with the slice
      [d] and the index [j] of the last kept element. [None]: index out of bounds (panic). *)
  Fixpoint dedup_loop (same : T -> T -> bool) (kp : keep) (is : list nat) (d : list T) (j : nat)
    : option (list T * nat) :=
    match is with
    | [] => Some (d, j)
    | i :: is' =>
        match nth_error d i, nth_error d j with
        | Some x, Some y =>
            if negb (same x y) then
              let j' := j + 1 in
              if negb (i =? j') then
                match swap_at i j' d with
                | Some d' => dedup_loop same kp is' d' j'
                | None => None
                end
              else dedup_loop same kp is' d j'
            else
              match kp with
              | KeepLast =>
                  match swap_at i j d with
                  | Some d' => dedup_loop same kp is' d' j
                  | None => None
                  end
              | KeepFirst => dedup_loop same kp is' d j
              end
        | _, _ => None
        end
    end.

  (** src/dedup.rs:14-30: returns the permuted slice and the number of unique elements *)
  Definition dedup_by (d : list T) (same : T -> T -> bool) (kp : keep) : option (list T * nat) :=
    match d with
    | [] => Some (d, 0)
    | _ => match dedup_loop same kp (seq 1 (length d - 1)) d 0 with
           | Some (d', j) => Some (d', j + 1)
           | None => None
           end
    end.

  (** src/dedup.rs:81-92 [struct SortAndDedup] without the (pure) comparison *)
  Record sad := MkSad { sd_data : list T; sd_sorted : nat; sd_keep : keep }.

  Context (cmp : T -> T -> comparison).

  (** src/dedup.rs:142-153 [sort_and_dedup] *)
  Definition sd_compact (s : sad) : option sad :=
    if sd_sorted s <? length (sd_data s) then
      let slice := sort_by cmp (sd_data s) in
      match dedup_by slice (fun a b => eqb_of cmp a b) (sd_keep s) with
      | None => None
      | Some (slice', unique) =>
          let data := firstn unique slice' in
          Some (MkSad data (length data) (sd_keep s))
      end
    else Some s.

  (** src/dedup.rs:155-159 [into_inner] *)
  Definition sd_into_inner (s : sad) : option (list T) :=
    match sd_compact s with Some s' => Some (sd_data s') | None => None end.

  (** src/dedup.rs:162-189: the first half of [push], before the compaction check.
      [last_mut] is the last element. *)
  Definition sd_push_raw (s : sad) (x : T) : sad :=
    if sd_sorted s =? length (sd_data s) then
      match rev (sd_data s) with
      | last :: front_rev =>
          match cmp last x with
          | Lt => MkSad (sd_data s ++ [x]) (sd_sorted s + 1) (sd_keep s)
          | Eq => match sd_keep s with
                  | KeepLast => MkSad (rev front_rev ++ [x]) (sd_sorted s) (sd_keep s)
                  | KeepFirst => s
                  end
          | Gt => MkSad (sd_data s ++ [x]) (sd_sorted s) (sd_keep s)
          end
      | [] => MkSad (sd_data s ++ [x]) (sd_sorted s + 1) (sd_keep s)
      end
    else MkSad (sd_data s ++ [x]) (sd_sorted s) (sd_keep s).

  (** src/dedup.rs:161-200 [push] *)
  Definition sd_push (s : sad) (x : T) : option sad :=
    let s1 := sd_push_raw s x in
    if 16 <=? length (sd_data s1) then
      let sorted := sd_sorted s1 in
      let unsorted := length (sd_data s1) - sorted in
      if sorted <? unsorted then sd_compact s1 else Some s1
    else Some s1.

  (** the [for x in iter { agg.push(x) }] loop, src/dedup.rs:119-121 *)
  Fixpoint sd_push_all (s : sad) (l : list T) : option sad :=
    match l with
    | [] => Some s
    | x :: l' => match sd_push s x with Some s' => sd_push_all s' l' | None => None end
    end.

  (** src/dedup.rs:112-118: the initial aggregator *)
  Definition sd_init (kp : keep) : sad := MkSad [] 0 kp.

  (** src/dedup.rs:108-123 [sort_dedup_by]; the iterator is the list of its items.
      [sort_dedup] (97-102) is this with [cmp] the element order. *)
  Definition sort_dedup_by (l : list T) (kp : keep) : option (list T) :=
    match sd_push_all (sd_init kp) l with
    | Some s => sd_into_inner s
    | None => None
    end.
End Dedup.

(** src/dedup.rs:129-135 [sort_dedup_by_key] *)
Definition sort_dedup_by_key {T K} (kcmp : K -> K -> comparison) (key : T -> K) (l : list T) (kp : keep)
  : option (list T) :=
  sort_dedup_by (fun a b => kcmp (key a) (key b)) l kp.
