(** Model of IterKey of /repo/src/radix_tree/mod.rs:785-826 inside Iter 885-943: the key under construction is a
    reference-counted buffer (Arc<Vec<K>>) that the iterator shares with every key it has handed out and that is still kept.

    An operation is [None] when it would touch a freed buffer. Counts are unbounded. *)
From Verif Require Export RadixSpec.

Section Keys.
  Context {K V : Type}.
  Notation tree := (rtree K V).

  (** strong count and contents of every live buffer; an address is never reused *)
  Record kheap := MkKH { k_next : nat; k_cell : nat -> option (nat * list K) }.
  Definition k_upd (h : kheap) (a : nat) (c : option (nat * list K)) : kheap :=
    MkKH (k_next h) (fun b => if b =? a then c else k_cell h b).
  (** IterKey::new mod.rs:792-794 *)
  Definition k_new (h : kheap) (d : list K) : kheap * nat :=
    (MkKH (S (k_next h)) (fun b => if b =? k_next h then Some (1, d) else k_cell h b), k_next h).
  (** derive(Clone) mod.rs:788 *)
  Definition k_clone (h : kheap) (a : nat) : option kheap :=
    match k_cell h a with Some (rc, d) => Some (k_upd h a (Some (S rc, d))) | None => None end.
  (** drop *)
  Definition k_drop (h : kheap) (a : nat) : option kheap :=
    match k_cell h a with
    | Some (1, _) => Some (k_upd h a None)
    | Some (S (S r), d) => Some (k_upd h a (Some (S r, d)))
    | _ => None
    end.
  (** std Arc::make_mut (mod.rs:800, 806): the address to write to *)
  Definition k_mut (h : kheap) (a : nat) : option (kheap * nat) :=
    match k_cell h a with
    | Some (1, _) => Some (h, a)
    | Some (S (S r), d) => Some (k_new (k_upd h a (Some (S r, d))) d)
    | _ => None
    end.
  (** IterKey::append mod.rs:796-802, pop 804-807: [f] is what they do to the elements *)
  Definition k_change (f : list K -> list K) (h : kheap) (a : nat) : option (kheap * nat) :=
    match k_mut h a with
    | Some (h1, a1) =>
        match k_cell h1 a1 with
        | Some (rc, d) => Some (k_upd h1 a1 (Some (rc, f d)), a1)
        | None => None
        end
    | None => None
    end.
  Definition k_append (d : list K) := k_change (fun p => key_append p d).
  Definition k_pop (n : nat) := k_change (fun p => key_pop p n).

  (** an iterator (or none, once dropped), and the keys the caller keeps, in slots *)
  Record kstate := MkK { ks_heap : kheap; ks_iter : option (nat * list (tree * nat)); ks_kept : list (option nat) }.
  (** what the caller can do: let the iterator do one round of the loop of next (a superset of calling next), clone a
      kept key into a new slot, drop a kept key, drop the iterator *)
  Inductive kop := KRound | KClone (i : nat) | KDrop (i : nat) | KStop.

  (** one round of Iter::next mod.rs:924-941 *)
  Definition k_round (h : kheap) (a : nat) (st : list (tree * nat)) (kept : list (option nat)) : option kstate :=
    match st with
    | [] => Some (MkK h (Some (a, [])) kept)
    | (t, pos) :: s' =>
        match pos with
        | 0 => match t_value t with
               | Some _ => match k_clone h a with
                           | Some h1 => Some (MkK h1 (Some (a, (t, 1) :: s')) (kept ++ [Some a]))
                           | None => None
                           end
               | None => Some (MkK h (Some (a, (t, 1) :: s')) kept)
               end
        | S i =>
            match nth_error (t_children t) i with
            | Some c => match k_append (t_prefix c) h a with
                        | Some (h1, a1) => Some (MkK h1 (Some (a1, (c, 0) :: (t, S pos) :: s')) kept)
                        | None => None
                        end
            | None => match k_pop (length (t_prefix t)) h a with
                      | Some (h1, a1) => Some (MkK h1 (Some (a1, s')) kept)
                      | None => None
                      end
            end
        end
    end.
  Definition k_set {X} (i : nat) (x : X) (l : list X) : list X := firstn i l ++ x :: skipn (S i) l.
  Definition k_step (o : kop) (s : kstate) : option kstate :=
    match o with
    | KRound => match ks_iter s with Some (a, st) => k_round (ks_heap s) a st (ks_kept s) | None => None end
    | KClone i =>
        match nth_error (ks_kept s) i with
        | Some (Some a) => match k_clone (ks_heap s) a with Some h => Some (MkK h (ks_iter s) (ks_kept s ++ [Some a])) | None => None end
        | _ => None
        end
    | KDrop i =>
        match nth_error (ks_kept s) i with
        | Some (Some a) => match k_drop (ks_heap s) a with Some h => Some (MkK h (ks_iter s) (k_set i None (ks_kept s))) | None => None end
        | _ => None
        end
    | KStop =>
        match ks_iter s with
        | Some (a, _) => match k_drop (ks_heap s) a with Some h => Some (MkK h None (ks_kept s)) | None => None end
        | None => None
        end
    end.
  Fixpoint k_run (os : list kop) (s : kstate) : option kstate :=
    match os with
    | [] => Some s
    | o :: os' => match k_step o s with Some s' => k_run os' s' | None => None end
    end.
  (** iter() mod.rs:588-593 and scan_prefix 682-696 *)
  Definition k_init (t : tree) (path : list K) : kstate :=
    let (h, a) := k_new (MkKH 0 (fun _ => None)) path in MkK h (Some (a, [(t, 0)])) [].
End Keys.
Arguments kheap : clear implicits.
Arguments kstate : clear implicits.

(** Value semantics: keys are plain lists, every kept key is a separate copy. *)
Section KeySpec.
  Context {K V : Type}.
  Notation tree := (rtree K V).
  Record vkeys := MkVK { vk_iter : option (list K * list (tree * nat)); vk_kept : list (option (list K)) }.
  Definition vk_step (o : kop) (s : vkeys) : option vkeys :=
    match o with
    | KRound =>
        match vk_iter s with
        | Some it =>
            match iter_step it with
            | IYield k _ it' => Some (MkVK (Some it') (vk_kept s ++ [Some k]))
            | ITau it' => Some (MkVK (Some it') (vk_kept s))
            | IEnd => Some s
            end
        | None => None
        end
    | KClone i => match nth_error (vk_kept s) i with Some (Some k) => Some (MkVK (vk_iter s) (vk_kept s ++ [Some k])) | _ => None end
    | KDrop i => match nth_error (vk_kept s) i with Some (Some _) => Some (MkVK (vk_iter s) (k_set i None (vk_kept s))) | _ => None end
    | KStop => match vk_iter s with Some _ => Some (MkVK None (vk_kept s)) | None => None end
    end.
  Fixpoint vk_run (os : list kop) (s : vkeys) : option vkeys :=
    match os with
    | [] => Some s
    | o :: os' => match vk_step o s with Some s' => vk_run os' s' | None => None end
    end.
  (** the kept key in slot i reads k *)
  Definition reads_key (s : kstate K V) (i : nat) (k : list K) : Prop :=
    exists a rc, nth_error (ks_kept s) i = Some (Some a) /\ k_cell (ks_heap s) a = Some (rc, k).
End KeySpec.
