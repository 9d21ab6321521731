(** The radix tree lookups once more, counting how often two key components are compared (== in
    common_prefix, cmp in the binary search over the children). *)
From Verif Require Export RadixModel.

Section Count.
  Context {K V : Type} (kcmp : K -> K -> comparison).
  Notation tree := (rtree K V).

  (** common_prefix src/radix_tree/mod.rs:53-55: zip stops at the end of the shorter list,
      take_while stops after the first pair that differs. The result and the number of ==. *)
  Fixpoint common_prefix_count (a b : list K) : nat * nat :=
    match a, b with
    | x :: a', y :: b' =>
        if keqb kcmp x y then let (n, c) := common_prefix_count a' b' in (S n, S c) else (0, 1)
    | _, _ => (0, 0)
    end.

  (** find src/radix_tree/mod.rs:724-760, as [find_loop] *)
  Fixpoint find_count_loop (fuel : nat) (t : tree) (key : list K) : res find_result * nat :=
    match fuel with
    | 0 => (OutOfFuel, 0)
    | S fuel' =>
        let (n, c) := common_prefix_count (t_prefix t) key in
        let rp := length key - n in
        let rt := length (t_prefix t) - n in
        if (rp =? 0) && (rt =? 0) then (Ok (Found t), c)
        else if rp =? 0 then (Ok (FPrefix t rt), c)
        else if rt =? 0 then
          match nth_error key n with
          | None => (Panicked, c)
          | Some x =>
              let (b, c') := bs_count (fun e => match t_prefix e with h :: _ => Some (kcmp h x) | [] => None end)
                                      (t_children t) in
              match b with
              | BsOk i => match nth_error (t_children t) i with
                          | Some child =>
                              let (r, c'') := find_count_loop fuel' child (skipn n key) in (r, c + c' + c'')
                          | None => (Panicked, c + c')
                          end
              | BsErr _ => (Ok (NotFound t rt rp), c + c')
              | BsPanic => (Panicked, c + c')
              | BsNoFuel => (OutOfFuel, c + c')
              end
          end
        else (Ok (NotFound t rt rp), c)
    end.
  Definition find_count (t : tree) (key : list K) : res find_result * nat := find_count_loop (S (t_size t)) t key.

  (** contains_key src/radix_tree/mod.rs:609-616 *)
  Definition contains_key_count (t : tree) (key : list K) : res bool * nat :=
    let (r, c) := find_count t key in
    (rbind r (fun r => Ok (match r with
       | Found t' => match t_value t' with Some _ => true | None => false end
       | _ => false end)), c).
  (** get src/radix_tree/mod.rs:619-626 *)
  Definition get_count (t : tree) (key : list K) : res (option V) * nat :=
    let (r, c) := find_count t key in
    (rbind r (fun r => Ok (match r with Found t' => t_value t' | _ => None end)), c).
  (** filter_prefix src/radix_tree/mod.rs:269-285; clone and prepend compare nothing *)
  Definition filter_prefix_count (t : tree) (prefix : list K) : res tree * nat :=
    let (r, c) := find_count t prefix in
    (rbind r (fun r =>
        match r with
        | Found (Node _ v c) => Ok (Node prefix v c)
        | FPrefix (Node p v c) rt =>
            if rt <=? length p then Ok (rt_prepend (Node (skipn (length p - rt) p) v c) prefix)
            else Panicked
        | NotFound _ _ _ => Ok rt_empty
        end), c).
  (** scan_prefix src/radix_tree/mod.rs:682-696, run to its end; the iterator (mod.rs:900-942)
      compares nothing *)
  Definition scan_prefix_count (t : tree) (prefix : list K) : res (list (list K * V)) * nat :=
    let (r, c) := find_count t prefix in
    (rbind r (fun r =>
        match r with
        | Found t' => iter_from t' prefix
        | FPrefix t' rt =>
            if rt <=? length (t_prefix t')
            then iter_from t' (key_append prefix (skipn (length (t_prefix t') - rt) (t_prefix t')))
            else Panicked
        | NotFound _ _ _ => iter_collect 1 1 ([], [])
        end), c).
End Count.
