(** Properties C134 and C135: vector sets and maps (and the total ones) use elements and keys only through
    their order and never look at values. The comparison functions need not be orders. *)
From Verif Require Import RadixRename TotalModel VecRename.

(** ** C134 *)
(** [f] renames elements; the comparison of renamed elements is that of the elements. *)
Theorem C134_set_operations : forall (T T' : Type) (cmp : T -> T -> comparison) (cmp' : T' -> T' -> comparison) (f : T -> T')
    (strat : nat -> nat -> bool), (forall x y, cmp' (f x) (f y) = cmp x y) ->
  (forall a b, vset_union cmp' strat (map f a) (map f b) = rmap (map f) (vset_union cmp strat a b)) /\
  (forall a b, vset_intersection cmp' strat (map f a) (map f b) = rmap (map f) (vset_intersection cmp strat a b)) /\
  (forall a b, vset_difference cmp' strat (map f a) (map f b) = rmap (map f) (vset_difference cmp strat a b)) /\
  (forall a b, vset_symmetric_difference cmp' strat (map f a) (map f b) = rmap (map f) (vset_symmetric_difference cmp strat a b)) /\
  (forall a b, vset_is_subset cmp' strat (map f a) (map f b) = vset_is_subset cmp strat a b) /\
  (forall a b, vset_is_superset cmp' strat (map f a) (map f b) = vset_is_superset cmp strat a b) /\
  (forall a b, vset_is_disjoint cmp' strat (map f a) (map f b) = vset_is_disjoint cmp strat a b).
Proof.
  intros T T' cmp cmp' f strat H. split; [|split; [|split; [|split; [|split; [|split]]]]]; intros a b.
  - now apply vset_union_map.
  - now apply vset_intersection_map.
  - now apply vset_difference_map.
  - now apply vset_symmetric_difference_map.
  - now apply vset_is_subset_map.
  - now apply vset_is_superset_map.
  - now apply vset_is_disjoint_map.
Qed.
Print Assumptions C134_set_operations.

(** in place, the right operand by value (what is kept and what is dropped) or by reference; also when the
    call panics *)
Theorem C134_in_place : forall (T T' : Type) (cmp : T -> T -> comparison) (cmp' : T' -> T' -> comparison) (f : T -> T')
    (strat : nat -> nat -> bool), (forall x y, cmp' (f x) (f y) = cmp x y) ->
  let kept_and_dropped := fun r : list T * list T * list T => let '(x, da, db) := r in (map f x, map f da, map f db) in
  (forall a b, vset_bitand_assign_full cmp' strat (map f a) (map f b) = done_map kept_and_dropped (vset_bitand_assign_full cmp strat a b)) /\
  (forall a b, vset_bitor_assign_full cmp' strat (map f a) (map f b) = done_map kept_and_dropped (vset_bitor_assign_full cmp strat a b)) /\
  (forall a b, vset_bitxor_assign_full cmp' strat (map f a) (map f b) = done_map kept_and_dropped (vset_bitxor_assign_full cmp strat a b)) /\
  (forall a b, vset_sub_assign_full cmp' strat (map f a) (map f b) = done_map kept_and_dropped (vset_sub_assign_full cmp strat a b)) /\
  (forall a b, vset_bitand_assign_ref cmp' strat (map f a) (map f b) = done_map (map f) (vset_bitand_assign_ref cmp strat a b)) /\
  (forall a b, vset_bitor_assign_ref cmp' strat (map f a) (map f b) = done_map (map f) (vset_bitor_assign_ref cmp strat a b)) /\
  (forall a b, vset_bitxor_assign_ref cmp' strat (map f a) (map f b) = done_map (map f) (vset_bitxor_assign_ref cmp strat a b)) /\
  (forall a b, vset_sub_assign_ref cmp' strat (map f a) (map f b) = done_map (map f) (vset_sub_assign_ref cmp strat a b)) /\
  (forall a b, vset_union_with cmp' strat (map f a) (map f b) = done_map (map f) (vset_union_with cmp strat a b)) /\
  (forall a b, vset_intersection_with cmp' strat (map f a) (map f b) = done_map (map f) (vset_intersection_with cmp strat a b)) /\
  (forall a b, vset_xor_with cmp' strat (map f a) (map f b) = done_map (map f) (vset_xor_with cmp strat a b)) /\
  (forall a b, vset_difference_with cmp' strat (map f a) (map f b) = done_map (map f) (vset_difference_with cmp strat a b)).
Proof.
  intros T T' cmp cmp' f strat H. cbv zeta.
  split; [|split; [|split; [|split; [|split; [|split; [|split; [|split; [|split; [|split; [|split]]]]]]]]]]; intros a b.
  - now apply vset_bitand_assign_full_map.
  - now apply vset_bitor_assign_full_map.
  - now apply vset_bitxor_assign_full_map.
  - now apply vset_sub_assign_full_map.
  - now apply vset_bitand_assign_ref_map.
  - now apply vset_bitor_assign_ref_map.
  - now apply vset_bitxor_assign_ref_map.
  - now apply vset_sub_assign_ref_map.
  - now apply vset_union_with_map.
  - now apply vset_intersection_with_map.
  - now apply vset_xor_with_map.
  - now apply vset_difference_with_map.
Qed.
Print Assumptions C134_in_place.

(** single elements, collecting, comparing, loading; lookups even need as many comparisons *)
Theorem C134_elements : forall (T T' : Type) (cmp : T -> T -> comparison) (cmp' : T' -> T' -> comparison) (f : T -> T')
    (strat : nat -> nat -> bool), (forall x y, cmp' (f x) (f y) = cmp x y) ->
  (forall l x, vset_contains cmp' (map f l) (f x) = vset_contains cmp l x) /\
  (forall l x, vset_contains_count cmp' (map f l) (f x) = vset_contains_count cmp l x) /\
  (forall l x, vset_insert cmp' (map f l) (f x) = rmap (fun r => (map f (fst r), snd r)) (vset_insert cmp l x)) /\
  (forall l x, vset_remove cmp' (map f l) (f x) = rmap (fun r => (map f (fst r), snd r)) (vset_remove cmp l x)) /\
  (forall l p p', (forall x, p' (f x) = p x) -> vset_retain (map f l) p' = map f (vset_retain l p)) /\
  (forall v, vset_from_vec cmp' (map f v) = map f (vset_from_vec cmp v)) /\
  (forall l, vset_from_iter cmp' (map f l) = option_map (map f) (vset_from_iter cmp l)) /\
  (forall xs, vecset_macro cmp' (map f xs) = rmap (map f) (vecset_macro cmp xs)) /\
  (forall l items, vset_extend cmp' strat (map f l) (map f items) = option_map (done_map (map f)) (vset_extend cmp strat l items)) /\
  (forall seq, vset_visit_seq cmp' (map f seq) = map f (vset_visit_seq cmp seq)) /\
  (forall a b, vset_eqb cmp' (map f a) (map f b) = vset_eqb cmp a b) /\
  (forall a b, vset_cmp cmp' (map f a) (map f b) = vset_cmp cmp a b) /\
  (forall valid valid' l, (forall x, valid' (f x) = valid x) -> vset_check_bytes cmp' valid' (map f l) = vset_check_bytes cmp valid l).
Proof.
  intros T T' cmp cmp' f strat H.
  split; [|split; [|split; [|split; [|split; [|split; [|split; [|split; [|split; [|split; [|split; [|split]]]]]]]]]]].
  - intros l x. now apply vset_contains_map.
  - intros l x. now apply vset_contains_count_map.
  - intros l x. now apply vset_insert_map.
  - intros l x. now apply vset_remove_map.
  - intros l p p' Hp. now apply filter_nat.
  - intros v. now apply vset_from_vec_map.
  - intros l. now apply vset_from_iter_map.
  - intros xs. exact (vset_insert_all_map cmp cmp' f H xs []).
  - intros l items. now apply vset_extend_map.
  - intros v. exact (vset_from_vec_map cmp cmp' f H v).
  - intros a b. now apply vset_eqb_map.
  - intros a b. now apply vset_cmp_map.
  - intros valid valid' l Hv. now apply vset_check_bytes_map.
Qed.
Print Assumptions C134_elements.

Theorem C134_total_sets : forall (T T' : Type) (cmp : T -> T -> comparison) (cmp' : T' -> T' -> comparison) (f : T -> T')
    (strat : nat -> nat -> bool), (forall x y, cmp' (f x) (f y) = cmp x y) ->
  let ren := fun s : tset T => TSet (map f (ts_elements s)) (ts_negated s) in
  (forall s x, tset_contains cmp' (ren s) (f x) = tset_contains cmp s x) /\
  (forall s x, tset_insert cmp' (ren s) (f x) = rmap ren (tset_insert cmp s x)) /\
  (forall s x, tset_remove cmp' (ren s) (f x) = rmap ren (tset_remove cmp s x)) /\
  (forall a b, tset_and cmp' strat (ren a) (ren b) = rmap ren (tset_and cmp strat a b)) /\
  (forall a b, tset_or cmp' strat (ren a) (ren b) = rmap ren (tset_or cmp strat a b)) /\
  (forall a b, tset_xor cmp' strat (ren a) (ren b) = rmap ren (tset_xor cmp strat a b)) /\
  (forall a b, tset_sub cmp' strat (ren a) (ren b) = rmap ren (tset_sub cmp strat a b)) /\
  (forall a b, tset_and_assign cmp' strat (ren a) (ren b) = done_map ren (tset_and_assign cmp strat a b)) /\
  (forall a b, tset_or_assign cmp' strat (ren a) (ren b) = done_map ren (tset_or_assign cmp strat a b)) /\
  (forall a b, tset_xor_assign cmp' strat (ren a) (ren b) = done_map ren (tset_xor_assign cmp strat a b)) /\
  (forall a b, tset_sub_assign cmp' strat (ren a) (ren b) = done_map ren (tset_sub_assign cmp strat a b)) /\
  (forall a b, tset_is_subset cmp' strat (ren a) (ren b) = tset_is_subset cmp strat a b) /\
  (forall a b, tset_is_superset cmp' strat (ren a) (ren b) = tset_is_superset cmp strat a b) /\
  (forall a b, tset_is_disjoint cmp' strat (ren a) (ren b) = tset_is_disjoint cmp strat a b) /\
  (forall a b, tset_eqb cmp' (ren a) (ren b) = tset_eqb cmp a b).
Proof.
  intros T T' cmp cmp' f strat H. cbv zeta.
  split; [|split; [|split; [|split; [|split; [|split; [|split; [|split; [|split; [|split; [|split; [|split; [|split; [|split]]]]]]]]]]]]].
  - now apply tset_contains_map.
  - now apply tset_insert_map.
  - now apply tset_remove_map.
  - now apply tset_and_map.
  - now apply tset_or_map.
  - now apply tset_xor_map.
  - now apply tset_sub_map.
  - now apply tset_and_assign_map.
  - now apply tset_or_assign_map.
  - now apply tset_xor_assign_map.
  - now apply tset_sub_assign_map.
  - now apply tset_is_subset_map.
  - now apply tset_is_superset_map.
  - now apply tset_is_disjoint_map.
  - now apply tset_eqb_map.
Qed.
Print Assumptions C134_total_sets.

(** ** C135 *)
(** [q] renames keys and keeps their order, [g], [h], [r] rename the values of the left operand, the right
    operand and the result. Closures may have effects on an environment and may panic: [follows he x y f f']
    (VecRename.v) says that on arguments renamed by [x] in the environment renamed by [he] the closure [f'] does
    what [f] does, renamed by [he] and [y]. A join returns (or leaves in self) the renamed entries and the renamed
    environment, and panics exactly when the original does. *)
Theorem C135_joins : forall (K K' V V' W W' R R' E E' : Type) (cmp : K -> K -> comparison) (cmp' : K' -> K' -> comparison)
    (q : K -> K') (g : V -> V') (h : W -> W') (r : R -> R') (he : E -> E') (strat : nat -> nat -> bool),
  (forall x y, cmp' (q x) (q y) = cmp x y) ->
  let ma := map (entry_map q g) in let mb := map (entry_map q h) in
  let result := done_map (fun x : list (K * R) * E => (map (entry_map q r) (fst x), he (snd x))) in
  (forall f f', follows he (ojarg_map q g h) (option_map r) f f' ->
     forall a b e, vmap_outer_join cmp' strat f' (ma a) (mb b) (he e) = result (vmap_outer_join cmp strat f a b e)) /\
  (forall f f', follows he (larg_map q g h) (option_map r) f f' ->
     forall a b e, vmap_left_join cmp' strat f' (ma a) (mb b) (he e) = result (vmap_left_join cmp strat f a b e)) /\
  (forall f f', follows he (rarg_map q g h) (option_map r) f f' ->
     forall a b e, vmap_right_join cmp' strat f' (ma a) (mb b) (he e) = result (vmap_right_join cmp strat f a b e)) /\
  (forall f f', follows he (iarg_map q g h) (option_map r) f f' ->
     forall a b e, vmap_inner_join cmp' strat f' (ma a) (mb b) (he e) = result (vmap_inner_join cmp strat f a b e)).
Proof.
  intros * H. cbv zeta. split; [|split; [|split]]; intros f f' F a b e.
  - now apply vmap_outer_join_map.
  - now apply vmap_left_join_map.
  - now apply vmap_right_join_map.
  - now apply vmap_inner_join_map.
Qed.
Print Assumptions C135_joins.

Theorem C135_joins_in_place : forall (K K' V V' W W' E E' : Type) (cmp : K -> K -> comparison) (cmp' : K' -> K' -> comparison)
    (q : K -> K') (g : V -> V') (h : W -> W') (he : E -> E') (strat : nat -> nat -> bool),
  (forall x y, cmp' (q x) (q y) = cmp x y) ->
  let ma := map (entry_map q g) in let mb := map (entry_map q h) in
  let result := done_map (fun x : list (K * V) * E => (ma (fst x), he (snd x))) in
  (forall f f', follows he (ojarg_map q g h) (option_map g) f f' ->
     forall a b e, vmap_outer_join_with cmp' strat f' (ma a) (mb b) (he e) = result (vmap_outer_join_with cmp strat f a b e)) /\
  (forall f f', follows he (larg_map q g h) (option_map g) f f' ->
     forall a b e, vmap_left_join_with cmp' strat f' (ma a) (mb b) (he e) = result (vmap_left_join_with cmp strat f a b e)) /\
  (forall f f', follows he (rarg_map q g h) (option_map g) f f' ->
     forall a b e, vmap_right_join_with cmp' strat f' (ma a) (mb b) (he e) = result (vmap_right_join_with cmp strat f a b e)) /\
  (forall f f', follows he (iarg_map q g h) (option_map g) f f' ->
     forall a b e, vmap_inner_join_with cmp' strat f' (ma a) (mb b) (he e) = result (vmap_inner_join_with cmp strat f a b e)) /\
  (forall f f', follows he (fun p => (g (fst p), g (snd p))) g f f' ->
     forall a b e, vmap_combine_with cmp' strat f' (ma a) (ma b) (he e) = result (vmap_combine_with cmp strat f a b e)) /\
  (forall a b e, vmap_merge_with cmp' strat (ma a) (ma b) (he e) = result (vmap_merge_with cmp strat a b e)) /\
  (forall m items e, vmap_extend cmp' strat (ma m) (ma items) (he e) = option_map result (vmap_extend cmp strat m items e)).
Proof.
  intros * H. cbv zeta. split; [|split; [|split; [|split; [|split; [|split]]]]].
  - intros f f' F a b e. now apply vmap_outer_join_with_map.
  - intros f f' F a b e. now apply vmap_left_join_with_map.
  - intros f f' F a b e. now apply vmap_right_join_with_map.
  - intros f f' F a b e. now apply vmap_inner_join_with_map.
  - intros f f' F a b e. now apply vmap_combine_with_map.
  - intros a b e. now apply vmap_merge_with_map.
  - intros m items e. now apply vmap_extend_map.
Qed.
Print Assumptions C135_joins_in_place.

Theorem C135_entries : forall (K K' V V' : Type) (cmp : K -> K -> comparison) (cmp' : K' -> K' -> comparison)
    (q : K -> K') (g : V -> V'), (forall x y, cmp' (q x) (q y) = cmp x y) ->
  let ren := map (entry_map q g) in
  (forall m k, vmap_get cmp' (ren m) (q k) = option_map g (vmap_get cmp m k)) /\
  (forall m k, vmap_get_count cmp' (ren m) (q k) = vmap_get_count cmp m k) /\
  (forall m k w w', (forall v, w' (g v) = g (w v)) ->
     vmap_get_mut cmp' (ren m) (q k) w' = (ren (fst (vmap_get_mut cmp m k w)), snd (vmap_get_mut cmp m k w))) /\
  (forall m k v, vmap_insert cmp' (ren m) (q k) (g v) = rmap (fun r => (ren (fst r), option_map g (snd r))) (vmap_insert cmp m k v)) /\
  (forall m p p', (forall k v, p' (q k, g v) = p (k, v)) -> vmap_retain (ren m) p' = ren (vmap_retain m p)) /\
  (forall l, vmap_from_iter cmp' (ren l) = option_map ren (vmap_from_iter cmp l)) /\
  (forall ps, vecmap_macro cmp' (ren ps) = rmap ren (vecmap_macro cmp ps)) /\
  (forall l, vmap_visit_map cmp' (ren l) = ren (vmap_visit_map cmp l)) /\
  (forall m, vmap_check_order cmp' (ren m) = vmap_check_order cmp m) /\
  (forall veqb veqb', (forall x y, veqb' (g x) (g y) = veqb x y) ->
     forall a b, vmap_eqb cmp' veqb' (ren a) (ren b) = vmap_eqb cmp veqb a b) /\
  (forall vcmp vcmp', (forall x y, vcmp' (g x) (g y) = vcmp x y) ->
     forall a b, vmap_cmp cmp' vcmp' (ren a) (ren b) = vmap_cmp cmp vcmp a b).
Proof.
  intros * H. cbv zeta. split; [|split; [|split; [|split; [|split; [|split; [|split; [|split; [|split; [|split]]]]]]]]].
  - intros m k. now apply vmap_get_map.
  - intros m k. now apply vmap_get_count_map.
  - intros m k w w' Hw. now apply vmap_get_mut_map.
  - intros m k v. now apply vmap_insert_map.
  - intros m p p' Hp. apply vmap_retain_map. intros [k v]. apply Hp.
  - intros l. now apply vmap_from_iter_map.
  - intros ps. exact (vmap_insert_all_map cmp cmp' q H g ps []).
  - intros l. now apply vmap_visit_map_map.
  - intros m. now apply vmap_check_order_map.
  - intros veqb veqb' Hv a b. now apply vmap_eqb_map.
  - intros vcmp vcmp' Hv a b. now apply vmap_cmp_map.
Qed.
Print Assumptions C135_entries.

(** total maps look at values only through ==, the closure and (in the order) Ord *)
Theorem C135_total_maps : forall (K K' V V' W W' E E' : Type) (cmp : K -> K -> comparison) (cmp' : K' -> K' -> comparison)
    (q : K -> K') (g : V -> V') (h : W -> W') (he : E -> E') (strat : nat -> nat -> bool)
    (veqb : V -> V -> bool) (veqb' : V' -> V' -> bool) (weqb : W -> W -> bool) (weqb' : W' -> W' -> bool),
  (forall x y, cmp' (q x) (q y) = cmp x y) -> (forall x y, veqb' (g x) (g y) = veqb x y) ->
  (forall x y, weqb' (h x) (h y) = weqb x y) ->
  let ren := fun m : tmap K V => TMap (map (entry_map q g) (tm_map m)) (g (tm_default m)) in
  let renw := fun m : tmap K W => TMap (map (entry_map q h) (tm_map m)) (h (tm_default m)) in
  (forall m d, tmap_new veqb' (map (entry_map q g) m) (g d) = ren (tmap_new veqb m d)) /\
  (forall m k, tmap_index cmp' (ren m) (q k) = g (tmap_index cmp m k)) /\
  (forall f f', follows he (fun p => (g (fst p), g (snd p))) g f f' -> forall a b e,
     tmap_combine_ref cmp' strat veqb' f' (ren a) (ren b) (he e) =
     option_map (fun r => (he (fst r), cres_map ren (snd r))) (tmap_combine_ref cmp strat veqb f a b e)) /\
  (forall f f', follows he g h f f' -> forall m e,
     tmap_map_values weqb' f' (ren m) (he e) =
     (he (fst (tmap_map_values weqb f m e)), cres_map renw (snd (tmap_map_values weqb f m e)))) /\
  (forall a b, tmap_eqb cmp' veqb' (ren a) (ren b) = tmap_eqb cmp veqb a b) /\
  (forall vcmp vcmp', (forall x y, vcmp' (g x) (g y) = vcmp x y) ->
     forall a b, tmap_cmp cmp' vcmp' (ren a) (ren b) = tmap_cmp cmp vcmp a b).
Proof.
  intros * H Hv Hw. cbv zeta. split; [|split; [|split; [|split; [|split]]]].
  - intros m d. exact (tmap_new_map q g veqb veqb' Hv m d).
  - intros m k. exact (tmap_index_map cmp cmp' q H g m k).
  - intros f f' F a b e. exact (tmap_combine_ref_map cmp cmp' q H strat g veqb veqb' Hv he f f' F a b e).
  - intros f f' F m e. exact (tmap_map_values_map q g h he weqb weqb' f f' Hw F m e).
  - intros a b. exact (tmap_eqb_map cmp cmp' q H g veqb veqb' Hv a b).
  - intros vcmp vcmp' Hc a b. exact (tmap_cmp_map cmp cmp' q H g vcmp vcmp' Hc a b).
Qed.
Print Assumptions C135_total_maps.

(** Words and their lengths: a set of words ordered by length becomes a set of numbers; a join whose closure
    records the keys it is called with and panics at length 3. *)
Definition by_length (a b : list nat) : comparison := Nat.compare (length a) (length b).
Definition tick (e : list (list nat)) (x : ojarg (list nat) nat nat) : list (list nat) * cres (option nat) :=
  match x with
  | OJLeft k v => (e ++ [k], Ret (Some v))
  | OJRight k v => (e ++ [k], if length k =? 3 then Throw else Ret (Some v))
  | OJBoth k v w => (e ++ [k], Ret (Some (v + w)))
  end.
Definition tick' (e : list nat) (x : ojarg nat nat nat) : list nat * cres (option nat) :=
  match x with
  | OJLeft k v => (e ++ [k], Ret (Some v))
  | OJRight k v => (e ++ [k], if k =? 3 then Throw else Ret (Some v))
  | OJBoth k v w => (e ++ [k], Ret (Some (v + w)))
  end.
Definition never (_ _ : nat) := false.
Example C134_witness :
  (forall x y, Nat.compare (length x) (length y) = by_length x y) /\
  vset_union by_length never [[5]; [1; 2]] [[0]; [7; 7; 7]] = Ok [[5]; [1; 2]; [7; 7; 7]] /\
  vset_union Nat.compare never [1; 2] [1; 3] = Ok [1; 2; 3].
Proof. split; [reflexivity|]. vm_compute. split; reflexivity. Qed.
Example C135_witness :
  follows (map (@length nat)) (ojarg_map (@length nat) id id) (option_map id) tick tick' /\
  vmap_outer_join by_length never tick [([5], 10)] [([0], 1); ([7; 7], 2)] [] =
    Done ([([5], 11); ([7; 7], 2)], [[5]; [7; 7]]) /\
  vmap_outer_join Nat.compare never tick' [(1, 10)] [(1, 1); (2, 2)] [] = Done ([(1, 11); (2, 2)], [1; 2]) /\
  (exists r, vmap_outer_join by_length never tick [([5], 10)] [([0], 1); ([7; 7; 7], 2)] [] = Unwound (r, [[5]; [7; 7; 7]])) /\
  (exists r, vmap_outer_join Nat.compare never tick' [(1, 10)] [(1, 1); (3, 2)] [] = Unwound (r, [1; 3])).
Proof.
  split; [|vm_compute; eauto 10].
  intros e [k v|k v|k v w]; unfold tick, tick'; cbn [ojarg_map fst snd cres_map id option_map]; rewrite map_app; try reflexivity.
  now destruct (length k =? 3).
Qed.
