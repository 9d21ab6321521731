(** Properties C19 (map part), C21-C32, C33 (map part), C64 (map part), C65: VecMap.
    Vocabulary (Spec.v): [keys_sorted] (strictly increasing keys), [entry k m] (the entry of [m]
    whose key equals k), [lookup k m] (its value), [lookup_last k l] (the value of the last pair of
    [l] with key k). [serve] and [served] (VecMapSpec.v) run a closure over a list of arguments.
    [strat] is an arbitrary choice of merge algorithm at every step. *)
From Verif Require Import VecMapHist.

Definition alt (n m : nat) : bool := n <=? m.
Definition ma : list (nat * nat) := [(1,10);(3,30);(4,40);(7,70)].
Definition mb : list (nat * nat) := [(0,5);(3,6);(7,8);(9,9)].
Lemma ma_ok : keys_sorted Nat.compare ma.
Proof. now apply sortedb_ok. Qed.
Lemma mb_ok : keys_sorted Nat.compare mb.
Proof. now apply sortedb_ok. Qed.

(** ** C19 (map part) *)
Theorem C19_get_logarithmic :
  forall (K V : Type) (kcmp : K -> K -> comparison) (m : list (K * V)) (k : K),
    vmap_get_count kcmp m k <= match length m with 0 => 0 | n => Nat.log2 n + 1 end.
Proof. intros K V kcmp m k. exact (bs_count_bound (kprobe kcmp k) m). Qed.
Print Assumptions C19_get_logarithmic.

(** ** C21: strictly ordered by key after any history *)
(** Closures are arbitrary: they have an environment of any type [E] and may panic at any call;
    the program catches the panic and goes on with whatever is left. *)
Theorem C21_history_strictly_ordered :
  forall (K V E : Type) (kcmp : K -> K -> comparison) (strat : nat -> nat -> bool) (e : E)
    (cs : list (mcmd (V := V) kcmp (clos E))),
    OrdLaws kcmp ->
    exists st e' outs, mrun kcmp strat (fun _ _ f => f) (minit, e) cs = Some ((st, e'), outs) /\
      forall v, keys_sorted kcmp (st v).
Proof. intros K V E kcmp strat e cs L. exact (mrun_sorted L strat _ cs minit e minit_sorted). Qed.
Print Assumptions C21_history_strictly_ordered.
(** a closure that panics at its third call *)
Definition third_panics {X Y} (g : X -> Y) : clos nat X Y :=
  fun n x => (S n, if n =? 2 then Throw else Ret (g x)).
Definition demo_m : list (mcmd (V := nat) Nat.compare (clos nat)) :=
  [MCollect 0 [(3,1);(1,1);(3,2)]; MMacro 1 [(4,4);(1,7);(2,2)];
   MJoinWith (JOuter (third_panics (fun x => match x with OJLeft _ a => Some a | OJRight _ b => Some b
                                             | OJBoth _ a b => Some (a + b) end))) 0 1;
   MInsert 0 9 9; MGetMut 0 2 S].
Example C21_witness :
  exists st e outs, mrun Nat.compare alt (fun _ _ f => f) (minit, 0) demo_m = Some ((st, e), outs) /\
    st 0 = [(1,8);(2,3);(9,9)] /\ st 1 = [(1,7);(2,2);(4,4)] /\
    outs = [MUnit; MUnit; MCaughtPanic; MVal None; MBool true].
Proof. do 3 eexists. vm_compute. repeat split. Qed.

(** ** C22: refinement of a finite map *)
(** The abstract machine [amrun] runs the same program on functions from keys to stored entries.
    Both produce the same outputs; every later [get] agrees; iteration yields exactly the entries
    of the abstract map. *)
Theorem C22_refines_map :
  forall (K V : Type) (kcmp : K -> K -> comparison) (strat : nat -> nat -> bool)
    (cs : list (mcmd (V := V) kcmp fn)),
    OrdLaws kcmp ->
    exists st, mrun kcmp strat pure_interp (minit, tt) cs =
        Some ((st, tt), snd (amrun kcmp (fun _ _ => None) cs)) /\
      (forall v k, vmap_get kcmp (st v) k = option_map snd (fst (amrun kcmp (fun _ _ => None) cs) v k)) /\
      (forall v p, In p (st v) <-> fst (amrun kcmp (fun _ _ => None) cs) v (fst p) = Some p).
Proof.
  intros K V kcmp strat cs L.
  destruct (mrun_refines L strat cs minit (fun _ _ => None) minit_sorted) as (st & E & S & A).
  - intros v k. reflexivity.
  - exists st. split; [exact E|]. split.
    + intros v k. rewrite (get_spec L) by apply S. now rewrite lookup_entry, A.
    + intros v p. rewrite <- A. rewrite (entry_iff L) by apply S.
      split; [intros H; split; [assumption|apply (cmp_refl L)]|tauto].
Qed.
Print Assumptions C22_refines_map.
(** the single operations *)
Theorem C22_point_operations :
  forall (K V : Type) (kcmp : K -> K -> comparison) (m : list (K * V)) (k : K) (x : V),
    OrdLaws kcmp -> keys_sorted kcmp m ->
    vmap_get kcmp m k = lookup kcmp k m /\
    (exists m', vmap_insert kcmp m k x = Ok (m', vmap_get kcmp m k) /\ keys_sorted kcmp m' /\
       forall k', entry kcmp k' m' = match kcmp k' k with Eq => Some (k, x) | _ => entry kcmp k' m end) /\
    (forall g : V -> V, exists m' b, vmap_get_mut kcmp m k g = (m', b) /\ keys_sorted kcmp m' /\
       (b = true <-> vmap_get kcmp m k <> None) /\
       forall k', vmap_get kcmp m' k' =
         match kcmp k' k with Eq => option_map g (vmap_get kcmp m k') | _ => vmap_get kcmp m k' end) /\
    (forall f : K * V -> bool, keys_sorted kcmp (vmap_retain m f) /\
       forall p, In p (vmap_retain m f) <-> In p m /\ f p = true) /\
    (forall (R : Type) (g : V -> R), keys_sorted kcmp (vmap_map_values g m) /\
       map fst (vmap_map_values g m) = map fst m /\
       forall k', vmap_get kcmp (vmap_map_values g m) k' = option_map g (vmap_get kcmp m k')).
Proof.
  intros K V kcmp m k x L S. rewrite (get_spec L) by assumption.
  split; [reflexivity|]. split; [|split; [|split]].
  - destruct (minsert_spec L m k x S) as (m' & E & S' & F). exists m'. split; [assumption|].
    split; [assumption|]. intros k'. rewrite F. unfold eqb_of. destruct (kcmp k' k); reflexivity.
  - intros g. destruct (get_mut_spec L m k g S) as (m' & E & S' & F). eexists. eexists. split; [exact E|].
    split; [assumption|]. split.
    + rewrite lookup_entry. destruct (entry kcmp k m); split; cbn; congruence.
    + intros k'. rewrite !(get_spec L) by assumption. rewrite !lookup_entry, F. unfold eqb_of.
      destruct (kcmp k' k) eqn:Q; try reflexivity. rewrite (entry_eq L _ _ m Q).
      destruct (entry kcmp k m); reflexivity.
  - intros f. split; [now apply (retain_spec L)|]. intros p. apply filter_In.
  - intros R g. destruct (map_values_spec (kcmp := kcmp) g m S) as (S' & F). split; [assumption|].
    split; [unfold vmap_map_values; now rewrite map_map|].
    intros k'. rewrite !(get_spec L) by assumption. rewrite !lookup_entry, F.
    destruct (entry kcmp k' m); reflexivity.
Qed.
Print Assumptions C22_point_operations.
(** len and is_empty count the keys *)
Theorem C22_len :
  forall (K V : Type) (kcmp : K -> K -> comparison) (m : list (K * V)) (keys : list K),
    OrdLaws kcmp -> keys_sorted kcmp m -> distinct_list kcmp keys ->
    (forall k, vmap_get kcmp m k <> None <-> mem kcmp k keys) ->
    vmap_len m = length keys /\ (vmap_is_empty m = true <-> keys = []).
Proof.
  intros K V kcmp m keys L S D H.
  assert (Q : length m = length keys).
  { rewrite <- (map_length fst). apply (len_card L); auto. intros k. rewrite <- H.
    rewrite (get_spec L), lookup_entry by assumption.
    destruct (entry kcmp k m) as [p|] eqn:Q.
    - apply entry_Some_In in Q as [Hp E]. split; [discriminate|]. intros _.
      exists (fst p). split; [now apply in_map|assumption].
    - split; [|intros X; now destruct X]. intros (k' & Hk & E). rewrite entry_None in Q.
      apply in_map_iff in Hk as (p & <- & Hp). destruct (Q p Hp E). }
  split; [exact Q|]. destruct m, keys; simpl in *; split; congruence.
Qed.
Print Assumptions C22_len.
Definition demo_p : list (mcmd (V := nat) Nat.compare fn) :=
  [MCollect 0 [(3,1);(1,1);(3,2)]; MMacro 1 [(4,4);(1,7);(2,2)];
   MJoin (JLeft (C := fn) (fun x => match x with (_, a, Some b) => Some (a + b) | (k, a, None) => if k =? 3 then None else Some a end)) 2 1 0;
   MGet 2 1; MExtend 2 [(2,20);(2,21)]; MInsert 2 4 0; MGetMut 0 3 (fun v => v + 100)].
Example C22_witness :
  exists st, mrun Nat.compare alt pure_interp (minit, tt) demo_p =
    Some ((st, tt), [MUnit; MUnit; MUnit; MVal (Some 8); MUnit; MVal (Some 4); MBool true]) /\
    st 2 = [(1,8);(2,21);(4,0)] /\ st 0 = [(1,1);(3,102)].
Proof. eexists. vm_compute. repeat split. Qed.
Example C22_len_witness :
  keys_sorted Nat.compare ma /\ distinct_list Nat.compare [7;1;3;4] /\
  forall k, vmap_get Nat.compare ma k <> None <-> mem Nat.compare k [7;1;3;4].
Proof.
  split; [exact ma_ok|]. split; [repeat constructor; discriminate|]. intros k.
  rewrite (get_spec nat_ord) by exact ma_ok. unfold mem, ma, lookup. cbn [In].
  split.
  - intros H. exists k. split; [|apply Nat.compare_refl].
    do 8 (destruct k as [|k]; [cbn in H; tauto|]). cbn in H. now destruct H.
  - intros (y & Hy & E). apply Nat.compare_eq in E. subst y.
    destruct Hy as [<-|[<-|[<-|[<-|[]]]]]; cbn; discriminate.
Qed.

(** ** C23: collect keeps the last value per key *)
Theorem C23_collect_last_wins :
  forall (K V : Type) (kcmp : K -> K -> comparison) (l : list (K * V)), OrdLaws kcmp ->
    exists r, vmap_from_iter kcmp l = Some r /\ keys_sorted kcmp r /\
      (forall k, vmap_get kcmp r k = lookup_last kcmp k l) /\
      (forall p, In p r <-> last_occ (by_key fst kcmp) p l).
Proof.
  intros K V kcmp l L. destruct (sort_dedup_by_spec (by_key_ord fst kcmp L) l KeepLast) as (r & E & D).
  exists r. destruct (is_dedup_entry (kcmp := kcmp) KeepLast l r D) as (S & F).
  split; [exact E|]. split; [assumption|]. split.
  - intros k. rewrite (get_spec L) by assumption. rewrite lookup_entry, F.
    clear. induction l as [|[k' v] l IH]; [reflexivity|]. cbn [rev lookup_last].
    rewrite entry_app. rewrite <- IH. destruct (entry kcmp k (rev l)); cbn; [reflexivity|].
    unfold eqb_of. destruct (kcmp k k'); reflexivity.
  - intros p. exact (is_dedup_In (by_key_ord fst kcmp L) KeepLast l r p D).
Qed.
Print Assumptions C23_collect_last_wins.
Example C23_witness : vmap_from_iter Nat.compare [(2,1);(1,1);(2,2);(0,9);(1,3)] = Some [(0,9);(1,3);(2,2)].
Proof. reflexivity. Qed.

(** ** C24-C27: the joins
    For every pair of valid maps there is one list of closure arguments, in strictly increasing key
    order, holding for every key the argument given by the two operands; for every closure (with
    any environment, panicking or not) the join is: call the closure on these arguments in this
    order, collecting the entries it returns. *)
Definition okey {K V W} (x : ojarg K V W) : K :=
  match x with OJLeft k _ => k | OJRight k _ => k | OJBoth k _ _ => k end.
Definition tkey {K X Y} (x : K * X * Y) : K := fst (fst x).

Section JoinFacts.
  Context {K : Type} {kcmp : K -> K -> comparison} (L : OrdLaws kcmp) (strat : nat -> nat -> bool).
  Context {V W : Type} (a : list (K * V)) (b : list (K * W)).
  Context (Sa : keys_sorted kcmp a) (Sb : keys_sorted kcmp b).

  Lemma some_inj_key {A X : Type} (key : X -> K) (g : K -> A -> X) :
    (forall k v, key (g k v) = k) -> forall h k v, Some g = Some h -> key (h k v) = k.
  Proof. intros H h k v [= <-]. auto. Qed.
  Lemma none_key {A X : Type} (key : X -> K) : forall (h : K -> A -> X) k v, None = Some h -> key (h k v) = k.
  Proof. intros h k v [=]. Qed.

  Lemma outer_args : exists args : list (ojarg K V W),
    sorted kcmp (map okey args) /\
    (forall k, kfind kcmp okey k args =
       match entry kcmp k a, entry kcmp k b with
       | Some (k1, x), Some (_, y) => Some (OJBoth k1 x y)
       | Some (k1, x), None => Some (OJLeft k1 x)
       | None, Some (k2, y) => Some (OJRight k2 y)
       | None, None => None
       end) /\
    (forall (E R : Type) (f : clos E (ojarg K V W) (option R)) (e : E),
       vmap_outer_join kcmp strat f a b e = served (serve f okey args e)) /\
    (forall (E : Type) (f : clos E (ojarg K V W) (option V)) (e : E),
       vmap_outer_join_with kcmp strat f a b e = served (serve f okey args e)).
  Proof.
    exists (jlog (kcmp := kcmp) (Some OJLeft) (Some OJRight) OJBoth a b). split; [|split; [|split]].
    - apply (jlog_sorted L); auto; try (apply some_inj_key; reflexivity).
    - intros k. rewrite (jlog_kfind L) by (auto; try (apply some_inj_key; reflexivity)).
      destruct (entry kcmp k a) as [[? ?]|], (entry kcmp k b) as [[? ?]|]; reflexivity.
    - intros. apply (vs_join_serve L strat (OuterJoinOp_v kcmp) _ _ _ OuterJoinOp_v_act); auto;
        try (apply some_inj_key; reflexivity).
    - intros. apply (ipr_join_serve L strat (OuterJoinOp_i kcmp) _ _ _ OuterJoinOp_i_act); auto;
        try (apply some_inj_key; reflexivity).
  Qed.
  Lemma left_args : exists args : list (K * V * option W),
    sorted kcmp (map tkey args) /\
    (forall k, kfind kcmp tkey k args =
       match entry kcmp k a with
       | Some (k1, x) => Some (k1, x, option_map snd (entry kcmp k b))
       | None => None
       end) /\
    (forall (E R : Type) (f : clos E (K * V * option W) (option R)) (e : E),
       vmap_left_join kcmp strat f a b e = served (serve f tkey args e)) /\
    (forall (E : Type) (f : clos E (K * V * option W) (option V)) (e : E),
       vmap_left_join_with kcmp strat f a b e = served (serve f tkey args e)).
  Proof.
    exists (jlog (kcmp := kcmp) (Some (fun k v => (k, v, None))) None (fun k v w => (k, v, Some w)) a b).
    split; [|split; [|split]].
    - apply (jlog_sorted L); auto; try (apply some_inj_key; reflexivity); apply none_key.
    - intros k. rewrite (jlog_kfind L) by (auto; try (apply some_inj_key; reflexivity); apply none_key).
      destruct (entry kcmp k a) as [[? ?]|], (entry kcmp k b) as [[? ?]|]; reflexivity.
    - intros. apply (vs_join_serve L strat (LeftJoinOp_v kcmp) _ _ _ LeftJoinOp_v_act); auto;
        try (apply some_inj_key; reflexivity); apply none_key.
    - intros. apply (ipr_join_serve L strat (LeftJoinOp_i kcmp) _ _ _ LeftJoinOp_i_act); auto;
        try (apply some_inj_key; reflexivity); apply none_key.
  Qed.
  Lemma right_args : exists args : list (K * option V * W),
    sorted kcmp (map tkey args) /\
    (forall k, kfind kcmp tkey k args =
       match entry kcmp k b with
       | Some (k2, y) =>
           match entry kcmp k a with
           | Some (k1, x) => Some (k1, Some x, y)
           | None => Some (k2, None, y)
           end
       | None => None
       end) /\
    (forall (E R : Type) (f : clos E (K * option V * W) (option R)) (e : E),
       vmap_right_join kcmp strat f a b e = served (serve f tkey args e)) /\
    (forall (E : Type) (f : clos E (K * option V * W) (option V)) (e : E),
       vmap_right_join_with kcmp strat f a b e = served (serve f tkey args e)).
  Proof.
    exists (jlog (kcmp := kcmp) None (Some (fun k w => (k, None, w))) (fun k v w => (k, Some v, w)) a b).
    split; [|split; [|split]].
    - apply (jlog_sorted L); auto; try (apply some_inj_key; reflexivity); apply none_key.
    - intros k. rewrite (jlog_kfind L) by (auto; try (apply some_inj_key; reflexivity); apply none_key).
      destruct (entry kcmp k a) as [[? ?]|], (entry kcmp k b) as [[? ?]|]; reflexivity.
    - intros. apply (vs_join_serve L strat (RightJoinOp_v kcmp) _ _ _ RightJoinOp_v_act); auto;
        try (apply some_inj_key; reflexivity); apply none_key.
    - intros. apply (ipr_join_serve L strat (RightJoinOp_i kcmp) _ _ _ RightJoinOp_i_act); auto;
        try (apply some_inj_key; reflexivity); apply none_key.
  Qed.
  Lemma inner_args : exists args : list (K * V * W),
    sorted kcmp (map tkey args) /\
    (forall k, kfind kcmp tkey k args =
       match entry kcmp k a, entry kcmp k b with
       | Some (k1, x), Some (_, y) => Some (k1, x, y)
       | _, _ => None
       end) /\
    (forall (E R : Type) (f : clos E (K * V * W) (option R)) (e : E),
       vmap_inner_join kcmp strat f a b e = served (serve f tkey args e)) /\
    (forall (E : Type) (f : clos E (K * V * W) (option V)) (e : E),
       vmap_inner_join_with kcmp strat f a b e = served (serve f tkey args e)).
  Proof.
    exists (jlog (kcmp := kcmp) None None (fun k v w => (k, v, w)) a b).
    split; [|split; [|split]].
    - apply (jlog_sorted L); auto; try (apply some_inj_key; reflexivity); apply none_key.
    - intros k. rewrite (jlog_kfind L) by (auto; try (apply some_inj_key; reflexivity); apply none_key).
      destruct (entry kcmp k a) as [[? ?]|], (entry kcmp k b) as [[? ?]|]; reflexivity.
    - intros. apply (vs_join_serve L strat (InnerJoinOp_v kcmp) _ _ _ InnerJoinOp_v_act); auto;
        try (apply some_inj_key; reflexivity); apply none_key.
    - intros. apply (ipr_join_serve L strat (InnerJoinOp_i kcmp) _ _ _ InnerJoinOp_i_act); auto;
        try (apply some_inj_key; reflexivity); apply none_key.
  Qed.

  (** serving arguments with a function *)
  Lemma serve_pure {X R E} (key : X -> K) (g : X -> option R) (args : list X) (e : E) :
    sorted kcmp (map key args) ->
    exists r, serve (pure_clos g) key args e = (r, e, true) /\ keys_sorted kcmp r /\
      forall k, entry kcmp k r =
        match kfind kcmp key k args with
        | Some x => option_map (pair (key x)) (g x)
        | None => None
        end.
  Proof.
    intros S. rewrite (serve_total _ key _ g args (pure_total g)). rewrite fold_const.
    eexists. split; [reflexivity|].
    pose proof (fun k => kfind_tape_ref L fst key (B := unit) (fun _ => k)
      (fun x => option_map (pair (key x)) (g x)) (fun _ => None) (fun _ _ => None)) as T.
    assert (Hk : forall x (r : K * R), option_map (pair (key x)) (g x) = Some r -> kcmp (fst r) (key x) = Eq).
    { intros x r. destruct (g x); [|discriminate]. intros [= <-]. apply (cmp_refl L). }
    split.
    - exact (omap_sorted L fst (fun x => option_map (pair (key x)) (g x)) key args Hk S).
    - intros k. specialize (T k Hk). specialize (T ltac:(discriminate) ltac:(discriminate) k args []).
      rewrite tape_ref_nil_r in T. cbn [kfind find] in T.
      specialize (T S (ksorted_nil _)). unfold entry. unfold kfind in T |- *.
      rewrite T. destruct (find _ args); reflexivity.
  Qed.
End JoinFacts.

Theorem C24_outer_join_calls :
  forall (K V W : Type) (kcmp : K -> K -> comparison) (strat : nat -> nat -> bool)
    (a : list (K * V)) (b : list (K * W)),
    OrdLaws kcmp -> keys_sorted kcmp a -> keys_sorted kcmp b ->
    exists args : list (ojarg K V W),
      sorted kcmp (map okey args) /\
      (forall k, kfind kcmp okey k args =
         match entry kcmp k a, entry kcmp k b with
         | Some (k1, x), Some (_, y) => Some (OJBoth k1 x y)
         | Some (k1, x), None => Some (OJLeft k1 x)
         | None, Some (k2, y) => Some (OJRight k2 y)
         | None, None => None
         end) /\
      (forall (E R : Type) (f : clos E (ojarg K V W) (option R)) (e : E),
         vmap_outer_join kcmp strat f a b e = served (serve f okey args e)).
Proof.
  intros K V W kcmp strat a b L Sa Sb.
  destruct (outer_args L strat a b Sa Sb) as (args & H1 & H2 & H3 & _). eauto.
Qed.
Print Assumptions C24_outer_join_calls.
Theorem C24_outer_join_pointwise :
  forall (K V W R E : Type) (kcmp : K -> K -> comparison) (strat : nat -> nat -> bool)
    (g : ojarg K V W -> option R) (a : list (K * V)) (b : list (K * W)) (e : E),
    OrdLaws kcmp -> keys_sorted kcmp a -> keys_sorted kcmp b ->
    exists r, vmap_outer_join kcmp strat (pure_clos g) a b e = Done (r, e) /\ keys_sorted kcmp r /\
      forall k, entry kcmp k r =
        match entry kcmp k a, entry kcmp k b with
        | Some (k1, x), Some (_, y) => option_map (pair k1) (g (OJBoth k1 x y))
        | Some (k1, x), None => option_map (pair k1) (g (OJLeft k1 x))
        | None, Some (k2, y) => option_map (pair k2) (g (OJRight k2 y))
        | None, None => None
        end.
Proof.
  intros K V W R E kcmp strat g a b e L Sa Sb.
  destruct (outer_args L strat a b Sa Sb) as (args & H1 & H2 & H3 & _).
  destruct (serve_pure L okey g args e H1) as (r & Q & S & F).
  exists r. rewrite H3, Q. split; [reflexivity|]. split; [assumption|].
  intros k. rewrite F, H2. destruct (entry kcmp k a) as [[? ?]|], (entry kcmp k b) as [[? ?]|]; reflexivity.
Qed.
Print Assumptions C24_outer_join_pointwise.
Example C24_witness :
  keys_sorted Nat.compare ma /\ keys_sorted Nat.compare mb /\
  vmap_outer_join Nat.compare alt (log_clos (fun x =>
    match x with OJLeft k x => if k =? 4 then None else Some x | OJRight _ y => Some y | OJBoth _ x y => Some (x * y) end))
    ma mb [] =
  Done ([(0,5);(1,10);(3,180);(7,560);(9,9)],
        [OJRight 0 5; OJLeft 1 10; OJBoth 3 30 6; OJLeft 4 40; OJBoth 7 70 8; OJRight 9 9]).
Proof. split; [exact ma_ok|]. split; [exact mb_ok|]. reflexivity. Qed.

Theorem C25_left_join_calls :
  forall (K V W : Type) (kcmp : K -> K -> comparison) (strat : nat -> nat -> bool)
    (a : list (K * V)) (b : list (K * W)),
    OrdLaws kcmp -> keys_sorted kcmp a -> keys_sorted kcmp b ->
    exists args : list (K * V * option W),
      sorted kcmp (map tkey args) /\
      (forall k, kfind kcmp tkey k args =
         match entry kcmp k a with
         | Some (k1, x) => Some (k1, x, vmap_get kcmp b k)
         | None => None
         end) /\
      (forall (E R : Type) (f : clos E (K * V * option W) (option R)) (e : E),
         vmap_left_join kcmp strat f a b e = served (serve f tkey args e)).
Proof.
  intros K V W kcmp strat a b L Sa Sb.
  destruct (left_args L strat a b Sa Sb) as (args & H1 & H2 & H3 & _). exists args.
  split; [assumption|]. split; [|assumption]. intros k. rewrite H2, (get_spec L), lookup_entry; auto.
Qed.
Print Assumptions C25_left_join_calls.
Theorem C25_left_join_pointwise :
  forall (K V W R E : Type) (kcmp : K -> K -> comparison) (strat : nat -> nat -> bool)
    (g : K * V * option W -> option R) (a : list (K * V)) (b : list (K * W)) (e : E),
    OrdLaws kcmp -> keys_sorted kcmp a -> keys_sorted kcmp b ->
    exists r, vmap_left_join kcmp strat (pure_clos g) a b e = Done (r, e) /\ keys_sorted kcmp r /\
      forall k, entry kcmp k r =
        match entry kcmp k a with
        | Some (k1, x) => option_map (pair k1) (g (k1, x, vmap_get kcmp b k))
        | None => None
        end.
Proof.
  intros K V W R E kcmp strat g a b e L Sa Sb.
  destruct (left_args L strat a b Sa Sb) as (args & H1 & H2 & H3 & _).
  destruct (serve_pure L tkey g args e H1) as (r & Q & S & F).
  exists r. rewrite H3, Q. split; [reflexivity|]. split; [assumption|].
  intros k. rewrite F, H2, (get_spec L), lookup_entry by assumption.
  destruct (entry kcmp k a) as [[? ?]|]; reflexivity.
Qed.
Print Assumptions C25_left_join_pointwise.
Example C25_witness :
  vmap_left_join Nat.compare alt (log_clos (fun '(k, x, y) => match y with Some y => Some (x * y) | None => if k =? 1 then None else Some x end))
    ma mb [] =
  Done ([(3,180);(4,40);(7,560)], [(1,10,None);(3,30,Some 6);(4,40,None);(7,70,Some 8)]).
Proof. reflexivity. Qed.

Theorem C26_right_join_calls :
  forall (K V W : Type) (kcmp : K -> K -> comparison) (strat : nat -> nat -> bool)
    (a : list (K * V)) (b : list (K * W)),
    OrdLaws kcmp -> keys_sorted kcmp a -> keys_sorted kcmp b ->
    exists args : list (K * option V * W),
      sorted kcmp (map tkey args) /\
      (forall k, kfind kcmp tkey k args =
         match entry kcmp k b with
         | Some (k2, y) =>
             match entry kcmp k a with
             | Some (k1, x) => Some (k1, Some x, y)
             | None => Some (k2, None, y)
             end
         | None => None
         end) /\
      (forall (E R : Type) (f : clos E (K * option V * W) (option R)) (e : E),
         vmap_right_join kcmp strat f a b e = served (serve f tkey args e)).
Proof.
  intros K V W kcmp strat a b L Sa Sb.
  destruct (right_args L strat a b Sa Sb) as (args & H1 & H2 & H3 & _). eauto.
Qed.
Print Assumptions C26_right_join_calls.
Theorem C26_right_join_pointwise :
  forall (K V W R E : Type) (kcmp : K -> K -> comparison) (strat : nat -> nat -> bool)
    (g : K * option V * W -> option R) (a : list (K * V)) (b : list (K * W)) (e : E),
    OrdLaws kcmp -> keys_sorted kcmp a -> keys_sorted kcmp b ->
    exists r, vmap_right_join kcmp strat (pure_clos g) a b e = Done (r, e) /\ keys_sorted kcmp r /\
      forall k, entry kcmp k r =
        match entry kcmp k b with
        | Some (k2, y) =>
            match entry kcmp k a with
            | Some (k1, x) => option_map (pair k1) (g (k1, Some x, y))
            | None => option_map (pair k2) (g (k2, None, y))
            end
        | None => None
        end.
Proof.
  intros K V W R E kcmp strat g a b e L Sa Sb.
  destruct (right_args L strat a b Sa Sb) as (args & H1 & H2 & H3 & _).
  destruct (serve_pure L tkey g args e H1) as (r & Q & S & F).
  exists r. rewrite H3, Q. split; [reflexivity|]. split; [assumption|].
  intros k. rewrite F, H2. destruct (entry kcmp k a) as [[? ?]|], (entry kcmp k b) as [[? ?]|]; reflexivity.
Qed.
Print Assumptions C26_right_join_pointwise.
Example C26_witness :
  vmap_right_join Nat.compare alt (log_clos (fun '(k, x, y) => match x with Some x => Some (x * y) | None => if k =? 9 then None else Some y end))
    ma mb [] =
  Done ([(0,5);(3,180);(7,560)], [(0,None,5);(3,Some 30,6);(7,Some 70,8);(9,None,9)]).
Proof. reflexivity. Qed.

Theorem C27_inner_join_calls :
  forall (K V W : Type) (kcmp : K -> K -> comparison) (strat : nat -> nat -> bool)
    (a : list (K * V)) (b : list (K * W)),
    OrdLaws kcmp -> keys_sorted kcmp a -> keys_sorted kcmp b ->
    exists args : list (K * V * W),
      sorted kcmp (map tkey args) /\
      (forall k, kfind kcmp tkey k args =
         match entry kcmp k a, entry kcmp k b with
         | Some (k1, x), Some (_, y) => Some (k1, x, y)
         | _, _ => None
         end) /\
      (forall (E R : Type) (f : clos E (K * V * W) (option R)) (e : E),
         vmap_inner_join kcmp strat f a b e = served (serve f tkey args e)).
Proof.
  intros K V W kcmp strat a b L Sa Sb.
  destruct (inner_args L strat a b Sa Sb) as (args & H1 & H2 & H3 & _). eauto.
Qed.
Print Assumptions C27_inner_join_calls.
Theorem C27_inner_join_pointwise :
  forall (K V W R E : Type) (kcmp : K -> K -> comparison) (strat : nat -> nat -> bool)
    (g : K * V * W -> option R) (a : list (K * V)) (b : list (K * W)) (e : E),
    OrdLaws kcmp -> keys_sorted kcmp a -> keys_sorted kcmp b ->
    exists r, vmap_inner_join kcmp strat (pure_clos g) a b e = Done (r, e) /\ keys_sorted kcmp r /\
      forall k, entry kcmp k r =
        match entry kcmp k a, entry kcmp k b with
        | Some (k1, x), Some (_, y) => option_map (pair k1) (g (k1, x, y))
        | _, _ => None
        end.
Proof.
  intros K V W R E kcmp strat g a b e L Sa Sb.
  destruct (inner_args L strat a b Sa Sb) as (args & H1 & H2 & H3 & _).
  destruct (serve_pure L tkey g args e H1) as (r & Q & S & F).
  exists r. rewrite H3, Q. split; [reflexivity|]. split; [assumption|].
  intros k. rewrite F, H2. destruct (entry kcmp k a) as [[? ?]|], (entry kcmp k b) as [[? ?]|]; reflexivity.
Qed.
Print Assumptions C27_inner_join_pointwise.
Example C27_witness :
  vmap_inner_join Nat.compare alt (log_clos (fun '(k, x, y) => if k =? 7 then None else Some (x * y))) ma mb [] =
  Done ([(3,180)], [(3,30,6);(7,70,8)]).
Proof. reflexivity. Qed.

(** ** C28: the in-place joins do exactly what the pure joins do, for every closure, also a
    stateful or panicking one *)
Theorem C28_in_place_joins_equal_pure :
  forall (K V W E : Type) (kcmp : K -> K -> comparison) (strat : nat -> nat -> bool)
    (a : list (K * V)) (b : list (K * W)) (e : E),
    OrdLaws kcmp -> keys_sorted kcmp a -> keys_sorted kcmp b ->
    (forall f, vmap_outer_join_with kcmp strat f a b e = vmap_outer_join kcmp strat f a b e) /\
    (forall f, vmap_left_join_with kcmp strat f a b e = vmap_left_join kcmp strat f a b e) /\
    (forall f, vmap_right_join_with kcmp strat f a b e = vmap_right_join kcmp strat f a b e) /\
    (forall f, vmap_inner_join_with kcmp strat f a b e = vmap_inner_join kcmp strat f a b e).
Proof.
  intros K V W E kcmp strat a b e L Sa Sb. split; [|split; [|split]]; intros f.
  - destruct (outer_args L strat a b Sa Sb) as (args & _ & _ & H3 & H4). now rewrite H3, H4.
  - destruct (left_args L strat a b Sa Sb) as (args & _ & _ & H3 & H4). now rewrite H3, H4.
  - destruct (right_args L strat a b Sa Sb) as (args & _ & _ & H3 & H4). now rewrite H3, H4.
  - destruct (inner_args L strat a b Sa Sb) as (args & _ & _ & H3 & H4). now rewrite H3, H4.
Qed.
Print Assumptions C28_in_place_joins_equal_pure.
Lemma serve_returns {K X R E} (f : clos E X (option R)) (key : X -> K) args :
  (forall e x, snd (f e x) <> Throw) -> forall e, exists rs e', serve f key args e = (rs, e', true).
Proof.
  intros H. induction args as [|x args IH]; intros e; cbn [serve]; [eauto|].
  specialize (H e x). destruct (f e x) as [e1 [o|]]; [|now destruct H].
  destruct (IH e1) as (rs & e2 & ->). eauto.
Qed.
Theorem C28_in_place_joins_return :
  forall (K V W E : Type) (kcmp : K -> K -> comparison) (strat : nat -> nat -> bool)
    (a : list (K * V)) (b : list (K * W)) (e : E),
    OrdLaws kcmp -> keys_sorted kcmp a -> keys_sorted kcmp b ->
    let returns {X} (f : clos E X (option V)) := forall e x, snd (f e x) <> Throw in
    (forall f, returns f -> exists r, vmap_outer_join_with kcmp strat f a b e = Done r) /\
    (forall f, returns f -> exists r, vmap_left_join_with kcmp strat f a b e = Done r) /\
    (forall f, returns f -> exists r, vmap_right_join_with kcmp strat f a b e = Done r) /\
    (forall f, returns f -> exists r, vmap_inner_join_with kcmp strat f a b e = Done r).
Proof.
  intros K V W E kcmp strat a b e L Sa Sb. cbv zeta. split; [|split; [|split]]; intros f Hf.
  - destruct (outer_args L strat a b Sa Sb) as (args & _ & _ & _ & H4). rewrite H4.
    destruct (serve_returns f okey args Hf e) as (rs & e' & ->). cbn. eauto.
  - destruct (left_args L strat a b Sa Sb) as (args & _ & _ & _ & H4). rewrite H4.
    destruct (serve_returns f tkey args Hf e) as (rs & e' & ->). cbn. eauto.
  - destruct (right_args L strat a b Sa Sb) as (args & _ & _ & _ & H4). rewrite H4.
    destruct (serve_returns f tkey args Hf e) as (rs & e' & ->). cbn. eauto.
  - destruct (inner_args L strat a b Sa Sb) as (args & _ & _ & _ & H4). rewrite H4.
    destruct (serve_returns f tkey args Hf e) as (rs & e' & ->). cbn. eauto.
Qed.
Print Assumptions C28_in_place_joins_return.
Example C28_witness :
  vmap_right_join_with Nat.compare alt (log_clos (fun '(k, x, y) => match x with Some x => Some (x * y) | None => if k =? 9 then None else Some y end))
    ma mb [] =
  Done ([(0,5);(3,180);(7,560)], [(0,None,5);(3,Some 30,6);(7,Some 70,8);(9,None,9)]).
Proof. reflexivity. Qed.

(** ** C29: combine_with, merge_with, extend *)
Theorem C29_combine_merge_extend :
  forall (K V E : Type) (kcmp : K -> K -> comparison) (strat : nat -> nat -> bool)
    (a b : list (K * V)) (items : list (K * V)) (e : E),
    OrdLaws kcmp -> keys_sorted kcmp a -> keys_sorted kcmp b ->
    let val := vmap_get kcmp in
    (forall f : V * V -> V, exists r,
       vmap_combine_with kcmp strat (pure_clos f) a b e = Done (r, e) /\ keys_sorted kcmp r /\
       forall k, val r k = match val a k, val b k with
                           | Some x, Some y => Some (f (x, y))
                           | Some x, None => Some x
                           | None, o => o
                           end) /\
    (exists r, vmap_merge_with kcmp strat a b e = Done (r, e) /\ keys_sorted kcmp r /\
       forall k, val r k = match val b k with Some y => Some y | None => val a k end) /\
    (exists r, vmap_extend kcmp strat a items e = Some (Done (r, e)) /\ keys_sorted kcmp r /\
       forall k, val r k = match lookup_last kcmp k items with Some y => Some y | None => val a k end).
Proof.
  intros K V E kcmp strat a b items e L Sa Sb val. subst val.
  assert (G : forall b f, keys_sorted kcmp b -> exists r,
    vmap_combine_with kcmp strat (pure_clos f) a b e = Done (r, e) /\ keys_sorted kcmp r /\
    forall k, vmap_get kcmp r k = match vmap_get kcmp a k, vmap_get kcmp b k with
                        | Some x, Some y => Some (f (x, y))
                        | Some x, None => Some x
                        | None, o => o
                        end).
  { clear b Sb. intros b f Sb. destruct (combine_acombine L strat f a b e Sa Sb) as (r & Q & S & F).
    exists r. split; [assumption|]. split; [assumption|]. intros k.
    rewrite !(get_spec L), !lookup_entry, F by assumption.
    destruct (entry kcmp k a) as [[? ?]|], (entry kcmp k b) as [[? ?]|]; reflexivity. }
  split; [intros f; now apply G|]. split.
  - destruct (G b snd Sb) as (r & Q & S & F). exists r. split; [exact Q|]. split; [assumption|].
    intros k. rewrite F. destruct (vmap_get kcmp a k), (vmap_get kcmp b k); reflexivity.
  - unfold vmap_extend.
    destruct (C23_collect_last_wins K V kcmp items L) as (c & -> & Sc & Fc & _).
    destruct (G c snd Sc) as (r & Q & S & F). exists r. unfold vmap_merge_with. rewrite Q.
    split; [reflexivity|]. split; [assumption|].
    intros k. rewrite F, Fc. destruct (vmap_get kcmp a k), (lookup_last kcmp k items); reflexivity.
Qed.
Print Assumptions C29_combine_merge_extend.
(** the closure of combine_with runs exactly on the values of the common keys, in key order *)
Theorem C29_combine_with_calls :
  forall (K V : Type) (kcmp : K -> K -> comparison) (strat : nat -> nat -> bool) (f : V * V -> V)
    (a b : list (K * V)),
    OrdLaws kcmp -> keys_sorted kcmp a -> keys_sorted kcmp b ->
    exists r calls, vmap_combine_with kcmp strat (log_clos f) a b [] = Done (r, map snd calls) /\
      keys_sorted kcmp calls /\
      forall k, vmap_get kcmp calls k = match vmap_get kcmp a k, vmap_get kcmp b k with
                                        | Some x, Some y => Some (x, y)
                                        | _, _ => None
                                        end.
Proof.
  intros K V kcmp strat f a b L Sa Sb.
  rewrite (combine_total L strat _ _ _ a b [] (log_total f)) by assumption.
  set (args := jlog (kcmp := kcmp) (Some OJLeft) (Some OJRight) OJBoth a b).
  set (cs := fun x : ojarg K V V => match x with OJBoth k v w => Some (k, (v, w)) | _ => None end).
  eexists. exists (omap cs args). split; [|].
  - f_equal. f_equal.
    assert (G : forall e, fold_left (cu (fun (e : list (V * V)) x => e ++ [x])) args e = e ++ map snd (omap cs args)).
    { induction args as [|x args IH]; intros e; cbn; [now rewrite app_nil_r|].
      unfold omap in *. rewrite IH. destruct x; cbn; auto. now rewrite <- app_assoc. }
    exact (G []).
  - assert (KA : forall k, kfind kcmp okey k args = match entry kcmp k a, entry kcmp k b with
      | Some (k1, x), Some (_, y) => Some (OJBoth k1 x y) | Some (k1, x), None => Some (OJLeft k1 x)
      | None, Some (k2, y) => Some (OJRight k2 y) | None, None => None end).
    { intros k. unfold args. rewrite (jlog_kfind L) by (auto; try (apply some_inj_key; reflexivity)).
      destruct (entry kcmp k a) as [[? ?]|], (entry kcmp k b) as [[? ?]|]; reflexivity. }
    assert (KS : sorted kcmp (map okey args)).
    { apply (jlog_sorted L); auto; try (apply some_inj_key; reflexivity). }
    set (g := fun x : ojarg K V V => match x with OJBoth k v w => Some (v, w) | _ => None end).
    destruct (serve_pure (E := unit) L okey g args tt KS) as (r & Q & S & F).
    rewrite (serve_total _ okey _ g args (pure_total g)) in Q. injection Q as <- _.
    replace (omap cs args) with (omap (fun x => option_map (pair (okey x)) (g x)) args).
    + split; [assumption|]. intros k. rewrite !(get_spec L), !lookup_entry, F, KA by assumption.
      destruct (entry kcmp k a) as [[? ?]|], (entry kcmp k b) as [[? ?]|]; reflexivity.
    + clear. induction args as [|x args IH]; [reflexivity|]. cbn. unfold omap in IH. rewrite IH.
      destruct x; reflexivity.
Qed.
Print Assumptions C29_combine_with_calls.
Example C29_witness :
  vmap_combine_with Nat.compare alt (log_clos (fun '(x, y) => x + y)) ma mb [] =
    Done ([(0,5);(1,10);(3,36);(4,40);(7,78);(9,9)], [(30,6);(70,8)]) /\
  vmap_extend Nat.compare alt ma [(3,1);(8,1);(3,2)] tt = Some (Done ([(1,10);(3,2);(4,40);(7,70);(8,1)], tt)).
Proof. split; reflexivity. Qed.

(** ** C30: From<VecMap> for VecSet *)
Theorem C30_vecset_from_vecmap :
  forall (K V : Type) (kcmp : K -> K -> comparison) (vcmp : V -> V -> comparison) (m : list (K * V)),
    OrdLaws kcmp -> OrdLaws vcmp -> keys_sorted kcmp m ->
    OrdLaws (pair_cmp kcmp vcmp) /\
    sorted (pair_cmp kcmp vcmp) (vset_from_vmap m) /\
    (forall p, In p (vset_from_vmap m) <-> In p m) /\
    (forall k v, vset_contains (pair_cmp kcmp vcmp) (vset_from_vmap m) (k, v) = true <->
       exists v', vmap_get kcmp m k = Some v' /\ vcmp v v' = Eq).
Proof.
  intros K V kcmp vcmp m L LV S.
  assert (LP : OrdLaws (pair_cmp kcmp vcmp)).
  { constructor.
    - intros [k1 v1] [k2 v2]. unfold pair_cmp. cbn. rewrite (ord_opp L k1 k2).
      destruct (kcmp k1 k2); cbn; auto. apply (ord_opp LV).
    - intros [k1 v1] [k2 v2] [k3 v3]. unfold pair_cmp. cbn.
      destruct (kcmp k1 k2) eqn:E12; intros H1; try congruence.
      + rewrite (cmp_eq_l L _ _ _ E12). destruct (kcmp k2 k3) eqn:E23; intros H2; try congruence.
        eauto using (ord_trans LV).
      + destruct (kcmp k2 k3) eqn:E23; intros H2; try congruence.
        * rewrite <- (cmp_eq_r L _ _ _ E23), E12. discriminate.
        * rewrite (cmp_lt_trans L _ _ _ E12 E23). discriminate. }
  assert (SP : sorted (pair_cmp kcmp vcmp) m).
  { clear LP. induction m as [|[k v] m IH]; [apply sorted_nil|].
    apply keys_sorted_cons in S as [S H]. apply sorted_cons_iff. split; auto.
    intros [k' v'] Hp. unfold pair_cmp. cbn. now rewrite (H k' v' Hp). }
  split; [assumption|]. split; [exact SP|]. split; [reflexivity|].
  intros k v. unfold vset_from_vmap. rewrite (contains_spec LP) by assumption.
  rewrite (get_spec L), lookup_entry by assumption. split.
  - intros ([k' v'] & Hp & E). unfold pair_cmp in E. cbn in E.
    destruct (kcmp k k') eqn:Ek; try discriminate. exists v'.
    rewrite (entry_sorted L k m (k', v') S Hp Ek). auto.
  - intros (v' & Q & E). destruct (entry kcmp k m) as [[k' w]|] eqn:Qe; [|discriminate].
    injection Q as <-. apply entry_Some_In in Qe as [Hp Ek]. exists (k', w). split; [assumption|].
    unfold pair_cmp. cbn in *. now rewrite Ek.
Qed.
Print Assumptions C30_vecset_from_vecmap.
Example C30_witness : keys_sorted Nat.compare ma /\
  vset_contains (pair_cmp Nat.compare Nat.compare) (vset_from_vmap ma) (3,30) = true /\
  vset_contains (pair_cmp Nat.compare Nat.compare) (vset_from_vmap ma) (3,31) = false.
Proof. split; [exact ma_ok|]. split; reflexivity. Qed.

(** ** C31: deserialization *)
Theorem C31_deserialize_valid :
  forall (K V : Type) (kcmp : K -> K -> comparison) (l : list (K * V)), OrdLaws kcmp ->
    keys_sorted kcmp (vmap_visit_map kcmp l) /\
    (forall p, In p (vmap_visit_map kcmp l) <-> first_occ (by_key fst kcmp) p l) /\
    (forall k, vmap_get kcmp (vmap_visit_map kcmp l) k = lookup kcmp k l).
Proof.
  intros K V kcmp l L. destruct (visit_map_spec L l) as (S & F). split; [assumption|]. split.
  - intros p. exact (is_dedup_In (by_key_ord fst kcmp L) KeepFirst l _ p (std_sort_dedup (by_key_ord fst kcmp L) l)).
  - intros k. now rewrite (get_spec L), !lookup_entry, F by assumption.
Qed.
Print Assumptions C31_deserialize_valid.
Theorem C31_roundtrip :
  forall (K V : Type) (kcmp : K -> K -> comparison) (m : list (K * V)), OrdLaws kcmp ->
    keys_sorted kcmp m -> vmap_visit_map kcmp (vmap_serialize m) = m.
Proof.
  intros K V kcmp m L S. destruct (visit_map_spec L m) as (S' & F).
  apply (entry_ext L); assumption.
Qed.
Print Assumptions C31_roundtrip.
(** without duplicate keys, deserializing in any order agrees with collect *)
Theorem C31_distinct_as_collect :
  forall (K V : Type) (kcmp : K -> K -> comparison) (l : list (K * V)), OrdLaws kcmp ->
    distinct_list kcmp (map fst l) -> vmap_from_iter kcmp l = Some (vmap_visit_map kcmp l).
Proof.
  intros K V kcmp l L D. destruct (mfrom_iter_spec L l) as (r & -> & S & F). f_equal.
  destruct (visit_map_spec L l) as (S' & F'). apply (entry_ext L); auto.
  intros k. rewrite F, F'. apply option_ext. intros p.
  assert (U : forall p q, In p l -> In q l -> kcmp (fst p) (fst q) = Eq -> p = q).
  { clear - L D. induction l as [|x l IH]; intros p q Hp Hq E; [destruct Hp|].
    inversion D as [|? ? D1 D2]; subst. rewrite Forall_forall in D1.
    destruct Hp as [<-|Hp], Hq as [<-|Hq]; auto.
    - exfalso. apply (D1 (fst q)); [now apply in_map|assumption].
    - exfalso. apply (D1 (fst p)); [now apply in_map|now apply (cmp_sym L)]. }
  assert (G : forall l', (forall z, In z l' <-> In z l) -> (entry kcmp k l' = Some p <-> In p l /\ kcmp k (fst p) = Eq)).
  { intros l' Hl. split.
    - intros H. apply entry_Some_In in H as [H1 H2]. split; [now apply Hl|assumption].
    - intros [H1 H2]. destruct (entry kcmp k l') as [q|] eqn:Q.
      + apply entry_Some_In in Q as [Hq Eq]. f_equal. apply U; auto; [now apply Hl|].
        rewrite <- (cmp_eq_l L _ _ _ Eq). assumption.
      + rewrite entry_None in Q. exfalso. apply (Q p); [now apply Hl|assumption]. }
  rewrite (G (rev l)) by (intros z; symmetry; apply in_rev). symmetry. apply G. tauto.
Qed.
Print Assumptions C31_distinct_as_collect.
(** With duplicate keys the claim "as collect does" is false: the first value wins. *)
Theorem C31_duplicates_as_collect_refuted :
  ~ (forall (l : list (nat * nat)) r, vmap_from_iter Nat.compare l = Some r ->
       vmap_visit_map Nat.compare l = r).
Proof. intros H. specialize (H [(1,1);(1,2)] _ eq_refl). discriminate H. Qed.
Print Assumptions C31_duplicates_as_collect_refuted.
Example C31_witness :
  vmap_visit_map Nat.compare [(2,1);(1,1);(2,2)] = [(1,1);(2,1)] /\
  distinct_list Nat.compare (map fst [(2,1);(1,1);(3,2)]).
Proof. split; [reflexivity|]. repeat constructor; discriminate. Qed.

(** ** C32: a panicking closure leaves a valid map *)
(** For every closure and environment: the map left in self is valid, every entry (k, v) in it was
    returned by a call of the closure on the argument for key k (or, for combine_with, is an
    original entry or such a value), and it is Unwound only if some call panicked. *)
Lemma serve_produced {K X R E} (f : clos E X (option R)) (key : X -> K) args :
  forall e rs e' ok, serve f key args e = (rs, e', ok) ->
  (forall p, In p rs -> exists x e1 e2, In x args /\ key x = fst p /\ f e1 x = (e2, Ret (Some (snd p)))) /\
  (ok = false -> exists x e1, In x args /\ f e1 x = (e', Throw)).
Proof.
  induction args as [|x args IH]; intros e rs e' ok; cbn [serve].
  - intros [= <- <- <-]. split; [intros p []|discriminate].
  - destruct (f e x) as [e1 [o|]] eqn:Q.
    + destruct (serve f key args e1) as [[rs1 e2] ok1] eqn:Q1. destruct (IH _ _ _ _ Q1) as [I1 I2].
      intros [= <- <- <-]. split.
      * intros p Hp.
        assert (C : (exists r, o = Some r /\ p = (key x, r)) \/ In p rs1)
          by (destruct o; [destruct Hp as [<-|Hp]; [left; eauto|auto]|auto]).
        destruct C as [(r & -> & ->)|C].
        -- exists x, e, e1. split; [now left|]. auto.
        -- destruct (I1 p C) as (x' & ea & eb & H1 & H2 & H3). exists x', ea, eb. split; [now right|]. auto.
      * intros Hok. destruct (I2 Hok) as (x' & ea & H1 & H2). exists x', ea. split; [now right|assumption].
    + intros [= <- <- <-]. split; [intros p []|]. intros _. exists x, e. split; [now left|assumption].
Qed.
(** the outcome is valid with respect to closure [f] run over [args] *)
Definition valid_outcome {K X R E} (kcmp : K -> K -> comparison) (key : X -> K)
  (f : clos E X (option R)) (args : list X) (d : done (list (K * R) * E)) : Prop :=
  exists r e', (d = Done (r, e') \/ d = Unwound (r, e') /\ exists x e1, In x args /\ f e1 x = (e', Throw)) /\
    keys_sorted kcmp r /\
    forall p, In p r -> exists x e1 e2, In x args /\ key x = fst p /\ f e1 x = (e2, Ret (Some (snd p))).
Lemma served_valid {K X R E} (kcmp : K -> K -> comparison) (L : OrdLaws kcmp) (key : X -> K)
  (f : clos E X (option R)) args e : sorted kcmp (map key args) ->
  valid_outcome kcmp key f args (served (serve f key args e)).
Proof.
  intros S. destruct (serve f key args e) as [[rs e'] ok] eqn:Q. exists rs, e'.
  destruct (serve_produced f key args e rs e' ok Q) as [P1 P2]. split; [|split; [|exact P1]].
  - destruct ok; cbn; [now left|right]. split; [reflexivity|auto].
  - exact (subk_sorted L fst key rs args (serve_subk f key kcmp args (cmp_refl L) e rs e' ok Q) S).
Qed.
Theorem C32_panicking_closure_leaves_valid_map :
  forall (K V W E : Type) (kcmp : K -> K -> comparison) (strat : nat -> nat -> bool)
    (a : list (K * V)) (b : list (K * W)) (e : E),
    OrdLaws kcmp -> keys_sorted kcmp a -> keys_sorted kcmp b ->
    (forall f, exists args,
       (forall x, In x args -> mem kcmp (okey x) (map fst a) \/ mem kcmp (okey x) (map fst b)) /\
       valid_outcome kcmp okey f args (vmap_outer_join_with kcmp strat f a b e)) /\
    (forall f, exists args,
       (forall x, In x args -> mem kcmp (tkey x) (map fst a)) /\
       valid_outcome kcmp tkey f args (vmap_left_join_with kcmp strat f a b e)) /\
    (forall f, exists args,
       (forall x, In x args -> mem kcmp (tkey x) (map fst b)) /\
       valid_outcome kcmp tkey f args (vmap_right_join_with kcmp strat f a b e)) /\
    (forall f, exists args,
       (forall x, In x args -> mem kcmp (tkey x) (map fst a) /\ mem kcmp (tkey x) (map fst b)) /\
       valid_outcome kcmp tkey f args (vmap_inner_join_with kcmp strat f a b e)).
Proof.
  intros K V W E kcmp strat a b e L Sa Sb.
  assert (ME : forall X (m : list (K * X)) k p, entry kcmp k m = Some p -> mem kcmp k (map fst m)).
  { intros X m k p H. apply entry_Some_In in H as [H1 H2]. exists (fst p). split; [now apply in_map|assumption]. }
  assert (KF : forall X (key : X -> K) args x, sorted kcmp (map key args) -> In x args ->
    kfind kcmp key (key x) args = Some x).
  { intros X key args x S H. apply (kfind_iff L); auto. split; [assumption|apply (cmp_refl L)]. }
  split; [|split; [|split]]; intros f.
  - destruct (outer_args L strat a b Sa Sb) as (args & H1 & H2 & _ & H4). exists args. split.
    + intros x Hx. specialize (KF _ okey args x H1 Hx). rewrite H2 in KF.
      destruct (entry kcmp (okey x) a) as [[? ?]|] eqn:Qa; [left; eauto|].
      destruct (entry kcmp (okey x) b) as [[? ?]|] eqn:Qb; [right; eauto|discriminate].
    + rewrite H4. now apply served_valid.
  - destruct (left_args L strat a b Sa Sb) as (args & H1 & H2 & _ & H4). exists args. split.
    + intros x Hx. specialize (KF _ tkey args x H1 Hx). rewrite H2 in KF.
      destruct (entry kcmp (tkey x) a) as [[? ?]|] eqn:Qa; [eauto|discriminate].
    + rewrite H4. now apply served_valid.
  - destruct (right_args L strat a b Sa Sb) as (args & H1 & H2 & _ & H4). exists args. split.
    + intros x Hx. specialize (KF _ tkey args x H1 Hx). rewrite H2 in KF.
      destruct (entry kcmp (tkey x) b) as [[? ?]|] eqn:Qa; [eauto|discriminate].
    + rewrite H4. now apply served_valid.
  - destruct (inner_args L strat a b Sa Sb) as (args & H1 & H2 & _ & H4). exists args. split.
    + intros x Hx. specialize (KF _ tkey args x H1 Hx). rewrite H2 in KF.
      destruct (entry kcmp (tkey x) a) as [[? ?]|] eqn:Qa; [|discriminate].
      destruct (entry kcmp (tkey x) b) as [[? ?]|] eqn:Qb; [eauto|discriminate].
    + rewrite H4. now apply served_valid.
Qed.
Print Assumptions C32_panicking_closure_leaves_valid_map.
Theorem C32_combine_with_panic :
  forall (K V E : Type) (kcmp : K -> K -> comparison) (strat : nat -> nat -> bool)
    (f : clos E (V * V) V) (a b : list (K * V)) (e : E),
    OrdLaws kcmp -> keys_sorted kcmp a -> keys_sorted kcmp b ->
    exists r e', (vmap_combine_with kcmp strat f a b e = Done (r, e') \/
                  vmap_combine_with kcmp strat f a b e = Unwound (r, e') /\
                  exists x y e1, In x a /\ In y b /\ f e1 (snd x, snd y) = (e', Throw)) /\
      keys_sorted kcmp r /\
      forall p, In p r -> In p a \/ In p b \/
        exists x y e1 e2, In x a /\ In y b /\ fst p = fst x /\ kcmp (fst x) (fst y) = Eq /\
                          f e1 (snd x, snd y) = (e2, Ret (snd p)).
Proof.
  intros K V E kcmp strat f a b e L Sa Sb.
  rewrite (combine_serve L strat f okey a b e) by (auto; reflexivity).
  set (args := jlog (kcmp := kcmp) (Some OJLeft) (Some OJRight) OJBoth a b).
  assert (KA : forall k, kfind kcmp okey k args = match entry kcmp k a, entry kcmp k b with
    | Some (k1, x), Some (_, y) => Some (OJBoth k1 x y) | Some (k1, x), None => Some (OJLeft k1 x)
    | None, Some (k2, y) => Some (OJRight k2 y) | None, None => None end).
  { intros k. unfold args. rewrite (jlog_kfind L) by (auto; try (apply some_inj_key; reflexivity)).
    destruct (entry kcmp k a) as [[? ?]|], (entry kcmp k b) as [[? ?]|]; reflexivity. }
  assert (KS : sorted kcmp (map okey args)).
  { apply (jlog_sorted L); auto; try (apply some_inj_key; reflexivity). }
  assert (IN : forall x, In x args -> match x with
    | OJLeft k v => In (k, v) a | OJRight k w => In (k, w) b
    | OJBoth k v w => In (k, v) a /\ exists k', In (k', w) b /\ kcmp k k' = Eq end).
  { intros x Hx. assert (Q : kfind kcmp okey (okey x) args = Some x).
    { apply (kfind_iff L); auto. split; [assumption|apply (cmp_refl L)]. }
    rewrite KA in Q.
    destruct (entry kcmp (okey x) a) as [[k1 v1]|] eqn:Qa, (entry kcmp (okey x) b) as [[k2 v2]|] eqn:Qb;
      try discriminate; injection Q as <-.
    - apply entry_Some_In in Qa as [Ha Ea], Qb as [Hb Eb]. split; [assumption|].
      exists k2. split; assumption.
    - now apply entry_Some_In in Qa as [Ha _].
    - now apply entry_Some_In in Qb as [Ha _]. }
  destruct (served_valid kcmp L okey (combine_clos f) args e KS) as (r & e' & D & S & P).
  exists r, e'. split; [|split; [assumption|]].
  - destruct D as [D|[D (x & e1 & Hx & Q)]]; [left; assumption|right]. split; [assumption|].
    specialize (IN x Hx). destruct x as [k v|k w|k v w]; try discriminate Q.
    cbn in Q. destruct (f e1 (v, w)) as [e2 [o|]] eqn:Qf; [discriminate|]. injection Q as <-.
    destruct IN as [Ia (k' & Ib & _)]. exists (k, v), (k', w), e1. auto.
  - intros p Hp. destruct (P p Hp) as (x & e1 & e2 & Hx & Ek & Q). specialize (IN x Hx).
    destruct p as [pk pv]. cbn in Ek, Q. destruct x as [k v|k w|k v w]; cbn in Ek, Q; subst pk.
    + injection Q as _ <-. auto.
    + injection Q as _ <-. auto.
    + destruct (f e1 (v, w)) as [e3 [o|]] eqn:Qf; [|discriminate]. injection Q as <- <-.
      destruct IN as [Ia (k' & Ib & Ek)]. right. right. exists (k, v), (k', w), e1, e3. auto.
Qed.
Print Assumptions C32_combine_with_panic.
Example C32_witness :
  vmap_outer_join_with Nat.compare alt (third_panics (fun x => Some (okey x))) ma mb 0 =
    Unwound ([(0,0);(1,1)], 3) /\
  vmap_combine_with Nat.compare alt (third_panics (fun '(x, y) => x + y)) ma mb 1 =
    Unwound ([(0,5);(1,10);(3,36);(4,40)], 3).
Proof. split; reflexivity. Qed.

(** ** C33 (map part) *)
Theorem C33_map_check_iff_sorted :
  forall (K V : Type) (kcmp : K -> K -> comparison) (valid : K * V -> bool) (m : list (K * V)), OrdLaws kcmp ->
    (vmap_check_bytes kcmp valid m = CheckOk <->
       (forall p, In p m -> valid p = true) /\ keys_sorted kcmp m) /\
    (vmap_check_bytes kcmp valid m = OrderCheckError <->
       (forall p, In p m -> valid p = true) /\ ~ keys_sorted kcmp m).
Proof.
  intros K V kcmp valid m L. unfold vmap_check_bytes.
  assert (O : vmap_check_order kcmp m = true <-> keys_sorted kcmp m).
  { unfold keys_sorted. rewrite <- (check_order_spec L (map fst m)).
    replace (vmap_check_order kcmp m) with (vset_check_order kcmp (map fst m)); [reflexivity|].
    unfold vset_check_order, vmap_check_order. clear.
    destruct m as [|x m]; [reflexivity|]. cbn [map skipn]. revert x.
    induction m as [|y m IH]; intros x; [reflexivity|]. cbn [map combine forallb fst snd].
    f_equal. apply IH. }
  pose proof (forallb_forall valid m) as F.
  destruct (forallb valid m), (vmap_check_order kcmp m); intuition congruence.
Qed.
Print Assumptions C33_map_check_iff_sorted.
Example C33_map_witness :
  vmap_check_bytes Nat.compare (fun _ => true) ma = CheckOk /\
  vmap_check_bytes Nat.compare (fun _ => true) [(2,1);(2,2)] = OrderCheckError.
Proof. split; reflexivity. Qed.

Lemma keys_sorted_map_mono {K AK V AV} (kcmp : K -> K -> comparison) (akcmp : AK -> AK -> comparison)
  (fk : K -> AK) (fv : V -> AV) (m : list (K * V)) :
  (forall x y, akcmp (fk x) (fk y) = kcmp x y) -> keys_sorted kcmp m ->
  keys_sorted akcmp (map (fun p => (fk (fst p), fv (snd p))) m).
Proof.
  intros M S. unfold keys_sorted, sorted in *. rewrite map_map. cbn [fst].
  rewrite <- (map_map fst fk). induction S as [|x l S IH F]; [constructor|].
  cbn [map]. constructor; [exact IH|]. apply Forall_map. eapply Forall_impl; [|exact F].
  intros y H. cbn beta. now rewrite M.
Qed.
Lemma lookup_map_mono {K AK V AV} (kcmp : K -> K -> comparison) (akcmp : AK -> AK -> comparison)
  (fk : K -> AK) (fv : V -> AV) (m : list (K * V)) k :
  (forall x y, akcmp (fk x) (fk y) = kcmp x y) ->
  lookup akcmp (fk k) (map (fun p => (fk (fst p), fv (snd p))) m) = option_map fv (lookup kcmp k m).
Proof.
  intros M. induction m as [|[k' v] m IH]; [reflexivity|]. cbn [map lookup fst snd]. rewrite M.
  destruct (kcmp k k'); [reflexivity|exact IH|exact IH].
Qed.
(** archiving and reading back a map, as for sets *)
Theorem C33_map_archive_roundtrip :
  forall (K V AK AV : Type) (kcmp : K -> K -> comparison) (akcmp : AK -> AK -> comparison)
    (ark : K -> AK) (arv : V -> AV) (dek : AK -> K) (dev : AV -> V) (valid : AK * AV -> bool) (m : list (K * V)),
    OrdLaws kcmp -> OrdLaws akcmp -> (forall x y, akcmp (ark x) (ark y) = kcmp x y) ->
    (forall k, dek (ark k) = k) -> (forall v, dev (arv v) = v) -> (forall k v, valid (ark k, arv v) = true) ->
    keys_sorted kcmp m ->
    vmap_check_bytes akcmp valid (vmap_archive ark arv m) = CheckOk /\
    vmap_unarchive dek dev (vmap_archive ark arv m) = m /\
    forall k, vmap_get akcmp (vmap_archive ark arv m) (ark k) = option_map arv (vmap_get kcmp m k).
Proof.
  intros K V AK AV kcmp akcmp ark arv dek dev valid m L LA M Rk Rv Va S.
  assert (SA : keys_sorted akcmp (vmap_archive ark arv m)) by (apply (keys_sorted_map_mono kcmp); assumption).
  split; [|split].
  - apply (C33_map_check_iff_sorted AK AV akcmp valid _ LA). split; [|exact SA].
    intros p H. apply in_map_iff in H as (q & <- & _). apply Va.
  - unfold vmap_unarchive, vmap_archive. rewrite map_map. cbn [fst snd]. rewrite <- (map_id m) at 2.
    apply map_ext. intros [k v]. cbn [fst snd]. now rewrite Rk, Rv.
  - intros k. rewrite (get_spec LA _ _ SA), (get_spec L _ _ S). now apply lookup_map_mono.
Qed.
Print Assumptions C33_map_archive_roundtrip.
Theorem C33_map_validated_is_exact :
  forall (K V AK AV : Type) (kcmp : K -> K -> comparison) (akcmp : AK -> AK -> comparison)
    (dek : AK -> K) (dev : AV -> V) (valid : AK * AV -> bool) (am : list (AK * AV)),
    OrdLaws kcmp -> OrdLaws akcmp -> (forall x y, kcmp (dek x) (dek y) = akcmp x y) ->
    vmap_check_bytes akcmp valid am = CheckOk ->
    (forall a, vmap_get akcmp am a = lookup akcmp a am) /\
    keys_sorted kcmp (vmap_unarchive dek dev am) /\
    forall a, vmap_get kcmp (vmap_unarchive dek dev am) (dek a) = option_map dev (vmap_get akcmp am a).
Proof.
  intros K V AK AV kcmp akcmp dek dev valid am L LA M C.
  apply (C33_map_check_iff_sorted AK AV akcmp valid _ LA) in C as [_ SA].
  assert (S : keys_sorted kcmp (vmap_unarchive dek dev am)) by (apply (keys_sorted_map_mono akcmp); assumption).
  split; [|split]; [|exact S|].
  - intros a. apply (get_spec LA _ _ SA).
  - intros a. rewrite (get_spec LA _ _ SA), (get_spec L _ _ S). now apply lookup_map_mono.
Qed.
Print Assumptions C33_map_validated_is_exact.
Example C33_map_archive_witness :
  vmap_check_bytes Nat.compare (fun p => snd p <? 200) (vmap_archive S (fun v => v * 2) ma) = CheckOk /\
  vmap_unarchive pred (fun v => v / 2) (vmap_archive S (fun v => v * 2) ma) = ma /\
  vmap_get Nat.compare (vmap_archive S (fun v => v * 2) ma) 2 = Some 20.
Proof. repeat split; reflexivity. Qed.

(** ** C64 (map part): vecmap! *)
Theorem C64_vecmap_macro :
  forall (K V : Type) (kcmp : K -> K -> comparison) (ps : list (K * V)), OrdLaws kcmp ->
    exists r, vecmap_macro kcmp ps = Ok r /\ keys_sorted kcmp r /\
      (forall k, vmap_get kcmp r k = lookup_last kcmp k ps) /\
      vmap_from_iter kcmp ps = Some r.
Proof.
  intros K V kcmp ps L.
  destruct (minsert_all_spec L ps [] sorted_nil) as (r & E & S & F).
  destruct (C23_collect_last_wins K V kcmp ps L) as (r' & E' & S' & F' & _).
  destruct (mfrom_iter_spec L ps) as (r2 & E2 & _ & F2).
  assert (r2 = r') as -> by congruence.
  assert (r = r') as ->.
  { apply (entry_ext L); auto. intros k. rewrite F, F2. now destruct (entry kcmp k (rev ps)). }
  exists r'. auto.
Qed.
Print Assumptions C64_vecmap_macro.
Example C64_map_witness : vecmap_macro Nat.compare [(2,0);(1,0);(2,5)] = Ok [(1,0);(2,5)].
Proof. reflexivity. Qed.

(** ** C65: Eq, Ord and Hash of VecMap *)
Theorem C65_map_eq_extensional :
  forall (K V : Type) (kcmp : K -> K -> comparison) (veqb : V -> V -> bool) (a b : list (K * V)),
    OrdLaws kcmp -> keys_sorted kcmp a -> keys_sorted kcmp b ->
    (vmap_eqb kcmp veqb a b = true <->
     forall k, match vmap_get kcmp a k, vmap_get kcmp b k with
               | Some x, Some y => veqb x y = true
               | None, None => True
               | _, _ => False
               end).
Proof.
  intros K V kcmp veqb a b L Sa Sb.
  enough (G : vmap_eqb kcmp veqb a b = true <->
     forall k, match lookup kcmp k a, lookup kcmp k b with
               | Some x, Some y => veqb x y = true
               | None, None => True
               | _, _ => False
               end).
  { rewrite G. split; intros H k; specialize (H k); rewrite !(get_spec L) in * by assumption; exact H. }
  revert b Sb. induction a as [|[k x] a IH]; intros [|[k' y] b] Sb; cbn [vmap_eqb].
  - split; auto. intros _ k. exact I.
  - split; [discriminate|]. intros H. specialize (H k'). cbn in H. rewrite (cmp_refl L) in H. destruct H.
  - split; [discriminate|]. intros H. specialize (H k). cbn in H. rewrite (cmp_refl L) in H. destruct H.
  - assert (Sa0 := Sa). assert (Sb0 := Sb).
    apply keys_sorted_cons in Sa0 as [Sa' Ha], Sb0 as [Sb' Hb].
    assert (LN : forall k1 k2 (m : list (K * V)), (forall k' v', In (k', v') m -> kcmp k2 k' = Lt) ->
      kcmp k1 k2 <> Gt -> lookup kcmp k1 m = None).
    { intros k1 k2 m H N. rewrite lookup_entry. destruct (entry kcmp k1 m) as [[k3 v3]|] eqn:Q; [|reflexivity].
      apply entry_Some_In in Q as [Q1 Q2]. apply H in Q1. cbn in Q2. exfalso.
      destruct (kcmp k1 k2) eqn:E; [| |congruence].
      - rewrite (cmp_eq_l L _ _ _ E) in Q2. congruence.
      - rewrite (cmp_lt_trans L _ _ _ E Q1) in Q2. discriminate. }
    cbn [fst snd]. rewrite !andb_true_iff, (IH Sa' b Sb'). unfold eqb_of. split.
    + intros [[E Ev] H] q. cbn [lookup]. destruct (kcmp k k') eqn:Ek; try discriminate.
      rewrite <- (cmp_eq_r L _ _ q Ek). destruct (kcmp q k); auto; apply H.
    + intros H.
      assert (Ek : kcmp k k' = Eq).
      { destruct (kcmp k k') eqn:Ek; [reflexivity|exfalso..].
        - specialize (H k). cbn in H. rewrite (cmp_refl L), Ek in H.
          rewrite (LN k k' b Hb) in H by congruence. exact H.
        - specialize (H k'). cbn in H. apply (cmp_gt_lt L) in Ek.
          rewrite (cmp_refl L), Ek in H. rewrite (LN k' k a Ha) in H by congruence. exact H. }
      rewrite Ek. split; [split; [reflexivity|]|].
      * specialize (H k). cbn in H. now rewrite (cmp_refl L), Ek in H.
      * intros q. specialize (H q). cbn [lookup] in H. rewrite <- (cmp_eq_r L _ _ q Ek) in H.
        destruct (kcmp q k) eqn:Eq; [|assumption..].
        rewrite (LN q k a Ha), (LN q k' b Hb); [exact I| |congruence].
        rewrite <- (cmp_eq_r L _ _ q Ek). congruence.
Qed.
Print Assumptions C65_map_eq_extensional.
Theorem C65_map_ord_hash :
  forall (K V : Type) (kcmp : K -> K -> comparison) (vcmp : V -> V -> comparison),
    OrdLaws kcmp -> OrdLaws vcmp ->
    OrdLaws (vmap_cmp kcmp vcmp) /\
    (forall a b, vmap_cmp kcmp vcmp a b = Eq <-> vmap_eqb kcmp (eqb_of vcmp) a b = true) /\
    (forall (H : Type) (hl : nat -> list H) (hk : K -> list H) (hv : V -> list H) a b,
       (forall x y, kcmp x y = Eq -> hk x = hk y) -> (forall x y, vcmp x y = Eq -> hv x = hv y) ->
       vmap_eqb kcmp (eqb_of vcmp) a b = true -> vmap_hash hl hk hv a = vmap_hash hl hk hv b).
Proof.
  intros K V kcmp vcmp L LV.
  destruct (C30_vecset_from_vecmap K V kcmp vcmp [] L LV sorted_nil) as (LP & _).
  assert (Q : forall a b, vmap_eqb kcmp (eqb_of vcmp) a b = vset_eqb (pair_cmp kcmp vcmp) a b).
  { induction a as [|[k x] a IH]; intros [|[k' y] b]; cbn [vmap_eqb vset_eqb]; auto.
    rewrite <- IH. f_equal. unfold eqb_of, pair_cmp. cbn. destruct (kcmp k k'); auto. }
  split; [exact (vset_cmp_laws LP)|]. split.
  - intros a b. rewrite Q. apply vset_cmp_eq.
  - intros H hl hk hv a b Hk Hv. rewrite Q. intros E.
    apply (vset_hash_eq (cmp := pair_cmp kcmp vcmp) hl (fun p => hk (fst p) ++ hv (snd p)) a b); [|exact E].
    intros [k x] [k' y] Ep. unfold pair_cmp in Ep. cbn in *. destruct (kcmp k k') eqn:Ek; try discriminate.
    now rewrite (Hk _ _ Ek), (Hv _ _ Ep).
Qed.
Print Assumptions C65_map_ord_hash.
Example C65_witness :
  vmap_eqb Nat.compare Nat.eqb ma ma = true /\ vmap_eqb Nat.compare Nat.eqb ma mb = false /\
  vmap_cmp Nat.compare Nat.compare ma mb = Gt.
Proof. repeat split; reflexivity. Qed.
