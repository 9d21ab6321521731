(** Property C146: the keys of a VecMap behave as a VecSet. *)
From Verif Require Import VecMapHist PropSet PropMap.

Section KeySets.
  Context {K : Type} {kcmp : K -> K -> comparison} (L : OrdLaws kcmp).
  Lemma key_in {V} k (m : list (K * V)) : keys_sorted kcmp m -> (In k (map fst m) <-> option_map fst (entry kcmp k m) = Some k).
  Proof.
    intros S. rewrite in_map_iff. split.
    - intros (p & <- & I). rewrite (entry_sorted L (fst p) m p S I); [reflexivity|]. apply (cmp_refl L).
    - destruct (entry kcmp k m) as [[k' v]|] eqn:Q; [|discriminate]. intros [= <-].
      apply entry_Some_In in Q as [I _]. now exists (k', v).
  Qed.
  Lemma key_mem {V} k (m : list (K * V)) : keys_sorted kcmp m -> (mem kcmp k (map fst m) <-> entry kcmp k m <> None).
  Proof.
    intros S. split.
    - intros (k' & I & D). apply in_map_iff in I as (p & <- & I). now rewrite (entry_sorted L k m p S I D).
    - destruct (entry kcmp k m) as [[k' v]|] eqn:Q; [|congruence]. intros _.
      apply entry_Some_In in Q as [I D]. exists k'. split; [|exact D]. apply in_map_iff. now exists (k', v).
  Qed.
End KeySets.

(** which keys an outer join with the closure [g] keeps *)
Definition keeps {K V W R} (g : ojarg K V W -> option R) (both left right : bool) : Prop :=
  forall x, g x <> None <-> match x with OJBoth _ _ _ => both | OJLeft _ _ => left | OJRight _ _ => right end = true.

Theorem C146_outer_join_keys :
  forall (K V W R E : Type) (kcmp : K -> K -> comparison) (strat strat' : nat -> nat -> bool)
    (a : list (K * V)) (b : list (K * W)) (g : ojarg K V W -> option R) (e : E),
    OrdLaws kcmp -> keys_sorted kcmp a -> keys_sorted kcmp b ->
    exists r, vmap_outer_join kcmp strat (pure_clos g) a b e = Done (r, e) /\
      (keeps g true true true -> vset_union kcmp strat' (map fst a) (map fst b) = Ok (map fst r)) /\
      (keeps g true false false -> vset_intersection kcmp strat' (map fst a) (map fst b) = Ok (map fst r)) /\
      (keeps g false true false -> vset_difference kcmp strat' (map fst a) (map fst b) = Ok (map fst r)) /\
      (keeps g false true true -> vset_symmetric_difference kcmp strat' (map fst a) (map fst b) = Ok (map fst r)).
Proof.
  intros K V W R E kcmp strat strat' a b g e L Sa Sb.
  destruct (C24_outer_join_pointwise K V W R E kcmp strat g a b e L Sa Sb) as (r & Q & S & F).
  exists r. split; [exact Q|].
  assert (In' : forall x y z, keeps g x y z -> forall k, In k (map fst r) <->
     (x = true /\ In k (map fst a) /\ mem kcmp k (map fst b)) \/
     (y = true /\ In k (map fst a) /\ ~ mem kcmp k (map fst b)) \/
     (z = true /\ In k (map fst b) /\ ~ mem kcmp k (map fst a))).
  { intros x y z G k. rewrite (key_in L k r S), (key_in L k a Sa), (key_in L k b Sb), (key_mem L k a Sa), (key_mem L k b Sb), F.
    destruct (entry kcmp k a) as [[k1 v]|], (entry kcmp k b) as [[k2 w]|]; cbn [option_map fst].
    - specialize (G (OJBoth k1 v w)). cbn in G. destruct (g _), x; cbn; intuition congruence.
    - specialize (G (OJLeft k1 v)). cbn in G. destruct (g _), y; cbn; intuition congruence.
    - specialize (G (OJRight k2 w)). cbn in G. destruct (g _), z; cbn; intuition congruence.
    - intuition congruence. }
  destruct (C04_union_exact _ kcmp strat' (map fst a) (map fst b) L Sa Sb) as (r1 & Q1 & S1 & H1).
  destruct (C05_intersection_exact _ kcmp strat' (map fst a) (map fst b) L Sa Sb) as (r2 & Q2 & S2 & H2).
  destruct (C06_difference_exact _ kcmp strat' (map fst a) (map fst b) L Sa Sb) as (r3 & Q3 & S3 & H3).
  destruct (C07_symmetric_difference_exact _ kcmp strat' (map fst a) (map fst b) L Sa Sb) as (r4 & Q4 & S4 & H4).
  rewrite Q1, Q2, Q3, Q4.
  split; [|split; [|split]]; intros G; f_equal; apply (sorted_ext L); auto; intros k; rewrite (In' _ _ _ G).
  - rewrite H1. destruct (mem_dec (cmp := kcmp) k (map fst b)); intuition congruence.
  - rewrite H2. intuition congruence.
  - rewrite H3. intuition congruence.
  - rewrite H4. intuition congruence.
Qed.
Print Assumptions C146_outer_join_keys.

Theorem C146_other_joins_keys :
  forall (K V W R E : Type) (kcmp : K -> K -> comparison) (strat strat' : nat -> nat -> bool)
    (a : list (K * V)) (b : list (K * W)) (e : E),
    OrdLaws kcmp -> keys_sorted kcmp a -> keys_sorted kcmp b ->
    (forall g : K * V * W -> option R, exists r, vmap_inner_join kcmp strat (pure_clos g) a b e = Done (r, e) /\
       ((forall x, g x <> None) -> vset_intersection kcmp strat' (map fst a) (map fst b) = Ok (map fst r))) /\
    (forall g : K * V * option W -> option R, exists r, vmap_left_join kcmp strat (pure_clos g) a b e = Done (r, e) /\
       ((forall x, g x <> None) -> map fst r = map fst a) /\
       ((forall k v o, g (k, v, o) <> None <-> o <> None) -> vset_intersection kcmp strat' (map fst a) (map fst b) = Ok (map fst r)) /\
       ((forall k v o, g (k, v, o) <> None <-> o = None) -> vset_difference kcmp strat' (map fst a) (map fst b) = Ok (map fst r))) /\
    (forall g : K * option V * W -> option R, exists r, vmap_right_join kcmp strat (pure_clos g) a b e = Done (r, e) /\
       ((forall x, g x <> None) -> forall k, mem kcmp k (map fst r) <-> mem kcmp k (map fst b)) /\
       ((forall k o w, g (k, o, w) <> None <-> o <> None) -> vset_intersection kcmp strat' (map fst a) (map fst b) = Ok (map fst r)) /\
       ((forall k o w, g (k, o, w) <> None <-> o = None) -> vset_difference kcmp strat' (map fst b) (map fst a) = Ok (map fst r))).
Proof.
  intros K V W R E kcmp strat strat' a b e L Sa Sb.
  destruct (C05_intersection_exact _ kcmp strat' (map fst a) (map fst b) L Sa Sb) as (r2 & Q2 & S2 & H2).
  destruct (C06_difference_exact _ kcmp strat' (map fst a) (map fst b) L Sa Sb) as (r3 & Q3 & S3 & H3).
  destruct (C06_difference_exact _ kcmp strat' (map fst b) (map fst a) L Sb Sa) as (r4 & Q4 & S4 & H4).
  rewrite Q2, Q3, Q4. split; [|split]; intros g.
  - destruct (C27_inner_join_pointwise K V W R E kcmp strat g a b e L Sa Sb) as (r & Q & S & F). exists r. split; [exact Q|].
    intros G. f_equal. apply (sorted_ext L); auto. intros k.
    rewrite H2, (key_in L k r S), (key_in L k a Sa), (key_mem L k b Sb), F.
    destruct (entry kcmp k a) as [[k1 v]|], (entry kcmp k b) as [[k2 w]|]; cbn [option_map fst]; try intuition congruence.
    specialize (G (k1, v, w)). destruct (g _); cbn; intuition congruence.
  - destruct (C25_left_join_pointwise K V W R E kcmp strat g a b e L Sa Sb) as (r & Q & S & F). exists r. split; [exact Q|].
    assert (F' : forall k, entry kcmp k r = match entry kcmp k a with
       | Some (k1, x) => option_map (pair k1) (g (k1, x, option_map snd (entry kcmp k b))) | None => None end).
    { intros k. now rewrite F, (get_spec L), lookup_entry by exact Sb. }
    split; [|split]; intros G; [|f_equal|f_equal]; apply (sorted_ext L); auto; intros k; rewrite ?H2, ?H3;
      rewrite (key_in L k r S), (key_in L k a Sa), ?(key_mem L k b Sb), F';
      destruct (entry kcmp k a) as [[k1 v]|], (entry kcmp k b) as [[k2 w]|]; cbn [option_map fst snd]; try (intuition congruence);
      first [specialize (G (k1, v, Some w))|specialize (G (k1, v, None))|specialize (G k1 v (Some w))|specialize (G k1 v None)];
      destruct (g _); cbn; intuition congruence.
  - destruct (C26_right_join_pointwise K V W R E kcmp strat g a b e L Sa Sb) as (r & Q & S & F). exists r. split; [exact Q|].
    split; [|split]; intros G; [|f_equal|f_equal]; try (apply (sorted_ext L); auto); intros k; rewrite ?H2, ?H4;
      rewrite ?(key_mem L k r S), ?(key_in L k r S), ?(key_in L k a Sa), ?(key_mem L k b Sb), ?(key_in L k b Sb), ?(key_mem L k a Sa), F;
      destruct (entry kcmp k a) as [[k1 v]|], (entry kcmp k b) as [[k2 w]|]; cbn [option_map fst snd]; try (intuition congruence);
      first [specialize (G (k1, Some v, w))|specialize (G (k2, None, w))|specialize (G k1 (Some v) w)|specialize (G k2 None w)];
      destruct (g _); cbn; intuition congruence.
Qed.
Print Assumptions C146_other_joins_keys.

Theorem C146_single_element :
  forall (K V : Type) (kcmp : K -> K -> comparison) (m : list (K * V)) (k : K) (x : V),
    OrdLaws kcmp -> keys_sorted kcmp m ->
    (vset_contains kcmp (map fst m) k = true <-> vmap_get kcmp m k <> None) /\
    (exists m' new, vmap_insert kcmp m k x = Ok (m', vmap_get kcmp m k) /\
       vset_insert kcmp (map fst m) k = Ok (map fst m', new) /\ (new = true <-> vmap_get kcmp m k = None)) /\
    (forall p : K -> bool, map fst (vmap_retain m (fun e => p (fst e))) = vset_retain (map fst m) p).
Proof.
  intros K V kcmp m k x L S.
  assert (G : vset_contains kcmp (map fst m) k = true <-> vmap_get kcmp m k <> None).
  { rewrite (contains_spec L), (key_mem L k m S), (get_spec L), lookup_entry by exact S.
    destruct (entry kcmp k m); cbn; intuition congruence. }
  split; [exact G|]. split.
  - destruct (C22_point_operations K V kcmp m k x L S) as (_ & (m' & Q & S' & F) & _).
    destruct (insert_spec L (map fst m) k S) as (l' & Q' & Sl & H).
    exists m', (negb (memb kcmp k (map fst m))). split; [exact Q|]. split.
    + rewrite Q'. do 2 f_equal. apply (sorted_ext L); auto. intros z.
      rewrite H, (key_in L z m' S'), (key_in L z m S), F. pose proof (cmp_sym L) as SY.
      destruct (kcmp z k) eqn:D; cbn [option_map fst].
      * apply SY in D. intuition congruence.
      * assert (z <> k) by (intros ->; rewrite (cmp_refl L) in D; discriminate).
        assert (kcmp k z <> Eq) by (intros D'; apply SY in D'; congruence). tauto.
      * assert (z <> k) by (intros ->; rewrite (cmp_refl L) in D; discriminate).
        assert (kcmp k z <> Eq) by (intros D'; apply SY in D'; congruence). tauto.
    + rewrite Bool.negb_true_iff, memb_false, (key_mem L k m S), (get_spec L), lookup_entry by exact S.
      destruct (entry kcmp k m); cbn; intuition congruence.
  - intros p. unfold vset_retain, vmap_retain. clear. induction m as [|e m IH]; [reflexivity|].
    cbn [map filter]. destruct (p (fst e)); cbn [map]; now rewrite IH.
Qed.
Print Assumptions C146_single_element.

(** Collecting: a map keeps the last entry of each key and a set the first of several equal elements, so
    the keys are the same up to equality, and identical if only identical keys are equal. *)
Theorem C146_collect :
  forall (K V : Type) (kcmp : K -> K -> comparison) (items : list (K * V)),
    OrdLaws kcmp ->
    exists r s, vmap_from_iter kcmp items = Some r /\ vset_from_iter kcmp (map fst items) = Some s /\
      length s = length r /\ (forall k, vset_contains kcmp s k = true <-> vmap_get kcmp r k <> None) /\
      (OrdEq kcmp -> s = map fst r).
Proof.
  intros K V kcmp items L.
  destruct (from_iter_spec L (map fst items)) as (s & Qs & Ds).
  destruct (sort_dedup_by_spec (by_key_ord fst kcmp L) items KeepLast) as (r & Qr & Dr).
  destruct (is_dedup_entry (kcmp := kcmp) KeepLast items r Dr) as (Sr & _).
  assert (Ss : sorted kcmp s) by apply Ds.
  assert (B : forall k v (m : list (K * V)), mem (by_key fst kcmp) (k, v) m <-> mem kcmp k (map fst m)).
  { intros k v m. split.
    - intros (p & I & D). exists (fst p). split; [now apply in_map|exact D].
    - intros (k' & I & D). apply in_map_iff in I as (p & <- & I). now exists p. }
  assert (M : forall k, mem kcmp k s <-> mem kcmp k (map fst r)).
  { intros k. rewrite (is_dedup_mem KeepFirst (map fst items) s k Ds). split.
    - intros H. assert (exists v : V, True) as [v _] by (destruct H as (k' & I & _); apply in_map_iff in I as (p & _); now exists (snd p)).
      apply (B k v). apply (is_dedup_mem KeepLast items r (k, v) Dr). now apply B.
    - intros H. assert (exists v : V, True) as [v _] by (destruct H as (k' & I & _); apply in_map_iff in I as (p & _); now exists (snd p)).
      apply (B k v). apply (is_dedup_mem KeepLast items r (k, v) Dr). now apply B. }
  exists r, s. split; [exact Qr|]. split; [exact Qs|]. split.
  { rewrite <- (map_length fst r). apply (len_card L); auto. now apply sorted_distinct. }
  split.
  - intros k. rewrite (contains_spec L), M, (key_mem L k r Sr), (get_spec L), lookup_entry by assumption.
    destruct (entry kcmp k r); cbn; intuition congruence.
  - intros E. apply (sorted_ext L); auto. intros k.
    assert (X : forall l, In k l <-> mem kcmp k l).
    { intros l. split; [apply (mem_In L)|]. intros (y & I & D). now apply E in D as <-. }
    now rewrite !X.
Qed.
Print Assumptions C146_collect.

Example C146_witness :
  keys_sorted pcmp [((1,1),5); ((2,2),6)] /\ keys_sorted pcmp [((2,9),7); ((3,3),8)] /\
  keeps (fun x : ojarg (nat * nat) nat nat => match x with OJBoth _ v w => Some (v + w) | OJLeft _ v => Some v | OJRight _ w => Some w end) true true true /\
  vmap_outer_join pcmp alt (pure_clos (fun x : ojarg (nat * nat) nat nat =>
      match x with OJBoth _ v w => Some (v + w) | OJLeft _ v => Some v | OJRight _ w => Some w end))
    [((1,1),5); ((2,2),6)] [((2,9),7); ((3,3),8)] tt = Done ([((1,1),5); ((2,2),13); ((3,3),8)], tt) /\
  vset_union pcmp alt [(1,1); (2,2)] [(2,9); (3,3)] = Ok [(1,1); (2,2); (3,3)] /\
  vmap_from_iter pcmp [((1,1),5); ((1,2),6)] = Some [((1,2),6)] /\ vset_from_iter pcmp [(1,1); (1,2)] = Some [(1,1)].
Proof.
  split; [now apply sortedb_ok|]. split; [now apply sortedb_ok|]. split; [intros []; cbn; intuition congruence|].
  repeat split; vm_compute; reflexivity.
Qed.
