(** Property C144: a radix tree is a sorted map from key sequences to values. Listing a tree's entries
    turns get into the lookup of a VecMap whose keys are ordered lexicographically, insert into its
    insert, collecting into its collecting, outer_combine, inner_combine, left_combine_with and their
    variants into its joins, filter_prefix into its retain, and == into its ==. *)
From Verif Require Import VecMapHist PropSet PropMap RadixReach PropRadix PropRadixAlgebra.

Section Repr.
  Context {K : Type} {kcmp : K -> K -> comparison} (L : OrdLaws kcmp) (E : OrdEq kcmp) (strat : nat -> nat -> bool).
  Context {V : Type}.
  Notation WO := (WO kcmp).
  Notation Canon := (Canon kcmp).
  Notation lk := (lk kcmp).
  Notation lcmp := (lex kcmp).

  Lemma lex_eq : OrdEq lcmp.
  Proof.
    assert (H : forall x y, lcmp x y = Eq -> x = y).
    { intros x. induction x as [|a x IH]; intros [|b y]; cbn [lex]; try discriminate; [reflexivity|].
      destruct (kcmp a b) eqn:Q; try discriminate. apply E in Q as ->. intros H. now rewrite (IH y H). }
    intros x y. first [exact (H x y)|split; [exact (H x y)|intros ->; apply (cmp_refl (lex_ord L))]].
  Qed.
  Let LL : OrdLaws lcmp := lex_ord L.

  Lemma entry_own k (m : list (list K * V)) p : entry lcmp k m = Some p -> p = (k, snd p).
  Proof. intros H. apply entry_Some_In in H as [_ H]. apply lex_eq in H. destruct p. cbn in *. congruence. Qed.
  Lemma entry_in k v (m : list (list K * V)) : keys_sorted lcmp m -> (In (k, v) m <-> entry lcmp k m = Some (k, v)).
  Proof.
    intros S. split; [|intros H; now apply entry_Some_In in H as [H _]].
    intros H. apply (entry_sorted LL k m (k, v) S H). apply (cmp_refl LL).
  Qed.

  Lemma lists (t : rtree K V) : WO t ->
    exists l, rt_iter t = Ok l /\ keys_sorted lcmp l /\ forall k, option_map snd (entry lcmp k l) = lk t k.
  Proof.
    intros W. destruct (C56_iter E t W) as (l & Q & _ & S & H). exists l. split; [exact Q|]. split; [exact S|].
    intros k. symmetry. apply (lk_is E); auto. intros v. rewrite <- H, entry_in by exact S. split.
    - intros ->. reflexivity.
    - destruct (entry lcmp k l) as [p|] eqn:Qe; [|discriminate]. apply entry_own in Qe. rewrite Qe. cbn. now intros [= ->].
  Qed.
  (** the entries of a tree are determined by what it holds *)
  Lemma lists_as (t : rtree K V) r : WO t -> keys_sorted lcmp r ->
    (forall k, option_map snd (entry lcmp k r) = lk t k) -> rt_iter t = Ok r.
  Proof.
    intros W S H. destruct (lists t W) as (l & -> & Sl & Hl). f_equal. apply (entry_ext LL); auto. intros k.
    specialize (H k). specialize (Hl k). rewrite <- H in Hl.
    destruct (entry lcmp k l) as [p|] eqn:Q1, (entry lcmp k r) as [q|] eqn:Q2; try discriminate; [|reflexivity].
    apply entry_own in Q1, Q2. cbn in Hl. congruence.
  Qed.
  Lemma pointwise_lists g (a b t : rtree K V) : WO a -> WO b -> WO t -> pointwise g a b t -> forall k, lk t k = g (lk a k) (lk b k).
  Proof.
    intros Wa Wb Wt H k. apply (holds_lk E); auto. apply H. exists (lk a k), (lk b k).
    split; [now apply (holds_lk E)|]. split; [now apply (holds_lk E)|reflexivity].
  Qed.
End Repr.

(** ** Theorems. [la], [lb]: the entries of the operands. *)
Theorem C144_queries :
  forall (K V : Type) (kcmp : K -> K -> comparison) (veqb : V -> V -> bool) (a b : rtree K V),
    OrdLaws kcmp -> OrdEq kcmp -> Canon kcmp a -> Canon kcmp b ->
    exists la lb, rt_iter a = Ok la /\ keys_sorted (lex kcmp) la /\ rt_iter b = Ok lb /\ keys_sorted (lex kcmp) lb /\
      (forall k, rt_get kcmp a k = Ok (vmap_get (lex kcmp) la k)) /\
      (rt_eqb kcmp veqb a b = vmap_eqb (lex kcmp) veqb la lb).
Proof.
  intros K V kcmp veqb a b L E Ca Cb. pose proof (canon_WO _ Ca) as Wa. pose proof (canon_WO _ Cb) as Wb.
  destruct (lists L E a Wa) as (la & Qa & Sa & Ha), (lists L E b Wb) as (lb & Qb & Sb & Hb).
  assert (G : forall k (t : rtree K V) l, WO kcmp t -> keys_sorted (lex kcmp) l ->
     (forall k, option_map snd (entry (lex kcmp) k l) = lk kcmp t k) -> rt_get kcmp t k = Ok (vmap_get (lex kcmp) l k)).
  { intros k t l W S H. rewrite (get_ok L E) by exact W. now rewrite (get_spec (lex_ord L)), lookup_entry, H by exact S. }
  exists la, lb. repeat (split; [assumption|]). split; [intros k; now apply G|].
  apply Bool.eq_iff_eq_true. rewrite (C47_eq_up_to_value_eq L E veqb a b Ca Cb).
  rewrite (C65_map_eq_extensional (list K) V (lex kcmp) veqb la lb (lex_ord L) Sa Sb).
  split; intros H k; specialize (H k); rewrite (G k a la Wa Sa Ha), (G k b lb Wb Sb Hb) in *;
    destruct (vmap_get (lex kcmp) la k), (vmap_get (lex kcmp) lb k); auto.
Qed.
Print Assumptions C144_queries.

Theorem C144_insert_and_filter :
  forall (K V : Type) (kcmp : K -> K -> comparison) (strat : nat -> nat -> bool) (a : rtree K V),
    OrdLaws kcmp -> OrdEq kcmp -> Canon kcmp a ->
    exists la, rt_iter a = Ok la /\ keys_sorted (lex kcmp) la /\
      (forall k v, exists t l old, rt_insert kcmp strat a k v = Ok t /\ Canon kcmp t /\ rt_iter t = Ok l /\
         vmap_insert (lex kcmp) la k v = Ok (l, old)) /\
      (forall p (starts : list K -> bool), (forall k, starts k = true <-> exists s, k = p ++ s) ->
         exists t, rt_filter_prefix kcmp a p = Ok t /\ Canon kcmp t /\
           rt_iter t = Ok (vmap_retain la (fun e => starts (fst e)))).
Proof.
  intros K V kcmp strat a L E Ca. pose proof (canon_WO _ Ca) as Wa.
  destruct (lists L E a Wa) as (la & Qa & Sa & Ha). exists la. split; [exact Qa|]. split; [exact Sa|].
  assert (Dec : forall k k' : list K, lex kcmp k k' = Eq <-> k = k').
  { intros k k'. split; [apply (lex_eq L E)|]. intros ->. apply (cmp_refl (lex_ord L)). }
  split.
  - intros k v. destruct (C45_insert L E strat a k v Wa) as (t & Q & Wt & C & H).
    destruct (C22_point_operations (list K) V (lex kcmp) la k v (lex_ord L) Sa) as (_ & (m' & Qi & Si & Hi) & _).
    exists t, m'. eexists. split; [exact Q|]. split; [now apply C|]. split; [|exact Qi].
    apply (lists_as L E); auto. intros q. symmetry. apply (lk_is E); auto. intros w. rewrite H.
    assert (X : option_map snd (entry (lex kcmp) q m') = match lex kcmp q k with Eq => Some v | _ => lk kcmp a q end).
    { rewrite Hi. destruct (lex kcmp q k); try reflexivity; apply Ha. }
    rewrite X. destruct (lex kcmp q k) eqn:D.
    + apply Dec in D as ->. split; [intros [[_ ->]|[N _]]; [reflexivity|congruence]|intros [= ->]; auto].
    + assert (N : q <> k) by (intros D2; apply Dec in D2; congruence). rewrite (lk_has E) by auto. tauto.
    + assert (N : q <> k) by (intros D2; apply Dec in D2; congruence). rewrite (lk_has E) by auto. tauto.
  - intros p starts Hs. destruct (C54_filter_prefix L E a p Wa) as (t & Q & Wt & C & H).
    exists t. split; [exact Q|]. split; [now apply C|].
    destruct (retain_spec (lex_ord L) la (fun e => starts (fst e)) Sa) as [S F].
    apply (lists_as L E); auto. intros k. symmetry. apply (lk_is E); auto. intros v. rewrite H, F, <- (lk_has E), <- Ha by auto.
    destruct (entry (lex kcmp) k la) as [q|] eqn:Qe; [|cbn; intuition discriminate]. apply (entry_own L E) in Qe. rewrite Qe. cbn [fst option_map snd].
    unfold starts_with. rewrite <- Hs. destruct (starts k); cbn; intuition congruence.
Qed.
Print Assumptions C144_insert_and_filter.

(** an in-place closure changes the value and says whether to keep it *)
Definition kept_value {V} (f : V -> V -> V * bool) (v w : V) : option V := if snd (f v w) then Some (fst (f v w)) else None.
Theorem C144_combinations_are_joins :
  forall (K V : Type) (kcmp : K -> K -> comparison) (strat strat' : nat -> nat -> bool) (a b : rtree K V),
    OrdLaws kcmp -> OrdEq kcmp -> Canon kcmp a -> Canon kcmp b ->
    exists la lb, rt_iter a = Ok la /\ keys_sorted (lex kcmp) la /\ rt_iter b = Ok lb /\ keys_sorted (lex kcmp) lb /\
      let outer f := vmap_outer_join (lex kcmp) strat' (pure_clos (fun x : ojarg (list K) V V =>
        match x with OJLeft _ v => Some v | OJRight _ w => Some w | OJBoth _ v w => f v w end)) la lb tt in
      let inner (f : V -> V -> option V) := vmap_inner_join (lex kcmp) strat' (pure_clos (fun '(_, v, w) => f v w)) la lb tt in
      let left (f : V -> V -> option V) := vmap_left_join (lex kcmp) strat' (pure_clos (fun '(_, v, o) =>
        match o with Some w => f v w | None => Some v end)) la lb tt in
      (forall f, exists t l, rt_outer_combine kcmp strat f a b = Ok t /\ rt_iter t = Ok l /\ outer f = Done (l, tt)) /\
      (forall f, exists t l, rt_outer_combine_with kcmp strat f a b = Ok t /\ rt_iter t = Ok l /\ outer (kept_value f) = Done (l, tt)) /\
      (forall f, exists t l, rt_inner_combine kcmp strat f a b = Ok t /\ rt_iter t = Ok l /\ inner f = Done (l, tt)) /\
      (forall f, exists t l, rt_inner_combine_with kcmp strat f a b = Ok t /\ rt_iter t = Ok l /\ inner (kept_value f) = Done (l, tt)) /\
      (forall f, exists t l, rt_left_combine_with kcmp strat f a b = Ok t /\ rt_iter t = Ok l /\ left (kept_value f) = Done (l, tt)).
Proof.
  intros K V kcmp strat strat' a b L E Ca Cb. pose proof (canon_WO _ Ca) as Wa. pose proof (canon_WO _ Cb) as Wb.
  destruct (lists L E a Wa) as (la & Qa & Sa & Ha), (lists L E b Wb) as (lb & Qb & Sb & Hb).
  exists la, lb. repeat (split; [assumption|]). cbv zeta. pose proof (lex_ord L) as LL.
  assert (X : forall (op : rtree K V -> rtree K V -> res (rtree K V)) g d r,
     combines (kcmp := kcmp) op a b (pointwise g a b) -> d = Done (r, tt) -> keys_sorted (lex kcmp) r ->
     (forall k, option_map snd (entry (lex kcmp) k r) =
        g (option_map snd (entry (lex kcmp) k la)) (option_map snd (entry (lex kcmp) k lb))) ->
     exists t l, op a b = Ok t /\ rt_iter t = Ok l /\ d = Done (l, tt)).
  { intros op g d r (t & Q & Wt & _ & P) -> S H. exists t, r. split; [exact Q|]. split; [|reflexivity].
    apply (lists_as L E); auto. intros k. rewrite H, Ha, Hb. symmetry. now apply (pointwise_lists E). }
  assert (XO : forall (op : rtree K V -> rtree K V -> res (rtree K V)) f, combines (kcmp := kcmp) op a b (pointwise (outer_at f) a b) ->
     exists t l, op a b = Ok t /\ rt_iter t = Ok l /\ vmap_outer_join (lex kcmp) strat' (pure_clos (fun x : ojarg (list K) V V =>
        match x with OJLeft _ v => Some v | OJRight _ w => Some w | OJBoth _ v w => f v w end)) la lb tt = Done (l, tt)).
  { intros op f C.
    match goal with |- exists t l, _ /\ _ /\ vmap_outer_join _ _ (pure_clos ?g) _ _ _ = _ =>
      destruct (C24_outer_join_pointwise (list K) V V V unit (lex kcmp) strat' g la lb tt LL Sa Sb) as (r & Q & S & F) end.
    apply (X op _ _ r C Q S). intros k. rewrite F.
    destruct (entry _ k la) as [[k1 v]|], (entry _ k lb) as [[k2 w]|]; cbn; try reflexivity. now destruct (f v w). }
  assert (XI : forall (op : rtree K V -> rtree K V -> res (rtree K V)) f, combines (kcmp := kcmp) op a b (pointwise (inner_at f) a b) ->
     exists t l, op a b = Ok t /\ rt_iter t = Ok l /\ vmap_inner_join (lex kcmp) strat' (pure_clos (fun '(_, v, w) => f v w)) la lb tt = Done (l, tt)).
  { intros op f C.
    match goal with |- exists t l, _ /\ _ /\ vmap_inner_join _ _ (pure_clos ?g) _ _ _ = _ =>
      destruct (C27_inner_join_pointwise (list K) V V V unit (lex kcmp) strat' g la lb tt LL Sa Sb) as (r & Q & S & F) end.
    apply (X op _ _ r C Q S). intros k. rewrite F.
    destruct (entry _ k la) as [[k1 v]|], (entry _ k lb) as [[k2 w]|]; cbn; try reflexivity. now destruct (f v w). }
  assert (XL : forall (op : rtree K V -> rtree K V -> res (rtree K V)) f, combines (kcmp := kcmp) op a b (pointwise (left_at f) a b) ->
     exists t l, op a b = Ok t /\ rt_iter t = Ok l /\ vmap_left_join (lex kcmp) strat' (pure_clos (fun '(_, v, o) =>
        match o with Some w => f v w | None => Some v end)) la lb tt = Done (l, tt)).
  { intros op f C.
    match goal with |- exists t l, _ /\ _ /\ vmap_left_join _ _ (pure_clos ?g) _ _ _ = _ =>
      destruct (C25_left_join_pointwise (list K) V V V unit (lex kcmp) strat' g la lb tt LL Sa Sb) as (r & Q & S & F) end.
    apply (X op _ _ r C Q S). intros k. rewrite F, (get_spec LL), lookup_entry by exact Sb.
    destruct (entry _ k la) as [[k1 v]|], (entry _ k lb) as [[k2 w]|]; cbn; try reflexivity. now destruct (f v w). }
  split; [|split; [|split; [|split]]]; intros f.
  - apply XO. now apply C48_outer_combine.
  - apply (XO _ (kept_value f)). now apply C48_outer_combine_with.
  - apply XI. now apply C49_inner_combine.
  - apply (XI _ (kept_value f)). now apply C49_inner_combine_with.
  - apply (XL _ (kept_value f)). now apply C50_left_combine_with.
Qed.
Print Assumptions C144_combinations_are_joins.

(** Collecting into a tree and collecting into a VecMap keep the same entries. *)
Theorem C144_collect :
  forall (K V : Type) (kcmp : K -> K -> comparison) (strat : nat -> nat -> bool) (items : list (list K * V)),
    OrdLaws kcmp -> OrdEq kcmp ->
    exists t l, rt_from_iter kcmp strat items = Ok t /\ Canon kcmp t /\ rt_iter t = Ok l /\
      vmap_from_iter (lex kcmp) items = Some l.
Proof.
  intros K V kcmp strat items L E. destruct (C45_from_iter L E strat items) as (t & Q & C & H).
  pose proof (canon_WO _ C) as W.
  destruct (C23_collect_last_wins (list K) V (lex kcmp) items (lex_ord L)) as (r & Qr & Sr & _ & Hr).
  exists t, r. split; [exact Q|]. split; [exact C|]. split; [|exact Qr].
  apply (lists_as L E); auto. intros k. symmetry. apply (lk_is E); auto. intros v. rewrite H.
  assert (X : last_bound items k v <-> In (k, v) r).
  { rewrite Hr. split; intros (l1 & l2 & Q1 & N); exists l1, l2; (split; [exact Q1|]).
    - intros ([k' w] & Hw & D). unfold by_key in D. cbn [fst] in D. apply (lex_eq L E) in D as <-. now apply (N w).
    - intros w Hw. apply N. exists (k, w). split; [exact Hw|]. unfold by_key. apply (cmp_refl (lex_ord L)). }
  rewrite X, (entry_in L) by exact Sr. split.
  - intros ->. reflexivity.
  - destruct (entry _ k r) as [p|] eqn:Qe; [|discriminate]. apply (entry_own L E) in Qe. rewrite Qe. cbn. now intros [= ->].
Qed.
Print Assumptions C144_collect.
Example C144_witness :
  Canon Nat.compare wa /\ Canon Nat.compare wb /\
  rt_iter wa = Ok [([1], 5); ([1;2;3], 11); ([1;2;4], 20); ([2;2], 7)] /\
  rt_iter wb = Ok [([1;2], 2); ([1;2;4], 1); ([2], 4); ([3], 3)] /\
  (exists t, rt_outer_combine Nat.compare alt (fun v w => Some (v + w)) wa wb = Ok t /\
     rt_iter t = Ok [([1], 5); ([1;2], 2); ([1;2;3], 11); ([1;2;4], 21); ([2], 4); ([2;2], 7); ([3], 3)]) /\
  vmap_outer_join (lex Nat.compare) alt (pure_clos (fun x : ojarg (list nat) nat nat =>
      match x with OJLeft _ v => Some v | OJRight _ w => Some w | OJBoth _ v w => Some (v + w) end))
    [([1], 5); ([1;2;3], 11); ([1;2;4], 20); ([2;2], 7)] [([1;2], 2); ([1;2;4], 1); ([2], 4); ([3], 3)] tt =
  Done ([([1], 5); ([1;2], 2); ([1;2;3], 11); ([1;2;4], 21); ([2], 4); ([2;2], 7); ([3], 3)], tt).
Proof.
  split; [exact (proj1 (proj2 C118_radix_witness))|]. split; [exact (proj1 (proj2 (proj2 C118_radix_witness)))|].
  split; [vm_compute; reflexivity|]. split; [vm_compute; reflexivity|].
  split; [eexists; split; vm_compute; reflexivity|vm_compute; reflexivity].
Qed.
