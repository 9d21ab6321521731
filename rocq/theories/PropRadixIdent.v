(** Property C140 (radix trees): outer_combine, inner_combine, left_combine, their in-place forms,
    insert and filter_prefix, however they are nested, compute at every key the function of the
    operands' values at that key that the call describes; so two such expressions give equal trees for
    all operands exactly if they agree as functions of optional values, and trees with at most one
    entry are enough to tell them apart. (left_combine with a function that does not keep values the
    other tree lacks is excluded: see C51.) *)
From Verif Require Import RadixReach PropRadix PropRadixAlgebra.

(** ** Specification: expressions over tree variables and their value at one key *)
Section Exp.
  Context {K V : Type}.
  Inductive kexp :=
  | KVar (i : nat)
  | KEmpty
  | KSingle (k : list K) (v : V)                              (* RadixTree::single *)
  | KInsert (x : kexp) (k : list K) (v : V)                   (* insert *)
  | KOuter (f : V -> V -> option V) (x y : kexp)              (* outer_combine *)
  | KOuterWith (f : V -> V -> V * bool) (x y : kexp)          (* outer_combine_with *)
  | KInner (f : V -> V -> option V) (x y : kexp)              (* inner_combine *)
  | KInnerWith (f : V -> V -> V * bool) (x y : kexp)          (* inner_combine_with *)
  | KLeft (f : V -> option V -> option V) (x y : kexp)        (* left_combine *)
  | KLeftWith (f : V -> V -> V * bool) (x y : kexp)           (* left_combine_with *)
  | KFilter (x : kexp) (p : list K).                          (* filter_prefix *)

  Context (kcmp : K -> K -> comparison).
  Fixpoint key_starts (k p : list K) {struct p} : bool :=
    match p, k with
    | [], _ => true
    | c :: p, d :: k => match kcmp c d with Eq => key_starts k p | _ => false end
    | _ :: _, [] => false
    end.
  Definition key_same (k p : list K) : bool := (length k =? length p) && key_starts k p.
  (** the value of an expression at key [k], given the variables' values there *)
  Fixpoint kval (k : list K) (o : nat -> option V) (e : kexp) : option V :=
    match e with
    | KVar i => o i
    | KEmpty => None
    | KSingle k' v => if key_same k k' then Some v else None
    | KInsert x k' v => if key_same k k' then Some v else kval k o x
    | KOuter f x y =>
        match kval k o x, kval k o y with Some v, Some w => f v w | Some v, None => Some v | None, r => r end
    | KOuterWith f x y =>
        match kval k o x, kval k o y with
        | Some v, Some w => let (u, keep) := f v w in if keep then Some u else None
        | Some v, None => Some v
        | None, r => r
        end
    | KInner f x y => match kval k o x, kval k o y with Some v, Some w => f v w | _, _ => None end
    | KInnerWith f x y =>
        match kval k o x, kval k o y with
        | Some v, Some w => let (u, keep) := f v w in if keep then Some u else None
        | _, _ => None
        end
    | KLeft f x y => match kval k o x with Some v => f v (kval k o y) | None => None end
    | KLeftWith f x y =>
        match kval k o x, kval k o y with
        | Some v, Some w => let (u, keep) := f v w in if keep then Some u else None
        | Some v, None => Some v
        | None, _ => None
        end
    | KFilter x p => if key_starts k p then kval k o x else None
    end.
  (** every left_combine keeps the values the right tree lacks *)
  Fixpoint keeps_rest (e : kexp) : Prop :=
    match e with
    | KVar _ | KEmpty | KSingle _ _ => True
    | KInsert x _ _ | KFilter x _ => keeps_rest x
    | KOuter _ x y | KOuterWith _ x y | KInner _ x y | KInnerWith _ x y | KLeftWith _ x y => keeps_rest x /\ keeps_rest y
    | KLeft f x y => (forall v, f v None = Some v) /\ keeps_rest x /\ keeps_rest y
    end.
End Exp.
Arguments kexp : clear implicits.

(** ** Running an expression on the model *)
Section Run.
  Context {K V : Type} (kcmp : K -> K -> comparison) (strat : nat -> nat -> bool).
  Definition both {X} (g : X -> X -> res X) (rx ry : res X) : res X := rbind rx (fun a => rbind ry (fun b => g a b)).
  Fixpoint k_run (rho : nat -> rtree K V) (e : kexp K V) : res (rtree K V) :=
    match e with
    | KVar i => Ok (rho i)
    | KEmpty => Ok rt_empty
    | KSingle k v => Ok (rt_single k v)
    | KInsert x k v => rbind (k_run rho x) (fun t => rt_insert kcmp strat t k v)
    | KOuter f x y => both (rt_outer_combine kcmp strat f) (k_run rho x) (k_run rho y)
    | KOuterWith f x y => both (rt_outer_combine_with kcmp strat f) (k_run rho x) (k_run rho y)
    | KInner f x y => both (rt_inner_combine kcmp strat f) (k_run rho x) (k_run rho y)
    | KInnerWith f x y => both (rt_inner_combine_with kcmp strat f) (k_run rho x) (k_run rho y)
    | KLeft f x y => both (rt_left_combine kcmp strat f) (k_run rho x) (k_run rho y)
    | KLeftWith f x y => both (rt_left_combine_with kcmp strat f) (k_run rho x) (k_run rho y)
    | KFilter x p => rbind (k_run rho x) (fun t => rt_filter_prefix kcmp t p)
    end.
End Run.

(** ** Proofs *)
Section Proofs.
  Context {K : Type} {kcmp : K -> K -> comparison} (L : OrdLaws kcmp) (E : OrdEq kcmp) (strat : nat -> nat -> bool).
  Context {V : Type}.
  Notation WO := (WO kcmp).
  Notation Canon := (Canon kcmp).
  Notation lk := (lk kcmp).

  Lemma key_starts_spec k p : key_starts kcmp k p = true <-> starts_with k p.
  Proof.
    revert k. induction p as [|c p IH]; intros k; cbn [key_starts].
    - split; [intros _; now exists k|reflexivity].
    - destruct k as [|d k]; [split; [discriminate|intros (s & H); discriminate]|].
      destruct (kcmp c d) eqn:Q.
      + apply E in Q as ->. rewrite IH. split; intros (s & H); exists s; [now rewrite H|now injection H].
      + split; [discriminate|]. intros (s & H). injection H as -> _. rewrite (cmp_refl L) in Q. discriminate.
      + split; [discriminate|]. intros (s & H). injection H as -> _. rewrite (cmp_refl L) in Q. discriminate.
  Qed.
  Lemma key_same_spec k p : key_same kcmp k p = true <-> k = p.
  Proof.
    unfold key_same. rewrite andb_true_iff, Nat.eqb_eq, key_starts_spec. split.
    - intros (H & s & ->). rewrite app_length in H. destruct s; [apply app_nil_r|cbn in H; lia].
    - intros ->. split; [reflexivity|]. exists []. now rewrite app_nil_r.
  Qed.

  Definition kcomputes (d : res (rtree K V)) (F : list K -> option V) : Prop :=
    exists t, d = Ok t /\ Canon t /\ forall k, lk t k = F k.

  Lemma pointwise_lk g (a b t : rtree K V) : WO a -> WO b -> WO t -> pointwise g a b t -> forall k, lk t k = g (lk a k) (lk b k).
  Proof.
    intros Wa Wb Wt H k. apply (holds_lk E); auto. apply H. exists (lk a k), (lk b k).
    split; [now apply (holds_lk E)|]. split; [now apply (holds_lk E)|reflexivity].
  Qed.
  Lemma kboth op g (G : option V -> option V -> option V) rx ry X Y :
    (forall a b, WO a -> WO b -> combines (kcmp := kcmp) op a b (pointwise g a b)) ->
    (forall p q, g p q = G p q) ->
    kcomputes rx X -> kcomputes ry Y -> kcomputes (both op rx ry) (fun k => G (X k) (Y k)).
  Proof.
    intros H EG (a & -> & Ca & Ha) (b & -> & Cb & Hb). unfold both. cbn [rbind].
    pose proof (canon_WO _ Ca) as Wa. pose proof (canon_WO _ Cb) as Wb.
    destruct (H a b Wa Wb) as (t & Q & Wt & C & P). exists t. split; [exact Q|]. split; [now apply C|].
    intros k. rewrite (pointwise_lk g a b t), Ha, Hb; auto.
  Qed.
  Lemma single_ok k0 (v0 : V) : Canon (rt_single k0 v0) /\ forall k, lk (rt_single k0 v0) k = if key_same kcmp k k0 then Some v0 else None.
  Proof.
    assert (C : Canon (rt_single k0 v0)) by (apply (reach_canon L E strat); constructor).
    split; [exact C|]. intros k. apply lk_is; auto; [now apply canon_WO|]. intros v.
    assert (H : has (rt_single k0 v0) k v <-> k = k0 /\ v = v0).
    { split; [|intros (-> & ->); apply has_here]. intros H. inversion H; subst; [auto|match goal with X : In _ [] |- _ => destruct X end]. }
    rewrite H. destruct (key_same kcmp k k0) eqn:Q.
    - apply key_same_spec in Q as ->. split; [intros (_ & ->); reflexivity|intros [= ->]; auto].
    - split; [|discriminate]. intros (-> & _). assert (X : key_same kcmp k0 k0 = true) by now apply key_same_spec. congruence.
  Qed.

  Lemma k_run_ok rho e : (forall i, Canon (rho i)) -> keeps_rest e ->
    kcomputes (k_run kcmp strat rho e) (fun k => kval kcmp k (fun i => lk (rho i) k) e).
  Proof.
    intros Cr. induction e as [i| |k' v'|x IHx k' v'|f x IHx y IHy|f x IHx y IHy|f x IHx y IHy|f x IHx y IHy|f x IHx y IHy|f x IHx y IHy|x IHx p];
      cbn [keeps_rest k_run kval].
    - intros _. exists (rho i). auto.
    - intros _. exists rt_empty. split; [reflexivity|]. split; [apply empty_canon|apply (empty_lk E)].
    - intros _. exists (rt_single k' v'). split; [reflexivity|]. apply single_ok.
    - intros B. destruct (IHx B) as (a & -> & Ca & Ha). cbn [rbind]. pose proof (canon_WO _ Ca) as Wa.
      destruct (C45_insert L E strat a k' v' Wa) as (t & Q & Wt & C & H). exists t. split; [exact Q|]. split; [now apply C|].
      intros k. apply (lk_is E); auto. intros v. rewrite H. destruct (key_same kcmp k k') eqn:S.
      + apply key_same_spec in S as ->. split; [intros [[_ ->]|[N _]]; [reflexivity|congruence]|intros [= ->]; auto].
      + assert (N : k <> k') by (intros Q2; apply key_same_spec in Q2; congruence). rewrite <- Ha, (lk_has E) by auto. tauto.
    - intros (Bx & By). eapply (kboth _ (outer_at f) (fun p q => match p, q with Some v, Some w => f v w | Some v, None => Some v | None, r => r end)); auto.
      intros; now apply C48_outer_combine.
    - intros (Bx & By). eapply (kboth _ (outer_at (PropRadix.kept f)) (fun p q => match p, q with Some v, Some w => let (u, keep) := f v w in if keep then Some u else None | Some v, None => Some v | None, r => r end)); auto.
      + intros; now apply C48_outer_combine_with.
      + intros [v|] [w|]; cbn; try reflexivity. unfold PropRadix.kept. now destruct (f v w).
    - intros (Bx & By). eapply (kboth _ (inner_at f) (fun p q => match p, q with Some v, Some w => f v w | _, _ => None end)); auto.
      intros; now apply C49_inner_combine.
    - intros (Bx & By). eapply (kboth _ (inner_at (PropRadix.kept f)) (fun p q => match p, q with Some v, Some w => let (u, keep) := f v w in if keep then Some u else None | _, _ => None end)); auto.
      + intros; now apply C49_inner_combine_with.
      + intros [v|] [w|]; cbn; try reflexivity. unfold PropRadix.kept. now destruct (f v w).
    - intros (Hf & Bx & By). eapply (kboth _ (fun p q => match p with Some v => f v q | None => None end) (fun p q => match p with Some v => f v q | None => None end)); auto.
      intros; now apply C51_left_combine_partial.
    - intros (Bx & By). eapply (kboth _ (left_at (PropRadix.kept f)) (fun p q => match p, q with Some v, Some w => let (u, keep) := f v w in if keep then Some u else None | Some v, None => Some v | None, _ => None end)); auto.
      + intros; now apply C50_left_combine_with.
      + intros [v|] [w|]; cbn; try reflexivity. unfold PropRadix.kept. now destruct (f v w).
    - intros B. destruct (IHx B) as (a & -> & Ca & Ha). cbn [rbind]. pose proof (canon_WO _ Ca) as Wa.
      destruct (C54_filter_prefix L E a p Wa) as (t & Q & Wt & C & H). exists t. split; [exact Q|]. split; [now apply C|].
      intros k. apply (lk_is E); auto. intros v. rewrite H, <- key_starts_spec, <- Ha, <- (lk_has E) by auto.
      destruct (key_starts kcmp k p); intuition congruence.
  Qed.

  Lemma kval_ext k o o' (e : kexp K V) : (forall i, o i = o' i) -> kval kcmp k o e = kval kcmp k o' e.
  Proof.
    intros H. induction e as [i| |k' v'|x IHx k' v'|f x IHx y IHy|f x IHx y IHy|f x IHx y IHy|f x IHx y IHy|f x IHx y IHy|f x IHx y IHy|x IHx p];
      cbn [kval]; rewrite ?IHx, ?IHy; auto.
  Qed.
  (** the valuation in which variable i holds [o i] at [k] and nothing else *)
  Definition one_trees (k : list K) (o : nat -> option V) (i : nat) : rtree K V :=
    match o i with Some v => rt_single k v | None => rt_empty end.
  Lemma one_trees_canon k o i : Canon (one_trees k o i).
  Proof. unfold one_trees. destruct (o i); [apply single_ok|apply empty_canon]. Qed.
  Lemma one_trees_lk k o i : lk (one_trees k o i) k = o i.
  Proof.
    unfold one_trees. destruct (o i) as [v|]; [|apply (empty_lk E)]. rewrite (proj2 (single_ok k v)).
    now rewrite (proj2 (key_same_spec k k) eq_refl).
  Qed.
  Lemma one_trees_run k o e : keeps_rest e ->
    exists t, k_run kcmp strat (one_trees k o) e = Ok t /\ Canon t /\ lk t k = kval kcmp k o e.
  Proof.
    intros B. destruct (k_run_ok (one_trees k o) e (one_trees_canon k o) B) as (t & Q & C & F).
    exists t. split; [exact Q|]. split; [exact C|]. rewrite F. apply kval_ext. intros i. apply one_trees_lk.
  Qed.
End Proofs.

(** Every expression returns a canonical tree whose value at each key is the pointwise one. *)
Theorem C140_combinations_are_pointwise :
  forall (K V : Type) (kcmp : K -> K -> comparison) (strat : nat -> nat -> bool) (e : kexp K V) (rho : nat -> rtree K V),
    OrdLaws kcmp -> OrdEq kcmp -> (forall i, Canon kcmp (rho i)) -> keeps_rest e ->
    exists t, k_run kcmp strat rho e = Ok t /\ Canon kcmp t /\
      forall k (o : nat -> option V), (forall i, holds (rho i) k (o i)) -> holds t k (kval kcmp k o e).
Proof.
  intros K V kcmp strat e rho L E Cr B. destruct (k_run_ok L E strat rho e Cr B) as (t & Q & C & F).
  exists t. split; [exact Q|]. split; [exact C|]. intros k o Ho. apply (holds_lk E); [now apply canon_WO|].
  rewrite F. apply kval_ext. intros i. apply (holds_lk E); [now apply canon_WO|apply Ho].
Qed.
Print Assumptions C140_combinations_are_pointwise.

(** Two expressions agree as functions of optional values exactly if they hold the same on all trees. *)
Theorem C140_combination_identities :
  forall (K V : Type) (kcmp : K -> K -> comparison) (strat : nat -> nat -> bool) (e1 e2 : kexp K V),
    OrdLaws kcmp -> OrdEq kcmp -> keeps_rest e1 -> keeps_rest e2 ->
    ((forall k o, kval kcmp k o e1 = kval kcmp k o e2) <->
     (forall rho, (forall i, Canon kcmp (rho i)) ->
        exists t1 t2, k_run kcmp strat rho e1 = Ok t1 /\ k_run kcmp strat rho e2 = Ok t2 /\
          forall k v, has t1 k v <-> has t2 k v)).
Proof.
  intros K V kcmp strat e1 e2 L E B1 B2. split.
  - intros H rho Cr. destruct (k_run_ok L E strat rho e1 Cr B1) as (t1 & Q1 & C1 & F1), (k_run_ok L E strat rho e2 Cr B2) as (t2 & Q2 & C2 & F2).
    exists t1, t2. split; [exact Q1|]. split; [exact Q2|]. intros k v.
    rewrite <- !(lk_has E) by now apply canon_WO. now rewrite F1, F2, H.
  - intros H k o. destruct (one_trees_run L E strat k o e1 B1) as (t1 & Q1 & C1 & F1), (one_trees_run L E strat k o e2 B2) as (t2 & Q2 & C2 & F2).
    destruct (H (one_trees k o) (one_trees_canon L E strat k o)) as (p1 & p2 & R1 & R2 & Q).
    rewrite R1 in Q1. injection Q1 as ->. rewrite R2 in Q2. injection Q2 as ->.
    rewrite <- F1, <- F2. apply (lk_is E); [now apply canon_WO|]. intros v. rewrite Q. symmetry. apply (lk_has E). now apply canon_WO.
Qed.
Print Assumptions C140_combination_identities.

(** ... and then the results are [==], for every reflexive [==] of values. *)
Theorem C140_identities_compare_equal :
  forall (K V : Type) (kcmp : K -> K -> comparison) (veqb : V -> V -> bool) (strat : nat -> nat -> bool) (e1 e2 : kexp K V),
    OrdLaws kcmp -> OrdEq kcmp -> (forall v, veqb v v = true) -> keeps_rest e1 -> keeps_rest e2 ->
    (forall k o, kval kcmp k o e1 = kval kcmp k o e2) ->
    forall rho, (forall i, Canon kcmp (rho i)) ->
      exists t1 t2, k_run kcmp strat rho e1 = Ok t1 /\ k_run kcmp strat rho e2 = Ok t2 /\ rt_eqb kcmp veqb t1 t2 = true.
Proof.
  intros K V kcmp veqb strat e1 e2 L E Rv B1 B2 H rho Cr.
  destruct (k_run_ok L E strat rho e1 Cr B1) as (t1 & Q1 & C1 & F1), (k_run_ok L E strat rho e2 Cr B2) as (t2 & Q2 & C2 & F2).
  exists t1, t2. split; [exact Q1|]. split; [exact Q2|]. apply (C47_eq_up_to_value_eq L E veqb t1 t2 C1 C2).
  intros k. rewrite !(get_ok L E) by now apply canon_WO. rewrite F1, F2, H. destruct (kval _ _ _ e2); auto.
Qed.
Print Assumptions C140_identities_compare_equal.

(** Trees with at most one entry, all at the same key, are enough to refute an identity. *)
Theorem C140_one_entry_suffices :
  forall (K V : Type) (kcmp : K -> K -> comparison) (strat : nat -> nat -> bool) (e1 e2 : kexp K V),
    OrdLaws kcmp -> OrdEq kcmp -> keeps_rest e1 -> keeps_rest e2 ->
    (forall (k : list K) (rho : nat -> rtree K V),
       (forall i, rho i = rt_empty \/ exists v, rho i = rt_single k v) ->
       exists t1 t2, k_run kcmp strat rho e1 = Ok t1 /\ k_run kcmp strat rho e2 = Ok t2 /\
         forall v, has t1 k v <-> has t2 k v) ->
    forall rho, (forall i, Canon kcmp (rho i)) ->
      exists t1 t2, k_run kcmp strat rho e1 = Ok t1 /\ k_run kcmp strat rho e2 = Ok t2 /\
        forall k v, has t1 k v <-> has t2 k v.
Proof.
  intros K V kcmp strat e1 e2 L E B1 B2 H. apply C140_combination_identities; auto. intros k o.
  destruct (one_trees_run L E strat k o e1 B1) as (t1 & Q1 & C1 & F1), (one_trees_run L E strat k o e2 B2) as (t2 & Q2 & C2 & F2).
  destruct (H k (one_trees k o)) as (p1 & p2 & R1 & R2 & Q).
  - intros i. unfold one_trees. destruct (o i); eauto.
  - rewrite R1 in Q1. injection Q1 as ->. rewrite R2 in Q2. injection Q2 as ->.
    rewrite <- F1, <- F2. apply (lk_is E); [now apply canon_WO|]. intros v. rewrite Q. symmetry. apply (lk_has E). now apply canon_WO.
Qed.
Print Assumptions C140_one_entry_suffices.

(** Instances, and a false identity. *)
Example C140_witness :
  let alt := fun n m : nat => n <=? m in
  let plus x y := KOuter (fun v w : nat => Some (v + w)) x y in
  let plus_with x y := KOuterWith (fun v w : nat => (v + w, true)) x y in
  (* addition is commutative, pure or in place, and filter_prefix distributes over it *)
  (forall rho, (forall i, Canon Nat.compare (rho i)) ->
     exists t1 t2, k_run Nat.compare alt rho (KFilter (plus (KVar 0) (KVar 1)) [1]) = Ok t1 /\
       k_run Nat.compare alt rho (plus_with (KFilter (KVar 1) [1]) (KFilter (KVar 0) [1])) = Ok t2 /\
       rt_eqb Nat.compare Nat.eqb t1 t2 = true) /\
  (* a left combination that keeps the left values is the left tree *)
  (forall rho, (forall i, Canon Nat.compare (rho i)) ->
     exists t1 t2, k_run Nat.compare alt rho (KLeft (fun v _ => Some v) (KVar 0) (KVar 1)) = Ok t1 /\
       k_run Nat.compare alt rho (KVar 0) = Ok t2 /\ rt_eqb Nat.compare Nat.eqb t1 t2 = true) /\
  (* insert is not absorbed by filter_prefix *)
  ~ (forall k o, kval Nat.compare k o (KFilter (KInsert (KVar 0) [2] 7) [1]) =
                 kval Nat.compare k o (KInsert (KFilter (KVar 0) [1]) [2] 7)) /\
  Canon Nat.compare wa /\ Canon Nat.compare wb /\
  (exists t, k_run Nat.compare alt (fun i => if i =? 0 then wa else wb)
     (KFilter (plus (KVar 0) (KInsert (KVar 1) [1;2;3] 100)) [1]) = Ok t /\
     rt_iter t = Ok [([1], 5); ([1;2], 2); ([1;2;3], 111); ([1;2;4], 21)]).
Proof.
  assert (R : forall v, (v =? v) = true) by apply Nat.eqb_refl. cbv zeta.
  split; [|split; [|split; [|split; [|split]]]].
  - apply C140_identities_compare_equal; [exact nat_ord|exact nat_ord_eq|exact R|cbn; tauto|cbn; tauto|].
    intros k o. cbn [kval]. destruct (key_starts Nat.compare k [1]), (o 0), (o 1); try reflexivity. f_equal. apply Nat.add_comm.
  - apply C140_identities_compare_equal; [exact nat_ord|exact nat_ord_eq|exact R|cbn; tauto|cbn; tauto|].
    intros k o. cbn [kval]. destruct (o 0); reflexivity.
  - intros H. specialize (H [2] (fun _ => None)). discriminate.
  - exact (proj1 (proj2 C118_radix_witness)).
  - exact (proj1 (proj2 (proj2 C118_radix_witness))).
  - eexists. split; vm_compute; reflexivity.
Qed.
