(** Property C118 (radix trees): every identity of the algebra of left-biased union, intersection and
    difference holds of the tree operations as [==], pure or in place, and no other one does.
    Property C119: a tree is determined by its entries. *)
From Verif Require Import RadixReach PropRadix.

(** ** Specification: expressions, and what they hold at one key *)
Inductive rconn := RUnion | RInter | RMinus.
Inductive rexp := RVar (i : nat) | REmpty | ROp (c : rconn) (in_place : bool) (x y : rexp).
Definition rconn_at {V} (c : rconn) (x y : option V) : option V :=
  match c with
  | RUnion => match x with Some v => Some v | None => y end
  | RInter => match y with Some _ => x | None => None end
  | RMinus => match y with Some _ => None | None => x end
  end.
(** the value an expression holds at a key at which variable i holds [o i] *)
Fixpoint r_at {V} (o : nat -> option V) (x : rexp) : option V :=
  match x with
  | RVar i => o i
  | REmpty => None
  | ROp c _ x y => rconn_at c (r_at o x) (r_at o y)
  end.

(** ** Running an expression on the model *)
Section Run.
  Context {K V : Type} (kcmp : K -> K -> comparison) (strat : nat -> nat -> bool).
  Definition r_apply (c : rconn) (in_place : bool) (a b : rtree K V) : res (rtree K V) :=
    match c, in_place with
    | RUnion, false => rt_union kcmp strat a b
    | RUnion, true => rt_union_with kcmp strat a b
    | RInter, false => rt_intersection kcmp strat a b
    | RInter, true => rt_intersection_with kcmp strat a b
    | RMinus, false => rt_difference kcmp strat a b
    | RMinus, true => rt_difference_with kcmp strat a b
    end.
  Fixpoint r_run (rho : nat -> rtree K V) (x : rexp) : res (rtree K V) :=
    match x with
    | RVar i => Ok (rho i)
    | REmpty => Ok rt_empty
    | ROp c m x y => rbind (r_run rho x) (fun a => rbind (r_run rho y) (fun b => r_apply c m a b))
    end.
End Run.

Section Proofs.
  Context {K : Type} {kcmp : K -> K -> comparison} (L : OrdLaws kcmp) (E : OrdEq kcmp) (strat : nat -> nat -> bool).
  Context {V : Type}.
  Notation WO := (WO kcmp).
  Notation Canon := (Canon kcmp).
  Notation lk := (lk kcmp).

  Lemma lk_is (t : rtree K V) k o : WO t -> (forall v, has t k v <-> o = Some v) -> lk t k = o.
  Proof.
    intros W H. destruct (lk t k) as [v|] eqn:Q.
    - apply (lk_has E) in Q; auto. apply H in Q. auto.
    - destruct o as [v|]; [|reflexivity]. assert (X : has t k v) by now apply H. apply (lk_has E) in X; auto. congruence.
  Qed.
  Lemma none_lk (t : rtree K V) k : WO t -> ((forall v, ~ has t k v) <-> lk t k = None).
  Proof. intros W. rewrite <- (holds_lk E) by auto. reflexivity. Qed.
  Lemma some_lk (t : rtree K V) k : WO t -> ((exists v, has t k v) <-> lk t k <> None).
  Proof.
    intros W. split.
    - intros (v & H). apply (lk_has E) in H; auto. congruence.
    - intros H. destruct (lk t k) as [v|] eqn:Q; [|congruence]. exists v. now apply (lk_has E).
  Qed.

  Lemma r_apply_ok c m (a b : rtree K V) : Canon a -> Canon b ->
    exists r, r_apply kcmp strat c m a b = Ok r /\ Canon r /\ forall k, lk r k = rconn_at c (lk a k) (lk b k).
  Proof.
    intros Ca Cb. pose proof (canon_WO _ Ca) as Wa. pose proof (canon_WO _ Cb) as Wb.
    assert (U : forall op, combines (kcmp := kcmp) op a b (fun t => forall k v, has t k v <-> has a k v \/ has b k v /\ forall x, ~ has a k x) ->
      exists r, op a b = Ok r /\ Canon r /\ forall k, lk r k = rconn_at RUnion (lk a k) (lk b k)).
    { intros op (t & Q & Wt & C & H). exists t. split; [exact Q|]. split; [auto|]. intros k. apply lk_is; auto. intros v.
      rewrite H, none_lk by auto. rewrite <- !(lk_has E) by auto. cbn [rconn_at].
      destruct (lk a k), (lk b k); split; intros; try tauto; intuition congruence. }
    assert (I : forall op, combines (kcmp := kcmp) op a b (fun t => forall k v, has t k v <-> has a k v /\ exists w, has b k w) ->
      exists r, op a b = Ok r /\ Canon r /\ forall k, lk r k = rconn_at RInter (lk a k) (lk b k)).
    { intros op (t & Q & Wt & C & H). exists t. split; [exact Q|]. split; [auto|]. intros k. apply lk_is; auto. intros v.
      rewrite H, some_lk by auto. rewrite <- !(lk_has E) by auto. cbn [rconn_at].
      destruct (lk a k), (lk b k); split; intros; intuition congruence. }
    assert (D : forall op, combines (kcmp := kcmp) op a b (fun t => forall k v, has t k v <-> has a k v /\ forall w, ~ has b k w) ->
      exists r, op a b = Ok r /\ Canon r /\ forall k, lk r k = rconn_at RMinus (lk a k) (lk b k)).
    { intros op (t & Q & Wt & C & H). exists t. split; [exact Q|]. split; [auto|]. intros k. apply lk_is; auto. intros v.
      rewrite H, none_lk by auto. rewrite <- !(lk_has E) by auto. cbn [rconn_at].
      destruct (lk a k), (lk b k); split; intros; intuition congruence. }
    destruct c, m; cbn [r_apply].
    - apply U. now apply (C48_union_with L E).
    - apply U. now apply (C48_union L E).
    - apply I. now apply (C49_intersection_with L E).
    - apply I. now apply (C49_intersection L E).
    - apply D. now apply (C50_difference_with L E).
    - apply D. now apply (C50_difference L E).
  Qed.
  Lemma empty_lk k : lk (@rt_empty K V) k = None.
  Proof. apply lk_is; [apply canon_WO, empty_canon|]. intros v. split; [|discriminate]. intros H. inversion H; subst; match goal with X : In _ [] |- _ => destruct X end. Qed.
  Lemma r_run_ok (rho : nat -> rtree K V) x : (forall i, Canon (rho i)) ->
    exists r, r_run kcmp strat rho x = Ok r /\ Canon r /\ forall k, lk r k = r_at (fun i => lk (rho i) k) x.
  Proof.
    intros H. induction x as [i| |c m x IHx y IHy]; cbn [r_run r_at].
    - eauto.
    - exists rt_empty. split; [reflexivity|]. split; [apply empty_canon|apply empty_lk].
    - destruct IHx as (a & -> & Sa & Ha), IHy as (b & -> & Sb & Hb). cbn [rbind].
      destruct (r_apply_ok c m a b Sa Sb) as (r & Q & S & Hr). exists r. split; [exact Q|]. split; [exact S|].
      intros k. now rewrite Hr, Ha, Hb.
  Qed.
  (** variable i holds [o i] at the empty key and nothing else *)
  Definition probe_trees (o : nat -> option V) (i : nat) : rtree K V :=
    match o i with Some v => rt_leaf v | None => rt_empty end.
  Lemma probe_canon o i : Canon (probe_trees o i).
  Proof. unfold probe_trees. destruct (o i) as [v|]; [|apply empty_canon]. apply (reach_canon L E strat). constructor. Qed.
  Lemma probe_lk o i : lk (probe_trees o i) [] = o i.
  Proof.
    apply lk_is; [apply canon_WO, probe_canon|]. intros w. unfold probe_trees. destruct (o i) as [v|] eqn:Q.
    - split; [intros H; inversion H; subst; [reflexivity|match goal with X : In _ [] |- _ => destruct X end]|]. intros [= ->]. apply has_here.
    - split; [intros H; inversion H; subst; match goal with X : In _ [] |- _ => destruct X end|discriminate].
  Qed.
  Lemma r_at_ext (o o' : nat -> option V) x : (forall i, o i = o' i) -> r_at o x = r_at o' x.
  Proof. intros H. induction x as [i| |c h x IHx y IHy]; cbn [r_at]; [apply H|reflexivity|now rewrite IHx, IHy]. Qed.
  Lemma probe_run o x : exists r, r_run kcmp strat (probe_trees o) x = Ok r /\ Canon r /\ lk r [] = r_at o x.
  Proof.
    destruct (r_run_ok (probe_trees o) x (probe_canon o)) as (r & Q & S & H). exists r. split; [exact Q|].
    split; [exact S|]. rewrite H. apply r_at_ext. intros i. apply probe_lk.
  Qed.
End Proofs.

Theorem C118_radix_identities :
  forall (K V : Type) (kcmp : K -> K -> comparison) (strat : nat -> nat -> bool) (veqb : V -> V -> bool) (e1 e2 : rexp),
    OrdLaws kcmp -> OrdEq kcmp -> (forall x y, veqb x y = true <-> x = y) ->
    ((forall o : nat -> option V, r_at o e1 = r_at o e2) <->
     (forall rho : nat -> rtree K V, (forall i, Canon kcmp (rho i)) ->
        exists r1 r2, r_run kcmp strat rho e1 = Ok r1 /\ r_run kcmp strat rho e2 = Ok r2 /\ rt_eqb kcmp veqb r1 r2 = true)).
Proof.
  intros K V kcmp strat veqb e1 e2 L E Hv. split.
  - intros H rho Sr. destruct (r_run_ok L E strat rho e1 Sr) as (r1 & Q1 & S1 & H1), (r_run_ok L E strat rho e2 Sr) as (r2 & Q2 & S2 & H2).
    exists r1, r2. split; [exact Q1|]. split; [exact Q2|]. apply (C47_eq_extensional L E veqb r1 r2 Hv S1 S2).
    intros k. rewrite !(get_ok L E) by now apply canon_WO. now rewrite H1, H2, H.
  - intros H o. destruct (probe_run L E strat o e1) as (r1 & Q1 & S1 & H1), (probe_run L E strat o e2) as (r2 & Q2 & S2 & H2).
    destruct (H (probe_trees o) (probe_canon L E strat o)) as (p1 & p2 & R1 & R2 & Q).
    rewrite R1 in Q1. injection Q1 as ->. rewrite R2 in Q2. injection Q2 as ->.
    apply (proj1 (C47_eq_extensional L E veqb r1 r2 Hv S1 S2)) with (k := []) in Q.
    rewrite !(get_ok L E) in Q by now apply canon_WO. injection Q as Q. congruence.
Qed.
Print Assumptions C118_radix_identities.

Theorem C118_radix_relations :
  forall (K V : Type) (kcmp : K -> K -> comparison) (strat : nat -> nat -> bool) (e1 e2 : rexp),
    OrdLaws kcmp -> OrdEq kcmp ->
    ((forall o : nat -> option V, r_at o e1 <> None -> r_at o e2 <> None) <->
     (forall rho : nat -> rtree K V, (forall i, Canon kcmp (rho i)) ->
        exists r1 r2, r_run kcmp strat rho e1 = Ok r1 /\ r_run kcmp strat rho e2 = Ok r2 /\
          rt_is_subset kcmp strat r1 r2 = Ok true)) /\
    ((forall o : nat -> option V, r_at o e1 = None \/ r_at o e2 = None) <->
     (forall rho : nat -> rtree K V, (forall i, Canon kcmp (rho i)) ->
        exists r1 r2, r_run kcmp strat rho e1 = Ok r1 /\ r_run kcmp strat rho e2 = Ok r2 /\
          rt_is_disjoint kcmp strat r1 r2 = Ok true)).
Proof.
  intros K V kcmp strat e1 e2 L E.
  assert (X : forall e rho, (forall i, Canon kcmp (rho i)) -> exists r : rtree K V, r_run kcmp strat rho e = Ok r /\ Canon kcmp r /\ WO kcmp r /\
     forall k, lk kcmp r k = r_at (fun i => lk kcmp (rho i) k) e).
  { intros e rho Sr. destruct (r_run_ok L E strat rho e Sr) as (r & Q & S & H). exists r. split; [exact Q|]. split; [exact S|]. split; [now apply canon_WO|exact H]. }
  split; split.
  - intros H rho Sr. destruct (X e1 rho Sr) as (r1 & Q1 & C1 & W1 & H1), (X e2 rho Sr) as (r2 & Q2 & C2 & W2 & H2).
    exists r1, r2. split; [exact Q1|]. split; [exact Q2|].
    destruct (C57_is_subset L E strat r1 r2 C1 W2) as (r & -> & R). f_equal. apply R. intros k v Hk.
    apply (some_lk E); auto. rewrite H2. apply H. rewrite <- H1. apply (lk_has E) in Hk; auto. congruence.
  - intros H o. destruct (probe_run L E strat o e1) as (r1 & Q1 & S1 & H1), (probe_run L E strat o e2) as (r2 & Q2 & S2 & H2).
    destruct (H (probe_trees o) (probe_canon L E strat o)) as (p1 & p2 & R1 & R2 & Q).
    rewrite R1 in Q1. injection Q1 as ->. rewrite R2 in Q2. injection Q2 as ->.
    pose proof (canon_WO _ S1) as W1. pose proof (canon_WO _ S2) as W2.
    destruct (C57_is_subset L E strat r1 r2 S1 W2) as (r & F & R). rewrite Q in F. injection F as <-.
    rewrite <- H1, <- H2. intros A. apply (some_lk E) in A as (v & Hv); auto. apply (some_lk E); auto.
    exact (proj1 R eq_refl [] v Hv).
  - intros H rho Sr. destruct (X e1 rho Sr) as (r1 & Q1 & C1 & W1 & H1), (X e2 rho Sr) as (r2 & Q2 & C2 & W2 & H2).
    exists r1, r2. split; [exact Q1|]. split; [exact Q2|].
    destruct (C58_is_disjoint L E strat r1 r2 W1 W2) as (r & -> & R). f_equal. apply R. intros (k & v & w & Hv & Hw).
    apply (lk_has E) in Hv; auto. apply (lk_has E) in Hw; auto. rewrite H1 in Hv. rewrite H2 in Hw.
    destruct (H (fun i => lk kcmp (rho i) k)); congruence.
  - intros H o. destruct (probe_run L E strat o e1) as (r1 & Q1 & S1 & H1), (probe_run L E strat o e2) as (r2 & Q2 & S2 & H2).
    destruct (H (probe_trees o) (probe_canon L E strat o)) as (p1 & p2 & R1 & R2 & Q).
    rewrite R1 in Q1. injection Q1 as ->. rewrite R2 in Q2. injection Q2 as ->.
    pose proof (canon_WO _ S1) as W1. pose proof (canon_WO _ S2) as W2.
    destruct (C58_is_disjoint L E strat r1 r2 W1 W2) as (r & F & R). rewrite Q in F. injection F as <-.
    rewrite <- H1, <- H2. destruct (lk kcmp r1 []) as [v|] eqn:A; [|auto]. destruct (lk kcmp r2 []) as [w|] eqn:B; [|auto].
    exfalso. apply (proj1 R eq_refl). exists [], v, w. split; now apply (lk_has E).
Qed.
Print Assumptions C118_radix_relations.

Example C118_radix_witness :
  let e1 := ROp RUnion true (ROp RMinus false (RVar 0) (RVar 1)) (ROp RInter true (RVar 0) (RVar 1)) in
  (forall o : nat -> option nat, r_at o e1 = r_at o (RVar 0)) /\ Canon Nat.compare wa /\ Canon Nat.compare wb /\
  r_run Nat.compare (fun _ _ => true) (fun i => if i =? 0 then wa else wb) e1 = Ok wa /\
  (* union is left biased, so this is no identity *)
  ~ (forall o : nat -> option nat, r_at o (ROp RUnion true (RVar 0) (RVar 1)) = r_at o (ROp RUnion true (RVar 1) (RVar 0))).
Proof.
  cbv zeta. split; [intros o; cbn [r_at rconn_at]; destruct (o 0), (o 1); reflexivity|].
  split; [apply (reach_canon nat_ord nat_ord_eq (fun _ _ => false)); apply r_from_iter with (l := [([1;2;3], 10); ([1;2;4], 20); ([1], 5); ([2;2], 7); ([1;2;3], 11)]); reflexivity|].
  split; [apply (reach_canon nat_ord nat_ord_eq (fun _ _ => true)); apply r_from_iter with (l := [([1;2;4], 1); ([1;2], 2); ([3], 3); ([2], 4)]); reflexivity|].
  split; [vm_compute; reflexivity|]. intros H. specialize (H (fun i => Some i)). discriminate H.
Qed.

Lemma lex_ord {K} {kcmp : K -> K -> comparison} (L : OrdLaws kcmp) : OrdLaws (lex kcmp).
Proof.
  split.
  - intros x. induction x as [|a x IH]; intros [|c y]; try reflexivity. cbn [lex]. rewrite (ord_opp L a c), (IH y).
    now destruct (kcmp a c).
  - intros x. induction x as [|a x IH]; intros [|c y] [|d z]; cbn [lex]; try congruence.
    destruct (kcmp a c) eqn:E1; destruct (kcmp c d) eqn:E2; try congruence; intros H1 H2.
    + rewrite (cmp_eq_trans L _ _ _ E1 E2). eauto.
    + rewrite (cmp_eq_l L _ _ d E1), E2. congruence.
    + rewrite <- (cmp_eq_r L _ _ a E2), E1. congruence.
    + rewrite (cmp_lt_trans L _ _ _ E1 E2). congruence.
Qed.
(** ** C119: a tree is determined by its entries *)
(** collecting what a tree yields, in any order and with any further entries put before it that it
    overrides, gives an equal tree; two trees that yield the same items are equal *)
Theorem C119_rebuilt_from_entries :
  forall (K V : Type) (kcmp : K -> K -> comparison) (strat : nat -> nat -> bool) (veqb : V -> V -> bool) (t : rtree K V),
    OrdLaws kcmp -> OrdEq kcmp -> (forall x y, veqb x y = true <-> x = y) -> Canon kcmp t ->
    exists l, rt_iter t = Ok l /\
      (forall before l', Permutation l l' -> (forall k v, In (k, v) before -> exists w, In (k, w) l) ->
         exists t', rt_from_iter kcmp strat (before ++ l') = Ok t' /\ rt_eqb kcmp veqb t' t = true) /\
      (forall u, Canon kcmp u -> (rt_iter u = Ok l <-> rt_eqb kcmp veqb u t = true)).
Proof.
  intros K V kcmp strat veqb t L E Hv C. pose proof (canon_WO _ C) as W.
  destruct (C56_iter E t W) as (l & Q & _ & S & H). exists l. split; [exact Q|].
  assert (ND : NoDup (map fst l)) by now apply (sorted_NoDup (lex_ord L)).
  assert (Fun : forall k v w, In (k, v) l -> In (k, w) l -> v = w).
  { intros k v w Hv1 Hw1. apply H in Hv1. apply H in Hw1. now apply (C44_functional E t k). }
  assert (X : forall u, Canon kcmp u -> (forall k v, has u k v <-> In (k, v) l) -> rt_eqb kcmp veqb u t = true).
  { intros u Cu Hu. pose proof (canon_WO _ Cu) as Wu. apply (C47_eq_extensional L E veqb u t Hv Cu C). intros k.
    rewrite !(get_ok L E) by auto. f_equal. apply (lk_is E); auto. intros v. rewrite Hu, H. symmetry. now apply (lk_has E). }
  split.
  - intros before l' P Hb. destruct (C45_from_iter L E strat (before ++ l')) as (t' & Qt & Ct & Ht). exists t'. split; [exact Qt|].
    apply X; [exact Ct|]. intros k v. rewrite Ht.
    assert (ND' : NoDup (map fst l')) by (eapply Permutation_NoDup; [apply Permutation_map, P|exact ND]).
    assert (In' : forall k v, In (k, v) l <-> In (k, v) l') by (intros k0 v0; split; apply Permutation_in; [exact P|now apply Permutation_sym]).
    split.
    + intros (l1 & l2 & Eq & N). apply In'.
      assert (M : In (k, v) (before ++ l')) by (rewrite Eq; apply in_elt).
      apply in_app_or in M as [M|M]; [|exact M].
      destruct (Hb k v M) as (w & Hw). apply In' in Hw.
      (* the entry (k, w) of l' lies in l2, or is this very entry *)
      destruct (in_split _ _ Hw) as (m1 & m2 & Em). subst l'.
      assert (Len : In (k, w) l2 \/ v = w).
      { clear - Eq ND' N. revert Eq. revert l1. induction before as [|[k0 v0] before IH]; intros l1 Eq; cbn [app] in Eq.
        - revert l1 Eq ND'. induction m1 as [|[k1 v1] m1 IHm]; intros l1 Eq ND'; cbn [app] in Eq.
          + destruct l1 as [|a l1]; cbn [app] in Eq; [injection Eq as -> _; auto|]. injection Eq as -> Eq.
            exfalso. cbn [map fst app] in ND'. inversion ND' as [|? ? A B]. apply A. rewrite Eq, map_app. cbn [map fst]. apply in_elt.
          + destruct l1 as [|a l1]; cbn [app] in Eq.
            * injection Eq as E1 E2 E3. subst. exfalso. apply (N w). apply in_elt.
            * injection Eq as _ Eq. apply (IHm l1 Eq). cbn [map app] in ND'. now inversion ND'.
        - destruct l1 as [|a l1]; cbn [app] in Eq.
          + injection Eq as E1 E2 E3. subst. exfalso. apply (N w). apply in_or_app. right. apply in_elt.
          + injection Eq as _ Eq. now apply (IH l1). }
      destruct Len as [M2| ->]; [exfalso; exact (N w M2)|apply in_elt].
    + intros Hk. apply In' in Hk. destruct (in_split _ _ Hk) as (m1 & m2 & ->).
      exists (before ++ m1), m2. split; [now rewrite <- app_assoc|]. intros w Hw.
      rewrite map_app in ND'. cbn [map fst] in ND'. apply NoDup_remove_2 in ND'. apply ND'. apply in_or_app. right.
      change k with (fst (k, w)). now apply in_map.
  - intros u Cu. pose proof (canon_WO _ Cu) as Wu. destruct (C56_iter E u Wu) as (lu & Qu & _ & Su & Hu). split.
    + intros Q2. rewrite Q2 in Qu. injection Qu as <-. apply X; [exact Cu|]. intros k v. symmetry. apply Hu.
    + intros Eq. rewrite Qu. f_equal.
      assert (G : forall k, rt_get kcmp u k = rt_get kcmp t k) by exact (proj1 (C47_eq_extensional L E veqb u t Hv Cu C) Eq).
      assert (Same : forall k v, In (k, v) lu <-> In (k, v) l).
      { intros k v. rewrite Hu, H. rewrite <- !(lk_has E) by auto. specialize (G k). rewrite !(get_ok L E) in G by auto. injection G as ->. reflexivity. }
      clear - L E Su S Same. revert l S Same. induction lu as [|[k v] lu IH]; intros l S Same.
      * destruct l as [|[k v] l]; [reflexivity|]. exfalso. apply (Same k v). now left.
      * destruct l as [|[k' v'] l]; [exfalso; apply (Same k v); now left|].
        cbn [map fst] in S, Su. apply (sorted_cons_inv) in S as [S S1]. apply sorted_cons_inv in Su as [Su S2].
        assert (k = k' /\ v = v') as [-> ->].
        { assert (A : In (k, v) ((k', v') :: l)) by (apply Same; now left).
          assert (B : In (k', v') ((k, v) :: lu)) by (apply Same; now left).
          destruct A as [A|A]; [injection A as <- <-; auto|]. destruct B as [B|B]; [injection B as <- <-; auto|].
          exfalso. apply (in_map fst) in A, B. cbn [fst] in A, B.
          apply S1 in A. apply S2 in B.
          apply (cmp_lt_gt (lex_ord L)) in A. congruence. }
        f_equal. apply IH; auto. intros k v. split; intros M.
        -- assert (N : In (k, v) ((k', v') :: l)) by (apply Same; now right). destruct N as [N|N]; [|exact N].
           injection N as <- <-. exfalso. apply (in_map fst) in M. apply S2 in M. cbn [fst] in M.
           rewrite (cmp_refl (lex_ord L)) in M. discriminate.
        -- assert (N : In (k, v) ((k', v') :: lu)) by (apply Same; now right). destruct N as [N|N]; [|exact N].
           injection N as <- <-. exfalso. apply (in_map fst) in M. apply S1 in M. cbn [fst] in M.
           rewrite (cmp_refl (lex_ord L)) in M. discriminate.
Qed.
Print Assumptions C119_rebuilt_from_entries.
Example C119_witness :
  Canon Nat.compare wa /\ rt_iter wa = Ok [([1], 5); ([1;2;3], 11); ([1;2;4], 20); ([2;2], 7)] /\
  rt_from_iter Nat.compare (fun _ _ => true) ([([2;2], 0); ([1], 1)] ++ [([2;2], 7); ([1;2;4], 20); ([1], 5); ([1;2;3], 11)]) = Ok wa.
Proof. split; [exact (proj1 (proj2 C118_radix_witness))|]. split; vm_compute; reflexivity. Qed.
