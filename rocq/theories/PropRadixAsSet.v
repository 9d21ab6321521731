(** Property C145: a radix set is a sorted set of key sequences. Listing a tree's keys turns union,
    intersection, difference (and the in-place forms), is_subset, is_superset, is_disjoint and
    contains_key into the operations of a VecSet whose elements are ordered lexicographically. *)
From Verif Require Import VecMapHist PropSet PropMap RadixReach PropRadix PropRadixAlgebra PropRadixAsMap.

Section Keys.
  Context {K : Type} {kcmp : K -> K -> comparison} (L : OrdLaws kcmp) (E : OrdEq kcmp).
  Notation WO := (WO kcmp).
  Notation lcmp := (lex kcmp).

  (** the keys of a tree, in the order in which they are listed *)
  Lemma lists_keys {V} (t : rtree K V) : WO t ->
    exists l, rt_iter t = Ok l /\ keys_sorted lcmp l /\ forall k, In k (map fst l) <-> exists v, has t k v.
  Proof.
    intros W. destruct (C56_iter E t W) as (l & Q & _ & S & H). exists l. split; [exact Q|]. split; [exact S|].
    intros k. rewrite in_map_iff. split.
    - intros ([k' v] & <- & I). apply H in I. now exists v.
    - intros (v & Hv). apply H in Hv. now exists (k, v).
  Qed.
  Lemma lists_keys_as {V} (t : rtree K V) ks : WO t -> sorted lcmp ks ->
    (forall k, In k ks <-> exists v, has t k v) -> exists l, rt_iter t = Ok l /\ ks = map fst l.
  Proof.
    intros W S H. destruct (lists_keys t W) as (l & Q & Sl & Hl). exists l. split; [exact Q|].
    apply (sorted_ext (lex_ord L)); auto. intros k. now rewrite H, Hl.
  Qed.
  Lemma mem_in k l : mem lcmp k l <-> In k l.
  Proof.
    split; [|apply (mem_In (lex_ord L))]. intros (y & I & D). now apply (lex_eq L E) in D as <-.
  Qed.
End Keys.

(** [la], [lb]: the entries of the operands; their values may have different types *)
Theorem C145_relations :
  forall (K V W : Type) (kcmp : K -> K -> comparison) (strat strat' : nat -> nat -> bool) (a : rtree K V) (b : rtree K W),
    OrdLaws kcmp -> OrdEq kcmp -> Canon kcmp a -> Canon kcmp b ->
    exists la lb, rt_iter a = Ok la /\ sorted (lex kcmp) (map fst la) /\ rt_iter b = Ok lb /\ sorted (lex kcmp) (map fst lb) /\
      (forall k, rt_contains_key kcmp a k = Ok (vset_contains (lex kcmp) (map fst la) k)) /\
      rt_is_subset kcmp strat a b = vset_is_subset (lex kcmp) strat' (map fst la) (map fst lb) /\
      rt_is_superset kcmp strat a b = vset_is_superset (lex kcmp) strat' (map fst la) (map fst lb) /\
      rt_is_disjoint kcmp strat a b = vset_is_disjoint (lex kcmp) strat' (map fst la) (map fst lb) /\
      rt_intersects kcmp strat a b = rmap negb (vset_is_disjoint (lex kcmp) strat' (map fst la) (map fst lb)).
Proof.
  intros K V W kcmp strat strat' a b L E Ca Cb. pose proof (canon_WO _ Ca) as Wa. pose proof (canon_WO _ Cb) as Wb.
  pose proof (lex_ord L) as LL.
  destruct (lists_keys E a Wa) as (la & Qa & Sa & Ha), (lists_keys E b Wb) as (lb & Qb & Sb & Hb).
  exists la, lb. repeat (split; [assumption|]).
  destruct (C57_is_subset L E strat a b Ca Wb) as (r1 & Q1 & H1), (C57_is_superset L E strat a b Wa Cb) as (r2 & Q2 & H2),
    (C58_is_disjoint L E strat a b Wa Wb) as (r3 & Q3 & H3), (C58_intersects L E strat a b Wa Wb) as (r4 & Q4 & H4).
  destruct (C09_predicates_decide _ (lex kcmp) strat' (map fst la) (map fst lb) LL Sa Sb)
    as ((s3 & P3 & G3) & (s1 & P1 & G1) & (s2 & P2 & G2)).
  assert (Ma : forall k, mem (lex kcmp) k (map fst la) <-> exists v, has a k v) by (intros k; now rewrite (mem_in L E), Ha).
  assert (Mb : forall k, mem (lex kcmp) k (map fst lb) <-> exists v, has b k v) by (intros k; now rewrite (mem_in L E), Hb).
  split.
  { intros k. destruct (C44_contains_key L E a k Wa) as (r & -> & H). f_equal. apply Bool.eq_iff_eq_true.
    now rewrite H, (contains_spec LL), Ma by exact Sa. }
  rewrite Q1, P1, Q2, P2, Q3, P3, Q4. cbn [rmap].
  assert (SH : share_key a b <-> exists k, mem (lex kcmp) k (map fst la) /\ mem (lex kcmp) k (map fst lb)).
  { split.
    - intros (k & v & w & H & H'). exists k. rewrite Ma, Mb. eauto.
    - intros (k & H & H'). apply Ma in H as [v H]. apply Mb in H' as [w H']. exists k, v, w. auto. }
  assert (X1 : r1 = s1).
  { apply Bool.eq_iff_eq_true. rewrite H1, G1. split.
    - intros H k M. apply Ma in M as [v M]. apply Mb. now apply (H k v).
    - intros H k v M. apply Mb, H, Ma. eauto. }
  assert (X2 : r2 = s2).
  { apply Bool.eq_iff_eq_true. rewrite H2, G2. split.
    - intros H k M. apply Mb in M as [v M]. apply Ma. now apply (H k v).
    - intros H k v M. apply Ma, H, Mb. eauto. }
  assert (X3 : r3 = s3).
  { apply Bool.eq_iff_eq_true. rewrite H3, G3, SH. split.
    - intros H k M. apply H. now exists k.
    - intros H [k M]. now apply (H k). }
  assert (X4 : r4 = negb s3).
  { rewrite <- X3. apply Bool.eq_iff_eq_true. rewrite H4, Bool.negb_true_iff. destruct r3; split; intros H; try congruence.
    - now destruct (proj1 H3 eq_refl).
    - destruct r4; [now apply H4|]. assert (N : ~ share_key a b) by (intros S; apply H4 in S; discriminate). now apply H3 in N. }
  now subst.
Qed.
Print Assumptions C145_relations.

Theorem C145_operations :
  forall (K V : Type) (kcmp : K -> K -> comparison) (strat strat' : nat -> nat -> bool) (a b : rtree K V),
    OrdLaws kcmp -> OrdEq kcmp -> Canon kcmp a -> Canon kcmp b ->
    exists la lb, rt_iter a = Ok la /\ sorted (lex kcmp) (map fst la) /\ rt_iter b = Ok lb /\ sorted (lex kcmp) (map fst lb) /\
      let agrees (op : rtree K V -> rtree K V -> res (rtree K V)) vop :=
        exists t l, op a b = Ok t /\ Canon kcmp t /\ rt_iter t = Ok l /\
          vop (map fst la) (map fst lb) = Ok (map fst l) in
      agrees (rt_union kcmp strat) (vset_union (lex kcmp) strat') /\
      agrees (rt_union_with kcmp strat) (vset_union (lex kcmp) strat') /\
      agrees (rt_intersection kcmp strat) (vset_intersection (lex kcmp) strat') /\
      agrees (rt_intersection_with kcmp strat) (vset_intersection (lex kcmp) strat') /\
      agrees (rt_difference kcmp strat) (vset_difference (lex kcmp) strat') /\
      agrees (rt_difference_with kcmp strat) (vset_difference (lex kcmp) strat').
Proof.
  intros K V kcmp strat strat' a b L E Ca Cb. pose proof (canon_WO _ Ca) as Wa. pose proof (canon_WO _ Cb) as Wb.
  pose proof (lex_ord L) as LL.
  destruct (lists_keys E a Wa) as (la & Qa & Sa & Ha), (lists_keys E b Wb) as (lb & Qb & Sb & Hb).
  exists la, lb. repeat (split; [assumption|]). cbv zeta.
  assert (X : forall op (vop : list (list K) -> list (list K) -> res (list (list K))) (P : rtree K V -> Prop) r,
     combines (kcmp := kcmp) op a b P -> vop (map fst la) (map fst lb) = Ok r -> sorted (lex kcmp) r ->
     (forall t k, P t -> In k r <-> exists v, has t k v) ->
     exists t l, op a b = Ok t /\ Canon kcmp t /\ rt_iter t = Ok l /\ vop (map fst la) (map fst lb) = Ok (map fst l)).
  { intros op vop P r (t & Q & Wt & C & HP) Qv S H.
    destruct (lists_keys_as L E t r Wt S (fun k => H t k HP)) as (l & Ql & ->).
    exists t, l. repeat split; auto. }
  destruct (C04_union_exact _ (lex kcmp) strat' (map fst la) (map fst lb) LL Sa Sb) as (u & Qu & Su & Hu).
  destruct (C05_intersection_exact _ (lex kcmp) strat' (map fst la) (map fst lb) LL Sa Sb) as (i & Qi & Si & Hi).
  destruct (C06_difference_exact _ (lex kcmp) strat' (map fst la) (map fst lb) LL Sa Sb) as (d & Qd & Sd & Hd).
  assert (U : forall t k, (forall k v, has t k v <-> has a k v \/ has b k v /\ forall x, ~ has a k x) -> In k u <-> exists v, has t k v).
  { intros t k H. rewrite Hu, (mem_in L E), Ha, Hb. split.
    - intros [[v I]|[[v I] N]]; exists v; apply H; [now left|right]. split; [exact I|]. intros x I'. eauto.
    - intros [v I]. apply H in I as [I|[I N]]; [left; eauto|right]. split; [eauto|]. intros [x I']. now apply (N x). }
  assert (I : forall t k, (forall k v, has t k v <-> has a k v /\ exists w, has b k w) -> In k i <-> exists v, has t k v).
  { intros t k H. rewrite Hi, (mem_in L E), Ha, Hb. split.
    - intros [[v J] N]. exists v. now apply H.
    - intros [v J]. apply H in J as [J N]. eauto. }
  assert (D : forall t k, (forall k v, has t k v <-> has a k v /\ forall w, ~ has b k w) -> In k d <-> exists v, has t k v).
  { intros t k H. rewrite Hd, (mem_in L E), Ha, Hb. split.
    - intros [[v J] N]. exists v. apply H. split; [exact J|]. eauto.
    - intros [v J]. apply H in J as [J N]. split; [eauto|]. intros [w J']. now apply (N w). }
  split; [|split; [|split; [|split; [|split]]]].
  - refine (X _ _ _ _ (C48_union L E strat a b Wa Wb) Qu Su _). auto.
  - refine (X _ _ _ _ (C48_union_with L E strat a b Wa Wb) Qu Su _). auto.
  - refine (X _ _ _ _ (C49_intersection L E strat a b Wa Wb) Qi Si _). auto.
  - refine (X _ _ _ _ (C49_intersection_with L E strat a b Wa Wb) Qi Si _). auto.
  - refine (X _ _ _ _ (C50_difference L E strat a b Wa Wb) Qd Sd _). auto.
  - refine (X _ _ _ _ (C50_difference_with L E strat a b Wa Wb) Qd Sd _). auto.
Qed.
Print Assumptions C145_operations.

(** keys of the witnesses of C144: [wa] holds [1], [1;2;3], [1;2;4], [2;2]; [wb] holds [1;2], [1;2;4], [2], [3] *)
Example C145_witness :
  Canon Nat.compare wa /\ Canon Nat.compare wb /\
  (exists t l, rt_intersection Nat.compare alt wa wb = Ok t /\ rt_iter t = Ok l /\ map fst l = [[1;2;4]]) /\
  vset_intersection (lex Nat.compare) alt [[1]; [1;2;3]; [1;2;4]; [2;2]] [[1;2]; [1;2;4]; [2]; [3]] = Ok [[1;2;4]] /\
  rt_is_subset Nat.compare alt wa wb = Ok false /\ rt_is_disjoint Nat.compare alt wa wb = Ok false /\
  vset_is_disjoint (lex Nat.compare) alt [[1]; [1;2;3]; [1;2;4]; [2;2]] [[1;2]; [1;2;4]; [2]; [3]] = Ok false.
Proof.
  split; [exact (proj1 (proj2 C118_radix_witness))|]. split; [exact (proj1 (proj2 (proj2 C118_radix_witness)))|].
  split; [do 2 eexists; split; [|split]; vm_compute; reflexivity|].
  repeat split; vm_compute; reflexivity.
Qed.
