(** Property C147: the prefix operations of radix trees, seen as operations on the sorted list of entries. *)
From Verif Require Import VecMapHist PropSet PropMap RadixReach PropRadix PropRadixAlgebra PropRadixAsMap.

Section Entries.
  Context {K : Type} {kcmp : K -> K -> comparison} (L : OrdLaws kcmp) (E : OrdEq kcmp).
  Notation WO := (WO kcmp).
  Notation lcmp := (lex kcmp).
  Lemma same_entries {V} (l1 l2 : list (list K * V)) : keys_sorted lcmp l1 -> keys_sorted lcmp l2 ->
    (forall k v, In (k, v) l1 <-> In (k, v) l2) -> l1 = l2.
  Proof.
    intros S1 S2 H. apply (entry_ext (lex_ord L)); auto. intros k.
    destruct (entry lcmp k l1) as [[k1 v1]|] eqn:Q.
    - symmetry. apply (entry_iff (lex_ord L)); auto. apply (entry_iff (lex_ord L)) in Q as [I D]; auto.
      split; [now apply H|exact D].
    - symmetry. apply entry_None. intros [k2 v2] I. apply H in I. rewrite entry_None in Q. exact (Q _ I).
  Qed.
  Lemma retained {V} (l : list (list K * V)) f : keys_sorted lcmp l -> keys_sorted lcmp (filter f l).
  Proof. intros S. exact (proj1 (retain_spec (lex_ord L) l f S)). Qed.
  Lemma entries_of {V} (t : rtree K V) r : WO t -> keys_sorted lcmp r -> (forall k v, In (k, v) r <-> has t k v) -> rt_iter t = Ok r.
  Proof.
    intros W S H. destruct (C56_iter E t W) as (l & -> & _ & Sl & Hl). f_equal. apply same_entries; auto.
    intros k v. now rewrite Hl, H.
  Qed.
End Entries.

(** [la], [lb]: the entries of the operands; [starts p k]: does [k] start with [p]? *)
Theorem C147_prefix_operations :
  forall (K V W : Type) (kcmp : K -> K -> comparison) (strat : nat -> nat -> bool) (starts : list K -> list K -> bool)
    (a : rtree K V) (b : rtree K W),
    OrdLaws kcmp -> OrdEq kcmp -> (forall p k, starts p k = true <-> exists s, k = p ++ s) -> Canon kcmp a -> Canon kcmp b ->
    exists la lb, rt_iter a = Ok la /\ keys_sorted (lex kcmp) la /\ rt_iter b = Ok lb /\ keys_sorted (lex kcmp) lb /\
      (forall p, rt_scan_prefix kcmp a p = Ok (filter (fun '(k, _) => starts p k) la)) /\
      (forall p, exists t, rt_filter_prefix kcmp a p = Ok t /\ Canon kcmp t /\
         rt_iter t = Ok (filter (fun '(k, _) => starts p k) la)) /\
      (forall p, Canon kcmp (rt_prepend a p) /\ rt_iter (rt_prepend a p) = Ok (map (fun '(k, v) => (p ++ k, v)) la)) /\
      (forall f : W -> bool,
         let under (k : list K) := existsb (fun '(p, w) => f w && starts p k) lb in
         (exists t, rt_remove_prefix_with kcmp strat f a b = Ok t /\ Canon kcmp t /\
            rt_iter t = Ok (filter (fun '(k, _) => negb (under k)) la)) /\
         (exists t, rt_retain_prefix_with kcmp strat f a b = Ok t /\ Canon kcmp t /\
            rt_iter t = Ok (filter (fun '(k, _) => under k) la))).
Proof.
  intros K V W kcmp strat starts a b L E ST Ca Cb. pose proof (canon_WO _ Ca) as Wa. pose proof (canon_WO _ Cb) as Wb.
  destruct (C56_iter E a Wa) as (la & Qa & _ & Sa & Ha), (C56_iter E b Wb) as (lb & Qb & _ & Sb & Hb).
  exists la, lb. repeat (split; [assumption|]). split; [|split; [|split]].
  - intros p. destruct (C55_scan_prefix L E a p Wa) as (l & -> & S & H). f_equal.
    apply (same_entries L); [exact S|now apply (retained L)|]. intros k v.
    rewrite H, filter_In, Ha, ST. reflexivity.
  - intros p. destruct (C54_filter_prefix L E a p Wa) as (t & Q & Wt & C & H). exists t. split; [exact Q|]. split; [now apply C|].
    apply (entries_of L E); [exact Wt|now apply (retained L)|]. intros k v. rewrite H, filter_In, Ha, ST. reflexivity.
  - intros p. destruct (C54_prepend E a p Wa) as (Wt & C & H). split; [now apply C|].
    apply (entries_of L E); [exact Wt| |].
    + unfold keys_sorted. rewrite map_map. rewrite (map_ext _ (fun e : list K * V => p ++ fst e)) by now intros [].
      rewrite <- (map_map fst (app p)). apply (sorted_map_mono (lex kcmp)); [|exact Sa].
      intros x y. apply (lex_app E).
    + intros k v. rewrite H, in_map_iff. split.
      * intros ([k' v'] & [= <- <-] & I). exists k'. split; [reflexivity|]. now apply Ha.
      * intros (s & -> & I). exists (s, v). split; [reflexivity|]. now apply Ha.
  - intros f under.
    assert (U : forall k, under k = true <-> covered f b k).
    { intros k. unfold under, covered. rewrite existsb_exists. split.
      - intros ([p w] & I & Q). apply andb_true_iff in Q as [Qf Qs]. apply ST in Qs as [s ->]. exists p, s, w.
        split; [reflexivity|]. split; [now apply Hb|exact Qf].
      - intros (p & s & w & -> & I & Qf). exists (p, w). split; [now apply Hb|]. rewrite Qf. apply ST. now exists s. }
    split.
    + destruct (C52_remove_prefix_with L E strat f a b Wa Wb) as (t & Q & Wt & C & H). exists t. split; [exact Q|]. split; [now apply C|].
      apply (entries_of L E); [exact Wt|now apply (retained L)|]. intros k v.
      rewrite H, filter_In, Ha, negb_true_iff, <- U. destruct (under k); intuition congruence.
    + destruct (C53_retain_prefix_with L E strat f a b Wa Wb) as (t & Q & Wt & C & H). exists t. split; [exact Q|]. split; [now apply C|].
      apply (entries_of L E); [exact Wt|now apply (retained L)|]. intros k v. rewrite H, filter_In, Ha, <- U. reflexivity.
Qed.
Print Assumptions C147_prefix_operations.

Example C147_witness :
  (forall p k, match strip Nat.compare p k with Some _ => true | None => false end = true <-> exists s, k = p ++ s) /\
  Canon Nat.compare wa /\ Canon Nat.compare wb /\
  rt_iter wa = Ok [([1], 5); ([1;2;3], 11); ([1;2;4], 20); ([2;2], 7)] /\
  rt_iter wb = Ok [([1;2], 2); ([1;2;4], 1); ([2], 4); ([3], 3)] /\
  (exists t, rt_remove_prefix_with Nat.compare alt Nat.even wa wb = Ok t /\ rt_iter t = Ok [([1], 5)]) /\
  (exists t, rt_retain_prefix_with Nat.compare alt Nat.even wa wb = Ok t /\
     rt_iter t = Ok [([1;2;3], 11); ([1;2;4], 20); ([2;2], 7)]) /\
  (exists t, rt_retain_prefix_with Nat.compare alt Nat.odd wa wb = Ok t /\ rt_iter t = Ok [([1;2;4], 20)]) /\
  rt_scan_prefix Nat.compare wa [1;2] = Ok [([1;2;3], 11); ([1;2;4], 20)] /\
  rt_iter (rt_prepend wa [9]) = Ok [([9;1], 5); ([9;1;2;3], 11); ([9;1;2;4], 20); ([9;2;2], 7)].
Proof.
  split.
  { intros p k. destruct (strip Nat.compare p k) as [r|] eqn:Q.
    - apply (strip_iff nat_ord_eq) in Q. split; [eauto|reflexivity].
    - split; [discriminate|]. intros [s ->]. rewrite (strip_app nat_ord_eq) in Q. discriminate. }
  split; [exact (proj1 (proj2 C118_radix_witness))|]. split; [exact (proj1 (proj2 (proj2 C118_radix_witness)))|].
  split; [vm_compute; reflexivity|]. split; [vm_compute; reflexivity|].
  split; [eexists; split; vm_compute; reflexivity|]. split; [eexists; split; vm_compute; reflexivity|].
  split; [eexists; split; vm_compute; reflexivity|]. split; vm_compute; reflexivity.
Qed.
