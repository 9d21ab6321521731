(** Property C142 (radix trees): the prefix filters remove_prefix_with, retain_prefix_with and
    filter_prefix, in chains of any length, keep exactly the entries that pass every filter: order and
    repetitions do not matter, removing and retaining by the same tree split a tree into two disjoint
    parts whose union is the tree, filters distribute over union, and retaining by a one-key tree is
    filter_prefix. *)
From Coq Require Import Permutation.
From Verif Require Import RadixReach PropRadix PropRadixAlgebra.

(** ** Specification *)
Section Spec.
  Context {K W : Type}.
  Inductive pfilter :=
  | FRemove (f : W -> bool) (p : rtree K W)      (* remove_prefix_with *)
  | FRetain (f : W -> bool) (p : rtree K W)      (* retain_prefix_with *)
  | FPrefix (p : list K).                        (* filter_prefix *)
  (** some key of [p] whose value satisfies [f] is a prefix of [k] *)
  Definition has_prefix_in (f : W -> bool) (p : rtree K W) (k : list K) : Prop :=
    exists k1 k2 w, k = k1 ++ k2 /\ has p k1 w /\ f w = true.
  Definition passes (k : list K) (q : pfilter) : Prop :=
    match q with
    | FRemove f p => ~ has_prefix_in f p k
    | FRetain f p => has_prefix_in f p k
    | FPrefix p => exists s, k = p ++ s
    end.
End Spec.
Arguments pfilter : clear implicits.

(** ** Running filters on the model *)
Section Run.
  Context {K V W : Type} (kcmp : K -> K -> comparison) (strat : nat -> nat -> bool).
  Definition run_filter (t : rtree K V) (q : pfilter K W) : res (rtree K V) :=
    match q with
    | FRemove f p => rt_remove_prefix_with kcmp strat f t p
    | FRetain f p => rt_retain_prefix_with kcmp strat f t p
    | FPrefix p => rt_filter_prefix kcmp t p
    end.
  Fixpoint run_filters (t : rtree K V) (l : list (pfilter K W)) : res (rtree K V) :=
    match l with
    | [] => Ok t
    | q :: l' => rbind (run_filter t q) (fun t' => run_filters t' l')
    end.
  (** the trees to filter by come from the public interface *)
  Definition filter_ok (q : pfilter K W) : Prop :=
    match q with FRemove _ p | FRetain _ p => Canon kcmp p | FPrefix _ => True end.
End Run.

(** ** Proofs *)
Section Proofs.
  Context {K : Type} {kcmp : K -> K -> comparison} (L : OrdLaws kcmp) (E : OrdEq kcmp) (strat : nat -> nat -> bool).
  Context {V W : Type}.
  Notation WO := (WO kcmp).
  Notation Canon := (Canon kcmp).

  Lemma same_eqb (veqb : V -> V -> bool) (a b : rtree K V) : (forall v, veqb v v = true) -> Canon a -> Canon b ->
    (forall k v, has a k v <-> has b k v) -> rt_eqb kcmp veqb a b = true.
  Proof.
    intros Rv Ca Cb H. apply (C47_eq_up_to_value_eq L E veqb a b Ca Cb). intros k.
    rewrite !(get_ok L E) by now apply canon_WO.
    replace (lk kcmp a k) with (lk kcmp b k).
    - destruct (lk kcmp b k); auto.
    - symmetry. apply (lk_is E); [now apply canon_WO|]. intros v. rewrite H. symmetry. apply (lk_has E). now apply canon_WO.
  Qed.
  Lemma run_filter_ok (t : rtree K V) (q : pfilter K W) : Canon t -> filter_ok kcmp q ->
    exists t', run_filter kcmp strat t q = Ok t' /\ Canon t' /\ forall k v, has t' k v <-> has t k v /\ passes k q.
  Proof.
    intros Ct Cq. pose proof (canon_WO _ Ct) as Wt. destruct q as [f p|f p|p]; cbn [run_filter filter_ok passes] in *.
    - destruct (C52_remove_prefix_with L E strat f t p Wt (canon_WO _ Cq)) as (t' & Q & _ & C & H). exists t'. auto.
    - destruct (C53_retain_prefix_with L E strat f t p Wt (canon_WO _ Cq)) as (t' & Q & _ & C & H). exists t'. auto.
    - destruct (C54_filter_prefix L E t p Wt) as (t' & Q & _ & C & H). exists t'. auto.
  Qed.
  Lemma run_filters_ok (l : list (pfilter K W)) : forall t : rtree K V, Canon t -> Forall (filter_ok kcmp) l ->
    exists t', run_filters kcmp strat t l = Ok t' /\ Canon t' /\
      forall k v, has t' k v <-> has t k v /\ Forall (passes k) l.
  Proof.
    induction l as [|q l IH]; intros t Ct F; cbn [run_filters].
    - exists t. split; [reflexivity|]. split; [exact Ct|]. intros k v. split; [intros H; split; [exact H|constructor]|tauto].
    - inversion F as [|? ? Fq Fl]; subst. destruct (run_filter_ok t q Ct Fq) as (t1 & -> & C1 & H1). cbn [rbind].
      destruct (IH t1 C1 Fl) as (t2 & Q2 & C2 & H2). exists t2. split; [exact Q2|]. split; [exact C2|].
      intros k v. rewrite H2, H1. split.
      + intros ((A & B) & D). auto.
      + intros (A & D). inversion D; subst. auto.
  Qed.
  Lemma has_prefix_dec (f : W -> bool) (p : rtree K W) k : has_prefix_in f p k \/ ~ has_prefix_in f p k.
  Proof.
    pose proof (pfx_covered E f p k) as H. change (covered f p k) with (has_prefix_in f p k) in H.
    destruct (pfx (kcmp := kcmp) f p k); [left; now apply H|right]. intros X. apply H in X. discriminate.
  Qed.
End Proofs.

(** A chain of filters returns exactly the entries that pass every filter. *)
Theorem C142_filters_exact :
  forall (K V W : Type) (kcmp : K -> K -> comparison) (strat : nat -> nat -> bool) (t : rtree K V) (l : list (pfilter K W)),
    OrdLaws kcmp -> OrdEq kcmp -> Canon kcmp t -> Forall (filter_ok kcmp) l ->
    exists t', run_filters kcmp strat t l = Ok t' /\ Canon kcmp t' /\
      forall k v, has t' k v <-> has t k v /\ forall q, In q l -> passes k q.
Proof.
  intros K V W kcmp strat t l L E Ct F. destruct (run_filters_ok L E strat l t Ct F) as (t' & Q & C & H).
  exists t'. split; [exact Q|]. split; [exact C|]. intros k v. rewrite H, Forall_forall. reflexivity.
Qed.
Print Assumptions C142_filters_exact.

(** Only the set of filters matters, not their order or repetitions. *)
Theorem C142_order_and_repetition :
  forall (K V W : Type) (kcmp : K -> K -> comparison) (veqb : V -> V -> bool) (strat : nat -> nat -> bool)
    (t : rtree K V) (l1 l2 : list (pfilter K W)),
    OrdLaws kcmp -> OrdEq kcmp -> (forall v, veqb v v = true) -> Canon kcmp t -> Forall (filter_ok kcmp) l1 ->
    (forall q, In q l1 <-> In q l2) ->
    exists t1 t2, run_filters kcmp strat t l1 = Ok t1 /\ run_filters kcmp strat t l2 = Ok t2 /\ rt_eqb kcmp veqb t1 t2 = true.
Proof.
  intros K V W kcmp veqb strat t l1 l2 L E Rv Ct F I.
  assert (F2 : Forall (filter_ok kcmp) l2) by (rewrite Forall_forall in *; intros q Hq; apply F, I, Hq).
  destruct (C142_filters_exact K V W kcmp strat t l1 L E Ct F) as (t1 & Q1 & C1 & H1).
  destruct (C142_filters_exact K V W kcmp strat t l2 L E Ct F2) as (t2 & Q2 & C2 & H2).
  exists t1, t2. split; [exact Q1|]. split; [exact Q2|]. apply (same_eqb L E veqb t1 t2 Rv C1 C2).
  intros k v. rewrite H1, H2. split; intros (A & B); (split; [exact A|]); intros q Hq; apply B, I, Hq.
Qed.
Print Assumptions C142_order_and_repetition.

(** Removing and retaining by the same tree split the tree in two disjoint parts. *)
Theorem C142_partition :
  forall (K V W : Type) (kcmp : K -> K -> comparison) (veqb : V -> V -> bool) (strat : nat -> nat -> bool)
    (f : W -> bool) (t : rtree K V) (p : rtree K W),
    OrdLaws kcmp -> OrdEq kcmp -> (forall v, veqb v v = true) -> Canon kcmp t -> Canon kcmp p ->
    exists out inn u u',
      rt_remove_prefix_with kcmp strat f t p = Ok out /\ rt_retain_prefix_with kcmp strat f t p = Ok inn /\
      rt_is_disjoint kcmp strat out inn = Ok true /\
      rt_union kcmp strat out inn = Ok u /\ rt_eqb kcmp veqb u t = true /\
      rt_union kcmp strat inn out = Ok u' /\ rt_eqb kcmp veqb u' t = true /\
      (exists d, rt_difference kcmp strat t inn = Ok d /\ rt_eqb kcmp veqb d out = true) /\
      (exists d, rt_difference kcmp strat t out = Ok d /\ rt_eqb kcmp veqb d inn = true).
Proof.
  intros K V W kcmp veqb strat f t p L E Rv Ct Cp.
  destruct (run_filter_ok L E strat t (FRemove f p) Ct Cp) as (o & Qo & Co & Ho).
  destruct (run_filter_ok L E strat t (FRetain f p) Ct Cp) as (i & Qi & Ci & Hi). cbn [run_filter passes] in *.
  pose proof (canon_WO _ Ct) as Wt. pose proof (canon_WO _ Co) as Wo. pose proof (canon_WO _ Ci) as Wi.
  destruct (C48_union L E strat o i Wo Wi) as (u & Qu & _ & Cu & Hu).
  destruct (C48_union L E strat i o Wi Wo) as (u' & Qu' & _ & Cu' & Hu').
  destruct (C58_is_disjoint L E strat o i Wo Wi) as (d & Qd & Hd).
  destruct (C50_difference L E strat t i Wt Wi) as (d1 & Q1 & _ & C1 & H1).
  destruct (C50_difference L E strat t o Wt Wo) as (d2 & Q2 & _ & C2 & H2).
  exists o, i, u, u'. split; [exact Qo|]. split; [exact Qi|]. split.
  { rewrite Qd. f_equal. apply Hd. intros (k & v & w & A & B). apply Ho in A as [_ A]. apply Hi in B as [_ B]. auto. }
  split; [exact Qu|]. split; [|split; [exact Qu'|split; [|split; [exists d1; split; [exact Q1|]|exists d2; split; [exact Q2|]]]]];
    apply (same_eqb L E veqb _ _ Rv); auto; intros k v.
  - rewrite Hu, Ho, Hi. destruct (has_prefix_dec E f p k) as [X|X].
    + split; [tauto|]. intros A. right. split; [auto|]. intros x Hx. apply Ho in Hx. tauto.
    + split; [tauto|]. auto.
  - rewrite Hu', Ho, Hi. destruct (has_prefix_dec E f p k) as [X|X].
    + split; [tauto|]. auto.
    + split; [tauto|]. intros A. right. split; [auto|]. intros x Hx. apply Hi in Hx. tauto.
  - rewrite H1, Ho. destruct (has_prefix_dec E f p k) as [X|X].
    + split; [|tauto]. intros (A & N). exfalso. apply (N v). now apply Hi.
    + split; [tauto|]. intros (A & _). split; [exact A|]. intros w Hw. apply Hi in Hw. tauto.
  - rewrite H2, Hi. destruct (has_prefix_dec E f p k) as [X|X].
    + split; [tauto|]. intros (A & _). split; [exact A|]. intros w Hw. apply Ho in Hw. tauto.
    + split; [|tauto]. intros (A & N). exfalso. apply (N v). now apply Ho.
Qed.
Print Assumptions C142_partition.

(** Every filter distributes over union, pure or in place. *)
Theorem C142_distributes_over_union :
  forall (K V W : Type) (kcmp : K -> K -> comparison) (veqb : V -> V -> bool) (strat : nat -> nat -> bool)
    (a b : rtree K V) (q : pfilter K W),
    OrdLaws kcmp -> OrdEq kcmp -> (forall v, veqb v v = true) -> Canon kcmp a -> Canon kcmp b -> filter_ok kcmp q ->
    exists u fu fa fb r,
      rt_union kcmp strat a b = Ok u /\ run_filter kcmp strat u q = Ok fu /\
      run_filter kcmp strat a q = Ok fa /\ run_filter kcmp strat b q = Ok fb /\
      rt_union kcmp strat fa fb = Ok r /\ rt_eqb kcmp veqb fu r = true.
Proof.
  intros K V W kcmp veqb strat a b q L E Rv Ca Cb Cq. pose proof (canon_WO _ Ca) as Wa. pose proof (canon_WO _ Cb) as Wb.
  destruct (C48_union L E strat a b Wa Wb) as (u & Qu & _ & Cu & Hu). specialize (Cu Ca Cb).
  destruct (run_filter_ok L E strat u q Cu Cq) as (fu & Qfu & Cfu & Hfu).
  destruct (run_filter_ok L E strat a q Ca Cq) as (fa & Qfa & Cfa & Hfa).
  destruct (run_filter_ok L E strat b q Cb Cq) as (fb & Qfb & Cfb & Hfb).
  destruct (C48_union L E strat fa fb (canon_WO _ Cfa) (canon_WO _ Cfb)) as (r & Qr & _ & Cr & Hr).
  exists u, fu, fa, fb, r. repeat (split; [assumption|]). apply (same_eqb L E veqb _ _ Rv); auto.
  intros k v. rewrite Hfu, Hu, Hr, Hfa, Hfb. split.
  - intros ([A|(A & N)] & P); [auto|]. right. split; [auto|]. intros x Hx. apply Hfa in Hx as [Hx _]. now apply (N x).
  - intros [(A & P)|((A & P) & N)]; [auto|]. split; [|exact P]. right. split; [exact A|].
    intros x Hx. apply (N x). apply Hfa. auto.
Qed.
Print Assumptions C142_distributes_over_union.

(** Retaining by the one-key tree is filter_prefix; removing by one tree after another is removing by
    their union. *)
Theorem C142_single_and_union_of_filters :
  forall (K V W : Type) (kcmp : K -> K -> comparison) (veqb : V -> V -> bool) (strat : nat -> nat -> bool)
    (t : rtree K V) (k0 : list K) (w0 : W) (p q : rtree K W),
    OrdLaws kcmp -> OrdEq kcmp -> (forall v, veqb v v = true) -> Canon kcmp t -> Canon kcmp p -> Canon kcmp q ->
    (exists x y, rt_retain_prefix_with kcmp strat (fun _ => true) t (rt_single k0 w0) = Ok x /\
       rt_filter_prefix kcmp t k0 = Ok y /\ rt_eqb kcmp veqb x y = true) /\
    (exists pq x y, rt_union kcmp strat p q = Ok pq /\
       rt_remove_prefix_with kcmp strat (fun _ => true) t pq = Ok x /\
       run_filters kcmp strat t [FRemove (fun _ => true) p; FRemove (fun _ => true) q] = Ok y /\ rt_eqb kcmp veqb x y = true).
Proof.
  intros K V W kcmp veqb strat t k0 w0 p q L E Rv Ct Cp Cq. split.
  - assert (Cs : Canon kcmp (rt_single k0 w0)) by (apply (reach_canon L E strat); constructor).
    assert (Hs : forall k v, has (rt_single k0 w0) k v <-> k = k0 /\ v = w0).
    { intros k v. split; [|intros (-> & ->); apply has_here]. intros H. inversion H; subst; [auto|match goal with X : In _ [] |- _ => destruct X end]. }
    destruct (run_filter_ok L E strat t (FRetain (fun _ => true) (rt_single k0 w0)) Ct Cs) as (x & Qx & Cx & Hx).
    destruct (run_filter_ok (W := W) L E strat t (FPrefix k0) Ct I) as (y & Qy & Cy & Hy). cbn [run_filter passes] in *.
    exists x, y. split; [exact Qx|]. split; [exact Qy|]. apply (same_eqb L E veqb _ _ Rv); auto.
    intros k v. rewrite Hx, Hy. split.
    + intros (A & k1 & k2 & w & -> & B & _). apply Hs in B as (-> & _). split; [exact A|]. now exists k2.
    + intros (A & s & ->). split; [exact A|]. exists k0, s, w0. split; [reflexivity|]. split; [now apply Hs|reflexivity].
  - destruct (C48_union L E strat p q (canon_WO _ Cp) (canon_WO _ Cq)) as (pq & Qu & _ & Cu & Hu). specialize (Cu Cp Cq).
    destruct (run_filter_ok L E strat t (FRemove (fun _ => true) pq) Ct Cu) as (x & Qx & Cx & Hx).
    destruct (run_filters_ok L E strat [FRemove (fun _ => true) p; FRemove (fun _ => true) q] t Ct) as (y & Qy & Cy & Hy).
    { constructor; [exact Cp|constructor; [exact Cq|constructor]]. }
    cbn [run_filter passes] in Qx, Hx. exists pq, x, y. split; [exact Qu|]. split; [exact Qx|]. split; [exact Qy|].
    apply (same_eqb L E veqb _ _ Rv); auto. intros k v. rewrite Hx, Hy.
    assert (X : has_prefix_in (fun _ => true) pq k <-> has_prefix_in (fun _ => true) p k \/ has_prefix_in (fun _ => true) q k).
    { split.
      - intros (k1 & k2 & w & -> & B & _). apply Hu in B as [B|(B & _)]; [left|right]; exists k1, k2, w; auto.
      - intros [(k1 & k2 & w & -> & B & _)|(k1 & k2 & w & -> & B & _)].
        + exists k1, k2, w. split; [reflexivity|]. split; [apply Hu; auto|reflexivity].
        + destruct (lk kcmp p k1) as [w'|] eqn:Q.
          * apply (lk_has E) in Q; [|now apply canon_WO]. exists k1, k2, w'. split; [reflexivity|]. split; [apply Hu; auto|reflexivity].
          * exists k1, k2, w. split; [reflexivity|]. split; [|reflexivity]. apply Hu. right. split; [exact B|].
            intros z Hz. apply (lk_has E) in Hz; [|now apply canon_WO]. congruence. }
    rewrite X. split.
    + intros (A & N). split; [exact A|]. constructor; [cbn; tauto|constructor; [cbn; tauto|constructor]].
    + intros (A & N). inversion N as [|? ? N1 N2]; subst. inversion N2 as [|? ? N3 _]; subst. cbn [passes] in *. tauto.
Qed.
Print Assumptions C142_single_and_union_of_filters.

Example C142_witness :
  let alt := fun n m : nat => n <=? m in
  let p := rt_single [1; 2] true in
  Canon Nat.compare wa /\ Canon Nat.compare wb /\ Canon Nat.compare p /\
  (exists t, run_filters Nat.compare alt wa [FRetain (fun b => b) p] = Ok t /\ rt_iter t = Ok [([1;2;3], 11); ([1;2;4], 20)]) /\
  (exists t, run_filters Nat.compare alt wa [FRemove (fun b => b) p] = Ok t /\ rt_iter t = Ok [([1], 5); ([2;2], 7)]) /\
  (exists t, run_filters Nat.compare alt wa [FRemove negb p; FPrefix [1;2]; FRemove negb p] = Ok t /\
     rt_iter t = Ok [([1;2;3], 11); ([1;2;4], 20)]) /\
  (exists t, run_filters Nat.compare alt wa [FRemove (fun n => 1 <? n) wb] = Ok t /\ rt_iter t = Ok [([1], 5)]).
Proof.
  cbv zeta. split; [exact (proj1 (proj2 C118_radix_witness))|]. split; [exact (proj1 (proj2 (proj2 C118_radix_witness)))|].
  split; [apply (reach_canon nat_ord nat_ord_eq (fun _ _ => true)); constructor|].
  repeat split; eexists; split; vm_compute; reflexivity.
Qed.
