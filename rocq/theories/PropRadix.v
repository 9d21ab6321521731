(** Properties C44-C59: the radix tree. [has t k v] and [holds t k o] (RadixSpec.v) say what a tree
    holds, without any function of the model. The theorems hold for every choice [strat] between
    binary and linear search steps in the merges. *)
From Verif Require Import RadixReach.

(** ** Specification *)
Section Spec.
  Context {K : Type}.
  (** t is the pointwise combination of a and b by g *)
  Definition pointwise {V W} (g : option V -> option W -> option V) (a : rtree K V) (b : rtree K W) (t : rtree K V) : Prop :=
    forall k o, holds t k o <-> exists x y, holds a k x /\ holds b k y /\ o = g x y.
  (** what outer / inner / left combination by f must do at one key *)
  Definition outer_at {V} (f : V -> V -> option V) (x y : option V) : option V :=
    match x, y with Some v, Some w => f v w | Some v, None => Some v | None, y => y end.
  Definition inner_at {V W} (f : V -> W -> option V) (x : option V) (y : option W) : option V :=
    match x, y with Some v, Some w => f v w | _, _ => None end.
  Definition left_at {V W} (f : V -> W -> option V) (x : option V) (y : option W) : option V :=
    match x, y with Some v, Some w => f v w | x, None => x | None, _ => None end.
  (** an in-place closure changes the value and says whether to keep it *)
  Definition kept {V W} (f : V -> W -> V * bool) (v : V) (w : W) : option V :=
    if snd (f v w) then Some (fst (f v w)) else None.
  (** prefix relation on keys *)
  Definition starts_with (k p : list K) : Prop := exists s, k = p ++ s.
End Spec.

Section Props.
  Context {K : Type} {kcmp : K -> K -> comparison} (L : OrdLaws kcmp) (E : OrdEq kcmp) (strat : nat -> nat -> bool).
  Notation WO := (WO kcmp).
  Notation Canon := (Canon kcmp).
  Notation lk := (lk kcmp).

  Lemma holds_dec {V} (t : rtree K V) k : WO t -> holds t k (lk t k).
  Proof. intros W. now apply (holds_lk E). Qed.
  Lemma canon_WO {V} (t : rtree K V) : Canon t -> WO t.
  Proof. apply wf_weaken. Qed.

  Lemma pw {V W} g (a : rtree K V) (b : rtree K W) t : WO a -> WO b -> WO t ->
    (forall k, lk t k = g (lk a k) (lk b k)) -> pointwise g a b t.
  Proof.
    intros Wa Wb Wt H k o. rewrite (holds_lk E) by auto. rewrite H. split.
    - intros <-. exists (lk a k), (lk b k). repeat split; now apply holds_dec.
    - intros (x & y & Hx & Hy & ->). apply (holds_lk E) in Hx; auto. apply (holds_lk E) in Hy; auto. congruence.
  Qed.

  (** shape of every combination theorem: returns, stays well ordered and canonical, and P *)
  Definition combines {V W} (op : rtree K V -> rtree K W -> res (rtree K V)) (a : rtree K V) (b : rtree K W)
             (P : rtree K V -> Prop) : Prop :=
    exists t, op a b = Ok t /\ WO t /\ (Canon a -> Canon b -> Canon t) /\ P t.
  Lemma combine {V W} {A} (ob : rtree K W -> list K -> A) g op (a : rtree K V) (b : rtree K W) (P : rtree K V -> Prop) :
    (forall q, wf kcmp q a -> wf kcmp q b -> spec (kcmp := kcmp) ob g q q op a b) ->
    WO a -> WO b ->
    (forall t, WO t -> (forall k, lk t k = g (lk a k) (ob b k)) -> P t) -> combines op a b P.
  Proof.
    intros H Wa Wb HP. destruct (H false Wa Wb) as (t & Q & Wt & _ & Hl). exists t. split; auto. split; auto.
    split; [|now apply HP]. intros Ca Cb. destruct (H true Ca Cb) as (t' & Q' & Wt' & _). now replace t with t' by congruence.
  Qed.

  Lemma upd_outer_at {V} (f : V -> V -> V * bool) x y : upd_outer f x y = outer_at (kept f) x y.
  Proof. destruct x, y; cbn; unfold kept; try destruct (f v v0); reflexivity. Qed.
  Lemma upd_inner_at {V W} (f : V -> W -> V * bool) x y : upd_inner f x y = inner_at (kept f) x y.
  Proof. destruct x, y; cbn; unfold kept; try destruct (f v w); reflexivity. Qed.
  Lemma upd_left_at {V W} (f : V -> W -> V * bool) x y : upd_left f x y = left_at (kept f) x y.
  Proof. destruct x, y; cbn; unfold kept; try destruct (f v w); reflexivity. Qed.

  (** ** C44 *)
  Theorem C44_get {V} (t : rtree K V) k : WO t -> exists o, rt_get kcmp t k = Ok o /\ holds t k o.
  Proof. intros W. exists (lk t k). split; [now apply (get_ok L E)|now apply holds_dec]. Qed.
  Theorem C44_contains_key {V} (t : rtree K V) k : WO t ->
    exists b, rt_contains_key kcmp t k = Ok b /\ (b = true <-> exists v, has t k v).
  Proof.
    intros W. rewrite (contains_ok L E) by auto. eexists. split; [reflexivity|].
    pose proof (holds_dec t k W) as H. destruct (lk t k) as [v|]; simpl in H.
    - split; eauto.
    - split; [discriminate|]. intros (v & Hv). now apply H in Hv.
  Qed.
  (** a key has at most one value *)
  Theorem C44_functional {V} (t : rtree K V) k v w : WO t -> has t k v -> has t k w -> v = w.
  Proof. intros W H1 H2. apply (lk_has E) in H1; auto. apply (lk_has E) in H2; auto. congruence. Qed.

  (** ** C45 *)
  (** the last pair of [l] with key [k] is (k,v) *)
  Definition last_bound {V} (l : list (list K * V)) (k : list K) (v : V) : Prop :=
    exists l1 l2, l = l1 ++ (k, v) :: l2 /\ forall w, ~ In (k, w) l2.
  Definition unbound {V} (l : list (list K * V)) (k : list K) : Prop := forall w, ~ In (k, w) l.

  Lemma bound_dec {V} (l : list (list K * V)) k : unbound l k \/ exists v, last_bound l k v.
  Proof.
    assert (D : forall k1 k2 : list K, {k1 = k2} + {k1 <> k2}).
    { apply list_eq_dec. intros x y. destruct (kcmp x y) eqn:Q; [left; now apply E|right; intros ->; rewrite (cmp_refl L) in Q; discriminate..]. }
    induction l as [|[k' v] l IH]; [left; intros w []|].
    destruct IH as [U|(w & l1 & l2 & -> & N)].
    - destruct (D k k') as [->|N].
      + right. exists v, [], l. split; auto.
      + left. intros w [[= -> ->]|H]; [congruence|now apply U in H].
    - right. exists w, ((k', v) :: l1), l2. auto.
  Qed.

  Lemma insert_all_spec {V} l : forall t : rtree K V, WO t ->
    exists t', rt_insert_all kcmp strat t l = Ok t' /\ WO t' /\ (Canon t -> Canon t') /\
      forall k, (forall v, last_bound l k v -> has t' k v) /\ (unbound l k -> lk t' k = lk t k).
  Proof.
    induction l as [|[k0 v0] l IH]; intros t W; cbn [rt_insert_all].
    - exists t. split; auto. split; auto. split; auto. intros k. split; auto.
      intros v (l1 & l2 & Q & _). now destruct l1.
    - destruct (insert_spec L E strat false t k0 v0 W) as (t1 & Q & W1 & Hl). rewrite Q. cbn [rbind].
      destruct (IH t1 W1) as (t' & Q' & W' & C' & H). exists t'. split; auto. split; auto. split.
      + intros C. apply C'. destruct (insert_spec L E strat true t k0 v0 C) as (t2 & Q2 & C2 & _).
        now replace t1 with t2 by congruence.
      + intros k. split.
        * intros v (l1 & l2 & Ql & N). destruct l1 as [|p l1].
          -- injection Ql as <- <- <-. apply (lk_has E); auto. rewrite (proj2 (H k0) N), Hl, (strip_self E). reflexivity.
          -- injection Ql as <- ->. apply (H k). exists l1, l2. auto.
        * intros U. rewrite (proj2 (H k)).
          -- rewrite Hl. destruct (strip kcmp k0 k) as [[|c r]|] eqn:S; auto.
             apply (strip_iff E) in S. rewrite app_nil_r in S. subst. exfalso. apply (U v0). now left.
          -- intros w Hw. apply (U w). now right.
  Qed.

  (** [t.extend(l)] by repeated insert on any tree, and collecting *)
  Theorem C45_inserts {V} (t : rtree K V) l : WO t ->
    exists t', rt_insert_all kcmp strat t l = Ok t' /\ WO t' /\
      forall k v, has t' k v <-> last_bound l k v \/ (unbound l k /\ has t k v).
  Proof.
    intros W. destruct (insert_all_spec l t W) as (t' & Q & W' & _ & H). exists t'. split; auto. split; auto.
    intros k v. split.
    - intros Hv. destruct (bound_dec l k) as [U|(w & B)].
      + right. split; auto. apply (lk_has E); auto. rewrite <- (proj2 (H k) U). now apply (lk_has E).
      + left. replace v with w; auto. eapply C44_functional; eauto. now apply (H k).
    - intros [B|[U Hv]].
      + now apply (H k).
      + apply (lk_has E); auto. rewrite (proj2 (H k) U). now apply (lk_has E).
  Qed.
  Theorem C45_from_iter {V} (l : list (list K * V)) :
    exists t, rt_from_iter kcmp strat l = Ok t /\ Canon t /\ forall k v, has t k v <-> last_bound l k v.
  Proof.
    destruct (insert_all_spec l (@rt_empty K V) (canon_WO _ empty_canon)) as (t & Q & W & C & H).
    exists t. split; auto. split; [apply C, empty_canon|]. intros k v. split.
    - intros Hv. destruct (bound_dec l k) as [U|(w & B)].
      + exfalso. apply (lk_has E) in Hv; auto. rewrite (proj2 (H k) U) in Hv. unfold rt_empty in Hv. rewrite lk_node in Hv.
        rewrite strip_nil in Hv. now destruct k.
      + replace v with w; auto. eapply C44_functional; eauto. now apply (H k).
    - apply (H k).
  Qed.
  Theorem C45_insert {V} (t : rtree K V) k0 v0 : WO t ->
    exists t', rt_insert kcmp strat t k0 v0 = Ok t' /\ WO t' /\ (Canon t -> Canon t') /\
      forall k v, has t' k v <-> (k = k0 /\ v = v0) \/ (k <> k0 /\ has t k v).
  Proof.
    intros W. destruct (insert_spec L E strat false t k0 v0 W) as (t' & Q & W' & H). exists t'. split; auto. split; auto. split.
    - intros C. destruct (insert_spec L E strat true t k0 v0 C) as (t2 & Q2 & C2 & _). now replace t' with t2 by congruence.
    - intros k v. rewrite <- !(lk_has E) by auto. rewrite H.
      destruct (strip kcmp k0 k) as [[|c r]|] eqn:S.
      + apply (strip_iff E) in S. rewrite app_nil_r in S. subst. split; [intros [= ->]; auto|]. intros [[_ ->]|[N _]]; congruence.
      + apply (strip_iff E) in S. assert (k <> k0) by (intros ->; apply (f_equal (@length K)) in S; rewrite app_length in S; simpl in S; lia).
        split; [auto|]. intros [[? _]|[_ ?]]; [congruence|auto].
      + assert (k <> k0) by (intros ->; rewrite (strip_self E) in S; discriminate).
        split; [auto|]. intros [[? _]|[_ ?]]; [congruence|auto].
  Qed.

  (** ** C46: every tree obtained through the public interface is canonical (see [reach], RadixReach.v) *)
  Theorem C46_reachable_canonical {V} (t : rtree K V) : reach (kcmp := kcmp) strat V t -> Canon t.
  Proof. apply (reach_canon L E). Qed.

  (** ** C47 *)
  Theorem C47_eq_extensional {V} (veqb : V -> V -> bool) (a b : rtree K V) :
    (forall x y, veqb x y = true <-> x = y) -> Canon a -> Canon b ->
    (rt_eqb kcmp veqb a b = true <-> forall k, rt_get kcmp a k = rt_get kcmp b k).
  Proof.
    intros Hv Ca Cb. assert (O : forall x y : option V, option_eqb veqb x y = true <-> x = y).
    { intros [x|] [y|]; simpl; try (split; congruence). rewrite Hv. split; congruence. }
    split.
    - intros H k. apply (eqb_agree E) in H. specialize (H k). apply O in H. rewrite !(get_ok L E) by now apply canon_WO. now rewrite H.
    - intros H. apply (agree_eqb L E); auto. intros k. apply O. specialize (H k).
      rewrite !(get_ok L E) in H by now apply canon_WO. congruence.
  Qed.
  (** whatever == does on values: equal exactly when the same keys are bound, to values that are == *)
  Theorem C47_eq_up_to_value_eq {V} (veqb : V -> V -> bool) (a b : rtree K V) : Canon a -> Canon b ->
    (rt_eqb kcmp veqb a b = true <->
     forall k, match rt_get kcmp a k, rt_get kcmp b k with
               | Ok (Some x), Ok (Some y) => veqb x y = true
               | Ok None, Ok None => True
               | _, _ => False
               end).
  Proof.
    intros Ca Cb. assert (O : forall x y : option V, option_eqb veqb x y = true <->
      match @Ok (option V) x, @Ok (option V) y with Ok (Some x), Ok (Some y) => veqb x y = true | Ok None, Ok None => True | _, _ => False end).
    { intros [x|] [y|]; simpl; intuition discriminate. }
    split.
    - intros H k. apply (eqb_agree E) in H. specialize (H k). apply O in H. now rewrite !(get_ok L E) by now apply canon_WO.
    - intros H. apply (agree_eqb L E); auto. intros k. apply O. specialize (H k).
      now rewrite !(get_ok L E) in H by now apply canon_WO.
  Qed.
  Theorem C47_reachable_eq_extensional {V} (veqb : V -> V -> bool) (a b : rtree K V) :
    (forall x y, veqb x y = true <-> x = y) -> reach (kcmp := kcmp) strat V a -> reach (kcmp := kcmp) strat V b ->
    (rt_eqb kcmp veqb a b = true <-> forall k v, has a k v <-> has b k v).
  Proof.
    intros Hv Ra Rb. apply C46_reachable_canonical in Ra. apply C46_reachable_canonical in Rb.
    rewrite (C47_eq_extensional veqb) by auto. pose proof (canon_WO _ Ra). pose proof (canon_WO _ Rb). split.
    - intros H1 k v. specialize (H1 k). rewrite !(get_ok L E) in H1 by auto. rewrite <- !(lk_has E) by auto. now injection H1 as ->.
    - intros H' k. rewrite !(get_ok L E) by auto. f_equal. destruct (lk a k) as [v|] eqn:Q.
      + apply (lk_has E) in Q; auto. apply H' in Q. apply (lk_has E) in Q; auto.
      + destruct (lk b k) as [v|] eqn:Q2; auto. apply (lk_has E) in Q2; auto. apply H' in Q2. apply (lk_has E) in Q2; auto. congruence.
  Qed.

  (** ** C48 *)
  Theorem C48_outer_combine {V} (f : V -> V -> option V) (a b : rtree K V) : WO a -> WO b ->
    combines (rt_outer_combine kcmp strat f) a b (pointwise (outer_at f) a b).
  Proof.
    intros Wa Wb. eapply (combine lk (val_outer f)); auto.
    - intros q Ha Hb. apply (outer_pure_spec L E); auto.
    - intros t Wt H. apply pw; auto. intros k. rewrite H. now destruct (lk a k), (lk b k).
  Qed.
  Theorem C48_outer_combine_with {V} (f : V -> V -> V * bool) (a b : rtree K V) : WO a -> WO b ->
    combines (rt_outer_combine_with kcmp strat f) a b (pointwise (outer_at (kept f)) a b).
  Proof.
    intros Wa Wb. eapply (combine lk (upd_outer f)); auto.
    - intros q Ha Hb. apply (outer_with_spec L E); auto.
    - intros t Wt H. apply pw; auto. intros k. rewrite H. apply upd_outer_at.
  Qed.
  Theorem C48_union {V} (a b : rtree K V) : WO a -> WO b ->
    combines (rt_union kcmp strat) a b (fun t => forall k v, has t k v <-> has a k v \/ has b k v /\ forall x, ~ has a k x).
  Proof.
    intros Wa Wb. destruct (C48_outer_combine (fun v _ => Some v) a b Wa Wb) as (t & Q & Wt & C & H).
    exists t. split; auto. split; auto. split; auto. intros k v. split.
    - intros Hv. apply (H k (Some v)) in Hv as (x & y & Hx & Hy & Q'). destruct x as [x|], y as [y|]; simpl in *; try discriminate; injection Q' as <-; auto.
    - intros Hv. apply (H k (Some v)). pose proof (holds_dec a k Wa) as Ha. pose proof (holds_dec b k Wb) as Hb. destruct Hv as [Hv|[Hv N]].
      + exists (Some v), (lk b k). split; auto. split; auto. simpl. now destruct (lk b k).
      + exists None, (Some v). auto.
  Qed.
  Theorem C48_union_with {V} (a b : rtree K V) : WO a -> WO b ->
    combines (rt_union_with kcmp strat) a b (fun t => forall k v, has t k v <-> has a k v \/ has b k v /\ forall x, ~ has a k x).
  Proof.
    intros Wa Wb. destruct (C48_outer_combine_with (fun v _ => (v, true)) a b Wa Wb) as (t & Q & Wt & C & H).
    exists t. split; auto. split; auto. split; auto. intros k v. split.
    - intros Hv. apply (H k (Some v)) in Hv as (x & y & Hx & Hy & Q'). destruct x as [x|], y as [y|]; simpl in *; try discriminate; injection Q' as <-; auto.
    - intros Hv. apply (H k (Some v)). pose proof (holds_dec a k Wa) as Ha. pose proof (holds_dec b k Wb) as Hb. destruct Hv as [Hv|[Hv N]].
      + exists (Some v), (lk b k). split; auto. split; auto. simpl. now destruct (lk b k).
      + exists None, (Some v). auto.
  Qed.

  (** ** C49 *)
  Theorem C49_inner_combine {V W} (f : V -> W -> option V) (a : rtree K V) (b : rtree K W) : WO a -> WO b ->
    combines (rt_inner_combine kcmp strat f) a b (pointwise (inner_at f) a b).
  Proof.
    intros Wa Wb. eapply (combine lk (val_inner f)); auto.
    - intros q Ha Hb. apply (inner_pure_spec L E) with (qb := q); auto.
    - intros t Wt H. apply pw; auto.
  Qed.
  Theorem C49_inner_combine_with {V W} (f : V -> W -> V * bool) (a : rtree K V) (b : rtree K W) : WO a -> WO b ->
    combines (rt_inner_combine_with kcmp strat f) a b (pointwise (inner_at (kept f)) a b).
  Proof.
    intros Wa Wb. eapply (combine lk (upd_inner f)); auto.
    - intros q Ha Hb. apply (inner_with_spec L E) with (qb := q); auto.
    - intros t Wt H. apply pw; auto. intros k. rewrite H. apply upd_inner_at.
  Qed.
  Theorem C49_intersection {V W} (a : rtree K V) (b : rtree K W) : WO a -> WO b ->
    combines (rt_intersection kcmp strat) a b (fun t => forall k v, has t k v <-> has a k v /\ exists w, has b k w).
  Proof.
    intros Wa Wb. destruct (C49_inner_combine (fun v (_ : W) => Some v) a b Wa Wb) as (t & Q & Wt & C & H).
    exists t. split; auto. split; auto. split; auto. intros k v. split.
    - intros Hv. apply (H k (Some v)) in Hv as (x & y & Hx & Hy & Q'). destruct x as [x|], y as [y|]; simpl in *; try discriminate. injection Q' as <-. eauto.
    - intros (Hv & w & Hw). apply (H k (Some v)). exists (Some v), (Some w). auto.
  Qed.
  Theorem C49_intersection_with {V W} (a : rtree K V) (b : rtree K W) : WO a -> WO b ->
    combines (rt_intersection_with kcmp strat) a b (fun t => forall k v, has t k v <-> has a k v /\ exists w, has b k w).
  Proof.
    intros Wa Wb. destruct (C49_inner_combine_with (fun v (_ : W) => (v, true)) a b Wa Wb) as (t & Q & Wt & C & H).
    exists t. split; auto. split; auto. split; auto. intros k v. split.
    - intros Hv. apply (H k (Some v)) in Hv as (x & y & Hx & Hy & Q'). destruct x as [x|], y as [y|]; simpl in *; try discriminate. injection Q' as <-. eauto.
    - intros (Hv & w & Hw). apply (H k (Some v)). exists (Some v), (Some w). auto.
  Qed.

  (** ** C50 *)
  Theorem C50_left_combine_with {V W} (f : V -> W -> V * bool) (a : rtree K V) (b : rtree K W) : WO a -> WO b ->
    combines (rt_left_combine_with kcmp strat f) a b (pointwise (left_at (kept f)) a b).
  Proof.
    intros Wa Wb. eapply (combine lk (upd_left f)); auto.
    - intros q Ha Hb. apply (left_with_spec L E) with (qb := q); auto.
    - intros t Wt H. apply pw; auto. intros k. rewrite H. apply upd_left_at.
  Qed.
  Lemma left_pure_lk {V W} (f : V -> option W -> option V) (a : rtree K V) (b : rtree K W) : WO a -> WO b ->
    combines (rt_left_combine kcmp strat f) a b (fun t => forall k, lk t k = g_left f (lk a k) (nd (kcmp := kcmp) b k)).
  Proof.
    intros Wa Wb. eapply (combine (nd (kcmp := kcmp)) (g_left f)); auto.
    intros q Ha Hb. apply (left_pure_spec L E) with (qb := q); auto.
  Qed.
  Lemma nd_lk {W} (b : rtree K W) : WO b -> forall k, lk b k = match nd (kcmp := kcmp) b k with Some ow => ow | None => None end.
  Proof.
    induction b as [p ow cs IH] using rtree_ind'. intros Wb k. pose proof (wf_wfc _ _ Wb) as C. cbn [t_children] in C.
    rewrite lk_strip, nd_strip. destruct (strip kcmp p k) as [[|c r]|]; auto.
    rewrite (lk_obc E false), (nd_obc E false) by auto. unfold obc.
    destruct (child c cs) as [t|] eqn:Q; auto. apply (child_Some_In E) in Q as [Ht _].
    rewrite Forall_forall in IH. apply IH; auto. now apply (wfc_In _ _ _ C).
  Qed.

  Theorem C50_difference {V W} (a : rtree K V) (b : rtree K W) : WO a -> WO b ->
    combines (rt_difference kcmp strat) a b (fun t => forall k v, has t k v <-> has a k v /\ forall w, ~ has b k w).
  Proof.
    intros Wa Wb. destruct (left_pure_lk (fun v (w : option W) => match w with None => Some v | Some _ => None end) a b Wa Wb) as (t & Q & Wt & C & H).
    exists t. split; auto. split; auto. split; auto. intros k v. rewrite <- !(lk_has E) by auto. rewrite H.
    assert (B : (forall w, ~ has b k w) <-> lk b k = None) by (rewrite <- (holds_lk E) by auto; reflexivity).
    rewrite B, (nd_lk b) by auto. unfold g_left, val_left.
    destruct (nd b k) as [[w|]|], (lk a k); split; try tauto; try (intros [? ?]); congruence.
  Qed.
  Theorem C50_difference_with {V W} (a : rtree K V) (b : rtree K W) : WO a -> WO b ->
    combines (rt_difference_with kcmp strat) a b (fun t => forall k v, has t k v <-> has a k v /\ forall w, ~ has b k w).
  Proof.
    intros Wa Wb. destruct (C50_left_combine_with (fun v (_ : W) => (v, false)) a b Wa Wb) as (t & Q & Wt & C & H).
    exists t. split; auto. split; auto. split; auto. intros k v. split.
    - intros Hv. apply (H k (Some v)) in Hv as (x & y & Hx & Hy & Q'). destruct x as [x|], y as [y|]; simpl in *; try discriminate.
      injection Q' as <-. auto.
    - intros [Hv N]. apply (H k (Some v)). exists (Some v), None. auto.
  Qed.

  (** ** C51: f is applied to exactly those keys of a at which b has a node (with or without value) *)
  Theorem C51_left_combine_exact {V W} (f : V -> option W -> option V) (a : rtree K V) (b : rtree K W) : WO a -> WO b ->
    combines (rt_left_combine kcmp strat f) a b (fun t => forall k,
      (holds a k None -> holds t k None) /\
      (forall v, has a k v ->
         (forall ow, at_node b k ow -> holds t k (f v ow)) /\
         ((forall ow, ~ at_node b k ow) -> has t k v))).
  Proof.
    intros Wa Wb. destruct (left_pure_lk f a b Wa Wb) as (t & Q & Wt & C & H).
    exists t. split; auto. split; auto. split; auto. intros k. split; [|intros v Hv; split].
    - intros N. apply (holds_lk E) in N; auto. apply (holds_lk E); auto. rewrite H, N. unfold g_left. now destruct (nd b k).
    - intros ow Hn. apply (holds_lk E); auto. apply (nd_at E) in Hn; auto. apply (lk_has E) in Hv; auto.
      rewrite H, Hn, Hv. reflexivity.
    - intros Hn. apply (lk_has E); auto. apply (lk_has E) in Hv; auto. rewrite H, Hv.
      destruct (nd b k) as [ow|] eqn:Q'; auto. apply (nd_at E) in Q'; auto. now apply Hn in Q'.
  Qed.
  (** what C51 claims, for the functions that keep values b does not have *)
  Theorem C51_left_combine_partial {V W} (f : V -> option W -> option V) (a : rtree K V) (b : rtree K W) :
    (forall v, f v None = Some v) -> WO a -> WO b ->
    combines (rt_left_combine kcmp strat f) a b
      (pointwise (fun x y => match x with Some v => f v y | None => None end) a b).
  Proof.
    intros Hf Wa Wb. destruct (left_pure_lk f a b Wa Wb) as (t & Q & Wt & C & H).
    exists t. split; auto. split; auto. split; auto. apply pw; auto. intros k. rewrite H, (nd_lk b) by auto.
    unfold g_left, val_left. destruct (nd b k), (lk a k); auto.
  Qed.

  (** ** C52, C53 *)
  Theorem C52_remove_prefix_with {V W} (f : W -> bool) (a : rtree K V) (b : rtree K W) : WO a -> WO b ->
    combines (rt_remove_prefix_with kcmp strat f) a b (fun t => forall k v, has t k v <-> has a k v /\ ~ covered f b k).
  Proof.
    intros Wa Wb. eapply (combine (pfx (kcmp := kcmp) f) g_remove); auto.
    - intros q Ha Hb. apply (remove_with_spec (V := V) L E strat f q q); auto.
    - intros t Wt H k v. rewrite <- !(lk_has E) by auto. rewrite H, <- (pfx_covered E). unfold g_remove.
      destruct (pfx f b k); split; try tauto; try discriminate; auto.
  Qed.
  Theorem C53_retain_prefix_with {V W} (f : W -> bool) (a : rtree K V) (b : rtree K W) : WO a -> WO b ->
    combines (rt_retain_prefix_with kcmp strat f) a b (fun t => forall k v, has t k v <-> has a k v /\ covered f b k).
  Proof.
    intros Wa Wb. eapply (combine (pfx (kcmp := kcmp) f) g_retain); auto.
    - intros q Ha Hb. apply (retain_with_spec (V := V) L E strat f q q); auto.
    - intros t Wt H k v. rewrite <- !(lk_has E) by auto. rewrite H, <- (pfx_covered E). unfold g_retain.
      destruct (pfx f b k); split; try tauto; try discriminate; try (intros [_ ?]; discriminate).
  Qed.

  (** ** C54 *)
  Theorem C54_filter_prefix {V} (t : rtree K V) p : WO t ->
    exists t', rt_filter_prefix kcmp t p = Ok t' /\ WO t' /\ (Canon t -> Canon t') /\
      forall k v, has t' k v <-> has t k v /\ starts_with k p.
  Proof.
    intros W. destruct (filter_prefix_ok L E false t p W) as (t' & Q & W' & H). exists t'. split; auto. split; auto. split.
    - intros C. destruct (filter_prefix_ok L E true t p C) as (t2 & Q2 & C2 & _). now replace t' with t2 by congruence.
    - intros k v. rewrite <- !(lk_has E) by auto. rewrite H. destruct (strip kcmp p k) as [r|] eqn:S.
      + apply (strip_iff E) in S. split; [|tauto]. intros ?. split; auto. now exists r.
      + split; [discriminate|]. intros [_ [r ->]]. rewrite (strip_app E) in S. discriminate.
  Qed.
  Theorem C54_prepend {V} (t : rtree K V) p : WO t ->
    WO (rt_prepend t p) /\ (Canon t -> Canon (rt_prepend t p)) /\
    forall k v, has (rt_prepend t p) k v <-> exists s, k = p ++ s /\ has t s v.
  Proof.
    intros W. assert (W' : WO (rt_prepend t p)) by now apply prepend_wf. split; auto. split; [apply prepend_wf|].
    intros k v. rewrite <- (lk_has E) by auto. rewrite prepend_lk. destruct (strip kcmp p k) as [r|] eqn:S.
    - apply (strip_iff E) in S as ->. rewrite (lk_has E) by auto. split; [eauto|].
      intros (s & Q & H). now apply app_inv_head in Q as ->.
    - split; [discriminate|]. intros (s & -> & _). rewrite (strip_app E) in S. discriminate.
  Qed.

  (** ** C55 *)
  Theorem C55_scan_prefix {V} (t : rtree K V) p : WO t ->
    exists l, rt_scan_prefix kcmp t p = Ok l /\ sorted (lex kcmp) (map fst l) /\
      forall k v, In (k, v) l <-> has t k v /\ starts_with k p.
  Proof.
    intros W. destruct (scan_prefix_ok L E t p W) as (l & Q & S & H). exists l. split; auto. split; auto.
    intros k v. rewrite H, (lk_has E) by auto. reflexivity.
  Qed.

  (** ** C56 *)
  Theorem C56_iter {V} (t : rtree K V) : WO t ->
    exists l, rt_iter t = Ok l /\ rt_values t = Ok (map snd l) /\ sorted (lex kcmp) (map fst l) /\
      forall k v, In (k, v) l <-> has t k v.
  Proof.
    intros W. exists (enum (t_prefix t) t). split; [apply iter_from_ok|]. split; [apply values_ok|].
    split; [now apply (enum_sorted E)|]. intros k v. rewrite (enum_In E) by auto. rewrite <- (lk_has E) by auto.
    destruct t as [p ov cs]. cbn [t_prefix t_value t_children]. split.
    - intros (s & -> & H). rewrite lk_strip, (strip_app E). exact H.
    - intros H. rewrite lk_strip in H. destruct (strip kcmp p k) as [s|] eqn:S; [|discriminate].
      apply (strip_iff E) in S. eauto.
  Qed.

  (** ** C57, C58 *)
  Definition keys_within {V W} (a : rtree K V) (b : rtree K W) : Prop :=
    forall k v, has a k v -> exists w, has b k w.
  Definition share_key {V W} (a : rtree K V) (b : rtree K W) : Prop :=
    exists k v w, has a k v /\ has b k w.
  Lemma incl_within {V W} (a : rtree K V) (b : rtree K W) : WO a -> WO b -> (keys_incl (kcmp := kcmp) a b <-> keys_within a b).
  Proof.
    intros Wa Wb. unfold keys_incl, keys_within. split; intros H k v Hk.
    - apply (lk_has E) in Hk; auto. apply H in Hk as (w & Hw). exists w. now apply (lk_has E).
    - apply (lk_has E) in Hk; auto. apply H in Hk as (w & Hw). exists w. now apply (lk_has E).
  Qed.
  Theorem C57_is_subset {V W} (a : rtree K V) (b : rtree K W) : Canon a -> WO b ->
    exists r, rt_is_subset kcmp strat a b = Ok r /\ (r = true <-> keys_within a b).
  Proof.
    intros Ca Wb. destruct (is_subset0_ok L E strat (S (t_size a + t_size b)) a (t_prefix a) b (t_prefix b)) as (r & Q & H); auto.
    - now rewrite node_eta.
    - exists r. split; auto. rewrite !node_eta in H. rewrite H. apply incl_within; auto. now apply canon_WO.
  Qed.
  Theorem C57_is_superset {V W} (a : rtree K V) (b : rtree K W) : WO a -> Canon b ->
    exists r, rt_is_superset kcmp strat a b = Ok r /\ (r = true <-> keys_within b a).
  Proof. intros Wa Cb. now apply C57_is_subset. Qed.
  Theorem C58_intersects {V W} (a : rtree K V) (b : rtree K W) : WO a -> WO b ->
    exists r, rt_intersects kcmp strat a b = Ok r /\ (r = true <-> share_key a b).
  Proof.
    intros Wa Wb. destruct (intersects0_ok L E strat (S (t_size a + t_size b)) a (t_prefix a) b (t_prefix b)) as (r & Q & H); auto.
    exists r. split; auto. rewrite !node_eta in H. rewrite H. unfold common, share_key.
    split; intros (k & v & w & H1 & H2); exists k, v, w; split; now apply (lk_has E).
  Qed.
  Theorem C58_is_disjoint {V W} (a : rtree K V) (b : rtree K W) : WO a -> WO b ->
    exists r, rt_is_disjoint kcmp strat a b = Ok r /\ (r = true <-> ~ share_key a b).
  Proof.
    intros Wa Wb. destruct (C58_intersects a b Wa Wb) as (r & Q & H). unfold rt_is_disjoint. rewrite Q. cbn [rmap].
    exists (negb r). split; auto. rewrite <- H. destruct r; simpl; split; congruence.
  Qed.

  (** ** C59 *)
  Theorem C59_check_exact {V} (t : rtree K V) : rt_check kcmp t = true <-> WO t.
  Proof. apply (check_WO L). Qed.
  Theorem C59_is_subset_sound {V W} (a : rtree K V) (b : rtree K W) :
    rt_check kcmp a = true -> rt_check kcmp b = true ->
    exists r, rt_is_subset kcmp strat a b = Ok r /\ (r = true -> keys_within a b).
  Proof.
    rewrite !C59_check_exact. intros Wa Wb.
    destruct (is_subset0_sound L E strat (S (t_size a + t_size b)) a (t_prefix a) b (t_prefix b)) as (r & Q & H); auto.
    exists r. split; auto. rewrite !node_eta in H. intros Hr. now apply incl_within; auto.
  Qed.
  Theorem C59_queries {V} (t : rtree K V) : rt_check kcmp t = true ->
    (forall k, exists o, rt_get kcmp t k = Ok o /\ holds t k o) /\
    (exists l, rt_iter t = Ok l /\ rt_values t = Ok (map snd l) /\ sorted (lex kcmp) (map fst l) /\ forall k v, In (k, v) l <-> has t k v) /\
    (forall p, exists l, rt_scan_prefix kcmp t p = Ok l /\ sorted (lex kcmp) (map fst l) /\ forall k v, In (k, v) l <-> has t k v /\ starts_with k p) /\
    (forall W (b : rtree K W), rt_check kcmp b = true -> exists r, rt_intersects kcmp strat t b = Ok r /\ (r = true <-> share_key t b)).
  Proof.
    rewrite C59_check_exact. intros W. split; [intros k; now apply C44_get|]. split; [now apply C56_iter|].
    split; [intros p; now apply C55_scan_prefix|]. intros W' b Hb. apply C59_check_exact in Hb. now apply C58_intersects.
  Qed.
End Props.

(** ** Refutations *)
(** left_combine of {1: 10} with {2: 20} by a function that drops every value keeps 10 *)
Theorem C51_left_combine_refuted :
  ~ (forall (f : nat -> option nat -> option nat) (a b t : rtree nat nat),
       Canon Nat.compare a -> Canon Nat.compare b -> rt_left_combine Nat.compare (fun _ _ => false) f a b = Ok t ->
       pointwise (fun x y => match x with Some v => f v y | None => None end) a b t).
Proof.
  intros H. specialize (H (fun _ _ => None) (rt_single [1] 10) (rt_single [2] 20) (rt_single [1] 10)
    (node_canon _ _) (node_canon _ _) eq_refl).
  specialize (H [1] (Some 10)). destruct H as [H _]. destruct H as (x & y & _ & _ & Q); [apply has_here|].
  now destruct x.
Qed.
(** the archived tree with prefix [1], no value and no children is accepted and holds nothing, but it is
    not found to be a subset of the empty tree *)
Theorem C59_is_subset_refuted :
  ~ (forall a b : rtree nat nat, rt_check Nat.compare a = true -> rt_check Nat.compare b = true ->
       keys_within a b -> rt_is_subset Nat.compare (fun _ _ => false) a b = Ok true).
Proof.
  intros H. specialize (H (Node [1] None []) rt_empty eq_refl eq_refl). discriminate H.
  intros k v Hk. inversion Hk as [|? ? ? ? ? ? Hin]; subst. destruct Hin.
Qed.

(** ** Witnesses: the hypotheses are met by non-trivial trees and the operations compute *)
Definition wa : rtree nat nat := match rt_from_iter Nat.compare (fun _ _ => false) [([1;2;3], 10); ([1;2;4], 20); ([1], 5); ([2;2], 7); ([1;2;3], 11)] with Ok t => t | _ => rt_empty end.
Definition wb : rtree nat nat := match rt_from_iter Nat.compare (fun _ _ => true) [([1;2;4], 1); ([1;2], 2); ([3], 3); ([2], 4)] with Ok t => t | _ => rt_empty end.
Example wa_shape : wa = Node [] None [Node [1] (Some 5) [Node [2] None [Node [3] (Some 11) []; Node [4] (Some 20) []]]; Node [2;2] (Some 7) []].
Proof. reflexivity. Qed.
Example wa_reach : reach (kcmp := Nat.compare) (fun _ _ => false) nat wa.
Proof. eapply r_from_iter with (l := [([1;2;3], 10); ([1;2;4], 20); ([1], 5); ([2;2], 7); ([1;2;3], 11)]). reflexivity. Qed.
Example wb_reach : reach (kcmp := Nat.compare) (fun _ _ => true) nat wb.
Proof. eapply r_from_iter with (l := [([1;2;4], 1); ([1;2], 2); ([3], 3); ([2], 4)]). reflexivity. Qed.
Example wa_canon : Canon Nat.compare wa := C46_reachable_canonical nat_ord nat_ord_eq _ _ wa_reach.
Example wb_canon : Canon Nat.compare wb := C46_reachable_canonical nat_ord nat_ord_eq _ _ wb_reach.
(** C44 *)
Example w44 : rt_get Nat.compare wa [1;2;3] = Ok (Some 11) /\ rt_get Nat.compare wa [1;2] = Ok None.
Proof. now vm_compute. Qed.
(** C45 *)
Example w45 : last_bound [([1;2;3], 10); ([1;2;4], 20); ([1;2;3], 11)] [1;2;3] 11 /\ ~ last_bound [([1;2;3], 10); ([1;2;4], 20); ([1;2;3], 11)] [1;2;3] 10.
Proof.
  split; [exists [([1;2;3], 10); ([1;2;4], 20)], []; split; auto|].
  intros ([|p [|p2 [|p3 l1]]] & l2 & Q & N); try discriminate Q; injection Q; intros; subst; try discriminate.
  - apply (N 11). simpl. auto.
  - now destruct l1.
Qed.
(** C47: built in a different order, the same tree *)
Example w47 : rt_from_iter Nat.compare (fun _ _ => true) [([2;2], 7); ([1;2;3], 11); ([1], 5); ([1;2;4], 20)] = Ok wa.
Proof. now vm_compute. Qed.
(** C48-C53 *)
Example w48 : rt_union Nat.compare (fun _ _ => false) wa wb = rt_union_with Nat.compare (fun _ _ => true) wa wb
  /\ rt_union Nat.compare (fun _ _ => false) wa wb =
     Ok (Node [] None [Node [1] (Some 5) [Node [2] (Some 2) [Node [3] (Some 11) []; Node [4] (Some 20) []]]; Node [2] (Some 4) [Node [2] (Some 7) []]; Node [3] (Some 3) []]).
Proof. now vm_compute. Qed.
Example w49 : rt_intersection Nat.compare (fun _ _ => false) wa wb = Ok (Node [1;2;4] (Some 20) []).
Proof. now vm_compute. Qed.
Example w50 : rt_difference Nat.compare (fun _ _ => false) wa wb = Ok (Node [] None [Node [1] (Some 5) [Node [2;3] (Some 11) []]; Node [2;2] (Some 7) []])
  /\ rt_difference_with Nat.compare (fun _ _ => false) wa wb = rt_difference Nat.compare (fun _ _ => false) wa wb.
Proof. now vm_compute. Qed.
Example w51 : rt_left_combine Nat.compare (fun _ _ => false) (fun (v : nat) (w : option nat) => match w with Some w => Some (v + w) | None => Some v end) wa wb
  = Ok (Node [] None [Node [1] (Some 5) [Node [2] None [Node [3] (Some 11) []; Node [4] (Some 21) []]]; Node [2;2] (Some 7) []]).
Proof. now vm_compute. Qed.
Example w52 : rt_remove_prefix_with Nat.compare (fun _ _ => false) (fun w => w =? 2) wa wb = Ok (Node [] None [Node [1] (Some 5) []; Node [2;2] (Some 7) []]).
Proof. now vm_compute. Qed.
Example w53 : rt_retain_prefix_with Nat.compare (fun _ _ => false) (fun w => w =? 2) wa wb = Ok (Node [1;2] None [Node [3] (Some 11) []; Node [4] (Some 20) []]).
Proof. now vm_compute. Qed.
(** C54-C56: a prefix that ends inside a node *)
Example w54 : rt_filter_prefix Nat.compare wa [2] = Ok (Node [2;2] (Some 7) []) /\ rt_get Nat.compare (rt_prepend wa [9]) [9;1] = Ok (Some 5).
Proof. now vm_compute. Qed.
Example w55 : rt_scan_prefix Nat.compare wa [1;2] = Ok [([1;2;3], 11); ([1;2;4], 20)].
Proof. now vm_compute. Qed.
Example w56 : rt_iter wa = Ok [([1], 5); ([1;2;3], 11); ([1;2;4], 20); ([2;2], 7)].
Proof. now vm_compute. Qed.
(** C57, C58 *)
Example w57 : rt_is_subset Nat.compare (fun _ _ => false) (Node [1;2;4] (Some 20) []) wa = Ok true /\ rt_is_subset Nat.compare (fun _ _ => false) wb wa = Ok false.
Proof. now vm_compute. Qed.
Example w58 : rt_intersects Nat.compare (fun _ _ => false) wa wb = Ok true.
Proof. now vm_compute. Qed.
(** C59: an accepted tree that is not canonical, and a rejected one *)
Example w59 : rt_check Nat.compare (Node [1] None [Node [2;1] (Some 1) []]) = true /\ rt_check Nat.compare (Node [1] None [Node [2;1] (Some 1) []; Node [2;2] (Some 1) []]) = false.
Proof. now vm_compute. Qed.

Print Assumptions C44_get.
Print Assumptions C44_contains_key.
Print Assumptions C45_inserts.
Print Assumptions C45_from_iter.
Print Assumptions C46_reachable_canonical.
Print Assumptions C47_eq_extensional.
Print Assumptions C47_eq_up_to_value_eq.
Print Assumptions C47_reachable_eq_extensional.
Print Assumptions C48_outer_combine.
Print Assumptions C48_outer_combine_with.
Print Assumptions C48_union.
Print Assumptions C48_union_with.
Print Assumptions C49_inner_combine.
Print Assumptions C49_inner_combine_with.
Print Assumptions C49_intersection.
Print Assumptions C49_intersection_with.
Print Assumptions C50_left_combine_with.
Print Assumptions C50_difference.
Print Assumptions C50_difference_with.
Print Assumptions C51_left_combine_exact.
Print Assumptions C51_left_combine_partial.
Print Assumptions C51_left_combine_refuted.
Print Assumptions C52_remove_prefix_with.
Print Assumptions C53_retain_prefix_with.
Print Assumptions C54_filter_prefix.
Print Assumptions C54_prepend.
Print Assumptions C55_scan_prefix.
Print Assumptions C56_iter.
Print Assumptions C57_is_subset.
Print Assumptions C57_is_superset.
Print Assumptions C58_intersects.
Print Assumptions C58_is_disjoint.
Print Assumptions C59_check_exact.
Print Assumptions C59_is_subset_sound.
Print Assumptions C59_queries.
Print Assumptions C59_is_subset_refuted.
