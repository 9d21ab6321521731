(** Properties C132 and C133: radix trees use key components only through their order and never look at
    values; and what they do when key components compare Equal without being identical. *)
From Verif Require Import RadixCoarse.

(** ** C132 *)
(** [q] renames key components and keeps their order, [g], [h] rename values; [renamed q g t]
    (RadixRename.v) is the tree with every component and value renamed. Every operation on renamed trees
    (and keys) does what it does on the original ones, and its result is the renamed result - also when it
    would panic. *)
Theorem C132_operations : forall (K K' V V' W W' : Type) (cmp : K -> K -> comparison) (cmp' : K' -> K' -> comparison)
    (q : K -> K') (g : V -> V') (h : W -> W') (strat : nat -> nat -> bool),
  (forall x y, cmp' (q x) (q y) = cmp x y) ->
  let r := renamed q g in let s := renamed q h in
  (forall a b, rt_union cmp' strat (r a) (r b) = rmap r (rt_union cmp strat a b)) /\
  (forall a b, rt_union_with cmp' strat (r a) (r b) = rmap r (rt_union_with cmp strat a b)) /\
  (forall a b, rt_intersection cmp' strat (r a) (s b) = rmap r (rt_intersection cmp strat a b)) /\
  (forall a b, rt_intersection_with cmp' strat (r a) (s b) = rmap r (rt_intersection_with cmp strat a b)) /\
  (forall a b, rt_difference cmp' strat (r a) (s b) = rmap r (rt_difference cmp strat a b)) /\
  (forall a b, rt_difference_with cmp' strat (r a) (s b) = rmap r (rt_difference_with cmp strat a b)) /\
  (forall t k v, rt_insert cmp' strat (r t) (map q k) (g v) = rmap r (rt_insert cmp strat t k v)) /\
  (forall l, rt_from_iter cmp' strat (map (fun e => (map q (fst e), g (snd e))) l) = rmap r (rt_from_iter cmp strat l)) /\
  (forall t k, rt_filter_prefix cmp' (r t) (map q k) = rmap r (rt_filter_prefix cmp t k)) /\
  (forall t k, rt_prepend (r t) (map q k) = r (rt_prepend t k)).
Proof.
  intros K K' V V' W W' cmp cmp' q g h strat Hq. cbv zeta. split; [|split; [|split; [|split; [|split; [|split; [|split; [|split; [|split]]]]]]]].
  - intros a b. now apply rt_outer_map.
  - intros a b. now apply rt_outer_with_map.
  - intros a b. now apply rt_inner_map.
  - intros a b. now apply rt_inner_with_map.
  - intros a b. apply rt_left_map; [assumption|]. now intros v [w|].
  - intros a b. now apply rt_left_with_map.
  - intros t k v. now apply rt_insert_map.
  - intros l. exact (rt_insert_all_map cmp cmp' q Hq strat g l rt_empty).
  - intros t k. now apply rt_filter_prefix_map.
  - intros t k. apply ren_prepend.
Qed.
Print Assumptions C132_operations.

(** the combinations with closures: corresponding closures give corresponding results *)
Theorem C132_combinations : forall (K K' V V' W W' : Type) (cmp : K -> K -> comparison) (cmp' : K' -> K' -> comparison)
    (q : K -> K') (g : V -> V') (h : W -> W') (strat : nat -> nat -> bool),
  (forall x y, cmp' (q x) (q y) = cmp x y) ->
  let r := renamed q g in let s := renamed q h in
  (forall f f', (forall v w, f' (g v) (g w) = option_map g (f v w)) ->
     forall a b, rt_outer_combine cmp' strat f' (r a) (r b) = rmap r (rt_outer_combine cmp strat f a b)) /\
  (forall f f', (forall v w, f' (g v) (g w) = (g (fst (f v w)), snd (f v w))) ->
     forall a b, rt_outer_combine_with cmp' strat f' (r a) (r b) = rmap r (rt_outer_combine_with cmp strat f a b)) /\
  (forall f f', (forall v w, f' (g v) (h w) = option_map g (f v w)) ->
     forall a b, rt_inner_combine cmp' strat f' (r a) (s b) = rmap r (rt_inner_combine cmp strat f a b)) /\
  (forall f f', (forall v w, f' (g v) (h w) = (g (fst (f v w)), snd (f v w))) ->
     forall a b, rt_inner_combine_with cmp' strat f' (r a) (s b) = rmap r (rt_inner_combine_with cmp strat f a b)) /\
  (forall f f', (forall v w, f' (g v) (option_map h w) = option_map g (f v w)) ->
     forall a b, rt_left_combine cmp' strat f' (r a) (s b) = rmap r (rt_left_combine cmp strat f a b)) /\
  (forall f f', (forall v w, f' (g v) (h w) = (g (fst (f v w)), snd (f v w))) ->
     forall a b, rt_left_combine_with cmp' strat f' (r a) (s b) = rmap r (rt_left_combine_with cmp strat f a b)) /\
  (forall f f', (forall w, f' (h w) = f w) ->
     forall a b, rt_remove_prefix_with cmp' strat f' (r a) (s b) = rmap r (rt_remove_prefix_with cmp strat f a b)) /\
  (forall f f', (forall w, f' (h w) = f w) ->
     forall a b, rt_retain_prefix_with cmp' strat f' (r a) (s b) = rmap r (rt_retain_prefix_with cmp strat f a b)).
Proof.
  intros K K' V V' W W' cmp cmp' q g h strat Hq. cbv zeta.
  split; [|split; [|split; [|split; [|split; [|split; [|split]]]]]]; intros f f' Hf a b.
  - now apply rt_outer_map.
  - now apply rt_outer_with_map.
  - now apply rt_inner_map.
  - now apply rt_inner_with_map.
  - now apply rt_left_map.
  - now apply rt_left_with_map.
  - now apply rt_remove_map.
  - now apply rt_retain_map.
Qed.
Print Assumptions C132_combinations.

(** questions have the same answer; what is read is the renamed entry *)
Theorem C132_queries : forall (K K' V V' W W' : Type) (cmp : K -> K -> comparison) (cmp' : K' -> K' -> comparison)
    (q : K -> K') (g : V -> V') (h : W -> W') (strat : nat -> nat -> bool),
  (forall x y, cmp' (q x) (q y) = cmp x y) ->
  let r := renamed q g in let s := renamed q h in
  let entries := map (fun e : list K * V => (map q (fst e), g (snd e))) in
  (forall t k, rt_get cmp' (r t) (map q k) = rmap (option_map g) (rt_get cmp t k)) /\
  (forall t k, rt_contains_key cmp' (r t) (map q k) = rt_contains_key cmp t k) /\
  (forall t, rt_iter (r t) = rmap entries (rt_iter t)) /\
  (forall t, rt_values (r t) = rmap (map g) (rt_values t)) /\
  (forall t k, rt_scan_prefix cmp' (r t) (map q k) = rmap entries (rt_scan_prefix cmp t k)) /\
  (forall a b, rt_is_subset cmp' strat (r a) (s b) = rt_is_subset cmp strat a b) /\
  (forall a b, rt_is_superset cmp' strat (r a) (s b) = rt_is_superset cmp strat a b) /\
  (forall a b, rt_intersects cmp' strat (r a) (s b) = rt_intersects cmp strat a b) /\
  (forall a b, rt_is_disjoint cmp' strat (r a) (s b) = rt_is_disjoint cmp strat a b) /\
  (forall t, rt_check cmp' (r t) = rt_check cmp t) /\
  (forall veqb veqb', (forall x y, veqb' (g x) (g y) = veqb x y) ->
     forall a b, rt_eqb cmp' veqb' (r a) (r b) = rt_eqb cmp veqb a b).
Proof.
  intros K K' V V' W W' cmp cmp' q g h strat Hq. cbv zeta.
  split; [|split; [|split; [|split; [|split; [|split; [|split; [|split; [|split; [|split]]]]]]]]].
  - intros t k. now apply rt_get_map.
  - intros t k. now apply rt_contains_map.
  - intros t. apply rt_iter_map.
  - intros t. apply rt_values_map.
  - intros t k. now apply rt_scan_map.
  - intros a b. now apply rt_is_subset_map.
  - intros a b. now apply rt_is_subset_map.
  - intros a b. now apply rt_intersects_map.
  - intros a b. unfold rt_is_disjoint. now rewrite (rt_intersects_map cmp cmp' q Hq strat g h).
  - intros t. now apply rt_check_map.
  - intros veqb veqb' Hv a b. now apply rt_eqb_map.
Qed.
Print Assumptions C132_queries.

(** Letters: a letter and its case; they are ordered and equal without regard to case. Forgetting the case is
    a renaming. *)
Definition letter : Type := nat * bool.
Definition nocase (x y : letter) : comparison := Nat.compare (fst x) (fst y).
Definition up (n : nat) : letter := (n, true).
Definition lo (n : nat) : letter := (n, false).
Definition never (_ _ : nat) := false.
Definition tU : rtree letter nat :=
  match rt_from_iter nocase never [([up 1; lo 2; lo 3], 10); ([up 7], 20)] with Ok t => t | _ => rt_empty end.
Definition tL : rtree letter nat :=
  match rt_from_iter nocase never [([lo 1; up 2; up 4], 30); ([lo 7], 40)] with Ok t => t | _ => rt_empty end.
Example C132_witness :
  (forall x y, Nat.compare (fst x) (fst y) = nocase x y) /\
  rt_union Nat.compare never (renamed fst S tU) (renamed fst S tL) = rmap (renamed fst S) (rt_union nocase never tU tL) /\
  rt_iter (renamed fst S tU) = Ok [([1; 2; 3], 11); ([7], 21)].
Proof. split; [reflexivity|]. vm_compute. split; reflexivity. Qed.

(** ** C133 *)
(** The order of key components is any total preorder: components may compare Equal without being
    identical. [same_key], [hasq], [holdsq], [pointwiseq], [coveredq] are in RadixCoarse.v: what a tree binds
    to a key, up to Equal components. *)
(** some beginning of k equals p *)
Definition startsq {K} (cmp : K -> K -> comparison) (k p : list K) : Prop :=
  exists k1 k2, k = k1 ++ k2 /\ same_key cmp k1 p.
(** the last pair of l whose key equals k carries v *)
Definition last_boundq {K V} (cmp : K -> K -> comparison) (l : list (list K * V)) (k : list K) (v : V) : Prop :=
  exists l1 k1 l2, l = l1 ++ (k1, v) :: l2 /\ same_key cmp k1 k /\ forall k2 w, In (k2, w) l2 -> ~ same_key cmp k2 k.
(** every key of a equals a key of b; some key of a equals a key of b *)
Definition keys_withinq {K V W} (cmp : K -> K -> comparison) (a : rtree K V) (b : rtree K W) : Prop :=
  forall k v, has a k v -> exists w, hasq cmp b k w.
Definition share_keyq {K V W} (cmp : K -> K -> comparison) (a : rtree K V) (b : rtree K W) : Prop :=
  exists k v w, has a k v /\ hasq cmp b k w.

(** some path of t spells a key equal to k and ends in a node with the optional value o *)
Definition at_nodeq {K V} (cmp : K -> K -> comparison) (t : rtree K V) (k : list K) (o : option V) : Prop :=
  exists k', same_key cmp k' k /\ at_node t k' o.

Lemma at_node_node {K V} (p : list K) (o : option V) cs k w :
  at_node (Node p o cs) k w <-> (k = p /\ w = o) \/ exists c k1, k = p ++ k1 /\ In c cs /\ at_node c k1 w.
Proof.
  split.
  - intros H. inversion H; subst; eauto 8.
  - intros [[-> ->]|(c & k1 & -> & Hin & Hc)]; [constructor|econstructor; eassumption].
Qed.
Lemma at_node_ren {K K' V} (r : K -> K') (t : rtree K V) : forall k w,
  at_node (renamed r id t) k w <-> exists k0, k = map r k0 /\ at_node t k0 w.
Proof.
  induction t as [p o cs IH] using rtree_ind'. rewrite Forall_forall in IH. intros k w. cbn [renamed]. rewrite at_node_node.
  replace (option_map id o) with o by now destruct o. split.
  - intros [[-> ->]|(c & k1 & -> & Hin & Hc)].
    + exists p. split; [reflexivity|constructor].
    + apply in_map_iff in Hin as (c0 & <- & Hin). apply (IH _ Hin) in Hc as (k0 & -> & Hc).
      exists (p ++ k0). rewrite map_app. split; [reflexivity|]. econstructor; eassumption.
  - intros (k0 & -> & H). apply at_node_node in H as [[-> ->]|(c & k1 & -> & Hin & Hc)]; [now left|right].
    exists (renamed r id c), (map r k1). rewrite map_app. split; [reflexivity|]. split; [now apply in_map|].
    apply (IH _ Hin). eauto.
Qed.
Lemma at_nodeq_id {V} (t : rtree nat V) k o : at_nodeq Nat.compare t k o <-> at_node t k o.
Proof.
  unfold at_nodeq. split; [|intros H; exists k; split; [now apply same_key_id|assumption]].
  intros (k' & S & H). apply same_key_id in S. now subst.
Qed.

Section NaturalToo.
  Context {X Y : Type} (c : X -> X -> comparison) (c' : Y -> Y -> comparison) (r : X -> Y) (Hr : keeps_order c c' r).
  Lemma startsq_nat k p : startsq c' (map r k) (map r p) <-> startsq c k p.
  Proof using Hr.
    unfold startsq. split.
    - intros (k1 & k2 & E & S). apply map_eq_app in E as (l1 & l2 & -> & <- & <-). apply (same_key_nat c c' r Hr) in S. eauto.
    - intros (k1 & k2 & -> & S). exists (map r k1), (map r k2). rewrite map_app. split; [reflexivity|].
      now apply (same_key_nat c c' r Hr).
  Qed.
  Lemma keys_withinq_nat {V W} (a : rtree X V) (b : rtree X W) :
    keys_withinq c' (renamed r id a) (renamed r id b) <-> keys_withinq c a b.
  Proof using Hr.
    unfold keys_withinq. split.
    - intros H k v Hk. destruct (H (map r k) v) as (w & Hw); [apply has_ren; eauto|]. exists w.
      now apply (hasq_nat c c' r Hr).
    - intros H k v Hk. apply has_ren in Hk as (k0 & -> & Hk). destruct (H k0 v Hk) as (w & Hw). exists w.
      now apply (hasq_nat c c' r Hr).
  Qed.
  Lemma share_keyq_nat {V W} (a : rtree X V) (b : rtree X W) :
    share_keyq c' (renamed r id a) (renamed r id b) <-> share_keyq c a b.
  Proof using Hr.
    unfold share_keyq. split.
    - intros (k & v & w & Hk & Hw). apply has_ren in Hk as (k0 & -> & Hk). exists k0, v, w. split; [assumption|].
      now apply (hasq_nat c c' r Hr).
    - intros (k & v & w & Hk & Hw). exists (map r k), v, w. split; [apply has_ren; eauto|]. now apply (hasq_nat c c' r Hr).
  Qed.
  Lemma at_nodeq_nat {V} (t : rtree X V) k o : at_nodeq c' (renamed r id t) (map r k) o <-> at_nodeq c t k o.
  Proof using Hr.
    unfold at_nodeq. split.
    - intros (k' & S & H). apply at_node_ren in H as (k0 & -> & H). apply (same_key_nat c c' r Hr) in S. eauto.
    - intros (k0 & S & H). exists (map r k0). split; [now apply (same_key_nat c c' r Hr)|]. apply at_node_ren. eauto.
  Qed.
  Lemma lex_nat a : forall b, lex c' (map r a) (map r b) = lex c a b.
  Proof using Hr.
    induction a as [|x a IH]; intros [|y b]; cbn [map lex]; try reflexivity. rewrite Hr. now rewrite IH.
  Qed.
  Lemma sorted_lex_nat l : sorted (lex c') (map (map r) l) <-> sorted (lex c) l.
  Proof using Hr.
    unfold sorted. induction l as [|k l IH]; cbn [map]; [split; constructor|].
    split; intros H; inversion H; subst; constructor; try (now apply IH); rewrite Forall_map in *;
      (eapply Forall_impl; [|eassumption]); intros k'; cbn beta; now rewrite lex_nat.
  Qed.
End NaturalToo.
Lemma startsq_id k p : startsq Nat.compare k p <-> starts_with k p.
Proof.
  unfold startsq, starts_with. split.
  - intros (k1 & k2 & -> & S). apply same_key_id in S as ->. eauto.
  - intros (s & ->). exists p, s. split; [reflexivity|]. now apply same_key_id.
Qed.

Section Coarse.
  Context {K : Type} (cmp : K -> K -> comparison) (L : OrdLaws cmp) (strat : nat -> nat -> bool).
  Notation LN := nat_ord.
  Notation EN := nat_ord_eq.

  Lemma same_key_dec a : forall b, {same_key cmp a b} + {~ same_key cmp a b}.
  Proof using.
    unfold same_key. induction a as [|x a IH]; intros [|y b]; [left; constructor|right; intros H; inversion H..|].
    destruct (cmp x y) eqn:E; [destruct (IH b) as [H|H]|..].
    - left. now constructor.
    - right. intros Q. inversion Q. contradiction.
    - right. intros Q. inversion Q. congruence.
    - right. intros Q. inversion Q. congruence.
  Qed.
  Lemma same_key_trans a b d : same_key cmp a b -> same_key cmp b d -> same_key cmp a d.
  Proof using L.
    intros H. revert d. induction H as [|x y a b E _ IH]; intros d H; inversion H; subst; constructor.
    - eapply (cmp_eq_trans L); eassumption.
    - now apply IH.
  Qed.
  Lemma same_key_sym a b : same_key cmp a b -> same_key cmp b a.
  Proof using L. intros H. induction H as [|x y a b E _ IH]; constructor; [now apply (cmp_sym L)|assumption]. Qed.

  (** *** lookups *)
  Theorem C133_get {V} (t : rtree K V) k : WO cmp t ->
    exists o, rt_get cmp t k = Ok o /\ holdsq cmp t k o.
  Proof using L.
    intros W. destruct (coarse1 cmp L (fun _ => option V) (fun _ _ _ o => o) (fun X c (t : rtree X V) k => rt_get c t k)
      (fun X c (t : rtree X V) k o _ => holdsq c t k o)) with (t := t) (k := k) as (o & E & H); try assumption.
    - intros X Y c c' r Hr t0 k0. rewrite (rt_get_map c c' r Hr id). destruct (rt_get c t0 k0) as [[v|]| |]; reflexivity.
    - intros X Y c c' r Hr t0 k0 o _. now apply holdsq_nat.
    - intros t0 k0 W0. destruct (C44_get LN EN t0 k0 W0) as (o & E & H). exists o. split; [assumption|].
      intros _. now apply holdsq_id.
    - exists o. split; [assumption|]. exact (H []).
  Qed.
  Theorem C133_contains_key {V} (t : rtree K V) k : WO cmp t ->
    exists b, rt_contains_key cmp t k = Ok b /\ (b = true <-> exists v, hasq cmp t k v).
  Proof using L.
    intros W. destruct (coarse1 cmp L (fun _ => bool) (fun _ _ _ o => o) (fun X c (t : rtree X V) k => rt_contains_key c t k)
      (fun X c (t : rtree X V) k b _ => b = true <-> exists v, hasq c t k v)) with (t := t) (k := k) as (o & E & H); try assumption.
    - intros X Y c c' r Hr t0 k0. rewrite (rt_contains_map c c' r Hr id).
      now destruct (rt_contains_key c t0 k0).
    - intros X Y c c' r Hr t0 k0 b _. split; intros ->; split; intros (v & Hv); exists v; now apply (hasq_nat c c' r Hr).
    - intros t0 k0 W0. destruct (C44_contains_key LN EN t0 k0 W0) as (b & E & H). exists b. split; [assumption|].
      intros _. rewrite H. split; intros (v & Hv); exists v; now apply hasq_id.
    - exists o. split; [assumption|]. exact (H []).
  Qed.
  (** a key, taken up to Equal, has at most one value *)
  Theorem C133_functional {V} (t : rtree K V) k v w : WO cmp t -> hasq cmp t k v -> hasq cmp t k w -> v = w.
  Proof using L.
    intros W Hv Hw. destruct (C133_get t k W) as (o & E & H).
    destruct (coarse1 cmp L (fun _ => option V) (fun _ _ _ o => o) (fun X c (t : rtree X V) k => rt_get c t k)
      (fun X c (t : rtree X V) k o _ => forall v, hasq c t k v -> o = Some v)) with (t := t) (k := k) as (o' & E' & H'); try assumption.
    - intros X Y c c' r Hr t0 k0. rewrite (rt_get_map c c' r Hr id). destruct (rt_get c t0 k0) as [[u|]| |]; reflexivity.
    - intros X Y c c' r Hr t0 k0 o0 _. split; intros Q u Hu; apply Q; now apply (hasq_nat c c' r Hr).
    - intros t0 k0 W0. destruct (C44_get LN EN t0 k0 W0) as (o0 & E0 & H0). exists o0. split; [assumption|].
      intros _ u Hu. apply hasq_id in Hu. destruct o0 as [u'|]; cbn [holds] in H0; [|now apply H0 in Hu].
      f_equal. eapply (C44_functional EN); eassumption.
    - apply (H' []) in Hv, Hw. congruence.
  Qed.

  (** *** insert, collect *)
  Theorem C133_insert {V} (t : rtree K V) k0 v0 : WO cmp t ->
    exists t', rt_insert cmp strat t k0 v0 = Ok t' /\ WO cmp t' /\ (Canon cmp t -> Canon cmp t') /\
      forall k v, hasq cmp t' k v <-> (same_key cmp k k0 /\ v = v0) \/ (~ same_key cmp k k0 /\ hasq cmp t k v).
  Proof using L.
    intros W.
    destruct (coarse1 cmp L (fun X => rtree X V) (fun X Y r t => renamed r id t) (fun X c (t : rtree X V) k => rt_insert c strat t k v0)
      (fun X c (t : rtree X V) k t' x => WO c t' /\ (Canon c t -> Canon c t') /\
         forall v, hasq c t' x v <-> (same_key c x k /\ v = v0) \/ (~ same_key c x k /\ hasq c t x v))) with (t := t) (k := k0) as (t' & E & H);
      try assumption.
    - intros X Y c c' r Hr t1 k1. exact (rt_insert_map c c' r Hr strat id t1 k1 v0).
    - intros X Y c c' r Hr t1 k1 t2 x. unfold WO, Canon. rewrite !(wf_nat c c' r Hr).
      split; intros (H1 & H2 & H3); (split; [assumption|split; [assumption|]]); intros v; specialize (H3 v); revert H3;
        rewrite !(hasq_nat c c' r Hr), (same_key_nat c c' r Hr); auto.
    - intros t1 k1 W1. destruct (C45_insert LN EN strat t1 k1 v0 W1) as (t2 & E2 & W2 & C2 & H2). exists t2.
      split; [assumption|]. intros x. split; [assumption|]. split; [assumption|]. intros v.
      rewrite !hasq_id, same_key_id. apply H2.
    - exists t'. split; [assumption|]. split; [exact (proj1 (H []))|]. split; [exact (proj1 (proj2 (H [])))|].
      intros k. exact (proj2 (proj2 (H k))).
  Qed.
  Lemma insert_allq {V} (l : list (list K * V)) : forall t, WO cmp t ->
    exists t', rt_insert_all cmp strat t l = Ok t' /\ WO cmp t' /\ (Canon cmp t -> Canon cmp t') /\
      forall k v, hasq cmp t' k v <-> last_boundq cmp l k v \/ ((forall k2 w, In (k2, w) l -> ~ same_key cmp k2 k) /\ hasq cmp t k v).
  Proof using L.
    induction l as [|[k0 v0] l IH]; intros t W; cbn [rt_insert_all].
    - exists t. split; [reflexivity|]. split; [assumption|]. split; [auto|]. intros k v. split.
      + intros H. right. split; [intros k2 w []|assumption].
      + intros [(l1 & k1 & l2 & E & _)|[_ H]]; [now destruct l1|assumption].
    - destruct (C133_insert t k0 v0 W) as (t1 & E1 & W1 & C1 & H1). rewrite E1. cbn [rbind].
      destruct (IH t1 W1) as (t' & E & W' & C' & H). exists t'. split; [assumption|]. split; [assumption|]. split; [auto|].
      intros k v. rewrite H, H1. split.
      + intros [(l1 & k1 & l2 & -> & S & N)|[N [[S ->]|[S Hv]]]].
        * left. exists ((k0, v0) :: l1), k1, l2. auto.
        * left. exists [], k0, l. split; [reflexivity|]. split; [now apply same_key_sym|assumption].
        * right. split; [|assumption]. intros k2 w [Q|Hin]; [|now apply (N k2 w)]. injection Q as <- <-.
          intros Q. now apply S, same_key_sym.
      + intros [(l1 & k1 & l2 & Q & S & N)|[N Hv]].
        * destruct l1 as [|e l1]; cbn [List.app] in Q.
          -- injection Q as <- <- <-. right. split; [assumption|]. left. split; [now apply same_key_sym|reflexivity].
          -- injection Q as <- ->. left. exists l1, k1, l2. auto.
        * right. split; [intros k2 w Hin; apply (N k2 w); now right|]. right. split; [|assumption].
          intros S. apply (N k0 v0); [now left|now apply same_key_sym].
  Qed.
  Theorem C133_from_iter {V} (l : list (list K * V)) :
    exists t, rt_from_iter cmp strat l = Ok t /\ Canon cmp t /\ forall k v, hasq cmp t k v <-> last_boundq cmp l k v.
  Proof using L.
    assert (C0 : Canon cmp (@rt_empty K V)).
    { cbn. repeat split; try constructor; intros; discriminate. }
    destruct (insert_allq l rt_empty (canon_WO _ C0)) as (t & E & _ & C & H). exists t. split; [exact E|]. split; [now apply C|].
    intros k v. rewrite H. split; [|auto]. intros [Q|[_ (k' & _ & Q)]]; [assumption|]. exfalso.
    apply has_node in Q as [[Q _]|(c & _ & _ & [] & _)]. discriminate.
  Qed.

  (** *** combinations *)
  Definition combinesq {V W} (op : forall X, (X -> X -> comparison) -> rtree X V -> rtree X W -> res (rtree X V))
      (a : rtree K V) (b : rtree K W) (P : rtree K V -> list K -> Prop) : Prop :=
    exists t, op K cmp a b = Ok t /\ WO cmp t /\ (Canon cmp a -> Canon cmp b -> Canon cmp t) /\ forall k, P t k.
  Lemma combineq {V W} (op : forall X, (X -> X -> comparison) -> rtree X V -> rtree X W -> res (rtree X V)) g :
    (forall X Y c c' (r : X -> Y), keeps_order c c' r -> forall a b,
       op Y c' (renamed r id a) (renamed r id b) = rmap (renamed r id) (op X c a b)) ->
    (forall a b, WO Nat.compare a -> WO Nat.compare b -> combines (kcmp := Nat.compare) (op nat Nat.compare) a b (pointwise g a b)) ->
    forall a b, WO cmp a -> WO cmp b -> combinesq op a b (pointwiseq cmp g a b).
  Proof using L.
    intros Nop base a b Wa Wb. apply (coarse2 cmp L op (fun X c => pointwiseq c g)); try assumption.
    - intros X Y c c' r Hr a0 b0 t0 k0. now apply pointwiseq_nat.
    - intros a0 b0 W1 W2. destruct (base a0 b0 W1 W2) as (t & E & Wt & Ct & H). exists t.
      split; [assumption|]. split; [assumption|]. split; [assumption|]. now apply pointwiseq_id.
  Qed.

  Theorem C133_outer_combine {V} (f : V -> V -> option V) (a b : rtree K V) : WO cmp a -> WO cmp b ->
    combinesq (fun X c => rt_outer_combine c strat f) a b (pointwiseq cmp (outer_at f) a b).
  Proof using L.
    apply combineq.
    - intros X Y c c' r Hr x y. apply rt_outer_map; [assumption|]. intros v w. symmetry. unfold id. now destruct (f v w).
    - intros x y. apply (C48_outer_combine LN EN).
  Qed.
  Theorem C133_outer_combine_with {V} (f : V -> V -> V * bool) (a b : rtree K V) : WO cmp a -> WO cmp b ->
    combinesq (fun X c => rt_outer_combine_with c strat f) a b (pointwiseq cmp (outer_at (kept f)) a b).
  Proof using L.
    apply combineq.
    - intros X Y c c' r Hr x y. apply rt_outer_with_map; [assumption|]. intros v w. apply surjective_pairing.
    - intros x y. apply (C48_outer_combine_with LN EN).
  Qed.
  Theorem C133_inner_combine {V W} (f : V -> W -> option V) (a : rtree K V) (b : rtree K W) : WO cmp a -> WO cmp b ->
    combinesq (fun X c => rt_inner_combine c strat f) a b (pointwiseq cmp (inner_at f) a b).
  Proof using L.
    apply combineq.
    - intros X Y c c' r Hr x y. apply rt_inner_map; [assumption|]. intros v w. symmetry. unfold id. now destruct (f v w).
    - intros x y. apply (C49_inner_combine LN EN).
  Qed.
  Theorem C133_inner_combine_with {V W} (f : V -> W -> V * bool) (a : rtree K V) (b : rtree K W) : WO cmp a -> WO cmp b ->
    combinesq (fun X c => rt_inner_combine_with c strat f) a b (pointwiseq cmp (inner_at (kept f)) a b).
  Proof using L.
    apply combineq.
    - intros X Y c c' r Hr x y. apply rt_inner_with_map; [assumption|]. intros v w. apply surjective_pairing.
    - intros x y. apply (C49_inner_combine_with LN EN).
  Qed.
  Theorem C133_left_combine_with {V W} (f : V -> W -> V * bool) (a : rtree K V) (b : rtree K W) : WO cmp a -> WO cmp b ->
    combinesq (fun X c => rt_left_combine_with c strat f) a b (pointwiseq cmp (left_at (kept f)) a b).
  Proof using L.
    apply combineq.
    - intros X Y c c' r Hr x y. apply rt_left_with_map; [assumption|]. intros v w. apply surjective_pairing.
    - intros x y. apply (C50_left_combine_with LN EN).
  Qed.
  (** as for C51: for the functions that keep what b does not have *)
  Theorem C133_left_combine {V W} (f : V -> option W -> option V) (a : rtree K V) (b : rtree K W) :
    (forall v, f v None = Some v) -> WO cmp a -> WO cmp b ->
    combinesq (fun X c => rt_left_combine c strat f) a b
      (pointwiseq cmp (fun x y => match x with Some v => f v y | None => None end) a b).
  Proof using L.
    intros Hf. apply combineq.
    - intros X Y c c' r Hr x y. apply rt_left_map; [assumption|]. intros v w. unfold id.
      replace (option_map (fun x : W => x) w) with w by now destruct w. now destruct (f v w).
    - intros x y. now apply (C51_left_combine_partial LN EN).
  Qed.

  (** *** set operations, prefixes *)
  Lemma combineS {V W} (op : forall X, (X -> X -> comparison) -> rtree X V -> rtree X W -> res (rtree X V))
      (B : forall X, (X -> X -> comparison) -> rtree X W -> list X -> Prop) (G : Prop -> Prop -> Prop -> Prop) :
    (forall A A' D D' F F', (A <-> A') -> (D <-> D') -> (F <-> F') -> (G A D F <-> G A' D' F')) ->
    (forall X Y c c' (r : X -> Y), keeps_order c c' r -> forall b k, B Y c' (renamed r id b) (map r k) <-> B X c b k) ->
    (forall X Y c c' (r : X -> Y), keeps_order c c' r -> forall a b,
       op Y c' (renamed r id a) (renamed r id b) = rmap (renamed r id) (op X c a b)) ->
    (forall a b, WO Nat.compare a -> WO Nat.compare b -> combines (kcmp := Nat.compare) (op nat Nat.compare) a b
       (fun t => forall k v, has t k v <-> G (has a k v) (exists x, has a k x) (B nat Nat.compare b k))) ->
    forall a b, WO cmp a -> WO cmp b ->
      combinesq op a b (fun t k => forall v, hasq cmp t k v <-> G (hasq cmp a k v) (exists x, hasq cmp a k x) (B K cmp b k)).
  Proof using L.
    intros PG NB Nop base a b Wa Wb.
    apply (coarse2 cmp L op (fun X c a b t k => forall v, hasq c t k v <-> G (hasq c a k v) (exists x, hasq c a k x) (B X c b k)));
      try assumption.
    - intros X Y c c' r Hr a0 b0 t0 k0.
      assert (Q : forall v, G (hasq c' (renamed r id a0) (map r k0) v) (exists x, hasq c' (renamed r id a0) (map r k0) x) (B Y c' (renamed r id b0) (map r k0))
        <-> G (hasq c a0 k0 v) (exists x, hasq c a0 k0 x) (B X c b0 k0)).
      { intros v. apply PG; [now apply hasq_nat| |now apply NB]. split; intros (x & Hx); exists x; now apply (hasq_nat c c' r Hr). }
      split; intros H v; specialize (H v); specialize (Q v); rewrite (hasq_nat c c' r Hr) in *; tauto.
    - intros a0 b0 W1 W2. destruct (base a0 b0 W1 W2) as (t & E & Wt & Ct & H). exists t.
      split; [assumption|]. split; [assumption|]. split; [assumption|]. intros k v. rewrite hasq_id, H.
      apply PG; [now rewrite hasq_id| |reflexivity]. split; intros (x & Hx); exists x; now apply hasq_id.
  Qed.
  Ltac prop := intros A A' D D' F F' HA HD HF; tauto.
  Lemma some_nat {W} X Y c c' (r : X -> Y) : keeps_order c c' r -> forall (b : rtree X W) k,
    (exists w, hasq c' (renamed r id b) (map r k) w) <-> (exists w, hasq c b k w).
  Proof using. intros Hr b k. split; intros (w & Hw); exists w; now apply (hasq_nat c c' r Hr). Qed.
  Lemma some_id {W} (b : rtree nat W) k : (exists w, hasq Nat.compare b k w) <-> exists w, has b k w.
  Proof using. split; intros (w & Hw); exists w; now apply hasq_id. Qed.

  (** every key of either; a's value where both have one *)
  Theorem C133_union {V} (a b : rtree K V) : WO cmp a -> WO cmp b ->
    combinesq (fun X c => rt_union c strat) a b
      (fun t k => forall v, hasq cmp t k v <-> hasq cmp a k v \/ hasq cmp b k v /\ forall x, ~ hasq cmp a k x).
  Proof using L.
    apply (coarse2 cmp L (fun X c => rt_union c strat)
      (fun X c a b t k => forall v, hasq c t k v <-> hasq c a k v \/ hasq c b k v /\ forall x, ~ hasq c a k x)).
    - intros X Y c c' r Hr x y. now apply rt_outer_map.
    - intros X Y c c' r Hr a0 b0 t0 k0. split; intros H v; specialize (H v); revert H; rewrite !(hasq_nat c c' r Hr); intros ->;
        (assert (Q : (forall x, ~ hasq c' (renamed r id a0) (map r k0) x) <-> forall x, ~ hasq c a0 k0 x)
           by (split; intros H x Hx; apply (H x); now apply (hasq_nat c c' r Hr))); tauto.
    - intros x y Wx Wy. destruct (C48_union LN EN strat x y Wx Wy) as (t & E & Wt & Ct & H). exists t.
      split; [assumption|]. split; [assumption|]. split; [assumption|]. intros k v. rewrite !hasq_id, H.
      assert (Q : (forall z, ~ hasq Nat.compare x k z) <-> forall z, ~ has x k z)
        by (split; intros Hn z Hz; apply (Hn z); now apply hasq_id). tauto.
  Qed.
  Theorem C133_union_with {V} (a b : rtree K V) : WO cmp a -> WO cmp b ->
    combinesq (fun X c => rt_union_with c strat) a b
      (fun t k => forall v, hasq cmp t k v <-> hasq cmp a k v \/ hasq cmp b k v /\ forall x, ~ hasq cmp a k x).
  Proof using L.
    apply (coarse2 cmp L (fun X c => rt_union_with c strat)
      (fun X c a b t k => forall v, hasq c t k v <-> hasq c a k v \/ hasq c b k v /\ forall x, ~ hasq c a k x)).
    - intros X Y c c' r Hr x y. now apply rt_outer_with_map.
    - intros X Y c c' r Hr a0 b0 t0 k0. split; intros H v; specialize (H v); revert H; rewrite !(hasq_nat c c' r Hr); intros ->;
        (assert (Q : (forall x, ~ hasq c' (renamed r id a0) (map r k0) x) <-> forall x, ~ hasq c a0 k0 x)
           by (split; intros H x Hx; apply (H x); now apply (hasq_nat c c' r Hr))); tauto.
    - intros x y Wx Wy. destruct (C48_union_with LN EN strat x y Wx Wy) as (t & E & Wt & Ct & H). exists t.
      split; [assumption|]. split; [assumption|]. split; [assumption|]. intros k v. rewrite !hasq_id, H.
      assert (Q : (forall z, ~ hasq Nat.compare x k z) <-> forall z, ~ has x k z)
        by (split; intros Hn z Hz; apply (Hn z); now apply hasq_id). tauto.
  Qed.
  Theorem C133_intersection {V W} (a : rtree K V) (b : rtree K W) : WO cmp a -> WO cmp b ->
    combinesq (fun X c => rt_intersection c strat) a b
      (fun t k => forall v, hasq cmp t k v <-> hasq cmp a k v /\ exists w, hasq cmp b k w).
  Proof using L.
    apply (combineS (fun X c => rt_intersection c strat) (fun X c b k => exists w, hasq c b k w) (fun A _ F => A /\ F)); [prop|apply some_nat|..].
    - intros X Y c c' r Hr x y. now apply rt_inner_map.
    - intros x y Wx Wy. destruct (C49_intersection LN EN strat x y Wx Wy) as (t & E & Wt & Ct & H). exists t.
      split; [assumption|]. split; [assumption|]. split; [assumption|]. intros k v. now rewrite H, some_id.
  Qed.
  Theorem C133_intersection_with {V W} (a : rtree K V) (b : rtree K W) : WO cmp a -> WO cmp b ->
    combinesq (fun X c => rt_intersection_with c strat) a b
      (fun t k => forall v, hasq cmp t k v <-> hasq cmp a k v /\ exists w, hasq cmp b k w).
  Proof using L.
    apply (combineS (fun X c => rt_intersection_with c strat) (fun X c b k => exists w, hasq c b k w) (fun A _ F => A /\ F)); [prop|apply some_nat|..].
    - intros X Y c c' r Hr x y. now apply rt_inner_with_map.
    - intros x y Wx Wy. destruct (C49_intersection_with LN EN strat x y Wx Wy) as (t & E & Wt & Ct & H). exists t.
      split; [assumption|]. split; [assumption|]. split; [assumption|]. intros k v. now rewrite H, some_id.
  Qed.
  Theorem C133_difference {V W} (a : rtree K V) (b : rtree K W) : WO cmp a -> WO cmp b ->
    combinesq (fun X c => rt_difference c strat) a b
      (fun t k => forall v, hasq cmp t k v <-> hasq cmp a k v /\ ~ exists w, hasq cmp b k w).
  Proof using L.
    apply (combineS (fun X c => rt_difference c strat) (fun X c b k => exists w, hasq c b k w) (fun A _ F => A /\ ~ F)); [prop|apply some_nat|..].
    - intros X Y c c' r Hr x y. apply rt_left_map; [assumption|]. now intros v [w|].
    - intros x y Wx Wy. destruct (C50_difference LN EN strat x y Wx Wy) as (t & E & Wt & Ct & H). exists t.
      split; [assumption|]. split; [assumption|]. split; [assumption|]. intros k v. rewrite H, some_id. firstorder.
  Qed.
  Theorem C133_difference_with {V W} (a : rtree K V) (b : rtree K W) : WO cmp a -> WO cmp b ->
    combinesq (fun X c => rt_difference_with c strat) a b
      (fun t k => forall v, hasq cmp t k v <-> hasq cmp a k v /\ ~ exists w, hasq cmp b k w).
  Proof using L.
    apply (combineS (fun X c => rt_difference_with c strat) (fun X c b k => exists w, hasq c b k w) (fun A _ F => A /\ ~ F)); [prop|apply some_nat|..].
    - intros X Y c c' r Hr x y. now apply rt_left_with_map.
    - intros x y Wx Wy. destruct (C50_difference_with LN EN strat x y Wx Wy) as (t & E & Wt & Ct & H). exists t.
      split; [assumption|]. split; [assumption|]. split; [assumption|]. intros k v. rewrite H, some_id. firstorder.
  Qed.
  Theorem C133_remove_prefix_with {V W} (f : W -> bool) (a : rtree K V) (b : rtree K W) : WO cmp a -> WO cmp b ->
    combinesq (fun X c => rt_remove_prefix_with c strat f) a b
      (fun t k => forall v, hasq cmp t k v <-> hasq cmp a k v /\ ~ coveredq cmp f b k).
  Proof using L.
    apply (combineS (fun X c => rt_remove_prefix_with c strat f) (fun X c b k => coveredq c f b k) (fun A _ F => A /\ ~ F)); [prop|..].
    - intros X Y c c' r Hr b0 k0. now apply coveredq_nat.
    - intros X Y c c' r Hr x y. now apply rt_remove_map.
    - intros x y Wx Wy. destruct (C52_remove_prefix_with LN EN strat f x y Wx Wy) as (t & E & Wt & Ct & H). exists t.
      split; [assumption|]. split; [assumption|]. split; [assumption|]. intros k v. now rewrite H, coveredq_id.
  Qed.
  Theorem C133_retain_prefix_with {V W} (f : W -> bool) (a : rtree K V) (b : rtree K W) : WO cmp a -> WO cmp b ->
    combinesq (fun X c => rt_retain_prefix_with c strat f) a b
      (fun t k => forall v, hasq cmp t k v <-> hasq cmp a k v /\ coveredq cmp f b k).
  Proof using L.
    apply (combineS (fun X c => rt_retain_prefix_with c strat f) (fun X c b k => coveredq c f b k) (fun A _ F => A /\ F)); [prop|..].
    - intros X Y c c' r Hr b0 k0. now apply coveredq_nat.
    - intros X Y c c' r Hr x y. now apply rt_retain_map.
    - intros x y Wx Wy. destruct (C53_retain_prefix_with LN EN strat f x y Wx Wy) as (t & E & Wt & Ct & H). exists t.
      split; [assumption|]. split; [assumption|]. split; [assumption|]. intros k v. now rewrite H, coveredq_id.
  Qed.
  Theorem C133_filter_prefix {V} (t : rtree K V) p : WO cmp t ->
    exists t', rt_filter_prefix cmp t p = Ok t' /\ WO cmp t' /\ (Canon cmp t -> Canon cmp t') /\
      forall k v, hasq cmp t' k v <-> hasq cmp t k v /\ startsq cmp k p.
  Proof using L.
    intros W.
    destruct (coarse1 cmp L (fun X => rtree X V) (fun X Y r t => renamed r id t) (fun X c (t : rtree X V) k => rt_filter_prefix c t k)
      (fun X c (t : rtree X V) k t' x => WO c t' /\ (Canon c t -> Canon c t') /\
         forall v, hasq c t' x v <-> hasq c t x v /\ startsq c x k)) with (t := t) (k := p) as (t' & E & H); try assumption.
    - intros X Y c c' r Hr t1 k1. now apply rt_filter_prefix_map.
    - intros X Y c c' r Hr t1 k1 t2 x. unfold WO, Canon. rewrite !(wf_nat c c' r Hr).
      split; intros (H1 & H2 & H3); (split; [assumption|split; [assumption|]]); intros v; specialize (H3 v); revert H3;
        rewrite !(hasq_nat c c' r Hr), (startsq_nat c c' r Hr); auto.
    - intros t1 k1 W1. destruct (C54_filter_prefix LN EN t1 k1 W1) as (t2 & E2 & W2 & C2 & H2). exists t2.
      split; [assumption|]. intros x. split; [assumption|]. split; [assumption|]. intros v.
      rewrite !hasq_id, startsq_id. apply H2.
    - exists t'. split; [assumption|]. split; [exact (proj1 (H []))|]. split; [exact (proj1 (proj2 (H [])))|].
      intros k. exact (proj2 (proj2 (H k))).
  Qed.

  (** *** iteration: the keys are strictly increasing and are those of the tree, with their values *)
  Lemma enum_has {V} (t : rtree K V) : forall path k v,
    In (k, v) (enum path t) <-> exists s, k = path ++ s /\ has t (t_prefix t ++ s) v.
  Proof using.
    induction t as [p o cs IH] using rtree_ind'. rewrite Forall_forall in IH. intros path k v.
    rewrite enum_node, in_app_iff. cbn [t_prefix].
    assert (G : In (k, v) (enums path cs) <-> exists c s, In c cs /\ k = path ++ s /\ has c s v).
    { unfold enums. rewrite in_flat_map. split.
      - intros (c & Hc & Hin). apply (IH _ Hc) in Hin as (s & -> & Hs). exists c, (t_prefix c ++ s).
        rewrite app_assoc. auto.
      - intros (c & s & Hc & -> & Hs). exists c. split; [assumption|]. apply (IH _ Hc).
        assert (exists u, s = t_prefix c ++ u) as (u & ->).
        { destruct c as [pc oc cc]. apply has_node in Hs as [[_ ->]|(c1 & k1 & -> & _)]; [exists []; now rewrite app_nil_r|now exists k1]. }
        exists u. now rewrite app_assoc. }
    rewrite G. split.
    - intros [H|(c & s & Hc & -> & Hs)].
      + destruct o as [v0|]; [|destruct H]. destruct H as [[= <- <-]|[]]. exists []. rewrite !app_nil_r.
        split; [reflexivity|]. constructor.
      + exists s. split; [reflexivity|]. econstructor; eassumption.
    - intros (s & -> & Hs). apply has_node in Hs as [[-> E]|(c & k1 & E & Hc & H1)].
      + left. rewrite <- (app_nil_r p) in E at 2. apply app_inv_head in E as ->. rewrite app_nil_r. now left.
      + right. apply app_inv_head in E as ->. eauto.
  Qed.
  Theorem C133_iter {V} (t : rtree K V) : WO cmp t ->
    exists l, rt_iter t = Ok l /\ rt_values t = Ok (map snd l) /\ sorted (lex cmp) (map fst l) /\
      forall k v, In (k, v) l <-> has t k v.
  Proof using L.
    intros W.
    destruct (coarse1 cmp L (fun X => list (list X * V)) (fun X Y r l => map (fun e => (map r (fst e), snd e)) l)
      (fun X c (t : rtree X V) k => rt_iter t)
      (fun X c (t : rtree X V) k l x => rt_values t = Ok (map snd l) /\ sorted (lex c) (map fst l))) with (t := t) (k := @nil K) as (l & E & H);
      try assumption.
    - intros X Y c c' r Hr t1 k1. rewrite (rt_iter_map r id). reflexivity.
    - intros X Y c c' r Hr t1 k1 l x. rewrite (rt_values_map r id), !map_map. cbn [fst snd].
      rewrite <- (map_map fst (map r)), (sorted_lex_nat c c' r Hr).
      assert (Q : rmap (map id) (rt_values t1) = Ok (map snd l) <-> rt_values t1 = Ok (map snd l)); [|now rewrite Q].
      destruct (rt_values t1) as [vs| |]; cbn [rmap rbind]; [|reflexivity..]. now rewrite map_id.
    - intros t1 k1 W1. destruct (C56_iter EN t1 W1) as (l & E & Ev & S & _). exists l. split; [assumption|]. intros _. auto.
    - exists l. split; [assumption|]. destruct (H []) as (H1 & H2). split; [assumption|]. split; [assumption|].
      unfold rt_iter in E. rewrite iter_from_ok in E. injection E as <-. intros k v. rewrite enum_has. split.
      + intros (s & -> & Hs). exact Hs.
      + intros Hk. assert (exists s, k = t_prefix t ++ s) as (s & ->); [|eauto].
        destruct t as [pc oc cc]. apply has_node in Hk as [[_ ->]|(c1 & k1 & -> & _)]; [exists []; now rewrite app_nil_r|now exists k1].
  Qed.
  Theorem C133_scan_prefix {V} (t : rtree K V) p : WO cmp t ->
    exists l, rt_scan_prefix cmp t p = Ok l /\ sorted (lex cmp) (map fst l) /\
      forall k v, (exists k', same_key cmp k' k /\ In (k', v) l) <-> hasq cmp t k v /\ startsq cmp k p.
  Proof using L.
    intros W.
    destruct (coarse1 cmp L (fun X => list (list X * V)) (fun X Y r l => map (fun e => (map r (fst e), snd e)) l)
      (fun X c (t : rtree X V) k => rt_scan_prefix c t k)
      (fun X c (t : rtree X V) k l x => sorted (lex c) (map fst l) /\
         forall v, (exists k', same_key c k' x /\ In (k', v) l) <-> hasq c t x v /\ startsq c x k)) with (t := t) (k := p) as (l & E & H);
      try assumption.
    - intros X Y c c' r Hr t1 k1. now rewrite (rt_scan_map c c' r Hr id).
    - intros X Y c c' r Hr t1 k1 l x. rewrite map_map. cbn [fst].
      rewrite <- (map_map fst (map r)), (sorted_lex_nat c c' r Hr).
      assert (Q : forall v, (exists k', same_key c' k' (map r x) /\ In (k', v) (map (fun e => (map r (fst e), snd e)) l)) <->
        exists k', same_key c k' x /\ In (k', v) l).
      { intros v. split.
        - intros (k' & S & Hin). apply in_map_iff in Hin as ([k2 v2] & [= <- <-] & Hin). apply (same_key_nat c c' r Hr) in S. eauto.
        - intros (k' & S & Hin). exists (map r k'). split; [now apply (same_key_nat c c' r Hr)|].
          apply in_map_iff. exists (k', v). auto. }
      split; intros (H1 & H2); (split; [assumption|]); intros v; specialize (H2 v); revert H2;
        rewrite Q, (hasq_nat c c' r Hr), (startsq_nat c c' r Hr); auto.
    - intros t1 k1 W1. destruct (C55_scan_prefix LN EN t1 k1 W1) as (l & E & S & H). exists l. split; [assumption|]. intros x.
      split; [assumption|]. intros v. rewrite hasq_id, startsq_id, <- H. split.
      + intros (k' & Sk & Hin). apply same_key_id in Sk as ->. assumption.
      + intros Hin. exists x. split; [now apply same_key_id|assumption].
    - exists l. split; [assumption|]. split; [exact (proj1 (H []))|]. intros k. exact (proj2 (H k)).
  Qed.

  (** *** relations *)
  Theorem C133_is_subset {V W} (a : rtree K V) (b : rtree K W) : Canon cmp a -> WO cmp b ->
    exists r, rt_is_subset cmp strat a b = Ok r /\ (r = true <-> keys_withinq cmp a b).
  Proof using L.
    intros Ca Wb. apply (coarse_ask cmp L (fun X c => rt_is_subset c strat)
      (fun X c (a : rtree X V) (b : rtree X W) => Canon c a /\ WO c b) (fun X c => keys_withinq c)); [..|auto].
    - intros X Y c c' r Hr x y. now apply rt_is_subset_map.
    - intros X Y c c' r Hr x y. unfold WO, Canon. now rewrite !(wf_nat c c' r Hr).
    - intros X Y c c' r Hr x y. now apply keys_withinq_nat.
    - intros x y [Cx Wy]. destruct (C57_is_subset LN EN strat x y Cx Wy) as (r & E & H). exists r. split; [assumption|].
      rewrite H. unfold keys_within, keys_withinq. split; intros Q k v Hk; destruct (Q k v Hk) as (w & Hw); exists w; now apply hasq_id.
  Qed.
  Theorem C133_is_superset {V W} (a : rtree K V) (b : rtree K W) : WO cmp a -> Canon cmp b ->
    exists r, rt_is_superset cmp strat a b = Ok r /\ (r = true <-> keys_withinq cmp b a).
  Proof using L. intros Wa Cb. now apply C133_is_subset. Qed.
  Theorem C133_intersects {V W} (a : rtree K V) (b : rtree K W) : WO cmp a -> WO cmp b ->
    exists r, rt_intersects cmp strat a b = Ok r /\ (r = true <-> share_keyq cmp a b).
  Proof using L.
    intros Wa Wb. apply (coarse_ask cmp L (fun X c => rt_intersects c strat)
      (fun X c (a : rtree X V) (b : rtree X W) => WO c a /\ WO c b) (fun X c => share_keyq c)); [..|auto].
    - intros X Y c c' r Hr x y. now apply rt_intersects_map.
    - intros X Y c c' r Hr x y. unfold WO. now rewrite !(wf_nat c c' r Hr).
    - intros X Y c c' r Hr x y. now apply share_keyq_nat.
    - intros x y [Wx Wy]. destruct (C58_intersects LN EN strat x y Wx Wy) as (r & E & H). exists r. split; [assumption|].
      rewrite H. unfold share_key, share_keyq. split; intros (k & v & w & Hv & Hw); exists k, v, w; now rewrite hasq_id in *.
  Qed.
  Theorem C133_is_disjoint {V W} (a : rtree K V) (b : rtree K W) : WO cmp a -> WO cmp b ->
    exists r, rt_is_disjoint cmp strat a b = Ok r /\ (r = true <-> ~ share_keyq cmp a b).
  Proof using L.
    intros Wa Wb. destruct (C133_intersects a b Wa Wb) as (r & E & H). unfold rt_is_disjoint. rewrite E. cbn [rmap rbind].
    exists (negb r). split; [reflexivity|]. rewrite <- H. destruct r; cbn; split; congruence.
  Qed.
  (** canonical trees are == exactly if they bind the same keys to the same values, up to Equal keys *)
  Theorem C133_eq {V} (veqb : V -> V -> bool) (a b : rtree K V) :
    (forall x y, veqb x y = true <-> x = y) -> Canon cmp a -> Canon cmp b ->
    (rt_eqb cmp veqb a b = true <->
      (forall k v, has a k v -> hasq cmp b k v) /\ (forall k v, has b k v -> hasq cmp a k v)).
  Proof using L.
    intros Hv Ca Cb.
    destruct (coarse_ask cmp L (fun X c a b => Ok (rt_eqb c veqb a b))
      (fun X c (a : rtree X V) (b : rtree X V) => Canon c a /\ Canon c b)
      (fun X c (a b : rtree X V) => (forall k v, has a k v -> hasq c b k v) /\ (forall k v, has b k v -> hasq c a k v))) with (a := a) (b := b) as (x & E & H).
    - intros X Y c c' r Hr x y. f_equal. now apply rt_eqb_map.
    - intros X Y c c' r Hr x y. unfold Canon. now rewrite !(wf_nat c c' r Hr).
    - intros X Y c c' r Hr x y.
      assert (Q : forall x y : rtree X V, (forall k v, has (renamed r id x) k v -> hasq c' (renamed r id y) k v) <-> (forall k v, has x k v -> hasq c y k v)).
      { clear - Hr. intros x y. split; intros H k v Hk.
        - apply (hasq_nat c c' r Hr). apply H. apply has_ren. eauto.
        - apply has_ren in Hk as (k0 & -> & Hk). apply (hasq_nat c c' r Hr). now apply H. }
      now rewrite !Q.
    - intros x y [Cx Cy]. exists (rt_eqb Nat.compare veqb x y). split; [reflexivity|].
      rewrite (C47_eq_extensional LN EN veqb x y Hv Cx Cy).
      pose proof (canon_WO _ Cx) as Wx. pose proof (canon_WO _ Cy) as Wy. split.
      + intros H. split; intros k v Hk; apply hasq_id; specialize (H k);
          destruct (C44_get LN EN x k Wx) as (o1 & E1 & H1); destruct (C44_get LN EN y k Wy) as (o2 & E2 & H2);
          rewrite E1, E2 in H; injection H as ->; destruct o2 as [u|]; cbn [holds] in *.
        * now rewrite (C44_functional EN x k v u Wx Hk H1).
        * now apply H1 in Hk.
        * now rewrite (C44_functional EN y k v u Wy Hk H2).
        * now apply H2 in Hk.
      + intros [H1 H2] k. destruct (C44_get LN EN x k Wx) as (o1 & E1 & G1), (C44_get LN EN y k Wy) as (o2 & E2 & G2).
        rewrite E1, E2. f_equal. destruct o1 as [u|], o2 as [u'|]; cbn [holds] in *; try reflexivity.
        * apply H1, hasq_id in G1. f_equal. eapply (C44_functional EN); eassumption.
        * apply H1, hasq_id in G1. now apply G2 in G1.
        * apply H2, hasq_id in G2. now apply G1 in G2.
    - auto.
    - injection E as <-. exact H.
  Qed.
  (** the check of archived trees accepts exactly the well ordered ones *)
  Theorem C133_check {V} (t : rtree K V) : rt_check cmp t = true <-> WO cmp t.
  Proof using L. apply (C59_check_exact L). Qed.

  (** *** left_combine with any function: f is called at the keys of a that some node of b spells, as in C51 *)
  Theorem C133_left_combine_exact {V W} (f : V -> option W -> option V) (a : rtree K V) (b : rtree K W) : WO cmp a -> WO cmp b ->
    combinesq (fun X c => rt_left_combine c strat f) a b (fun t k =>
      (holdsq cmp a k None -> holdsq cmp t k None) /\
      (forall v, hasq cmp a k v ->
         (forall ow, at_nodeq cmp b k ow -> holdsq cmp t k (f v ow)) /\
         ((forall ow, ~ at_nodeq cmp b k ow) -> hasq cmp t k v))).
  Proof using L.
    apply (coarse2 cmp L (fun X c => rt_left_combine c strat f) (fun X c a b t k =>
      (holdsq c a k None -> holdsq c t k None) /\
      (forall v, hasq c a k v ->
         (forall ow, at_nodeq c b k ow -> holdsq c t k (f v ow)) /\
         ((forall ow, ~ at_nodeq c b k ow) -> hasq c t k v)))).
    - intros X Y c c' r Hr x y. apply rt_left_map; [assumption|]. intros v w. unfold id.
      replace (option_map (fun x : W => x) w) with w by now destruct w. now destruct (f v w).
    - intros X Y c c' r Hr x y t k. rewrite !(holdsq_nat c c' r Hr).
      split; intros [H1 H2]; (split; [exact H1|]); intros v Hv;
        (destruct (H2 v) as [Q1 Q2]; [now apply (hasq_nat c c' r Hr)|]);
        (split; [intros ow How; apply (holdsq_nat c c' r Hr); apply Q1; now apply (at_nodeq_nat c c' r Hr)|]);
        intros N; apply (hasq_nat c c' r Hr); apply Q2; intros ow How; apply (N ow); now apply (at_nodeq_nat c c' r Hr).
    - intros x y Wx Wy. destruct (C51_left_combine_exact LN EN strat f x y Wx Wy) as (t & E & Wt & C & H).
      exists t. split; [assumption|]. split; [assumption|]. split; [assumption|]. intros k. rewrite !holdsq_id.
      destruct (H k) as [H1 H2]. split; [exact H1|]. intros v Hv. apply hasq_id in Hv. destruct (H2 v Hv) as [Q1 Q2].
      split; [intros ow How; apply holdsq_id, Q1; now apply at_nodeq_id|]. intros N. apply hasq_id, Q2. intros ow How.
      apply (N ow). now apply at_nodeq_id.
  Qed.
  (** *** every tree of the public interface is canonical *)
  Theorem C133_reachable_canonical V (t : rtree K V) : reach (kcmp := cmp) strat V t -> Canon cmp t.
  Proof using L.
    assert (G : forall (V W : Type) op (a : rtree K V) (b : rtree K W) P t, (WO cmp a -> WO cmp b -> combinesq op a b P) ->
      Canon cmp a -> Canon cmp b -> op K cmp a b = Ok t -> Canon cmp t).
    { clear. intros V W op a b P t H Ca Cb Q. destruct H as (t' & Q' & _ & C & _); [now apply canon_WO..|].
      replace t with t' by congruence. now apply C. }
    induction 1 as [V|V v|V k v|V l t H|V a k v t H IH Q|V a p t H IH Q|V a p H IH
      |V a b t H IH H2 IH2 Q|V a b t H IH H2 IH2 Q|V W a b t H IH H2 IH2 Q|V W a b t H IH H2 IH2 Q|V W a b t H IH H2 IH2 Q|V W a b t H IH H2 IH2 Q
      |V f a b t H IH H2 IH2 Q|V f a b t H IH H2 IH2 Q|V W f a b t H IH H2 IH2 Q|V W f a b t H IH H2 IH2 Q|V W f a b t H IH H2 IH2 Q|V W f a b t H IH H2 IH2 Q
      |V W f a b t H IH H2 IH2 Q|V W f a b t H IH H2 IH2 Q].
    - apply empty_canon.
    - apply node_canon.
    - apply node_canon.
    - destruct (C133_from_iter l) as (t' & Q & C & _). now replace t with t' by congruence.
    - destruct (C133_insert a k v (canon_WO _ IH)) as (t' & Q' & _ & C & _). replace t with t' by congruence. now apply C.
    - destruct (C133_filter_prefix a p (canon_WO _ IH)) as (t' & Q' & _ & C & _). replace t with t' by congruence. now apply C.
    - now apply prepend_wf.
    - eapply G; [apply C133_union|exact IH|exact IH2|exact Q].
    - eapply G; [apply C133_union_with|exact IH|exact IH2|exact Q].
    - eapply G; [apply C133_intersection|exact IH|exact IH2|exact Q].
    - eapply G; [apply C133_intersection_with|exact IH|exact IH2|exact Q].
    - eapply G; [apply C133_difference|exact IH|exact IH2|exact Q].
    - eapply G; [apply C133_difference_with|exact IH|exact IH2|exact Q].
    - eapply G; [apply (C133_outer_combine f)|exact IH|exact IH2|exact Q].
    - eapply G; [apply (C133_outer_combine_with f)|exact IH|exact IH2|exact Q].
    - eapply G; [apply (C133_inner_combine f)|exact IH|exact IH2|exact Q].
    - eapply G; [apply (C133_inner_combine_with f)|exact IH|exact IH2|exact Q].
    - eapply G; [apply (C133_left_combine_exact f)|exact IH|exact IH2|exact Q].
    - eapply G; [apply (C133_left_combine_with f)|exact IH|exact IH2|exact Q].
    - eapply G; [apply (C133_remove_prefix_with f)|exact IH|exact IH2|exact Q].
    - eapply G; [apply (C133_retain_prefix_with f)|exact IH|exact IH2|exact Q].
  Qed.
End Coarse.
Print Assumptions C133_get.
Print Assumptions C133_contains_key.
Print Assumptions C133_functional.
Print Assumptions C133_insert.
Print Assumptions C133_from_iter.
Print Assumptions C133_outer_combine.
Print Assumptions C133_outer_combine_with.
Print Assumptions C133_inner_combine.
Print Assumptions C133_inner_combine_with.
Print Assumptions C133_left_combine_with.
Print Assumptions C133_left_combine.
Print Assumptions C133_left_combine_exact.
Print Assumptions C133_union.
Print Assumptions C133_union_with.
Print Assumptions C133_intersection.
Print Assumptions C133_intersection_with.
Print Assumptions C133_difference.
Print Assumptions C133_difference_with.
Print Assumptions C133_remove_prefix_with.
Print Assumptions C133_retain_prefix_with.
Print Assumptions C133_filter_prefix.
Print Assumptions C133_iter.
Print Assumptions C133_scan_prefix.
Print Assumptions C133_is_subset.
Print Assumptions C133_is_superset.
Print Assumptions C133_intersects.
Print Assumptions C133_is_disjoint.
Print Assumptions C133_eq.
Print Assumptions C133_check.
Print Assumptions C133_reachable_canonical.

(** The trees above: keys are found in any case, the merge keeps the spelling of a's components. *)
Lemma nocase_ord : OrdLaws nocase.
Proof.
  destruct nat_ord as [H1 H2]. unfold nocase. constructor; intros; eauto.
Qed.
Example C133_witness :
  rt_from_iter nocase never [([up 1; lo 2; lo 3], 10); ([up 7], 20)] = Ok tU /\
  rt_from_iter nocase never [([lo 1; up 2; up 4], 30); ([lo 7], 40)] = Ok tL /\
  Canon nocase tU /\ Canon nocase tL /\
  nocase (up 1) (lo 1) = Eq /\ up 1 <> lo 1 /\
  rt_get nocase tU [lo 1; up 2; up 3] = Ok (Some 10) /\
  (exists t, rt_union nocase never tU tL = Ok t /\
     rt_iter t = Ok [([up 1; lo 2; lo 3], 10); ([up 1; lo 2; up 4], 30); ([up 7], 20)]) /\
  rt_is_subset nocase never tL tU = Ok false /\ rt_intersects nocase never tL tU = Ok true.
Proof.
  destruct (C133_from_iter nocase nocase_ord never [([up 1; lo 2; lo 3], 10); ([up 7], 20)]) as (t & E & C & _).
  destruct (C133_from_iter nocase nocase_ord never [([lo 1; up 2; up 4], 30); ([lo 7], 40)]) as (u & E' & C' & _).
  assert (Et : tU = t) by (unfold tU; now rewrite E). assert (Eu : tL = u) by (unfold tL; now rewrite E').
  rewrite Et, Eu. split; [exact E|]. split; [exact E'|]. split; [exact C|]. split; [exact C'|].
  rewrite <- Et, <- Eu. split; [reflexivity|]. split; [discriminate|].
  split; [vm_compute; reflexivity|]. split; [|vm_compute; split; reflexivity].
  eexists. split; vm_compute; reflexivity.
Qed.
