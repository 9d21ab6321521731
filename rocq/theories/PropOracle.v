(** Properties C71, C72: VecSet and VecMap under arbitrary and under panicking comparisons.
    A comparison is user code: [c w x y] is asked in world [w], moves to another world and answers
    or panics ([None]). [never_panics c]: it always answers (anything). [panics_after c]: as [c], but
    call number n+1 panics. *)
From Verif Require Import OracleModel OracleFacts VecSetHist VecMapHist PropSet PropMap.
Require Import Coq.Sorting.Permutation.

(** ** C71: whatever the comparison does *)
(** The inputs are arbitrary lists (they need not be sorted: with an unlawful comparison earlier
    operations may have left any order). Every call returns or unwinds, it unwinds only if the
    comparison panicked, and no element is lost or duplicated. *)
Theorem C71_assign_conserves :
  forall (T W : Type) (c : W -> T -> T -> W * option comparison) (strat : nat -> nat -> bool)
    (o : bop) (a b : list T) (w : W),
    exists kept dropped_a dropped_b,
      Permutation (kept ++ dropped_a ++ dropped_b) (a ++ b) /\
      (fst (wset_assign c strat o a b w) = Done (kept, dropped_a, dropped_b) \/
       fst (wset_assign c strat o a b w) = Unwound (kept, dropped_a, dropped_b) /\ ~ never_panics c).
Proof.
  intros T W c strat o a b w.
  set (RP := fun s s' : ipstate T T => ip_R s s' /\ ~ never_panics c).
  assert (G : forall (RP : ipstate T T -> ipstate T T -> Prop),
    (forall s1 s2 s3, ip_R s1 s2 -> RP s2 s3 -> RP s1 s3) -> (never_panics c \/ forall s, RP s s) ->
    stepok (bop_op o (ip_msm IdConverter)) ip_R RP (ip_new a b) (length a) (length b)
      (fst (wmerge c (bop_op o (ip_msm IdConverter)) strat (ip_new a b) w))).
  { intros RP0 TP CP.
    pose proof (wmerge_ok _ _ _ (bop_steps _ _ _ o (ip_advs RP0 TP)) c CP strat (ip_new a b) w) as H.
    replace (mo_a (bop_op o (ip_msm IdConverter)) (ip_new a b)) with a in H by now destruct o.
    replace (mo_b (bop_op o (ip_msm IdConverter)) (ip_new a b)) with b in H by now destruct o.
    exact H. }
  assert (P : forall s, ip_R (ip_new a b) s ->
    Permutation (bd_tgt (ip_a s) ++ (bd_drop (ip_a s) ++ bd_src (ip_a s)) ++ (ip_drop_b s ++ ip_b s)) (a ++ b)).
  { intros s [H _]. unfold ip_all in H. cbn in H. rewrite <- !app_assoc. exact H. }
  unfold wset_assign, wip_merge.
  pose proof (G ip_R (@ip_R_trans T) (or_intror ip_R_refl)) as H1.
  pose proof (G (fun _ _ => ~ never_panics c) (fun _ _ _ _ H => H)) as H2.
  destruct (wmerge c _ strat (ip_new a b) w) as [[s|s|s|] w']; cbn [fst] in H1, H2 |- *; cbn [stepok] in H1, H2.
  - destruct H1 as [H1 _]. do 3 eexists. split; [exact (P s H1)|now left].
  - do 3 eexists. split; [exact (P s H1)|now left].
  - do 3 eexists. split; [exact (P s H1)|right]. split; [reflexivity|]. intros N.
    exact (H2 (or_introl N) N).
  - destruct H1.
Qed.
Print Assumptions C71_assign_conserves.

Theorem C71_assign_ref_conserves :
  forall (T W : Type) (c : W -> T -> T -> W * option comparison) (strat : nat -> nat -> bool)
    (o : bop) (a b : list T) (w : W),
    exists kept rest,
      Permutation (kept ++ rest) (a ++ b) /\
      (fst (wset_assign_ref c strat o a b w) = Done kept \/
       fst (wset_assign_ref c strat o a b w) = Unwound kept /\ ~ never_panics c).
Proof.
  intros T W c strat o a b w.
  assert (G : forall (RP : iprstate T T -> iprstate T T -> Prop),
    (forall s1 s2 s3, ipr_R s1 s2 -> RP s2 s3 -> RP s1 s3) -> (never_panics c \/ forall s, RP s s) ->
    stepok (bop_op o (ipr_msm CloneConverter)) ipr_R RP (ipr_new a b) (length a) (length b)
      (fst (wmerge c (bop_op o (ipr_msm CloneConverter)) strat (ipr_new a b) w))).
  { intros RP0 TP CP.
    pose proof (wmerge_ok _ _ _ (bop_steps _ _ _ o (ipr_advs RP0 TP)) c CP strat (ipr_new a b) w) as H.
    replace (mo_a (bop_op o (ipr_msm CloneConverter)) (ipr_new a b)) with a in H by now destruct o.
    replace (mo_b (bop_op o (ipr_msm CloneConverter)) (ipr_new a b)) with b in H by now destruct o.
    exact H. }
  assert (P : forall s, ipr_R (ipr_new a b) s -> exists rest,
    Permutation (bd_tgt (ipr_a s) ++ rest) (a ++ b)).
  { intros s [(d & H) _]. unfold ipr_all in H. cbn in H. rewrite <- !app_assoc in H. eauto. }
  unfold wset_assign_ref, wipr_merge.
  pose proof (G ipr_R (@ipr_R_trans T) (or_intror ipr_R_refl)) as H1.
  pose proof (G (fun _ _ => ~ never_panics c) (fun _ _ _ _ H => H)) as H2.
  destruct (wmerge c _ strat (ipr_new a b) w) as [[s|s|s|] w']; cbn [fst] in H1, H2 |- *; cbn [stepok] in H1, H2.
  - destruct H1 as [H1 _]. destruct (P s H1) as (d & Hd). do 2 eexists. split; [exact Hd|now left].
  - destruct (P s H1) as (d & Hd). do 2 eexists. split; [exact Hd|now left].
  - destruct (P s H1) as (d & Hd). do 2 eexists. split; [exact Hd|right]. split; [reflexivity|]. intros N.
    exact (H2 (or_introl N) N).
  - destruct H1.
Qed.
Print Assumptions C71_assign_ref_conserves.

(** the operations that build a new set or answer a question *)
Theorem C71_pure_operations :
  forall (T W : Type) (c : W -> T -> T -> W * option comparison) (strat : nat -> nat -> bool)
    (a b : list T) (w : W),
    (forall o, fst (wset_pure c strat o a b w) = Panicked /\ ~ never_panics c \/
       exists r rest, fst (wset_pure c strat o a b w) = Ok r /\ Permutation (r ++ rest) (a ++ b)) /\
    (fst (wset_is_disjoint c strat a b w) = Panicked /\ ~ never_panics c \/
       exists r, fst (wset_is_disjoint c strat a b w) = Ok r) /\
    (fst (wset_is_subset c strat a b w) = Panicked /\ ~ never_panics c \/
       exists r, fst (wset_is_subset c strat a b w) = Ok r) /\
    (fst (wset_is_superset c strat a b w) = Panicked /\ ~ never_panics c \/
       exists r, fst (wset_is_superset c strat a b w) = Ok r).
Proof.
  intros T W c strat a b w.
  assert (V : forall o (RP : vstate T T T -> vstate T T T -> Prop),
    (forall s1 s2 s3, vs_R s1 s2 -> RP s2 s3 -> RP s1 s3) -> (never_panics c \/ forall s, RP s s) ->
    stepok (bop_op o (vs_msm CloneConverter CloneConverter)) vs_R RP (vs_new a b)
      (length (mo_a (bop_op o (vs_msm CloneConverter CloneConverter)) (vs_new a b)))
      (length (mo_b (bop_op o (vs_msm CloneConverter CloneConverter)) (vs_new a b)))
      (fst (wmerge c (bop_op o (vs_msm CloneConverter CloneConverter)) strat (vs_new a b) w))).
  { intros o RP TP CP. exact (wmerge_ok _ _ _ (bop_steps _ _ _ o (vs_advs RP TP)) c CP strat (vs_new a b) w). }
  assert (B : forall o (x y : list T) (RP : bstate T T -> bstate T T -> Prop),
    (forall s1 s2 s3, RP s2 s3 -> RP s1 s3) -> (never_panics c \/ forall s, RP s s) ->
    stepok (bop_op o (@bs_msm T T)) (fun _ _ => True) RP (bs_new x y)
      (length (mo_a (bop_op o (@bs_msm T T)) (bs_new x y)))
      (length (mo_b (bop_op o (@bs_msm T T)) (bs_new x y)))
      (fst (wmerge c (bop_op o (@bs_msm T T)) strat (bs_new x y) w))).
  { intros o x y RP TP CP. exact (wmerge_ok _ _ _ (bop_steps _ _ _ o (bs_advs RP TP)) c CP strat (bs_new x y) w). }
  assert (B' : forall o x y, fst (wbs_merge c strat (bop_op o (@bs_msm T T)) x y w) = Panicked /\ ~ never_panics c \/
       exists r, fst (wbs_merge c strat (bop_op o (@bs_msm T T)) x y w) = Ok r).
  { intros o x y. pose proof (B o x y (fun _ _ => True) (fun _ _ _ H => H) (or_intror (fun _ => I))) as H1.
    pose proof (B o x y (fun _ _ => ~ never_panics c) (fun _ _ _ H => H)) as H2.
    unfold wbs_merge.
    destruct (wmerge c _ strat (bs_new x y) w) as [[s|s|s|] w']; cbn [fst to_res] in H1, H2 |- *;
      cbn [stepok] in H1, H2; [right; eauto|right; eauto| |destruct H1].
    left. split; [reflexivity|]. intros N. exact (H2 (or_introl N) N). }
  split; [|split; [|split]].
  - intros o. pose proof (V o (fun _ _ => True) (fun _ _ _ _ H => H) (or_intror (fun _ => I))) as H1.
    pose proof (V o (fun _ _ => ~ never_panics c) (fun _ _ _ _ H => H)) as H2.
    unfold wset_pure, wvs_merge.
    assert (P : forall s, vs_R (vs_new a b) s -> exists rest, Permutation (vs_r s ++ rest) (a ++ b)).
    { intros s (d & H). unfold vs_all in H. cbn in H. rewrite <- !app_assoc in H. eauto. }
    destruct (wmerge c _ strat (vs_new a b) w) as [[s|s|s|] w']; cbn [fst to_res] in H1, H2 |- *;
      cbn [stepok] in H1, H2.
    + destruct H1 as [H1 _]. destruct (P s H1) as (d & Hd). right. eauto.
    + destruct (P s H1) as (d & Hd). right. eauto.
    + left. split; [reflexivity|]. intros N. exact (H2 (or_introl N) N).
    + destruct H1.
  - unfold wset_is_disjoint. pose proof (B' Inter a b) as H. destruct (wbs_merge _ _ _ _ _ _) as [r w'].
    cbn [fst] in *. destruct H as [(-> & N)|(x & ->)]; [left; now split|right]. cbn. eauto.
  - unfold wset_is_subset. pose proof (B' Diff a b) as H. destruct (wbs_merge _ _ _ _ _ _) as [r w'].
    cbn [fst] in *. destruct H as [(-> & N)|(x & ->)]; [left; now split|right]. cbn. eauto.
  - unfold wset_is_superset, wset_is_subset. pose proof (B' Diff b a) as H. destruct (wbs_merge _ _ _ _ _ _) as [r w'].
    cbn [fst] in *. destruct H as [(-> & N)|(x & ->)]; [left; now split|right]. cbn. eauto.
Qed.
Print Assumptions C71_pure_operations.

(** single elements: insert adds the element, or swaps it in for exactly one other; remove takes out
    at most one; a panic leaves the set as it was *)
Theorem C71_single_element_operations :
  forall (T W : Type) (c : W -> T -> T -> W * option comparison) (l : list T) (x : T) (w : W),
    match fst (wset_insert c l x w) with
    | Done (l', true) => Permutation l' (x :: l)
    | Done (l', false) => exists y, Permutation (y :: l') (x :: l) /\ In y l
    | Unwound (l', _) => l' = l /\ ~ never_panics c
    | DoneNoFuel => False
    end /\
    match fst (wset_remove c l x w) with
    | Done (l', true) => exists y, Permutation (y :: l') l
    | Done (l', false) => l' = l
    | Unwound (l', _) => l' = l /\ ~ never_panics c
    | DoneNoFuel => False
    end /\
    (fst (wset_contains c l x w) = Panicked /\ ~ never_panics c \/ exists r, fst (wset_contains c l x w) = Ok r).
Proof.
  intros T W c l x w. unfold wset_insert, wset_remove, wset_contains.
  destruct (wbsearch (fun w0 y => c w0 y x) l w) as [r w'] eqn:Q. apply wbsearch_bound in Q. cbn [fst].
  destruct r as [i|i| |].
  - destruct (nth_error l i) as [y|] eqn:N; [|apply nth_error_None in N; lia].
    destruct (nth_error_split l i N) as (l1 & l2 & E & Len).
    assert (F1 : firstn i l = l1) by (subst l i; rewrite firstn_app, Nat.sub_diag, firstn_all; cbn; apply app_nil_r).
    assert (F2 : skipn (S i) l = l2).
    { subst l i. replace (S (length l1)) with (length (l1 ++ [y])) by (rewrite app_length; cbn; lia).
      replace (l1 ++ y :: l2) with ((l1 ++ [y]) ++ l2) by now rewrite <- app_assoc.
      rewrite skipn_app, skipn_all, Nat.sub_diag. reflexivity. }
    unfold set_at, remove_at. rewrite F1, F2, E. split; [|split; [|right; eauto]]; exists y.
    + split; [|apply in_or_app; right; now left].
      rewrite <- !Permutation_middle. apply perm_swap.
    + apply Permutation_middle.
  - unfold insert_at. split; [|split; [reflexivity|right; eauto]].
    rewrite <- Permutation_middle. now rewrite firstn_skipn.
  - assert (N : ~ never_panics c).
    { destruct Q as (w1 & y & w2 & Q). intros N. apply (N w1 y x). now rewrite Q. }
    split; [now split|]. split; [now split|]. left. now split.
  - destruct Q.
Qed.
Print Assumptions C71_single_element_operations.

(** maps: the in-place joins with any comparison and any closure; the keys left in self are keys of
    self or of that, each used at most as often as it was there *)
Definition runs_out {K V W E : Type} (c : W -> K -> K -> W * option comparison) (q : Prop) (ka kb : list K)
  (d : done (list (K * V) * E)) : Prop :=
  exists r e rest, Permutation (map fst r ++ rest) (ka ++ kb) /\
    (d = Done (r, e) \/ d = Unwound (r, e) /\ ~ (never_panics c /\ q)).
Theorem C71_map_joins :
  forall (K V V2 W E : Type) (c : W -> K -> K -> W * option comparison) (strat : nat -> nat -> bool)
    (a : list (K * V)) (b : list (K * V2)) (e : E) (w : W),
    (forall f, runs_out c (quiet f) (map fst a) (map fst b) (fst (wmap_outer_join_with c strat f a b e w))) /\
    (forall f, runs_out c (quiet f) (map fst a) (map fst b) (fst (wmap_left_join_with c strat f a b e w))) /\
    (forall f, runs_out c (quiet f) (map fst a) (map fst b) (fst (wmap_right_join_with c strat f a b e w))) /\
    (forall f, runs_out c (quiet f) (map fst a) (map fst b) (fst (wmap_inner_join_with c strat f a b e w))).
Proof.
  intros K V V2 W E c strat a b e w.
  assert (G : forall (q : Prop) (O : mop (iprstate (K * V) (K * V2) * E) (K * V) (K * V2)),
    steps O mi_R mi_R ->
    (never_panics c /\ q -> steps O mi_R (fun _ _ => False)) ->
    runs_out c q (map fst a) (map fst b) (fst (wipr_join c strat O a b e w))).
  { intros q O S1 S2. unfold wipr_join, runs_out.
    pose proof (wmerge_ok _ _ _ S1 (wkv c) (or_intror mi_R_refl) strat (ipr_new a b, e) w) as H1.
    assert (H2 : never_panics c /\ q -> match fst (wmerge (wkv c) O strat (ipr_new a b, e) w) with Panic _ => False | _ => True end).
    { intros N. pose proof (wmerge_ok _ _ _ (S2 N) (wkv c) (or_introl (fun w0 x y => proj1 N w0 (fst x) (fst y))) strat (ipr_new a b, e) w) as H.
      destruct (fst (wmerge (wkv c) O strat (ipr_new a b, e) w)); trivial. }
    assert (P : forall s, mi_R (ipr_new a b, e) s -> exists rest,
      Permutation (map fst (bd_tgt (ipr_a (fst s))) ++ rest) (map fst a ++ map fst b)).
    { intros s [(d & H) _]. unfold mi_keys in H. cbn in H. rewrite <- !app_assoc in H. eauto. }
    destruct (wmerge (wkv c) O strat (ipr_new a b, e) w) as [[s|s|s|] w']; cbn [fst to_done] in H1, H2 |- *;
      cbn [stepok] in H1.
    - destruct H1 as [H1 _]. destruct (P s H1) as (d & Hd). do 3 eexists. split; [exact Hd|]. now left.
    - destruct (P s H1) as (d & Hd). do 3 eexists. split; [exact Hd|]. now left.
    - destruct (P s H1) as (d & Hd). do 3 eexists. split; [exact Hd|]. right. split; [reflexivity|exact H2].
    - destruct H1. }
  split; [|split; [|split]]; intros f; apply G.
  - apply outer_i_steps; [apply mi_R_trans|auto].
  - intros [_ Q]. apply outer_i_steps; [tauto|auto].
  - apply left_i_steps; [apply mi_R_trans|auto].
  - intros [_ Q]. apply left_i_steps; [tauto|auto].
  - apply right_i_steps; [apply mi_R_trans|auto].
  - intros [_ Q]. apply right_i_steps; [tauto|auto].
  - apply inner_i_steps; [apply mi_R_trans|auto].
  - intros [_ Q]. apply inner_i_steps; [tauto|auto].
Qed.
Print Assumptions C71_map_joins.

(** a comparison that ignores its arguments and cycles through its answers *)
Definition cyclic (w : nat) (x y : nat) : nat * option comparison :=
  (S w, Some (match w mod 3 with 0 => Lt | 1 => Eq | _ => Gt end)).
Example C71_witness :
  never_panics cyclic /\
  fst (wset_assign cyclic (fun _ _ => true) Xor [5;1;5] [2;9] 0) = Done ([5;9;5], [1], [2]) /\
  fst (wset_assign (panics_after cyclic) (fun _ _ => false) Union [5;1;5] [2;9] (0, 2)) =
    Unwound ([5;1], [5], [2;9]) /\
  fst (wset_insert cyclic [3;2;1] 7 1) = Done ([3;7;1], false) /\
  fst (wmap_outer_join_with cyclic (fun _ _ => true) (pure_clos (fun x => Some (okey x)))
        [(4,0);(3,0);(3,0)] [(8,0);(1,0)] tt 0) = Done ([(4,4);(3,3);(1,1);(3,3)], tt).
Proof. split; [intros w x y; discriminate|]. repeat split. Qed.

(** ** C72: a lawful comparison that panics half way *)
(** the comparison of the order [cmp], without effects *)
Definition lawful {T} (cmp : T -> T -> comparison) (w : unit) (x y : T) : unit * option comparison :=
  (tt, Some (cmp x y)).
(** [cut_short d' d]: the interrupted call [d'] either ended as the uninterrupted call [d] does, or
    was unwound leaving a prefix of what [d] leaves *)
Definition cut_short {X Y} (cont : Y -> list X) (d' d : done Y) : Prop :=
  d' = d \/
  exists y' y, d' = Unwound y' /\ (d = Done y \/ d = Unwound y) /\ exists t, cont y = cont y' ++ t.

(** for any comparison at all, interrupted at any call *)
Theorem C72_interrupted_leaves_prefix :
  forall (T W : Type) (c : W -> T -> T -> W * option comparison) (strat : nat -> nat -> bool)
    (o : bop) (a b : list T) (w : W) (n : nat),
    cut_short (fun y => fst (fst y)) (fst (wset_assign (panics_after c) strat o a b (w, n)))
                               (fst (wset_assign c strat o a b w)) /\
    cut_short (fun y => y) (fst (wset_assign_ref (panics_after c) strat o a b (w, n)))
                           (fst (wset_assign_ref c strat o a b w)).
Proof.
  intros T W c strat o a b w n. split.
  - pose proof (wmerge_crash _ _ (bop_steps _ _ _ o (ip_advs ip_R (@ip_R_trans T))) c strat (ip_new a b) w n) as H.
    unfold wset_assign, wip_merge.
    destruct (wmerge (panics_after c) _ strat (ip_new a b) (w, n)) as [d' w1].
    destruct (wmerge c _ strat (ip_new a b) w) as [d w2]. cbn [fst].
    destruct H as [[E _]|(s' & E & H)]; cbn [fst] in E; subst d'; [now left|]. cbn [fst] in H.
    destruct d as [s|s|s|]; [destruct H as (_ & t & H)|destruct H as (_ & t & H)|destruct H as (_ & t & H)|destruct H]; right; cbn [to_done]; do 2 eexists;
      (split; [reflexivity|]); (split; [eauto|]); exists t; exact H.
  - pose proof (wmerge_crash _ _ (bop_steps _ _ _ o (ipr_advs ipr_R (@ipr_R_trans T))) c strat (ipr_new a b) w n) as H.
    unfold wset_assign_ref, wipr_merge.
    destruct (wmerge (panics_after c) _ strat (ipr_new a b) (w, n)) as [d' w1].
    destruct (wmerge c _ strat (ipr_new a b) w) as [d w2]. cbn [fst].
    destruct H as [[E _]|(s' & E & H)]; cbn [fst] in E; subst d'; [now left|]. cbn [fst] in H.
    destruct d as [s|s|s|]; [destruct H as (_ & t & H)|destruct H as (_ & t & H)|destruct H as (_ & t & H)|destruct H]; right; cbn [to_done]; do 2 eexists;
      (split; [reflexivity|]); (split; [eauto|]); exists t; exact H.
Qed.
Print Assumptions C72_interrupted_leaves_prefix.

(** the operator of Spec: which of the operators of VecSetModel.v [o] stands for *)
Definition assign_of {T} (cmp : T -> T -> comparison) (strat : nat -> nat -> bool) (o : bop)
  : list T -> list T -> done (list T) :=
  match o with
  | Union => vset_bitor_assign cmp strat | Inter => vset_bitand_assign cmp strat
  | Xor => vset_bitxor_assign cmp strat | Diff => vset_sub_assign cmp strat
  end.
Definition assign_ref_of {T} (cmp : T -> T -> comparison) (strat : nat -> nat -> bool) (o : bop)
  : list T -> list T -> done (list T) :=
  match o with
  | Union => vset_bitor_assign_ref cmp strat | Inter => vset_bitand_assign_ref cmp strat
  | Xor => vset_bitxor_assign_ref cmp strat | Diff => vset_sub_assign_ref cmp strat
  end.
Lemma sorted_prefix {T} (cmp : T -> T -> comparison) (p t : list T) : sorted cmp (p ++ t) -> sorted cmp p.
Proof.
  unfold sorted. induction p as [|x p IH]; cbn; [constructor|]. intros H. inversion H as [|? ? S F]; subst.
  constructor; [now apply IH|]. rewrite Forall_app in F. tauto.
Qed.

Theorem C72_panicking_cmp_leaves_valid_set :
  forall (T : Type) (cmp : T -> T -> comparison) (strat : nat -> nat -> bool) (o : bop)
    (a b : list T) (n : nat),
    OrdLaws cmp -> sorted cmp a -> sorted cmp b ->
    exists r, assign_of cmp strat o a b = Done r /\ assign_ref_of cmp strat o a b = Done r /\ sorted cmp r /\
      (* rhs by value *)
      ((exists da db, fst (wset_assign (panics_after (lawful cmp)) strat o a b (tt, n)) = Done (r, da, db)) \/
       (exists p da db, fst (wset_assign (panics_after (lawful cmp)) strat o a b (tt, n)) = Unwound (p, da, db) /\
          (exists t, r = p ++ t) /\ sorted cmp p /\ Permutation (p ++ da ++ db) (a ++ b))) /\
      (* rhs by reference *)
      (fst (wset_assign_ref (panics_after (lawful cmp)) strat o a b (tt, n)) = Done r \/
       (exists p, fst (wset_assign_ref (panics_after (lawful cmp)) strat o a b (tt, n)) = Unwound p /\
          (exists t, r = p ++ t) /\ sorted cmp p)).
Proof.
  intros T cmp strat o a b n L Sa Sb.
  set (op := match o with Union => OpUnion | Inter => OpInter | Xor => OpXor | Diff => OpDiff end).
  set (r := op_ref (cmp := cmp) op a b). exists r.
  assert (E1 : exists da db, fst (wset_assign (lawful cmp) strat o a b tt) = Done (r, da, db)).
  { destruct (assign_op_full L strat op a b Sa Sb) as (da & db & E & _). exists da, db.
    etransitivity; [|exact E]. unfold wset_assign, wip_merge.
    assert (Q : wmerge (lawful cmp) (bop_op o (ip_msm IdConverter)) strat (ip_new a b) tt =
      (merge (match o with Union => SetUnionOp cmp (ip_msm IdConverter) | Inter => SetIntersectionOp cmp (ip_msm IdConverter)
              | Xor => SetXorOp cmp (ip_msm IdConverter) | Diff => SetDiffOpt cmp (ip_msm IdConverter) end) strat (ip_new a b), tt)).
    { destruct o; rewrite <- (wmerge_pure _ (lawful cmp)) by (now intros []); reflexivity. }
    rewrite Q. destruct o; reflexivity. }
  assert (E2 : fst (wset_assign_ref (lawful cmp) strat o a b tt) = Done r).
  { pose proof (assign_ref_op_ref L strat op a b Sa Sb) as E. etransitivity; [|exact E]. unfold wset_assign_ref, wipr_merge.
    assert (Q : wmerge (lawful cmp) (bop_op o (ipr_msm CloneConverter)) strat (ipr_new a b) tt =
      (merge (match o with Union => SetUnionOp cmp (ipr_msm CloneConverter) | Inter => SetIntersectionOp cmp (ipr_msm CloneConverter)
              | Xor => SetXorOp cmp (ipr_msm CloneConverter) | Diff => SetDiffOpt cmp (ipr_msm CloneConverter) end) strat (ipr_new a b), tt)).
    { destruct o; rewrite <- (wmerge_pure _ (lawful cmp)) by (now intros []); reflexivity. }
    rewrite Q. destruct o; reflexivity. }
  assert (Sr : sorted cmp r) by (apply (op_ref_sorted L); assumption).
  split; [pose proof (assign_op_ref L strat op a b Sa Sb) as E; destruct o; exact E|].
  split; [pose proof (assign_ref_op_ref L strat op a b Sa Sb) as E; destruct o; exact E|].
  split; [exact Sr|].
  destruct (C72_interrupted_leaves_prefix T unit (lawful cmp) strat o a b tt n) as [H1 H2].
  destruct E1 as (da & db & E1). split.
  - destruct H1 as [H1|(y' & y & H1 & D & t & Ht)]; [left; rewrite H1; eauto|right].
    destruct (C71_assign_conserves T _ (panics_after (lawful cmp)) strat o a b (tt, n)) as (k & ka & kb & P & [Q|[Q _]]);
      rewrite Q in H1; [discriminate|]. injection H1 as <-. cbn [fst] in Ht.
    assert (y = (r, da, db)) as -> by (rewrite E1 in D; destruct D as [D|D]; [now injection D as <-|discriminate]).
    cbn [fst] in Ht. exists k, ka, kb. split; [exact Q|]. split; [eauto|]. split; [|exact P].
    rewrite Ht in Sr. exact (sorted_prefix cmp k t Sr).
  - destruct H2 as [H2|(y' & y & H2 & D & t & Ht)]; [left; now rewrite H2|right].
    assert (y = r) as -> by (rewrite E2 in D; destruct D as [D|D]; [now injection D as <-|discriminate]).
    exists y'. split; [exact H2|]. split; [eauto|]. rewrite Ht in Sr. exact (sorted_prefix cmp y' t Sr).
Qed.
Print Assumptions C72_panicking_cmp_leaves_valid_set.

(** maps: the in-place joins, with closures that may do anything *)
Theorem C72_map_interrupted_leaves_prefix :
  forall (K V V2 W E : Type) (c : W -> K -> K -> W * option comparison) (strat : nat -> nat -> bool)
    (a : list (K * V)) (b : list (K * V2)) (e : E) (w : W) (n : nat),
    let short d' d := cut_short fst (fst d') (fst d) in
    (forall f, short (wmap_outer_join_with (panics_after c) strat f a b e (w, n)) (wmap_outer_join_with c strat f a b e w)) /\
    (forall f, short (wmap_left_join_with (panics_after c) strat f a b e (w, n)) (wmap_left_join_with c strat f a b e w)) /\
    (forall f, short (wmap_right_join_with (panics_after c) strat f a b e (w, n)) (wmap_right_join_with c strat f a b e w)) /\
    (forall f, short (wmap_inner_join_with (panics_after c) strat f a b e (w, n)) (wmap_inner_join_with c strat f a b e w)).
Proof.
  intros K V V2 W E c strat a b e w n. cbv zeta.
  assert (G : forall O : mop (iprstate (K * V) (K * V2) * E) (K * V) (K * V2), steps O mi_R mi_R ->
    cut_short fst (fst (wipr_join (panics_after c) strat O a b e (w, n))) (fst (wipr_join c strat O a b e w))).
  { intros O ST. pose proof (wmerge_crash O mi_R ST (wkv c) strat (ipr_new a b, e) w n) as H.
    unfold wipr_join. change (wkv (V := V) (V2 := V2) (panics_after c)) with (panics_after (wkv (V := V) (V2 := V2) c)).
    destruct (wmerge (panics_after _) O strat _ (w, n)) as [d' w1].
    destruct (wmerge _ O strat _ w) as [d w2]. cbn [fst].
    destruct H as [[Q _]|(s' & Q & H)]; cbn [fst] in Q; subst d'; [now left|]. cbn [fst] in H.
    destruct d as [s|s|s|]; [destruct H as (_ & t & H)|destruct H as (_ & t & H)|destruct H as (_ & t & H)|destruct H]; right; cbn [to_done]; do 2 eexists;
      (split; [reflexivity|]); (split; [eauto|]); exists t; exact H. }
  split; [|split; [|split]]; intros f; apply G.
  - apply outer_i_steps; [apply mi_R_trans|auto].
  - apply left_i_steps; [apply mi_R_trans|auto].
  - apply right_i_steps; [apply mi_R_trans|auto].
  - apply inner_i_steps; [apply mi_R_trans|auto].
Qed.
Print Assumptions C72_map_interrupted_leaves_prefix.

(** [left_valid kcmp d' d]: the uninterrupted call [d] leaves a valid map, and the interrupted call
    [d'] ends the same way or is unwound with a valid prefix of it *)
Definition left_valid {K V E} (kcmp : K -> K -> comparison) (d' d : done (list (K * V) * E)) : Prop :=
  exists r e, (d = Done (r, e) \/ d = Unwound (r, e)) /\ keys_sorted kcmp r /\
    (d' = d \/ exists p e', d' = Unwound (p, e') /\ keys_sorted kcmp p /\ exists t, r = p ++ t).
Theorem C72_panicking_cmp_leaves_valid_map :
  forall (K V V2 E : Type) (kcmp : K -> K -> comparison) (strat : nat -> nat -> bool)
    (a : list (K * V)) (b : list (K * V2)) (e : E) (n : nat),
    OrdLaws kcmp -> keys_sorted kcmp a -> keys_sorted kcmp b ->
    let c := panics_after (lawful kcmp) in
    (forall f, left_valid kcmp (fst (wmap_outer_join_with c strat f a b e (tt, n))) (vmap_outer_join_with kcmp strat f a b e)) /\
    (forall f, left_valid kcmp (fst (wmap_left_join_with c strat f a b e (tt, n))) (vmap_left_join_with kcmp strat f a b e)) /\
    (forall f, left_valid kcmp (fst (wmap_right_join_with c strat f a b e (tt, n))) (vmap_right_join_with kcmp strat f a b e)) /\
    (forall f, left_valid kcmp (fst (wmap_inner_join_with c strat f a b e (tt, n))) (vmap_inner_join_with kcmp strat f a b e)).
Proof.
  intros K V V2 E kcmp strat a b e n L Sa Sb. cbv zeta.
  destruct (C72_map_interrupted_leaves_prefix K V V2 unit E (lawful kcmp) strat a b e tt n) as (I1 & I2 & I3 & I4).
  destruct (C32_panicking_closure_leaves_valid_map K V V2 E kcmp strat a b e L Sa Sb) as (V1 & V2' & V3 & V4).
  assert (G : forall (O O' : mop (iprstate (K * V) (K * V2) * E) (K * V) (K * V2)) (d' : done (list (K * V) * E)),
    (forall x y, mo_cmp O' x y = kvcmp kcmp x y) ->
    (forall w, wmerge (wkv (lawful kcmp)) O strat (ipr_new a b, e) w = wmerge (wkv (lawful kcmp)) O' strat (ipr_new a b, e) w) ->
    cut_short fst d' (fst (wipr_join (lawful kcmp) strat O a b e tt)) ->
    (exists r e', (ipr_join strat O' a b e = Done (r, e') \/ ipr_join strat O' a b e = Unwound (r, e')) /\ keys_sorted kcmp r) ->
    left_valid kcmp d' (ipr_join strat O' a b e)).
  { intros O O' d' HC HM HS (r & e' & D & Sr). exists r, e'. split; [exact D|]. split; [exact Sr|].
    assert (Q : fst (wipr_join (lawful kcmp) strat O a b e tt) = ipr_join strat O' a b e).
    { unfold wipr_join, ipr_join. rewrite HM, (wmerge_pure O' (wkv (lawful kcmp))); [reflexivity|].
      intros [] x y. rewrite HC. reflexivity. }
    rewrite Q in HS. destruct HS as [HS|([p e1] & y & H1 & H2 & t & Ht)]; [now left|right].
    exists p, e1. split; [exact H1|].
    assert (y = (r, e')) as ->.
    { destruct D as [D|D]; rewrite D in H2; destruct H2 as [H2|H2]; congruence. }
    cbn [fst] in Ht. split; [|eauto]. subst r. unfold keys_sorted in *. rewrite map_app in Sr.
    exact (sorted_prefix kcmp _ _ Sr). }
  assert (VO : forall X (key : X -> K) (f : clos E X (option V)) args d, valid_outcome kcmp key f args d ->
    exists r e', (d = Done (r, e') \/ d = Unwound (r, e')) /\ keys_sorted kcmp r).
  { intros X key f args d (r & e' & H & S & _). exists r, e'. split; [tauto|exact S]. }
  split; [|split; [|split]]; intros f.
  - refine (G (OuterJoinOp_i unused_cmp f) (OuterJoinOp_i kcmp f) _ _ _ (I1 f) _); try reflexivity.
    destruct (V1 f) as (args & _ & H). exact (VO _ _ _ _ _ H).
  - refine (G (LeftJoinOp_i unused_cmp f) (LeftJoinOp_i kcmp f) _ _ _ (I2 f) _); try reflexivity.
    destruct (V2' f) as (args & _ & H). exact (VO _ _ _ _ _ H).
  - refine (G (RightJoinOp_i unused_cmp f) (RightJoinOp_i kcmp f) _ _ _ (I3 f) _); try reflexivity.
    destruct (V3 f) as (args & _ & H). exact (VO _ _ _ _ _ H).
  - refine (G (InnerJoinOp_i unused_cmp f) (InnerJoinOp_i kcmp f) _ _ _ (I4 f) _); try reflexivity.
    destruct (V4 f) as (args & _ & H). exact (VO _ _ _ _ _ H).
Qed.
Print Assumptions C72_panicking_cmp_leaves_valid_map.

(** combine_with / merge_with (Extend goes through merge_with) *)
Theorem C72_panicking_cmp_combine_with :
  forall (K V E : Type) (kcmp : K -> K -> comparison) (strat : nat -> nat -> bool)
    (f : clos E (V * V) V) (a b : list (K * V)) (e : E) (n : nat),
    OrdLaws kcmp -> keys_sorted kcmp a -> keys_sorted kcmp b ->
    left_valid kcmp (fst (wmap_combine_with (panics_after (lawful kcmp)) strat f a b e (tt, n)))
               (vmap_combine_with kcmp strat f a b e).
Proof.
  intros K V E kcmp strat f a b e n L Sa Sb.
  destruct (C32_combine_with_panic K V E kcmp strat f a b e L Sa Sb) as (r & e' & D & Sr & _).
  exists r, e'. assert (D' : vmap_combine_with kcmp strat f a b e = Done (r, e') \/
    vmap_combine_with kcmp strat f a b e = Unwound (r, e')) by tauto. clear D.
  split; [exact D'|]. split; [exact Sr|].
  assert (ST : steps (OuterJoinOp_p unused_cmp (combine_clos (K := K) f)) mp_R mp_R).
  { apply outer_p_steps; [apply mp_R_trans|auto]. }
  pose proof (wmerge_crash _ _ ST (wkv (lawful kcmp)) strat (ip_new a b, e) tt n) as H.
  unfold wmap_combine_with.
  change (wkv (V := V) (V2 := V) (panics_after (lawful kcmp))) with (panics_after (wkv (V := V) (V2 := V) (lawful kcmp))).
  destruct (wmerge (panics_after _) _ strat _ (tt, n)) as [d' w1].
  assert (Q : wmerge (wkv (lawful kcmp)) (OuterJoinOp_p unused_cmp (combine_clos (K := K) f)) strat (ip_new a b, e) tt =
    (merge (OuterJoinOp_p kcmp (combine_clos f)) strat (ip_new a b, e), tt)).
  { rewrite <- (wmerge_pure _ (wkv (lawful kcmp))) by (now intros []). reflexivity. }
  rewrite Q in H. cbn [fst]. unfold vmap_combine_with in *.
  destruct H as [[Q1 _]|(s' & Q1 & H)]; cbn [fst] in Q1; subst d'; [now left|right]. cbn [fst to_done] in *.
  do 2 eexists. split; [reflexivity|].
  destruct (merge _ strat _) as [s|s|s|]; [destruct H as (_ & t & H)|destruct H as (_ & t & H)|destruct H as (_ & t & H)|destruct H]; cbn [to_done] in D';
    (destruct D' as [D'|D']; try discriminate D'; injection D' as D1 _);
    rewrite H in D1; subst r; (split; [|eauto]); unfold keys_sorted in *; rewrite map_app in Sr;
    exact (sorted_prefix kcmp _ _ Sr).
Qed.
Print Assumptions C72_panicking_cmp_combine_with.

(** the single-element operations search before they change anything *)
Theorem C72_single_element_unchanged :
  forall (T W : Type) (c : W -> T -> T -> W * option comparison) (l : list T) (x : T) (w : W) (n : nat),
    (fst (wset_insert (panics_after c) l x (w, n)) = fst (wset_insert c l x w) \/
     fst (wset_insert (panics_after c) l x (w, n)) = Unwound (l, false)) /\
    (fst (wset_remove (panics_after c) l x (w, n)) = fst (wset_remove c l x w) \/
     fst (wset_remove (panics_after c) l x (w, n)) = Unwound (l, false)).
Proof.
  intros T W c l x w n. unfold wset_insert, wset_remove.
  assert (F : forall w n y, (fun wn y => panics_after c wn y x) (w, n) y =
    match n with 0 => ((w, 0), None) | S n => let (w', r) := (fun w y => c w y x) w y in ((w', n), r) end)
    by (intros ? [|] ?; reflexivity).
  pose proof (wbs_crash (fun w y => c w y x) _ l F (S (length l)) 0 (length l) w n) as H.
  fold (wbsearch (fun wn y => panics_after c wn y x) l (w, n)) in H.
  fold (wbsearch (fun w y => c w y x) l w) in H.
  destruct H as [H|(n' & H)].
  - destruct (wbsearch (fun wn y => panics_after c wn y x) l (w, n)) as [r w']. cbn [fst] in H. subst r.
    split; now right.
  - rewrite H. destruct (wbsearch (fun w y => c w y x) l w) as [r w']. split; now left.
Qed.
Print Assumptions C72_single_element_unchanged.

Example C72_witness :
  sorted Nat.compare [1;4;6] /\ sorted Nat.compare [2;4;9] /\
  assign_of Nat.compare (fun _ _ => true) Union [1;4;6] [2;4;9] = Done [1;2;4;6;9] /\
  fst (wset_assign (panics_after (lawful Nat.compare)) (fun _ _ => true) Union [1;4;6] [2;4;9] (tt, 3)) =
    Unwound ([1;2;4], [6], [4;9]) /\
  fst (wset_assign_ref (panics_after (lawful Nat.compare)) (fun _ _ => false) Union [1;4;6] [2;4;9] (tt, 2)) =
    Unwound [1;2;4] /\
  fst (wset_assign (panics_after (lawful Nat.compare)) (fun _ _ => true) Union [1;4;6] [2;4;9] (tt, 4)) =
    Done ([1;2;4;6;9], [], [4]) /\
  fst (wmap_outer_join_with (panics_after (lawful Nat.compare)) alt (pure_clos (fun x => Some (okey x))) ma mb tt (tt, 4)) =
    Unwound ([(0,0);(1,1);(3,3);(4,4)], tt).
Proof. do 2 (split; [now apply sortedb_ok|]). repeat split. Qed.
