(** Property C111: VecMap's lookups, insert, extend and new-map joins, when [Ord::cmp] of the keys may
    answer anything and may panic. *)
From Verif Require Import VecMapSpec OracleModel OracleFacts OracleMapModel OracleMapFacts CollectModel CollectFacts
  PropSet PropMap PropOracle PropCost.
Require Import Coq.Sorting.Permutation.

(** the joins that produce a new map: whatever the comparison and the closure do, they terminate; the
    keys of the result are keys of the operands, each used at most as often as it was there; they panic
    only if the comparison or the closure does *)
Theorem C111_new_map_joins :
  forall (K V V2 R W E : Type) (c : W -> K -> K -> W * option comparison) (strat : nat -> nat -> bool)
    (a : list (K * V)) (b : list (K * V2)) (e : E) (w : W),
    (forall f, runs_out (V := R) c (quiet f) (map fst a) (map fst b) (fst (wmap_outer_join c strat f a b e w))) /\
    (forall f, runs_out (V := R) c (quiet f) (map fst a) (map fst b) (fst (wmap_left_join c strat f a b e w))) /\
    (forall f, runs_out (V := R) c (quiet f) (map fst a) (map fst b) (fst (wmap_right_join c strat f a b e w))) /\
    (forall f, runs_out (V := R) c (quiet f) (map fst a) (map fst b) (fst (wmap_inner_join c strat f a b e w))).
Proof.
  intros K V V2 R W E c strat a b e w.
  assert (G : forall (q : Prop) (O : mop (vstate (K * V) (K * V2) (K * R) * E) (K * V) (K * V2)),
    steps O mv_R mv_R ->
    (never_panics c /\ q -> steps O mv_R (fun _ _ => False)) ->
    runs_out c q (map fst a) (map fst b) (fst (wvs_join c strat O a b e w))).
  { intros q O S1 S2. unfold wvs_join, runs_out.
    pose proof (wmerge_ok _ _ _ S1 (wkv c) (or_intror mv_R_refl) strat (vs_new a b, e) w) as H1.
    assert (H2 : never_panics c /\ q -> match fst (wmerge (wkv c) O strat (vs_new a b, e) w) with Panic _ => False | _ => True end).
    { intros N. pose proof (wmerge_ok _ _ _ (S2 N) (wkv c) (or_introl (fun w0 x y => proj1 N w0 (fst x) (fst y))) strat (vs_new a b, e) w) as H.
      destruct (fst (wmerge (wkv c) O strat (vs_new a b, e) w)); trivial. }
    assert (P : forall s : vstate (K * V) (K * V2) (K * R) * E, mv_R (vs_new a b, e) s -> exists rest,
      Permutation (map fst (vs_r (fst s)) ++ rest) (map fst a ++ map fst b)).
    { intros s [(d & H) _]. unfold mv_keys in H. cbn in H. rewrite <- !app_assoc in H. eauto. }
    destruct (wmerge (wkv c) O strat (vs_new a b, e) w) as [[s|s|s|] w']; cbn [fst to_done] in H1, H2 |- *;
      cbn [stepok] in H1.
    - destruct H1 as [H1 _]. destruct (P s H1) as (d & Hd). do 3 eexists. split; [exact Hd|]. now left.
    - destruct (P s H1) as (d & Hd). do 3 eexists. split; [exact Hd|]. now left.
    - destruct (P s H1) as (d & Hd). do 3 eexists. split; [exact Hd|]. right. split; [reflexivity|exact H2].
    - destruct H1. }
  split; [|split; [|split]]; intros f; apply G.
  - apply outer_v_steps; [apply mv_R_trans|auto].
  - intros [_ Q]. apply outer_v_steps; [tauto|auto].
  - apply left_v_steps; [apply mv_R_trans|auto].
  - intros [_ Q]. apply left_v_steps; [tauto|auto].
  - apply right_v_steps; [apply mv_R_trans|auto].
  - intros [_ Q]. apply right_v_steps; [tauto|auto].
  - apply inner_v_steps; [apply mv_R_trans|auto].
  - intros [_ Q]. apply inner_v_steps; [tauto|auto].
Qed.
Print Assumptions C111_new_map_joins.

(** get returns a value of the map or nothing; get_mut changes the value of at most one entry; insert
    adds the entry or swaps it in for exactly one other, whose value it returns; a panic leaves the map
    as it was *)
Theorem C111_point_operations :
  forall (K V W : Type) (c : W -> K -> K -> W * option comparison) (m : list (K * V)) (k : K) (v : V)
    (g : V -> V) (w : W),
    match fst (wmap_get c m k w) with
    | Ok (Some v') => exists k', In (k', v') m
    | Ok None => True
    | Panicked => ~ never_panics c
    | OutOfFuel => False
    end /\
    match fst (wmap_get_mut c m k g w) with
    | Done (m', true) => exists l1 k' v' l2, m = l1 ++ (k', v') :: l2 /\ m' = l1 ++ (k', g v') :: l2
    | Done (m', false) => m' = m
    | Unwound (m', _) => m' = m /\ ~ never_panics c
    | DoneNoFuel => False
    end /\
    match fst (wmap_insert c m k v w) with
    | Done (m', Some v') => exists l1 k' l2, m = l1 ++ (k', v') :: l2 /\ m' = l1 ++ (k, v) :: l2
    | Done (m', None) => exists l1 l2, m = l1 ++ l2 /\ m' = l1 ++ (k, v) :: l2
    | Unwound (m', _) => m' = m /\ ~ never_panics c
    | DoneNoFuel => False
    end.
Proof.
  intros K V W c m k v g w. unfold wmap_get, wmap_get_mut, wmap_insert.
  destruct (wbsearch (wkprobe c k) m w) as [r w'] eqn:Q. apply wbsearch_bound in Q. cbn [fst].
  destruct r as [i|i| |].
  - destruct (nth_error m i) as [[k0 v0]|] eqn:N; [|apply nth_error_None in N; lia].
    destruct (nth_error_split m i N) as (l1 & l2 & E & Len).
    assert (F1 : firstn i m = l1) by (subst m i; rewrite firstn_app, Nat.sub_diag, firstn_all; cbn; apply app_nil_r).
    assert (F2 : skipn (S i) m = l2).
    { subst m i. replace (S (length l1)) with (length (l1 ++ [(k0, v0)])) by (rewrite app_length; cbn; lia).
      replace (l1 ++ (k0, v0) :: l2) with ((l1 ++ [(k0, v0)]) ++ l2) by now rewrite <- app_assoc.
      rewrite skipn_app, skipn_all, Nat.sub_diag. reflexivity. }
    unfold set_at. rewrite F1, F2. split; [|split].
    + exists k0. rewrite E. apply in_or_app. right. now left.
    + exists l1, k0, v0, l2. now split.
    + exists l1, k0, l2. now split.
  - split; [exact I|]. split; [reflexivity|]. exists (firstn i m), (skipn i m). split; [|reflexivity].
    symmetry. apply firstn_skipn.
  - assert (N : ~ never_panics c).
    { destruct Q as (w1 & y & w2 & Q). intros N. apply (N w1 (fst y) k). unfold wkprobe in Q. now rewrite Q. }
    split; [exact N|]. now split.
  - destruct Q.
Qed.
Print Assumptions C111_point_operations.

(** extend with any comparison: the map left behind has keys of the map and of the items, none used
    twice; it unwinds only if the comparison (or the sort, [noticed]) does *)
Theorem C111_extend_conserves_keys :
  forall (K V W : Type) (c : W -> K -> K -> W * option comparison)
    (srt : list (K * V) -> W -> (list (K * V) * bool) * W) (strat : nat -> nat -> bool) (noticed : Prop)
    (m items : list (K * V)) (w : W),
    (forall s w, Permutation (fst (fst (srt s w))) s) ->
    (forall s w, snd (fst (srt s w)) = false -> ~ never_panics c \/ noticed) ->
    exists r rest, Permutation (map fst r ++ rest) (map fst m ++ map fst items) /\
      (fst (wmap_extend c srt strat m items w) = Done r \/
       fst (wmap_extend c srt strat m items w) = Unwound r /\ (~ never_panics c \/ noticed)).
Proof.
  intros K V W c srt strat noticed m items w SP SB. unfold wmap_extend, wmap_from_iter.
  assert (NP : ~ never_panics (wkv (V := V) (V2 := V) c) -> ~ never_panics c).
  { intros N H. apply N. intros w0 x y. apply H. }
  assert (SB' : forall s w0, snd (fst (srt s w0)) = false ->
    ~ never_panics (wkv (V := V) (V2 := V) c) \/ (~ never_panics c \/ noticed)) by (intros; right; eauto).
  destruct (C87_collect_conserves (K * V) W (wkv c) srt (~ never_panics c \/ noticed) items KeepLast w SP SB')
    as [(r & d & E & P)|(r & d & rs & E & P & B)].
  - destruct (wsort_dedup_by (wkv c) srt items KeepLast w) as [o w']. cbn [fst] in E. subst o.
    unfold wmap_merge_with, wmap_combine_with.
    set (O := OuterJoinOp_p (E := unit) unused_cmp (combine_clos (K := K) (pure_clos (X := V * V) snd))).
    assert (S1 : steps O mp_R mp_R) by (apply outer_p_steps; [apply mp_R_trans|auto]).
    assert (Qt : quiet (E := unit) (combine_clos (K := K) (pure_clos (X := V * V) snd))).
    { intros e [k0 v0|k0 v0|k0 v0 w0]; discriminate. }
    pose proof (wmerge_ok _ _ _ S1 (wkv c) (or_intror mp_R_refl) strat (ip_new m r, tt) w') as H1.
    assert (H2 : never_panics c -> match fst (wmerge (wkv c) O strat (ip_new m r, tt) w') with Panic _ => False | _ => True end).
    { intros N. assert (S2 : steps O mp_R (fun _ _ => False)) by (apply outer_p_steps; [tauto|now left]).
      pose proof (wmerge_ok _ _ _ S2 (wkv c) (or_introl (fun w0 x y => N w0 (fst x) (fst y))) strat (ip_new m r, tt) w') as H.
      destruct (fst (wmerge (wkv c) O strat (ip_new m r, tt) w')); trivial. }
    assert (PP : forall s, mp_R (ip_new m r, tt) s -> exists rest,
      Permutation (map fst (bd_tgt (ip_a (fst s))) ++ rest) (map fst m ++ map fst items)).
    { intros s [(d2 & H) _]. unfold mp_keys in H. cbn in H. rewrite <- !app_assoc in H.
      eexists (_ ++ map fst d). rewrite app_assoc, H, <- app_assoc. apply Permutation_app_head.
      rewrite <- map_app. now apply Permutation_map. }
    destruct (wmerge (wkv c) O strat (ip_new m r, tt) w') as [[s|s|s|] w2]; cbn [fst to_done] in H1, H2 |- *;
      cbn [stepok] in H1.
    + destruct H1 as [H1 _]. destruct (PP s H1) as (d2 & Hd). do 2 eexists. split; [exact Hd|]. now left.
    + destruct (PP s H1) as (d2 & Hd). do 2 eexists. split; [exact Hd|]. now left.
    + destruct (PP s H1) as (d2 & Hd). do 2 eexists. split; [exact Hd|]. right. split; [reflexivity|left; exact H2].
    + destruct H1.
  - destruct (wsort_dedup_by (wkv c) srt items KeepLast w) as [o w']. cbn [fst] in E. subst o.
    exists m, (map fst items). split; [reflexivity|]. right. split; [reflexivity|]. tauto.
Qed.
Print Assumptions C111_extend_conserves_keys.

(** extend with an order whose n+1st comparison panics (while collecting, sorting or merging): the map is
    untouched, or the extended map, or a prefix of it; always a valid map *)
Theorem C111_extend_interrupted :
  forall (K V : Type) (kcmp : K -> K -> comparison)
    (srt : list (K * V) -> unit * nat -> (list (K * V) * bool) * (unit * nat)) (strat : nat -> nat -> bool)
    (m items : list (K * V)) (n : nat),
    OrdLaws kcmp -> keys_sorted kcmp m ->
    (forall s w, snd (fst (srt s w)) = true -> fst (fst (srt s w)) = sort_by (fun x y => kcmp (fst x) (fst y)) s) ->
    exists r, vmap_extend kcmp strat m items tt = Some (Done (r, tt)) /\ keys_sorted kcmp r /\
      (fst (wmap_extend (panics_after (lawful kcmp)) srt strat m items (tt, n)) = Done r \/
       exists p, fst (wmap_extend (panics_after (lawful kcmp)) srt strat m items (tt, n)) = Unwound p /\
          keys_sorted kcmp p /\ (p = m \/ exists t, r = p ++ t)).
Proof.
  intros K V kcmp srt strat m items n L S SE.
  destruct (C29_combine_merge_extend K V unit kcmp strat m m items tt L S S) as (_ & _ & (r & E & Sr & _)).
  exists r. split; [exact E|]. split; [exact Sr|].
  pose proof (by_key_ord (fst : K * V -> K) kcmp L) as LK.
  destruct (C87_collect_interrupted (K * V) _ (fun x y => kcmp (fst x) (fst y)) (wkv (panics_after (lawful kcmp))) srt
    items KeepLast (tt, n) LK) as [(r0 & d & E0 & Q)|(x & Q)].
  - intros [[] [|j]] x y q; cbn; [discriminate|]. now intros [= <-].
  - exact SE.
  - unfold wmap_extend, wmap_from_iter. destruct (wsort_dedup_by _ srt items KeepLast (tt, n)) as [o [[] j]]. cbn [fst] in Q. subst o.
    unfold vmap_extend, vmap_from_iter, sort_dedup_by_key in E. rewrite E0 in E. injection E as E.
    assert (S0 : keys_sorted kcmp r0).
    { destruct (sort_dedup_by_spec LK items KeepLast) as (r1 & E1 & D).
      unfold by_key in E1. rewrite E0 in E1. injection E1 as <-. exact (proj1 (is_dedup_entry (kcmp := kcmp) KeepLast items r0 D)). }
    pose proof (C72_panicking_cmp_combine_with K V unit kcmp strat (pure_clos snd) m r0 tt j L S S0) as (r1 & e1 & D & _ & H).
    unfold vmap_merge_with in E. unfold wmap_merge_with.
    destruct (wmap_combine_with (panics_after (lawful kcmp)) strat (pure_clos snd) m r0 tt (tt, j)) as [o w''].
    cbn [fst] in H. destruct H as [H|(p & e' & H & Sp & t & Ht)]; subst o.
    + left. now rewrite E.
    + right. exists p. split; [reflexivity|]. split; [exact Sp|]. right. exists t. rewrite E in D.
      destruct D as [D|D]; [|discriminate D]. injection D as <- <-. exact Ht.
  - right. exists m. unfold wmap_extend, wmap_from_iter.
    destruct (wsort_dedup_by _ srt items KeepLast (tt, n)) as [o [[] j]]. cbn [fst] in Q. subst o.
    split; [reflexivity|]. split; [exact S|now left].
Qed.
Print Assumptions C111_extend_interrupted.

(** a comparison that cycles through its answers; a sort that reverses *)
Definition rsort (s : list (nat * nat)) (w : nat) := ((rev s, true), S w).
Definition psort (s : list (nat * nat)) (w : unit * nat) : (list (nat * nat) * bool) * (unit * nat) :=
  if snd w <? length s then ((s, false), (tt, 0))
  else ((sort_by (fun x y => Nat.compare (fst x) (fst y)) s, true), (tt, snd w - length s)).
Example C111_witness :
  never_panics cyclic /\ (forall s w, Permutation (fst (fst (rsort s w))) s) /\
  (forall s w, snd (fst (rsort s w)) = false -> ~ never_panics cyclic \/ False) /\
  (forall s w, snd (fst (psort s w)) = true -> fst (fst (psort s w)) = sort_by (fun x y => Nat.compare (fst x) (fst y)) s) /\
  keys_sorted Nat.compare ma /\
  fst (wmap_outer_join (R := nat) cyclic (fun _ _ => true) (pure_clos (fun x => Some (okey x)))
        [(4,0);(3,0);(3,0)] [(8,0);(1,0)] tt 0) = Done ([(4,4);(3,3);(1,1);(3,3)], tt) /\
  fst (wmap_insert cyclic [(3,30);(2,20);(1,10)] 7 70 1) = Done ([(3,30);(7,70);(1,10)], Some 20) /\
  fst (wmap_get cyclic [(3,30);(2,20);(1,10)] 7 0) = Ok (Some 10) /\
  fst (wmap_extend cyclic rsort (fun _ _ => true) [(3,30);(2,20)] [(9,1);(4,2);(9,3)] 0) = Done [(9,1);(3,30);(2,3)] /\
  fst (wmap_extend (panics_after (lawful Nat.compare)) psort (fun _ _ => true) ma [(9,1);(4,2);(0,3)] (tt, 2)) = Unwound ma /\
  fst (wmap_extend (panics_after (lawful Nat.compare)) psort (fun _ _ => true) ma [(9,1);(4,2);(0,3)] (tt, 9)) =
    Unwound [(0,3);(1,10);(3,30)].
Proof.
  split; [intros w x y; discriminate|]. split; [intros s w; symmetry; apply Permutation_rev|].
  split; [discriminate|]. split.
  { intros s w. unfold psort. destruct (snd w <? length s); [discriminate|reflexivity]. }
  split; [exact ma_ok|]. vm_compute. repeat split.
Qed.
