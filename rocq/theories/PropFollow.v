(** Property C110: a comparison with side effects. [Ord::cmp] may count, cache, log or otherwise
    change the world whenever it is called; as long as its answers are those of a fixed order,
    every operation returns what the theorems about the ordinary model say. *)
From Verif Require Import VecSetHist VecMapSpec OracleModel OracleFacts OracleMapModel CollectModel CollectFacts FollowFacts PropSet PropMap PropOracle.
Require Import Coq.Sorting.Permutation.

(** [c] changes its world as it likes, but answers as [cmp] does *)
Definition follows {T W : Type} (c : W -> T -> T -> W * option comparison) (cmp : T -> T -> comparison) : Prop :=
  forall w x y, snd (c w x y) = Some (cmp x y).

(** what the four operations are to contain *)
Definition result_has {T : Type} (cmp : T -> T -> comparison) (o : bop) (a b : list T) (z : T) : Prop :=
  match o with
  | Union => In z a \/ (In z b /\ ~ mem cmp z a)
  | Inter => In z a /\ mem cmp z b
  | Diff => In z a /\ ~ mem cmp z b
  | Xor => (In z a /\ ~ mem cmp z b) \/ (In z b /\ ~ mem cmp z a)
  end.

Theorem C110_set_operators :
  forall (T W : Type) (cmp : T -> T -> comparison) (c : W -> T -> T -> W * option comparison)
    (strat : nat -> nat -> bool) (o : bop) (a b : list T) (w : W),
    OrdLaws cmp -> follows c cmp -> sorted cmp a -> sorted cmp b ->
    exists r da db,
      fst (wset_assign c strat o a b w) = Done (r, da, db) /\
      fst (wset_assign_ref c strat o a b w) = Done r /\
      fst (wset_pure c strat o a b w) = Ok r /\
      sorted cmp r /\ (forall z, In z r <-> result_has cmp o a b z) /\
      Permutation (r ++ da ++ db) (a ++ b).
Proof.
  intros T W cmp c strat o a b w L F Sa Sb.
  set (op := match o with Union => OpUnion | Inter => OpInter | Xor => OpXor | Diff => OpDiff end).
  destruct (assign_op_full L strat op a b Sa Sb) as (da & db & E & P).
  exists (op_ref (cmp := cmp) op a b), da, db.
  split; [|split; [|split; [|split; [|split]]]].
  - rewrite <- E. unfold wset_assign, wip_merge.
    assert (Q : fst (wmerge c (bop_op o (ip_msm IdConverter)) strat (ip_new a b) w) =
      merge (match o with Union => SetUnionOp cmp (ip_msm IdConverter) | Inter => SetIntersectionOp cmp (ip_msm IdConverter)
              | Xor => SetXorOp cmp (ip_msm IdConverter) | Diff => SetDiffOpt cmp (ip_msm IdConverter) end) strat (ip_new a b)).
    { destruct o; apply wmerge_follow'; try reflexivity; intros; apply F. }
    destruct (wmerge c _ strat (ip_new a b) w) as [m w']. cbn [fst] in *. subst m. destruct o; reflexivity.
  - rewrite <- (assign_ref_op_ref L strat op a b Sa Sb). unfold wset_assign_ref, wipr_merge.
    assert (Q : fst (wmerge c (bop_op o (ipr_msm CloneConverter)) strat (ipr_new a b) w) =
      merge (match o with Union => SetUnionOp cmp (ipr_msm CloneConverter) | Inter => SetIntersectionOp cmp (ipr_msm CloneConverter)
              | Xor => SetXorOp cmp (ipr_msm CloneConverter) | Diff => SetDiffOpt cmp (ipr_msm CloneConverter) end) strat (ipr_new a b)).
    { destruct o; apply wmerge_follow'; try reflexivity; intros; apply F. }
    destruct (wmerge c _ strat (ipr_new a b) w) as [m w']. cbn [fst] in *. subst m. destruct o; reflexivity.
  - rewrite <- (pure_op_ref L strat op a b Sa Sb). unfold wset_pure, wvs_merge.
    assert (Q : fst (wmerge c (bop_op o (vs_msm CloneConverter CloneConverter)) strat (vs_new a b) w) =
      merge (match o with Union => SetUnionOp cmp (vs_msm CloneConverter CloneConverter)
              | Inter => SetIntersectionOp cmp (vs_msm CloneConverter CloneConverter)
              | Xor => SetXorOp cmp (vs_msm CloneConverter CloneConverter)
              | Diff => SetDiffOpt cmp (vs_msm CloneConverter CloneConverter) end) strat (vs_new a b)).
    { destruct o; apply wmerge_follow'; try reflexivity; intros; apply F. }
    destruct (wmerge c _ strat (vs_new a b) w) as [m w']. cbn [fst] in *. subst m. destruct o; reflexivity.
  - now apply (op_ref_sorted L).
  - intros z. destruct o; cbn [op op_ref result_has]; rewrite (set_ref_In L) by assumption;
      destruct (mem_dec (cmp := cmp) z a), (mem_dec (cmp := cmp) z b); intuition (try congruence).
  - exact P.
Qed.
Print Assumptions C110_set_operators.

Theorem C110_set_predicates :
  forall (T W : Type) (cmp : T -> T -> comparison) (c : W -> T -> T -> W * option comparison)
    (strat : nat -> nat -> bool) (a b : list T) (x : T) (w : W),
    OrdLaws cmp -> follows c cmp -> sorted cmp a -> sorted cmp b ->
    (exists r, fst (wset_is_disjoint c strat a b w) = Ok r /\
       (r = true <-> forall z, ~ (mem cmp z a /\ mem cmp z b))) /\
    (exists r, fst (wset_is_subset c strat a b w) = Ok r /\
       (r = true <-> forall z, mem cmp z a -> mem cmp z b)) /\
    (exists r, fst (wset_is_superset c strat a b w) = Ok r /\
       (r = true <-> forall z, mem cmp z b -> mem cmp z a)) /\
    (exists r, fst (wset_contains c a x w) = Ok r /\ (r = true <-> mem cmp x a)).
Proof.
  intros T W cmp c strat a b x w L F Sa Sb.
  destruct (C09_predicates_decide T cmp strat a b L Sa Sb) as ((r1 & E1 & H1) & (r2 & E2 & H2) & (r3 & E3 & H3)).
  assert (B : forall (a b : list T) (o : bop) (O : mop (bstate T T) T T), match o with
      Union => SetUnionOp cmp bs_msm | Inter => SetIntersectionOp cmp bs_msm
    | Xor => SetXorOp cmp bs_msm | Diff => SetDiffOpt cmp bs_msm end = O ->
    fst (wbs_merge c strat (bop_op o bs_msm) a b w) = bs_merge strat O a b).
  { intros a0 b0 o O <-. unfold wbs_merge, bs_merge.
    match goal with |- _ = to_res _ (merge ?O strat _) =>
      assert (Q : fst (wmerge c (bop_op o bs_msm) strat (bs_new a0 b0) w) = merge O strat (bs_new a0 b0)) end.
    { destruct o; apply wmerge_follow'; try reflexivity; intros; apply F. }
    destruct (wmerge c _ strat (bs_new a0 b0) w) as [m w']. cbn [fst] in *. now subst m. }
  split; [|split; [|split]].
  - exists r1. split; [|exact H1]. rewrite <- E1. unfold wset_is_disjoint, vset_is_disjoint.
    rewrite <- (B a b Inter _ eq_refl). now destruct (wbs_merge c strat _ a b w).
  - exists r2. split; [|exact H2]. rewrite <- E2. unfold wset_is_subset, vset_is_subset.
    rewrite <- (B a b Diff _ eq_refl). now destruct (wbs_merge c strat _ a b w).
  - exists r3. split; [|exact H3]. rewrite <- E3. unfold wset_is_superset, wset_is_subset, vset_is_superset, vset_is_subset.
    rewrite <- (B b a Diff _ eq_refl). now destruct (wbs_merge c strat _ b a w).
  - exists (vset_contains cmp a x). split; [|apply (contains_spec L), Sa]. unfold wset_contains, vset_contains.
    pose proof (wbsearch_follow (probe cmp x) (fun w y => c w y x) a w (fun w y => F w y x)) as Q.
    destruct (wbsearch _ a w) as [r w']. cbn [fst] in Q |- *. subst r.
    destruct (search_cases L a x Sa) as [(l1 & y & l2 & _ & _ & -> & _)|(l1 & l2 & _ & _ & -> & _)]; reflexivity.
Qed.
Print Assumptions C110_set_predicates.

Theorem C110_single_element :
  forall (T W : Type) (cmp : T -> T -> comparison) (c : W -> T -> T -> W * option comparison)
    (l : list T) (x : T) (w : W),
    OrdLaws cmp -> follows c cmp -> sorted cmp l ->
    (exists l' r, fst (wset_insert c l x w) = Done (l', r) /\ sorted cmp l' /\ (r = true <-> ~ mem cmp x l) /\
       forall z, In z l' <-> z = x \/ (In z l /\ cmp x z <> Eq)) /\
    (exists l' r, fst (wset_remove c l x w) = Done (l', r) /\ sorted cmp l' /\ (r = true <-> mem cmp x l) /\
       forall z, In z l' <-> In z l /\ cmp x z <> Eq).
Proof.
  intros T W cmp c l x w L F S.
  pose proof (wbsearch_follow (probe cmp x) (fun w y => c w y x) l w (fun w y => F w y x)) as Q. split.
  - destruct (insert_spec L l x S) as (l' & E & S' & I). exists l', (negb (memb cmp x l)).
    split; [|split; [exact S'|split; [rewrite negb_true_iff; apply memb_false|exact I]]].
    unfold wset_insert. destruct (wbsearch _ l w) as [r w']. cbn [fst] in Q |- *. subst r. unfold vset_insert in E.
    destruct (bsearch (probe cmp x) l); try discriminate E; now injection E as <- <-.
  - destruct (remove_spec L l x S) as (l' & E & S' & I). exists l', (memb cmp x l).
    split; [|split; [exact S'|split; [apply memb_spec|exact I]]].
    unfold wset_remove. destruct (wbsearch _ l w) as [r w']. cbn [fst] in Q |- *. subst r. unfold vset_remove in E.
    destruct (bsearch (probe cmp x) l); try discriminate E; now injection E as <- <-.
Qed.
Print Assumptions C110_single_element.

(** collecting and extending. [srt] is the standard library's sort, called with the same comparison:
    all that is asked of it is that it sorts stably and returns when the answers are those of an order. *)
Theorem C110_collect :
  forall (T W : Type) (cmp : T -> T -> comparison) (c : W -> T -> T -> W * option comparison)
    (srt : list T -> W -> (list T * bool) * W) (strat : nat -> nat -> bool) (self l : list T) (w : W),
    OrdLaws cmp -> follows c cmp -> sorted cmp self ->
    (forall s w, fst (srt s w) = (sort_by cmp s, true)) ->
    (exists r dropped, fst (wsort_dedup_by c srt l KeepFirst w) = Done (r, dropped, []) /\
       sorted cmp r /\ forall z, In z r <-> first_occ cmp z l) /\
    (exists r dropped, fst (wset_extend c srt strat self l w) = Done (r, dropped) /\
       sorted cmp r /\ forall z, In z r <-> In z self \/ (first_occ cmp z l /\ ~ mem cmp z self)).
Proof.
  intros T W cmp c srt strat self l w L F S SS.
  destruct (from_iter_spec L l) as (o & E & D). unfold vset_from_iter in E.
  destruct (wsort_dedup_follow cmp c F srt SS l KeepFirst w o E) as (dr & Q).
  assert (I : forall z, In z o <-> first_occ cmp z l) by (intros z; exact (is_dedup_In L KeepFirst l o z D)).
  split.
  - exists o, dr. split; [exact Q|]. split; [exact (proj1 D)|exact I].
  - unfold wset_extend. destruct (wsort_dedup_by c srt l KeepFirst w) as [d w']. cbn [fst] in Q. subst d.
    destruct (C110_set_operators T W cmp c strat Union self o w' L F S (proj1 D)) as (r & da & db & E1 & _ & _ & Sr & H & _).
    destruct (wset_assign c strat Union self o w') as [d w'']. cbn [fst] in E1. subst d.
    exists r, (dr ++ [] ++ da ++ db). split; [reflexivity|]. split; [exact Sr|].
    intros z. rewrite H. cbn [result_has]. now rewrite I.
Qed.
Print Assumptions C110_collect.

(** the joins of VecMap: with the same closure (which may have effects and panic) they do exactly what
    they do with the effect-free comparison, so that C24-C32 apply *)
Theorem C110_map_joins :
  forall (K V V2 R W E : Type) (kcmp : K -> K -> comparison) (c : W -> K -> K -> W * option comparison)
    (strat : nat -> nat -> bool) (a : list (K * V)) (b : list (K * V2)) (b' : list (K * V)) (e : E) (w : W),
    follows c kcmp ->
    (forall f, fst (wmap_outer_join (R := R) c strat f a b e w) = vmap_outer_join kcmp strat f a b e) /\
    (forall f, fst (wmap_left_join (R := R) c strat f a b e w) = vmap_left_join kcmp strat f a b e) /\
    (forall f, fst (wmap_right_join (R := R) c strat f a b e w) = vmap_right_join kcmp strat f a b e) /\
    (forall f, fst (wmap_inner_join (R := R) c strat f a b e w) = vmap_inner_join kcmp strat f a b e) /\
    (forall f, fst (wmap_outer_join_with c strat f a b e w) = vmap_outer_join_with kcmp strat f a b e) /\
    (forall f, fst (wmap_left_join_with c strat f a b e w) = vmap_left_join_with kcmp strat f a b e) /\
    (forall f, fst (wmap_right_join_with c strat f a b e w) = vmap_right_join_with kcmp strat f a b e) /\
    (forall f, fst (wmap_inner_join_with c strat f a b e w) = vmap_inner_join_with kcmp strat f a b e) /\
    (forall f, fst (wmap_combine_with c strat f a b' e w) = vmap_combine_with kcmp strat f a b' e).
Proof.
  intros K V V2 R W E kcmp c strat a b b' e w F.
  assert (G1 : forall O O' : mop (vstate (K * V) (K * V2) (K * R) * E) (K * V) (K * V2),
    (forall x y, mo_cmp O' x y = kvcmp kcmp x y) ->
    MkMop (mo_a O) (mo_b O) (mo_cmp O') (mo_from_a O) (mo_from_b O) (mo_coll O) = O' ->
    fst (wvs_join c strat O a b e w) = vs_join strat O' a b e).
  { intros O O' HC HO. unfold wvs_join, vs_join.
    rewrite <- (wmerge_follow' O O' (wkv c) strat (vs_new a b, e) w); [|intros; rewrite HC; apply F|exact HO].
    now destruct (wmerge (wkv c) O strat (vs_new a b, e) w). }
  assert (G2 : forall O O' : mop (iprstate (K * V) (K * V2) * E) (K * V) (K * V2),
    (forall x y, mo_cmp O' x y = kvcmp kcmp x y) ->
    MkMop (mo_a O) (mo_b O) (mo_cmp O') (mo_from_a O) (mo_from_b O) (mo_coll O) = O' ->
    fst (wipr_join c strat O a b e w) = ipr_join strat O' a b e).
  { intros O O' HC HO. unfold wipr_join, ipr_join.
    rewrite <- (wmerge_follow' O O' (wkv c) strat (ipr_new a b, e) w); [|intros; rewrite HC; apply F|exact HO].
    now destruct (wmerge (wkv c) O strat (ipr_new a b, e) w). }
  do 4 (split; [intros f; now apply G1|]). do 4 (split; [intros f; now apply G2|]).
  intros f. unfold wmap_combine_with, vmap_combine_with.
  rewrite <- (wmerge_follow' (OuterJoinOp_p unused_cmp (combine_clos f)) (OuterJoinOp_p kcmp (combine_clos f))
    (wkv c) strat (ip_new a b', e) w); [|intros; apply F|reflexivity].
  now destruct (wmerge (wkv c) _ strat (ip_new a b', e) w).
Qed.
Print Assumptions C110_map_joins.

Theorem C110_map_point_and_collect :
  forall (K V W : Type) (kcmp : K -> K -> comparison) (c : W -> K -> K -> W * option comparison)
    (srt : list (K * V) -> W -> (list (K * V) * bool) * W) (strat : nat -> nat -> bool)
    (m items : list (K * V)) (k : K) (v : V) (g : V -> V) (w : W),
    OrdLaws kcmp -> follows c kcmp -> keys_sorted kcmp m ->
    (forall s w, fst (srt s w) = (sort_by (fun x y => kcmp (fst x) (fst y)) s, true)) ->
    let val := vmap_get kcmp in
    fst (wmap_get c m k w) = Ok (val m k) /\
    fst (wmap_get_mut c m k g w) = Done (vmap_get_mut kcmp m k g) /\
    (exists m', fst (wmap_insert c m k v w) = Done (m', val m k) /\ vmap_insert kcmp m k v = Ok (m', val m k)) /\
    (exists r dropped, fst (wmap_from_iter c srt items w) = Done (r, dropped, []) /\ keys_sorted kcmp r /\
       forall k', val r k' = lookup_last kcmp k' items) /\
    (exists r, fst (wmap_extend c srt strat m items w) = Done r /\ keys_sorted kcmp r /\
       forall k', val r k' = match lookup_last kcmp k' items with Some y => Some y | None => val m k' end).
Proof.
  intros K V W kcmp c srt strat m items k v g w L F S SS val. subst val.
  pose proof (wbsearch_follow (kprobe kcmp k) (wkprobe c k) m w (fun w p => F w (fst p) k)) as Q.
  destruct (minsert_spec L m k v S) as (m' & EI & _ & _).
  split; [|split; [|split; [|split]]].
  - unfold wmap_get, vmap_get. destruct (wbsearch (wkprobe c k) m w) as [r w']. cbn [fst] in Q |- *. subst r.
    unfold vmap_insert in EI. destruct (bsearch (kprobe kcmp k) m) as [i|i| |]; try discriminate EI; [|reflexivity].
    destruct (nth_error m i) as [[k0 v0]|]; [reflexivity|discriminate EI].
  - unfold wmap_get_mut, vmap_get_mut. destruct (wbsearch (wkprobe c k) m w) as [r w']. cbn [fst] in Q |- *. subst r.
    unfold vmap_insert in EI. destruct (bsearch (kprobe kcmp k) m) as [i|i| |]; try discriminate EI; [|reflexivity].
    destruct (nth_error m i) as [[k0 v0]|]; [reflexivity|discriminate EI].
  - exists m'. rewrite (get_spec L) by exact S. split; [|exact EI].
    unfold wmap_insert. destruct (wbsearch (wkprobe c k) m w) as [r w']. cbn [fst] in Q |- *. subst r.
    unfold vmap_insert in EI. destruct (bsearch (kprobe kcmp k) m) as [i|i| |]; try discriminate EI.
    + destruct (nth_error m i) as [[k0 v0]|]; [|discriminate EI]. injection EI as -> ->. reflexivity.
    + injection EI as -> ->. reflexivity.
  - destruct (C23_collect_last_wins K V kcmp items L) as (r & E & Sr & G & _).
    unfold vmap_from_iter, sort_dedup_by_key in E.
    destruct (wsort_dedup_follow (fun x y => kcmp (fst x) (fst y)) (wkv c)
      (fun w x y => F w (fst x) (fst y)) srt SS items KeepLast w r E) as (dr & H).
    exists r, dr. split; [exact H|]. split; [exact Sr|exact G].
  - destruct (C23_collect_last_wins K V kcmp items L) as (r & E & Sr & G & _).
    unfold vmap_from_iter, sort_dedup_by_key in E.
    destruct (wsort_dedup_follow (fun x y => kcmp (fst x) (fst y)) (wkv c)
      (fun w x y => F w (fst x) (fst y)) srt SS items KeepLast w r E) as (dr & H).
    unfold wmap_extend, wmap_from_iter. destruct (wsort_dedup_by (wkv c) srt items KeepLast w) as [d w'].
    cbn [fst] in H. subst d. unfold wmap_merge_with.
    destruct (C110_map_joins K V V V W unit kcmp c strat m r r tt w' F) as (_ & _ & _ & _ & _ & _ & _ & _ & CW).
    specialize (CW (pure_clos snd)).
    destruct (C29_combine_merge_extend K V unit kcmp strat m r items tt L S Sr) as (_ & (r2 & E2 & S2 & G2) & _).
    unfold vmap_merge_with in E2. rewrite E2 in CW.
    destruct (wmap_combine_with c strat (pure_clos snd) m r tt w') as [d w'']. cbn [fst] in CW. subst d.
    exists r2. split; [reflexivity|]. split; [exact S2|]. intros k'. rewrite G2, G. reflexivity.
Qed.
Print Assumptions C110_map_point_and_collect.

(** a comparison that counts its calls and remembers its last left argument *)
Definition nosy (w : nat * nat) (x y : nat) : (nat * nat) * option comparison :=
  ((S (fst w), x), Some (Nat.compare x y)).
Definition nosy_sort (s : list (nat * nat)) (w : nat * nat) :=
  ((sort_by (fun x y => Nat.compare (fst x) (fst y)) s, true), (fst w + 7, 0)).
Example C110_witness :
  follows nosy Nat.compare /\
  (forall s w, fst (nosy_sort s w) = (sort_by (fun x y => Nat.compare (fst x) (fst y)) s, true)) /\
  sorted Nat.compare [1;4;6] /\ sorted Nat.compare [2;4;9] /\ keys_sorted Nat.compare [(1,10);(4,40)] /\
  wset_assign nosy (fun _ _ => true) Xor [1;4;6] [2;4;9] (0, 0) = (Done ([1;2;6;9], [4], [4]), (4, 6)) /\
  wset_contains nosy [1;4;6] 6 (0, 0) = (Ok true, (2, 6)) /\
  wset_remove nosy [1;4;6] 4 (0, 0) = (Done ([1;6], true), (1, 4)) /\
  wmap_extend nosy nosy_sort (fun _ _ => true) [(1,10);(4,40)] [(9,1);(4,2);(9,3)] (0, 0) =
    (Done [(1,10);(4,2);(9,3)], (12, 4)).
Proof.
  split; [intros w x y; reflexivity|]. split; [reflexivity|]. do 3 (split; [now apply sortedb_ok|]). vm_compute. repeat split.
Qed.
