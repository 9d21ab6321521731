(** Properties C93-C96: borrowed lookups, bounds of TotalVecMap, iterators and conversions, map_values. *)
From Verif Require Import ApiModel VecMapHist HeapFrame PropMap PropSet PropTotal.

(** ** C93: lookups through a borrowed key *)
(** The contract of [K: Borrow<Q>]: the borrowed forms compare as the keys do. *)
Definition borrow_ok {K Q} (borrow : K -> Q) (kcmp : K -> K -> comparison) (qcmp : Q -> Q -> comparison) : Prop :=
  forall x y, qcmp (borrow x) (borrow y) = kcmp x y.

Section Borrowed.
  Context {K Q V : Type} (borrow : K -> Q) {kcmp : K -> K -> comparison} {qcmp : Q -> Q -> comparison}.
  Context (L : OrdLaws qcmp) (B : borrow_ok borrow kcmp qcmp).
  Definition bmap (m : list (K * V)) : list (Q * V) := map (fun p => (borrow (fst p), snd p)) m.
  Lemma bmap_keys m : map fst (bmap m) = map borrow (map fst m).
  Proof. unfold bmap. rewrite !map_map. reflexivity. Qed.
  Lemma bmap_sorted m : keys_sorted kcmp m -> keys_sorted qcmp (bmap m).
  Proof.
    unfold keys_sorted. rewrite bmap_keys. generalize (map fst m). intros l S.
    induction S as [|x l S IH H]; cbn [map]; [apply sorted_nil|].
    apply sorted_cons; [assumption|]. intros y I. apply in_map_iff in I as (z & <- & I). rewrite B.
    rewrite Forall_forall in H. now apply H.
  Qed.
  Lemma bmap_search m q : bsearch (qprobe borrow qcmp q) m = bsearch (kprobe qcmp q) (bmap m).
  Proof.
    apply bsearch_sim; [|unfold bmap; now rewrite map_length].
    intros i. unfold bmap. rewrite nth_error_map. destruct (nth_error m i) as [p|]; cbn; [reflexivity|exact I].
  Qed.
  Lemma bmap_get m q : vmap_get_q borrow qcmp m q = vmap_get qcmp (bmap m) q.
  Proof.
    unfold vmap_get_q, vmap_get. rewrite bmap_search. destruct (bsearch _ _); try reflexivity.
    unfold bmap. rewrite nth_error_map. destruct (nth_error m i); reflexivity.
  Qed.
  Lemma bmap_set_at i p m : bmap (set_at i p m) = set_at i (borrow (fst p), snd p) (bmap m).
  Proof. unfold set_at, bmap. rewrite map_app. cbn [map]. now rewrite firstn_map, skipn_map. Qed.
  Lemma bmap_get_mut m q g : exists m', vmap_get_mut_q borrow qcmp m q g = (m', snd (vmap_get_mut qcmp (bmap m) q g)) /\
    bmap m' = fst (vmap_get_mut qcmp (bmap m) q g) /\ map fst m' = map fst m.
  Proof.
    unfold vmap_get_mut_q, vmap_get_mut. rewrite bmap_search. destruct (bsearch _ _) as [i| | |]; try (exists m; auto; fail).
    assert (N' : nth_error (bmap m) i = option_map (fun p => (borrow (fst p), snd p)) (nth_error m i)) by apply nth_error_map.
    rewrite N'. destruct (nth_error m i) as [[k v]|] eqn:N; cbn [option_map fst snd].
    - exists (set_at i (k, g v) m). split; [reflexivity|]. split; [apply bmap_set_at|].
      apply nth_error_split in N as (l1 & l2 & -> & <-). rewrite set_at_app, !map_app. reflexivity.
    - exists m. auto.
  Qed.
End Borrowed.

Theorem C93_borrowed_get :
  forall (K Q V : Type) (borrow : K -> Q) (kcmp : K -> K -> comparison) (qcmp : Q -> Q -> comparison) (m : list (K * V)),
    OrdLaws qcmp -> borrow_ok borrow kcmp qcmp -> keys_sorted kcmp m ->
    (forall q v, vmap_get_q borrow qcmp m q = Some v <-> exists k, In (k, v) m /\ qcmp (borrow k) q = Eq) /\
    (forall k, vmap_get_q borrow qcmp m (borrow k) = vmap_get kcmp m k) /\
    (forall d q, tmap_index_q borrow qcmp (TMap m d) q = match vmap_get_q borrow qcmp m q with Some v => v | None => d end).
Proof.
  intros K Q V borrow kcmp qcmp m L B S. pose proof (bmap_sorted borrow B m S) as S'.
  assert (LK : OrdLaws kcmp).
  { split.
    - intros x y. rewrite <- !B. apply (ord_opp L).
    - intros x y z. rewrite <- !B. apply (ord_trans L). }
  assert (G : forall q v, vmap_get_q borrow qcmp m q = Some v <-> exists k, In (k, v) m /\ qcmp (borrow k) q = Eq).
  { intros q v. rewrite bmap_get, (get_spec L) by assumption. rewrite lookup_entry. split.
    - destruct (entry qcmp q (bmap borrow m)) as [[k' v']|] eqn:E; [|discriminate]. cbn. intros [= ->].
      apply entry_Some_In in E as [I E]. apply in_map_iff in I as ([k w] & [= <- ->] & I).
      exists k. split; [assumption|]. now apply (cmp_sym L).
    - intros (k & I & E). rewrite (entry_sorted L q (bmap borrow m) (borrow k, v)); [reflexivity|assumption| |].
      + apply in_map_iff. exists (k, v). auto.
      + now apply (cmp_sym L). }
  split; [exact G|]. split; [|reflexivity].
  intros k. destruct (vmap_get kcmp m k) as [v|] eqn:E.
  - apply G. rewrite (get_spec LK) in E by assumption. rewrite lookup_entry in E.
    destruct (entry kcmp k m) as [[k' v']|] eqn:N; [|discriminate]. injection E as ->.
    apply entry_Some_In in N as [I E]. exists k'. split; [assumption|]. rewrite B. now apply (cmp_sym LK).
  - destruct (vmap_get_q borrow qcmp m (borrow k)) as [v|] eqn:E2; [|reflexivity].
    apply G in E2 as (k' & I & E2). rewrite B in E2.
    rewrite (get_spec LK), lookup_entry in E by assumption.
    rewrite (entry_sorted LK k m (k', v)) in E; [discriminate|assumption|assumption|now apply (cmp_sym LK)].
Qed.
Print Assumptions C93_borrowed_get.

(** get_mut changes the value of the one entry whose key has this borrowed form, and nothing else *)
Theorem C93_borrowed_get_mut :
  forall (K Q V : Type) (borrow : K -> Q) (kcmp : K -> K -> comparison) (qcmp : Q -> Q -> comparison) (m : list (K * V)) (q : Q) (g : V -> V),
    OrdLaws qcmp -> borrow_ok borrow kcmp qcmp -> keys_sorted kcmp m ->
    exists m' found, vmap_get_mut_q borrow qcmp m q g = (m', found) /\
      map fst m' = map fst m /\ keys_sorted kcmp m' /\
      (found = true <-> exists k, In k (map fst m) /\ qcmp (borrow k) q = Eq) /\
      (forall q', vmap_get_q borrow qcmp m' q' =
         match qcmp q' q with Eq => option_map g (vmap_get_q borrow qcmp m q') | _ => vmap_get_q borrow qcmp m q' end).
Proof.
  intros K Q V borrow kcmp qcmp m q g L B S. pose proof (bmap_sorted borrow B m S) as S'.
  destruct (bmap_get_mut borrow (qcmp := qcmp) m q g) as (m' & E & M & K1).
  destruct (get_mut_spec L (bmap borrow m) q g S') as (l' & E' & Sl & F). rewrite E' in E, M. cbn [fst snd] in E, M.
  exists m'. eexists. split; [exact E|]. split; [assumption|].
  split; [unfold keys_sorted; now rewrite K1|]. split.
  - destruct (entry qcmp q (bmap borrow m)) as [[k' v']|] eqn:N; split; try discriminate; try reflexivity.
    + intros _. apply entry_Some_In in N as [I Q1]. apply in_map_iff in I as ([k w] & [= <- ->] & I).
      exists k. split; [apply in_map_iff; exists (k, v'); auto|now apply (cmp_sym L)].
    + intros (k & I & Q1). apply in_map_iff in I as ([k0 w] & <- & I). rewrite entry_None in N.
      exfalso. apply (N (borrow k0, w)); [apply in_map_iff; exists (k0, w); auto|now apply (cmp_sym L)].
  - intros q'. rewrite !bmap_get, M, !(get_spec L), !lookup_entry, F by assumption.
    unfold eqb_of. destruct (qcmp q' q) eqn:W; try reflexivity.
    rewrite (entry_eq L _ _ _ W). destruct (entry qcmp q (bmap borrow m)); reflexivity.
Qed.
Print Assumptions C93_borrowed_get_mut.

(** keys with a tag that neither form compares *)
Example C93_witness :
  let kcmp := by_key (T := nat * nat) fst Nat.compare in
  let m := [((1,7),10);((4,8),20);((6,9),30)] in
  OrdLaws Nat.compare /\ borrow_ok fst kcmp Nat.compare /\ keys_sorted kcmp m /\
  vmap_get_q fst Nat.compare m 4 = Some 20 /\ vmap_get_q fst Nat.compare m 5 = None /\
  vmap_get_mut_q fst Nat.compare m 6 S = ([((1,7),10);((4,8),20);((6,9),31)], true).
Proof.
  split; [exact nat_ord|]. split; [intros x y; reflexivity|]. split; [now apply sortedb_ok|]. repeat split; reflexivity.
Qed.

(** ** C94: Bounded for TotalVecMap *)
(** Pointwise the two constants are bounds. *)
Theorem C94_bounds_pointwise_partial :
  forall (K V : Type) (kcmp : K -> K -> comparison) (vcmp : V -> V -> comparison) (vmin vmax : V) (m : tmap K V) (k : K),
    (forall v, vcmp vmin v <> Gt) -> (forall v, vcmp v vmax <> Gt) ->
    vcmp (tmap_index kcmp (tmap_min_value vmin) k) (tmap_index kcmp m k) <> Gt /\
    vcmp (tmap_index kcmp m k) (tmap_index kcmp (tmap_max_value vmax) k) <> Gt.
Proof. intros K V kcmp vcmp vmin vmax m k H1 H2. split; cbn; auto. Qed.
Print Assumptions C94_bounds_pointwise_partial.

(** min_value is the least TotalVecMap in the type's own order; max_value is only above the constant maps. *)
Theorem C94_order_bounds_partial :
  forall (K V : Type) (kcmp : K -> K -> comparison) (vcmp : V -> V -> comparison) (vmin vmax : V) (m : tmap K V),
    (forall v, vcmp vmin v <> Gt) -> (forall v, vcmp v vmax <> Gt) ->
    tmap_cmp kcmp vcmp (tmap_min_value vmin) m <> Gt /\
    (tmap_cmp kcmp vcmp m (tmap_max_value vmax) <> Gt <-> tmap_non_default_mappings m = []).
Proof.
  intros K V kcmp vcmp vmin vmax [m d] H1 H2. unfold tmap_cmp, tmap_min_value, tmap_max_value, tmap_constant, tmap_non_default_mappings.
  cbn [tm_map tm_default]. destruct m as [|p m]; cbn.
  - split; [apply H1|]. split; [reflexivity|]. intros _. apply H2.
  - split; [discriminate|]. split; [intros H; now destruct H|discriminate].
Qed.
Print Assumptions C94_order_bounds_partial.

(** max_value is not the greatest: a map with any non-default mapping compares greater, although it is
    nowhere above it. *)
Theorem C94_max_value_greatest_refuted :
  exists m : tmap nat bool,
    tmap_ok Nat.compare Bool.eqb m /\
    (forall k, Bool.compare (tmap_index Nat.compare m k) true <> Gt) /\
    tmap_cmp Nat.compare Bool.compare m (tmap_max_value true) = Gt.
Proof.
  exists (TMap [(0, false)] true). split; [|split].
  - split; [now apply sortedb_ok|]. intros p [<-|[]]. reflexivity.
  - intros k. destruct (tmap_index Nat.compare _ k); discriminate.
  - reflexivity.
Qed.
Print Assumptions C94_max_value_greatest_refuted.
Example C94_witness :
  (forall v, Bool.compare false v <> Gt) /\ (forall v, Bool.compare v true <> Gt) /\
  tmap_ok Nat.compare Bool.eqb (TMap [(3, true)] false) /\
  tmap_cmp Nat.compare Bool.compare (tmap_min_value false) (TMap [(3, true)] false) = Lt.
Proof.
  split; [intros []; discriminate|]. split; [intros []; discriminate|]. split; [|reflexivity].
  split; [now apply sortedb_ok|]. intros p [<-|[]]. reflexivity.
Qed.

(** ** C95: iterators and conversions *)
(** how many times next was called *)
Definition nexts (cs : list icall) : nat := length (filter (fun c => match c with INext => true | ISizeHint => false end) cs).
(** the items among the answers *)
Definition items_of {T} (l : list (ians T)) : list T :=
  flat_map (fun a => match a with AItem (Some x) => [x] | _ => [] end) l.

Section Iter.
  Context {T : Type}.
  Lemma it_run_nth (cs : list icall) : forall s pre c post, cs = pre ++ c :: post ->
    nth_error (snd (it_run (T := T) s cs)) (length pre) =
      Some (match c with
            | INext => AItem (nth_error s (nexts pre))
            | ISizeHint => AHint (length s - nexts pre) (Some (length s - nexts pre))
            end) .
  Proof.
    induction cs as [|c0 cs IH]; intros s pre c post Q; [destruct pre; discriminate|].
    destruct pre as [|p pre]; cbn [app] in Q; injection Q as -> Q.
    - cbn [it_run length]. destruct (it_call s c) as [s1 a] eqn:C, (it_run s1 cs). cbn.
      destruct c; cbn in C.
      + unfold it_next in C. destruct s; injection C as <- <-; reflexivity.
      + injection C as <- <-. now rewrite Nat.sub_0_r.
    - cbn [it_run length]. destruct (it_call s p) as [s1 a] eqn:C, (it_run s1 cs) as [s2 l] eqn:R. cbn.
      specialize (IH s1 pre c post Q). rewrite R in IH. cbn [snd] in IH. rewrite IH. f_equal.
      destruct p; cbn in C.
      + unfold it_next in C. unfold nexts. cbn [filter length]. destruct s as [|x s]; injection C as <- <-.
        * assert (N : forall n, @nth_error T [] n = None) by (intros []; reflexivity). cbn [length]. rewrite !N. destruct c; reflexivity.
        * destruct c; reflexivity.
      + injection C as <- <-. reflexivity.
  Qed.
  Lemma it_run_items (cs : list icall) : forall s, items_of (snd (it_run (T := T) s cs)) = firstn (nexts cs) s /\
    fst (it_run s cs) = skipn (nexts cs) s.
  Proof.
    induction cs as [|c cs IH]; intros s; [split; reflexivity|].
    cbn [it_run]. destruct (it_call s c) as [s1 a] eqn:C, (it_run s1 cs) as [s2 l] eqn:R. cbn [snd fst].
    specialize (IH s1). rewrite R in IH. cbn [snd fst] in IH. destruct IH as [IH1 IH2].
    unfold items_of in *. cbn [flat_map]. rewrite IH1, IH2.
    destruct c; cbn in C; unfold nexts; cbn [filter length].
    - unfold it_next in C. destruct s as [|x s]; injection C as <- <-.
      + cbn [app]. now rewrite !firstn_nil, !skipn_nil.
      + split; reflexivity.
    - injection C as <- <-. split; reflexivity.
  Qed.
  Lemma it_drain_ok (s : list T) : forall fuel, length s < fuel -> it_drain fuel s = Some s.
  Proof.
    induction s as [|x s IH]; intros [|fuel] H; cbn in H; try lia; cbn [it_drain it_next]; [reflexivity|].
    rewrite IH by lia. reflexivity.
  Qed.
End Iter.
Lemma sorted_firstn {T} (cmp : T -> T -> comparison) l n : sorted cmp l -> sorted cmp (firstn n l).
Proof.
  revert n. induction l as [|x l IH]; intros [|n] S; cbn; try apply sorted_nil.
  inversion S as [|? ? S' F]; subst. apply sorted_cons; [now apply IH|].
  intros y I. rewrite Forall_forall in F. apply F. clear - I. revert n I.
  induction l as [|z l IH]; intros [|n] I; cbn in I; try tauto. destruct I; [now left|right; eauto].
Qed.

(** For every sequence of calls of next and size_hint: the n-th next yields the n-th element (then None for
    ever), size_hint is exact at every point, and so the items come in strictly ascending order, each once. *)
Theorem C95_iterators :
  forall (T : Type) (l : list T) (cs : list icall),
    (forall pre c post, cs = pre ++ c :: post ->
       nth_error (snd (it_run (it_new l) cs)) (length pre) =
         Some (match c with
               | INext => AItem (nth_error l (nexts pre))
               | ISizeHint => AHint (length l - nexts pre) (Some (length l - nexts pre))
               end)) /\
    items_of (snd (it_run (it_new l) cs)) ++ fst (it_run (it_new l) cs) = l /\
    (forall cmp, sorted cmp l -> sorted cmp (items_of (snd (it_run (it_new l) cs)))) /\
    (forall fuel, length l < fuel -> it_drain fuel (it_new l) = Some l).
Proof.
  intros T l cs. unfold it_new. destruct (it_run_items cs l) as [E1 E2]. split; [|split; [|split]].
  - intros pre c post Q. now apply (it_run_nth cs l pre c post).
  - rewrite E1, E2. apply firstn_skipn.
  - intros cmp S. rewrite E1. now apply sorted_firstn.
  - intros fuel H. now apply it_drain_ok.
Qed.
Print Assumptions C95_iterators.

(** Taking a collection apart and putting it together again gives the same collection: through its iterator,
    through Vec / SmallVec, or through a BTreeSet / BTreeMap (a list in ascending order here). *)
Theorem C95_conversions :
  forall (T : Type) (cmp : T -> T -> comparison) (K V : Type) (kcmp : K -> K -> comparison) (l : list T) (m : list (K * V)),
    OrdLaws cmp -> OrdLaws kcmp -> sorted cmp l -> keys_sorted kcmp m ->
    (forall fuel, length l < fuel ->
       match it_drain fuel (it_new l) with Some xs => vset_from_iter cmp xs | None => None end = Some l) /\
    vset_from_vec cmp (vset_into_vec l) = l /\
    vset_from_btreeset (vset_into_vec l) = l /\
    (forall fuel, length m < fuel ->
       match it_drain fuel (it_new m) with Some xs => vmap_from_iter kcmp xs | None => None end = Some m) /\
    vmap_from_iter kcmp (vmap_into_inner m) = Some m /\
    vmap_from_btreemap (vmap_into_inner m) = m.
Proof.
  intros T cmp K V kcmp l m L LK S Sm.
  assert (A : vset_from_iter cmp l = Some l).
  { destruct (from_iter_spec L l) as (o & E & D). rewrite E. f_equal.
    exact (is_dedup_unique L KeepFirst l _ _ D (is_dedup_sorted L KeepFirst l S)). }
  assert (B : vmap_from_iter kcmp m = Some m).
  { destruct (C23_collect_last_wins K V kcmp m LK) as (r & E & Sr & F & I). rewrite E. f_equal.
    apply (entry_ext LK); auto. intros k.
    destruct (sort_dedup_by_spec (by_key_ord fst kcmp LK) m KeepLast) as (r' & E' & D).
    unfold vmap_from_iter in E. change (sort_dedup_by_key kcmp fst m KeepLast = Some r') in E'.
    assert (r' = r) by congruence. subst r'.
    assert (Sm' : sorted (by_key fst kcmp) m).
    { clear - Sm. unfold keys_sorted in Sm. induction m as [|p m IH]; [apply sorted_nil|].
      inversion Sm as [|? ? S1 F1]; subst. apply sorted_cons; [now apply IH|].
      intros y I. rewrite Forall_forall in F1. apply F1. now apply in_map. }
    now rewrite (is_dedup_unique (by_key_ord fst kcmp LK) KeepLast m _ _ D
                 (is_dedup_sorted (by_key_ord fst kcmp LK) KeepLast m Sm')). }
  split; [intros fuel H; now rewrite it_drain_ok|].
  split; [exact (C14_serde_roundtrip T cmp l L S)|]. split; [reflexivity|].
  split; [intros fuel H; now rewrite it_drain_ok|]. split; [exact B|reflexivity].
Qed.
Print Assumptions C95_conversions.
Example C95_witness :
  it_run (it_new [3;5;8]) [ISizeHint; INext; ISizeHint; INext; INext; INext; ISizeHint; INext] =
    ([], [AHint 3 (Some 3); AItem (Some 3); AHint 2 (Some 2); AItem (Some 5); AItem (Some 8); AItem None; AHint 0 (Some 0); AItem None]) /\
  sorted Nat.compare [3;5;8] /\ keys_sorted Nat.compare ma.
Proof. split; [reflexivity|]. split; [now apply sortedb_ok|exact ma_ok]. Qed.

(** ** C96: map_values with effects and panics *)
(** running a closure over values in order: the results so far, the values not consumed, the environment,
    whether it came through *)
Fixpoint feed {X Y E} (f : clos E X Y) (l : list X) (e : E) : list Y * list X * E * bool :=
  match l with
  | [] => ([], [], e, true)
  | x :: l' =>
      match f e x with
      | (e1, Throw) => ([], l, e1, false)
      | (e1, Ret y) => let '(ys, r, e2, ok) := feed f l' e1 in (y :: ys, r, e2, ok)
      end
  end.

Theorem C96_map_values :
  forall (K V R E : Type) (f : clos E V R) (m : list (K * V)) (e : E),
    let '(ys, rest, e', ok) := feed f (map snd m) e in
    exists m' unused,
      vmap_map_values_eff f m e = (if ok then Done (m', unused, e') else Unwound (m', unused, e')) /\
      map snd m' = ys /\ map snd unused = rest /\
      map fst m' ++ map fst unused = map fst m /\
      (ok = true -> unused = [] /\ forall kcmp, keys_sorted kcmp m -> keys_sorted kcmp m').
Proof.
  intros K V R E f m. induction m as [|[k v] m IH]; intros e.
  - cbn. exists [], []. repeat split; auto.
  - cbn [map snd feed vmap_map_values_eff]. destruct (f e v) as [e1 [y|]].
    + specialize (IH e1). destruct (feed f (map snd m) e1) as [[[ys rest] e'] ok].
      destruct IH as (m' & un & -> & H1 & H2 & H3 & H4).
      exists ((k, y) :: m'), un. split; [now destruct ok|]. cbn [map fst snd app]. rewrite H1, H2.
      split; [reflexivity|]. split; [reflexivity|]. split; [now rewrite H3|].
      intros ->. destruct (H4 eq_refl) as [-> H5]. split; [reflexivity|].
      intros kcmp S. unfold keys_sorted in *. cbn [map fst] in *. rewrite app_nil_r in H3. now rewrite H3.
    + exists [], ((k, v) :: m). cbn. repeat split; auto; discriminate.
Qed.
Print Assumptions C96_map_values.

(** a closure without effects maps every value, the keys stay *)
Theorem C96_map_values_pure :
  forall (K V R E : Type) (kcmp : K -> K -> comparison) (g : V -> R) (m : list (K * V)) (e : E),
    OrdLaws kcmp -> keys_sorted kcmp m ->
    exists m', vmap_map_values_eff (pure_clos g) m e = Done (m', [], e) /\ keys_sorted kcmp m' /\
      m' = vmap_map_values g m /\ forall k, vmap_get kcmp m' k = option_map g (vmap_get kcmp m k).
Proof.
  intros K V R E kcmp g m e L S. exists (vmap_map_values g m).
  assert (Q : vmap_map_values_eff (pure_clos g) m e = Done (vmap_map_values g m, [], e)).
  { clear. induction m as [|[k v] m IH]; cbn; [reflexivity|]. now rewrite IH. }
  assert (S' : keys_sorted kcmp (vmap_map_values g m)).
  { unfold keys_sorted, vmap_map_values. rewrite map_map. exact S. }
  split; [assumption|]. split; [assumption|]. split; [reflexivity|].
  intros k. rewrite !(get_spec L) by assumption. clear. induction m as [|[k' v] m IH]; cbn; [reflexivity|].
  destruct (kcmp k k'); auto.
Qed.
Print Assumptions C96_map_values_pure.
Example C96_witness :
  vmap_map_values_eff (third_panics S) [(1,10);(2,20);(3,30);(4,40)] 0 =
    Unwound ([(1,11);(2,21)], [(3,30);(4,40)], 3) /\
  vmap_map_values_eff (log_clos S) ma [] = Done ([(1,11);(3,31);(4,41);(7,71)], [], [10;30;40;70]).
Proof. split; reflexivity. Qed.
