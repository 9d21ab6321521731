(** Property C92: the multimaps of examples/multimap.rs.
    Vocabulary (Spec.v): [keys_sorted], [sorted], [mem] (up to the order's Equal), [first_occ x l] ([x] is the
    first element of its class to arrive in [l]). *)
From Verif Require Import MultimapModel VecMapHist OracleModel OracleFacts PropMap PropSet PropOracle.

(** ** Specification *)
(** the values given for the key [k], in the order of their arrival *)
Definition values_of {K V} (kcmp : K -> K -> comparison) (k : K) (items : list (K * V)) : list V :=
  map snd (filter (fun p => eqb_of kcmp k (fst p)) items).
(** the pair ([k], [v]) was given, up to equality *)
Definition given {K V} (kcmp : K -> K -> comparison) (vcmp : V -> V -> comparison) (items : list (K * V)) (k : K) (v : V) : Prop :=
  exists p, In p items /\ kcmp k (fst p) = Eq /\ vcmp v (snd p) = Eq.
(** what a user of a multimap sees: [m.0.get(&k).map_or(false, |s| s.contains(&v))] *)
Definition mm_has {K V} (kcmp : K -> K -> comparison) (vcmp : V -> V -> comparison) (m : multimap K V) (k : K) (v : V) : bool :=
  match vmap_get kcmp m k with Some s => vset_contains vcmp s v | None => false end.
(** the invariant: keys in order, each with a non-empty valid set *)
Definition mm_ok {K V} (kcmp : K -> K -> comparison) (vcmp : V -> V -> comparison) (m : multimap K V) : Prop :=
  keys_sorted kcmp m /\ forall k s, In (k, s) m -> s <> [] /\ sorted vcmp s.

(** ** Proofs *)
Section Occ.
  Context {T : Type} {cmp : T -> T -> comparison} (L : OrdLaws cmp).
  Lemma first_occ_snoc x l y : first_occ cmp x (l ++ [y]) <-> first_occ cmp x l \/ (x = y /\ ~ mem cmp y l).
  Proof.
    split.
    - intros (l1 & l2 & Q & M). destruct l2 as [|z l2] using rev_ind.
      + apply app_inj_tail in Q as [<- <-]. auto.
      + left. clear IHl2. rewrite app_comm_cons, app_assoc in Q. apply app_inj_tail in Q as [-> _].
        exists l1, l2. auto.
    - intros [(l1 & l2 & -> & M)|[-> M]].
      + exists l1, (l2 ++ [y]). rewrite <- app_assoc. auto.
      + exists l, []. auto.
  Qed.
  Lemma first_occ_In x l : first_occ cmp x l -> In x l.
  Proof. intros (l1 & l2 & -> & _). apply in_or_app. right. now left. Qed.
  Lemma mem_first x l : mem cmp x l <-> exists y, first_occ cmp y l /\ cmp x y = Eq.
  Proof.
    split.
    - induction l as [|z l IH] using rev_ind; [intros (y & [] & _)|].
      intros (y & I & E). apply in_app_or in I.
      destruct (mem_dec (cmp := cmp) x l) as [M|M].
      + destruct (IH M) as (y' & F & E'). exists y'. split; [|assumption]. apply first_occ_snoc. auto.
      + destruct I as [I|[<-|[]]]; [destruct M; exists y; auto|].
        exists z. split; [|assumption]. apply first_occ_snoc. right. split; [reflexivity|].
        intros (u & Iu & Eu). apply M. exists u. split; [assumption|]. now rewrite (cmp_eq_l L _ _ u E).
    - intros (y & F & E). exists y. split; [now apply first_occ_In|assumption].
  Qed.
End Occ.

Section MM.
  Context {K V : Type} {kcmp : K -> K -> comparison} {vcmp : V -> V -> comparison}.
  Context (LK : OrdLaws kcmp) (LV : OrdLaws vcmp) (strat : nat -> nat -> bool).
  Lemma union_total (a b : list V) : exists r, vset_union vcmp strat a b = Ok r.
  Proof.
    set (c := fun (w : unit) (x y : V) => (w, Some (vcmp x y))).
    pose proof (C71_pure_operations V unit c strat a b tt) as (H & _). specialize (H Union).
    assert (E : fst (wset_pure c strat Union a b tt) = vset_union vcmp strat a b).
    { unfold wset_pure, wvs_merge, vset_union, vs_merge.
      change (wmerge c (bop_op Union (vs_msm CloneConverter CloneConverter)) strat (vs_new a b) tt)
        with (wmerge c (SetUnionOp vcmp (vs_msm CloneConverter CloneConverter)) strat (vs_new a b) tt).
      rewrite (wmerge_pure (W := unit)); [reflexivity|]. intros; reflexivity. }
    rewrite E in H. destruct H as [[_ H]|(r & _ & H & _)]; [|now exists r].
    destruct H. intros w x y. cbn. discriminate.
  Qed.
  Definition uni (x : list V * list V) : list V :=
    match vset_union vcmp strat (fst x) (snd x) with Ok r => r | _ => [] end.
  Lemma union_clos_total : total_clos (union_clos vcmp strat) (fun e _ => e) uni.
  Proof.
    intros e x. unfold union_clos, uni. destruct (union_total (fst x) (snd x)) as (r & ->). reflexivity.
  Qed.
  Lemma uni_In a b z : sorted vcmp a -> sorted vcmp b -> In z (uni (a, b)) <-> In z a \/ (In z b /\ ~ mem vcmp z a).
  Proof.
    intros Sa Sb. unfold uni. cbn [fst snd].
    destruct (C04_union_exact V vcmp strat a b LV Sa Sb) as (r & -> & _ & H). apply H.
  Qed.
  Lemma uni_sorted a b : sorted vcmp a -> sorted vcmp b -> sorted vcmp (uni (a, b)).
  Proof.
    intros Sa Sb. unfold uni. cbn [fst snd].
    destruct (C04_union_exact V vcmp strat a b LV Sa Sb) as (r & -> & S & _). assumption.
  Qed.
  Lemma fold_cu_id {E X} (l : list (ojarg K X X)) (e : E) : fold_left (cu (fun e _ => e)) l e = e.
  Proof. induction l as [|[]]; cbn; auto. Qed.
  Lemma combine_entry a b : keys_sorted kcmp a -> keys_sorted kcmp b ->
    exists r, mm_combine_with kcmp vcmp strat a b = Ok r /\ keys_sorted kcmp r /\
      forall k, entry kcmp k r = acombine uni (entry kcmp k a) (entry kcmp k b).
  Proof.
    intros Sa Sb. unfold mm_combine_with.
    rewrite (combine_total LK strat _ _ _ a b tt union_clos_total) by assumption.
    eexists. split; [reflexivity|]. split; [now apply (jref_sorted LK)|].
    intros k. rewrite (jref_entry LK) by assumption.
    destruct (entry kcmp k a) as [[? ?]|], (entry kcmp k b) as [[? ?]|]; reflexivity.
  Qed.
  Lemma single_is (k : K) (v : V) : mm_single kcmp k v = Ok [(k, [v])].
  Proof. reflexivity. Qed.
  Lemma single_sorted (p : K * list V) : keys_sorted kcmp [p].
  Proof. unfold keys_sorted. cbn [map]. apply sorted_cons; [apply sorted_nil|intros y []]. Qed.
  Lemma single_entry k (p : K * list V) : entry kcmp k [p] = if eqb_of kcmp k (fst p) then Some p else None.
  Proof. reflexivity. Qed.

  (** the invariant of the loop *)
  Definition holds (m : multimap K V) (items : list (K * V)) : Prop :=
    keys_sorted kcmp m /\
    forall k, match entry kcmp k m with
              | None => values_of kcmp k items = []
              | Some (k', s) => first_occ kcmp k' (map fst items) /\ sorted vcmp s /\
                                values_of kcmp k items <> [] /\
                                forall v, In v s <-> first_occ vcmp v (values_of kcmp k items)
              end.
  Lemma values_snoc k (items : list (K * V)) p :
    values_of kcmp k (items ++ [p]) = values_of kcmp k items ++ (if eqb_of kcmp k (fst p) then [snd p] else []).
  Proof.
    unfold values_of. rewrite filter_app, map_app. cbn. now destruct (eqb_of kcmp k (fst p)).
  Qed.
  Lemma values_nil k (items : list (K * V)) : values_of kcmp k items = [] <-> ~ mem kcmp k (map fst items).
  Proof.
    unfold values_of, mem. split.
    - intros Q (x & I & E). apply in_map_iff in I as (p & <- & I).
      assert (H : In p (filter (fun p => eqb_of kcmp k (fst p)) items)).
      { apply filter_In. split; [assumption|]. unfold eqb_of. now rewrite E. }
      apply (in_map snd) in H. rewrite Q in H. destruct H.
    - intros H. destruct (filter _ items) as [|p l] eqn:Q; [reflexivity|]. destruct H.
      assert (I : In p (filter (fun p => eqb_of kcmp k (fst p)) items)) by (rewrite Q; now left).
      apply filter_In in I as [I E]. exists (fst p). split; [now apply in_map|].
      unfold eqb_of in E. destruct (kcmp k (fst p)); congruence.
  Qed.
  Lemma holds_step m items k v : holds m items ->
    exists r, mm_combine_with kcmp vcmp strat m [(k, [v])] = Ok r /\ holds r (items ++ [(k, v)]).
  Proof.
    intros [S H]. destruct (combine_entry m [(k, [v])] S (single_sorted _)) as (r & -> & Sr & F).
    exists r. split; [reflexivity|]. split; [assumption|]. intros q. specialize (H q). rewrite F, single_entry.
    rewrite values_snoc, map_app. cbn [map fst snd].
    assert (V1 : sorted vcmp [v]) by (apply sorted_cons; [apply sorted_nil|intros y []]).
    destruct (entry kcmp q m) as [[k' s]|] eqn:Q; destruct (eqb_of kcmp q k) eqn:E; cbn [acombine].
    - destruct H as (H1 & H2 & H3 & H4). split; [apply first_occ_snoc; auto|].
      split; [now apply uni_sorted|]. split; [intros W; apply app_eq_nil in W as [_ W]; discriminate|].
      intros z. rewrite uni_In by assumption. rewrite first_occ_snoc, H4.
      assert (M : mem vcmp v s <-> mem vcmp v (values_of kcmp q items)).
      { rewrite (mem_first LV v (values_of _ _ _)). unfold mem. split; intros (y & I & W); exists y; (split; [|assumption]); now apply H4. }
      rewrite <- M. cbn [In]. split; intros [W|[W1 W2]]; auto.
      + destruct W1 as [<-|[]]. auto.
      + subst z. auto.
    - destruct H as (H1 & H2 & H3 & H4). rewrite app_nil_r. split; [apply first_occ_snoc; auto|]. auto.
    - rewrite H. split.
      + apply first_occ_snoc. right. split; [reflexivity|]. intros M. rewrite values_nil in H. apply H.
        destruct M as (y & I & W). exists y. split; [assumption|].
        unfold eqb_of in E. destruct (kcmp q k) eqn:W2; try discriminate. now rewrite (cmp_eq_l LK _ _ y W2).
      + split; [assumption|]. split; [discriminate|]. intros z. cbn [app In]. split.
        * intros [<-|[]]. exists [], []. split; [reflexivity|]. intros (y & [] & _).
        * intros W. apply first_occ_In in W. exact W.
    - now rewrite H.
  Qed.
  Lemma holds_loop : forall items m items0, holds m items0 ->
    exists r, mm_add_all kcmp vcmp strat m items = Ok r /\ holds r (items0 ++ items).
  Proof.
    induction items as [|[k v] items IH]; intros m items0 H.
    - exists m. rewrite app_nil_r. split; [reflexivity|assumption].
    - cbn [mm_add_all]. rewrite single_is. cbn [rbind].
      destruct (holds_step m items0 k v H) as (r & -> & H'). cbn [rbind].
      destruct (IH r _ H') as (r' & E & H2). exists r'. split; [assumption|].
      now rewrite <- app_assoc in H2.
  Qed.
  Lemma holds_nil : holds [] [].
  Proof. split; [apply sorted_nil|]. intros k. reflexivity. Qed.
  Lemma mem_values k v items : mem vcmp v (values_of kcmp k items) <-> given kcmp vcmp items k v.
  Proof.
    unfold mem, given, values_of. split.
    - intros (y & I & E). apply in_map_iff in I as (p & <- & I). apply filter_In in I as [I W].
      exists p. unfold eqb_of in W. destruct (kcmp k (fst p)); try discriminate. auto.
    - intros (p & I & E1 & E2). exists (snd p). split; [|assumption]. apply in_map, filter_In.
      split; [assumption|]. unfold eqb_of. now rewrite E1.
  Qed.
  Lemma get_entry k (m : multimap K V) : keys_sorted kcmp m -> vmap_get kcmp m k = option_map snd (entry kcmp k m).
  Proof. intros S. rewrite (get_spec LK) by assumption. apply lookup_entry. Qed.
  Lemma In_entry k s (m : multimap K V) : keys_sorted kcmp m -> In (k, s) m -> entry kcmp k m = Some (k, s).
  Proof. intros S I. apply (entry_sorted LK); auto. apply (cmp_refl LK). Qed.

  Lemma holds_facts m items : holds m items ->
    mm_ok kcmp vcmp m /\
    (forall k, In k (map fst m) <-> first_occ kcmp k (map fst items)) /\
    (forall k s, In (k, s) m -> forall v, In v s <-> first_occ vcmp v (values_of kcmp k items)) /\
    (forall k v, mm_has kcmp vcmp m k v = true <-> given kcmp vcmp items k v).
  Proof.
    intros [S H]. split; [|split; [|split]].
    - split; [assumption|]. intros k s I. specialize (H k). rewrite (In_entry _ _ _ S I) in H.
      destruct H as (_ & S1 & N & F). split; [|assumption]. intros ->.
      destruct (values_of kcmp k items) as [|v l] eqn:Q; [now apply N|].
      specialize (F v). apply F. exists [], l. split; [reflexivity|]. intros (y & [] & _).
    - intros k. split.
      + intros I. apply in_map_iff in I as ([k' s] & <- & I). specialize (H k'). rewrite (In_entry _ _ _ S I) in H.
        apply H.
      + intros F. specialize (H k). destruct (entry kcmp k m) as [[k' s]|] eqn:Q.
        * apply entry_Some_In in Q as [I E]. destruct H as (F' & _). cbn [fst] in E.
          assert (W : k = k').
          { destruct F as (a1 & a2 & Qa & Na), F' as (b1 & b2 & Qb & Nb).
            assert (W : forall a1 a2 b1 b2 x y, a1 ++ x :: a2 = b1 ++ y :: b2 -> kcmp x y = Eq ->
                      ~ mem kcmp x a1 -> ~ mem kcmp y b1 -> x = y).
            { clear - LK. induction a1 as [|u a1 IH]; intros a2 [|w b1] b2 x y Q E N1 N2; cbn in Q.
              - congruence.
              - injection Q as -> _. exfalso. apply N2. exists w. split; [now left|]. rewrite (ord_opp LK), E. reflexivity.
              - injection Q as -> _. exfalso. apply N1. exists y. split; [now left|assumption].
              - injection Q as -> Q. apply (IH a2 b1 b2); auto.
                + intros (z & I & Z). apply N1. exists z. split; [now right|assumption].
                + intros (z & I & Z). apply N2. exists z. split; [now right|assumption]. }
            apply (W a1 a2 b1 b2); auto. congruence. }
          subst. apply in_map_iff. exists (k', s). auto.
        * apply values_nil in H. destruct H. exists k. split; [now apply first_occ_In in F|apply (cmp_refl LK)].
    - intros k s I. specialize (H k). rewrite (In_entry _ _ _ S I) in H. apply H.
    - intros k v. unfold mm_has. rewrite get_entry by assumption. specialize (H k).
      rewrite <- mem_values. destruct (entry kcmp k m) as [[k' s]|]; cbn [option_map snd].
      + destruct H as (_ & S1 & _ & F). rewrite (contains_spec LV) by assumption.
        rewrite (mem_first LV v (values_of kcmp k items)). unfold mem. split; intros (y & I & W); exists y; (split; [|assumption]); now apply F.
      + rewrite H. split; [discriminate|]. intros (y & [] & _).
  Qed.
End MM.

Lemma bi_split {K V} (kcmp : K -> K -> comparison) (vcmp : V -> V -> comparison) strat (LK : OrdLaws kcmp) (LV : OrdLaws vcmp) :
  forall items x f0 b0, holds (kcmp := kcmp) (vcmp := vcmp) (fst x) f0 -> holds (kcmp := vcmp) (vcmp := kcmp) (snd x) b0 ->
  exists f b, bi_add_all kcmp vcmp strat x items = Ok (f, b) /\
    mm_add_all kcmp vcmp strat (fst x) items = Ok f /\
    mm_add_all vcmp kcmp strat (snd x) (map (fun p => (snd p, fst p)) items) = Ok b.
Proof.
  induction items as [|[k v] items IH]; intros x f0 b0 Hf Hb.
  - exists (fst x), (snd x). cbn. split; [now rewrite <- surjective_pairing|]. auto.
  - cbn [bi_add_all mm_add_all map fst snd]. unfold bi_single. rewrite !single_is. cbn [rbind].
    unfold bi_combine_with. cbn [fst snd].
    destruct (holds_step LK LV strat _ _ k v Hf) as (f' & -> & Hf').
    destruct (holds_step LV LK strat _ _ v k Hb) as (b' & -> & Hb'). cbn [rbind].
    exact (IH (f', b') _ _ Hf' Hb').
Qed.

(** ** C92: multimaps *)
(** Collecting pairs never panics; the result is in order, its keys are the given keys (the first of equal
    ones), every key has exactly the values given for it (the first of equal ones), in a valid set. *)
Theorem C92_multimap_collect :
  forall (K V : Type) (kcmp : K -> K -> comparison) (vcmp : V -> V -> comparison) (strat : nat -> nat -> bool)
    (items : list (K * V)),
    OrdLaws kcmp -> OrdLaws vcmp ->
    exists m, mm_from_iter kcmp vcmp strat items = Ok m /\ mm_ok kcmp vcmp m /\
      (forall k, In k (map fst m) <-> first_occ kcmp k (map fst items)) /\
      (forall k s, In (k, s) m -> forall v, In v s <-> first_occ vcmp v (values_of kcmp k items)) /\
      (forall k v, mm_has kcmp vcmp m k v = true <-> given kcmp vcmp items k v).
Proof.
  intros K V kcmp vcmp strat items LK LV.
  destruct (holds_loop LK LV strat items [] [] holds_nil) as (r & E & H).
  exists r. split; [exact E|]. now apply (holds_facts LK LV).
Qed.
Print Assumptions C92_multimap_collect.

(** combine_with is the union of the two relations *)
Theorem C92_multimap_combine :
  forall (K V : Type) (kcmp : K -> K -> comparison) (vcmp : V -> V -> comparison) (strat : nat -> nat -> bool)
    (a b : multimap K V),
    OrdLaws kcmp -> OrdLaws vcmp -> mm_ok kcmp vcmp a -> mm_ok kcmp vcmp b ->
    exists m, mm_combine_with kcmp vcmp strat a b = Ok m /\ mm_ok kcmp vcmp m /\
      forall k v, mm_has kcmp vcmp m k v = mm_has kcmp vcmp a k v || mm_has kcmp vcmp b k v.
Proof.
  intros K V kcmp vcmp strat a b LK LV [Sa Va] [Sb Vb].
  destruct (combine_entry (vcmp := vcmp) LK strat a b Sa Sb) as (m & E & S & F).
  assert (VE : forall c k k' s, (forall k s, In (k, s) c -> s <> [] /\ sorted vcmp s) ->
             entry kcmp k c = Some (k', s) -> s <> [] /\ sorted vcmp s).
  { intros c k k' s H Q. apply entry_Some_In in Q as [I _]. eapply H; eauto. }
  exists m. split; [assumption|]. split; [split; [assumption|]|].
  - intros k s I. pose proof (In_entry LK _ _ _ S I) as Q. rewrite F in Q.
    destruct (entry kcmp k a) as [[ka sa]|] eqn:Qa, (entry kcmp k b) as [[kb sb]|] eqn:Qb; cbn [acombine] in Q;
      try discriminate; injection Q as -> <-.
    + destruct (VE _ _ _ _ Va Qa) as [N1 S1]. destruct (VE _ _ _ _ Vb Qb) as [N2 S2].
      split; [|now apply (uni_sorted LV)]. intros W. destruct sa as [|x sa]; [now apply N1|].
      assert (I' : In x (uni (vcmp := vcmp) strat (x :: sa, sb))) by (apply (uni_In LV); auto; left; now left).
      rewrite W in I'. destruct I'.
    + exact (VE _ _ _ _ Va Qa).
    + exact (VE _ _ _ _ Vb Qb).
  - intros k v. unfold mm_has. rewrite !(get_entry LK), F by assumption.
    destruct (entry kcmp k a) as [[ka sa]|] eqn:Qa, (entry kcmp k b) as [[kb sb]|] eqn:Qb; cbn [acombine option_map snd].
    + destruct (VE _ _ _ _ Va Qa) as [N1 S1]. destruct (VE _ _ _ _ Vb Qb) as [N2 S2].
      apply eq_true_iff_eq. rewrite orb_true_iff, !(contains_spec LV) by (auto; now apply (uni_sorted LV)).
      unfold mem. split.
      * intros (y & I & W). apply (uni_In LV) in I; auto. destruct I as [I|[I _]]; eauto.
      * intros [(y & I & W)|(y & I & W)].
        -- exists y. split; [|assumption]. apply (uni_In LV); auto.
        -- destruct (mem_dec (cmp := vcmp) y sa) as [(z & Iz & Ez)|N].
           ++ exists z. split; [apply (uni_In LV); auto|]. now rewrite (cmp_eq_l LV _ _ z W).
           ++ exists y. split; [apply (uni_In LV); auto|assumption].
    + now rewrite orb_false_r.
    + reflexivity.
    + reflexivity.
Qed.
Print Assumptions C92_multimap_combine.

(** The two halves of a BiMultimap are the multimap of the pairs and of the swapped pairs: the same
    relation, seen from both sides. *)
Theorem C92_bimultimap_collect :
  forall (K V : Type) (kcmp : K -> K -> comparison) (vcmp : V -> V -> comparison) (strat : nat -> nat -> bool)
    (items : list (K * V)),
    OrdLaws kcmp -> OrdLaws vcmp ->
    exists f b, bi_from_iter kcmp vcmp strat items = Ok (f, b) /\
      mm_from_iter kcmp vcmp strat items = Ok f /\
      mm_from_iter vcmp kcmp strat (map (fun p => (snd p, fst p)) items) = Ok b /\
      (forall k v, mm_has kcmp vcmp f k v = true <-> given kcmp vcmp items k v) /\
      forall k v, mm_has kcmp vcmp f k v = mm_has vcmp kcmp b v k.
Proof.
  intros K V kcmp vcmp strat items LK LV.
  destruct (bi_split kcmp vcmp strat LK LV items ([], []) [] [] holds_nil holds_nil) as (f & b & E & Ef & Eb).
  exists f, b. split; [exact E|]. split; [exact Ef|]. split; [exact Eb|].
  destruct (C92_multimap_collect K V kcmp vcmp strat items LK LV) as (f' & Ef' & _ & _ & _ & Hf).
  destruct (C92_multimap_collect V K vcmp kcmp strat (map (fun p => (snd p, fst p)) items) LV LK) as (b' & Eb' & _ & _ & _ & Hb).
  unfold mm_from_iter in Ef', Eb'. cbn [fst snd] in Ef, Eb. unfold vmap_empty in Ef', Eb'.
  assert (f' = f) by congruence. assert (b' = b) by congruence. subst.
  split; [assumption|]. intros k v. apply eq_true_iff_eq. rewrite Hf, Hb. unfold given. split.
  - intros (p & I & E1 & E2). exists (snd p, fst p). split; [|auto].
    exact (in_map (fun p => (snd p, fst p)) _ _ I).
  - intros (p & I & E1 & E2). apply in_map_iff in I as (q & <- & I). cbn in E1, E2. eauto.
Qed.
Print Assumptions C92_bimultimap_collect.

(** pairs of [by_key] keys: equal, but distinguishable *)
Example C92_witness :
  let c := by_key (T := nat * nat) fst Nat.compare in
  OrdLaws c /\
  mm_from_iter c Nat.compare alt [((2,0),5);((1,0),7);((2,1),4);((2,2),5)] =
    Ok [((1,0),[7]);((2,0),[4;5])] /\
  mm_combine_with Nat.compare Nat.compare alt [(1,[3]);(2,[4])] [(2,[1;4]);(5,[6])] =
    Ok [(1,[3]);(2,[1;4]);(5,[6])] /\
  bi_from_iter Nat.compare Nat.compare alt [(0,0);(0,1);(1,0)] = Ok ([(0,[0;1]);(1,[0])], [(0,[0;1]);(1,[0])]).
Proof. split; [apply by_key_ord, nat_ord|]. repeat split; vm_compute; reflexivity. Qed.
