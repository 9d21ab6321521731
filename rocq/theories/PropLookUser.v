(** Theorems, part 44: lookups, single-element operations and relations with all user code open. *)
From Verif Require Import VecSetHist VecMapSpec VecMapFacts MergeFacts OracleModel OracleFacts CollectModel CollectFacts FollowFacts PropSet PropMap PropOracle PropFollow PropVecUser TotalUserFacts PropTotalUser.
From Verif Require Import LookUserModel LookUserSpec.

(** ** searches and merges with a comparison that answers like [g] whenever it returns *)
Section LikeSearch.
  Context {T W : Type} (guilty : W -> Prop) (g : T -> option comparison) (f : W -> T -> W * option comparison) (l : list T).
  Context (F : forall w x, match f w x with (_, Some q) => g x = Some q | (w', None) => guilty w' end).
  Definition like_search (r : bsres * W) (p : bsres) : Prop := fst r = p \/ (fst r = BsPanic /\ guilty (snd r)).
  Lemma wbs_loop_like : forall fuel lo hi w cnt, like_search (wbs_loop f l fuel lo hi w) (fst (bs_loop g l fuel lo hi cnt)).
  Proof using F.
    induction fuel as [|fuel IH]; intros lo hi w cnt; cbn [wbs_loop bs_loop]; [now left|].
    destruct (lo <? hi); [|now left]. destruct (nth_error l _) as [x|]; [|now left].
    pose proof (F w x) as Q. destruct (f w x) as [w' [q|]]; [|right; split; [reflexivity|exact Q]].
    rewrite Q. destruct q; try (now left); apply IH.
  Qed.
  Lemma wbsearch_like w : like_search (wbsearch f l w) (bsearch g l).
  Proof using F. apply wbs_loop_like. Qed.
End LikeSearch.

Section LikeMerge.
  Context {W S A B : Type} (guilty : W -> Prop) (O : mop S A B) (c : W -> A -> B -> W * option comparison).
  Context (C : forall w x y, match c w x y with (_, Some q) => mo_cmp O x y = Some q | (w', None) => guilty w' end).
  Definition like_merge (r : out S * W) (p : out S) : Prop := fst r = p \/ ((exists s, fst r = Panic s) /\ guilty (snd r)).
  Lemma like_same p w : like_merge (p, w) p.
  Proof using. now left. Qed.
  Lemma wbinary_merge_like : forall fuel s an bn w, like_merge (wbinary_merge c O fuel s an bn w) (binary_merge O fuel s an bn).
  Proof using C.
    induction fuel as [|fuel IH]; intros s an bn w; cbn [wbinary_merge binary_merge]; [apply like_same|].
    destruct (an =? 0); [destruct (bn =? 0); apply like_same|]. destruct (bn =? 0); [apply like_same|].
    destruct (nth_error (mo_a O s) (an / 2)) as [x|]; [|apply like_same].
    destruct (wbsearch_like guilty (fun y => option_map CompOpp (mo_cmp O x y))
      (fun w y => let (w', q) := c w x y in (w', option_map CompOpp q)) (firstn bn (mo_b O s))) with (w := w) as [Q|[Q G]].
    { intros w' y. pose proof (C w' x y) as H. destruct (c w' x y) as [w2 [q|]]; cbn [option_map]; [now rewrite H|exact H]. }
    2:{ right. destruct (wbsearch _ _ w) as [r w1]. cbn [fst snd] in Q, G. subst r. cbn [fst snd]. split; [now exists s|exact G]. }
    rewrite <- Q. clear Q. destruct (wbsearch _ _ w) as [[bm|bi| |] w1]; cbn [fst]; try apply like_same.
    - destruct (IH s (an / 2) bm w1) as [H|[[s' H] G]]; destruct (wbinary_merge c O fuel s _ _ w1) as [o w2]; cbn [fst snd] in *.
      + rewrite <- H. destruct o; try apply like_same; cbn [obind]. destruct (mo_coll O _); try apply like_same; cbn [obind]. apply IH.
      + subst o. right. split; [now exists s'|exact G].
    - destruct (IH s (an / 2) bi w1) as [H|[[s' H] G]]; destruct (wbinary_merge c O fuel s _ _ w1) as [o w2]; cbn [fst snd] in *.
      + rewrite <- H. destruct o; try apply like_same; cbn [obind]. destruct (mo_from_a O _ 1); try apply like_same; cbn [obind]. apply IH.
      + subst o. right. split; [now exists s'|exact G].
  Qed.
  Lemma wtape_merge_like : forall fuel s w, like_merge (wtape_merge c O fuel s w) (tape_merge O fuel s).
  Proof using C.
    induction fuel as [|fuel IH]; intros s w; cbn [wtape_merge tape_merge]; [apply like_same|].
    destruct (mo_a O s) as [|x a], (mo_b O s) as [|y b]; try apply like_same.
    pose proof (C w x y) as Q. destruct (c w x y) as [w' [q|]]; [|right; split; [now exists s|exact Q]].
    rewrite Q. destruct q.
    - destruct (mo_coll O s); try apply like_same; apply IH.
    - destruct (mo_from_a O s 1); try apply like_same; apply IH.
    - destruct (mo_from_b O s 1); try apply like_same; apply IH.
  Qed.
  Lemma wmerge_like strat s w : like_merge (wmerge c O strat s w) (merge O strat s).
  Proof using C. unfold wmerge, merge. destruct (strat _ _); [apply wtape_merge_like|apply wbinary_merge_like]. Qed.
End LikeMerge.

Section Asks.
  Context {T E : Type} {kcmp : T -> T -> comparison} (cmp : clos E (T * T) comparison) (AL : answers_like kcmp cmp).
  Lemma asks_like w x y : match asks cmp w x y with (_, Some q) => kcmp x y = q | (w', None) => threw cmp w' end.
  Proof using AL.
    unfold asks. destruct (cmp w (x, y)) as [w' [q|]] eqn:Q; [symmetry; eapply AL; exact Q|]. exists w, (x, y). exact Q.
  Qed.
  Lemma asks_CE : forall w x y q, snd (asks cmp w x y) = Some q -> q = kcmp x y.
  Proof using AL. intros w x y q. pose proof (asks_like w x y) as H. destruct (asks cmp w x y) as [w' [q'|]]; [|discriminate]. cbn. congruence. Qed.
  Lemma find_like (l : list T) x w : like_search (threw cmp) (wbsearch (fun w y => asks cmp w y x) l w) (bsearch (probe kcmp x) l).
  Proof using AL.
    apply wbsearch_like. intros w' y. pose proof (asks_like w' y x) as H. destruct (asks cmp w' y x) as [w2 [q|]]; [|exact H].
    unfold probe. now rewrite H.
  Qed.
  Lemma kfind_like {V} (l : list (T * V)) k w : like_search (threw cmp) (wbsearch (wkprobe (asks cmp) k) l w) (bsearch (kprobe kcmp k) l).
  Proof using AL.
    apply wbsearch_like. intros w' y. unfold wkprobe. pose proof (asks_like w' (fst y) k) as H.
    destruct (asks cmp w' (fst y) k) as [w2 [q|]]; [|exact H]. unfold kprobe. now rewrite H.
  Qed.
  Lemma bs_like strat (o : bop) (O : mop (bstate T T) T T) (a b : list T) w : match o with
      Union => SetUnionOp kcmp bs_msm | Inter => SetIntersectionOp kcmp bs_msm
    | Xor => SetXorOp kcmp bs_msm | Diff => SetDiffOpt kcmp bs_msm end = O ->
    fst (wbs_merge (asks cmp) strat (bop_op o bs_msm) a b w) = bs_merge strat O a b \/
    (fst (wbs_merge (asks cmp) strat (bop_op o bs_msm) a b w) = Panicked /\ threw cmp (snd (wbs_merge (asks cmp) strat (bop_op o bs_msm) a b w))).
  Proof using AL.
    intros <-. unfold wbs_merge, bs_merge.
    match goal with |- _ = to_res _ (merge ?O strat _) \/ _ =>
      assert (Q : like_merge (threw cmp) (wmerge (asks cmp) (bop_op o bs_msm) strat (bs_new a b) w) (merge O strat (bs_new a b))) end.
    { match goal with |- like_merge _ _ (merge ?O _ _) =>
        pose proof (wmerge_like (threw cmp) O (asks cmp)) as Q end.
      destruct o; (apply Q; intros w' x y; pose proof (asks_like w' x y) as H; destruct (asks cmp w' x y) as [w2 [q|]]; [|exact H];
        rewrite <- H; reflexivity). }
    destruct (wmerge (asks cmp) _ strat (bs_new a b) w) as [m w']. destruct Q as [Q|[[s Q] G]]; cbn [fst snd] in *; subst m.
    - now left.
    - right. now split.
  Qed.
End Asks.

(** ** C127 *)
Section C127Sets.
  Context {T E : Type} {kcmp : T -> T -> comparison} (L : OrdLaws kcmp) (cmp : clos E (T * T) comparison) (AL : answers_like kcmp cmp).
  Local Notation asc l := (StronglySorted (fun x y => kcmp x y = Lt) l).
  Local Notation "x 'elem' l" := (listed kcmp l x = true) (at level 70).
  Local Notation ask := (asks cmp).
  Local Notation or_panics := (answers_or (threw cmp)).

  Lemma elem_mem l x : listed kcmp l x = memb kcmp x l.
  Proof using. reflexivity. Qed.
  Lemma elem_iff l x : x elem l <-> mem kcmp x l.
  Proof using. rewrite elem_mem. apply memb_spec. Qed.

  Theorem C127_contains l x e : asc l -> or_panics (fun r => r = listed kcmp l x) (wset_contains ask l x e).
  Proof using L AL.
    intros S. unfold wset_contains. pose proof (contains_spec L l x S) as H. unfold vset_contains in H.
    destruct (find_like cmp AL l x e) as [Q|[Q G]]; destruct (wbsearch _ l e) as [r e']; cbn [fst snd] in *; subst r; [|exact G].
    rewrite <- memb_spec in H. rewrite elem_mem.
    destruct (search_cases L l x S) as [(l1 & y & l2 & _ & _ & B & _)|(l1 & l2 & _ & _ & B & _)]; rewrite B in *; cbn [answers_or].
    - symmetry. now apply H.
    - destruct (memb kcmp x l); [|reflexivity]. now rewrite (proj2 H eq_refl).
  Qed.

  Theorem C127_relations (strat : nat -> nat -> bool) a b e : asc a -> asc b ->
    or_panics (fun r => r = true <-> forall x, ~ (x elem a /\ x elem b)) (wset_is_disjoint ask strat a b e) /\
    or_panics (fun r => r = true <-> forall x, x elem a -> x elem b) (wset_is_subset ask strat a b e) /\
    or_panics (fun r => r = true <-> forall x, x elem b -> x elem a) (wset_is_superset ask strat a b e).
  Proof using L AL.
    intros Sa Sb.
    destruct (C09_predicates_decide T kcmp strat a b L Sa Sb) as ((r1 & E1 & H1) & (r2 & E2 & H2) & (r3 & E3 & H3)).
    unfold vset_is_disjoint in E1. unfold vset_is_superset, vset_is_subset in *.
    unfold wset_is_disjoint, wset_is_superset, wset_is_subset.
    split; [|split].
    - destruct (bs_like cmp AL strat Inter _ a b e eq_refl) as [Q|[Q G]]; destruct (wbs_merge _ strat _ a b e) as [r e']; cbn [fst snd] in *; subst r; [|exact G].
      rewrite E1. cbn [answers_or]. rewrite H1. split; intros H x; specialize (H x); now rewrite !elem_iff in *.
    - destruct (bs_like cmp AL strat Diff _ a b e eq_refl) as [Q|[Q G]]; destruct (wbs_merge _ strat _ a b e) as [r e']; cbn [fst snd] in *; subst r; [|exact G].
      rewrite E2. cbn [answers_or]. rewrite H2. split; intros H x; specialize (H x); now rewrite !elem_iff in *.
    - destruct (bs_like cmp AL strat Diff _ b a e eq_refl) as [Q|[Q G]]; destruct (wbs_merge _ strat _ b a e) as [r e']; cbn [fst snd] in *; subst r; [|exact G].
      rewrite E3. cbn [answers_or]. rewrite H3. split; intros H x; specialize (H x); now rewrite !elem_iff in *.
  Qed.

  Local Notation or_unchanged l := (changes_or (threw cmp) fst l).
  Theorem C127_insert l x e : asc l ->
    or_unchanged l (fun p => let (l', r) := p in asc l' /\ r = negb (listed kcmp l x) /\ forall z, In z l' <-> z = x \/ (In z l /\ kcmp x z <> Eq))
      (wset_insert ask l x e).
  Proof using L AL.
    intros S. destruct (insert_spec L l x S) as (l' & H & S' & I). unfold vset_insert in H. unfold wset_insert.
    destruct (find_like cmp AL l x e) as [Q|[Q G]]; destruct (wbsearch _ l e) as [r e']; cbn [fst snd] in *; subst r; [|now split].
    destruct (bsearch (probe kcmp x) l); try discriminate H; injection H as <- Hr; cbn [changes_or]; rewrite elem_mem; auto.
  Qed.
  Theorem C127_remove l x e : asc l ->
    or_unchanged l (fun p => let (l', r) := p in asc l' /\ r = listed kcmp l x /\ forall z, In z l' <-> In z l /\ kcmp x z <> Eq)
      (wset_remove ask l x e).
  Proof using L AL.
    intros S. destruct (remove_spec L l x S) as (l' & H & S' & I). unfold vset_remove in H. unfold wset_remove.
    destruct (find_like cmp AL l x e) as [Q|[Q G]]; destruct (wbsearch _ l e) as [r e']; cbn [fst snd] in *; subst r; [|now split].
    destruct (bsearch (probe kcmp x) l); try discriminate H; injection H as <- Hr; cbn [changes_or]; rewrite elem_mem; auto.
  Qed.
End C127Sets.

Section C127Total.
  Context {T E : Type} {kcmp : T -> T -> comparison} (L : OrdLaws kcmp) (cmp : clos E (T * T) comparison) (AL : answers_like kcmp cmp).
  Context (clone : clos E T T) (CE : clones_equal kcmp clone).
  Local Notation asc := (ascending kcmp).
  Local Notation is_in := (member kcmp).
  (** inserting and removing *)
  Theorem C127_total_set s x e : asc s ->
    answers_or (threw cmp) (fun r => r = is_in s x) (utset_contains cmp s x e) /\
    changes_or (threw cmp) (fun s => s) s
      (fun s' => asc s' /\ forall z, is_in s' z = match kcmp z x with Eq => true | _ => is_in s z end) (utset_insert cmp s x e) /\
    changes_or (fun e => threw cmp e \/ threw clone e) (fun s => s) s
      (fun s' => asc s' /\ forall z, is_in s' z = match kcmp z x with Eq => false | _ => is_in s z end) (utset_remove cmp clone s x e).
  Proof using L AL CE.
    intros S.
    assert (I : forall x' e', kcmp x' x = Eq -> changes_or (threw cmp) fst (ts_elements s)
      (fun p => asc (TSet (fst p) (ts_negated s)) /\ forall z, listed kcmp (fst p) z = match kcmp z x with Eq => true | _ => listed kcmp (ts_elements s) z end)
      (wset_insert (asks cmp) (ts_elements s) x' e')).
    { intros x' e' Q. pose proof (C127_insert L cmp AL (ts_elements s) x' e' S) as H.
      destruct (wset_insert (asks cmp) _ x' e') as [[[l r]|[l r]|] e2]; cbn [changes_or fst] in *; auto.
      destruct H as (H1 & _ & H2). split; [exact H1|]. intros z. apply eq_true_iff_eq. rewrite (elem_iff l z).
      assert (A : mem kcmp z l <-> kcmp z x = Eq \/ (kcmp z x <> Eq /\ mem kcmp z (ts_elements s))).
      { unfold mem. split.
        - intros (y & Hy & Ey). apply H2 in Hy as [->|[Hy N]].
          + left. now rewrite <- (cmp_eq_r L _ _ z Q).
          + right. split; [|eauto]. intros R. apply N. rewrite (cmp_eq_l L _ _ y Q), <- (cmp_eq_l L _ _ y R). exact Ey.
        - intros [R|[N (y & Hy & Ey)]].
          + exists x'. split; [apply H2; now left|]. now rewrite (cmp_eq_r L _ _ z Q).
          + exists y. split; [|exact Ey]. apply H2. right. split; [exact Hy|]. intros R. apply N.
            rewrite (cmp_eq_l L _ _ x Ey). apply (cmp_sym L). rewrite <- (cmp_eq_l L _ _ y Q). exact R. }
      rewrite A. pose proof (elem_iff (kcmp := kcmp) (ts_elements s) z) as B.
      destruct (kcmp z x); split; intros H; try tauto; try (destruct H as [H|[_ H]]; [discriminate|tauto]); right; split; try discriminate; tauto. }
    assert (R : forall e', changes_or (threw cmp) fst (ts_elements s)
      (fun p => asc (TSet (fst p) (ts_negated s)) /\ forall z, listed kcmp (fst p) z = match kcmp z x with Eq => false | _ => listed kcmp (ts_elements s) z end)
      (wset_remove (asks cmp) (ts_elements s) x e')).
    { intros e'. pose proof (C127_remove L cmp AL (ts_elements s) x e' S) as H.
      destruct (wset_remove (asks cmp) _ x e') as [[[l r]|[l r]|] e2]; cbn [changes_or fst] in *; auto.
      destruct H as (H1 & _ & H2). split; [exact H1|]. intros z. apply eq_true_iff_eq. rewrite (elem_iff l z).
      assert (A : mem kcmp z l <-> kcmp z x <> Eq /\ mem kcmp z (ts_elements s)).
      { unfold mem. split.
        - intros (y & Hy & Ey). apply H2 in Hy as [Hy N]. split; [|eauto]. intros Q. apply N.
          apply (cmp_sym L). rewrite <- (cmp_eq_l L _ _ x Ey). exact Q.
        - intros [N (y & Hy & Ey)]. exists y. split; [|exact Ey]. apply H2. split; [exact Hy|]. intros Q. apply N.
          rewrite (cmp_eq_l L _ _ x Ey). now apply (cmp_sym L). }
      rewrite A. pose proof (elem_iff (kcmp := kcmp) (ts_elements s) z) as B.
      destruct (kcmp z x); split; intros H; try tauto; try discriminate; split; try discriminate; tauto. }
    assert (W : forall (G : E -> Prop) (b : bool) o, changes_or (threw cmp) fst (ts_elements s)
        (fun p => asc (TSet (fst p) (ts_negated s)) /\ forall z, listed kcmp (fst p) z = match kcmp z x with Eq => xorb b (ts_negated s) | _ => listed kcmp (ts_elements s) z end) o ->
      (forall e, threw cmp e -> G e) ->
      changes_or G (fun s => s) s (fun s' => asc s' /\ forall z, is_in s' z = match kcmp z x with Eq => b | _ => is_in s z end) (with_elements s o)).
    { intros G b [[[l r]|[l r]|] e'] H HG; cbn [with_elements changes_or fst] in *; [| |exact H].
      - destruct H as [H1 H2]. split; [exact H1|]. intros z. unfold member. cbn [ts_negated ts_elements]. rewrite H2.
        destruct (kcmp z x), (ts_negated s), b; reflexivity.
      - destruct H as [-> H]. split; [now destruct s|]. now apply HG. }
    split; [|split].
    - unfold utset_contains. pose proof (C127_contains L cmp AL (ts_elements s) x e S) as H.
      destruct (wset_contains (asks cmp) _ x e) as [[r| |] e']; cbn [answers_or rmap] in *; auto. subst r. unfold member.
      destruct (ts_negated s), (listed kcmp (ts_elements s) x); reflexivity.
    - unfold utset_insert. destruct (ts_negated s) eqn:N.
      + apply W; [|auto]. exact (R e).
      + apply W; [|auto]. exact (I x e (cmp_refl L x)).
    - unfold utset_remove. destruct (ts_negated s) eqn:N.
      + destruct (clone e x) as [e1 [x'|]] eqn:Q.
        * apply W; [|auto]. apply I. apply CE. now exists e, e1.
        * cbn [changes_or]. split; [reflexivity|]. right. exists e, x. exact Q.
      + apply W; [|auto]. exact (R e).
  Qed.
  (** relations *)
  Theorem C127_total_relations (strat : nat -> nat -> bool) a b e : asc a -> asc b ->
    answers_or (threw cmp) (fun r => (r = true -> forall x, is_in a x = true -> is_in b x = true) /\
      (inexhaustible kcmp -> (forall x, is_in a x = true -> is_in b x = true) -> r = true)) (utset_is_subset cmp strat a b e) /\
    answers_or (threw cmp) (fun r => (r = true -> forall x, is_in a x && is_in b x = false) /\
      (inexhaustible kcmp -> (forall x, is_in a x && is_in b x = false) -> r = true)) (utset_is_disjoint cmp strat a b e).
  Proof using L AL.
    intros Sa Sb. destruct (C127_relations L cmp AL strat _ _ e Sa Sb) as (D & B & P).
    assert (App : forall l1 l2 x, listed kcmp (l1 ++ l2) x = listed kcmp l1 x || listed kcmp l2 x).
    { intros. apply existsb_app. }
    unfold utset_is_subset, utset_is_disjoint, member.
    destruct (ts_negated a) eqn:Na, (ts_negated b) eqn:Nb; split;
      try match goal with H : answers_or _ _ ?o |- answers_or _ _ ?o =>
        let r := fresh "r" in destruct o as [[r| |] ?]; cbn [answers_or] in *; auto; rewrite H; split; [intros Q x; specialize (Q x)|intros _ Q x; specialize (Q x)];
        destruct (listed kcmp (ts_elements a) x), (listed kcmp (ts_elements b) x); cbn in *; tauto || intuition congruence end.
    - split; [discriminate|]. intros I H. destruct (I (ts_elements a ++ ts_elements b)) as [x Hx]. rewrite App in Hx.
      apply orb_false_iff in Hx as [H1 H2]. specialize (H x). now rewrite H1, H2 in H.
    - split; [discriminate|]. intros I H. destruct (I (ts_elements a ++ ts_elements b)) as [x Hx]. rewrite App in Hx.
      apply orb_false_iff in Hx as [H1 H2]. specialize (H x). rewrite H1, H2 in H. now specialize (H eq_refl).
  Qed.
End C127Total.

Section C127Maps.
  Context {K V E : Type} {kcmp : K -> K -> comparison} (L : OrdLaws kcmp) (cmp : clos E (K * K) comparison) (AL : answers_like kcmp cmp).
  Local Notation ask := (asks cmp).
  Local Notation entry_of m k := (kfind kcmp fst k m).
  Local Notation or_panics := (answers_or (threw cmp)).
  Local Notation asc m := (ksorted (cmp := kcmp) fst m).

  Lemma get_kfind (m : list (K * V)) k : vmap_get kcmp m k = lookup kcmp k m -> vmap_get kcmp m k = option_map snd (entry_of m k).
  Proof using. intros ->. rewrite lookup_entry. reflexivity. Qed.
  Theorem C127_map_get (m : list (K * V)) k e : asc m -> or_panics (fun r => r = option_map snd (entry_of m k)) (wmap_get ask m k e).
  Proof using L AL.
    intros S. pose proof (get_kfind m k (get_spec L m k S)) as H.
    unfold vmap_get in H. unfold wmap_get.
    destruct (kfind_like cmp AL m k e) as [Q|[Q G]]; destruct (wbsearch _ m e) as [r e']; cbn [fst snd] in *; subst r; [|exact G].
    destruct (msearch_cases L m k S) as [(l1 & p & l2 & EQ & _ & B & _)|(l1 & l2 & _ & _ & B & _)]; rewrite B in *; cbn [answers_or].
    - destruct (nth_error m (length l1)) as [[k0 v0]|] eqn:N; [exact H|]. subst m. rewrite nth_error_app2, Nat.sub_diag in N by lia. discriminate.
    - exact H.
  Qed.
  Theorem C127_map_get_mut (m : list (K * V)) k (g : V -> V) e : asc m ->
    changes_or (threw cmp) fst m (fun p => let (m', r) := p in asc m' /\
      r = (match entry_of m k with Some _ => true | None => false end) /\
      forall k', entry_of m' k' = match kcmp k' k with Eq => option_map (fun p => (fst p, g (snd p))) (entry_of m k) | _ => entry_of m k' end)
      (wmap_get_mut ask m k g e).
  Proof using L AL.
    intros S. destruct (get_mut_spec L m k g S) as (m' & H & S' & I). unfold vmap_get_mut in H. unfold wmap_get_mut.
    destruct (kfind_like cmp AL m k e) as [Q|[Q G]]; destruct (wbsearch _ m e) as [r e']; cbn [fst snd] in *; subst r; [|now split].
    assert (Z : asc m' /\ (match entry_of m k with Some _ => true | None => false end) = (match entry_of m k with Some _ => true | None => false end) /\
      forall k', entry_of m' k' = match kcmp k' k with Eq => option_map (fun p => (fst p, g (snd p))) (entry_of m k) | _ => entry_of m k' end).
    { split; [exact S'|]. split; [reflexivity|]. intros k'. specialize (I k'). unfold eqb_of at 1 in I. unfold kfind. unfold entry in I. rewrite I. now destruct (kcmp k' k). }
    destruct (msearch_cases L m k S) as [(l1 & p & l2 & EQ & _ & B & _)|(l1 & l2 & _ & _ & B & _)]; rewrite B in *; cbn [changes_or].
    - destruct (nth_error m (length l1)) as [[k0 v0]|] eqn:N.
      + injection H as Hm Hr. change (entry kcmp k m) with (entry_of m k) in Hr. rewrite <- Hm in Z. destruct Z as (Z1 & _ & Z3). split; [exact Z1|]. split; [first [exact Hr|exact (eq_sym Hr)]|exact Z3].
      + subst m. rewrite nth_error_app2, Nat.sub_diag in N by lia. discriminate.
    - injection H as Hm Hr. change (entry kcmp k m) with (entry_of m k) in Hr. rewrite <- Hm in Z. destruct Z as (Z1 & _ & Z3). split; [exact Z1|]. split; [first [exact Hr|exact (eq_sym Hr)]|exact Z3].
  Qed.
  Theorem C127_map_insert (m : list (K * V)) k v e : asc m ->
    changes_or (threw cmp) fst m (fun p => let (m', r) := p in asc m' /\ r = option_map snd (entry_of m k) /\
      forall k', entry_of m' k' = match kcmp k' k with Eq => Some (k, v) | _ => entry_of m k' end)
      (wmap_insert ask m k v e).
  Proof using L AL.
    intros S. destruct (minsert_spec L m k v S) as (m' & H & S' & I). unfold vmap_insert in H. unfold wmap_insert.
    destruct (kfind_like cmp AL m k e) as [Q|[Q G]]; destruct (wbsearch _ m e) as [r e']; cbn [fst snd] in *; subst r; [|now split].
    rewrite lookup_entry in H. change (entry kcmp k m) with (entry_of m k) in H.
    assert (Z : asc m' /\ option_map snd (entry_of m k) = option_map snd (entry_of m k) /\
      forall k', entry_of m' k' = match kcmp k' k with Eq => Some (k, v) | _ => entry_of m k' end).
    { split; [exact S'|]. split; [reflexivity|]. intros k'. specialize (I k'). unfold eqb_of at 1 in I. unfold kfind. unfold entry in I. rewrite I. now destruct (kcmp k' k). }
    destruct (bsearch (kprobe kcmp k) m) as [i|i| |]; try discriminate H; cbn [changes_or].
    - destruct (nth_error m i) as [[k0 v0]|]; [|discriminate H]. injection H as Hm Hr. rewrite <- Hm in Z. destruct Z as (Z1 & _ & Z3). split; [exact Z1|]. split; [first [exact Hr|exact (eq_sym Hr)]|exact Z3].
    - injection H as Hm Hr. rewrite <- Hm in Z. destruct Z as (Z1 & _ & Z3). split; [exact Z1|]. split; [first [exact Hr|exact (eq_sym Hr)]|exact Z3].
  Qed.
  Theorem C127_total_map_index (m : tmap K V) k e : asc (tm_map m) -> or_panics (fun r => r = value_at kcmp m k) (utmap_index cmp m k e).
  Proof using L AL.
    intros S. unfold utmap_index. pose proof (C127_map_get (tm_map m) k e S) as H.
    destruct (wmap_get ask (tm_map m) k e) as [[r| |] e']; cbn [answers_or rmap] in *; auto. subst r. unfold value_at.
    now destruct (entry_of (tm_map m) k) as [[k0 v0]|].
  Qed.
End C127Maps.

Section C127Collect.
  Context {T E : Type} {kcmp : T -> T -> comparison} (L : OrdLaws kcmp) (cmp : clos E (T * T) comparison) (AL : answers_like kcmp cmp).
  Local Notation asc l := (ksorted (cmp := kcmp) element l).
  Theorem C127_collect (srt : list T -> E -> (list T * bool) * E) (items : list T) e : sorts kcmp srt ->
    match fst (wsort_dedup_by (asks cmp) srt items KeepFirst e) with
    | Done (r, _, rest) => asc r /\ (forall z, In z r <-> first_occ kcmp z items) /\ rest = []
    | Unwound _ => True
    | DoneNoFuel => False
    end.
  Proof using L AL.
    intros SS. destruct (from_iter_spec L items) as (o & H & D). unfold vset_from_iter in H.
    pose proof (wsort_dedup_erase kcmp (asks cmp) (asks_CE cmp AL) srt SS items KeepFirst e o H) as G.
    destruct (fst (wsort_dedup_by (asks cmp) srt items KeepFirst e)) as [[[r d] rest]|[[r d] rest]|]; auto.
    destruct G as [-> ->]. split; [|split; [|reflexivity]].
    - unfold ksorted, element. rewrite map_id. exact (proj1 D).
    - intros z. exact (is_dedup_In L KeepFirst items o z D).
  Qed.
  Theorem C127_extend (srt : list T -> E -> (list T * bool) * E) (strat : nat -> nat -> bool) (self items : list T) e :
    sorts kcmp srt -> asc self ->
    match uset_extend cmp srt strat self items e with
    | Done (r, _) => asc r /\ forall z, In z r <-> In z self \/ (first_occ kcmp z items /\ listed kcmp self z = false)
    | Unwound (r, _) => asc r /\ forall z, In z r -> In z self \/ first_occ kcmp z items
    | DoneNoFuel => False
    end.
  Proof using L AL.
    intros SS S. pose proof (C127_collect srt items e SS) as H. unfold uset_extend.
    destruct (wsort_dedup_by (asks cmp) srt items KeepFirst e) as [[[[o d] rest]|[[o d] rest]|] e']; cbn [fst] in H; [| |exact H].
    2:{ split; [exact S|]. intros z Hz. now left. }
    destruct H as (So & I & _). destruct (C124_set_moving L cmp AL strat self o e' S So) as (M & _).
    assert (In_k : forall l z, asc l -> (In z l <-> kfind kcmp element z l = Some z)).
    { intros l z Sl. rewrite (kfind_iff L element) by exact Sl. split; [intros H; split; [exact H|apply (cmp_refl L)]|tauto]. }
    assert (Li : forall l z, listed kcmp l z = false <-> kfind kcmp element z l = None).
    { intros l z. rewrite kfind_None. rewrite elem_mem, memb_false. unfold mem, element. split.
      - intros H y Hy Q. apply H. now exists y.
      - intros H (y & Hy & Q). exact (H y Hy Q). }
    destruct (uset_or_assign cmp strat self o e') as [[r e2]|[r e2]|]; cbn [merges_keys] in M; [| |exact M].
    - destruct M as [Sr M]. split; [exact Sr|]. intros z. rewrite (In_k r z Sr), (In_k self z S), Li, <- I, (In_k o z So). specialize (M z).
      destruct (kfind kcmp element z self) as [x|], (kfind kcmp element z o) as [y|]; cbn [point] in M.
      + destruct M as (? & <- & ->). intuition congruence.
      + destruct M as (? & <- & ->). intuition congruence.
      + destruct M as (? & <- & ->). intuition congruence.
      + rewrite M. intuition congruence.
    - destruct M as (a1 & a' & b1 & b' & -> & -> & _ & _ & Sr & M). split; [exact Sr|]. intros z Hz.
      specialize (M z). apply (In_k r z Sr) in Hz. rewrite Hz in M. rewrite <- I, !in_app_iff.
      destruct (kfind kcmp element z a1) as [x|] eqn:Q1, (kfind kcmp element z b1) as [y|] eqn:Q2; cbn [point] in M;
        try (destruct M as (? & <- & [= <-])); try discriminate M.
      + apply (kfind_Some element) in Q1. tauto.
      + apply (kfind_Some element) in Q1. tauto.
      + apply (kfind_Some element) in Q2. tauto.
  Qed.
End C127Collect.

Section C127MapCollect.
  Context {K V E : Type} {kcmp : K -> K -> comparison} (L : OrdLaws kcmp) (cmp : clos E (K * K) comparison) (AL : answers_like kcmp cmp).
  Local Notation asc m := (ksorted (cmp := kcmp) fst m).
  Local Notation value_in m k := (option_map snd (kfind kcmp fst k m)).
  (** collecting: for each key the last item *)
  Theorem C127_map_collect (srt : list (K * V) -> E -> (list (K * V) * bool) * E) (items : list (K * V)) e :
    sorts (fun x y => kcmp (fst x) (fst y)) srt ->
    match fst (wmap_from_iter (asks cmp) srt items e) with
    | Done (r, _, rest) => asc r /\ (forall k, value_in r k = lookup_last kcmp k items) /\
        (forall p, In p r <-> last_occ (by_key fst kcmp) p items) /\ rest = []
    | Unwound _ => True
    | DoneNoFuel => False
    end.
  Proof using L AL.
    intros SS. destruct (C23_collect_last_wins K V kcmp items L) as (o & H & So & G & P).
    unfold vmap_from_iter, sort_dedup_by_key in H. unfold wmap_from_iter.
    assert (WE : forall w (x y : K * V) q, snd (wkv (asks cmp) w x y) = Some q -> q = kcmp (fst x) (fst y)).
    { intros w x y q. unfold wkv. apply asks_CE. exact AL. }
    pose proof (wsort_dedup_erase (fun x y => kcmp (fst x) (fst y)) (wkv (asks cmp)) WE srt SS items KeepLast e o H) as Q.
    destruct (fst (wsort_dedup_by (wkv (asks cmp)) srt items KeepLast e)) as [[[r d] rest]|[[r d] rest]|]; auto.
    destruct Q as [-> ->]. split; [exact So|]. split; [|now split].
    intros k. rewrite <- G. symmetry. apply get_kfind. now apply (get_spec L).
  Qed.
  (** extending: later items win over earlier items, and items over what was there *)
  Theorem C127_map_extend (srt : list (K * V) -> E -> (list (K * V) * bool) * E) (strat : nat -> nat -> bool) (m items : list (K * V)) e :
    sorts (fun x y => kcmp (fst x) (fst y)) srt -> asc m ->
    match umap_extend cmp srt strat m items e with
    | Done (r, _) => asc r /\ forall k, value_in r k = match lookup_last kcmp k items with Some v => Some v | None => value_in m k end
    | Unwound (r, _) => asc r /\ forall p, In p r ->
        (exists q, In q m /\ fst q = fst p) \/ (exists q, In q items /\ fst q = fst p)
    | DoneNoFuel => False
    end.
  Proof using L AL.
    intros SS S. pose proof (C127_map_collect srt items e SS) as H. unfold umap_extend.
    destruct (wmap_from_iter (asks cmp) srt items e) as [[[[o d] rest]|[[o d] rest]|] e']; cbn [fst] in H; [| |exact H].
    2:{ split; [exact S|]. intros p Hp. left. now exists p. }
    destruct H as (So & G & P & _).
    pose proof (C124_map_combine_with L cmp AL strat (pure_clos snd) m o e' S So) as M.
    destruct (umap_combine_with cmp strat (pure_clos snd) m o e') as [[r e2]|[r e2]|]; cbn [merges_keys] in M; [| |exact M].
    - destruct M as [Sr M]. split; [exact Sr|]. intros k. rewrite <- G. specialize (M k).
      destruct (kfind kcmp fst k m) as [x|], (kfind kcmp fst k o) as [y|]; cbn [point] in M.
      + destruct M as (e0 & e1 & v & F & ->). cbv [pure_clos] in F. injection F as _ <-. reflexivity.
      + destruct M as (? & <- & ->). reflexivity.
      + destruct M as (? & <- & ->). reflexivity.
      + now rewrite M.
    - destruct M as (a1 & a' & b1 & b' & -> & -> & _ & _ & Sr & M). split; [exact Sr|]. intros p Hp.
      assert (F : kfind kcmp fst (fst p) r = Some p) by (apply (kfind_iff L fst); [exact Sr|]; split; [exact Hp|apply (cmp_refl L)]).
      specialize (M (fst p)). rewrite F in M.
      assert (I : forall q, In q b1 -> In q items).
      { intros q Hq. assert (H : In q (b1 ++ b')) by (apply in_or_app; now left). apply P in H as (l1 & l2 & -> & _). apply in_or_app. right. now left. }
      destruct (kfind kcmp fst (fst p) a1) as [x|] eqn:Q1, (kfind kcmp fst (fst p) b1) as [y|] eqn:Q2; cbn [point] in M.
      + destruct M as (e0 & e1 & v & _ & [= ->]). left. exists x. apply (kfind_Some fst) in Q1. split; [apply in_or_app; tauto|reflexivity].
      + destruct M as (? & <- & [= <-]). left. exists p. apply (kfind_Some fst) in Q1. split; [apply in_or_app; tauto|reflexivity].
      + destruct M as (? & <- & [= <-]). right. exists p. apply (kfind_Some fst) in Q2. split; [apply I; tauto|reflexivity].
      + discriminate M.
  Qed.
End C127MapCollect.

(** ** Witnesses: a comparison and a clone that get tired *)
Example plain_sort_sorts : sorts Nat.compare (@plain_sort nat nat Nat.compare).
Proof. intros l e _. reflexivity. Qed.
Example nat_inexhaustible : inexhaustible Nat.compare.
Proof.
  intros l. exists (S (list_max l)). apply not_true_is_false. intros H. unfold listed in H. apply existsb_exists in H as (y & Hy & Q).
  destruct (Nat.compare _ y) eqn:R; try discriminate. apply Nat.compare_eq in R.
  pose proof (proj1 (list_max_le l (list_max l)) (le_n _)) as B. rewrite Forall_forall in B. specialize (B y Hy). lia.
Qed.
Example C127_set_witness :
  wset_contains (asks weary_cmp) [1; 3; 5; 7] 5 9 = (Ok true, 8) /\ wset_contains (asks weary_cmp) [1; 3; 5; 7] 4 9 = (Ok false, 7) /\
  wset_contains (asks weary_cmp) [1; 3; 5; 7] 4 1 = (Panicked, 0) /\
  wset_insert (asks weary_cmp) [1; 3; 5; 7] 4 9 = (Done ([1; 3; 4; 5; 7], true), 7) /\
  wset_insert (asks weary_cmp) [1; 3; 5; 7] 4 1 = (Unwound ([1; 3; 5; 7], false), 0) /\
  wset_remove (asks weary_cmp) [1; 3; 5; 7] 3 9 = (Done ([1; 5; 7], true), 7) /\
  wset_is_subset (asks weary_cmp) (fun _ _ => true) [3; 7] [1; 3; 5; 7] 9 = (Ok true, 5) /\
  wset_is_disjoint (asks weary_cmp) (fun _ _ => false) [3; 7] [1; 4; 5] 9 = (Ok true, 5) /\
  fst (wset_is_disjoint (asks weary_cmp) (fun _ _ => false) [3; 7] [1; 4; 5] 1) = Panicked.
Proof. vm_compute. repeat split. Qed.
Example C127_total_witness :
  utset_contains weary_cmp (TSet [1; 3] true) 2 9 = (Ok true, 7) /\
  utset_insert weary_cmp (TSet [1; 3] true) 3 9 = (Done (TSet [1] true), 8) /\
  utset_remove weary_cmp (weary (fun v => v)) (TSet [1; 3] true) 2 9 = (Done (TSet [1; 2; 3] true), 6) /\
  utset_remove weary_cmp (weary (fun v => v)) (TSet [1; 3] true) 2 0 = (Unwound (TSet [1; 3] true), 0) /\
  fst (utset_is_subset weary_cmp (fun _ _ => true) (TSet [2] false) (TSet [1; 3] true) 9) = Ok true /\
  fst (utset_is_disjoint weary_cmp (fun _ _ => true) (TSet [1; 3] true) (TSet [1] false) 9) = Ok true.
Proof. vm_compute. repeat split. Qed.
Example C127_map_witness :
  wmap_get (asks weary_cmp) [(1, 10); (3, 30)] 3 9 = (Ok (Some 30), 8) /\
  wmap_get (asks weary_cmp) [(1, 10); (3, 30)] 3 0 = (Panicked, 0) /\
  wmap_insert (asks weary_cmp) [(1, 10); (3, 30)] 3 33 9 = (Done ([(1, 10); (3, 33)], Some 30), 8) /\
  wmap_insert (asks weary_cmp) [(1, 10); (3, 30)] 2 20 1 = (Unwound ([(1, 10); (3, 30)], None), 0) /\
  utmap_index weary_cmp (TMap [(1, 10); (3, 30)] 7) 2 9 = (Ok 7, 7).
Proof. vm_compute. repeat split. Qed.
Example C127_collect_witness :
  uset_extend weary_cmp (plain_sort Nat.compare) (fun _ _ => true) [2; 9] [3; 1; 3; 2] 40 = Done ([1; 2; 3; 9], 33) /\
  (exists r, uset_extend weary_cmp (plain_sort Nat.compare) (fun _ _ => true) [2; 9] [3; 1; 3; 2] 2 = Unwound ([2; 9], r)) /\
  (exists r, umap_extend weary_cmp (plain_sort (fun x y => Nat.compare (fst x) (fst y))) (fun _ _ => true) [(2, 0); (9, 0)] [(3, 1); (1, 2); (3, 3); (2, 4)] 40 =
     Done ([(1, 2); (2, 4); (3, 3); (9, 0)], r)).
Proof. vm_compute. repeat split; eexists; reflexivity. Qed.
Print Assumptions C127_contains.
Print Assumptions C127_relations.
Print Assumptions C127_insert.
Print Assumptions C127_remove.
Print Assumptions C127_total_set.
Print Assumptions C127_total_relations.
Print Assumptions C127_map_get.
Print Assumptions C127_map_get_mut.
Print Assumptions C127_map_insert.
Print Assumptions C127_total_map_index.
Print Assumptions C127_collect.
Print Assumptions C127_extend.
Print Assumptions C127_map_collect.
Print Assumptions C127_map_extend.
