(** Facts about the merge engine under an arbitrary comparison. *)
From Verif Require Import OracleModel StdFacts MergeFacts.
Require Import Coq.Sorting.Permutation.

(** ** The engine with an effect-free comparison is the engine of Merge.v *)
Lemma wbs_loop_pure {T W} (g : T -> option comparison) (f : W -> T -> W * option comparison) (l : list T)
  (F : forall w x, f w x = (w, g x)) :
  forall fuel left right w cnt,
    wbs_loop f l fuel left right w = (fst (bs_loop g l fuel left right cnt), w).
Proof.
  induction fuel as [|fuel IH]; intros left right w cnt; cbn [wbs_loop bs_loop]; [reflexivity|].
  destruct (left <? right); [|reflexivity].
  destruct (nth_error l _) as [x|]; [|reflexivity].
  rewrite F. destruct (g x) as [[]|]; try reflexivity; apply IH.
Qed.
Lemma wbsearch_pure {T W} (g : T -> option comparison) (f : W -> T -> W * option comparison) (l : list T) w :
  (forall w x, f w x = (w, g x)) -> wbsearch f l w = (bsearch g l, w).
Proof. intros F. unfold wbsearch, bsearch, bs_count. now apply wbs_loop_pure. Qed.

Section Pure.
  Context {W S A B : Type} (O : mop S A B) (c : W -> A -> B -> W * option comparison).
  Context (C : forall w x y, c w x y = (w, mo_cmp O x y)).
  Lemma wbinary_merge_pure : forall fuel s an bn w,
    wbinary_merge c O fuel s an bn w = (binary_merge O fuel s an bn, w).
  Proof.
    induction fuel as [|fuel IH]; intros s an bn w; cbn [wbinary_merge binary_merge]; [reflexivity|].
    destruct (an =? 0); [now destruct (bn =? 0)|]. destruct (bn =? 0); [reflexivity|].
    destruct (nth_error (mo_a O s) (an / 2)) as [x|]; [|reflexivity].
    rewrite (wbsearch_pure (fun y => option_map CompOpp (mo_cmp O x y))) by (intros w' y; now rewrite C).
    destruct (bsearch _ _); try reflexivity; rewrite IH; destruct (binary_merge O fuel s _ _); try reflexivity;
      cbn [obind].
    - destruct (mo_coll O s0); try reflexivity; cbn [obind]. apply IH.
    - destruct (mo_from_a O s0 1); try reflexivity; cbn [obind]. apply IH.
  Qed.
  Lemma wtape_merge_pure : forall fuel s w, wtape_merge c O fuel s w = (tape_merge O fuel s, w).
  Proof.
    induction fuel as [|fuel IH]; intros s w; cbn [wtape_merge tape_merge]; [reflexivity|].
    destruct (mo_a O s) as [|x a], (mo_b O s) as [|y b]; try reflexivity.
    rewrite C. destruct (mo_cmp O x y) as [[]|]; try reflexivity.
    - destruct (mo_coll O s); try reflexivity; apply IH.
    - destruct (mo_from_a O s 1); try reflexivity; apply IH.
    - destruct (mo_from_b O s 1); try reflexivity; apply IH.
  Qed.
  Lemma wmerge_pure strat s w : wmerge c O strat s w = (merge O strat s, w).
  Proof. unfold wmerge, merge. destruct (strat _ _); [apply wtape_merge_pure|apply wbinary_merge_pure]. Qed.
End Pure.

(** the comparison field of the operation is not consulted *)
Lemma wmerge_ext {W S A B} (c : W -> A -> B -> W * option comparison) (O : mop S A B) g strat s w :
  wmerge c (MkMop (mo_a O) (mo_b O) g (mo_from_a O) (mo_from_b O) (mo_coll O)) strat s w = wmerge c O strat s w.
Proof.
  reflexivity.
Qed.

Lemma skipn_skipn' {X} i j (l : list X) : skipn j (skipn i l) = skipn (i + j) l.
Proof.
  revert l. induction i as [|i IH]; intros l; [reflexivity|]. destruct l; cbn; [now destruct j|apply IH].
Qed.

(** ** Binary search under an arbitrary comparison *)
Definition never_panics {W A B} (c : W -> A -> B -> W * option comparison) : Prop :=
  forall w x y, snd (c w x y) <> None.

Lemma wbs_loop_bound {T W} (f : W -> T -> W * option comparison) (l : list T) :
  forall fuel left right w r w',
    right < fuel + left -> left <= right -> right <= length l ->
    wbs_loop f l fuel left right w = (r, w') ->
    match r with
    | BsOk i => left <= i < right
    | BsErr i => left <= i <= right
    | BsPanic => exists w1 x w2, f w1 x = (w2, None)
    | BsNoFuel => False
    end.
Proof.
  induction fuel as [|fuel IH]; intros left right w r w' F LR RL; cbn [wbs_loop]; [lia|].
  destruct (Nat.ltb_spec left right) as [LT|GE].
  - pose proof (Nat.div_lt (right - left) 2 ltac:(lia) ltac:(lia)) as D.
    set (mid := left + (right - left) / 2) in *.
    destruct (nth_error l mid) as [x|] eqn:N.
    2:{ apply nth_error_None in N. lia. }
    destruct (f w x) as [w1 [[]|]] eqn:Q.
    + intros [= <- <-]. lia.
    + intros H. apply IH in H; [|lia..]. destruct r; try assumption; lia.
    + intros H. apply IH in H; [|lia..]. destruct r; try assumption; lia.
    + intros [= <- <-]. eauto.
  - intros [= <- <-]. lia.
Qed.
Lemma wbsearch_bound {T W} (f : W -> T -> W * option comparison) (l : list T) w r w' :
  wbsearch f l w = (r, w') ->
  match r with
  | BsOk i => i < length l
  | BsErr i => i <= length l
  | BsPanic => exists w1 x w2, f w1 x = (w2, None)
  | BsNoFuel => False
  end.
Proof. intros H. apply wbs_loop_bound in H; [|lia..]. destruct r; try assumption; lia. Qed.

(** ** What holds of every run *)
Section Run.
  Context {S A B : Type} (O : mop S A B).
  (** [R s s']: how a state may evolve; [RP s s']: the same when a step panics *)
  Context (R RP : S -> S -> Prop).

  (** [o] is an acceptable outcome of consuming [da] and [db] elements from [s] *)
  Definition stepok (s : S) (da db : nat) (o : out S) : Prop :=
    match o with
    | Cont s' => R s s' /\ mo_a O s' = skipn da (mo_a O s) /\ mo_b O s' = skipn db (mo_b O s)
    | Stop s' => R s s'
    | Panic s' => RP s s'
    | NoFuel => False
    end.
  Record steps : Prop := {
    st_refl : forall s, R s s;
    st_trans : forall s1 s2 s3, R s1 s2 -> R s2 s3 -> R s1 s3;
    st_transP : forall s1 s2 s3, R s1 s2 -> RP s2 s3 -> RP s1 s3;
    st_a : forall s n, n <= length (mo_a O s) -> stepok s n 0 (mo_from_a O s n);
    st_b : forall s n, n <= length (mo_b O s) -> stepok s 0 n (mo_from_b O s n);
    st_c : forall s, 1 <= length (mo_a O s) -> 1 <= length (mo_b O s) -> stepok s 1 1 (mo_coll O s)
  }.
  Context (ST : steps).

  Lemma stepok_trans s s1 da db da' db' o :
    stepok s da db (Cont s1) -> stepok s1 da' db' o -> stepok s (da + da') (db + db') o.
  Proof.
    intros (H1 & H2 & H3). destruct o as [s2|s2|s2|]; cbn [stepok].
    - intros (G1 & G2 & G3). split; [exact (st_trans ST _ _ _ H1 G1)|]. rewrite G2, G3, H2, H3.
      split; apply skipn_skipn'.
    - intros G. exact (st_trans ST _ _ _ H1 G).
    - intros G. exact (st_transP ST _ _ _ H1 G).
    - trivial.
  Qed.

  Context {W : Type} (c : W -> A -> B -> W * option comparison).
  Context (CP : never_panics c \/ forall s, RP s s).

  Lemma cp_panic s w x y w' : c w x y = (w', None) -> RP s s.
  Proof. intros H. destruct CP as [N|P]; [|apply P]. exfalso. apply (N w x y). now rewrite H. Qed.

  Lemma wbinary_ok : forall fuel s an bn w,
    an < fuel -> an <= length (mo_a O s) -> bn <= length (mo_b O s) ->
    stepok s an bn (fst (wbinary_merge c O fuel s an bn w)).
  Proof.
    induction fuel as [|fuel IH]; intros s an bn w F LA LB; [lia|]. cbn [wbinary_merge].
    destruct (Nat.eqb_spec an 0) as [->|NA].
    { destruct (Nat.eqb_spec bn 0) as [->|NB]; cbn [fst].
      - cbn [stepok]. split; [apply (st_refl ST)|]. now rewrite !skipn_O.
      - now apply (st_b ST). }
    destruct (Nat.eqb_spec bn 0) as [->|NB]; cbn [fst]; [now apply (st_a ST)|].
    pose proof (Nat.div_lt an 2 ltac:(lia) ltac:(lia)) as D. set (am := an / 2) in *.
    destruct (nth_error (mo_a O s) am) as [x|] eqn:N.
    2:{ apply nth_error_None in N. lia. }
    destruct (wbsearch _ _ _) as [r w1] eqn:Q. apply wbsearch_bound in Q.
    rewrite firstn_length_le in Q by assumption.
    destruct r as [bm|bi| |].
    - pose proof (IH s am bm w1 ltac:(lia) ltac:(lia) ltac:(lia)) as H1.
      destruct (wbinary_merge c O fuel s am bm w1) as [o1 w2]. cbn [fst] in H1.
      destruct o1 as [s1|s1|s1|]; cbn [fst]; try exact H1.
      pose proof H1 as (_ & A1 & B1).
      assert (L1 : length (mo_a O s1) = length (mo_a O s) - am) by (rewrite A1; apply skipn_length).
      assert (L2 : length (mo_b O s1) = length (mo_b O s) - bm) by (rewrite B1; apply skipn_length).
      pose proof (st_c ST s1 ltac:(lia) ltac:(lia)) as H2.
      destruct (mo_coll O s1) as [s2|s2|s2|]; cbn [fst].
      + pose proof (stepok_trans _ _ _ _ _ _ _ H1 H2) as H12.
        pose proof H12 as (_ & A2 & B2).
        assert (L3 : length (mo_a O s2) = length (mo_a O s) - (am + 1)) by (rewrite A2; apply skipn_length).
        assert (L4 : length (mo_b O s2) = length (mo_b O s) - (bm + 1)) by (rewrite B2; apply skipn_length).
        pose proof (IH s2 (an - am - 1) (bn - bm - 1) w2 ltac:(lia) ltac:(lia) ltac:(lia)) as H3.
        pose proof (stepok_trans _ _ _ _ _ _ _ H12 H3) as H.
        replace (am + 1 + (an - am - 1)) with an in H by lia.
        replace (bm + 1 + (bn - bm - 1)) with bn in H by lia. exact H.
      + exact (stepok_trans _ _ _ _ _ _ _ H1 H2).
      + exact (stepok_trans _ _ _ _ _ _ _ H1 H2).
      + exact H2.
    - pose proof (IH s am bi w1 ltac:(lia) ltac:(lia) ltac:(lia)) as H1.
      destruct (wbinary_merge c O fuel s am bi w1) as [o1 w2]. cbn [fst] in H1.
      destruct o1 as [s1|s1|s1|]; cbn [fst]; try exact H1.
      pose proof H1 as (_ & A1 & B1).
      assert (L1 : length (mo_a O s1) = length (mo_a O s) - am) by (rewrite A1; apply skipn_length).
      assert (L2 : length (mo_b O s1) = length (mo_b O s) - bi) by (rewrite B1; apply skipn_length).
      pose proof (st_a ST s1 1 ltac:(lia)) as H2.
      destruct (mo_from_a O s1 1) as [s2|s2|s2|]; cbn [fst].
      + pose proof (stepok_trans _ _ _ _ _ _ _ H1 H2) as H12.
        pose proof H12 as (_ & A2 & B2).
        assert (L3 : length (mo_a O s2) = length (mo_a O s) - (am + 1)) by (rewrite A2; apply skipn_length).
        assert (L4 : length (mo_b O s2) = length (mo_b O s) - (bi + 0)) by (rewrite B2; apply skipn_length).
        pose proof (IH s2 (an - am - 1) (bn - bi) w2 ltac:(lia) ltac:(lia) ltac:(lia)) as H3.
        pose proof (stepok_trans _ _ _ _ _ _ _ H12 H3) as H.
        replace (am + 1 + (an - am - 1)) with an in H by lia.
        replace (bi + 0 + (bn - bi)) with bn in H by lia. exact H.
      + exact (stepok_trans _ _ _ _ _ _ _ H1 H2).
      + exact (stepok_trans _ _ _ _ _ _ _ H1 H2).
      + exact H2.
    - cbn [fst stepok]. destruct Q as (wa & y & wb & Q).
      destruct (c wa x y) as [w' [q|]] eqn:Q'; [discriminate|]. exact (cp_panic _ _ _ _ _ Q').
    - destruct Q.
  Qed.

  Lemma wtape_ok : forall fuel s w,
    length (mo_a O s) + length (mo_b O s) < fuel ->
    stepok s (length (mo_a O s)) (length (mo_b O s)) (fst (wtape_merge c O fuel s w)).
  Proof.
    induction fuel as [|fuel IH]; intros s w F; [lia|]. cbn [wtape_merge].
    pose proof (st_a ST s) as SA. pose proof (st_b ST s) as SB. pose proof (st_c ST s) as SC.
    destruct (mo_a O s) as [|x a] eqn:QA, (mo_b O s) as [|y b] eqn:QB; cbn [fst].
    - cbn [stepok]. rewrite QA, QB. split; [apply (st_refl ST)|]. now split.
    - apply SB. cbn [length]. lia.
    - apply SA. cbn [length]. lia.
    - assert (GO : forall da db o w', da <= 1 -> db <= 1 -> 1 <= da + db -> stepok s da db o ->
        stepok s (length (x :: a)) (length (y :: b))
          (fst (match o with Cont s' => wtape_merge c O fuel s' w' | Stop s0 => (Stop s0, w')
                 | Panic s0 => (Panic s0, w') | NoFuel => (NoFuel, w') end))).
      { intros da db o w' D1 D2 D3 H. destruct o as [s1|s1|s1|]; cbn [fst]; try exact H.
        pose proof H as (_ & A1 & B1). rewrite QA in A1. rewrite QB in B1.
        assert (L1 : length (mo_a O s1) = Datatypes.S (length a) - da) by (rewrite A1; apply skipn_length).
        assert (L2 : length (mo_b O s1) = Datatypes.S (length b) - db) by (rewrite B1; apply skipn_length).
        pose proof (IH s1 w' ltac:(cbn [length] in F; lia)) as H3.
        pose proof (stepok_trans _ _ _ _ _ _ _ H H3) as H'.
        replace (da + length (mo_a O s1)) with (length (x :: a)) in H' by (cbn [length]; lia).
        replace (db + length (mo_b O s1)) with (length (y :: b)) in H' by (cbn [length]; lia).
        exact H'. }
      destruct (c w x y) as [w' [[]|]] eqn:Q.
      + refine (GO 1 1 (mo_coll O s) w' _ _ _ _); try lia. apply SC; cbn [length]; lia.
      + refine (GO 1 0 (mo_from_a O s 1) w' _ _ _ _); try lia. apply SA; cbn [length]; lia.
      + refine (GO 0 1 (mo_from_b O s 1) w' _ _ _ _); try lia. apply SB; cbn [length]; lia.
      + cbn [fst stepok]. exact (cp_panic _ _ _ _ _ Q).
  Qed.

  Lemma wmerge_ok strat s w :
    stepok s (length (mo_a O s)) (length (mo_b O s)) (fst (wmerge c O strat s w)).
  Proof. unfold wmerge. destruct (strat _ _); [apply wtape_ok|apply wbinary_ok]; lia. Qed.
End Run.
Arguments stepok {S A B} O R RP s da db o.
Arguments steps {S A B} O R RP.

(** ** A comparison that panics at a given call *)
(** the comparison [c], except that call number n+1 panics *)
Definition panics_after {W A B} (c : W -> A -> B -> W * option comparison)
  : W * nat -> A -> B -> (W * nat) * option comparison :=
  fun wn x y =>
    match wn with
    | (w, 0) => ((w, 0), None)
    | (w, Datatypes.S n) => let (w', r) := c w x y in ((w', n), r)
    end.

Section Crash.
  Context {S A B W : Type} (O : mop S A B) (R : S -> S -> Prop) (ST : steps O R R).
  Context (c : W -> A -> B -> W * option comparison).

  (** [o'] is the outcome of the interrupted run, [o] of the uninterrupted one *)
  Definition cut (p' : out S * (W * nat)) (p : out S * W) : Prop :=
    (fst p' = fst p /\ fst (snd p') = snd p) \/
    (exists s', fst p' = Panic s' /\
       match fst p with Cont s | Stop s | Panic s => R s' s | NoFuel => False end).

  Lemma wbs_crash {T} (f : W -> T -> W * option comparison) (f' : W * nat -> T -> (W * nat) * option comparison)
    (l : list T) :
    (forall w n x, f' (w, n) x = match n with 0 => ((w, 0), None)
                                 | Datatypes.S n => let (w', r) := f w x in ((w', n), r) end) ->
    forall fuel lo hi w n,
      (fst (wbs_loop f' l fuel lo hi (w, n)) = BsPanic) \/
      (exists n', wbs_loop f' l fuel lo hi (w, n) =
         (fst (wbs_loop f l fuel lo hi w), (snd (wbs_loop f l fuel lo hi w), n'))).
  Proof.
    intros F. induction fuel as [|fuel IH]; intros lo hi w n; cbn [wbs_loop]; [right; eauto|].
    destruct (lo <? hi); [|right; eauto].
    destruct (nth_error l _) as [x|]; [|right; eauto].
    rewrite F. destruct n as [|n]; [now left|]. destruct (f w x) as [w' [[]|]]; try (right; eauto; fail); apply IH.
  Qed.

  (** any continuation of an acceptable outcome stays after the cut *)
  Lemma cut_after s da db o s' : stepok O R R s da db o -> R s' s ->
    match o with Cont t | Stop t | Panic t => R s' t | NoFuel => False end.
  Proof.
    destruct o; cbn [stepok]; [intros (H & _) G|intros H G|intros H G|intros []];
      exact (st_trans _ _ _ ST _ _ _ G H).
  Qed.

  Lemma wbinary_crash : forall fuel s an bn w n,
    an < fuel -> an <= length (mo_a O s) -> bn <= length (mo_b O s) ->
    cut (wbinary_merge (panics_after c) O fuel s an bn (w, n)) (wbinary_merge c O fuel s an bn w).
  Proof.
    assert (CP : forall W (c' : W -> A -> B -> W * option comparison), never_panics c' \/ forall s, R s s).
    { intros. right. apply (st_refl _ _ _ ST). }
    induction fuel as [|fuel IH]; intros s an bn w n F LA LB; [lia|].
    pose proof (wbinary_ok O R R ST c (CP _ c) (Datatypes.S fuel) s an bn w F LA LB) as WHOLE.
    cbn [wbinary_merge] in WHOLE |- *.
    destruct (Nat.eqb_spec an 0) as [->|NA]; [now left|].
    destruct (Nat.eqb_spec bn 0) as [->|NB]; [now left|].
    pose proof (Nat.div_lt an 2 ltac:(lia) ltac:(lia)) as D. set (am := an / 2) in *.
    destruct (nth_error (mo_a O s) am) as [x|] eqn:N; [|now left].
    set (f := fun w y => let (w', q) := c w x y in (w', option_map CompOpp q)) in *.
    set (f' := fun w y => let (w', q) := panics_after c w x y in (w', option_map CompOpp q)).
    assert (FF : forall w n x, f' (w, n) x = match n with 0 => ((w, 0), None)
                                 | Datatypes.S n => let (w', r) := f w x in ((w', n), r) end).
    { intros w0 [|n0] y; unfold f', f, panics_after; [reflexivity|]. now destruct (c w0 x y). }
    destruct (wbs_crash f f' (firstn bn (mo_b O s)) FF (Datatypes.S (length (firstn bn (mo_b O s)))) 0
                (length (firstn bn (mo_b O s))) w n) as [CR|(n1 & SAME)].
    - right. exists s. fold (wbsearch f' (firstn bn (mo_b O s)) (w, n)) in CR.
      destruct (wbsearch f' (firstn bn (mo_b O s)) (w, n)) as [r' w1']. cbn [fst] in CR. subst r'.
      split; [reflexivity|]. refine (cut_after _ _ _ _ _ WHOLE (st_refl _ _ _ ST s)).
    - fold (wbsearch f' (firstn bn (mo_b O s)) (w, n)) in SAME.
      fold (wbsearch f (firstn bn (mo_b O s)) w) in SAME. rewrite SAME. clear SAME.
      destruct (wbsearch f (firstn bn (mo_b O s)) w) as [r w1] eqn:Q. cbn [fst snd].
      apply wbsearch_bound in Q. rewrite firstn_length_le in Q by assumption.
      destruct r as [bm|bi| |]; try (now left).
      + pose proof (wbinary_ok O R R ST c (CP _ c) fuel s am bm w1 ltac:(lia) ltac:(lia) ltac:(lia)) as H1.
        pose proof (IH s am bm w1 n1 ltac:(lia) ltac:(lia) ltac:(lia)) as C1.
        destruct (wbinary_merge c O fuel s am bm w1) as [o1 w2]. cbn [fst] in H1.
        destruct (wbinary_merge (panics_after c) O fuel s am bm (w1, n1)) as [o1' [w2' n2]].
        destruct C1 as [(E1 & E2)|(s' & E1 & E2)]; cbn [fst snd] in E1, E2; subst o1'.
        * subst w2'. destruct o1 as [s1|s1|s1|]; try (now left).
          pose proof H1 as (_ & A1 & B1).
          assert (L1 : length (mo_a O s1) = length (mo_a O s) - am) by (rewrite A1; apply skipn_length).
          assert (L2 : length (mo_b O s1) = length (mo_b O s) - bm) by (rewrite B1; apply skipn_length).
          pose proof (st_c _ _ _ ST s1 ltac:(lia) ltac:(lia)) as H2.
          destruct (mo_coll O s1) as [s2|s2|s2|]; try (now left).
          pose proof H2 as (_ & A2 & B2).
          assert (L3 : length (mo_a O s2) = length (mo_a O s1) - 1) by (rewrite A2; apply skipn_length).
          assert (L4 : length (mo_b O s2) = length (mo_b O s1) - 1) by (rewrite B2; apply skipn_length).
          apply IH; lia.
        * right. exists s'. split; [reflexivity|].
          destruct o1 as [s1|s1|s1|]; cbn [fst]; try exact E2.
          pose proof H1 as (_ & A1 & B1).
          assert (L1 : length (mo_a O s1) = length (mo_a O s) - am) by (rewrite A1; apply skipn_length).
          assert (L2 : length (mo_b O s1) = length (mo_b O s) - bm) by (rewrite B1; apply skipn_length).
          pose proof (st_c _ _ _ ST s1 ltac:(lia) ltac:(lia)) as H2.
          pose proof (cut_after _ _ _ _ _ H2 E2) as E3.
          destruct (mo_coll O s1) as [s2|s2|s2|]; cbn [fst]; try exact E3.
          pose proof H2 as (_ & A2 & B2).
          assert (L3 : length (mo_a O s2) = length (mo_a O s1) - 1) by (rewrite A2; apply skipn_length).
          assert (L4 : length (mo_b O s2) = length (mo_b O s1) - 1) by (rewrite B2; apply skipn_length).
          refine (cut_after _ _ _ _ _ (wbinary_ok O R R ST c (CP _ c) fuel s2 _ _ w2 _ _ _) E3); lia.
      + pose proof (wbinary_ok O R R ST c (CP _ c) fuel s am bi w1 ltac:(lia) ltac:(lia) ltac:(lia)) as H1.
        pose proof (IH s am bi w1 n1 ltac:(lia) ltac:(lia) ltac:(lia)) as C1.
        destruct (wbinary_merge c O fuel s am bi w1) as [o1 w2]. cbn [fst] in H1.
        destruct (wbinary_merge (panics_after c) O fuel s am bi (w1, n1)) as [o1' [w2' n2]].
        destruct C1 as [(E1 & E2)|(s' & E1 & E2)]; cbn [fst snd] in E1, E2; subst o1'.
        * subst w2'. destruct o1 as [s1|s1|s1|]; try (now left).
          pose proof H1 as (_ & A1 & B1).
          assert (L1 : length (mo_a O s1) = length (mo_a O s) - am) by (rewrite A1; apply skipn_length).
          assert (L2 : length (mo_b O s1) = length (mo_b O s) - bi) by (rewrite B1; apply skipn_length).
          pose proof (st_a _ _ _ ST s1 1 ltac:(lia)) as H2.
          destruct (mo_from_a O s1 1) as [s2|s2|s2|]; try (now left).
          pose proof H2 as (_ & A2 & B2).
          assert (L3 : length (mo_a O s2) = length (mo_a O s1) - 1) by (rewrite A2; apply skipn_length).
          assert (L4 : length (mo_b O s2) = length (mo_b O s1) - 0) by (rewrite B2; apply skipn_length).
          apply IH; lia.
        * right. exists s'. split; [reflexivity|].
          destruct o1 as [s1|s1|s1|]; cbn [fst]; try exact E2.
          pose proof H1 as (_ & A1 & B1).
          assert (L1 : length (mo_a O s1) = length (mo_a O s) - am) by (rewrite A1; apply skipn_length).
          assert (L2 : length (mo_b O s1) = length (mo_b O s) - bi) by (rewrite B1; apply skipn_length).
          pose proof (st_a _ _ _ ST s1 1 ltac:(lia)) as H2.
          pose proof (cut_after _ _ _ _ _ H2 E2) as E3.
          destruct (mo_from_a O s1 1) as [s2|s2|s2|]; cbn [fst]; try exact E3.
          pose proof H2 as (_ & A2 & B2).
          assert (L3 : length (mo_a O s2) = length (mo_a O s1) - 1) by (rewrite A2; apply skipn_length).
          assert (L4 : length (mo_b O s2) = length (mo_b O s1) - 0) by (rewrite B2; apply skipn_length).
          refine (cut_after _ _ _ _ _ (wbinary_ok O R R ST c (CP _ c) fuel s2 _ _ w2 _ _ _) E3); lia.
  Qed.

  Lemma wtape_crash : forall fuel s w n,
    length (mo_a O s) + length (mo_b O s) < fuel ->
    cut (wtape_merge (panics_after c) O fuel s (w, n)) (wtape_merge c O fuel s w).
  Proof.
    assert (CP : forall W (c' : W -> A -> B -> W * option comparison), never_panics c' \/ forall s, R s s).
    { intros. right. apply (st_refl _ _ _ ST). }
    induction fuel as [|fuel IH]; intros s w n F; [lia|].
    pose proof (wtape_ok O R R ST c (CP _ c) (Datatypes.S fuel) s w F) as WHOLE.
    cbn [wtape_merge] in WHOLE |- *.
    pose proof (st_a _ _ _ ST s) as SA. pose proof (st_b _ _ _ ST s) as SB. pose proof (st_c _ _ _ ST s) as SC.
    destruct (mo_a O s) as [|x a] eqn:QA, (mo_b O s) as [|y b] eqn:QB; try (now left).
    destruct n as [|n]; cbn [panics_after].
    { right. exists s. split; [reflexivity|]. exact (cut_after _ _ _ _ _ WHOLE (st_refl _ _ _ ST s)). }
    destruct (c w x y) as [w' [q|]]; [|now left].
    set (o := match q with Lt => _ | Gt => _ | Eq => _ end) in *.
    assert (H : exists da db, da <= 1 /\ db <= 1 /\ 1 <= da + db /\ stepok O R R s da db o).
    { unfold o. destruct q; [exists 1, 1|exists 1, 0|exists 0, 1]; do 3 (split; [lia|]);
        [apply SC|apply SA|apply SB]; cbn [length]; lia. }
    destruct H as (da & db & D1 & D2 & D3 & H).
    destruct o as [s1|s1|s1|]; try (now left).
    pose proof H as (_ & A1 & B1). rewrite QA in A1. rewrite QB in B1.
    assert (L1 : length (mo_a O s1) = Datatypes.S (length a) - da) by (rewrite A1; apply skipn_length).
    assert (L2 : length (mo_b O s1) = Datatypes.S (length b) - db) by (rewrite B1; apply skipn_length).
    apply IH. cbn [length] in F. lia.
  Qed.

  Lemma wmerge_crash strat s w n : cut (wmerge (panics_after c) O strat s (w, n)) (wmerge c O strat s w).
  Proof. unfold wmerge. destruct (strat _ _); [apply wtape_crash|apply wbinary_crash]; lia. Qed.
End Crash.

(** ** The operations of the library are acceptable steps *)
Section Inst.
  Context {S A B : Type} (O : mop S A B) (R RP : S -> S -> Prop).
  Context (RT : forall s1 s2 s3, R s1 s2 -> R s2 s3 -> R s1 s3).
  Context (RTP : forall s1 s2 s3, R s1 s2 -> RP s2 s3 -> RP s1 s3).

  Lemma obind_ok s da db da' db' o k :
    stepok O R RP s da db o ->
    (forall s1, R s s1 -> mo_a O s1 = skipn da (mo_a O s) -> mo_b O s1 = skipn db (mo_b O s) ->
       stepok O R RP s1 da' db' (k s1)) ->
    stepok O R RP s (da + da') (db + db') (obind o k).
  Proof.
    destruct o as [s1|s1|s1|]; cbn [obind]; try (intros H _; exact H).
    intros (H1 & H2 & H3) K. specialize (K s1 H1 H2 H3). destruct (k s1) as [s2|s2|s2|]; cbn [stepok] in *.
    - destruct K as (K1 & K2 & K3). split; [eapply RT; eassumption|].
      rewrite K2, K3, H2, H3. split; apply skipn_skipn'.
    - eapply RT; eassumption.
    - eapply RTP; eassumption.
    - exact K.
  Qed.

  Context (RR : forall s, R s s).
  (** a loop whose body consumes one element of a *)
  Lemma for_n_ok_a body :
    (forall s, 1 <= length (mo_a O s) -> stepok O R RP s 1 0 (body s)) ->
    forall n s, n <= length (mo_a O s) -> stepok O R RP s n 0 (for_n n body s).
  Proof.
    intros HB. induction n as [|n IH]; intros s L; cbn [for_n].
    - cbn [stepok]. split; [apply RR|]. now rewrite !skipn_O.
    - apply (obind_ok s 1 0 n 0); [apply HB; lia|]. intros s1 _ A1 _. apply IH. rewrite A1, skipn_length. lia.
  Qed.
  Lemma for_n_ok_b body :
    (forall s, 1 <= length (mo_b O s) -> stepok O R RP s 0 1 (body s)) ->
    forall n s, n <= length (mo_b O s) -> stepok O R RP s 0 n (for_n n body s).
  Proof.
    intros HB. induction n as [|n IH]; intros s L; cbn [for_n].
    - cbn [stepok]. split; [apply RR|]. now rewrite !skipn_O.
    - apply (obind_ok s 0 1 0 n); [apply HB; lia|]. intros s1 _ _ B1. apply IH. rewrite B1, skipn_length. lia.
  Qed.
End Inst.

(** acceptable outcome of advancing a merge state (as [stepok], for a [msm]) *)
Definition advok {S A B} (M : msm S A B) (R RP : S -> S -> Prop) (s : S) (da db : nat) (o : out S) : Prop :=
  match o with
  | Cont s' => R s s' /\ ms_a M s' = skipn da (ms_a M s) /\ ms_b M s' = skipn db (ms_b M s)
  | Stop s' => R s s'
  | Panic s' => RP s s'
  | NoFuel => False
  end.
Record advs {S A B} (M : msm S A B) (R RP : S -> S -> Prop) : Prop := {
  ad_refl : forall s, R s s;
  ad_trans : forall s1 s2 s3, R s1 s2 -> R s2 s3 -> R s1 s3;
  ad_transP : forall s1 s2 s3, R s1 s2 -> RP s2 s3 -> RP s1 s3;
  ad_a : forall s n t, n <= length (ms_a M s) -> advok M R RP s n 0 (adv_a M s n t);
  ad_b : forall s n t, n <= length (ms_b M s) -> advok M R RP s 0 n (adv_b M s n t)
}.
Lemma bop_steps {T S} (M : msm S T T) R RP (o : bop) : advs M R RP -> steps (bop_op o M) R RP.
Proof.
  intros H.
  assert (E : forall s da db q, advok M R RP s da db q -> stepok (bop_op o M) R RP s da db q).
  { intros s da db q HQ. destruct o; exact HQ. }
  assert (A1 : mo_a (bop_op o M) = ms_a M) by now destruct o.
  assert (B1 : mo_b (bop_op o M) = ms_b M) by now destruct o.
  assert (CO : forall s t, 1 <= length (ms_a M s) -> 1 <= length (ms_b M s) ->
    stepok (bop_op o M) R RP s 1 1 (obind (adv_a M s 1 t) (fun m => adv_b M m 1 false))).
  { intros s t L1 L2. refine (obind_ok (bop_op o M) R RP (ad_trans _ _ _ H) (ad_transP _ _ _ H) s 1 0 0 1 _ _ _ _).
    - apply E, (ad_a _ _ _ H), L1.
    - intros s1 _ _ HB. apply E, (ad_b _ _ _ H). rewrite B1 in HB. rewrite HB, skipn_O. exact L2. }
  constructor.
  - apply (ad_refl _ _ _ H).
  - apply (ad_trans _ _ _ H).
  - apply (ad_transP _ _ _ H).
  - intros s n L. rewrite A1 in L. apply E. destruct o; apply (ad_a _ _ _ H), L.
  - intros s n L. rewrite B1 in L. apply E. destruct o; apply (ad_b _ _ _ H), L.
  - intros s L1 L2. rewrite A1 in L1. rewrite B1 in L2. destruct o; apply CO; assumption.
Qed.

Lemma bd_extend_clone {A} n (bd : builder A) (b : list A) :
  n <= length b ->
  bd_extend (fun x => Some x) n bd b = (MkB (bd_tgt bd ++ firstn n b) (bd_src bd) (bd_drop bd), skipn n b, true).
Proof.
  revert bd b. induction n as [|n IH]; intros [t s d] b L; cbn [bd_extend].
  - cbn. now rewrite app_nil_r.
  - destruct b as [|y b]; cbn [length] in L; [lia|]. rewrite IH by lia. cbn. now rewrite <- app_assoc.
Qed.
Lemma push_all_clone {X} (l r : list X) : push_all (fun x => Some x) l r = (r ++ l, true).
Proof.
  revert r. induction l as [|x l IH]; intros r; cbn [push_all]; [now rewrite app_nil_r|].
  rewrite IH. now rewrite <- app_assoc.
Qed.

Lemma perm_split {X} n (l t d u : list X) :
  Permutation ((t ++ firstn n l) ++ d ++ skipn n l ++ u) (t ++ d ++ l ++ u).
Proof.
  rewrite <- (firstn_skipn n l) at 3. rewrite <- !app_assoc. apply Permutation_app_head.
  rewrite !app_assoc. apply Permutation_app_tail, Permutation_app_tail, Permutation_app_comm.
Qed.

(** rhs by value: nothing is lost *)
Definition ip_all {T} (s : ipstate T T) : list T :=
  bd_tgt (ip_a s) ++ bd_drop (ip_a s) ++ bd_src (ip_a s) ++ ip_drop_b s ++ ip_b s.
Definition ip_R {T} (s s' : ipstate T T) : Prop :=
  Permutation (ip_all s') (ip_all s) /\ exists t, bd_tgt (ip_a s') = bd_tgt (ip_a s) ++ t.
Lemma ip_R_trans {T} (s1 s2 s3 : ipstate T T) : ip_R s1 s2 -> ip_R s2 s3 -> ip_R s1 s3.
Proof.
  intros [P1 (t1 & E1)] [P2 (t2 & E2)]. split; [etransitivity; eassumption|].
  exists (t1 ++ t2). now rewrite E2, E1, app_assoc.
Qed.
Lemma ip_R_refl {T} (s : ipstate T T) : ip_R s s.
Proof. split; [reflexivity|]. exists []. now rewrite app_nil_r. Qed.
Lemma ip_advs {T} (RP : ipstate T T -> ipstate T T -> Prop) :
  (forall s1 s2 s3, ip_R s1 s2 -> RP s2 s3 -> RP s1 s3) -> advs (ip_msm IdConverter) (@ip_R T) RP.
Proof.
  intros TP. constructor; [apply ip_R_refl|apply ip_R_trans|exact TP|..].
  - intros [[t s d] b db] n [] L; cbn in *.
    + split; [split; cbn; [|eauto]|now split]. unfold ip_all. cbn. rewrite !app_assoc.
      apply Permutation_app_tail, Permutation_app_tail. rewrite <- !app_assoc.
      pose proof (perm_split n s t d []) as P. rewrite !app_nil_r in P. now rewrite <- !app_assoc in P.
    + split; [split; cbn; [|exists []; now rewrite app_nil_r]|now split]. unfold ip_all. cbn.
      rewrite <- (firstn_skipn n s) at 3. now rewrite <- !app_assoc.
  - intros [[t s d] b db] n [] L; cbn in L |- *.
    + unfold ip_adv_b, IdConverter. cbn. rewrite bd_extend_clone by assumption. cbn.
      split; [split; cbn; [|eauto]|now split]. unfold ip_all. cbn.
      pose proof (perm_split n b t (d ++ s ++ db) []) as P. rewrite !app_nil_r in P.
      rewrite <- !app_assoc in P. rewrite <- !app_assoc. exact P.
    + split; [split; cbn; [|exists []; now rewrite app_nil_r]|now split]. unfold ip_all. cbn.
      rewrite <- (firstn_skipn n b) at 3. now rewrite <- !app_assoc.
Qed.

(** rhs by reference: what is kept was in self or in rhs *)
Definition ipr_all {T} (s : iprstate T T) : list T :=
  bd_tgt (ipr_a s) ++ bd_drop (ipr_a s) ++ bd_src (ipr_a s) ++ ipr_b s.
Definition ipr_R {T} (s s' : iprstate T T) : Prop :=
  (exists d, Permutation (ipr_all s' ++ d) (ipr_all s)) /\ exists t, bd_tgt (ipr_a s') = bd_tgt (ipr_a s) ++ t.
Lemma ipr_R_trans {T} (s1 s2 s3 : iprstate T T) : ipr_R s1 s2 -> ipr_R s2 s3 -> ipr_R s1 s3.
Proof.
  intros [(d1 & P1) (t1 & E1)] [(d2 & P2) (t2 & E2)]. split.
  - exists (d2 ++ d1). rewrite app_assoc. etransitivity; [|exact P1]. now apply Permutation_app_tail.
  - exists (t1 ++ t2). now rewrite E2, E1, app_assoc.
Qed.
Lemma ipr_R_refl {T} (s : iprstate T T) : ipr_R s s.
Proof. split; exists []; now rewrite app_nil_r. Qed.
Lemma ipr_advs {T} (RP : iprstate T T -> iprstate T T -> Prop) :
  (forall s1 s2 s3, ipr_R s1 s2 -> RP s2 s3 -> RP s1 s3) -> advs (ipr_msm CloneConverter) (@ipr_R T) RP.
Proof.
  intros TP. constructor; [apply ipr_R_refl|apply ipr_R_trans|exact TP|..].
  - intros [[t s d] b] n [] L; cbn in *.
    + split; [split; cbn; [|eauto]|now split]. exists []. rewrite app_nil_r. unfold ipr_all. cbn.
      apply perm_split.
    + split; [split; cbn; [|exists []; now rewrite app_nil_r]|now split].
      exists []. rewrite app_nil_r. unfold ipr_all. cbn.
      rewrite <- (firstn_skipn n s) at 3. now rewrite <- !app_assoc.
  - intros [[t s d] b] n [] L; cbn in L |- *.
    + unfold ipr_adv_b, CloneConverter. cbn. rewrite bd_extend_clone by assumption. cbn.
      split; [split; cbn; [|eauto]|now split]. exists []. rewrite app_nil_r. unfold ipr_all. cbn.
      pose proof (perm_split n b t (d ++ s) []) as P. rewrite !app_nil_r in P.
      rewrite <- !app_assoc in P. rewrite <- !app_assoc. exact P.
    + split; [split; cbn; [|exists []; now rewrite app_nil_r]|now split].
      exists (firstn n b). unfold ipr_all. cbn. rewrite <- !app_assoc.
      do 3 apply Permutation_app_head. rewrite <- (firstn_skipn n b) at 3. apply Permutation_app_comm.
Qed.

(** new set from references *)
Definition vs_all {T} (s : vstate T T T) : list T := vs_r s ++ vs_a s ++ vs_b s.
Definition vs_R {T} (s s' : vstate T T T) : Prop := exists d, Permutation (vs_all s' ++ d) (vs_all s).
Lemma vs_advs {T} (RP : vstate T T T -> vstate T T T -> Prop) :
  (forall s1 s2 s3, vs_R s1 s2 -> RP s2 s3 -> RP s1 s3) -> advs (vs_msm CloneConverter CloneConverter) (@vs_R T) RP.
Proof.
  intros TP. constructor.
  - intros s. exists []. now rewrite app_nil_r.
  - intros s1 s2 s3 (d1 & P1) (d2 & P2). exists (d2 ++ d1). rewrite app_assoc.
    etransitivity; [|exact P1]. now apply Permutation_app_tail.
  - exact TP.
  - intros [a b r] n [] L; cbn in L |- *; unfold vs_adv_a, si_take_front, si_drop_front; cbn;
      destruct (Nat.leb_spec n (length a)); try lia.
    + unfold CloneConverter. rewrite push_all_clone. cbn. split; [|now split]. exists []. rewrite app_nil_r.
      unfold vs_all. cbn. rewrite <- (firstn_skipn n a) at 3. now rewrite <- !app_assoc.
    + cbn. split; [|now split]. exists (firstn n a). unfold vs_all. cbn.
      rewrite <- !app_assoc. apply Permutation_app_head. rewrite <- (firstn_skipn n a) at 3.
      rewrite app_assoc. rewrite Permutation_app_comm. now rewrite <- !app_assoc.
  - intros [a b r] n [] L; cbn in L |- *; unfold vs_adv_b, si_take_front, si_drop_front; cbn;
      destruct (Nat.leb_spec n (length b)); try lia.
    + unfold CloneConverter. rewrite push_all_clone. cbn. split; [|now split]. exists []. rewrite app_nil_r.
      unfold vs_all. cbn. pose proof (perm_split n b r a []) as P. now rewrite !app_nil_r in P.
    + cbn. split; [|now split]. exists (firstn n b). unfold vs_all. cbn.
      rewrite <- !app_assoc. do 2 apply Permutation_app_head. rewrite <- (firstn_skipn n b) at 3.
      apply Permutation_app_comm.
Qed.

Lemma bs_advs {T} (RP : bstate T T -> bstate T T -> Prop) :
  (forall s1 s2 s3, RP s2 s3 -> RP s1 s3) -> advs (@bs_msm T T) (fun _ _ => True) RP.
Proof.
  intros TP. constructor; try tauto; [intros s1 s2 s3 _; apply TP|..].
  - intros [a b r] n [] L; cbn in L |- *; [trivial|]. unfold bs_adv_a, si_drop_front; cbn.
    destruct (Nat.leb_spec n (length a)); [|lia]. cbn. now split.
  - intros [a b r] n [] L; cbn in L |- *; [trivial|]. unfold bs_adv_b, si_drop_front; cbn.
    destruct (Nat.leb_spec n (length b)); [|lia]. cbn. now split.
Qed.

(** ** Map joins *)
Section MapInst.
  Context {K V V2 E : Type}.
  Local Notation ist := (iprstate (K * V) (K * V2)).
  (** the keys in play: those kept, those to come; the target only grows *)
  Definition mi_keys (s : ist) : list K :=
    map fst (bd_tgt (ipr_a s)) ++ map fst (bd_src (ipr_a s)) ++ map fst (ipr_b s).
  Definition mi_R (s s' : ist * E) : Prop :=
    (exists d, Permutation (mi_keys (fst s') ++ d) (mi_keys (fst s))) /\
    exists t, bd_tgt (ipr_a (fst s')) = bd_tgt (ipr_a (fst s)) ++ t.
  Lemma mi_R_trans (s1 s2 s3 : ist * E) : mi_R s1 s2 -> mi_R s2 s3 -> mi_R s1 s3.
  Proof.
    intros [(d1 & P1) (t1 & E1)] [(d2 & P2) (t2 & E2)]. split.
    - exists (d2 ++ d1). rewrite app_assoc. etransitivity; [|exact P1]. now apply Permutation_app_tail.
    - exists (t1 ++ t2). now rewrite E2, E1, app_assoc.
  Qed.
  Lemma mi_R_refl (s : ist * E) : mi_R s s.
  Proof. split; exists []; now rewrite app_nil_r. Qed.

  (** [quiet f]: the closure never panics; otherwise panics are acceptable *)
  Definition quiet {X Y} (f : clos E X Y) : Prop := forall e x, snd (f e x) <> Throw.
  Context (RP : ist * E -> ist * E -> Prop).
  Context (TP : forall s1 s2 s3, mi_R s1 s2 -> RP s2 s3 -> RP s1 s3).

  Lemma mi_a t k v s d (b : list (K * V2)) (e e' : E) (o : option V) :
    mi_R (MkIpr (MkB t ((k, v) :: s) d) b, e) (ipr_emit (MkIpr (MkB t s d) b) k o, e').
  Proof.
    destruct o as [v'|]; (split; cbn; [|first [solve [eauto]|exists []; now rewrite app_nil_r]]).
    - exists []. rewrite app_nil_r. unfold mi_keys. cbn. rewrite map_app, <- app_assoc. cbn. reflexivity.
    - exists [k]. unfold mi_keys. cbn. rewrite Permutation_app_comm. cbn. apply Permutation_middle.
  Qed.
  Lemma mi_b t s d k w (b : list (K * V2)) (e e' : E) (o : option V) :
    mi_R (MkIpr (MkB t s d) ((k, w) :: b), e) (ipr_emit (MkIpr (MkB t s d) b) k o, e').
  Proof.
    destruct o as [v'|]; (split; cbn; [|first [solve [eauto]|exists []; now rewrite app_nil_r]]).
    - exists []. rewrite app_nil_r. unfold mi_keys. cbn. rewrite map_app, <- app_assoc. cbn.
      apply Permutation_app_head. apply Permutation_middle.
    - exists [k]. unfold mi_keys. cbn. rewrite Permutation_app_comm. cbn. rewrite !app_assoc.
      apply Permutation_middle.
  Qed.
  Lemma mi_c t k v s d k' w (b : list (K * V2)) (e e' : E) (o : option V) :
    mi_R (MkIpr (MkB t ((k, v) :: s) d) ((k', w) :: b), e) (ipr_emit (MkIpr (MkB t s d) b) k o, e').
  Proof.
    eapply mi_R_trans; [exact (mi_b t ((k, v) :: s) d k' w b e e None)|]. apply mi_a.
  Qed.

  Lemma call_ok {X} (O : mop (ist * E) (K * V) (K * V2)) (f : clos E X (option V)) s e x k da db (m : ist) :
    (forall e', mo_a O (m, e') = skipn da (mo_a O s)) ->
    (forall e', mo_b O (m, e') = skipn db (mo_b O s)) ->
    (forall e' o, mo_a O (ipr_emit m k o, e') = mo_a O (m, e')) ->
    (forall e' o, mo_b O (ipr_emit m k o, e') = mo_b O (m, e')) ->
    (forall e' o, mi_R s (ipr_emit m k o, e')) ->
    (quiet f \/ forall s' , mi_R s s' -> RP s s') ->
    stepok O mi_R RP s da db (call f e x (ipr_emit m k) m).
  Proof.
    intros HA HB EA EB HR HQ. unfold call. destruct (f e x) as [e' [o|]] eqn:Q.
    - cbn [stepok]. split; [apply HR|]. now rewrite EA, EB, HA, HB.
    - cbn [stepok]. destruct HQ as [N|P]; [exfalso; apply (N e x); now rewrite Q|].
      apply P. exact (HR e' None).
  Qed.

  Ltac emit := intros ? [|]; reflexivity.
  Lemma outer_i_steps f :
    (quiet f \/ forall s s' , mi_R s s' -> RP s s') -> steps (OuterJoinOp_i unused_cmp f) mi_R RP.
  Proof.
    intros HQ. constructor; [apply mi_R_refl|apply mi_R_trans|exact TP|..].
    - intros s n L. apply (for_n_ok_a _ _ _ mi_R_trans TP mi_R_refl); [|exact L]. clear s n L.
      intros [[[t s d] b] e]; cbn. destruct s as [|[k v] s]; cbn; [lia|intros _].
      apply call_ok; try reflexivity; try emit; [intros; apply mi_a|intuition].
    - intros s n L. apply (for_n_ok_b _ _ _ mi_R_trans TP mi_R_refl); [|exact L]. clear s n L.
      intros [[[t s d] b] e]; cbn. destruct b as [|[k v] b]; cbn; [lia|intros _].
      apply call_ok; try reflexivity; try emit; [intros; apply mi_b|intuition].
    - intros [[[t s d] b] e]; cbn. destruct s as [|[k v] s]; cbn; [lia|intros _].
      destruct b as [|[k' w] b]; cbn; [lia|intros _].
      apply call_ok; try reflexivity; try emit; [intros; apply mi_c|intuition].
  Qed.
  Lemma drop_a_ok (O : mop (ist * E) (K * V) (K * V2)) s n :
    mo_a O = (fun s => bd_src (ipr_a (fst s))) -> mo_b O = (fun s => ipr_b (fst s)) ->
    stepok O mi_R RP s n 0 (ji_drop_a s n).
  Proof.
    intros QA QB. destruct s as [[[t s d] b] e]. unfold ji_drop_a. cbn [stepok]. rewrite QA, QB. cbn.
    split; [|now split]. split; cbn.
    - exists (map fst (firstn n s)). unfold mi_keys. cbn. rewrite <- !app_assoc. apply Permutation_app_head.
      rewrite app_assoc, Permutation_app_comm, app_assoc. apply Permutation_app_tail.
      now rewrite <- map_app, firstn_skipn.
    - exists []. now rewrite app_nil_r.
  Qed.
  Lemma drop_b_ok (O : mop (ist * E) (K * V) (K * V2)) s n :
    mo_a O = (fun s => bd_src (ipr_a (fst s))) -> mo_b O = (fun s => ipr_b (fst s)) ->
    n <= length (ipr_b (fst s)) ->
    stepok O mi_R RP s 0 n (ji_drop_b s n).
  Proof.
    intros QA QB. destruct s as [[[t s d] b] e]. unfold ji_drop_b, si_drop_front. cbn [fst ipr_b]. intros L.
    destruct (Nat.leb_spec n (length b)); [|lia]. cbn [stepok]. rewrite QA, QB. cbn. split; [|now split]. split; cbn.
    - exists (map fst (firstn n b)). unfold mi_keys. cbn. rewrite <- !app_assoc. do 2 apply Permutation_app_head.
      rewrite <- (firstn_skipn n b) at 3. rewrite map_app. apply Permutation_app_comm.
    - exists []. now rewrite app_nil_r.
  Qed.
  Lemma left_i_steps f :
    (quiet f \/ forall s s' , mi_R s s' -> RP s s') -> steps (LeftJoinOp_i unused_cmp f) mi_R RP.
  Proof.
    intros HQ. constructor; [apply mi_R_refl|apply mi_R_trans|exact TP|..].
    - intros s n L. apply (for_n_ok_a _ _ _ mi_R_trans TP mi_R_refl); [|exact L]. clear s n L.
      intros [[[t s d] b] e]; cbn. destruct s as [|[k v] s]; cbn; [lia|intros _].
      apply call_ok; try reflexivity; try emit; [intros; apply mi_a|intuition].
    - intros s n L. now apply drop_b_ok.
    - intros [[[t s d] b] e]; cbn. destruct s as [|[k v] s]; cbn; [lia|intros _].
      destruct b as [|[k' w] b]; cbn; [lia|intros _].
      apply call_ok; try reflexivity; try emit; [intros; apply mi_c|intuition].
  Qed.
  Lemma right_i_steps f :
    (quiet f \/ forall s s' , mi_R s s' -> RP s s') -> steps (RightJoinOp_i unused_cmp f) mi_R RP.
  Proof.
    intros HQ. constructor; [apply mi_R_refl|apply mi_R_trans|exact TP|..].
    - intros s n L. now apply drop_a_ok.
    - intros s n L. apply (for_n_ok_b _ _ _ mi_R_trans TP mi_R_refl); [|exact L]. clear s n L.
      intros [[[t s d] b] e]; cbn. destruct b as [|[k v] b]; cbn; [lia|intros _].
      apply call_ok; try reflexivity; try emit; [intros; apply mi_b|intuition].
    - intros [[[t s d] b] e]; cbn. destruct s as [|[k v] s]; cbn; [lia|intros _].
      destruct b as [|[k' w] b]; cbn; [lia|intros _].
      apply call_ok; try reflexivity; try emit; [intros; apply mi_c|intuition].
  Qed.
  Lemma inner_i_steps f :
    (quiet f \/ forall s s' , mi_R s s' -> RP s s') -> steps (InnerJoinOp_i unused_cmp f) mi_R RP.
  Proof.
    intros HQ. constructor; [apply mi_R_refl|apply mi_R_trans|exact TP|..].
    - intros s n L. now apply drop_a_ok.
    - intros s n L. now apply drop_b_ok.
    - intros [[[t s d] b] e]; cbn. destruct s as [|[k v] s]; cbn; [lia|intros _].
      destruct b as [|[k' w] b]; cbn; [lia|intros _].
      apply call_ok; try reflexivity; try emit; [intros; apply mi_c|intuition].
  Qed.
End MapInst.

(** combine_with takes its argument by value *)
Section CombineInst.
  Context {K V E : Type}.
  Local Notation ist := (ipstate (K * V) (K * V)).
  Definition mp_keys (s : ist) : list K :=
    map fst (bd_tgt (ip_a s)) ++ map fst (bd_src (ip_a s)) ++ map fst (ip_b s).
  Definition mp_R (s s' : ist * E) : Prop :=
    (exists d, Permutation (mp_keys (fst s') ++ d) (mp_keys (fst s))) /\
    exists t, bd_tgt (ip_a (fst s')) = bd_tgt (ip_a (fst s)) ++ t.
  Lemma mp_R_trans (s1 s2 s3 : ist * E) : mp_R s1 s2 -> mp_R s2 s3 -> mp_R s1 s3.
  Proof.
    intros [(d1 & P1) (t1 & E1)] [(d2 & P2) (t2 & E2)]. split.
    - exists (d2 ++ d1). rewrite app_assoc. etransitivity; [|exact P1]. now apply Permutation_app_tail.
    - exists (t1 ++ t2). now rewrite E2, E1, app_assoc.
  Qed.
  Lemma mp_R_refl (s : ist * E) : mp_R s s.
  Proof. split; exists []; now rewrite app_nil_r. Qed.
  Context (RP : ist * E -> ist * E -> Prop).
  Context (TP : forall s1 s2 s3, mp_R s1 s2 -> RP s2 s3 -> RP s1 s3).
  Lemma mp_a t k v s d b db (e e' : E) (o : option V) :
    mp_R (MkIp (MkB t ((k, v) :: s) d) b db, e) (ip_emit (MkIp (MkB t s d) b db) k o, e').
  Proof.
    destruct o as [v'|]; (split; cbn; [|first [solve [eauto]|exists []; now rewrite app_nil_r]]).
    - exists []. rewrite app_nil_r. unfold mp_keys. cbn. rewrite map_app, <- app_assoc. cbn. reflexivity.
    - exists [k]. unfold mp_keys. cbn. rewrite Permutation_app_comm. cbn. apply Permutation_middle.
  Qed.
  Lemma mp_b t s d k w b db (e e' : E) (o : option V) :
    mp_R (MkIp (MkB t s d) ((k, w) :: b) db, e) (ip_emit (MkIp (MkB t s d) b db) k o, e').
  Proof.
    destruct o as [v'|]; (split; cbn; [|first [solve [eauto]|exists []; now rewrite app_nil_r]]).
    - exists []. rewrite app_nil_r. unfold mp_keys. cbn. rewrite map_app, <- app_assoc. cbn.
      apply Permutation_app_head. apply Permutation_middle.
    - exists [k]. unfold mp_keys. cbn. rewrite Permutation_app_comm. cbn. rewrite !app_assoc.
      apply Permutation_middle.
  Qed.
  Lemma mp_c t k v s d k' w b db (e e' : E) (o : option V) :
    mp_R (MkIp (MkB t ((k, v) :: s) d) ((k', w) :: b) db, e) (ip_emit (MkIp (MkB t s d) b db) k o, e').
  Proof.
    eapply mp_R_trans; [exact (mp_b t ((k, v) :: s) d k' w b db e e None)|]. apply mp_a.
  Qed.
  Lemma callp_ok {X} (O : mop (ist * E) (K * V) (K * V)) (f : clos E X (option V)) s e x k da db (m : ist) :
    (forall e', mo_a O (m, e') = skipn da (mo_a O s)) ->
    (forall e', mo_b O (m, e') = skipn db (mo_b O s)) ->
    (forall e' o, mo_a O (ip_emit m k o, e') = mo_a O (m, e')) ->
    (forall e' o, mo_b O (ip_emit m k o, e') = mo_b O (m, e')) ->
    (forall e' o, mp_R s (ip_emit m k o, e')) ->
    (quiet f \/ forall s' , mp_R s s' -> RP s s') ->
    stepok O mp_R RP s da db (call f e x (ip_emit m k) m).
  Proof.
    intros HA HB EA EB HR HQ. unfold call. destruct (f e x) as [e' [o|]] eqn:Q.
    - cbn [stepok]. split; [apply HR|]. now rewrite EA, EB, HA, HB.
    - cbn [stepok]. destruct HQ as [N|P]; [exfalso; apply (N e x); now rewrite Q|].
      apply P. exact (HR e' None).
  Qed.
  Ltac emit := intros ? [|]; reflexivity.
  Lemma outer_p_steps (f : clos E (ojarg K V V) (option V)) :
    (quiet f \/ forall s s' , mp_R s s' -> RP s s') -> steps (OuterJoinOp_p unused_cmp f) mp_R RP.
  Proof.
    intros HQ. constructor; [apply mp_R_refl|apply mp_R_trans|exact TP|..].
    - intros s n L. apply (for_n_ok_a _ _ _ mp_R_trans TP mp_R_refl); [|exact L]. clear s n L.
      intros [[[t s d] b db] e]; cbn. destruct s as [|[k v] s]; cbn; [lia|intros _].
      apply callp_ok; try reflexivity; try emit; [intros; apply mp_a|intuition].
    - intros s n L. apply (for_n_ok_b _ _ _ mp_R_trans TP mp_R_refl); [|exact L]. clear s n L.
      intros [[[t s d] b db] e]; cbn. destruct b as [|[k v] b]; cbn; [lia|intros _].
      apply callp_ok; try reflexivity; try emit; [intros; apply mp_b|intuition].
    - intros [[[t s d] b db] e]; cbn. destruct s as [|[k v] s]; cbn; [lia|intros _].
      destruct b as [|[k' w] b]; cbn; [lia|intros _].
      apply callp_ok; try reflexivity; try emit; [intros; apply mp_c|intuition].
  Qed.
End CombineInst.
