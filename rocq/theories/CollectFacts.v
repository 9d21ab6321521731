(** Facts about collecting under an arbitrary comparison (CollectModel.v). *)
From Verif Require Import CollectModel DedupFacts OracleFacts.
Require Import Coq.Sorting.Permutation.

Lemma swap_at_perm {T} (l : list T) i j : j < i -> i < length l ->
  exists l', swap_at i j l = Some l' /\ Permutation l' l.
Proof.
  intros H1 H2.
  destruct (nth_error l j) as [x|] eqn:Q; [|apply nth_error_None in Q; lia].
  destruct (nth_error_split l j Q) as (l1 & r & E & Len).
  destruct (nth_error r (i - j - 1)) as [y|] eqn:Q2.
  2:{ apply nth_error_None in Q2. subst l. rewrite app_length in H2. cbn in H2. lia. }
  destruct (nth_error_split r _ Q2) as (l2 & l3 & E2 & Len2). subst r l.
  exists (l1 ++ y :: l2 ++ x :: l3). split.
  - rewrite <- (swap_at_split l1 l2 l3 x y). f_equal; lia.
  - apply Permutation_app_head.
    replace (y :: l2 ++ x :: l3) with ((y :: l2) ++ x :: l3) by reflexivity.
    replace (x :: l2 ++ y :: l3) with ((x :: l2) ++ y :: l3) by reflexivity.
    rewrite <- !Permutation_middle. cbn. apply perm_swap.
Qed.

Section Conserve.
  Context {T W : Type} (c : W -> T -> T -> W * option comparison).
  Context (srt : list T -> W -> (list T * bool) * W).
  Context (SP : forall l w, Permutation (fst (fst (srt l w))) l).
  (** the sort only unwinds when the comparison may panic, or when it notices that the comparison is
      not an order: [Bad] *)
  Context (Bad : Prop) (SB : forall l w, snd (fst (srt l w)) = false -> ~ never_panics c \/ Bad).
  (** calls of the comparison *)
  Context (cnt : W -> nat) (CC : forall w x y, cnt (fst (c w x y)) <= S (cnt w)).

  Lemma wdedup_loop_ok kp : forall n i d j w, j < i -> i + n <= length d ->
    let r := wdedup_loop c kp (seq i n) d j w in
    Permutation (fst (fst (fst r))) d /\ snd (fst (fst r)) < i + n /\
    (snd (fst r) = false -> ~ never_panics c) /\ cnt (snd r) <= cnt w + n.
  Proof.
    induction n as [|n IH]; intros i d j w H1 H2; cbn [seq wdedup_loop]; cbv zeta.
    - cbn [fst snd]. split; [reflexivity|]. split; [lia|]. split; [discriminate|lia].
    - destruct (nth_error d i) as [x|] eqn:N1; [|apply nth_error_None in N1; lia].
      destruct (nth_error d j) as [y|] eqn:N2; [|apply nth_error_None in N2; lia].
      pose proof (CC w x y) as CQ. destruct (c w x y) as [w' [q|]] eqn:Q; cbn [fst] in CQ.
      2:{ cbn [fst snd]. split; [reflexivity|]. split; [lia|]. split; [|lia].
          intros _ NP. apply (NP w x y). now rewrite Q. }
      assert (G : forall d' j', Permutation d' d -> j' < S i ->
        let r := wdedup_loop c kp (seq (S i) n) d' j' w' in
        Permutation (fst (fst (fst r))) d /\ snd (fst (fst r)) < i + S n /\
        (snd (fst r) = false -> ~ never_panics c) /\ cnt (snd r) <= cnt w + S n).
      { intros d' j' P J. pose proof (Permutation_length P) as LP.
        destruct (IH (S i) d' j' w' J ltac:(lia)) as (A & B & C & D).
        split; [now rewrite A|]. split; [lia|]. split; [exact C|lia]. }
      destruct (match q with Eq => false | _ => true end).
      + destruct (Nat.eqb_spec i (j + 1)) as [E|NE]; cbn [negb].
        * apply G; [reflexivity|lia].
        * destruct (swap_at_perm d i (j + 1) ltac:(lia) ltac:(lia)) as (d' & -> & P). apply G; [exact P|lia].
      + destruct kp; [apply G; [reflexivity|lia]|].
        destruct (swap_at_perm d i j ltac:(lia) ltac:(lia)) as (d' & -> & P). apply G; [exact P|lia].
  Qed.
  Lemma wdedup_by_ok kp d w :
    let r := wdedup_by c d kp w in
    Permutation (fst (fst (fst r))) d /\ snd (fst (fst r)) <= length d /\
    (snd (fst r) = false -> ~ never_panics c) /\ cnt (snd r) <= cnt w + (length d - 1).
  Proof.
    destruct d as [|x d]; cbv zeta.
    { cbn. split; [constructor|]. split; [lia|]. split; [discriminate|lia]. }
    cbn [wdedup_by].
    pose proof (wdedup_loop_ok kp (length (x :: d) - 1) 1 (x :: d) 0 w ltac:(lia) ltac:(cbn; lia)) as H.
    cbv zeta in H. destruct (wdedup_loop _ _ _ _ _ _) as [[[d' j] ok] w']. cbn [fst snd] in *.
    destruct H as (A & B & C & D). split; [exact A|]. split; [cbn [length] in *; lia|]. split; [exact C|exact D].
  Qed.

  Definition wall (s : wsad) : list T := wd_data s ++ wd_drop s.

  (** [bound m]: comparisons of sorting a slice of length m *)
  Context (bound : nat -> nat) (SC : forall l w, cnt (snd (srt l w)) <= cnt w + bound (length l)).

  Definition unsorted (s : wsad (T := T)) := length (wd_data s) - wd_sorted s.

  Lemma wsd_compact_ok s w : wd_sorted s <= length (wd_data s) ->
    let r := wsd_compact c srt s w in
    cnt (snd r) <= cnt w + (if wd_sorted s <? length (wd_data s)
                            then bound (length (wd_data s)) + length (wd_data s) else 0) /\
    match fst r with
    | Done s' => Permutation (wall s') (wall s) /\ wd_sorted s' = length (wd_data s') /\
                 length (wd_data s') <= length (wd_data s) /\ wd_keep s' = wd_keep s
    | Unwound s' => Permutation (wall s') (wall s) /\ (~ never_panics c \/ Bad)
    | DoneNoFuel => False
    end.
  Proof.
    intros S0. cbv zeta. unfold wsd_compact. destruct (Nat.ltb_spec (wd_sorted s) (length (wd_data s))) as [LT|GE].
    2:{ cbn [fst snd]. split; [lia|]. split; [reflexivity|]. split; [lia|]. split; [lia|reflexivity]. }
    pose proof (SP (wd_data s) w) as P1. pose proof (SB (wd_data s) w) as B1. pose proof (SC (wd_data s) w) as C1.
    destruct (srt (wd_data s) w) as [[slice ok] w1]. cbn [fst snd] in P1, B1, C1.
    destruct ok.
    2:{ cbn [fst snd]. split; [lia|]. split; [|now apply B1]. unfold wall. cbn. now rewrite P1. }
    pose proof (wdedup_by_ok (wd_keep s) slice w1) as H. cbv zeta in H.
    pose proof (Permutation_length P1) as L1.
    destruct (wdedup_by c slice (wd_keep s) w1) as [[[d' u] ok2] w2]. cbn [fst snd] in H.
    destruct H as (A & B & C & D). pose proof (Permutation_length A) as L2.
    destruct ok2; cbn [fst snd].
    2:{ split; [lia|]. split; [|left; now apply C]. unfold wall. cbn. now rewrite A, P1. }
    split; [lia|]. split.
    - unfold wall. cbn. rewrite (Permutation_app_comm (wd_drop s) (skipn u d')), app_assoc, firstn_skipn.
      now rewrite A, P1.
    - cbn. rewrite firstn_length. split; [reflexivity|]. split; [lia|reflexivity].
  Qed.

  Lemma wsd_push_raw_ok s x w : wd_sorted s <= length (wd_data s) ->
    let r := wsd_push_raw c s x w in
    cnt (snd r) <= cnt w + 1 /\
    match fst r with
    | Done s' => Permutation (wall s') (x :: wall s) /\ wd_sorted s' <= length (wd_data s') /\
                 length (wd_data s') <= S (length (wd_data s)) /\ wd_keep s' = wd_keep s /\
                 unsorted s' <= S (unsorted s)
    | Unwound s' => Permutation (wall s') (x :: wall s) /\ ~ never_panics c
    | DoneNoFuel => False
    end.
  Proof.
    intros S0. cbv zeta. unfold wsd_push_raw.
    assert (PA : forall n k, Permutation (wall (MkWsad (wd_data s ++ [x]) n k (wd_drop s))) (x :: wall s)).
    { intros n k. unfold wall. cbn. rewrite <- app_assoc. cbn. symmetry. apply Permutation_middle. }
    destruct (Nat.eqb_spec (wd_sorted s) (length (wd_data s))) as [E|NE].
    2:{ cbn [fst snd]. split; [lia|]. split; [now apply PA|]. unfold unsorted. cbn. rewrite app_length. cbn.
        split; [lia|]. split; [lia|]. split; [reflexivity|lia]. }
    destruct (rev (wd_data s)) as [|last fr] eqn:R.
    { cbn [fst snd]. split; [lia|]. split; [now apply PA|]. unfold unsorted. cbn. rewrite app_length. cbn.
      split; [lia|]. split; [lia|]. split; [reflexivity|lia]. }
    assert (DE : wd_data s = rev fr ++ [last]).
    { rewrite <- (rev_involutive (wd_data s)), R. reflexivity. }
    pose proof (CC w last x) as CQ. destruct (c w last x) as [w' [q|]] eqn:Q; cbn [fst] in CQ; cbn [fst snd].
    2:{ cbn [fst snd]. split; [lia|]. split.
        - unfold wall. cbn. rewrite app_assoc, <- Permutation_cons_append. reflexivity.
        - intros NP. apply (NP w last x). now rewrite Q. }
    destruct q; cbn [fst snd].
    - destruct (wd_keep s) eqn:KP; cbn [fst snd]; (split; [lia|]).
      + split; [unfold wall; cbn; rewrite app_assoc, <- Permutation_cons_append; reflexivity|].
        unfold unsorted. cbn. split; [lia|]. split; [lia|]. split; [reflexivity|lia].
      + split.
        * unfold wall. cbn. rewrite DE, <- !app_assoc. cbn.
          rewrite <- Permutation_middle. apply perm_skip. apply Permutation_app_head.
          rewrite <- Permutation_cons_append. reflexivity.
        * unfold unsorted. cbn. rewrite E, DE, !app_length. cbn. split; [lia|]. split; [lia|]. split; [reflexivity|lia].
    - split; [lia|]. split; [now apply PA|]. unfold unsorted. cbn. rewrite app_length. cbn.
      split; [lia|]. split; [lia|]. split; [reflexivity|lia].
    - split; [lia|]. split; [now apply PA|]. unfold unsorted. cbn. rewrite app_length. cbn.
      split; [lia|]. split; [lia|]. split; [reflexivity|lia].
  Qed.

  (** [G]: comparisons per element of a compaction, for slices up to length [N] *)
  Context (N G : nat) (GB : forall m, m <= N -> bound m + m <= G * m).

  Lemma wsd_push_ok s x w : wd_sorted s <= length (wd_data s) ->
    let r := wsd_push c srt s x w in
    (length (wd_data s) < N ->
     cnt (snd r) + match fst r with Done s' => 2 * G * unsorted s' | _ => 0 end
       <= cnt w + 2 * G * unsorted s + 1 + 2 * G) /\
    match fst r with
    | Done s' => Permutation (wall s') (x :: wall s) /\ wd_sorted s' <= length (wd_data s') /\
                 length (wd_data s') <= S (length (wd_data s)) /\ wd_keep s' = wd_keep s
    | Unwound s' => Permutation (wall s') (x :: wall s) /\ (~ never_panics c \/ Bad)
    | DoneNoFuel => False
    end.
  Proof.
    intros S0. cbv zeta. unfold wsd_push.
    pose proof (wsd_push_raw_ok s x w S0) as H. cbv zeta in H.
    destruct (wsd_push_raw c s x w) as [[s1|s1|] w1]; cbn [fst snd] in H.
    3:{ destruct H as [_ []]. }
    2:{ destruct H as (C1 & P & NP). cbn [fst snd]. split; [intros _; lia|]. split; [exact P|now left]. }
    destruct H as (C1 & P & S1 & L1 & K1 & U1).
    assert (UG : 2 * G * unsorted s1 <= 2 * G * unsorted s + 2 * G) by nia.
    destruct (16 <=? length (wd_data s1)).
    2:{ cbn [fst snd]. split; [intros _; lia|]. repeat (split; try assumption). }
    destruct (Nat.ltb_spec (wd_sorted s1) (length (wd_data s1) - wd_sorted s1)) as [LT|GE].
    2:{ cbn [fst snd]. split; [intros _; lia|]. repeat (split; try assumption). }
    pose proof (wsd_compact_ok s1 w1 S1) as H. cbv zeta in H.
    destruct (Nat.ltb_spec (wd_sorted s1) (length (wd_data s1))) as [_|?]; [|lia].
    destruct H as (C2 & H).
    assert (CG : length (wd_data s) < N -> bound (length (wd_data s1)) + length (wd_data s1) <= 2 * G * unsorted s1).
    { intros LN. pose proof (GB (length (wd_data s1)) ltac:(lia)). unfold unsorted. nia. }
    destruct (wsd_compact c srt s1 w1) as [[s2|s2|] w2]; cbn [fst snd] in *.
    - destruct H as (P2 & E2 & L2 & K2). split.
      + intros LN. specialize (CG LN). unfold unsorted at 1. rewrite E2, Nat.sub_diag, Nat.mul_0_r. lia.
      + split; [now rewrite P2|]. split; [lia|]. split; [lia|congruence].
    - destruct H as (P2 & B2). split; [intros LN; specialize (CG LN); lia|]. split; [now rewrite P2|exact B2].
    - destruct H.
  Qed.

  Lemma wsd_run_ok : forall l s w, wd_sorted s <= length (wd_data s) ->
    let r := wsd_run c srt s l w in
    (length (wd_data s) + length l <= N ->
     cnt (snd r) <= cnt w + 2 * G * unsorted s + length l * (1 + 2 * G) + G * N) /\
    match fst r with
    | Done (d, drop, rest) => Permutation (d ++ drop) (wall s ++ l) /\ rest = []
    | Unwound (d, drop, rest) =>
        Permutation (d ++ drop ++ rest) (wall s ++ l) /\ (~ never_panics c \/ Bad)
    | DoneNoFuel => False
    end.
  Proof.
    induction l as [|x l IH]; intros s w S0; cbv zeta; cbn [wsd_run].
    - pose proof (wsd_compact_ok s w S0) as H. cbv zeta in H. destruct H as (C1 & H).
      assert (CG : length (wd_data s) + 0 <= N -> (if wd_sorted s <? length (wd_data s)
                 then bound (length (wd_data s)) + length (wd_data s) else 0) <= G * N).
      { intros LN. destruct (_ <? _); [|lia]. pose proof (GB (length (wd_data s)) ltac:(lia)). nia. }
      destruct (wsd_compact c srt s w) as [[s1|s1|] w1]; cbn [fst snd] in *.
      + destruct H as (P & _). split; [intros LN; specialize (CG LN); lia|]. rewrite app_nil_r. split; [exact P|reflexivity].
      + destruct H as (P & B). split; [intros LN; specialize (CG LN); lia|]. rewrite !app_nil_r. split; [exact P|exact B].
      + destruct H.
    - pose proof (wsd_push_ok s x w S0) as H. cbv zeta in H. destruct H as (C1 & H).
      destruct (wsd_push c srt s x w) as [[s1|s1|] w1]; cbn [fst snd] in *.
      + destruct H as (P & S1 & L1 & K1). destruct (IH s1 w1 S1) as (C2 & H2). split.
        * intros LN. cbn [length] in *. specialize (C1 ltac:(lia)). specialize (C2 ltac:(lia)). lia.
        * destruct (wsd_run c srt s1 l w1) as [[[[d dr] rs]|[[d dr] rs]|] w2]; cbn [fst] in *.
          -- destruct H2 as (P2 & E2). split; [|exact E2]. rewrite P2, P. cbn. apply Permutation_middle.
          -- destruct H2 as (P2 & B2). split; [|exact B2]. rewrite P2, P. cbn. apply Permutation_middle.
          -- destruct H2.
      + destruct H as (P & B). split; [intros LN; cbn [length] in *; specialize (C1 ltac:(lia)); lia|].
        split; [|exact B]. rewrite app_assoc. fold (wall s1). rewrite P. cbn. apply Permutation_middle.
      + destruct H.
  Qed.
End Conserve.

(** ** An order that may be interrupted: either it is the code of DedupModel.v, or it unwinds *)
Section Erase.
  Context {T W : Type} (cmp : T -> T -> comparison) (c : W -> T -> T -> W * option comparison).
  Context (CE : forall w x y q, snd (c w x y) = Some q -> q = cmp x y).
  Context (srt : list T -> W -> (list T * bool) * W).
  Context (SE : forall l w, snd (fst (srt l w)) = true -> fst (fst (srt l w)) = sort_by cmp l).

  Lemma wdedup_loop_erase kp : forall is d j w r,
    dedup_loop (fun a b => eqb_of cmp a b) kp is d j = Some r ->
    snd (fst (wdedup_loop c kp is d j w)) = true -> fst (fst (wdedup_loop c kp is d j w)) = r.
  Proof.
    induction is as [|i is IH]; intros d j w r; cbn [dedup_loop wdedup_loop].
    { intros [= <-] _. reflexivity. }
    destruct (nth_error d i) as [x|]; [|discriminate]. destruct (nth_error d j) as [y|]; [|discriminate].
    pose proof (CE w x y) as Q. destruct (c w x y) as [w' [q|]]; cbn [snd] in Q; [|discriminate].
    rewrite (Q q eq_refl). clear Q.
    unfold eqb_of. destruct (cmp x y); cbn [negb].
    - destruct kp; [apply IH|]. destruct (swap_at i j d); [apply IH|discriminate].
    - destruct (i =? j + 1); cbn [negb]; [apply IH|]. destruct (swap_at i (j + 1) d); [apply IH|discriminate].
    - destruct (i =? j + 1); cbn [negb]; [apply IH|]. destruct (swap_at i (j + 1) d); [apply IH|discriminate].
  Qed.
  Lemma wdedup_by_erase kp d w r :
    dedup_by d (fun a b => eqb_of cmp a b) kp = Some r ->
    snd (fst (wdedup_by c d kp w)) = true -> fst (fst (wdedup_by c d kp w)) = r.
  Proof.
    unfold dedup_by, wdedup_by. destruct d as [|x d]; [intros [= <-]; reflexivity|].
    destruct (dedup_loop _ _ _ _ _) as [[d' j]|] eqn:Q; [|discriminate]. intros [= <-].
    pose proof (wdedup_loop_erase _ _ _ _ w _ Q) as H.
    destruct (wdedup_loop c kp _ _ _ w) as [[[d2 j2] ok] w2]. cbn [fst snd] in *. intros ->.
    now injection (H eq_refl) as -> ->.
  Qed.
  Definition er (s : wsad (T := T)) : sad := MkSad (wd_data s) (wd_sorted s) (wd_keep s).
  Definition like (o : done (wsad (T := T))) (s1 : sad) : Prop :=
    match o with Done s' => er s' = s1 | Unwound _ => True | DoneNoFuel => False end.
  Lemma wsd_compact_erase s w s1 : sd_compact cmp (er s) = Some s1 -> like (fst (wsd_compact c srt s w)) s1.
  Proof.
    unfold sd_compact, wsd_compact. cbn [er sd_data sd_sorted sd_keep].
    destruct (wd_sorted s <? length (wd_data s)).
    2:{ intros [= <-]. reflexivity. }
    pose proof (SE (wd_data s) w) as H. destruct (srt (wd_data s) w) as [[sl ok] w1]. cbn [fst snd] in H.
    destruct ok; [|intros _; exact I]. rewrite (H eq_refl). clear H.
    destruct (dedup_by _ _ _) as [[sl' u]|] eqn:Q; [|discriminate]. intros [= <-].
    pose proof (wdedup_by_erase _ _ w1 _ Q) as H.
    destruct (wdedup_by c _ _ w1) as [[[d2 j2] ok] w2]. cbn [fst snd] in *.
    destruct ok; [|exact I]. injection (H eq_refl) as -> ->. reflexivity.
  Qed.
  Lemma wsd_push_erase s x w s1 : sd_push cmp (er s) x = Some s1 -> like (fst (wsd_push c srt s x w)) s1.
  Proof.
    assert (R : like (fst (wsd_push_raw c s x w)) (sd_push_raw cmp (er s) x)).
    { unfold wsd_push_raw, sd_push_raw. cbn [er sd_data sd_sorted sd_keep].
      destruct (wd_sorted s =? length (wd_data s)); [|reflexivity].
      destruct (rev (wd_data s)) as [|last fr]; [reflexivity|].
      pose proof (CE w last x) as Q. destruct (c w last x) as [w' [q|]]; cbn [snd] in Q; [|exact I].
      rewrite <- (Q q eq_refl). destruct q; [destruct (wd_keep s) eqn:KP|..]; cbn; try reflexivity.
      unfold er. now rewrite KP. }
    unfold sd_push, wsd_push. destruct (wsd_push_raw c s x w) as [[s2|s2|] w1]; cbn [fst like] in R;
      [|intros _; exact I|destruct R].
    rewrite <- R. cbn [er sd_data sd_sorted sd_keep].
    destruct (16 <=? length (wd_data s2)); [|intros [= <-]; reflexivity].
    destruct (wd_sorted s2 <? _); [|intros [= <-]; reflexivity]. apply wsd_compact_erase.
  Qed.
  Lemma wsd_run_erase : forall l s w r,
    match sd_push_all cmp (er s) l with Some s' => sd_into_inner cmp s' | None => None end = Some r ->
    match fst (wsd_run c srt s l w) with
    | Done (d, _, rest) => d = r /\ rest = [] | Unwound _ => True | DoneNoFuel => False end.
  Proof.
    induction l as [|x l IH]; intros s w r; cbn [sd_push_all wsd_run].
    - unfold sd_into_inner. destruct (sd_compact cmp (er s)) as [s1|] eqn:Q; [|discriminate]. intros [= <-].
      pose proof (wsd_compact_erase s w s1 Q) as H.
      destruct (wsd_compact c srt s w) as [[s2|s2|] w1]; cbn [fst like] in H |- *; [|exact I|destruct H].
      subst s1. split; reflexivity.
    - destruct (sd_push cmp (er s) x) as [s1|] eqn:Q; [|discriminate]. intros H.
      pose proof (wsd_push_erase s x w s1 Q) as G.
      destruct (wsd_push c srt s x w) as [[s2|s2|] w1]; cbn [fst like] in G |- *; [|exact I|destruct G].
      subst s1. now apply IH.
  Qed.
  Lemma wsort_dedup_erase l kp w r : sort_dedup_by cmp l kp = Some r ->
    match fst (wsort_dedup_by c srt l kp w) with
    | Done (d, _, rest) => d = r /\ rest = [] | Unwound _ => True | DoneNoFuel => False end.
  Proof. intros H. apply wsd_run_erase. exact H. Qed.
End Erase.
