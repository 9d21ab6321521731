(** C139: a panic in the comparisons (and Clone) that lookups, single-element changes and relations of VecSet, VecMap,
    TotalVecSet and TotalVecMap run reaches the caller, no user code runs after it, and these operations have no panics of
    their own. *)
From Verif Require Import LookUserSpec CollectFacts OracleFacts PropOracle LookUserModel PropRadixUser PropPanic PropPanicVec.
Require Import Coq.Sorting.Permutation.

(** ** Specification, with [all_returned], [last_panicked] and [records] of PropPanic.v *)
Section Spec.
  Context {E : Type} (log : E -> list bool).
  (** the call returns exactly if all user code did; it panics only because the last user code it called panicked *)
  Definition answer_ends {Y} (e : E) (r : res Y * E) : Prop :=
    match fst r with
    | Ok _ => all_returned log e (snd r)
    | Panicked => last_panicked log e (snd r)
    | OutOfFuel => False
    end.
  (** the same for a call that changes a collection; a panic leaves it as it was ([kept]) *)
  Definition change_ends {Y} (e : E) (kept : Y -> Prop) (r : done Y * E) : Prop :=
    match fst r with
    | Done _ => all_returned log e (snd r)
    | Unwound y => last_panicked log e (snd r) /\ kept y
    | DoneNoFuel => False
    end.
  (** what is assumed of the standard library's sort: whatever the comparison does, it permutes the slice, it returns only
      if all comparisons it made returned, and it unwinds only because the last one panicked *)
  Definition sort_ends {A} (srt : list A -> E -> (list A * bool) * E) : Prop := forall l e,
    Permutation (fst (fst (srt l e))) l /\
    if snd (fst (srt l e)) then all_returned log e (snd (srt l e)) else last_panicked log e (snd (srt l e)).
End Spec.

(** ** Links *)
Section Links.
  Context {E : Type} (Q T : E -> Prop).
  (** [c'] is [c] without panics *)
  Definition calm_of {A B} (c c' : E -> A -> B -> E * option comparison) : Prop :=
    forall e x y, Q e -> match c e x y with (e', Some _) => Q e' /\ c' e x y = c e x y | (e', None) => T e' end.
  Definition search_ends {A} (l : list A) (r : bsres * E) : Prop :=
    match r with
    | (BsOk i, e) => Q e /\ i < length l
    | (BsErr i, e) => Q e
    | (BsPanic, e) => T e
    | (BsNoFuel, _) => False
    end.
  Lemma loop_ends {A} (f : E -> A -> E * option comparison) (l : list A)
    (F : forall e x, Q e -> match f e x with (e', Some _) => Q e' | (e', None) => T e' end) :
    forall fuel left right e, right < fuel + left -> left <= right -> right <= length l -> Q e -> search_ends l (wbs_loop f l fuel left right e).
  Proof using.
    induction fuel as [|fuel IH]; intros left right e F0 LR RL H; cbn [wbs_loop]; [cbn; lia|].
    destruct (Nat.ltb_spec left right) as [LT|GE]; [|exact H].
    pose proof (Nat.div_lt (right - left) 2 ltac:(lia) ltac:(lia)) as D.
    set (mid := left + (right - left) / 2) in *.
    destruct (nth_error l mid) as [x|] eqn:N; [|apply nth_error_None in N; lia].
    specialize (F e x H). destruct (f e x) as [e1 [[]|]].
    - split; [exact F|lia].
    - apply IH; try lia. exact F.
    - apply IH; try lia. exact F.
    - exact F.
  Qed.
  Lemma bsearch_ends {A} (f : E -> A -> E * option comparison) (l : list A) e
    (F : forall e x, Q e -> match f e x with (e', Some _) => Q e' | (e', None) => T e' end) : Q e -> search_ends l (wbsearch f l e).
  Proof using. intros H. apply loop_ends; try lia; assumption. Qed.

  (** a search with panics against the same search without *)
  Definition trs (r r' : bsres * E) : Prop :=
    match r with (BsPanic, e) => T e \/ Q e /\ r' = r | (BsNoFuel, _) => r' = r | (_, e) => Q e /\ r' = r end.
  Lemma loop_tr {A} (f f' : E -> A -> E * option comparison) (l : list A)
    (F : forall e x, Q e -> match f e x with (e', Some _) => Q e' /\ f' e x = f e x | (e', None) => T e' end) :
    forall fuel left right e, Q e -> trs (wbs_loop f l fuel left right e) (wbs_loop f' l fuel left right e).
  Proof using.
    induction fuel as [|fuel IH]; intros left right e H; cbn [wbs_loop]; [reflexivity|].
    destruct (left <? right); [|now split]. cbv zeta. destruct (nth_error l _) as [x|]; [|right; now split].
    specialize (F e x H). destruct (f e x) as [e1 [q|]]; [|now left]. destruct F as [F ->]. destruct q; [now split|now apply IH|now apply IH].
  Qed.
  (** a merge with panics against the same merge without *)
  Definition trw {S} (r r' : out S * E) : Prop :=
    match r with (Panic _, e) => T e \/ Q e /\ r' = r | (NoFuel, _) => r' = r | (_, e) => Q e /\ r' = r end.
  Section Merge.
    Context {S A B : Type} (c c' : E -> A -> B -> E * option comparison) (CC : calm_of c c') (O : mop S A B).
    Lemma here (o : out S) e : Q e -> trw (o, e) (o, e).
    Proof using. destruct o; cbn; auto. Qed.
    Lemma binary_tr : forall fuel s an bn e, Q e -> trw (wbinary_merge c O fuel s an bn e) (wbinary_merge c' O fuel s an bn e).
    Proof using CC.
      induction fuel as [|fuel IH]; intros s an bn e H; cbn [wbinary_merge]; [reflexivity|].
      destruct (an =? 0); [destruct (bn =? 0); now apply here|]. destruct (bn =? 0); [now apply here|]. cbv zeta.
      destruct (nth_error (mo_a O s) (an / 2)) as [x|]; [|now apply here].
      match goal with |- trw (let (_, _) := ?w in _) (let (_, _) := ?w' in _) => assert (TS : trs w w') end.
      { apply loop_tr; [|exact H]. intros e0 y H0. specialize (CC e0 x y H0). destruct (c e0 x y) as [e1 [q|]]; [destruct CC as [C0 ->]; now split|exact CC]. }
      destruct (wbsearch _ _ e) as [[bm|bi| |] e0]; cbn [trs] in TS.
      - destruct TS as [H0 ->]. specialize (IH s (an / 2) bm e0 H0) as I1.
        destruct (wbinary_merge c O fuel s (an / 2) bm e0) as [[s1|s1|s1|] e1]; cbn [trw] in I1; [destruct I1 as [H1 ->]|destruct I1 as [H1 ->]|destruct I1 as [I1|[H1 ->]]|rewrite I1]; try (cbn; auto; fail).
        destruct (mo_coll O s1); try now apply here. now apply IH.
      - destruct TS as [H0 ->]. specialize (IH s (an / 2) bi e0 H0) as I1.
        destruct (wbinary_merge c O fuel s (an / 2) bi e0) as [[s1|s1|s1|] e1]; cbn [trw] in I1; [destruct I1 as [H1 ->]|destruct I1 as [H1 ->]|destruct I1 as [I1|[H1 ->]]|rewrite I1]; try (cbn; auto; fail).
        destruct (mo_from_a O s1 1); try now apply here. now apply IH.
      - destruct TS as [TS|[H0 ->]]; cbn; auto.
      - rewrite TS. reflexivity.
    Qed.
    Lemma tape_tr : forall fuel s e, Q e -> trw (wtape_merge c O fuel s e) (wtape_merge c' O fuel s e).
    Proof using CC.
      induction fuel as [|fuel IH]; intros s e H; cbn [wtape_merge]; [reflexivity|].
      destruct (mo_a O s) as [|x l], (mo_b O s) as [|y m]; try now apply here.
      specialize (CC e x y H). destruct (c e x y) as [e1 [q|]]; [|now left]. destruct CC as [H1 ->].
      destruct (match q with Eq => mo_coll O s | Lt => mo_from_a O s 1 | Gt => mo_from_b O s 1 end); try now apply here. now apply IH.
    Qed.
    Lemma wmerge_tr strat s e : Q e -> trw (wmerge c O strat s e) (wmerge c' O strat s e).
    Proof using CC. intros H. unfold wmerge. destruct (strat _ _); [now apply tape_tr|now apply binary_tr]. Qed.
  End Merge.
  Definition trr {Y} (r r' : res Y * E) : Prop :=
    match r with (Ok _, e) => Q e | (Panicked, e) => T e \/ r' = r | (OutOfFuel, _) => r' = r end.
  Lemma bs_tr {X} (c c' : E -> X -> X -> E * option comparison) (CC : calm_of c c') strat O (a b : list X) e : Q e ->
    trr (wbs_merge c strat O a b e) (wbs_merge c' strat O a b e).
  Proof using.
    intros H. unfold wbs_merge. pose proof (wmerge_tr c c' CC O strat (bs_new a b) e H) as W.
    destruct (wmerge c O strat _ e) as [[s|s|s|] e1]; cbn [trw] in W; [apply W|apply W| |rewrite W; reflexivity].
    destruct W as [W|[W ->]]; cbn; auto.
  Qed.
  Lemma not_tr {Y} (f : Y -> Y) (r r' : res Y * E) : trr r r' -> trr (let (x, e) := r in (rmap f x, e)) (let (x, e) := r' in (rmap f x, e)).
  Proof using. destruct r as [[y| |] e]; cbn; [auto|intros [H| ->]; auto|intros ->; reflexivity]. Qed.
End Links.

Section Recorded.
  Context {X E : Type} (log : E -> list bool) (cmp : clos E (X * X) comparison) (RC : records log cmp).
  Local Notation calm_cmp := (calmed (fun _ => Eq) cmp).
  Lemma asks_calm_of e0 : calm_of (all_returned log e0) (last_panicked log e0) (asks cmp) (asks calm_cmp).
  Proof using RC.
    intros e x y H. pose proof (records_fine log e0 (fun _ => Eq) cmp RC e (x, y) H) as F. unfold asks.
    destruct (cmp e (x, y)) as [e' [q|]]; [|exact F]. destruct F as [F ->]. auto.
  Qed.
  Lemma asks_one e0 : forall e x y, all_returned log e0 e -> match asks cmp e x y with (e', Some _) => all_returned log e0 e' | (e', None) => last_panicked log e0 e' end.
  Proof using RC.
    intros e x y H. pose proof (asks_calm_of e0 e x y H) as F. destruct (asks cmp e x y) as [e' [q|]]; [apply F|exact F].
  Qed.
  Lemma calm_asks : never_panics (asks calm_cmp).
  Proof using. intros e x y. unfold asks. pose proof (calmed_calm (fun _ => Eq) cmp e (x, y)) as C. destruct (calmed _ cmp e (x, y)) as [e' [q|]]; [discriminate|now destruct C]. Qed.
  Lemma find_ends {A} (e0 : E) (f : E -> A -> E * option comparison) (l : list A) e :
    (forall e x, exists y z, f e x = asks cmp e y z) -> all_returned log e0 e -> search_ends (all_returned log e0) (last_panicked log e0) l (wbsearch f l e).
  Proof using RC. intros F H. apply bsearch_ends; [|exact H]. intros e1 x H1. destruct (F e1 x) as (y & z & ->). now apply asks_one. Qed.
End Recorded.

(** ** C139 *)
Section Sets.
  Context {X E : Type} (log : E -> list bool) (cmp : clos E (X * X) comparison) (RC : records log cmp) (strat : nat -> nat -> bool).
  (** contains, is_disjoint, is_subset, is_superset; insert and remove *)
  Lemma questions_end a b e :
    answer_ends log e (wset_is_disjoint (asks cmp) strat a b e) /\ answer_ends log e (wset_is_subset (asks cmp) strat a b e) /\
    answer_ends log e (wset_is_superset (asks cmp) strat a b e).
  Proof using RC.
    destruct (C71_pure_operations X E (asks (calmed (fun _ => Eq) cmp)) strat a b e) as (_ & P1 & P2 & P3).
    assert (G : forall r r' : res bool * E, trr (all_returned log e) (last_panicked log e) r r' ->
      (fst r' = Panicked /\ ~ never_panics (asks (calmed (fun _ => Eq) cmp)) \/ exists x, fst r' = Ok x) -> answer_ends log e r).
    { intros [[y| |] e1] r'; unfold answer_ends; cbn [trr fst snd]; [auto| |].
      - intros [H| ->] [[H1 H2]|[x Hx]]; [exact H|exact H|destruct H2; apply calm_asks|discriminate Hx].
      - intros -> [[H1 H2]|[x Hx]]; [discriminate H1|discriminate Hx]. }
    pose proof (asks_calm_of log cmp RC e) as CC. pose proof (start log e) as H.
    repeat apply conj.
    - refine (G _ _ _ P1). unfold wset_is_disjoint. now apply not_tr, bs_tr.
    - refine (G _ _ _ P2). unfold wset_is_subset. now apply not_tr, bs_tr.
    - refine (G _ _ _ P3). unfold wset_is_superset, wset_is_subset. now apply not_tr, bs_tr.
  Qed.
  Lemma changes_end l x e0 e : all_returned log e0 e ->
    change_ends log e0 (fun p => fst p = l) (wset_insert (asks cmp) l x e) /\ change_ends log e0 (fun p => fst p = l) (wset_remove (asks cmp) l x e).
  Proof using RC.
    clear strat. intros H. unfold wset_insert, wset_remove, change_ends.
    pose proof (find_ends log cmp RC e0 (fun w y => asks cmp w y x) l e ltac:(eauto) H) as B.
    destruct (wbsearch _ l e) as [[i|i| |] e1]; cbn [search_ends fst snd] in *; try tauto.
  Qed.
  Theorem C139_set a b x e :
    answer_ends log e (wset_contains (asks cmp) a x e) /\
    answer_ends log e (wset_is_disjoint (asks cmp) strat a b e) /\ answer_ends log e (wset_is_subset (asks cmp) strat a b e) /\
    answer_ends log e (wset_is_superset (asks cmp) strat a b e) /\
    change_ends log e (fun p => fst p = a) (wset_insert (asks cmp) a x e) /\ change_ends log e (fun p => fst p = a) (wset_remove (asks cmp) a x e).
  Proof using RC.
    destruct (questions_end a b e) as (H1 & H2 & H3). destruct (changes_end a x e e (start log e)) as (H4 & H5).
    refine (conj _ (conj H1 (conj H2 (conj H3 (conj H4 H5))))).
    unfold wset_contains, answer_ends. pose proof (find_ends log cmp RC e (fun w y => asks cmp w y x) a e ltac:(eauto) (start log e)) as B.
    destruct (wbsearch _ a e) as [[i|i| |] e1]; cbn [search_ends fst snd] in *; try tauto.
  Qed.
  (** TotalVecSet *)
  Theorem C139_total_set (clone : clos E X X) (RL : records log clone) (a b : tset X) x e :
    answer_ends log e (utset_contains cmp a x e) /\
    answer_ends log e (utset_is_subset cmp strat a b e) /\ answer_ends log e (utset_is_disjoint cmp strat a b e) /\
    change_ends log e (fun s => s = a) (utset_insert cmp a x e) /\ change_ends log e (fun s => s = a) (utset_remove cmp clone a x e).
  Proof using RC.
    destruct (questions_end (ts_elements a) (ts_elements b) e) as (D & S1 & S2). pose proof (start log e) as H.
    assert (W : forall o, change_ends log e (fun p => fst p = ts_elements a) o -> change_ends log e (fun s => s = a) (with_elements a o)).
    { intros [[[l q]|[l q]|] e1]; unfold change_ends; cbn [with_elements fst snd]; try tauto. intros [H1 ->]. split; [exact H1|now destruct a]. }
    refine (conj _ (conj _ (conj _ (conj _ _)))).
    - unfold utset_contains. destruct (C139_set (ts_elements a) [] x e) as (H1 & _).
      destruct (wset_contains _ _ _ e) as [[y| |] e1]; exact H1.
    - unfold utset_is_subset. destruct (ts_negated a), (ts_negated b); first [assumption|exact H].
    - unfold utset_is_disjoint. destruct (ts_negated a), (ts_negated b); first [assumption|exact H].
    - unfold utset_insert. apply W. destruct (changes_end (ts_elements a) x e e H) as (H4 & H5). now destruct (ts_negated a).
    - unfold utset_remove. destruct (ts_negated a); [|apply W; now apply changes_end].
      pose proof (records_fine log e (fun v => v) clone RL e x H) as F. destruct (clone e x) as [e1 [y|]].
      + destruct F as [F _]. apply W. now apply changes_end.
      + split; [exact F|reflexivity].
  Qed.
End Sets.

Section Maps.
  Context {K V E : Type} (log : E -> list bool) (cmp : clos E (K * K) comparison) (RC : records log cmp).
  Theorem C139_map (m : list (K * V)) (k : K) (v : V) (g : V -> V) e :
    answer_ends log e (wmap_get (asks cmp) m k e) /\
    change_ends log e (fun p => fst p = m) (wmap_get_mut (asks cmp) m k g e) /\
    change_ends log e (fun p => fst p = m) (wmap_insert (asks cmp) m k v e) /\
    forall d, answer_ends log e (utmap_index cmp (TMap m d) k e).
  Proof using RC.
    pose proof (find_ends log cmp RC e (wkprobe (asks cmp) k) m e ltac:(unfold wkprobe; eauto) (start log e)) as B.
    assert (G : answer_ends log e (wmap_get (asks cmp) m k e)).
    { unfold wmap_get, answer_ends. destruct (wbsearch _ m e) as [[i|i| |] e1]; cbn [search_ends fst snd] in *; try tauto.
      destruct B as [B L]. destruct (nth_error m i) as [[k0 v0]|] eqn:N; [exact B|]. apply nth_error_None in N. lia. }
    refine (conj G (conj _ (conj _ _))).
    - unfold wmap_get_mut, change_ends. destruct (wbsearch _ m e) as [[i|i| |] e1]; cbn [search_ends fst snd] in *; try tauto.
      destruct B as [B L]. destruct (nth_error m i) as [[k0 v0]|] eqn:N; [exact B|]. apply nth_error_None in N. lia.
    - unfold wmap_insert, change_ends. destruct (wbsearch _ m e) as [[i|i| |] e1]; cbn [search_ends fst snd] in *; try tauto.
      destruct B as [B L]. destruct (nth_error m i) as [[k0 v0]|] eqn:N; [exact B|]. apply nth_error_None in N. lia.
    - intros d. unfold utmap_index. cbn [tm_map tm_default]. destruct (wmap_get (asks cmp) m k e) as [[o| |] e1]; exact G.
  Qed.
End Maps.

(** *** collecting and extending *)
Section Collect.
  Context {A X E : Type} (log : E -> list bool) (c : E -> A -> A -> E * option comparison) (e0 : E).
  Local Notation Q := (all_returned log e0).
  Local Notation T := (last_panicked log e0).
  Context (CO : forall e x y, Q e -> match c e x y with (e', Some _) => Q e' | (e', None) => T e' end).
  Context (srt : list A -> E -> (list A * bool) * E) (SE : sort_ends log srt).
  Lemma later e e1 : Q e -> (all_returned log e e1 -> Q e1) /\ (last_panicked log e e1 -> T e1).
  Proof using.
    intros (n & H). split; intros (m & G); exists (n + m); rewrite G, H, repeat_app, <- !app_assoc; reflexivity.
  Qed.
  Lemma dedup_loop_ends kp : forall n i d j e, j < i -> i + n <= length d -> Q e ->
    let '((_, _, ok), e') := wdedup_loop c kp (seq i n) d j e in if ok then Q e' else T e'.
  Proof using CO.
    induction n as [|n IH]; intros i d j e H1 H2 H; cbn [seq wdedup_loop]; [exact H|].
    destruct (nth_error d i) as [x|] eqn:N1; [|apply nth_error_None in N1; lia].
    destruct (nth_error d j) as [y|] eqn:N2; [|apply nth_error_None in N2; lia].
    specialize (CO e x y H). destruct (c e x y) as [e1 [q|]]; [|exact CO].
    assert (G : forall d' j', Permutation d' d -> j' < S i ->
      let '((_, _, ok), e') := wdedup_loop c kp (seq (S i) n) d' j' e1 in if ok then Q e' else T e').
    { intros d' j' P J. pose proof (Permutation_length P) as LP. apply IH; [exact J|lia|exact CO]. }
    destruct (match q with Eq => false | _ => true end).
    - destruct (Nat.eqb_spec i (j + 1)) as [E0|NE]; cbn [negb]; [apply G; [reflexivity|lia]|].
      destruct (swap_at_perm d i (j + 1) ltac:(lia) ltac:(lia)) as (d' & -> & P). apply G; [exact P|lia].
    - destruct kp; [apply G; [reflexivity|lia]|].
      destruct (swap_at_perm d i j ltac:(lia) ltac:(lia)) as (d' & -> & P). apply G; [exact P|lia].
  Qed.
  Lemma dedup_ends kp d e : Q e -> let '((_, _, ok), e') := wdedup_by c d kp e in if ok then Q e' else T e'.
  Proof using CO.
    intros H. destruct d as [|x d]; [exact H|]. cbn [wdedup_by].
    pose proof (dedup_loop_ends kp (length (x :: d) - 1) 1 (x :: d) 0 e ltac:(lia) ltac:(cbn; lia) H) as G.
    destruct (wdedup_loop _ _ _ _ _ _) as [[[d' j] ok] e']. exact G.
  Qed.
  Definition step_ends {Y} (r : done Y * E) : Prop :=
    match r with (Done _, e) => Q e | (Unwound _, e) => T e | (DoneNoFuel, _) => False end.
  Lemma compact_ends s e : Q e -> step_ends (wsd_compact c srt s e).
  Proof using CO SE.
    intros H. unfold wsd_compact. destruct (_ <? _); [|exact H]. destruct (SE (wd_data s) e) as (_ & S1).
    destruct (srt (wd_data s) e) as [[slice ok] e1]. cbn [fst snd] in S1. destruct (later e e1 H) as (L1 & L2).
    destruct ok; [|exact (L2 S1)]. pose proof (dedup_ends (wd_keep s) slice e1 (L1 S1)) as D.
    destruct (wdedup_by c slice (wd_keep s) e1) as [[[d u] ok2] e2]. destruct ok2; exact D.
  Qed.
  Lemma push_ends s x e : Q e -> step_ends (wsd_push c srt s x e).
  Proof using CO SE.
    intros H. assert (G : step_ends (wsd_push_raw c s x e)).
    { unfold wsd_push_raw. destruct (_ =? _); [|exact H]. destruct (rev (wd_data s)) as [|last fr]; [exact H|].
      specialize (CO e last x H). destruct (c e last x) as [e1 [[]|]]; try exact CO. destruct (wd_keep s); exact CO. }
    unfold wsd_push. destruct (wsd_push_raw c s x e) as [[s1|s1|] e1]; try exact G.
    destruct (16 <=? _); [|exact G]. destruct (_ <? _); [now apply compact_ends|exact G].
  Qed.
  Lemma run_ends : forall l s e, Q e -> step_ends (wsd_run c srt s l e).
  Proof using CO SE.
    induction l as [|x l IH]; intros s e H; cbn [wsd_run].
    - pose proof (compact_ends s e H) as G. destruct (wsd_compact c srt s e) as [[s1|s1|] e1]; exact G.
    - pose proof (push_ends s x e H) as G. destruct (wsd_push c srt s x e) as [[s1|s1|] e1]; [now apply IH|exact G|exact G].
  Qed.
End Collect.
Lemma ends_later {E Y} (log : E -> list bool) e0 e (r : done (Y * E)) : all_returned log e0 e -> ends log e r -> ends log e0 r.
Proof. intros H. destruct r as [[y e1]|[y e1]|]; cbn [ends]; [| |tauto]; apply (later log e0 e e1 H). Qed.

(** FromIterator of VecSet and VecMap: the items are collected and deduplicated; the collection is handed out only if nothing
    panicked *)
Theorem C139_collect {K V X E : Type} (log : E -> list bool) (e : E) :
  (forall (cmp : clos E (X * X) comparison) srt items kp, records log cmp -> sort_ends log srt ->
     change_ends log e (fun _ => True) (wsort_dedup_by (asks cmp) srt items kp e)) /\
  (forall (cmp : clos E (K * K) comparison) srt (items : list (K * V)), records log cmp -> sort_ends log srt ->
     change_ends log e (fun _ => True) (wmap_from_iter (asks cmp) srt items e)).
Proof.
  assert (G : forall Y (r : done Y * E), step_ends log e r -> change_ends log e (fun _ => True) r).
  { intros Y [[y|y|] e1]; unfold change_ends; cbn; tauto. }
  split.
  - intros cmp srt items kp RC SE. apply G. apply run_ends; [|exact SE|apply start]. intros e1 x y. now apply asks_one.
  - intros cmp srt items RC SE. apply G. unfold wmap_from_iter. apply run_ends; [|exact SE|apply start]. intros e1 x y. unfold wkv. now apply asks_one.
Qed.
(** Extend of VecSet and VecMap *)
Theorem C139_extend {K V X E : Type} (log : E -> list bool) (strat : nat -> nat -> bool) (e : E) :
  (forall (cmp : clos E (X * X) comparison) srt self items, records log cmp -> sort_ends log srt ->
     ends log e (uset_extend cmp srt strat self items e)) /\
  (forall (cmp : clos E (K * K) comparison) srt (m items : list (K * V)), records log cmp -> sort_ends log srt ->
     ends log e (umap_extend cmp srt strat m items e)).
Proof.
  split.
  - intros cmp srt self items RC SE. unfold uset_extend.
    destruct (C139_collect (K := X) (V := X) (X := X) log e) as (C & _). specialize (C cmp srt items KeepFirst RC SE). unfold change_ends in C.
    destruct (wsort_dedup_by _ srt items KeepFirst e) as [[[[that d] rest]|[[that d] rest]|] e1]; cbn [fst snd] in C; [|exact (proj1 C)|exact C].
    apply (ends_later log e e1); [exact C|]. now apply or_assign_ends.
  - intros cmp srt m items RC SE. unfold umap_extend.
    destruct (C139_collect (K := K) (V := V) (X := K) log e) as (_ & C). specialize (C cmp srt items RC SE). unfold change_ends in C.
    destruct (wmap_from_iter _ srt items e) as [[[[that d] rest]|[[that d] rest]|] e1]; cbn [fst snd] in C; [|exact (proj1 C)|exact C].
    apply combine_ends with (f' := pure_clos snd); [exact RC| |intros e2 x; discriminate|exact C].
    intros e2 x H. cbn. auto.
Qed.

(** ** Witnesses *)
Definition noted_cmp : clos (nat * list bool) (nat * nat) comparison := recording (tired (fun p => Nat.compare (fst p) (snd p))).
Example noted_records : records snd noted_cmp.
Proof. apply recording_records. Qed.
(** the second comparison panics / none does *)
Example contains_ends :
  wset_contains (asks noted_cmp) [1; 3; 5; 7] 7 (1, []) = (Panicked, (0, [true; false])) /\
  fst (wset_contains (asks noted_cmp) [1; 3; 5; 7] 7 (9, [])) = Ok true /\
  fst (wset_insert (asks noted_cmp) [1; 3; 5; 7] 4 (1, [])) = Unwound ([1; 3; 5; 7], false).
Proof. repeat split; vm_compute; reflexivity. Qed.
(** a "sort" that asks once about the first two elements and then moves on or unwinds meets the assumption, as does the sort of
    the model *)
Definition glance {E} (cmp : clos E (nat * nat) comparison) (l : list nat) (e : E) : (list nat * bool) * E :=
  match l with
  | x :: y :: r => match cmp e (x, y) with
                   | (e', Ret Gt) => ((y :: x :: r, true), e')
                   | (e', Ret _) => ((l, true), e')
                   | (e', Throw) => ((l, false), e')
                   end
  | _ => ((l, true), e)
  end.
Example sort_ends_met : sort_ends snd (glance noted_cmp) /\ sort_ends snd (plain_sort (E := nat * list bool) Nat.compare).
Proof.
  split; intros l e.
  - unfold glance. destruct l as [|x [|y r]]; try (split; [reflexivity|]; exists 0; now rewrite app_nil_r).
    pose proof (noted_records e (x, y)) as R. destruct (noted_cmp e (x, y)) as [e' [[]|]]; cbn [fst snd returned] in *.
    + split; [reflexivity|]. now exists 1.
    + split; [reflexivity|]. now exists 1.
    + split; [apply perm_swap|]. now exists 1.
    + split; [reflexivity|]. now exists 0.
  - unfold plain_sort. cbn [fst snd]. split; [apply sort_by_perm|]. exists 0. now rewrite app_nil_r.
Qed.
Example extend_ends :
  uset_extend noted_cmp (glance noted_cmp) (fun _ _ => true) [1; 3] [2; 1] (9, []) = Done ([1; 2; 3], (4, repeat true 5)) /\
  uset_extend noted_cmp (glance noted_cmp) (fun _ _ => true) [1; 3] [2; 1] (2, []) = Unwound ([1; 3], (0, repeat true 2 ++ [false])).
Proof. split; vm_compute; reflexivity. Qed.

Print Assumptions C139_set.
Print Assumptions C139_total_set.
Print Assumptions C139_map.
Print Assumptions C139_collect.
Print Assumptions C139_extend.
