(** Property C112: the iterator that is collected or extended from is user code. *)
From Verif Require Import IterModel CollectFacts FollowFacts OracleFacts VecSetHist VecMapSpec PropSet PropMap PropOracle PropFollow PropCost RadixSpec RadixFacts PropRadix.
Require Import Coq.Sorting.Permutation.

(** ** Specification *)
(** what an iterator with state [S] does from state [s] on when its [next] is called until it ends or panics:
    it gives the items [l] and is then in state [s']; [fin]: it ended with None (else the last call panicked) *)
Inductive pulls {S T : Type} (nx : S -> S * cres (option T)) : S -> list T -> S -> bool -> Prop :=
| pulls_end s s' : nx s = (s', Ret None) -> pulls nx s [] s' true
| pulls_panic s s' : nx s = (s', Throw) -> pulls nx s [] s' false
| pulls_item s x s1 l s' fin : nx s = (s1, Ret (Some x)) -> pulls nx s1 l s' fin -> pulls nx s (x :: l) s' fin.

(** the iterator and the rest of the world *)
Definition beside {S W X : Type} (f : S -> S * X) (sw : S * W) : (S * W) * X :=
  let (s', r) := f (fst sw) in ((s', snd sw), r).

(** ** Proofs *)
Section Keep.
  Context {T S W : Type} (c : S * W -> T -> T -> (S * W) * option comparison).
  Context (srt : list T -> S * W -> (list T * bool) * (S * W)).
  Context (CK : forall w x y, fst (fst (c w x y)) = fst w) (SK : forall l w, fst (snd (srt l w)) = fst w).
  Lemma wdedup_loop_keep kp : forall is d j w, fst (snd (wdedup_loop c kp is d j w)) = fst w.
  Proof using CK.
    induction is as [|i is IH]; intros d j w; cbn [wdedup_loop]; [reflexivity|].
    destruct (nth_error d i) as [x|]; [|reflexivity]. destruct (nth_error d j) as [y|]; [|reflexivity].
    pose proof (CK w x y) as Q. destruct (c w x y) as [w' [q|]]; cbn [fst] in Q; [|exact Q].
    rewrite <- Q. destruct q; [destruct kp; [apply IH|destruct (swap_at i j d); [apply IH|reflexivity]]|..];
      (destruct (negb (i =? j + 1)); [destruct (swap_at i (j + 1) d); [apply IH|reflexivity]|apply IH]).
  Qed.
  Lemma wsd_compact_keep s w : fst (snd (wsd_compact c srt s w)) = fst w.
  Proof using CK SK.
    unfold wsd_compact. destruct (_ <? _); [|reflexivity].
    pose proof (SK (wd_data s) w) as Q. destruct (srt (wd_data s) w) as [[sl ok] w1]. cbn [snd] in Q.
    destruct ok; [|exact Q]. assert (Q2 : fst (snd (wdedup_by c sl (wd_keep s) w1)) = fst w1).
    { unfold wdedup_by. destruct sl as [|x sl]; [reflexivity|].
      pose proof (wdedup_loop_keep (wd_keep s) (seq 1 (length (x :: sl) - 1)) (x :: sl) 0 w1) as Q2.
      destruct (wdedup_loop _ _ _ _ _ _) as [[[d' j] ok] w2]. exact Q2. }
    destruct (wdedup_by c sl (wd_keep s) w1) as [[[d' u] ok2] w2]. cbn [snd] in Q2.
    destruct ok2; cbn [snd]; congruence.
  Qed.
  Lemma wsd_push_keep s x w : fst (snd (wsd_push c srt s x w)) = fst w.
  Proof using CK SK.
    unfold wsd_push. assert (Q : fst (snd (wsd_push_raw c s x w)) = fst w).
    { unfold wsd_push_raw. destruct (_ =? _); [|reflexivity]. destruct (rev (wd_data s)) as [|last fr]; [reflexivity|].
      pose proof (CK w last x) as Q. destruct (c w last x) as [w' [[]|]]; try exact Q. destruct (wd_keep s); exact Q. }
    destruct (wsd_push_raw c s x w) as [[s1|s1|] w1]; cbn [snd] in Q; [|exact Q|exact Q].
    destruct (16 <=? _); [|exact Q]. destruct (_ <? _); [|exact Q]. now rewrite wsd_compact_keep.
  Qed.
End Keep.

(** any comparison, any iterator: nothing is lost or duplicated *)
Section Conserved.
  Context {T W : Type} (c : W -> T -> T -> W * option comparison) (srt : list T -> W -> (list T * bool) * W).
  Context (Bad : Prop) (SP : forall s w, Permutation (fst (fst (srt s w))) s).
  Context (SB : forall s w, snd (fst (srt s w)) = false -> ~ never_panics c \/ Bad).
  Lemma push_ok s x w : wd_sorted s <= length (wd_data s) ->
    match fst (wsd_push c srt s x w) with
    | Done s' => Permutation (wall s') (x :: wall s) /\ wd_sorted s' <= length (wd_data s')
    | Unwound s' => Permutation (wall s') (x :: wall s) /\ (~ never_panics c \/ Bad)
    | DoneNoFuel => False
    end.
  Proof using SP SB.
    intros H. destruct (wsd_push_ok c srt SP Bad SB (fun _ => 0) (fun _ _ _ => Nat.le_0_l _) (fun _ => 0)
      (fun _ _ => Nat.le_0_l _) 0 1 (fun m Hm => ltac:(cbn; lia)) s x w H) as (_ & Q).
    destruct (fst (wsd_push c srt s x w)); intuition.
  Qed.
  Lemma compact_ok s w : wd_sorted s <= length (wd_data s) ->
    match fst (wsd_compact c srt s w) with
    | Done s' => Permutation (wall s') (wall s)
    | Unwound s' => Permutation (wall s') (wall s) /\ (~ never_panics c \/ Bad)
    | DoneNoFuel => False
    end.
  Proof using SP SB.
    intros H. destruct (wsd_compact_ok c srt SP Bad SB (fun _ => 0) (fun _ _ _ => Nat.le_0_l _) (fun _ => 0)
      (fun _ _ => Nat.le_0_l _) s w H) as (_ & Q).
    destruct (fst (wsd_compact c srt s w)); intuition.
  Qed.
  Lemma isd_run_conserves (nx : iterator W T) : forall fuel s got w, wd_sorted s <= length (wd_data s) ->
    Permutation (wall s) got ->
    match fst (isd_run c srt nx fuel s got w) with
    | Done (r, d, got') => Permutation (r ++ d) got'
    | Unwound (r, d, got') => Permutation (r ++ d) got' /\
        (~ never_panics c \/ Bad \/ exists w1 w2, nx w1 = (w2, Throw))
    | DoneNoFuel => True
    end.
  Proof using SP SB.
    induction fuel as [|fuel IH]; intros s got w H P; cbn [isd_run]; [exact I|].
    destruct (nx w) as [w1 [[x|]|]] eqn:N.
    - pose proof (push_ok s x w1 H) as Q. destruct (wsd_push c srt s x w1) as [[s'|s'|] w2]; cbn [fst] in Q |- *.
      + destruct Q as [Q1 Q2]. apply IH; [assumption|]. rewrite Q1, P. apply Permutation_cons_append.
      + destruct Q as [Q1 Q2]. fold (wall s'). rewrite Q1, P. split; [apply Permutation_cons_append|tauto].
      + destruct Q.
    - pose proof (compact_ok s w1 H) as Q. destruct (wsd_compact c srt s w1) as [[s'|s'|] w2]; cbn [fst] in Q |- *.
      + fold (wall s'). now rewrite Q.
      + fold (wall s'). destruct Q as [Q1 Q2]. rewrite Q1. split; [assumption|tauto].
      + destruct Q.
    - cbn [fst]. fold (wall s). split; [assumption|]. right. right. eauto.
  Qed.
End Conserved.

Theorem C112_any_comparison :
  forall (T W : Type) (c : W -> T -> T -> W * option comparison) (srt : list T -> W -> (list T * bool) * W)
    (strat : nat -> nat -> bool) (noticed : Prop) (nx : iterator W T) (hint : W -> W * cres nat)
    (self : list T) (fuel : nat) (w : W),
    (forall s w, Permutation (fst (fst (srt s w))) s) ->
    (forall s w, snd (fst (srt s w)) = false -> ~ never_panics c \/ noticed) ->
    let user_panicked := ~ never_panics c \/ noticed \/ (exists w1 w2, nx w1 = (w2, Throw)) \/ (exists w1 w2, hint w1 = (w2, Throw)) in
    (forall kp, match fst (isort_dedup_by c srt nx hint fuel kp w) with
     | Done (r, dropped, got) => Permutation (r ++ dropped) got
     | Unwound (buffer, dropped, got) => Permutation (buffer ++ dropped) got /\ user_panicked
     | DoneNoFuel => True
     end) /\
    match fst (iset_extend c srt strat self nx hint fuel w) with
    | Done (r, dropped, got) => Permutation (r ++ dropped) (self ++ got)
    | Unwound (r, dropped, got) => Permutation (r ++ dropped) (self ++ got) /\ user_panicked
    | DoneNoFuel => True
    end.
Proof.
  intros T W c srt strat noticed nx hint self fuel w SP SB UP.
  assert (A : forall kp, match fst (isort_dedup_by c srt nx hint fuel kp w) with
     | Done (r, dropped, got) => Permutation (r ++ dropped) got
     | Unwound (buffer, dropped, got) => Permutation (buffer ++ dropped) got /\ UP
     | DoneNoFuel => True
     end).
  { intros kp. unfold isort_dedup_by. destruct (hint w) as [w1 [h|]] eqn:H.
    - pose proof (isd_run_conserves c srt noticed SP SB nx fuel (MkWsad [] 0 kp []) [] w1 (le_n _) (perm_nil _)) as Q.
      destruct (fst (isd_run c srt nx fuel (MkWsad [] 0 kp []) [] w1)) as [[[r d] g]|[[r d] g]|]; auto.
      destruct Q as [Q1 Q2]. split; [assumption|]. unfold UP. tauto.
    - cbn [fst]. split; [constructor|]. unfold UP. right. right. right. eauto. }
  split; [exact A|]. unfold iset_extend, iset_from_iter. specialize (A KeepFirst).
  destruct (isort_dedup_by c srt nx hint fuel KeepFirst w) as [[[[that d] g]|[[that d] g]|] w1]; cbn [fst] in A |- *; auto.
  - destruct (C71_assign_conserves T W c strat Union self that w1) as (k & da & db & P & [E|[E NP]]);
      destruct (wset_assign c strat Union self that w1) as [o w2]; cbn [fst] in E |- *; subst o; cbn [fst].
    + rewrite <- A, (Permutation_app_comm that d), !app_assoc.
      rewrite (Permutation_app_comm self d), <- !app_assoc, <- P.
      rewrite !app_assoc. rewrite (Permutation_app_comm k d). reflexivity.
    + split; [|unfold UP; tauto]. rewrite <- A, (Permutation_app_comm that d), !app_assoc.
      rewrite (Permutation_app_comm self d), <- !app_assoc, <- P.
      rewrite !app_assoc. rewrite (Permutation_app_comm k d). reflexivity.
  - destruct A as [A1 A2]. split; [|assumption]. now rewrite A1.
Qed.
Print Assumptions C112_any_comparison.

(** lawful answers *)
Section Exact.
  Context {T S W : Type} (cmp : T -> T -> comparison).
  Context (c : S * W -> T -> T -> (S * W) * option comparison) (srt : list T -> S * W -> (list T * bool) * (S * W)).
  Context (F : follows c cmp) (SR : forall s w, fst (srt s w) = (sort_by cmp s, true)).
  Context (CK : forall w x y, fst (fst (c w x y)) = fst w) (SK : forall l w, fst (snd (srt l w)) = fst w).
  Context (nx : S -> S * cres (option T)).

  Lemma isd_run_pulls s0 l s0' fin : pulls nx s0 l s0' fin ->
    forall fuel s got w r, length l < fuel ->
    match sd_push_all cmp (er s) l with Some s' => sd_into_inner cmp s' | None => None end = Some r ->
    exists d d', (if fin then d' = r else True) /\ exists w',
      isd_run c srt (beside nx) fuel s got (s0, w) =
        (if fin then Done (d', d, got ++ l) else Unwound (d', d, got ++ l), (s0', w')).
  Proof using F SR CK SK.
    induction 1 as [s0 s0' N|s0 s0' N|s0 x s1 l s0' fin N H IH]; intros [|fuel] s got w r Hf E; try (cbn in Hf; lia);
      cbn [isd_run]; unfold beside at 1; cbn [fst snd]; rewrite N; cbn [sd_push_all] in E.
    - unfold sd_into_inner in E. destruct (sd_compact cmp (er s)) as [s2|] eqn:Q; [|discriminate]. injection E as <-.
      pose proof (wsd_compact_total cmp c F srt SR s (s0', w) s2 Q) as G.
      pose proof (wsd_compact_erase cmp c (CE cmp c F) srt (SE cmp srt SR) s (s0', w) s2 Q) as G2.
      pose proof (wsd_compact_keep c srt CK SK s (s0', w)) as G3.
      destruct (wsd_compact c srt s (s0', w)) as [[s3|s3|] [s4 w1]]; cbn [fst snd] in *; try discriminate.
      subst s4. cbn [like] in G2. subst s2. do 2 eexists. split; [|eexists; rewrite app_nil_r; reflexivity]. reflexivity.
    - do 2 eexists. split; [exact I|]. eexists. rewrite app_nil_r. reflexivity.
    - destruct (sd_push cmp (er s) x) as [s2|] eqn:Q; [|discriminate].
      pose proof (wsd_push_total cmp c F srt SR s x (s1, w) s2 Q) as G.
      pose proof (wsd_push_erase cmp c (CE cmp c F) srt (SE cmp srt SR) s x (s1, w) s2 Q) as G2.
      pose proof (wsd_push_keep c srt CK SK s x (s1, w)) as G3.
      destruct (wsd_push c srt s x (s1, w)) as [[s3|s3|] [s4 w1]]; cbn [fst snd] in *; try discriminate.
      subst s4. cbn [like] in G2. subst s2. cbn [length] in Hf.
      destruct (IH fuel s3 (got ++ [x]) w1 r ltac:(lia) E) as (d & d' & A & w' & B).
      exists d, d'. split; [exact A|]. exists w'. rewrite B, <- app_assoc. reflexivity.
  Qed.

  Lemma isort_dedup_pulls hint s00 h s0 l s0' fin kp r fuel w :
    hint s00 = (s0, Ret h) -> pulls nx s0 l s0' fin -> length l < fuel -> sort_dedup_by cmp l kp = Some r ->
    exists d d' w', (if fin then d' = r else True) /\ Permutation (d' ++ d) l /\
      isort_dedup_by c srt (beside nx) (beside hint) fuel kp (s00, w) =
        (if fin then Done (d', d, l) else Unwound (d', d, l), (s0', w')).
  Proof using F SR CK SK.
    intros Hh P Hf E. unfold isort_dedup_by. unfold beside at 1. cbn [fst snd]. rewrite Hh.
    destruct (isd_run_pulls s0 l s0' fin P fuel (MkWsad [] 0 kp []) [] w r Hf E) as (d & d' & A & w' & B).
    exists d, d', w'. split; [exact A|]. split; [|exact B].
    assert (SP : forall s w, Permutation (fst (fst (srt s w))) s).
    { intros s w0. rewrite SR. apply sort_by_perm. }
    assert (SB : forall s w, snd (fst (srt s w)) = false -> ~ never_panics c \/ False).
    { intros s w0. rewrite SR. discriminate. }
    pose proof (isd_run_conserves c srt False SP SB
      (beside nx) fuel (MkWsad [] 0 kp []) [] (s0, w) (le_n _) (perm_nil _)) as Q.
    rewrite B in Q. cbn [fst] in Q. destruct fin; [exact Q|apply Q].
  Qed.
End Exact.

(** ** C112 *)
(** Collecting calls [next] until it has returned None once or has panicked (so [length l + 1] times, and the
    iterator is left in the state [s'] that this leads to), after asking [size_hint] once, whatever it says. *)
Theorem C112_collect_set :
  forall (T S W : Type) (cmp : T -> T -> comparison) (c : S * W -> T -> T -> (S * W) * option comparison)
    (srt : list T -> S * W -> (list T * bool) * (S * W)) (nx : S -> S * cres (option T)) (hint : S -> S * cres nat)
    (s00 s0 s' : S) (h : nat) (l : list T) (fin : bool) (fuel : nat) (w : W),
    OrdLaws cmp -> follows c cmp -> (forall s w, fst (srt s w) = (sort_by cmp s, true)) ->
    (forall w x y, fst (fst (c w x y)) = fst w) -> (forall l w, fst (snd (srt l w)) = fst w) ->
    hint s00 = (s0, Ret h) -> pulls nx s0 l s' fin -> length l < fuel ->
    exists r dropped w', Permutation (r ++ dropped) l /\
      (fin = true -> sorted cmp r /\ forall z, In z r <-> first_occ cmp z l) /\
      iset_from_iter c srt (beside nx) (beside hint) fuel (s00, w) =
        (if fin then Done (r, dropped, l) else Unwound (r, dropped, l), (s', w')).
Proof.
  intros T S W cmp c srt nx hint s00 s0 s' h l fin fuel w L F SR CK SK Hh P Hf.
  destruct (C13_collect_first_occurrences T cmp l L) as (r & E & Sr & I & _).
  destruct (isort_dedup_pulls cmp c srt F SR CK SK nx hint s00 h s0 l s' fin KeepFirst r fuel w Hh P Hf E) as (d & d' & w' & A & B & Q).
  exists d', d, w'. split; [exact B|]. split; [|exact Q]. intros ->. subst d'. auto.
Qed.
Print Assumptions C112_collect_set.

Theorem C112_collect_map :
  forall (K V S W : Type) (kcmp : K -> K -> comparison) (c : S * W -> K -> K -> (S * W) * option comparison)
    (srt : list (K * V) -> S * W -> (list (K * V) * bool) * (S * W)) (nx : S -> S * cres (option (K * V)))
    (hint : S -> S * cres nat) (s00 s0 s' : S) (h : nat) (l : list (K * V)) (fin : bool) (fuel : nat) (w : W),
    OrdLaws kcmp -> follows c kcmp -> (forall s w, fst (srt s w) = (sort_by (fun x y => kcmp (fst x) (fst y)) s, true)) ->
    (forall w x y, fst (fst (c w x y)) = fst w) -> (forall l w, fst (snd (srt l w)) = fst w) ->
    hint s00 = (s0, Ret h) -> pulls nx s0 l s' fin -> length l < fuel ->
    exists r dropped w', Permutation (r ++ dropped) l /\
      (fin = true -> keys_sorted kcmp r /\ forall k, vmap_get kcmp r k = lookup_last kcmp k l) /\
      imap_from_iter c srt (beside nx) (beside hint) fuel (s00, w) =
        (if fin then Done (r, dropped, l) else Unwound (r, dropped, l), (s', w')).
Proof.
  intros K V S W kcmp c srt nx hint s00 s0 s' h l fin fuel w L F SR CK SK Hh P Hf.
  destruct (C23_collect_last_wins K V kcmp l L) as (r & E & Sr & I & _).
  assert (F' : follows (wkv (V := V) (V2 := V) c) (by_key fst kcmp)) by (intros w0 x y; apply F).
  assert (CK' : forall w x y, fst (fst (wkv (V := V) (V2 := V) c w x y)) = fst w) by (intros; apply CK).
  destruct (isort_dedup_pulls (by_key fst kcmp) (wkv (V := V) (V2 := V) c) srt F' SR CK' SK nx hint s00 h s0 l s' fin KeepLast r fuel w Hh P Hf E) as (d & d' & w' & A & B & Q).
  exists d', d, w'. split; [exact B|]. split; [|exact Q]. intros ->. subst d'. auto.
Qed.
Print Assumptions C112_collect_map.

(** extend: an iterator that ends extends by what it gave; one that panics leaves the collection as it was *)
Theorem C112_extend_set :
  forall (T S W : Type) (cmp : T -> T -> comparison) (c : S * W -> T -> T -> (S * W) * option comparison)
    (srt : list T -> S * W -> (list T * bool) * (S * W)) (strat : nat -> nat -> bool) (self : list T)
    (nx : S -> S * cres (option T)) (hint : S -> S * cres nat)
    (s00 s0 s' : S) (h : nat) (l : list T) (fin : bool) (fuel : nat) (w : W),
    OrdLaws cmp -> follows c cmp -> (forall s w, fst (srt s w) = (sort_by cmp s, true)) ->
    (forall w x y, fst (fst (c w x y)) = fst w) -> (forall l w, fst (snd (srt l w)) = fst w) ->
    sorted cmp self -> hint s00 = (s0, Ret h) -> pulls nx s0 l s' fin -> length l < fuel ->
    if fin then
      exists r dropped, fst (iset_extend c srt strat self (beside nx) (beside hint) fuel (s00, w)) = Done (r, dropped, l) /\
        Permutation (r ++ dropped) (self ++ l) /\ sorted cmp r /\
        forall z, In z r <-> In z self \/ (first_occ cmp z l /\ ~ mem cmp z self)
    else
      exists dropped w', iset_extend c srt strat self (beside nx) (beside hint) fuel (s00, w) = (Unwound (self, dropped, l), (s', w')) /\
        Permutation dropped l.
Proof.
  intros T S W cmp c srt strat self nx hint s00 s0 s' h l fin fuel w L F SR CK SK Ss Hh P Hf.
  destruct (C112_collect_set T S W cmp c srt nx hint s00 s0 s' h l fin fuel w L F SR CK SK Hh P Hf) as (that & d & w1 & P1 & X & E).
  unfold iset_extend. rewrite E. destruct fin.
  - destruct (X eq_refl) as [St I]. destruct (C110_set_operators T (S * W) cmp c strat Union self that (s', w1) L F Ss St)
      as (r & da & db & E2 & _ & _ & Sr & I2 & P2).
    exists r, (d ++ da ++ db). destruct (wset_assign c strat Union self that (s', w1)) as [o w2]. cbn [fst] in E2. subst o.
    split; [reflexivity|]. split.
    { rewrite <- P1, (Permutation_app_comm that d), !app_assoc, (Permutation_app_comm self d), <- !app_assoc, <- P2.
      rewrite !app_assoc, (Permutation_app_comm r d). reflexivity. }
    split; [exact Sr|]. intros z. rewrite I2. cbn [result_has]. now rewrite I.
  - exists (that ++ d), w1. split; [reflexivity|exact P1].
Qed.
Print Assumptions C112_extend_set.

Theorem C112_extend_map :
  forall (K V S W : Type) (kcmp : K -> K -> comparison) (c : S * W -> K -> K -> (S * W) * option comparison)
    (srt : list (K * V) -> S * W -> (list (K * V) * bool) * (S * W)) (strat : nat -> nat -> bool) (self : list (K * V))
    (nx : S -> S * cres (option (K * V))) (hint : S -> S * cres nat)
    (s00 s0 s' : S) (h : nat) (l : list (K * V)) (fin : bool) (fuel : nat) (w : W),
    OrdLaws kcmp -> follows c kcmp -> (forall s w, fst (srt s w) = (sort_by (fun x y => kcmp (fst x) (fst y)) s, true)) ->
    (forall w x y, fst (fst (c w x y)) = fst w) -> (forall l w, fst (snd (srt l w)) = fst w) ->
    keys_sorted kcmp self -> hint s00 = (s0, Ret h) -> pulls nx s0 l s' fin -> length l < fuel ->
    if fin then
      exists r, fst (imap_extend c srt strat self (beside nx) (beside hint) fuel (s00, w)) = Done (r, l) /\ keys_sorted kcmp r /\
        forall k, vmap_get kcmp r k = match lookup_last kcmp k l with Some y => Some y | None => vmap_get kcmp self k end
    else
      exists w', imap_extend c srt strat self (beside nx) (beside hint) fuel (s00, w) = (Unwound (self, l), (s', w')).
Proof.
  intros K V S W kcmp c srt strat self nx hint s00 s0 s' h l fin fuel w L F SR CK SK Ss Hh P Hf.
  destruct (C112_collect_map K V S W kcmp c srt nx hint s00 s0 s' h l fin fuel w L F SR CK SK Hh P Hf) as (that & d & w1 & P1 & X & E).
  unfold imap_extend. rewrite E. destruct fin.
  - destruct (X eq_refl) as [St I].
    pose proof (proj2 (proj2 (proj2 (proj2 (proj2 (proj2 (proj2 (proj2 (C110_map_joins K V V V (S * W) unit kcmp c strat self that that tt (s', w1) F)))))))) (pure_clos snd)) as Q.
    destruct (C29_combine_merge_extend K V unit kcmp strat self that l tt L Ss St) as (_ & (r & E2 & Sr & I2) & _).
    unfold wmap_merge_with. unfold vmap_merge_with in E2. rewrite E2 in Q. exists r.
    destruct (wmap_combine_with c strat (pure_clos snd) self that tt (s', w1)) as [o w2]. cbn [fst] in Q. subst o.
    split; [reflexivity|]. split; [exact Sr|]. intros k. rewrite I2, I. reflexivity.
  - exists w1. reflexivity.
Qed.
Print Assumptions C112_extend_map.

(** RadixTree: from_iter *)
Theorem C112_collect_radix :
  forall (K V S : Type) (kcmp : K -> K -> comparison) (strat : nat -> nat -> bool)
    (nx : S -> S * cres (option (list K * V))) (s s' : S) (l : list (list K * V)) (fin : bool) (fuel : nat),
    OrdLaws kcmp -> OrdEq kcmp -> pulls nx s l s' fin -> length l < fuel ->
    if fin then
      exists t, irt_from_iter kcmp strat nx fuel s = (Ok t, s') /\ Canon kcmp t /\ forall k v, has t k v <-> last_bound l k v
    else irt_from_iter kcmp strat nx fuel s = (Panicked, s').
Proof.
  intros K V S kcmp strat nx s s' l fin fuel L E P Hf.
  destruct (C45_from_iter L E strat l) as (t & Et & Ct & Ht). unfold rt_from_iter in Et. unfold irt_from_iter.
  assert (A : irt_insert_all kcmp strat nx fuel rt_empty s = (if fin then Ok t else Panicked, s')).
  { clear Ht Ct. revert fuel Hf Et. generalize (@rt_empty K V). induction P as [s s' N|s s' N|s x s1 l s' fin N P IH]; intros t0 [|fuel] Hf Et; try (cbn in Hf; lia);
      cbn [irt_insert_all]; rewrite N; [cbn [rt_insert_all] in Et; now injection Et as ->|reflexivity|].
    destruct x as [k v]. cbn [rt_insert_all] in Et. destruct (rt_insert kcmp strat t0 k v) as [t1| |]; cbn [rbind] in Et; [|discriminate|discriminate].
    cbn [length] in Hf. apply IH; [lia|exact Et]. }
  rewrite A. destruct fin; [eauto|reflexivity].
Qed.
Print Assumptions C112_collect_radix.

(** ** The hypotheses are met *)
(** an iterator over a list that panics when it meets [bad]; its state is what is left *)
Definition picky (bad : nat) (s : list nat) : list nat * cres (option nat) :=
  match s with
  | [] => ([], Ret None)
  | x :: s' => if x =? bad then (s', Throw) else (s', Ret (Some x))
  end.
(** a comparison and a sort that count their uses, beside the iterator's state *)
Definition count_cmp (w : list nat * nat) (x y : nat) : (list nat * nat) * option comparison :=
  ((fst w, S (snd w)), Some (Nat.compare x y)).
Definition count_sort (l : list nat) (w : list nat * nat) : (list nat * bool) * (list nat * nat) :=
  ((sort_by Nat.compare l, true), (fst w, snd w + 100)).
Definition any_hint {S : Type} (s : S) : S * cres nat := (s, Ret 7).

Example C112_pulls_all : pulls (picky 9) [3; 1; 3; 2] [3; 1; 3; 2] [] true.
Proof. repeat (eapply pulls_item; [reflexivity|]). now apply pulls_end. Qed.
Example C112_pulls_some : pulls (picky 9) [3; 1; 9; 2] [3; 1] [2] false.
Proof. repeat (eapply pulls_item; [reflexivity|]). now apply pulls_panic. Qed.
Example C112_laws : follows count_cmp Nat.compare /\ (forall s w, fst (count_sort s w) = (sort_by Nat.compare s, true)) /\
  (forall w x y, fst (fst (count_cmp w x y)) = fst w) /\ (forall l w, fst (snd (count_sort l w)) = fst w).
Proof. repeat split. Qed.
Example C112_run_all :
  iset_from_iter count_cmp count_sort (beside (picky 9)) (beside any_hint) 10 ([3; 1; 3; 2], 0) =
    (Done ([1; 2; 3], [3], [3; 1; 3; 2]), ([], 104)).
Proof. vm_compute. reflexivity. Qed.
Example C112_run_panic :
  iset_extend count_cmp count_sort (fun _ _ => true) [4; 5] (beside (picky 9)) (beside any_hint) 10 ([3; 1; 9; 2], 0) =
    (Unwound ([4; 5], [3; 1], [3; 1]), ([2], 1)).
Proof. vm_compute. reflexivity. Qed.
Example C112_run_endless :
  iset_from_iter count_cmp count_sort (beside (fun s : list nat => (s, Ret (Some 1)))) (beside any_hint) 10 ([], 0) =
    (DoneNoFuel, ([], 9)).
Proof. vm_compute. reflexivity. Qed.
Definition picky_keys (s : list (list nat * nat)) : list (list nat * nat) * cres (option (list nat * nat)) :=
  match s with
  | [] => ([], Ret None)
  | (k, v) :: s' => if v =? 0 then (s', Throw) else (s', Ret (Some (k, v)))
  end.
Example C112_run_radix :
  irt_from_iter Nat.compare (fun _ _ => true) picky_keys 10 [([1; 2], 5); ([1], 6); ([1; 2], 7)] =
    (Ok (Node [1] (Some 6) [Node [2] (Some 7) []]), []) /\
  irt_from_iter Nat.compare (fun _ _ => true) picky_keys 10 [([1; 2], 5); ([1], 0); ([1; 2], 7)] =
    (Panicked, [([1; 2], 7)]).
Proof. split; vm_compute; reflexivity. Qed.
