(** Facts: a comparison that may change its world as it likes, but whose answers follow a fixed
    function, drives the engine of OracleModel.v exactly as the effect-free engine of Merge.v. *)
From Verif Require Import OracleModel OracleFacts CollectModel CollectFacts StdFacts MergeFacts.

Lemma wbs_loop_follow {T W} (g : T -> option comparison) (f : W -> T -> W * option comparison) (l : list T)
  (F : forall w x, snd (f w x) = g x) :
  forall fuel left right w cnt,
    fst (wbs_loop f l fuel left right w) = fst (bs_loop g l fuel left right cnt).
Proof.
  induction fuel as [|fuel IH]; intros left right w cnt; cbn [wbs_loop bs_loop]; [reflexivity|].
  destruct (left <? right); [|reflexivity].
  destruct (nth_error l _) as [x|]; [|reflexivity].
  pose proof (F w x) as Q. destruct (f w x) as [w' r]. cbn [snd] in Q. subst r.
  destruct (g x) as [[]|]; try reflexivity; apply IH.
Qed.
Lemma wbsearch_follow {T W} (g : T -> option comparison) (f : W -> T -> W * option comparison) (l : list T) w :
  (forall w x, snd (f w x) = g x) -> fst (wbsearch f l w) = bsearch g l.
Proof. intros F. unfold wbsearch, bsearch, bs_count. now apply wbs_loop_follow. Qed.

Section Follow.
  Context {W S A B : Type} (O : mop S A B) (c : W -> A -> B -> W * option comparison).
  Context (C : forall w x y, snd (c w x y) = mo_cmp O x y).
  Lemma wbinary_merge_follow : forall fuel s an bn w,
    fst (wbinary_merge c O fuel s an bn w) = binary_merge O fuel s an bn.
  Proof.
    induction fuel as [|fuel IH]; intros s an bn w; cbn [wbinary_merge binary_merge]; [reflexivity|].
    destruct (an =? 0); [now destruct (bn =? 0)|]. destruct (bn =? 0); [reflexivity|].
    destruct (nth_error (mo_a O s) (an / 2)) as [x|]; [|reflexivity].
    pose proof (wbsearch_follow (fun y => option_map CompOpp (mo_cmp O x y))
      (fun w y => let (w', q) := c w x y in (w', option_map CompOpp q)) (firstn bn (mo_b O s)) w) as Q.
    rewrite <- Q by (intros w' y; rewrite <- (C w' x y); now destruct (c w' x y)). clear Q.
    destruct (wbsearch _ _ w) as [[bm|bi| |] w1]; cbn [fst]; try reflexivity.
    - pose proof (IH s (an / 2) bm w1) as H. destruct (wbinary_merge c O fuel s _ _ w1) as [o w2].
      cbn [fst] in H. rewrite <- H. destruct o; try reflexivity; cbn [obind].
      destruct (mo_coll O s0); try reflexivity; cbn [obind]. apply IH.
    - pose proof (IH s (an / 2) bi w1) as H. destruct (wbinary_merge c O fuel s _ _ w1) as [o w2].
      cbn [fst] in H. rewrite <- H. destruct o; try reflexivity; cbn [obind].
      destruct (mo_from_a O s0 1); try reflexivity; cbn [obind]. apply IH.
  Qed.
  Lemma wtape_merge_follow : forall fuel s w, fst (wtape_merge c O fuel s w) = tape_merge O fuel s.
  Proof.
    induction fuel as [|fuel IH]; intros s w; cbn [wtape_merge tape_merge]; [reflexivity|].
    destruct (mo_a O s) as [|x a], (mo_b O s) as [|y b]; try reflexivity.
    pose proof (C w x y) as Q. destruct (c w x y) as [w' r]. cbn [snd] in Q. subst r.
    destruct (mo_cmp O x y) as [[]|]; try reflexivity.
    - destruct (mo_coll O s); try reflexivity; apply IH.
    - destruct (mo_from_a O s 1); try reflexivity; apply IH.
    - destruct (mo_from_b O s 1); try reflexivity; apply IH.
  Qed.
  Lemma wmerge_follow strat s w : fst (wmerge c O strat s w) = merge O strat s.
  Proof. unfold wmerge, merge. destruct (strat _ _); [apply wtape_merge_follow|apply wbinary_merge_follow]. Qed.
End Follow.

(** the same for an operation whose comparison field is something else *)
Lemma wmerge_follow' {W S A B} (O O' : mop S A B) (c : W -> A -> B -> W * option comparison) strat s w :
  (forall w x y, snd (c w x y) = mo_cmp O' x y) ->
  MkMop (mo_a O) (mo_b O) (mo_cmp O') (mo_from_a O) (mo_from_b O) (mo_coll O) = O' ->
  fst (wmerge c O strat s w) = merge O' strat s.
Proof. intros C E. rewrite <- (wmerge_follow O' c C strat s w), <- E. reflexivity. Qed.

Section Collect.
  Context {T W : Type} (cmp : T -> T -> comparison) (c : W -> T -> T -> W * option comparison).
  Context (C : forall w x y, snd (c w x y) = Some (cmp x y)).
  Context (srt : list T -> W -> (list T * bool) * W).
  Context (S : forall s w, fst (srt s w) = (sort_by cmp s, true)).
  Lemma CE : forall w x y q, snd (c w x y) = Some q -> q = cmp x y.
  Proof using C. intros w x y q. rewrite C. now intros [= <-]. Qed.
  Lemma SE : forall s w, snd (fst (srt s w)) = true -> fst (fst (srt s w)) = sort_by cmp s.
  Proof using S. intros s w _. now rewrite S. Qed.
  Lemma wdedup_loop_total kp : forall is d j w r,
    dedup_loop (fun a b => eqb_of cmp a b) kp is d j = Some r -> snd (fst (wdedup_loop c kp is d j w)) = true.
  Proof using C.
    induction is as [|i is IH]; intros d j w r; cbn [dedup_loop wdedup_loop]; [reflexivity|].
    destruct (nth_error d i) as [x|], (nth_error d j) as [y|]; try discriminate.
    pose proof (C w x y) as Q. destruct (c w x y) as [w' q]. cbn [snd] in Q. subst q.
    unfold eqb_of. destruct (cmp x y); cbn [negb].
    - destruct kp; [apply IH|]. destruct (swap_at i j d); [apply IH|discriminate].
    - destruct (i =? j + 1); cbn [negb]; [apply IH|]. destruct (swap_at i (j + 1) d); [apply IH|discriminate].
    - destruct (i =? j + 1); cbn [negb]; [apply IH|]. destruct (swap_at i (j + 1) d); [apply IH|discriminate].
  Qed.
  Definition done_ok {X} (o : done X) : bool := match o with Done _ => true | _ => false end.
  Lemma wsd_compact_total s w s1 : sd_compact cmp (er s) = Some s1 -> done_ok (fst (wsd_compact c srt s w)) = true.
  Proof using C S.
    unfold sd_compact, wsd_compact. cbn [er sd_data sd_sorted sd_keep].
    destruct (wd_sorted s <? length (wd_data s)); [|reflexivity].
    pose proof (S (wd_data s) w) as H. destruct (srt (wd_data s) w) as [[sl ok] w1]. cbn [fst] in H.
    injection H as -> ->.
    destruct (dedup_by _ _ _) as [[sl' u]|] eqn:Q; [|discriminate]. intros _.
    assert (H : snd (fst (wdedup_by c (sort_by cmp (wd_data s)) (wd_keep s) w1)) = true).
    { unfold dedup_by in Q. unfold wdedup_by. destruct (sort_by cmp (wd_data s)) as [|x d]; [reflexivity|].
      destruct (dedup_loop _ _ _ _ _) as [r|] eqn:Q2; [|discriminate].
      pose proof (wdedup_loop_total _ _ _ _ w1 _ Q2) as H.
      destruct (wdedup_loop c _ _ _ _ w1) as [[[d2 j2] ok] w2]. exact H. }
    destruct (wdedup_by c _ _ w1) as [[[d2 j2] ok] w2]. cbn [fst snd] in H. subst ok. reflexivity.
  Qed.
  Lemma wsd_push_total s x w s1 : sd_push cmp (er s) x = Some s1 -> done_ok (fst (wsd_push c srt s x w)) = true.
  Proof using C S.
    assert (R : exists s2 w2, wsd_push_raw c s x w = (Done s2, w2) /\ er s2 = sd_push_raw cmp (er s) x).
    { unfold wsd_push_raw, sd_push_raw. cbn [er sd_data sd_sorted sd_keep].
      destruct (wd_sorted s =? length (wd_data s)); [|do 2 eexists; split; reflexivity].
      destruct (rev (wd_data s)) as [|last fr]; [do 2 eexists; split; reflexivity|].
      pose proof (C w last x) as Q. destruct (c w last x) as [w' q]. cbn [snd] in Q. subst q.
      destruct (cmp last x); [destruct (wd_keep s) eqn:KP|..]; do 2 eexists; (split; [reflexivity|]); try reflexivity.
      unfold er. cbn. now rewrite KP. }
    destruct R as (s2 & w2 & R & E). unfold sd_push, wsd_push. rewrite R, <- E. cbn [er sd_data sd_sorted sd_keep].
    destruct (16 <=? length (wd_data s2)); [|reflexivity].
    destruct (wd_sorted s2 <? _); [|reflexivity]. apply wsd_compact_total.
  Qed.
  Lemma wsd_run_total : forall l s w r,
    match sd_push_all cmp (er s) l with Some s' => sd_into_inner cmp s' | None => None end = Some r ->
    done_ok (fst (wsd_run c srt s l w)) = true.
  Proof using C S.
    induction l as [|x l IH]; intros s w r; cbn [sd_push_all wsd_run].
    - unfold sd_into_inner. destruct (sd_compact cmp (er s)) as [s1|] eqn:Q; [|discriminate]. intros [= <-].
      pose proof (wsd_compact_total s w s1 Q) as H. destruct (wsd_compact c srt s w) as [[s2|s2|] w1];
        [reflexivity|exact H|exact H].
    - destruct (sd_push cmp (er s) x) as [s1|] eqn:Q; [|discriminate]. intros H.
      pose proof (wsd_push_total s x w s1 Q) as G.
      pose proof (wsd_push_erase cmp c CE srt SE s x w s1 Q) as G2.
      destruct (wsd_push c srt s x w) as [[s2|s2|] w1]; [|discriminate G|discriminate G].
      cbn [fst like] in G2. subst s1. exact (IH s2 w1 r H).
  Qed.
  Lemma wsort_dedup_follow l kp w r : sort_dedup_by cmp l kp = Some r ->
    exists dropped, fst (wsort_dedup_by c srt l kp w) = Done (r, dropped, []).
  Proof using C S.
    intros E. pose proof (wsort_dedup_erase cmp c CE srt SE l kp w r E) as H.
    pose proof (wsd_run_total l (MkWsad [] 0 kp []) w r E) as G. fold (wsort_dedup_by c srt l kp w) in G.
    destruct (fst (wsort_dedup_by c srt l kp w)) as [[[d dr] rs]| |]; [|discriminate G|discriminate G].
    destruct H as [-> ->]. eauto.
  Qed.
End Collect.
