(** Operations of the user do not notice shares that are held outside of the registers: a run with further registers
    behind the ones that are named is the same run. *)
From Coq Require Import Permutation.
From Verif Require Export HeapApiRefine.

Section Regs.
  Context {A : Type}.
  Implicit Types (s X : regs A).
  Lemma upd_app i (x : option A) s X : i < length s -> upd_nth i x (s ++ X) = upd_nth i x s ++ X.
  Proof.
    intros H. unfold upd_nth. rewrite firstn_app, skipn_app. replace (i - length s) with 0 by lia. replace (S i - length s) with 0 by lia.
    cbn [firstn skipn]. rewrite app_nil_r. now rewrite <- app_assoc.
  Qed.
  Lemma upd_len i (x : option A) s : i < length s -> length (upd_nth i x s) = length s.
  Proof. intros H. unfold upd_nth. rewrite app_length. cbn [length]. rewrite firstn_length, skipn_length. lia. Qed.
  Lemma rget_app i s X : i < length s -> rget i (s ++ X) = rget i s.
  Proof. intros H. unfold rget. now rewrite nth_error_app1. Qed.
  Definition lift1 X (r : option (regs A)) : option (regs A) := match r with Some s => Some (s ++ X) | None => None end.
  Definition lift2 {B} X (r : option (B * regs A)) : option (B * regs A) := match r with Some (b, s) => Some (b, s ++ X) | None => None end.
  Lemma rput_app i (x : A) s X : i < length s -> rput i x (s ++ X) = lift1 X (rput i x s).
  Proof. intros H. unfold rput. rewrite nth_error_app1 by auto. destruct (nth_error s i) as [[]|]; auto. cbn. now rewrite upd_app. Qed.
  Lemma rtake_app i s X : i < length s -> rtake i (s ++ X) = lift2 X (rtake i s).
  Proof. intros H. unfold rtake. rewrite rget_app by auto. destruct (rget i s); auto. cbn. now rewrite upd_app. Qed.
  Lemma rget_lt i s (x : A) : rget i s = Some x -> i < length s.
  Proof. unfold rget. destruct (nth_error s i) eqn:Q; [|discriminate]. intros _. apply nth_error_Some. congruence. Qed.
  Lemma rput_lt i s (x : A) s' : rput i x s = Some s' -> i < length s /\ length s' = length s.
  Proof.
    unfold rput. destruct (nth_error s i) as [[]|] eqn:Q; try discriminate. intros [= <-].
    assert (i < length s) by (apply nth_error_Some; congruence). split; auto. now apply upd_len.
  Qed.
  Lemma rtake_lt i s (x : A) s' : rtake i s = Some (x, s') -> i < length s /\ length s' = length s.
  Proof. unfold rtake. destruct (rget i s) eqn:Q; [|discriminate]. intros [= <- <-]. apply rget_lt in Q. split; auto. now apply upd_len. Qed.
  Lemma rtakes_lt l : forall s (xs : list A) s', rtakes l s = Some (xs, s') -> (forall i, In i l -> i < length s) /\ length s' = length s.
  Proof.
    induction l as [|i l IH]; intros s xs s' H; cbn [rtakes] in H; [injection H as <- <-; split; easy|].
    destruct (rtake i s) as [[x s1]|] eqn:Q; [|discriminate]. destruct (rtakes l s1) as [[ys s2]|] eqn:Q2; [|discriminate]. injection H as <- <-.
    apply rtake_lt in Q as [Q L]. apply IH in Q2 as [Q2 L2]. split; [|lia]. intros j [<-|Hj]; auto. rewrite <- L. auto.
  Qed.
  Lemma rtakes_app l : forall s X, (forall i, In i l -> i < length s) -> rtakes l (s ++ X) = lift2 X (rtakes l s).
  Proof.
    induction l as [|i l IH]; intros s X H; cbn [rtakes]; auto. rewrite rtake_app by (apply H; now left).
    destruct (rtake i s) as [[x s1]|] eqn:Q; auto. cbn [lift2]. apply rtake_lt in Q as [_ L].
    rewrite IH by (intros j Hj; rewrite L; apply H; now right). destruct (rtakes l s1) as [[ys s2]|]; auto.
  Qed.
End Regs.

Section Local.
  Context {K V : Type} (kcmp : K -> K -> comparison) (strat : nat -> nat -> bool) (arc : bool).
  Notation tree := (rtree K V).
  Notation node := (node K V).
  Notation heap := (heap K V).
  Implicit Types (h : heap) (s X : regs node) (vs : regs tree).

  Definition slift X (r : option (state K V)) : option (state K V) :=
    match r with Some (h, s) => Some (h, s ++ X) | None => None end.
  Definition alift X (r : option (state K V * list (obs K V))) : option (state K V * list (obs K V)) :=
    match r with Some ((h, s), l) => Some ((h, s ++ X), l) | None => None end.

  Lemma in_reg_app i act h s X : i < length s -> in_reg i act h (s ++ X) =
    match in_reg i act h s with Some (h1, s1, x) => Some (h1, s1 ++ X, x) | None => None end.
  Proof.
    intros H. unfold in_reg. rewrite rtake_app by auto. destruct (rtake i s) as [[n s1]|] eqn:Q; auto. cbn [lift2]. apply rtake_lt in Q as [_ L].
    destruct (act h n) as [[[h1 n1] x]|]; auto. rewrite rput_app by lia. now destruct (rput i n1 s1).
  Qed.
  Lemma in_reg_len i act h s h1 s1 x : in_reg i act h s = Some (h1, s1, x) -> length s1 = length s.
  Proof.
    unfold in_reg. destruct (rtake i s) as [[n s2]|] eqn:Q; [|discriminate]. apply rtake_lt in Q as [_ L].
    destruct (act h n) as [[[h2 n1] y]|]; [|discriminate]. destruct (rput i n1 s2) eqn:Q2; [|discriminate]. intros [= <- <- <-]. apply rput_lt in Q2. lia.
  Qed.
  Lemma hstep_app o h s X : (forall i, In i (names o) -> i < length s) -> hstep arc o (h, s ++ X) = slift X (hstep arc o (h, s)).
  Proof.
    intros N. destruct o; cbn [hstep names] in *.
    - destruct (mk_empty arc h) as [[h1 n]|]; auto. rewrite rput_app by (apply N; now left). now destruct (rput j n s).
    - rewrite rtakes_app by (intros i Hi; apply N; now right). destruct (rtakes src s) as [[ns s1]|] eqn:Q; auto. cbn [lift2]. apply rtakes_lt in Q as [_ L].
      destruct (wrap arc h ns) as [[h1 a]|]; auto. rewrite rput_app by (rewrite L; apply N; now left). now destruct (rput j _ s1).
    - destruct (of_tree arc w h t) as [[h1 n]|]; auto. rewrite rput_app by (apply N; now left). now destruct (rput j n s).
    - rewrite rput_app by (apply N; now left). now destruct (rput j _ s).
    - rewrite rget_app by (apply N; now left). destruct (rget i s) as [n|]; auto. destruct (node_clone h n) as [[h1 n']|]; auto.
      rewrite rput_app by (apply N; right; now left). now destruct (rput j n' s).
    - rewrite rtake_app by (apply N; now left). destruct (rtake i s) as [[n s1]|]; auto. cbn [lift2]. now destruct (drop_all h [n]).
    - rewrite rtake_app by (apply N; now left). destruct (rtake i s) as [[n s1]|] eqn:Q; auto. cbn [lift2]. apply rtake_lt in Q as [_ L].
      rewrite rput_app by (rewrite L; apply N; right; now left). now destruct (rput j n s1).
    - rewrite rtake_app by (apply N; now left). destruct (rtake i s) as [[n s1]|] eqn:Q; auto. cbn [lift2]. apply rtake_lt in Q as [_ L].
      destruct (touch path h n) as [[[h1 n1] b]|]; auto. rewrite rput_app by (rewrite L; apply N; now left). now destruct (rput i n1 s1).
    - rewrite rtake_app by (apply N; now left). destruct (rtake i s) as [[n s1]|] eqn:Q; auto. cbn [lift2]. apply rtake_lt in Q as [_ L].
      destruct (touch path h n) as [[[h1 n1] b]|]; auto. rewrite rput_app by (rewrite L; apply N; now left).
      destruct (rput i n1 s1) as [s2|] eqn:Q2; auto. cbn [lift1]. apply rput_lt in Q2 as [_ L2]. destruct (h_cell h1 b) as [[rc ns]|]; auto.
      destruct (nth_error ns k) as [c|]; auto. destruct (node_clone h1 c) as [[h2 c']|]; auto.
      rewrite rput_app by (rewrite L2, L; apply N; right; now left). now destruct (rput j c' s2).
    - rewrite in_reg_app by (apply N; now left). now destruct (in_reg _ _ h s) as [[[h1 s1] x]|].
    - rewrite in_reg_app by (apply N; now left). now destruct (in_reg _ _ h s) as [[[h1 s1] x]|].
    - rewrite rtake_app by (apply N; right; now left). destruct (rtake src s) as [[m s1]|] eqn:Q; auto. cbn [lift2]. apply rtake_lt in Q as [_ L].
      rewrite in_reg_app by (rewrite L; apply N; now left). now destruct (in_reg _ _ h s1) as [[[h1 s2] x]|].
    - rewrite in_reg_app by (apply N; now left). destruct (in_reg _ _ h s) as [[[h1 s1] [m|]]|] eqn:Q; auto. apply in_reg_len in Q.
      rewrite rput_app by (rewrite Q; apply N; right; now left). now destruct (rput j m s1).
  Qed.
  Lemma into_app r s X j : j < length s -> into_reg r (s ++ X) j = alift X (@into_reg K V r s j).
  Proof. intros H. unfold into_reg. destruct r as [[h1 n1]|]; auto. rewrite rput_app by auto. now destruct (rput j n1 s). Qed.
  Lemma in_place_app act i b h s X : i < length s -> b < length s -> in_place act i b (h, s ++ X) = alift X (@in_place K V act i b (h, s)).
  Proof.
    intros Hi Hb. unfold in_place. rewrite rtake_app by auto. destruct (rtake i s) as [[n s1]|] eqn:Q; auto. cbn [lift2]. apply rtake_lt in Q as [_ L].
    rewrite rget_app by lia. destruct (rget b s1) as [m|]; auto. destruct (act h n m) as [[h1 n1]|]; auto. rewrite rput_app by lia. now destruct (rput i n1 s1).
  Qed.
  Lemma pure_app act a b j h s X : a < length s -> b < length s -> j < length s -> pure_into act a b j (h, s ++ X) = alift X (@pure_into K V act a b j (h, s)).
  Proof.
    intros Ha Hb Hj. unfold pure_into. rewrite !rget_app by auto. destruct (rget a s) as [n|]; auto. destruct (rget b s) as [m|]; auto. now apply into_app.
  Qed.
  Lemma answer_app {Y} (mk : Y -> obs K V) h s X r : answer mk (h, s ++ X) r = alift X (answer mk (h, s) r).
  Proof. now destruct r. Qed.
  Lemma astep_app F o h s X : (forall i, In i (anames o) -> i < length s) ->
    astep kcmp strat arc F o (h, s ++ X) = alift X (astep kcmp strat arc F o (h, s)).
  Proof.
    intros N. assert (N0 : forall i l, anames o = i :: l -> i < length s) by (intros i l E; apply N; rewrite E; now left).
    assert (N1 : forall i j l, anames o = i :: j :: l -> j < length s) by (intros i j l E; apply N; rewrite E; right; now left).
    assert (N2 : forall i j k l, anames o = i :: j :: k :: l -> k < length s) by (intros i j k l E; apply N; rewrite E; right; right; now left).
    destruct o; cbn [astep anames] in *.
    - rewrite hstep_app by auto. now destruct (hstep arc o (h, s)) as [[h1 s1]|].
    - apply into_app; eauto.
    - rewrite rtake_app by eauto. destruct (rtake i s) as [[n s1]|] eqn:Q; auto. cbn [lift2]. apply rtake_lt in Q as [_ L]. apply into_app. rewrite L. eauto.
    - rewrite rtake_app by eauto. destruct (rtake i s) as [[n s1]|] eqn:Q; auto. cbn [lift2]. apply rtake_lt in Q as [_ L]. apply into_app. rewrite L. eauto.
    - rewrite rget_app by eauto. destruct (rget i s) as [n|]; auto. apply into_app. eauto.
    - apply in_place_app; eauto.
    - apply in_place_app; eauto.
    - apply in_place_app; eauto.
    - apply in_place_app; eauto.
    - apply in_place_app; eauto.
    - apply pure_app; eauto.
    - apply pure_app; eauto.
    - apply pure_app; eauto.
    - rewrite rget_app by eauto. destruct (rget i s) as [n|]; auto. now destruct (h_get kcmp F h n k).
    - rewrite rget_app by eauto. destruct (rget i s) as [n|]; auto. apply answer_app.
    - rewrite !rget_app by eauto. destruct (rget a s) as [n|]; auto. destruct (rget b s) as [m|]; auto. apply answer_app.
    - rewrite !rget_app by eauto. destruct (rget a s) as [n|]; auto. destruct (rget b s) as [m|]; auto. apply answer_app.
  Qed.

  (** ** The same on plain trees *)
  Lemma vreg_lt i act vs vs' x : @vreg K V i act vs = Some (vs', x) -> i < length vs /\ length vs' = length vs.
  Proof.
    unfold vreg. destruct (rtake i vs) as [[t v1]|] eqn:Q; [|discriminate]. apply rtake_lt in Q as [H L].
    destruct (act t) as [[t' y]|]; [|discriminate]. destruct (rput i t' v1) eqn:Q2; [|discriminate]. intros [= <- <-]. apply rput_lt in Q2. lia.
  Qed.
  Ltac inv1 :=
    match goal with
    | H : match ?e with _ => _ end = Some _ |- _ => let Q := fresh "Q" in destruct e eqn:Q; try discriminate
    | p : (_ * _)%type |- _ => destruct p
    | H : Some (_, _) = Some (_, _) |- _ => injection H as <- <-
    | H : Some _ = Some _ |- _ => injection H as <-
    end.
  Ltac lens :=
    repeat match goal with
    | H : rput _ _ _ = Some _ |- _ => apply rput_lt in H as [? ?]
    | H : rtake _ _ = Some (_, _) |- _ => apply rtake_lt in H as [? ?]
    | H : rtakes _ _ = Some (_, _) |- _ => apply rtakes_lt in H as [? ?]
    | H : vreg _ _ _ = Some (_, _) |- _ => apply vreg_lt in H as [? ?]
    | H : rget _ _ = Some _ |- _ => apply rget_lt in H
    end.
  Lemma vstep_names (o : op K V) vs vs' : vstep o vs = Some vs' -> (forall i, In i (names o) -> i < length vs) /\ length vs' = length vs.
  Proof.
    intros H. destruct o; cbn [vstep names] in *; repeat inv1; lens; split; try lia; intros y Hy; cbn [In] in Hy;
      repeat match goal with X : _ \/ _ |- _ => destruct X | X : False |- _ => destruct X end; subst; try lia; auto.
  Qed.
  Lemma pstep_names o vs vs' l : pstep kcmp strat o vs = Some (vs', l) -> (forall i, In i (anames o) -> i < length vs) /\ length vs' = length vs.
  Proof.
    intros H. destruct o; cbn [pstep anames] in *; unfold p_in_place, p_into, p_answer in *; repeat inv1;
      try (match goal with X : vstep _ _ = _ |- _ => now apply vstep_names in X end);
      lens; (split; [|lia]); intros y Hy; cbn [In] in Hy;
      repeat match goal with X : _ \/ _ |- _ => destruct X | X : False |- _ => destruct X end; subst; lia.
  Qed.

  Lemma rget_more {A} i (s X : regs A) x : rget i s = Some x -> rget i (s ++ X) = Some x.
  Proof. intros H. rewrite rget_app; auto. eapply rget_lt; eauto. Qed.
  Lemma rput_more {A} i (s X s' : regs A) x : rput i x s = Some s' -> rput i x (s ++ X) = Some (s' ++ X).
  Proof. intros H. rewrite rput_app by (eapply rput_lt; eauto). now rewrite H. Qed.
  Lemma rtake_more {A} i (s X s' : regs A) x : rtake i s = Some (x, s') -> rtake i (s ++ X) = Some (x, s' ++ X).
  Proof. intros H. rewrite rtake_app by (eapply rtake_lt; eauto). now rewrite H. Qed.
  Lemma rtakes_more {A} l (s X s' : regs A) xs : rtakes l s = Some (xs, s') -> rtakes l (s ++ X) = Some (xs, s' ++ X).
  Proof. intros H. rewrite rtakes_app by (eapply rtakes_lt; eauto). now rewrite H. Qed.
  Lemma vreg_more i act vs xs vs' y : @vreg K V i act vs = Some (vs', y) -> vreg i act (vs ++ xs) = Some (vs' ++ xs, y).
  Proof.
    unfold vreg. destruct (rtake i vs) as [[t v1]|] eqn:Q; [|discriminate]. rewrite (rtake_more _ _ xs _ _ Q).
    destruct (act t) as [[t' z]|]; [|discriminate]. destruct (rput i t' v1) eqn:Q2; [|discriminate]. rewrite (rput_more _ _ xs _ _ Q2). now intros [= <- <-].
  Qed.
  Ltac more xs :=
    repeat match goal with
    | H : rput ?i ?x ?s = Some _ |- context [rput ?i ?x (?s ++ xs)] => rewrite (rput_more _ _ xs _ _ H)
    | H : rtake ?i ?s = Some (_, _) |- context [rtake ?i (?s ++ xs)] => rewrite (rtake_more _ _ xs _ _ H)
    | H : rtakes ?i ?s = Some (_, _) |- context [rtakes ?i (?s ++ xs)] => rewrite (rtakes_more _ _ xs _ _ H)
    | H : vreg ?i ?a ?s = Some (_, _) |- context [vreg ?i ?a (?s ++ xs)] => rewrite (vreg_more _ _ _ xs _ _ H)
    | H : rget ?i ?s = Some _ |- context [rget ?i (?s ++ xs)] => rewrite (rget_more _ _ xs _ H)
    | H : ?e = Some _ |- context [match ?e with _ => _ end] => rewrite H
    | H : ?e = Ok _ |- context [match ?e with _ => _ end] => rewrite H
    end; auto.
  Lemma vstep_more (o : op K V) vs xs vs' : vstep o vs = Some vs' -> vstep o (vs ++ xs) = Some (vs' ++ xs).
  Proof. intros H. destruct o; cbn [vstep] in *; repeat inv1; more xs. Qed.
  Lemma pstep_more o vs xs vs' l : pstep kcmp strat o vs = Some (vs', l) -> pstep kcmp strat o (vs ++ xs) = Some (vs' ++ xs, l).
  Proof.
    intros H. destruct o; cbn [pstep] in *; unfold p_in_place, p_into, p_answer in *; repeat inv1;
      try (match goal with X : vstep _ _ = _ |- _ => now rewrite (vstep_more _ _ xs _ X) end); more xs.
  Qed.
End Local.
