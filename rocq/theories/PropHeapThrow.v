(** Property C131: a panic in Clone of a value, while an ArcRadixTree or LazyRadixTree is cloned, copied on write, lazily
    loaded or converted, is contained.

    A program (HeapThrowModel.tprog) is a sequence of the operations of HeapModel.v on registers that own trees; it catches
    panics and goes on as it likes. [vcl] decides, for every call of Clone for a value, whether it returns or panics; it
    may depend on anything that happened before (its environment [E]). *)
From Coq Require Import Permutation.
From Verif Require Export HeapThrowFacts.

Section Panics.
  Context {K V E : Type} (arc : bool) (vcl : E -> V -> E * bool).
  Notation tree := (rtree K V).

  (** Whichever calls panic, nothing freed is touched and no count goes wrong; every register holds the tree it would hold if
      nothing were shared and every step that panicked had not happened (but for a tree that was moved into it, which is
      dropped): no half-made copy can be seen through any tree that shares vectors with the one being changed. *)
  Theorem C131_contained (n : nat) (q : tprog K V) (e : E) : meaningful q (repeat None n) ->
    exists st e' oks vs, te_run vcl arc q (hinit n) e = Some (st, e', oks) /\ vruns q oks (repeat None n) = Some vs /\
      forall i t, holds_tree st i t <-> rget i vs = Some t.
  Proof.
    intros M. destruct (te_run_good vcl arc q _ _ e (init_good n) M) as (st & e' & oks & vs & Q & W & G).
    exists st, e', oks, vs. split; [exact Q|]. split; [exact W|]. intros i t. now apply good_holds.
  Qed.

  Lemma run_is_good n (q : tprog K V) (e : E) st e' oks : meaningful q (repeat None n) -> te_run vcl arc q (hinit n) e = Some (st, e', oks) ->
    exists vs, vruns q oks (repeat None n) = Some vs /\ good st vs.
  Proof.
    intros M Q. destruct (te_run_good vcl arc q _ _ e (init_good n) M) as (st1 & e1 & oks1 & vs & Q1 & W & G).
    rewrite Q in Q1. injection Q1 as <- <- <-. eauto.
  Qed.

  (** the vector that all childless ArcRadixTrees share stays empty *)
  Theorem C131_shared_empty_stays_empty (n : nat) (q : tprog K V) (e e' : E) st oks :
    meaningful q (repeat None n) -> te_run vcl arc q (hinit n) e = Some (st, e', oks) ->
    exists rc, h_cell (fst st) 0 = Some (S rc, []).
  Proof.
    intros M Q. destruct (run_is_good n q e st e' oks M Q) as (vs & _ & I & D & _).
    inversion D; subst. match goal with H : dens _ _ _ |- _ => inversion H; subst end.
    pose proof (inv_count _ _ I 0) as C. match goal with H : h_cell _ 0 = _ |- _ => rewrite H in C |- * end.
    destruct C as [_ C]. destruct rc; [lia|eauto].
  Qed.
  (** reference counts are exact *)
  Theorem C131_counts_exact (n : nat) (q : tprog K V) (e e' : E) st oks :
    meaningful q (repeat None n) -> te_run vcl arc q (hinit n) e = Some (st, e', oks) ->
    forall a rc ns, h_cell (fst st) a = Some (rc, ns) ->
      rc = (if a =? 0 then 1 else 0)
           + list_sum (map (fun r => match r with Some m => ref a m | None => 0 end) (snd st))
           + list_sum (map (fun b => match h_cell (fst st) b with Some (_, ms) => list_sum (map (ref a) ms) | None => 0 end) (seq 0 (h_next (fst st))))
      /\ 0 < rc.
  Proof.
    intros M Q a rc ns Ha. destruct (run_is_good n q e st e' oks M Q) as (vs & _ & I & D & _).
    pose proof (inv_count _ _ I a) as C. rewrite Ha in C. destruct C as [C P]. split; [|exact P].
    rewrite cnt_cons in C. replace (ref a static) with (if a =? 0 then 1 else 0) in C by (destruct a; reflexivity).
    replace (list_sum (map _ (snd st))) with (cnt a (nodes_of (snd st))); [exact C|].
    clear. induction (snd st) as [|[m|] s IH]; unfold nodes_of in *; [reflexivity| |exact IH].
    cbn [flat_map olist app]. rewrite cnt_cons, IH. reflexivity.
  Qed.
  (** every live vector can be reached from a register, or is the shared empty one *)
  Theorem C131_live_is_reachable (n : nat) (q : tprog K V) (e e' : E) st oks :
    meaningful q (repeat None n) -> te_run vcl arc q (hinit n) e = Some (st, e', oks) ->
    forall a, h_cell (fst st) a <> None -> a = 0 \/ exists i m, rget i (snd st) = Some m /\ reach (fst st) m a.
  Proof.
    intros M Q a Ha. destruct (run_is_good n q e st e' oks M Q) as (vs & _ & I & D & _).
    destruct (h_cell (fst st) a) as [[rc ns]|] eqn:Qa; [|congruence].
    destruct (live_reach _ _ I a rc ns Qa) as (m & [<-|Hm] & R).
    - left. inversion R as [? ? Hk|? b rb nb m b' Hk Hb Hm R']; subst; [cbn in Hk; congruence|]. exfalso.
      cbn in Hk. injection Hk as <-. inversion D; subst. match goal with H : dens _ _ _ |- _ => inversion H; subst end.
      match goal with H : h_cell _ 0 = Some (_, []) |- _ => rewrite Hb in H; injection H as -> -> end. easy.
    - right. apply in_flat_map in Hm as (o & Hy & Ho). destruct o as [y|]; [|easy]. destruct Ho as [<-|[]]. apply In_nth_error in Hy as (i & Hi). exists i, y.
      split; [|exact R]. unfold rget. now rewrite Hi.
  Qed.
  (** so nothing is leaked: when no register holds a tree any more, only the shared empty vector is left *)
  Theorem C131_no_leak (n : nat) (q : tprog K V) (e e' : E) st oks :
    meaningful q (repeat None n) -> te_run vcl arc q (hinit n) e = Some (st, e', oks) -> (forall i, rget i (snd st) = None) ->
    forall a, h_cell (fst st) a = if a =? 0 then Some (1, []) else None.
  Proof.
    intros M Q Er a. destruct (Nat.eqb_spec a 0) as [->|N].
    - destruct (C131_shared_empty_stays_empty n q e e' st oks M Q) as (rc & Hc). rewrite Hc. do 2 f_equal.
      destruct (C131_counts_exact n q e e' st oks M Q 0 _ _ Hc) as [C _].
      assert (Z1 : forall s : regs (node K V), (forall i, rget i s = None) -> list_sum (map (fun r => match r with Some m => ref 0 m | None => 0 end) s) = 0).
      { induction s as [|[m|] s IH]; intros F; auto; [specialize (F 0); discriminate|]. simpl. apply IH. intros i. apply (F (S i)). }
      assert (Z2 : forall l, list_sum (map (fun b => match h_cell (fst st) b with Some (_, ms) => list_sum (map (ref 0) ms) | None => 0 end) l) = 0).
      { induction l as [|b l IH]; auto. cbn [map list_sum fold_right]. fold (list_sum (map (fun b => match h_cell (fst st) b with Some (_, ms) => list_sum (map (ref 0) ms) | None => 0 end) l)).
        rewrite IH. destruct (h_cell (fst st) b) as [[rb nb]|] eqn:Qb; auto.
        destruct (C131_live_is_reachable n q e e' st oks M Q b) as [->|(i & m & Hm & _)]; [congruence| |rewrite Er in Hm; discriminate].
        rewrite Hc in Qb. injection Qb as <- <-. reflexivity. }
      rewrite Z1, Z2 in C by auto. cbn in C. lia.
    - destruct (h_cell (fst st) a) as [c|] eqn:Qa; auto.
      destruct (C131_live_is_reachable n q e e' st oks M Q a) as [->|(i & m & Hm & _)]; [congruence|congruence|rewrite Er in Hm; discriminate].
  Qed.

  (** ** When no call panics *)
  Section Total.
  Context (Tot : forall e v, snd (vcl e v) = true).
  Definition calm {X Y} (r : eres X Y) : Prop := match r with EThrow _ => False | _ => True end.
  Lemma calm_ocl e v : snd (ocl vcl e v) = true.
  Proof using Tot. destruct v; [apply Tot|reflexivity]. Qed.
  Lemma calm_node h (n : node K V) e : calm (te_node_clone vcl h n e).
  Proof using Tot. unfold te_node_clone. pose proof (calm_ocl e (n_value n)) as O. destruct (ocl vcl e (n_value n)) as [e1 ok]. cbn in O. subst ok. now destruct (node_clone h n). Qed.
  Lemma calm_nodes (ns : list (node K V)) : forall done h e, calm (te_nodes_clone vcl done h ns e).
  Proof using Tot.
    induction ns as [|n ns IH]; intros done h e; cbn [te_nodes_clone]; [exact Logic.I|].
    pose proof (calm_node h n e) as T. destruct (te_node_clone vcl h n e) as [[[h1 n'] e1]|?|]; [apply IH|easy|easy].
  Qed.
  Lemma calm_make_mut (h : heap K V) a e : calm (te_make_mut vcl h a e).
  Proof using Tot.
    unfold te_make_mut. destruct (h_cell h a) as [[[|[|r]] ns]|]; try exact Logic.I.
    pose proof (calm_nodes ns [] h e) as T. destruct (te_nodes_clone vcl [] h ns e) as [[[h1 l] e1]|[h1 e1]|]; [|easy|easy].
    destruct (arc_new h1 l) as [h2 b]. now destruct (h_cell h2 a) as [[[|[|?]] ?]|].
  Qed.
  Lemma calm_force h (n : node K V) e : calm (te_force vcl h n e).
  Proof using Tot.
    assert (F : forall (ts : list tree) e, snd (te_values vcl ts e) = true).
    { induction ts as [|t ts IH]; intros e0; [reflexivity|]. cbn [te_values]. pose proof (calm_ocl e0 (t_value t)) as O.
      destruct (ocl vcl e0 (t_value t)) as [e1 ok]. cbn in O. subst ok. apply IH. }
    unfold te_force. destruct (n_kids n) as [ts|a]; [|exact Logic.I]. specialize (F ts e).
    destruct (te_values vcl ts e) as [e1 ok]. cbn in F. now subst ok.
  Qed.
  Lemma calm_children_mut h (n : node K V) e : calm (te_children_mut vcl h n e).
  Proof using Tot.
    unfold te_children_mut. pose proof (calm_force h n e) as T. destruct (te_force vcl h n e) as [[[h1 a] e1]|?|]; [|easy|easy].
    pose proof (calm_make_mut h1 a e1) as T2. now destruct (te_make_mut vcl h1 a e1) as [[[h2 a'] e2]|[? ?]|].
  Qed.
  Lemma calm_touch path h (n : node K V) e : calm (te_touch vcl path h n e).
  Proof using Tot.
    assert (F : forall path (h : heap K V) a e, calm (te_touch_at vcl path h a e)).
    { clear path h n e. induction path as [|i path IH]; intros h a e; cbn [te_touch_at]; [exact Logic.I|]. unfold te_force_at.
      destruct (h_cell h a) as [[rc ns]|]; [|exact Logic.I]. destruct (nth_error ns i) as [c|]; [|exact Logic.I].
      pose proof (calm_force h c e) as T. destruct (te_force vcl h c e) as [[[h1 b] e1]|?|]; [|easy|easy].
      destruct (h_cell _ a) as [[? ms]|]; [|exact Logic.I]. destruct (nth_error ms i) as [d|]; [|exact Logic.I].
      destruct (n_kids d); [exact Logic.I|apply IH]. }
    unfold te_touch. pose proof (calm_force h n e) as T. destruct (te_force vcl h n e) as [[[h1 a] e1]|?|]; [|easy|easy].
    specialize (F path h1 a e1). now destruct (te_touch_at vcl path h1 a e1) as [[[h2 b] e2]|[? ?]|].
  Qed.
  Lemma calm_mut_at (act : taction (K := K) (V := V) (E := E)) : (forall h (n : node K V) e, calm (act h n e)) -> forall path h n e, calm (te_mut_at vcl path act h n e).
  Proof using Tot.
    intros A. induction path as [|i path IH]; intros h n e; cbn [te_mut_at]; [apply A|].
    pose proof (calm_children_mut h n e) as T. destruct (te_children_mut vcl h n e) as [[[[h1 n1] a] e1]|[[? ?] ?]|]; [|easy|easy].
    destruct (h_cell h1 a) as [[rc ns]|]; [|exact Logic.I]. destruct (nth_error ns i) as [c|]; [|exact Logic.I].
    specialize (IH (h_upd h1 a None) c e1). now destruct (te_mut_at vcl path act (h_upd h1 a None) c e1) as [[[[? ?] ?] ?]|[[? ?] ?]|].
  Qed.
  Lemma calm_in_reg i (act : taction (E := E)) h (s : regs (node K V)) e : (forall h n e, calm (act h n e)) -> calm (te_in_reg i act h s e).
  Proof using Tot.
    intros A. unfold te_in_reg. destruct (rtake i s) as [[n s1]|]; [|exact Logic.I]. specialize (A h n e).
    destruct (act h n e) as [[[[h1 n1] o] e1]|[[? ?] ?]|]; [|easy|easy]. now destruct (rput i n1 s1).
  Qed.
  Lemma calm_of_tree (t : tree) : forall h e, calm (te_of_tree vcl h t e).
  Proof using Tot.
    induction t as [p v ts IH] using rtree_ind'. intros h e. cbn [te_of_tree].
    match goal with |- calm (match ?g [] h ts e with _ => _ end) => set (go := g) end.
    assert (G : forall done h e, calm (go done h ts e)).
    { clear h e. induction IH as [|t ts Ht _ IH]; intros done h e; cbn [go]; [exact Logic.I|]. fold go. specialize (Ht h e).
      destruct (te_of_tree vcl h t e) as [[[h1 n] e1]|[? ?]|]; [apply IH|easy|easy]. }
    specialize (G [] h e). destruct (go [] h ts e) as [[[h1 ns] e1]|[? ?]|]; [|easy|easy].
    destruct (arc_new h1 ns) as [h2 a]. pose proof (calm_ocl e1 v) as O. destruct (ocl vcl e1 v) as [e2 ok]. cbn in O. now subst ok.
  Qed.
  Lemma calm_step (o : op K V) st e st' e' ok : te_step vcl arc o st e = Some (st', e', ok) -> ok = true.
  Proof using Tot.
    destruct st as [h s].
    assert (Ai : forall j (m : node K V) h n e, calm (te_act_insert vcl j m h n e)).
    { intros j m h0 n0 e0. unfold te_act_insert. pose proof (calm_children_mut h0 n0 e0) as T. destruct (te_children_mut vcl h0 n0 e0) as [[[[h1 n1] a] e1]|[[? ?] ?]|]; [|easy|easy].
      destruct (h_cell h1 a) as [[? ns]|]; [|exact Logic.I]. now destruct (j <=? length ns). }
    assert (Ar : forall j (h : heap K V) n e, calm (te_act_remove vcl j h n e)).
    { intros j h0 n0 e0. unfold te_act_remove. pose proof (calm_children_mut h0 n0 e0) as T. destruct (te_children_mut vcl h0 n0 e0) as [[[[h1 n1] a] e1]|[[? ?] ?]|]; [|easy|easy].
      destruct (h_cell h1 a) as [[? ns]|]; [|exact Logic.I]. now destruct (nth_error ns j). }
    assert (Hs : match hstep arc o (h, s) with Some st1 => Some (st1, e, true) | None => None end = Some (st', e', ok) -> ok = true)
      by (destruct (hstep arc o (h, s)); [intros [= _ _ <-]; reflexivity|discriminate]).
    destruct o as [k|p v src k|w t k|t k|i k|i|i k|i path|i path c k|i path p|i path v|i path pos src|i path pos k]; try exact Hs; cbn [te_step].
    - destruct w; [exact Hs|]. clear Hs. pose proof (calm_of_tree t h e) as T. destruct (te_of_tree vcl h t e) as [[[h1 n] e1]|[? ?]|]; [|easy|discriminate].
      destruct (rput k n s); [now intros [= _ _ <-]|discriminate].
    - destruct (rget i s) as [n|]; [|discriminate]. pose proof (calm_node h n e) as T. destruct (te_node_clone vcl h n e) as [[[h1 n'] e1]|[? ?]|]; [|easy|discriminate].
      destruct (rput k n' s); [now intros [= _ _ <-]|discriminate].
    - destruct (rtake i s) as [[n s1]|]; [|discriminate]. pose proof (calm_touch path h n e) as T. destruct (te_touch vcl path h n e) as [[[[h1 n1] b] e1]|[[? ?] ?]|]; [|easy|discriminate].
      destruct (rput i n1 s1); [now intros [= _ _ <-]|discriminate].
    - destruct (rtake i s) as [[n s1]|]; [|discriminate]. pose proof (calm_touch path h n e) as T. destruct (te_touch vcl path h n e) as [[[[h1 n1] b] e1]|[[? ?] ?]|]; [|easy|discriminate].
      destruct (rput i n1 s1) as [s2|]; [|discriminate]. destruct (h_cell h1 b) as [[? ns]|]; [|discriminate]. destruct (nth_error ns c) as [cn|]; [|discriminate].
      pose proof (calm_node h1 cn e1) as T2. destruct (te_node_clone vcl h1 cn e1) as [[[h2 c'] e2]|[? ?]|]; [|easy|discriminate].
      destruct (rput k c' s2); [now intros [= _ _ <-]|discriminate].
    - pose proof (calm_in_reg i (te_mut_at vcl path (te_act_prefix p)) h s e) as T.
      destruct (te_in_reg i (te_mut_at vcl path (te_act_prefix p)) h s e) as [[[[? ?] ?] ?]|[[? ?] ?]|]; [now intros [= _ _ <-]| |discriminate].
      exfalso. apply T. apply calm_mut_at. now intros.
    - pose proof (calm_in_reg i (te_mut_at vcl path (te_act_value v)) h s e) as T.
      destruct (te_in_reg i (te_mut_at vcl path (te_act_value v)) h s e) as [[[[? ?] ?] ?]|[[? ?] ?]|]; [now intros [= _ _ <-]| |discriminate].
      exfalso. apply T. apply calm_mut_at. now intros.
    - destruct (rtake src s) as [[m s0]|]; [|discriminate]. pose proof (calm_in_reg i (te_mut_at vcl path (te_act_insert vcl pos m)) h s0 e) as T.
      destruct (te_in_reg i (te_mut_at vcl path (te_act_insert vcl pos m)) h s0 e) as [[[[? ?] ?] ?]|[[? ?] ?]|]; [now intros [= _ _ <-]| |discriminate].
      exfalso. apply T. apply calm_mut_at. apply Ai.
    - pose proof (calm_in_reg i (te_mut_at vcl path (te_act_remove vcl pos)) h s e) as T.
      destruct (te_in_reg i (te_mut_at vcl path (te_act_remove vcl pos)) h s e) as [[[[h1 s1] [m|]] ?]|[[? ?] ?]|]; [|discriminate| |discriminate].
      + destruct (rput k m s1); [now intros [= _ _ <-]|discriminate].
      + exfalso. apply T. apply calm_mut_at. apply Ar.
  Qed.
  End Total.

  (** the straight-line program *)
  Fixpoint straight (os : list (op K V)) : tprog K V :=
    match os with [] => TEnd | o :: os' => TDo o (straight os') TEnd end.
  (** every step returns, and the heap is the one of HeapModel.v, to which C60, C62, C67 and C68 apply *)
  Theorem C131_no_panic_same (n : nat) (os : list (op K V)) (e : E) vs :
    (forall e v, snd (vcl e v) = true) -> vrun os (repeat None n) = Some vs ->
    exists st e', te_run vcl arc (straight os) (hinit n) e = Some (st, e', repeat true (length os)) /\ hrun arc os (hinit n) = Some st.
  Proof.
    intros Tot. generalize (init_good (K := K) (V := V) n). generalize (@hinit K V n) as st, (repeat (@None tree) n) as s. intros st s G.
    revert st s e G. induction os as [|o os IH]; intros st s e G W; cbn [vrun straight te_run hrun length repeat] in *; [eauto|].
    destruct (vstep o s) as [s1|] eqn:Hs; [|discriminate]. destruct (te_step_good vcl arc o st s s1 e G Hs) as (st1 & e1 & ok & Qs & F). rewrite Qs.
    apply (calm_step Tot) in Qs as ->. destruct F as [Qh G1]. rewrite Qh. destruct (IH st1 s1 e1 G1 W) as (st2 & e2 & -> & ->). eauto.
  Qed.
End Panics.

(** ** Every panic of a clone reaches the caller
    The calls of Clone are recorded: [logged vcl] runs [vcl] and writes down whether each call returned. *)
Definition logged {V E} (vcl : E -> V -> E * bool) : E * list bool -> V -> (E * list bool) * bool :=
  fun '(e, l) v => let (e1, ok) := vcl e v in ((e1, l ++ [ok]), ok).
Section Logged.
  Context {K V E : Type} (arc : bool) (vcl : E -> V -> E * bool).
  Notation tree := (rtree K V).
  Notation lcl := (logged vcl).
  Definition logs (l : list bool) (ok : bool) (l' : list bool) : Prop :=
    exists j, l' = l ++ repeat true j ++ (if ok then [] else [false]).
  Lemma logs_refl l : logs l true l.
  Proof. exists 0. now rewrite app_nil_r. Qed.
  Lemma logs_trans l l1 l2 ok : logs l true l1 -> logs l1 ok l2 -> logs l ok l2.
  Proof. intros [j ->] [i ->]. exists (j + i). rewrite repeat_app, app_nil_r, !app_assoc. reflexivity. Qed.
  Definition sim {X Y} (l : list bool) (r : eres (X * E) (Y * E)) (r' : eres (X * (E * list bool)) (Y * (E * list bool))) : Prop :=
    match r, r' with
    | EOk p, EOk p' => fst p = fst p' /\ snd p = fst (snd p') /\ logs l true (snd (snd p'))
    | EThrow p, EThrow p' => fst p = fst p' /\ snd p = fst (snd p') /\ logs l false (snd (snd p'))
    | EFault, EFault => True
    | _, _ => False
    end.
  Definition simF {X} (l : list bool) (r : eres (X * E) E) (r' : eres (X * (E * list bool)) (E * list bool)) : Prop :=
    match r, r' with
    | EOk p, EOk p' => fst p = fst p' /\ snd p = fst (snd p') /\ logs l true (snd (snd p'))
    | EThrow p, EThrow p' => p = fst p' /\ logs l false (snd p')
    | EFault, EFault => True
    | _, _ => False
    end.
  Lemma sim_lift {X Y} (r : option X) e l : sim (Y := Y) l (tlift r e) (tlift r (e, l)).
  Proof. destruct r; cbn; auto using logs_refl. Qed.
  Lemma ocl_logged e l v : exists l', fst (ocl lcl (e, l) v) = (fst (ocl vcl e v), l') /\
    snd (ocl lcl (e, l) v) = snd (ocl vcl e v) /\ logs l (snd (ocl vcl e v)) l'.
  Proof.
    destruct v as [v|]; cbn [ocl logged]; [|exists l; auto using logs_refl].
    destruct (vcl e v) as [e1 ok]. exists (l ++ [ok]). split; [reflexivity|]. split; [reflexivity|].
    destruct ok; [exists 1; now rewrite app_nil_r|exists 0; reflexivity].
  Qed.
  Ltac see_ocl e l v e1 ok l1 T :=
    let A := fresh in let B := fresh in
    destruct (ocl_logged e l v) as (l1 & A & B & T); destruct (ocl lcl (e, l) v) as [? ?];
    destruct (ocl vcl e v) as [e1 ok]; cbn [fst snd] in A, B, T; subst.
  (** compare the two runs of a sub-computation *)
  Ltac both T x e1 l1 :=
    let y := fresh in let e2 := fresh in
    match type of T with
    | sim _ ?r ?r' =>
        destruct r as [[x e1]|[x e1]|], r' as [[y [e2 l1]]|[y [e2 l1]]|]; try contradiction; cbn [sim fst snd] in T;
        try (destruct T as (<- & <- & T))
    | simF _ ?r ?r' =>
        destruct r as [[x e1]|e1|], r' as [[y [e2 l1]]|[e2 l1]|]; try contradiction; cbn [simF fst snd] in T;
        first [destruct T as (<- & <- & T)|destruct T as (<- & T)|idtac]
    end.
  Ltac fin := cbn [sim simF fst snd]; repeat split; eauto using logs_refl, logs_trans; try reflexivity; try exact Logic.I.

  Lemma sim_weak {X Y} l l1 (r : eres (X * E) (Y * E)) r' : logs l true l1 -> sim l1 r r' -> sim l r r'.
  Proof. intros H T. destruct r as [p|p|], r' as [p'|p'|]; try contradiction; cbn in *; intuition eauto using logs_trans. Qed.

  Lemma log_node h (n : node K V) e l : sim l (te_node_clone vcl h n e) (te_node_clone lcl h n (e, l)).
  Proof.
    unfold te_node_clone. see_ocl e l (n_value n) e1 ok l1 T. destruct ok; [|fin].
    eapply sim_weak; [exact T|]. apply sim_lift.
  Qed.
  Lemma log_nodes (ns : list (node K V)) : forall done h e l, sim l (te_nodes_clone vcl done h ns e) (te_nodes_clone lcl done h ns (e, l)).
  Proof.
    induction ns as [|n ns IH]; intros done h e l; cbn [te_nodes_clone]; [fin|].
    pose proof (log_node h n e l) as T. both T p e1 l1.
    - destruct p as [h1 n']. eapply sim_weak; [exact T|]. apply IH.
    - destruct (drop_all p done); fin.
    - fin.
  Qed.
  Lemma log_make_mut (h : heap K V) a e l : sim l (te_make_mut vcl h a e) (te_make_mut lcl h a (e, l)).
  Proof.
    unfold te_make_mut. destruct (h_cell h a) as [[[|[|r]] ns]|]; try (now fin).
    pose proof (log_nodes ns [] h e l) as T. both T p e1 l1; try (now fin).
    destruct p as [h1 ns']. destruct (arc_new h1 ns') as [h2 b]. destruct (h_cell h2 a) as [[[|[|?]] ?]|]; now fin.
  Qed.
  Lemma log_force h (n : node K V) e l : simF l (te_force vcl h n e) (te_force lcl h n (e, l)).
  Proof.
    assert (F : forall (ts : list tree) e l, exists l', fst (te_values lcl ts (e, l)) = (fst (te_values vcl ts e), l') /\
      snd (te_values lcl ts (e, l)) = snd (te_values vcl ts e) /\ logs l (snd (te_values vcl ts e)) l').
    { induction ts as [|t ts IH]; intros e0 l0; cbn [te_values]; [exists l0; auto using logs_refl|].
      see_ocl e0 l0 (t_value t) e1 ok l1 T. destruct ok; [|exists l1; auto].
      destruct (IH e1 l1) as (l2 & A & B & C). exists l2. eauto using logs_trans. }
    unfold te_force. destruct (n_kids n) as [ts|a]; [|now fin]. destruct (F ts e l) as (l1 & A & B & T).
    destruct (te_values lcl ts (e, l)) as [? ?], (te_values vcl ts e) as [e1 ok]. cbn in A, B, T. subst. destruct ok; now fin.
  Qed.
  Lemma log_children_mut h (n : node K V) e l : sim l (te_children_mut vcl h n e) (te_children_mut lcl h n (e, l)).
  Proof.
    unfold te_children_mut. pose proof (log_force h n e l) as T. both T p e1 l1; try (now fin).
    destruct p as [h1 a]. pose proof (log_make_mut h1 a e1 l1) as T2. both T2 p e2 l2; try (now fin); destruct p; now fin.
  Qed.
  Lemma log_force_at (h : heap K V) a i e l :
    match te_force_at vcl h a i e, te_force_at lcl h a i (e, l) with
    | EOk (h1, e1), EOk (h2, (e2, l2)) => h1 = h2 /\ e1 = e2 /\ logs l true l2
    | EThrow e1, EThrow (e2, l2) => e1 = e2 /\ logs l false l2
    | EFault, EFault => True
    | _, _ => False
    end.
  Proof.
    unfold te_force_at. destruct (h_cell h a) as [[rc ns]|]; [|exact Logic.I]. destruct (nth_error ns i) as [c|]; [|exact Logic.I].
    pose proof (log_force h c e l) as T. both T p e1 l1; try (now fin). destruct p; now fin.
  Qed.
  Lemma log_touch path h (n : node K V) e l : sim l (te_touch vcl path h n e) (te_touch lcl path h n (e, l)).
  Proof.
    assert (F : forall path (h : heap K V) a e l, sim l (te_touch_at vcl path h a e) (te_touch_at lcl path h a (e, l))).
    { clear path h n e l. induction path as [|i path IH]; intros h a e l; cbn [te_touch_at]; [now fin|].
      pose proof (log_force_at h a i e l) as T.
      destruct (te_force_at vcl h a i e) as [[h1 e1]|e1|], (te_force_at lcl h a i (e, l)) as [[h2 [e2 l1]]|[e2 l1]|]; try contradiction;
        [destruct T as (<- & <- & T)|destruct T as (<- & T); now fin|now fin].
      destruct (h_cell h1 a) as [[? ms]|]; [|now fin]. destruct (nth_error ms i) as [d|]; [|now fin].
      destruct (n_kids d); [now fin|]. eapply sim_weak; [exact T|]. apply IH. }
    unfold te_touch. pose proof (log_force h n e l) as T. both T p e1 l1; try (now fin). destruct p as [h1 a].
    specialize (F path h1 a e1 l1). both F p e2 l2; try (now fin); destruct p; now fin.
  Qed.
  Definition alike (act : taction (K := K) (V := V) (E := E)) (act' : taction (E := E * list bool)) : Prop :=
    forall h n e l, sim l (act h n e) (act' h n (e, l)).
  Lemma log_mut_at act act' path : alike act act' -> alike (te_mut_at vcl path act) (te_mut_at lcl path act').
  Proof.
    intros A. induction path as [|i path IH]; intros h n e l; cbn [te_mut_at]; [apply A|].
    pose proof (log_children_mut h n e l) as T. both T p e1 l1; try (destruct p; now fin); try now fin. destruct p as [[h1 n1] a].
    destruct (h_cell h1 a) as [[rc ns]|]; [|now fin]. destruct (nth_error ns i) as [c|]; [|now fin].
    specialize (IH (h_upd h1 a None) c e1 l1). both IH p e2 l2; try (now fin).
    - destruct p as [[h2 c'] x]. now fin.
    - destruct p as [h2 c']. now fin.
  Qed.
  Lemma log_in_reg i act act' h (s : regs (node K V)) e l : alike act act' -> sim l (te_in_reg i act h s e) (te_in_reg i act' h s (e, l)).
  Proof.
    intros A. unfold te_in_reg. destruct (rtake i s) as [[n s1]|]; [|now fin]. specialize (A h n e l). both A p e1 l1; try (now fin).
    - destruct p as [[h1 n1] x]. destruct (rput i n1 s1); now fin.
    - destruct p as [h1 n1]. destruct (rput i n1 s1); now fin.
  Qed.
  Lemma log_insert j m : alike (te_act_insert vcl j m) (te_act_insert lcl j m).
  Proof.
    intros h n e l. unfold te_act_insert. pose proof (log_children_mut h n e l) as T. both T p e1 l1; try (destruct p; now fin); try now fin.
    destruct p as [[h1 n1] a]. destruct (h_cell h1 a) as [[rc ns]|]; [|now fin]. destruct (j <=? length ns); now fin.
  Qed.
  Lemma log_remove j : alike (te_act_remove vcl j) (te_act_remove lcl j).
  Proof.
    intros h n e l. unfold te_act_remove. pose proof (log_children_mut h n e l) as T. both T p e1 l1; try (destruct p; now fin); try now fin.
    destruct p as [[h1 n1] a]. destruct (h_cell h1 a) as [[rc ns]|]; [|now fin]. destruct (nth_error ns j); now fin.
  Qed.
  Lemma log_of_tree (t : tree) : forall h e l, sim l (te_of_tree vcl h t e) (te_of_tree lcl h t (e, l)).
  Proof.
    induction t as [p v ts IH] using rtree_ind'. intros h e l. cbn [te_of_tree].
    match goal with |- sim _ (match ?g [] h ts e with _ => _ end) (match ?g' _ _ _ _ with _ => _ end) => set (go := g); set (go' := g') end.
    assert (G : forall done h e l, sim l (go done h ts e) (go' done h ts (e, l))).
    { clear h e l. induction IH as [|t ts Ht _ IH]; intros done h e l; cbn [go go']; [now fin|]. fold go go'. specialize (Ht h e l).
      both Ht q e1 l1; try (now fin).
      - destruct q as [h1 n]. eapply sim_weak; [exact Ht|]. apply IH.
      - destruct (drop_all q done); now fin. }
    specialize (G [] h e l). both G q e1 l1; try (now fin). destruct q as [h1 ns].
    destruct (arc_new h1 ns) as [h2 a]. see_ocl e1 l1 v e2 ok l2 T. destruct ok; [now fin|].
    destruct (drop_all h2 [MkN p None (inr a)]); now fin.
  Qed.

  (** a step runs alike; if it returned, all its calls returned; if it panicked, its last call did, and no other *)
  Lemma log_step (o : op K V) st e l :
    match te_step vcl arc o st e, te_step lcl arc o st (e, l) with
    | Some (st1, e1, ok), Some (st2, (e2, l2), ok2) => st1 = st2 /\ e1 = e2 /\ ok = ok2 /\ logs l ok l2
    | None, None => True
    | _, _ => False
    end.
  Proof.
    destruct st as [h s].
    assert (Hs : match match hstep arc o (h, s) with Some st1 => Some (st1, e, true) | None => None end,
                       match hstep arc o (h, s) with Some st1 => Some (st1, (e, l), true) | None => None end with
      | Some (st1, e1, ok), Some (st2, (e2, l2), ok2) => st1 = st2 /\ e1 = e2 /\ ok = ok2 /\ logs l ok l2
      | None, None => True | _, _ => False end) by (destruct (hstep arc o (h, s)); [auto using logs_refl|exact Logic.I]).
    destruct o as [k|p v src k|w t k|t k|i k|i|i k|i path|i path c k|i path p|i path v|i path pos src|i path pos k]; try exact Hs; cbn [te_step].
    - destruct w; [exact Hs|]. clear Hs. pose proof (log_of_tree t h e l) as T. both T p e1 l1; [| |exact Logic.I].
      + destruct p as [h1 n]. destruct (rput k n s); now fin.
      + now fin.
    - destruct (rget i s) as [n|]; [|exact Logic.I]. pose proof (log_node h n e l) as T. both T p e1 l1; [| |exact Logic.I].
      + destruct p as [h1 n']. destruct (rput k n' s); now fin.
      + now fin.
    - destruct (rtake i s) as [[n s1]|]; [|exact Logic.I]. pose proof (log_touch path h n e l) as T. both T p e1 l1; [| |exact Logic.I].
      + destruct p as [[h1 n1] b]. destruct (rput i n1 s1); now fin.
      + destruct p as [h1 n1]. destruct (rput i n1 s1); now fin.
    - destruct (rtake i s) as [[n s1]|]; [|exact Logic.I]. pose proof (log_touch path h n e l) as T. both T p e1 l1; [| |exact Logic.I].
      + destruct p as [[h1 n1] b]. destruct (rput i n1 s1) as [s2|]; [|exact Logic.I].
        destruct (h_cell h1 b) as [[? ns]|]; [|exact Logic.I]. destruct (nth_error ns c) as [cn|]; [|exact Logic.I].
        pose proof (log_node h1 cn e1 l1) as T2. both T2 p e2 l2; [| |exact Logic.I].
        * destruct p as [h2 c']. destruct (rput k c' s2); now fin.
        * now fin.
      + destruct p as [h1 n1]. destruct (rput i n1 s1); now fin.
    - assert (A : alike (te_mut_at vcl path (te_act_prefix p)) (te_mut_at lcl path (te_act_prefix p))).
      { apply log_mut_at. intros h0 n0 e0 l0. apply sim_lift. }
      pose proof (log_in_reg i _ _ h s e l A) as T. both T q e1 l1; [| |exact Logic.I].
      + destruct q as [[h1 s1] x]. now fin.
      + destruct q as [h1 s1]. now fin.
    - assert (A : alike (te_mut_at vcl path (te_act_value v)) (te_mut_at lcl path (te_act_value v))).
      { apply log_mut_at. intros h0 n0 e0 l0. apply sim_lift. }
      pose proof (log_in_reg i _ _ h s e l A) as T. both T q e1 l1; [| |exact Logic.I].
      + destruct q as [[h1 s1] x]. now fin.
      + destruct q as [h1 s1]. now fin.
    - destruct (rtake src s) as [[m s0]|]; [|exact Logic.I].
      pose proof (log_in_reg i _ _ h s0 e l (log_mut_at _ _ path (log_insert pos m))) as T. both T q e1 l1; [| |exact Logic.I].
      + destruct q as [[h1 s1] x]. now fin.
      + destruct q as [h1 s1]. destruct (drop_all h1 [m]); now fin.
    - pose proof (log_in_reg i _ _ h s e l (log_mut_at _ _ path (log_remove pos))) as T. both T q e1 l1; [| |exact Logic.I].
      + destruct q as [[h1 s1] [m|]]; [|exact Logic.I]. destruct (rput k m s1); now fin.
      + destruct q as [h1 s1]. now fin.
  Qed.

  (** Recording the calls changes nothing, and the calls recorded are, step after step: some that return, then, exactly if
      the caller sees the step panic, one that panics, after which the step calls Clone no more. *)
  Theorem C131_panics_reach_the_caller (q : tprog K V) (st st' : state K V) (e e' : E) (oks : list bool) :
    te_run vcl arc q st e = Some (st', e', oks) ->
    exists counts, length counts = length oks /\
      te_run lcl arc q st (e, []) =
        Some (st', (e', concat (map (fun '(j, ok) => repeat true j ++ (if ok : bool then [] else [false])) (combine counts oks))), oks).
  Proof.
    enough (G : forall l, te_run vcl arc q st e = Some (st', e', oks) -> exists counts, length counts = length oks /\
      te_run lcl arc q st (e, l) =
        Some (st', (e', l ++ concat (map (fun '(j, ok) => repeat true j ++ (if ok : bool then [] else [false])) (combine counts oks))), oks)) by exact (G []).
    revert st e oks. induction q as [|o q1 IH1 q2 IH2]; intros st e oks l; cbn [te_run].
    - intros [= <- <- <-]. exists []. split; [reflexivity|]. cbn. now rewrite app_nil_r.
    - pose proof (log_step o st e l) as T. destruct (te_step vcl arc o st e) as [[[st1 e1] ok]|]; [|discriminate].
      destruct (te_step lcl arc o st (e, l)) as [[[st2 [e2 l1]] ok2]|]; [|contradiction]. destruct T as (<- & <- & <- & [j ->]).
      destruct (te_run vcl arc (if ok then q1 else q2) st1 e1) as [[[st3 e3] oks1]|] eqn:Q; [|discriminate]. intros [= <- <- <-].
      assert (H : exists counts, length counts = length oks1 /\
        te_run lcl arc (if ok then q1 else q2) st1 (e1, l ++ repeat true j ++ (if ok then [] else [false])) =
        Some (st3, (e3, (l ++ repeat true j ++ (if ok then [] else [false])) ++ concat (map (fun '(j, ok) => repeat true j ++ (if ok : bool then [] else [false])) (combine counts oks1))), oks1))
        by (destruct ok; [now apply IH1|now apply IH2]).
      destruct H as (counts & Lc & ->). exists (j :: counts). split; [cbn; now rewrite Lc|].
      cbn [combine map concat]. rewrite <- !app_assoc. reflexivity.
  Qed.
End Logged.

(** ** Concrete cases: the environment counts the calls, one of them panics *)
Definition at_call (k : nat) (e : nat) (v : nat) : nat * bool := (S e, negb (e =? k)).
(** a tree with two children, cloned; a child of the clone is changed, which copies the shared vector, twice *)
Definition panic_demo : tprog nat nat :=
  TDo (ONew [1] (Some 10) [] 0) (TDo (ONew [2] (Some 20) [] 1) (TDo (ONew [] None [0; 1] 2) (TDo (OClone 2 3)
    (TDo (OValue 3 [0] (Some 11)) (TDo (ODrop 2) TEnd TEnd) (TDo (OValue 3 [0] (Some 11)) (TDo (ODrop 2) TEnd TEnd) TEnd)) TEnd) TEnd) TEnd) TEnd.
Example panic_demo_meaningful : meaningful panic_demo (repeat None 4).
Proof.
  cbn [panic_demo meaningful]. repeat (split; [eexists; split; [now vm_compute|]|]); try exact Logic.I; try (cbn; intros ? [= <-]; exact Logic.I);
    try (intros ? H; vm_compute in H; first [discriminate|injection H as <-]); repeat (split; [eexists; split; [now vm_compute|]|]); try exact Logic.I;
    intros ? H; vm_compute in H; first [discriminate|injection H as <-]; exact Logic.I.
Qed.
(** the second value panics when the vector is copied: the first copy is dropped, both trees share the old vector; then
    the change succeeds *)
Example panic_demo_runs : exists h,
  te_run (at_call 1) true panic_demo (hinit 4) 0 = Some ((h, [None; None; None; Some (MkN [] None (inr 2))]), 4, [true; true; true; true; false; true; true]) /\
  h_cell h 1 = None /\ h_cell h 2 = Some (1, [MkN [1] (Some 11) (inr 0); MkN [2] (Some 20) (inr 0)]) /\ h_cell h 0 = Some (3, []).
Proof. eexists. now vm_compute. Qed.
(** an archived tree whose second child panics while the children are loaded: the node stays unloaded, the next access
    loads it; then the conversion of an archived tree panics at a leaf *)
Definition panic_lazy : tprog nat nat :=
  TDo (OArchive (Node [] None [Node [1] (Some 5) []; Node [3] (Some 6) [Node [4] (Some 7) []]]) 0)
    (TDo (OTouch 0 []) TEnd (TDo (OTouch 0 []) (TDo (OFrom false (Node [] None [Node [1] (Some 5) []; Node [3] (Some 6) []]) 1) TEnd TEnd) TEnd)) TEnd.
Example panic_lazy_meaningful : meaningful panic_lazy (repeat None 2).
Proof.
  cbn [panic_lazy meaningful]. split; [eexists; split; [now vm_compute|]|discriminate].
  split; [eexists; split; [now vm_compute|exact Logic.I]|]. intros s2 H. vm_compute in H. injection H as <-.
  split; [eexists; split; [now vm_compute|]|intros; exact Logic.I].
  split; [eexists; split; [now vm_compute|exact Logic.I]|]. intros; exact Logic.I.
Qed.
Definition at_calls (l : list nat) (e : nat) (v : nat) : nat * bool := (S e, negb (existsb (Nat.eqb e) l)).
Example panic_lazy_runs : exists h,
  te_run (at_calls [1; 5]) false panic_lazy (hinit 2) 0 = Some ((h, [Some (MkN [] None (inr 1)); None]), 6, [true; false; true; false]) /\
  h_cell h 1 = Some (1, [MkN [1] (Some 5) (inl []); MkN [3] (Some 6) (inl [Node [4] (Some 7) []])]) /\
  h_next h = 4 /\ h_cell h 2 = None /\ h_cell h 3 = None.
Proof. eexists. now vm_compute. Qed.
(** the calls: one child copied and one panic; both copied; the first child converted and one panic *)
Example panic_lazy_calls : option_map (fun r => (snd (snd (fst r)), snd r))
    (te_run (logged (at_calls [1; 5])) false panic_lazy (hinit 2) (0, [])) =
  Some ([true; false; true; true; true; false], [true; false; true; false]).
Proof. now vm_compute. Qed.

Print Assumptions C131_contained.
Print Assumptions C131_shared_empty_stays_empty.
Print Assumptions C131_counts_exact.
Print Assumptions C131_live_is_reachable.
Print Assumptions C131_no_leak.
Print Assumptions C131_no_panic_same.
Print Assumptions C131_panics_reach_the_caller.
