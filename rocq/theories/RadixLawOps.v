(** The in-place radix tree operations when the comparisons answer like an order. *)
From Verif Require Export RadixLawNode.
From Verif Require Import RadixEffMerge RadixComb RadixEffComb.

Section LawOps.
  Context {K : Type} {kcmp : K -> K -> comparison} (L : OrdLaws kcmp) (EQ : OrdEq kcmp).
  Context {E : Type} (u : ucode E K) (AN : answers_like kcmp u) (strat : nat -> nat -> bool).
  Notation wf := (wf kcmp).
  Notation wfc := (wfc (kcmp := kcmp)).
  Notation lk := (lk kcmp).

  Lemma prefix_refl (k : list K) : is_prefix k k.
  Proof. exists []. now rewrite app_nil_r. Qed.
  Section Copy.
    Context {X : Type} (cx : clos E X X).
    Lemma once_some w o : once cx (Some w) o -> exists w1, o = Some w1 /\ exists e e', cx e w = (e', Ret w1).
    Proof. destruct o as [w1|]; cbn [once]; [|intros []]. intros H. now exists w1. Qed.
    Lemma once_none' o : once cx None o -> o = None.
    Proof. now destruct o. Qed.
    Lemma once_to o w1 : once cx o (Some w1) -> exists w, o = Some w /\ exists e e', cx e w = (e', Ret w1).
    Proof. destruct o as [w|]; cbn [once]; [|intros []]. intros H. now exists w. Qed.
    Lemma copied_more w w1 z e e' : cx e w = (e', Ret w1) -> copied cx w1 z -> copied cx w z.
    Proof. intros H (e1 & e2 & w2 & H1 & H2). exists e, e', w1. split; [exact H|]. econstructor; eauto. Qed.
    Lemma copied_one w w1 e e' : cx e w = (e', Ret w1) -> copied cx w w1.
    Proof. intros H. exists e, e', w1. split; [exact H|constructor]. Qed.
    Lemma decided_more {V} (f : mclos E V X) v w w1 z e e' : cx e w = (e', Ret w1) -> decided cx f v w1 z -> decided cx f v w z.
    Proof. intros H (w' & e1 & e2 & v' & b & H1 & H2). exists w', e1, e2, v', b. split; [econstructor; eauto|exact H2]. Qed.
    Lemma touched_more {V} (f : mclos E V X) v w w1 (z : V) e e' : cx e w = (e', Ret w1) -> touched cx f v w1 z -> touched cx f v w z.
    Proof. intros H (w' & e1 & e2 & r & H1 & H2). exists w', e1, e2, r. split; [econstructor; eauto|exact H2]. Qed.
    Lemma decided_touched {V} (f : mclos E V X) v w (z : V) : decided cx f v w (Some z) -> touched cx f v w z.
    Proof. intros (w' & e & e' & v' & b & H1 & H2 & H3). exists w', e, e', (Ret b). split; [exact H1|]. destruct b; congruence. Qed.
    Lemma answered_more (f : clos E X bool) w w1 b e e' : cx e w = (e', Ret w1) -> answered cx f w1 b -> answered cx f w b.
    Proof. intros H (w' & e1 & e2 & H1 & H2). exists w', e1, e2. split; [econstructor; eauto|exact H2]. Qed.
    (** one call of the closure *)
    Lemma ucall_law {V} (f : mclos E V X) v w e : forall o e' ok, ucall f v w e = (o, e', ok) ->
      (ok = true -> decided cx f v w o) /\ forall z, o = Some z -> touched cx f v w z.
    Proof.
      intros o e' ok. unfold ucall. destruct (f e v w) as [[e1 v1] [[|]|]] eqn:Q; intros [= <- <- <-]; (split; [intros H|intros z [= <-]]).
      - exists w, e, e1, v1, true. split; [constructor|]. auto.
      - exists w, e, e1, (Ret true). split; [constructor|]. auto.
      - exists w, e, e1, v1, false. split; [constructor|]. auto.
      - discriminate.
      - exists w, e, e1, Throw. split; [constructor|]. auto.
    Qed.
  End Copy.

  (** ** the entries of the combinations depend on one lookup of [that] only *)
  Section Pointwise.
    Context {V X : Type} (cx : clos E X X) (ta tb : bool) (R : option V -> option X -> option V -> Prop) (P : option V -> option X -> V -> Prop).
    Context (Rc : forall v o o' z, once cx o o' -> R v o' z -> R v o z) (Pc : forall v o o' z, once cx o o' -> P v o' z -> P v o z).
    Context (R0 : forall v, R v None (if ta then v else None)) (Rb : tb = false -> forall w, R None w None).
    Context (PR : forall v w z, R v w (Some z) -> P v w z) (Ps : forall v w, P (Some v) w v).
    Lemma pointwise_laws : entry_laws (K := K) cx ta tb (fun v g k z => R v (g k) z) (fun v g k z => P v (g k) z) (fun _ => True).
    Proof using Rc Pc R0 Rb PR Ps.
      constructor.
      - intros v g g' k z H. now rewrite (H k (prefix_refl k)).
      - intros v g g' k z H. apply Rc, H.
      - intros v g g' p r z H _. now rewrite H.
      - intros v g k H. rewrite (H k (prefix_refl k)). apply R0.
      - exact I.
      - intros Tb g k. now apply Rb.
      - intros v g c k z _ H. exact H.
      - intros v g g' k z H. now rewrite (H k (prefix_refl k)).
      - intros v g g' k z H. apply Pc, H.
      - intros v g g' p r z H. now rewrite H.
      - intros v g c k z H. exact H.
      - intros v g k z. apply PR.
      - intros v g k. apply Ps.
    Qed.
  End Pointwise.

  Ltac cases p p2 :=
    destruct (cp_cases EQ p p2) as [Hp Hn|x r Hp Hn|x r Hp Hn|s x r y r2 Hp Hp2 Hxy Hn]; rewrite Hn; clear Hn;
    rewrite ?Hp, ?Hp2 in *; clear Hp; try clear Hp2;
    rewrite ?Nat.eqb_refl, ?app_cons_length; cbn [andb].
  Ltac splitted := unfold usplit, t_split; cbn [t_prefix t_value t_children]; rewrite ?app_cons_ltb; cbn [t_prefix t_value t_children];
    rewrite ?skipn_app_exact, ?firstn_app_exact.

  (** ** outer_combine_with *)
  Section Outer.
    Context {V : Type} (cl : clos E V V) (f : mclos E V V) (q : bool).
    Notation Rk := (fun (v : option V) (g : list K -> option V) (k : list K) (z : option V) => outer_entry cl f v (g k) z).
    Notation Lk := (fun (v : option V) (g : list K -> option V) (k : list K) (z : V) => outer_rest cl f v (g k) z).
    Notation own := (fun _ : option V => True).
    Lemma outer_laws : entry_laws (K := K) cl true true Rk Lk own.
    Proof.
      apply (pointwise_laws cl true true (outer_entry cl f) (outer_rest cl f)).
      - intros v [w|] o' z H; [apply once_some in H as (w1 & -> & e & e' & H)|apply once_none' in H as ->; auto].
        destruct v as [v|]; cbn [outer_entry]; [apply (decided_more cl f v w w1 z e e' H)|].
        intros (w' & H1 & H2). exists w'. split; [now apply (copied_more cl w w1 w' e e')|exact H2].
      - intros v [w|] o' z H; [apply once_some in H as (w1 & -> & e & e' & H)|apply once_none' in H as ->; auto].
        destruct v as [v|]; cbn [outer_rest]; [|now apply (copied_more cl w w1 z e e')].
        intros [->|H1]; [now left|right]. now apply (touched_more cl f v w w1 z e e').
      - now intros [v|].
      - discriminate.
      - intros [v|] [w|] z; cbn [outer_entry outer_rest].
        + intros H. right. now apply decided_touched.
        + now intros [= ->].
        + now intros (w' & H & [= ->]).
        + discriminate.
      - intros v [w|]; cbn [outer_rest]; auto.
    Qed.
    Lemma uupd_outer_law v w e o e' ok : uupd_outer cl f v w e = (o, e', ok) ->
      (ok = true -> outer_entry cl f v w o) /\ forall z, o = Some z -> outer_rest cl f v w z.
    Proof.
      unfold uupd_outer. destruct w as [w|].
      - destruct v as [v|].
        + intros H. apply (ucall_law cl) in H as [H1 H2]. cbn [outer_entry outer_rest]. split; [exact H1|]. intros z Hz. right. auto.
        + destruct (cl e w) as [e1 [w1|]] eqn:Q; intros [= <- <- <-]; cbn [outer_entry outer_rest].
          * apply copied_one in Q. split; [intros _; exists w1; auto|]. now intros z [= <-].
          * split; discriminate.
      - intros [= <- <- <-]. split; [intros _; now destruct v|]. intros z ->. reflexivity.
    Qed.
    Notation tdone := (tdone (kcmp := kcmp) (E := E) q Rk Lk (lt_returns u)).
    Lemma sort_two s x r y r2 v ca w (cb : list (rtree K V)) y' e :
      wf q (Node (s ++ x :: r) v ca) -> wf q (Node (s ++ y :: r2) w cb) -> x <> y -> recopied (kcmp := kcmp) cl (Node (y :: r2) w cb) y' ->
      tdone (Node (s ++ x :: r) v ca) (Node (s ++ y :: r2) w cb)
        (ulift (Node s None [Node (x :: r) v ca; y']) (usort2 u (Node (x :: r) v ca) y' e)
               (fun c e => Done (t_unsplit (Node s None c), e))).
    Proof using L EQ AN.
      intros Wa Wb Hxy R. apply long_wfc in Wa, Wb. pose proof R as (R1 & R2 & R3 & R4). cbn [t_prefix] in R1.
      assert (Wy : wfc q [y']).
      { apply wfc_cons in Wb as (P1 & P2 & P3 & P4 & P5). apply wfc_cons. split; [rewrite R1; discriminate|]. split; [constructor|].
        split; [now rewrite R2|]. split; [now apply R3|apply wfc_nil]. }
      unfold usort2. cbn [t_prefix]. rewrite R1. destruct (u_lt u e (y, x)) as [e1 [b|]] eqn:Qu; cbn [then_ ulift].
      2:{ cbn [RadixLawNode.tdone]. intros Hl. exfalso. apply (Hl e y x). now rewrite Qu. }
      apply (an_lt kcmp u AN) in Qu.
      assert (G : forall l, wfc q l -> (forall c k, lkc (kcmp := kcmp) l (c :: k) =
          match lk (Node (x :: r) v ca) (c :: k) with Some z => Some z | None => lk y' (c :: k) end) ->
        tdone (Node (s ++ x :: r) v ca) (Node (s ++ y :: r2) w cb) (Done (t_unsplit (Node s None l), e1))).
      { intros l Wl Hl. cbn [RadixLawNode.tdone]. split; [|split].
        - intros k. rewrite (unsplit_lk (kcmp := kcmp) q) by exact Wl. rewrite !(lk_longer EQ).
          apply (glue_R EQ cl true true Rk Lk own outer_laws s None None [Node (x :: r) v ca] l None [Node (y :: r2) w cb]); [exact I|reflexivity|].
          intros c k'. rewrite Hl, !lkc_cons. change (RadixFacts.lkc (kcmp := kcmp) (@nil (rtree K V)) (c :: k')) with (@None V).
          specialize (R4 (c :: k')).
          assert (D : lk (Node (x :: r) v ca) (c :: k') = None \/ lk (Node (y :: r2) w cb) (c :: k') = None).
          { rewrite !lk_node. cbn [strip]. destruct (kcmp x c) eqn:Q1; auto. destruct (kcmp y c) eqn:Q2; auto.
            apply EQ in Q1. apply EQ in Q2. congruence. }
          destruct (lk (Node (x :: r) v ca) (c :: k')) as [a|].
          + destruct D as [D|D]; [discriminate|]. rewrite D. reflexivity.
          + destruct (lk (Node (y :: r2) w cb) (c :: k')) as [b0|].
            * apply once_some in R4 as (w1 & -> & e2 & e3 & R4). cbn [outer_entry]. exists w1. split; [|reflexivity].
              now apply copied_one in R4.
            * apply once_none' in R4 as ->. reflexivity.
        - now apply unsplit_wf.
        - intros h H1 H2 Ne. apply unsplit_hd; [|exact Ne]. unfold hd_of in H1, H2. cbn [t_prefix] in H1, H2. now apply (hd_common_nil s x r y r2 h Hxy). }
      assert (Two : forall t1 t2 : rtree K V, wfc q [t1] -> wfc q [t2] -> hord (kcmp := kcmp) (hd_of t1) (hd_of t2) = Lt -> wfc q [t1; t2]).
      { intros t1 t2 W1 W2 H. apply (wfc_app q [t1] [t2]); auto. now intros ? ? [<-|[]] [<-|[]]. }
      assert (Hy : hd_of y' = Some y) by (unfold hd_of; now rewrite R1).
      destruct (kcmp y x) eqn:C.
      - apply EQ in C. congruence.
      - subst b. apply G; [apply Two; auto; rewrite Hy; exact C|]. intros c k. rewrite !lkc_cons.
        change (RadixFacts.lkc (kcmp := kcmp) (@nil (rtree K V)) (c :: k)) with (@None V).
        assert (D : lk (Node (x :: r) v ca) (c :: k) = None \/ lk y' (c :: k) = None).
        { destruct y' as [p' v' c']. cbn [t_prefix] in R1. subst p'. rewrite !lk_node. cbn [strip]. destruct (kcmp x c) eqn:Q1; auto. destruct (kcmp y c) eqn:Q2; auto.
          apply EQ in Q1. apply EQ in Q2. congruence. }
        destruct D as [D|D]; rewrite D; [now destruct (lk y' (c :: k))|now destruct (lk (Node (x :: r) v ca) (c :: k))].
      - subst b. apply G; [apply Two; auto; rewrite Hy; apply (cmp_gt_lt (hord_laws L)); exact C|]. intros c k. rewrite !lkc_cons.
        change (RadixFacts.lkc (kcmp := kcmp) (@nil (rtree K V)) (c :: k)) with (@None V).
        destruct (lk (Node (x :: r) v ca) (c :: k)); [reflexivity|]. now destruct (lk y' (c :: k)).
    Qed.

    Lemma uouter_law fuel : forall (a b : rtree K V) e, wf q a -> wf q b -> tdone a b (uouter_with u strat cl f fuel a b e).
    Proof using L EQ AN.
      induction fuel as [|fuel IH]; intros a b e Wa Wb; [exact I|]. cbn [uouter_with].
      assert (HCV : true = true -> forall y e e' (t : rtree K V), wf q y -> t_prefix y <> [] -> (q = true -> t_is_empty y = false) ->
               umat cl y 0 e = Some (e', Ret t) ->
               (forall k, outer_entry cl f None (lk y k) (lk t k)) /\ hd_of t = hd_of y /\ wf q t /\ (q = true -> t_is_empty t = false)).
      { intros _ y e0 e' t W1 W2 W3 H. apply (umat0_law (kcmp := kcmp)) in H. pose proof H as (R1 & R2 & R3 & R4).
        split; [|split; [now apply (recopied_hd (kcmp := kcmp) cl)|split; [auto|now rewrite R2]]]. intros k. specialize (R4 k).
        destruct (lk y k) as [w|]; [apply once_some in R4 as (w1 & -> & e2 & e3 & R4)|apply once_none' in R4 as ->; reflexivity].
        cbn [outer_entry]. exists w1. split; [now apply copied_one in R4|reflexivity]. }
      destruct a as [p v ca], b as [p2 w cb]. cbn [t_prefix t_value t_children] in *.
      pose proof (wf_wfc _ _ Wa) as Ca. pose proof (wf_wfc _ _ Wb) as Cb. cbn [t_children] in Ca, Cb.
      destruct (ucommon_law u AN p p2 e) as (e1 & n & -> & Hn0). destruct n as [n|]; cbn [ulift]; [rewrite Hn0; clear Hn0 n|].
      2:{ now apply (rest_self cl q true true Rk Lk own (lt_returns u) outer_laws). }
      pose proof (node_merge L EQ u AN strat cl q q true true (fun t => umat cl t 0) Rk Lk own (lt_returns u) outer_laws (uouter_with u strat cl f fuel) HCV IH) as NM.
      cases p p2.
      - destruct (uupd_outer cl f v w e1) as [[o e2] ok] eqn:Qu. apply uupd_outer_law in Qu as [Q1 Q2]. cbn [uvalue]. destruct ok.
        + apply NM; auto.
        + cbn [RadixLawNode.tdone]. now apply (rest_same EQ cl q true true Rk Lk own (lt_returns u) outer_laws).
      - eapply with_copy; [now apply (rest_self cl q true true Rk Lk own (lt_returns u) outer_laws)|].
        intros e2 y' _ R. cbn [t_prefix t_value t_children] in R. rewrite skipn_app_exact in R.
        apply (RadixLawNode.case_left L EQ u AN strat cl q q true true _ Rk Lk own (lt_returns u) outer_laws _ HCV IH); auto.
      - splitted. destruct (uupd_outer cl f None w e1) as [[o e2] ok] eqn:Qu. apply uupd_outer_law in Qu as [Q1 Q2]. cbn [uvalue]. destruct ok.
        + apply (RadixLawNode.case_right L EQ u AN strat cl q q true true _ Rk Lk own (lt_returns u) outer_laws _ HCV IH); auto.
        + apply (tdone_long EQ); [|reflexivity]. cbn [RadixLawNode.tdone]. pose proof (long_wfc q p2 x r v ca Wa) as W'.
          intros O. split; [apply wf_node; split; [now apply (wfc_weaken q)|discriminate]|].
          apply (glue_L EQ cl true true Rk Lk own outer_laws); auto. intros c k z ->. apply (el_self cl true true Rk Lk own outer_laws).
      - splitted. eapply with_copy.
        { pose proof (long_wfc q s x r v ca Wa) as W'. pose proof (tdone_long EQ q Rk Lk (lt_returns u) s x r v ca (Node s w cb) (Unwound (Node s None [Node (x :: r) v ca], e1))) as T.
          intros O. split; [apply wf_node; split; [now apply (wfc_weaken q)|discriminate]|]. intros k z Hz.
          rewrite (lk_longer EQ), Hz. apply (el_self cl true true Rk Lk own outer_laws). }
        intros e2 y' _ R. cbn [t_prefix t_value t_children] in R. rewrite skipn_app_exact in R. now apply sort_two.
    Qed.
  End Outer.

  (** ** inner_combine_with, left_combine_with *)
  Section InnerLeft.
    Context {V X : Type} (cx : clos E X X) (f : mclos E V X) (q qb : bool).
    Notation Ri := (fun (v : option V) (g : list K -> option X) (k : list K) (z : option V) => inner_entry cx f v (g k) z).
    Notation Rl := (fun (v : option V) (g : list K -> option X) (k : list K) (z : option V) => left_entry cx f v (g k) z).
    Notation Lk := (fun (v : option V) (g : list K -> option X) (k : list K) (z : V) => with_rest cx f v (g k) z).
    Notation own := (fun _ : option X => True).
    Lemma with_rest_copy v o o' z : once cx o o' -> with_rest cx f v o' z -> with_rest cx f v o z.
    Proof.
      intros H. destruct o as [w|]; [apply once_some in H as (w1 & -> & e & e' & H)|apply once_none' in H as ->; auto].
      destruct v as [v|]; cbn [with_rest]; auto. intros [->|H1]; [now left|right]. now apply (touched_more cx f v w w1 z e e').
    Qed.
    Lemma inner_laws : entry_laws (K := K) cx false false Ri Lk own.
    Proof.
      apply (pointwise_laws cx false false (inner_entry cx f) (with_rest cx f)).
      - intros v [w|] o' z H; [apply once_some in H as (w1 & -> & e & e' & H)|apply once_none' in H as ->; auto].
        destruct v as [v|]; cbn [inner_entry]; auto. now apply (decided_more cx f v w w1 z e e').
      - apply with_rest_copy.
      - now intros [v|].
      - intros _ [w|]; reflexivity.
      - intros [v|] [w|] z; cbn [inner_entry with_rest]; try discriminate. intros H. right. now apply decided_touched.
      - intros v [w|]; cbn [with_rest]; auto.
    Qed.
    Lemma left_laws : entry_laws (K := K) cx true false Rl Lk own.
    Proof.
      apply (pointwise_laws cx true false (left_entry cx f) (with_rest cx f)).
      - intros v [w|] o' z H; [apply once_some in H as (w1 & -> & e & e' & H)|apply once_none' in H as ->; auto].
        destruct v as [v|]; cbn [left_entry]; auto. now apply (decided_more cx f v w w1 z e e').
      - apply with_rest_copy.
      - now intros [v|].
      - intros _ [w|]; reflexivity.
      - intros [v|] [w|] z; cbn [left_entry with_rest]; try discriminate.
        + intros H. right. now apply decided_touched.
        + now intros [= ->].
      - intros v [w|]; cbn [with_rest]; auto.
    Qed.
    Lemma uupd_inner_law v w e o e' ok : uupd_inner f v w e = (o, e', ok) ->
      (ok = true -> inner_entry cx f v w o) /\ forall z, o = Some z -> with_rest cx f v w z.
    Proof.
      unfold uupd_inner. destruct v as [v|]; [destruct w as [w|]|]; cbn [inner_entry with_rest].
      - intros H. apply (ucall_law cx) in H as [H1 H2]. split; [exact H1|]. intros z Hz. right. auto.
      - intros [= <- <- <-]. split; [auto|discriminate].
      - intros [= <- <- <-]. split; [auto|discriminate].
    Qed.
    Lemma uupd_left_law v w e o e' ok : uupd_left f v w e = (o, e', ok) ->
      (ok = true -> left_entry cx f v w o) /\ forall z, o = Some z -> with_rest cx f v w z.
    Proof.
      unfold uupd_left. destruct v as [v|]; [destruct w as [w|]|]; cbn [left_entry with_rest].
      - intros H. apply (ucall_law cx) in H as [H1 H2]. split; [exact H1|]. intros z Hz. right. auto.
      - intros [= <- <- <-]. split; [auto|]. now intros z [= <-].
      - intros [= <- <- <-]. split; [auto|discriminate].
    Qed.
    Lemma no_conv (R : option V -> (list K -> option X) -> list K -> option V -> Prop) : false = true -> forall y e e' t, wf qb y -> t_prefix y <> [] -> (qb = true -> t_is_empty y = false) ->
      uno_conv (E := E) (K := K) (V := V) y e = Some (e', Ret t) ->
      (forall k, R None (lk y) k (lk t k)) /\ hd_of t = hd_of y /\ wf q t /\ (q = true -> t_is_empty t = false).
    Proof. discriminate. Qed.

    Lemma uinner_law fuel : forall (a : rtree K V) (b : rtree K X) e, wf q a -> wf qb b ->
      tdone (kcmp := kcmp) (E := E) q Ri Lk True a b (uinner_with u strat cx f fuel a b e).
    Proof using L EQ AN.
      induction fuel as [|fuel IH]; intros a b e Wa Wb; [exact I|]. cbn [uinner_with].
      pose proof (no_conv Ri) as HCV.
      destruct a as [p v ca], b as [p2 w cb]. cbn [t_prefix t_value t_children] in *.
      pose proof (wf_wfc _ _ Wa) as Ca. pose proof (wf_wfc _ _ Wb) as Cb. cbn [t_children] in Ca, Cb.
      destruct (ucommon_law u AN p p2 e) as (e1 & n & -> & Hn0). destruct n as [n|]; cbn [ulift]; [rewrite Hn0; clear Hn0 n|].
      2:{ now apply (rest_self cx q false false Ri Lk own True inner_laws). }
      pose proof (node_merge L EQ u AN strat cx q qb false false uno_conv Ri Lk own True inner_laws (uinner_with u strat cx f fuel) HCV IH) as NM.
      cases p p2.
      - destruct (uupd_inner f v w e1) as [[o e2] ok] eqn:Qu. apply uupd_inner_law in Qu as [Q1 Q2]. cbn [uvalue]. destruct ok.
        + apply NM; auto.
        + cbn [RadixLawNode.tdone]. now apply (rest_same EQ cx q false false Ri Lk own True inner_laws).
      - eapply with_copy.
        { intros _. split; [apply wf_node; split; [now apply (wfc_weaken q)|discriminate]|]. intros k z Hz.
          rewrite lk_node in Hz. rewrite lk_node. destruct (strip kcmp p k) as [[|c k']|]; try discriminate. rewrite Hz.
          apply (el_self cx false false Ri Lk own inner_laws). }
        intros e2 y' _ R. cbn [t_prefix t_value t_children] in R. rewrite skipn_app_exact in R.
        apply (RadixLawNode.case_left L EQ u AN strat cx q qb false false _ Ri Lk own True inner_laws _ HCV IH); auto.
      - splitted. apply (RadixLawNode.case_right L EQ u AN strat cx q qb false false _ Ri Lk own True inner_laws _ HCV IH); auto.
        now destruct w.
      - cbn [RadixLawNode.tdone]. split; [|split].
        + intros k. rewrite (unsplit_lk (kcmp := kcmp) q) by apply wfc_nil. rewrite (lk_empty (Node (s ++ x :: r) None [])) by reflexivity.
          assert (D : lk (Node (s ++ x :: r) v ca) k = None \/ lk (Node (s ++ y :: r2) w cb) k = None).
          { rewrite !lk_node, !(strip_app_l (kcmp := kcmp)). destruct (strip kcmp s k) as [[|c k']|]; auto. cbn [strip].
            destruct (kcmp x c) eqn:Q1; auto. destruct (kcmp y c) eqn:Q2; auto. apply EQ in Q1. apply EQ in Q2. congruence. }
          destruct D as [D|D]; rewrite D; [now destruct (lk (Node (s ++ y :: r2) w cb) k)|now destruct (lk (Node (s ++ x :: r) v ca) k)].
        + apply unsplit_wf, wfc_nil.
        + intros h H1 H2 Ne. discriminate.
    Qed.

    Lemma uleft_law fuel : forall (a : rtree K V) (b : rtree K X) e, wf q a -> wf qb b ->
      tdone (kcmp := kcmp) (E := E) q Rl Lk True a b (uleft_with u strat cx f fuel a b e).
    Proof using L EQ AN.
      induction fuel as [|fuel IH]; intros a b e Wa Wb; [exact I|]. cbn [uleft_with].
      pose proof (no_conv Rl) as HCV.
      destruct a as [p v ca], b as [p2 w cb]. cbn [t_prefix t_value t_children] in *.
      pose proof (wf_wfc _ _ Wa) as Ca. pose proof (wf_wfc _ _ Wb) as Cb. cbn [t_children] in Ca, Cb.
      destruct (ucommon_law u AN p p2 e) as (e1 & n & -> & Hn0). destruct n as [n|]; cbn [ulift]; [rewrite Hn0; clear Hn0 n|].
      2:{ now apply (rest_self cx q true false Rl Lk own True left_laws). }
      pose proof (node_merge L EQ u AN strat cx q qb true false uno_conv Rl Lk own True left_laws (uleft_with u strat cx f fuel) HCV IH) as NM.
      cases p p2.
      - destruct (uupd_left f v w e1) as [[o e2] ok] eqn:Qu. apply uupd_left_law in Qu as [Q1 Q2]. cbn [uvalue]. destruct ok.
        + apply NM; auto.
        + cbn [RadixLawNode.tdone]. now apply (rest_same EQ cx q true false Rl Lk own True left_laws).
      - eapply with_copy; [now apply (rest_self cx q true false Rl Lk own True left_laws)|].
        intros e2 y' _ R. cbn [t_prefix t_value t_children] in R. rewrite skipn_app_exact in R.
        apply (RadixLawNode.case_left L EQ u AN strat cx q qb true false _ Rl Lk own True left_laws _ HCV IH); auto.
      - splitted. apply (RadixLawNode.case_right L EQ u AN strat cx q qb true false _ Rl Lk own True left_laws _ HCV IH); auto.
        now destruct w.
      - cbn [RadixLawNode.tdone]. split; [|split].
        + intros k. rewrite (unsplit_lk (kcmp := kcmp) q) by exact Ca.
          assert (D : lk (Node (s ++ x :: r) v ca) k = None \/ lk (Node (s ++ y :: r2) w cb) k = None).
          { rewrite !lk_node, !(strip_app_l (kcmp := kcmp)). destruct (strip kcmp s k) as [[|c k']|]; auto. cbn [strip].
            destruct (kcmp x c) eqn:Q1; auto. destruct (kcmp y c) eqn:Q2; auto. apply EQ in Q1. apply EQ in Q2. congruence. }
          destruct D as [D|D]; rewrite D; [now destruct (lk (Node (s ++ y :: r2) w cb) k)|now destruct (lk (Node (s ++ x :: r) v ca) k)].
        + now apply unsplit_wf.
        + intros h H1 H2 Ne. now apply unsplit_hd.
    Qed.
  End InnerLeft.

  (** ** remove_prefix_with, retain_prefix_with *)
  Section Prefixes.
    Context {V X : Type} (cx : clos E X X) (f : clos E X bool) (q qb : bool).
    Notation acc := (some_accepted (K := K) cx f).
    Notation ref := (all_refused (K := K) cx f).
    Notation Lk := (fun (v : option V) (g : list K -> option X) (k : list K) (z : V) => v = Some z).
    Definition passed (w : option X) : Prop := match w with None => True | Some w => answered cx f w false end.

    Lemma acc_ext g g' k : (forall k', is_prefix k' k -> g k' = g' k') -> acc g k -> acc g' k.
    Proof. intros H (k' & w & H1 & H2 & H3). exists k', w. split; [auto|]. split; [now rewrite <- H|auto]. Qed.
    Lemma ref_ext g g' k : (forall k', is_prefix k' k -> g k' = g' k') -> ref g k -> ref g' k.
    Proof. intros H R k' w H1 H2. apply (R k' w H1). now rewrite H. Qed.
    Lemma acc_copy g g' k : (forall k', once cx (g k') (g' k')) -> acc g' k -> acc g k.
    Proof.
      intros H (k' & w & H1 & H2 & H3). specialize (H k'). rewrite H2 in H. apply once_to in H as (w0 & Q & e & e' & H).
      exists k', w0. split; [auto|]. split; [auto|]. now apply (answered_more cx f w0 w true e e').
    Qed.
    Lemma ref_copy g g' k : (forall k', once cx (g k') (g' k')) -> ref g' k -> ref g k.
    Proof.
      intros H R k' w H1 H2. specialize (H k'). rewrite H2 in H. apply once_some in H as (w1 & Q & e & e' & H).
      apply (answered_more cx f w w1 false e e' H). now apply (R k').
    Qed.
    Lemma acc_shift g g' p r : (forall r', g' (p ++ r') = g r') -> acc g r -> acc g' (p ++ r).
    Proof.
      intros H (k' & w & [r0 ->] & H2 & H3). exists (p ++ k'), w. split; [exists r0; now rewrite app_assoc|]. split; [now rewrite H|auto].
    Qed.
    Lemma ref_shift g g' p r : (forall r', g' (p ++ r') = g r') -> (forall k', (forall r', k' <> p ++ r') -> g' k' = None) ->
      ref g r -> ref g' (p ++ r).
    Proof.
      intros H N R k' w [r0 H1] H2. apply app_eq_app in H1 as (l & [[P1 P2]|[P1 P2]]).
      - destruct l as [|c l].
        + rewrite app_nil_r in P1. subst k'. cbn [app] in P2. apply (R [] w (is_prefix_nil r)).
          rewrite <- (app_nil_r p), H in H2. exact H2.
        + rewrite N in H2; [discriminate|]. intros r' Q. rewrite Q in P1. apply (f_equal (@length K)) in P1.
          rewrite !app_length in P1. cbn [length] in P1. lia.
      - subst k'. rewrite H in H2. apply (R l w); [now exists r0|exact H2].
    Qed.
    Lemma acc_cons g c k : acc (fun k' => match k' with [] => None | _ => g k' end) (c :: k) -> acc g (c :: k).
    Proof. intros (k' & w & H1 & H2 & H3). exists k', w. destruct k'; [discriminate|auto]. Qed.
    Lemma ref_cons g c k : passed (g []) -> ref (fun k' => match k' with [] => None | _ => g k' end) (c :: k) -> ref g (c :: k).
    Proof.
      intros P R k' w H1 H2. destruct k' as [|c' k']; [rewrite H2 in P; exact P|]. now apply (R (c' :: k') w H1).
    Qed.
    Lemma ref_own w : passed w -> ref (fun _ => w) [].
    Proof. intros P k' w' _ ->. exact P. Qed.

    Lemma remove_laws : entry_laws (K := K) cx true false (remove_entry (V := V) cx f) Lk passed.
    Proof.
      constructor; try (intros; assumption).
      - intros v g g' k z H. unfold remove_entry. destruct v as [v|]; auto. intros [[H1 H2]|[H1 H2]]; [left|right]; (split; [auto|]).
        + now apply (ref_ext g).
        + now apply (acc_ext g).
      - intros v g g' k z H. unfold remove_entry. destruct v as [v|]; auto. intros [[H1 H2]|[H1 H2]]; [left|right]; (split; [auto|]).
        + now apply (ref_copy g g').
        + now apply (acc_copy g g').
      - intros v g g' p r z H N. unfold remove_entry. destruct v as [v|]; auto. intros [[H1 H2]|[H1 H2]]; [left|right]; (split; [auto|]).
        + now apply (ref_shift g).
        + now apply (acc_shift g).
      - intros v g k H. unfold remove_entry. destruct v as [v|]; auto. left. split; [auto|]. intros k' w H1 H2. rewrite H in H2; [discriminate|auto].
      - exact I.
      - intros _ g k. reflexivity.
      - intros v g c k z O. unfold remove_entry. destruct v as [v|]; auto. intros [[H1 H2]|[H1 H2]]; [left|right]; (split; [auto|]).
        + now apply ref_cons.
        + now apply acc_cons.
      - intros v g k z. unfold remove_entry. destruct v as [v|]; [|discriminate]. intros [[H1 H2]|[H1 H2]]; congruence.
      - reflexivity.
    Qed.
    Lemma retain_laws : entry_laws (K := K) cx false false (retain_entry (V := V) cx f) Lk passed.
    Proof.
      constructor; try (intros; assumption).
      - intros v g g' k z H. unfold retain_entry. destruct v as [v|]; auto. intros [[H1 H2]|[H1 H2]]; [left|right]; (split; [auto|]).
        + now apply (acc_ext g).
        + now apply (ref_ext g).
      - intros v g g' k z H. unfold retain_entry. destruct v as [v|]; auto. intros [[H1 H2]|[H1 H2]]; [left|right]; (split; [auto|]).
        + now apply (acc_copy g g').
        + now apply (ref_copy g g').
      - intros v g g' p r z H N. unfold retain_entry. destruct v as [v|]; auto. intros [[H1 H2]|[H1 H2]]; [left|right]; (split; [auto|]).
        + now apply (acc_shift g).
        + now apply (ref_shift g).
      - intros v g k H. unfold retain_entry. destruct v as [v|]; auto. right. split; [auto|]. intros k' w H1 H2. rewrite H in H2; [discriminate|auto].
      - exact I.
      - intros _ g k. reflexivity.
      - intros v g c k z O. unfold retain_entry. destruct v as [v|]; auto. intros [[H1 H2]|[H1 H2]]; [left|right]; (split; [auto|]).
        + now apply acc_cons.
        + now apply ref_cons.
      - intros v g k z. unfold retain_entry. destruct v as [v|]; [|discriminate]. intros [[H1 H2]|[H1 H2]]; congruence.
      - reflexivity.
    Qed.

    Lemma uhit_law w e : exists e' r, uhit f w e = Some (e', r) /\
      match r with Ret false => passed w | Ret true => exists w0, w = Some w0 /\ answered cx f w0 true | Throw => True end.
    Proof.
      destruct w as [w|]; cbn [uhit passed]; [|now exists e, (Ret false)]. destruct (f e w) as [e' [b|]] eqn:Q; [|now exists e', Throw].
      exists e', (Ret b). split; [reflexivity|]. assert (A : answered cx f w b) by (exists w, e, e'; split; [constructor|exact Q]).
      destruct b; eauto.
    Qed.
    (** every key of self has the accepted key as a prefix *)
    Lemma hit_acc p r (v : option V) ca w (cb : list (rtree K X)) k z : lk (Node (p ++ r) v ca) k = Some z -> answered cx f w true ->
      acc (lk (Node p (Some w) cb)) k.
    Proof using EQ.
      intros H HA. rewrite lk_node in H. destruct (strip kcmp (p ++ r) k) as [k'|] eqn:Q; [|discriminate].
      apply (strip_iff EQ) in Q. exists p, w. split; [exists (r ++ k'); now rewrite app_assoc|]. split; [|exact HA].
      now rewrite lk_node, (strip_self EQ).
    Qed.
    (** no key of that is a prefix of a key of self *)
    Lemma fork_ref s x r y r2 (v : option V) ca w (cb : list (rtree K X)) k z : x <> y ->
      lk (Node (s ++ x :: r) v ca) k = Some z -> ref (lk (Node (s ++ y :: r2) w cb)) k.
    Proof using EQ.
      intros Hxy H k' w' [k2 ->] H2. exfalso. rewrite lk_node in H. rewrite lk_node in H2.
      destruct (strip kcmp (s ++ x :: r) (k' ++ k2)) as [k3|] eqn:Q; [|discriminate]. destruct (strip kcmp (s ++ y :: r2) k') as [k4|] eqn:Q2; [|discriminate].
      apply (strip_iff EQ) in Q. apply (strip_iff EQ) in Q2. subst k'. rewrite <- !app_assoc in Q. apply app_inv_head in Q.
      cbn [app] in Q. congruence.
    Qed.

    Lemma empty_good (R : option V -> (list K -> option X) -> list K -> option V -> Prop) p (x : rtree K V) (y : rtree K X) : (forall k, R (lk x k) (lk y) k None) -> tgood (kcmp := kcmp) q R x y (t_unsplit (Node p None [])).
    Proof using.
      intros H. split; [|split].
      - intros k. rewrite (unsplit_lk (kcmp := kcmp) q) by apply wfc_nil. rewrite (lk_empty (Node p None [])) by reflexivity. apply H.
      - apply unsplit_wf, wfc_nil.
      - intros h _ _ Ne. discriminate.
    Qed.
    Lemma whole_good (R : option V -> (list K -> option X) -> list K -> option V -> Prop) (x : rtree K V) (y : rtree K X) : wf q x -> (forall k, R (lk x k) (lk y) k (lk x k)) -> tgood (kcmp := kcmp) q R x y (t_unsplit x).
    Proof using.
      intros W H. destruct x as [p v c]. pose proof (wf_wfc _ _ W) as C. cbn [t_children] in C. split; [|split].
      - intros k. rewrite (unsplit_lk (kcmp := kcmp) q p v c k C). apply H.
      - now apply unsplit_wf.
      - intros h H1 H2 Ne. now apply unsplit_hd.
    Qed.

    Notation Rm := (remove_entry (V := V) cx f).
    Lemma uremove_law fuel : forall (a : rtree K V) (b : rtree K X) e, wf q a -> wf qb b ->
      tdone (kcmp := kcmp) (E := E) q Rm Lk True a b (uremove_with u strat cx f fuel a b e).
    Proof using L EQ AN.
      induction fuel as [|fuel IH]; intros a b e Wa Wb; [exact I|]. cbn [uremove_with].
      pose proof (no_conv (V := V) (X := X) q qb Rm) as HCV.
      destruct a as [p v ca], b as [p2 w cb]. cbn [t_prefix t_value t_children] in *.
      pose proof (wf_wfc _ _ Wa) as Ca. pose proof (wf_wfc _ _ Wb) as Cb. cbn [t_children] in Ca, Cb.
      destruct (ucommon_law u AN p p2 e) as (e1 & n & -> & Hn0). destruct n as [n|]; cbn [ulift]; [rewrite Hn0; clear Hn0 n|].
      2:{ now apply (rest_self cx q true false Rm Lk passed True remove_laws). }
      pose proof (node_merge L EQ u AN strat cx q qb true false uno_conv Rm Lk passed True remove_laws (uremove_with u strat cx f fuel) HCV IH) as NM.
      cases p p2.
      - destruct (uhit_law w e1) as (e2 & r & -> & H). destruct r as [[|]|]; cbn [ulift].
        + destruct H as (w0 & -> & H). apply (empty_good Rm). intros k. unfold remove_entry.
          destruct (lk (Node p2 v ca) k) as [z|] eqn:Q; [|reflexivity]. right. split; [reflexivity|].
          apply (hit_acc p2 [] v ca w0 cb k z); [now rewrite app_nil_r|exact H].
        + apply NM; auto. unfold remove_entry. destruct v as [v|]; [|reflexivity]. left. split; [reflexivity|]. now apply ref_own.
        + now apply (rest_self cx q true false Rm Lk passed True remove_laws).
      - eapply with_copy; [now apply (rest_self cx q true false Rm Lk passed True remove_laws)|].
        intros e2 y' _ R. cbn [t_prefix t_value t_children] in R. rewrite skipn_app_exact in R.
        apply (RadixLawNode.case_left L EQ u AN strat cx q qb true false _ Rm Lk passed True remove_laws _ HCV IH); auto.
      - destruct (uhit_law w e1) as (e2 & r0 & -> & H). destruct r0 as [[|]|]; cbn [ulift].
        + destruct H as (w0 & -> & H). apply (empty_good Rm). intros k. unfold remove_entry.
          destruct (lk (Node (p2 ++ x :: r) v ca) k) as [z|] eqn:Q; [|reflexivity]. right. split; [reflexivity|].
          now apply (hit_acc p2 (x :: r) v ca w0 cb k z).
        + splitted. apply (RadixLawNode.case_right L EQ u AN strat cx q qb true false _ Rm Lk passed True remove_laws _ HCV IH); auto.
          reflexivity.
        + now apply (rest_self cx q true false Rm Lk passed True remove_laws).
      - apply (whole_good Rm); [exact Wa|]. intros k. unfold remove_entry.
        destruct (lk (Node (s ++ x :: r) v ca) k) as [z|] eqn:Q; [|reflexivity]. left. split; [reflexivity|]. now apply (fork_ref s x r y r2 v ca w cb k z).
    Qed.

    Notation Rt := (retain_entry (V := V) cx f).
    Lemma uretain_law fuel : forall (a : rtree K V) (b : rtree K X) e, wf q a -> wf qb b ->
      tdone (kcmp := kcmp) (E := E) q Rt Lk True a b (uretain_with u strat cx f fuel a b e).
    Proof using L EQ AN.
      induction fuel as [|fuel IH]; intros a b e Wa Wb; [exact I|]. cbn [uretain_with].
      pose proof (no_conv (V := V) (X := X) q qb Rt) as HCV.
      destruct a as [p v ca], b as [p2 w cb]. cbn [t_prefix t_value t_children] in *.
      pose proof (wf_wfc _ _ Wa) as Ca. pose proof (wf_wfc _ _ Wb) as Cb. cbn [t_children] in Ca, Cb.
      destruct (ucommon_law u AN p p2 e) as (e1 & n & -> & Hn0). destruct n as [n|]; cbn [ulift]; [rewrite Hn0; clear Hn0 n|].
      2:{ now apply (rest_self cx q false false Rt Lk passed True retain_laws). }
      pose proof (node_merge L EQ u AN strat cx q qb false false uno_conv Rt Lk passed True retain_laws (uretain_with u strat cx f fuel) HCV IH) as NM.
      cases p p2.
      - destruct (uhit_law w e1) as (e2 & r & -> & H). destruct r as [[|]|]; cbn [ulift].
        + destruct H as (w0 & -> & H). apply (whole_good Rt); [exact Wa|]. intros k. unfold retain_entry.
          destruct (lk (Node p2 v ca) k) as [z|] eqn:Q; [|reflexivity]. left. split; [reflexivity|].
          apply (hit_acc p2 [] v ca w0 cb k z); [now rewrite app_nil_r|exact H].
        + apply NM; auto. unfold retain_entry. destruct v as [v|]; [|reflexivity]. right. split; [reflexivity|]. now apply ref_own.
        + now apply (rest_self cx q false false Rt Lk passed True retain_laws).
      - eapply with_copy.
        { intros _. split; [apply wf_node; split; [now apply (wfc_weaken q)|discriminate]|]. intros k z Hz.
          rewrite lk_node in Hz. rewrite lk_node. destruct (strip kcmp p k) as [[|c k']|]; try discriminate. exact Hz. }
        intros e2 y' _ R. cbn [t_prefix t_value t_children] in R. rewrite skipn_app_exact in R.
        apply (RadixLawNode.case_left L EQ u AN strat cx q qb false false _ Rt Lk passed True retain_laws _ HCV IH); auto.
      - destruct (uhit_law w e1) as (e2 & r0 & -> & H). destruct r0 as [[|]|]; cbn [ulift].
        + destruct H as (w0 & -> & H). apply (whole_good Rt); [exact Wa|]. intros k. unfold retain_entry.
          destruct (lk (Node (p2 ++ x :: r) v ca) k) as [z|] eqn:Q; [|reflexivity]. left. split; [reflexivity|].
          now apply (hit_acc p2 (x :: r) v ca w0 cb k z).
        + splitted. apply (RadixLawNode.case_right L EQ u AN strat cx q qb false false _ Rt Lk passed True retain_laws _ HCV IH); auto.
          reflexivity.
        + now apply (rest_self cx q false false Rt Lk passed True retain_laws).
      - apply (empty_good Rt). intros k. unfold retain_entry.
        destruct (lk (Node (s ++ x :: r) v ca) k) as [z|] eqn:Q; [|reflexivity]. right. split; [reflexivity|]. now apply (fork_ref s x r y r2 v ca w cb k z).
    Qed.
  End Prefixes.
End LawOps.
