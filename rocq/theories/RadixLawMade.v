(** outer_combine, inner_combine and left_combine of radix trees when the comparisons answer like an order. *)
From Verif Require Export RadixLawPure.
From Verif Require Import RadixEffMerge RadixComb RadixEffComb PersistFacts.

Section LawMade.
  Context {K : Type} {kcmp : K -> K -> comparison} (L : OrdLaws kcmp) (EQ : OrdEq kcmp).
  Context {E : Type} (u : ucode E K) (AN : answers_like kcmp u) (strat : nat -> nat -> bool).
  Notation wf := (wf kcmp).
  Notation wfc := (wfc (kcmp := kcmp)).
  Notation lk := (lk kcmp).
  Ltac cases p p2 :=
    destruct (cp_cases EQ p p2) as [Hp Hn|x r Hp Hn|x r Hp Hn|s x r y r2 Hp Hp2 Hxy Hn]; rewrite Hn; clear Hn;
    rewrite ?Hp, ?Hp2 in *; clear Hp; try clear Hp2;
    rewrite ?Nat.eqb_refl, ?app_cons_length; cbn [andb]; rewrite ?firstn_all, ?firstn_app_exact.
  (** a copied subtree *)
  Lemma mat_then {V Y} (cl : clos E V V) (t : rtree K V) n e (k : rtree K V -> E -> given_back E Y) e' y :
    then_ (umat cl t n e) k = Some (e', Ret y) ->
    exists e1 t', recopied (kcmp := kcmp) cl (Node (skipn n (t_prefix t)) (t_value t) (t_children t)) t' /\ k t' e1 = Some (e', Ret y).
  Proof using.
    destruct (umat_law (kcmp := kcmp) cl t n e) as (e1 & [t'|] & -> & H); cbn [then_]; [|discriminate]. intros H'. exists e1, t'. now split.
  Qed.
  Lemma clone_then {V Y} (cl : clos E V V) v e (k : option V -> E -> given_back E Y) e' y :
    then_ (uclone cl v e) k = Some (e', Ret y) -> exists e1 v', once cl v v' /\ k v' e1 = Some (e', Ret y).
  Proof using.
    destruct (uclone_law cl v e) as (e1 & [v'|] & -> & H); cbn [then_]; [|discriminate]. intros H'. exists e1, v'. now split.
  Qed.
  Lemma common_then {Y} p p2 e (k : nat -> E -> given_back E Y) e' y :
    then_ (ucommon u p p2 e) k = Some (e', Ret y) -> exists e1, k (common_prefix kcmp p p2) e1 = Some (e', Ret y).
  Proof using AN.
    destruct (ucommon_law u AN p p2 e) as (e1 & [n|] & -> & H); cbn [then_]; [|discriminate]. rewrite H. eauto.
  Qed.
  Lemma copied_copies {X} (c : clos E X X) w w' : copied c w w' -> copies c w w'.
  Proof using. intros (e & e' & w1 & H1 & H2). econstructor; eauto. Qed.

  Section Outer.
    Context {V : Type} (cl : clos E V V) (f : clos E (V * V) (option V)) (q : bool).
    Notation R := (outer_made cl f).
    Lemma outer_made_laws : made_laws cl cl true true R.
    Proof.
      constructor.
      - reflexivity.
      - intros [v|] v' w z H; [apply once_some in H as (v1 & -> & e & e' & H)|apply once_none' in H as ->; auto].
        destruct w as [w|]; cbn [outer_made].
        + intros (v2 & w2 & e1 & e2 & H1 & H2 & H3). exists v2, w2, e1, e2. split; [econstructor; eauto|auto].
        + intros (v2 & H1 & H2). exists v2. split; [now apply (copied_more cl v v1 v2 e e')|exact H2].
      - intros v [w|] w' z H; [apply once_some in H as (w1 & -> & e & e' & H)|apply once_none' in H as ->; auto].
        destruct v as [v|]; cbn [outer_made].
        + intros (v2 & w2 & e1 & e2 & H1 & H2 & H3). exists v2, w2, e1, e2. split; [auto|]. split; [econstructor; eauto|auto].
        + intros (w2 & H1 & H2). exists w2. split; [now apply (copied_more cl w w1 w2 e e')|exact H2].
      - intros _ [v|] v' H; [apply once_some in H as (v1 & -> & e & e' & H)|apply once_none' in H as ->; reflexivity].
        cbn [outer_made]. exists v1. split; [now apply copied_one in H|reflexivity].
      - discriminate.
      - discriminate.
    Qed.
    Lemma once_b w w' : once cl w w' -> R None w w'.
    Proof.
      destruct w as [w|]; intros H; [apply once_some in H as (w1 & -> & e & e' & H)|apply once_none' in H as ->; reflexivity].
      cbn [outer_made]. exists w1. split; [now apply copied_one in H|reflexivity].
    Qed.
    Lemma uval_outer_made v w e e' o : uval_outer cl f v w e = Some (e', Ret o) -> R v w o.
    Proof.
      unfold uval_outer. destruct v as [v|], w as [w|].
      - intros H. exists v, w, e, e'. split; [constructor|]. split; [constructor|]. congruence.
      - intros H. destruct (uclone_law cl (Some v) e) as (e1 & r & Q1 & Q2). rewrite Q1 in H. injection H as -> ->. now apply (ml_a _ _ _ _ _ outer_made_laws).
      - intros H. destruct (uclone_law cl (Some w) e) as (e1 & r & Q1 & Q2). rewrite Q1 in H. injection H as -> ->. now apply once_b.
      - now intros [= _ <-].
    Qed.
    Notation made := (made (kcmp := kcmp) q R).
    Lemma sort_made s x r y r2 v ca w (cb : list (rtree K V)) x' y' e e' t :
      wf q (Node (s ++ x :: r) v ca) -> wf q (Node (s ++ y :: r2) w cb) -> x <> y ->
      recopied (kcmp := kcmp) cl (Node (x :: r) v ca) x' -> recopied (kcmp := kcmp) cl (Node (y :: r2) w cb) y' ->
      ubuilt s None (usort2 u x' y' e) = Some (e', Ret t) -> made (Node (s ++ x :: r) v ca) (Node (s ++ y :: r2) w cb) t.
    Proof using L EQ AN.
      intros Wa Wb Hxy Rx Ry.
      pose proof (single_wfc cl q s x r v ca x' Wa Rx) as Wx. pose proof (single_wfc cl q s y r2 w cb y' Wb Ry) as Wy.
      pose proof (proj1 Rx) as Px. pose proof (proj1 Ry) as Py. cbn [t_prefix] in Px, Py.
      unfold usort2. rewrite Px, Py. destruct (u_lt u e (y, x)) as [e1 [b|]] eqn:Qu; cbn [then_ ubuilt]; [|discriminate].
      apply (an_lt kcmp u AN) in Qu. set (l := if b then [y'; x'] else [x'; y']).
      assert (Two : forall t1 t2 : rtree K V, wfc q [t1] -> wfc q [t2] -> hord (kcmp := kcmp) (hd_of t1) (hd_of t2) = Lt -> wfc q [t1; t2]).
      { intros t1 t2 W1 W2 H. apply (wfc_app q [t1] [t2]); auto. now intros ? ? [<-|[]] [<-|[]]. }
      assert (Hx : hd_of x' = Some x) by (unfold hd_of; now rewrite Px).
      assert (Hy : hd_of y' = Some y) by (unfold hd_of; now rewrite Py).
      assert (D : forall c k, lk x' (c :: k) = None \/ lk y' (c :: k) = None).
      { intros c k. destruct x' as [p1 v1 c1], y' as [p2 v2 c2]. cbn [t_prefix] in Px, Py. rewrite !lk_node, Px, Py. cbn [strip].
        destruct (kcmp x c) eqn:Q1; auto. destruct (kcmp y c) eqn:Q2; auto. apply EQ in Q1. apply EQ in Q2. congruence. }
      assert (Wl : wfc q l /\ forall c k, lkc (kcmp := kcmp) l (c :: k) = match lk x' (c :: k) with Some z => Some z | None => lk y' (c :: k) end).
      { unfold l. destruct (kcmp y x) eqn:C.
        - apply EQ in C. congruence.
        - subst b. split; [apply Two; auto; rewrite Hx, Hy; exact C|]. intros c k. rewrite !lkc_cons.
          change (RadixFacts.lkc (kcmp := kcmp) (@nil (rtree K V)) (c :: k)) with (@None V).
          destruct (D c k) as [Z|Z]; rewrite Z; [now destruct (lk y' (c :: k))|now destruct (lk x' (c :: k))].
        - subst b. split; [apply Two; auto; rewrite Hx, Hy; apply (cmp_gt_lt (hord_laws L)); exact C|]. intros c k. rewrite !lkc_cons.
          change (RadixFacts.lkc (kcmp := kcmp) (@nil (rtree K V)) (c :: k)) with (@None V).
          destruct (lk x' (c :: k)); [reflexivity|]. now destruct (lk y' (c :: k)). }
      intros HH. assert (Qt : t = t_unsplit (Node s None l)) by congruence. subst t. clear HH. destruct Wl as [Wl Hl]. split; [|split].
      - intros k. rewrite (unsplit_lk (kcmp := kcmp) q) by exact Wl. rewrite !(lk_longer EQ), !lk_node.
        destruct (strip kcmp s k) as [[|c r']|]; [reflexivity| |reflexivity]. rewrite Hl, !lkc_cons.
        change (RadixFacts.lkc (kcmp := kcmp) (@nil (rtree K V)) (c :: r')) with (@None V).
        pose proof (proj2 (proj2 (proj2 Rx)) (c :: r')) as Ox. pose proof (proj2 (proj2 (proj2 Ry)) (c :: r')) as Oy.
        destruct (lk (Node (x :: r) v ca) (c :: r')) as [a|].
        + apply once_some in Ox as (v1 & Q1 & e2 & e3 & Ox). rewrite Q1. destruct (D c r') as [Z|Z]; [congruence|]. rewrite Z in Oy.
          destruct (lk (Node (y :: r2) w cb) (c :: r')) as [b0|]; [destruct Oy|]. cbn [outer_made]. exists v1. split; [now apply copied_one in Ox|reflexivity].
        + apply once_none' in Ox. rewrite Ox. destruct (lk (Node (y :: r2) w cb) (c :: r')) as [b0|].
          * apply (once_b (Some b0)) in Oy. exact Oy.
          * apply once_none' in Oy. rewrite Oy. reflexivity.
      - now apply unsplit_wf.
      - intros h H1 H2 Ne. apply unsplit_hd; [|exact Ne]. unfold hd_of in H1, H2. cbn [t_prefix] in H1, H2. now apply (hd_common_nil s x r y r2 h Hxy).
    Qed.
    Lemma uouter_made fuel : forall (a b : rtree K V) e e' t, wf q a -> wf q b -> uouter u strat cl f fuel a b e = Some (e', Ret t) -> made a b t.
    Proof using L EQ AN.
      induction fuel as [|fuel IH]; intros a b e e' t Wa Wb; [discriminate|]. cbn [uouter].
      assert (HB : true = true -> forall y e e' (t : rtree K V), wf q y -> t_prefix y <> [] -> (q = true -> t_is_empty y = false) ->
               umat cl y 0 e = Some (e', Ret t) ->
               (forall k, R None (lk y k) (lk t k)) /\ hd_of t = hd_of y /\ wf q t /\ (q = true -> t_is_empty t = false)).
      { intros _ y e0 e2 t0 W1 W2 W3 H. apply (umat0_law (kcmp := kcmp)) in H. pose proof H as (R1 & R2 & R3 & R4).
        split; [|split; [now apply (recopied_hd (kcmp := kcmp) cl)|split; [auto|now rewrite R2]]]. intros k. apply once_b, R4. }
      assert (QA : true = true -> q = true \/ q = false) by (destruct q; auto).
      destruct a as [p v ca], b as [p2 w cb]. cbn [t_prefix t_value t_children] in *.
      pose proof (wf_wfc _ _ Wa) as Ca. pose proof (wf_wfc _ _ Wb) as Cb. cbn [t_children] in Ca, Cb.
      intros H. apply common_then in H as [e1 H]. revert H.
      cases p p2.
      - intros H. destruct (uval_outer cl f v w e1) as [[e2 [o|]]|] eqn:Qu; cbn [then_] in H; [|discriminate..]. apply uval_outer_made in Qu.
        eapply (node_made L EQ u AN strat cl cl q q q true true _ R outer_made_laws _ QA HB IH); [exact Ca|exact Cb|exact Qu|exact H].
      - intros H. apply mat_then in H as (e2 & y' & R0 & H). apply clone_then in H as (e3 & v' & Ov & H). cbn [t_prefix t_value t_children] in R0. rewrite skipn_app_exact in R0.
        eapply (made_left L EQ u AN strat cl cl q q q true true _ R outer_made_laws _ QA HB IH); [exact Ca|exact Wb|exact R0| |exact H].
        now apply (ml_a _ _ _ _ _ outer_made_laws).
      - intros H. apply mat_then in H as (e2 & x' & R0 & H). apply clone_then in H as (e3 & w' & Ow & H). cbn [t_prefix t_value t_children] in R0. rewrite skipn_app_exact in R0.
        eapply (made_right L EQ u AN strat cl cl q q q true true _ R outer_made_laws _ QA HB IH); [exact Wa|exact Cb|exact R0| |exact H].
        now apply once_b.
      - intros H. apply mat_then in H as (e2 & x' & R0 & H). apply mat_then in H as (e3 & y' & R0' & H).
        cbn [t_prefix t_value t_children] in R0, R0'. rewrite skipn_app_exact in R0, R0'.
        eapply sort_made; [exact Wa|exact Wb|exact Hxy|exact R0|exact R0'|exact H].
    Qed.
  End Outer.

  Section InnerLeft.
    Context {V X : Type} (cl : clos E V V) (cx : clos E X X) (q qb : bool).
    Lemma no_conv_b (R : option V -> option X -> option V -> Prop) : false = true -> forall y e e' (t : rtree K V), wf qb y -> t_prefix y <> [] -> (qb = true -> t_is_empty y = false) ->
      uno_conv (K := K) (X := X) y e = Some (e' : E, Ret t) ->
      (forall k, R None (lk y k) (lk t k)) /\ hd_of t = hd_of y /\ wf q t /\ (q = true -> t_is_empty t = false).
    Proof using. discriminate. Qed.
    Section Inner.
      Context (f : clos E (V * X) (option V)).
      Notation R := (inner_made cl cx f).
      Lemma inner_made_laws : made_laws cl cx false false R.
      Proof.
        constructor.
        - reflexivity.
        - intros [v|] v' w z H; [apply once_some in H as (v1 & -> & e & e' & H)|apply once_none' in H as ->; auto].
          destruct w as [w|]; cbn [inner_made]; [|auto].
          intros (v2 & w2 & e1 & e2 & H1 & H2 & H3). exists v2, w2, e1, e2. split; [econstructor; eauto|auto].
        - intros v [w|] w' z H; [apply once_some in H as (w1 & -> & e & e' & H)|apply once_none' in H as ->; auto].
          destruct v as [v|]; cbn [inner_made]; [|auto].
          intros (v2 & w2 & e1 & e2 & H1 & H2 & H3). exists v2, w2, e1, e2. split; [auto|]. split; [econstructor; eauto|auto].
        - discriminate.
        - intros _ [v|]; reflexivity.
        - intros _ w. reflexivity.
      Qed.
      Notation made := (made (kcmp := kcmp) q R).
      Lemma uinner_made fuel : forall (a : rtree K V) (b : rtree K X) e e' t, wf q a -> wf qb b -> uinner u strat cl cx f fuel a b e = Some (e', Ret t) -> made a b t.
      Proof using L EQ AN.
        induction fuel as [|fuel IH]; intros a b e e' t Wa Wb; [discriminate|]. cbn [uinner].
        assert (QA : false = true -> q = true \/ q = false) by discriminate.
        destruct a as [p v ca], b as [p2 w cb]. cbn [t_prefix t_value t_children] in *.
        pose proof (wf_wfc _ _ Wa) as Ca. pose proof (wf_wfc _ _ Wb) as Cb. cbn [t_children] in Ca, Cb.
        intros H. apply common_then in H as [e1 H]. revert H.
        cases p p2.
        - intros H. destruct (uval_inner f v w e1) as [[e2 [o|]]|] eqn:Qu; cbn [then_] in H; [|discriminate..].
          assert (HV : R v w o).
          { unfold uval_inner in Qu. destruct v as [v|], w as [w|]; cbn [inner_made]; try congruence.
            exists v, w, e1, e2. split; [constructor|]. split; [constructor|]. congruence. }
          eapply (node_made L EQ u AN strat cl cx q q qb false false _ R inner_made_laws _ QA (no_conv_b R) IH); [exact Ca|exact Cb|exact HV|exact H].
        - intros H. apply mat_then in H as (e2 & y' & R0 & H). cbn [t_prefix t_value t_children] in R0. rewrite skipn_app_exact in R0.
          eapply (made_left L EQ u AN strat cl cx q q qb false false _ R inner_made_laws _ QA (no_conv_b R) IH); [exact Ca|exact Wb|exact R0| |exact H].
          now destruct v.
        - intros H. apply mat_then in H as (e2 & x' & R0 & H). cbn [t_prefix t_value t_children] in R0. rewrite skipn_app_exact in R0.
          eapply (made_right L EQ u AN strat cl cx q q qb false false _ R inner_made_laws _ QA (no_conv_b R) IH); [exact Wa|exact Cb|exact R0| |exact H].
          reflexivity.
        - intros H. cbn [ubuilt then_] in H. assert (Qt : t = t_unsplit (Node s None [])) by congruence. subst t. clear H.
          assert (Wn : wfc q (@nil (rtree K V))) by apply wfc_nil. split; [|split; [now apply unsplit_wf|]].
          + intros k. rewrite (unsplit_lk (kcmp := kcmp) q) by exact Wn.
            assert (Z : lk (Node s None [] : rtree K V) k = None) by (rewrite lk_node; now destruct (strip kcmp s k) as [[|]|]). rewrite Z.
            destruct (apart EQ s x r y r2 v ca w cb k Hxy) as [D|D]; rewrite D; [reflexivity|].
            destruct (lk (Node (s ++ x :: r) v ca) k); reflexivity.
          + intros h H1 H2 Ne. apply unsplit_hd; [|exact Ne]. unfold hd_of in H1, H2. cbn [t_prefix] in H1, H2. now apply (hd_common_nil s x r y r2 h Hxy).
      Qed.
    End Inner.
    Section Left.
      Context (f : clos E (V * option X) (option V)).
      Notation R := (left_made cl cx f).
      Lemma left_made_laws : made_laws cl cx true false R.
      Proof.
        constructor.
        - reflexivity.
        - intros [v|] v' w z H; [apply once_some in H as (v1 & -> & e & e' & H)|apply once_none' in H as ->; auto].
          destruct w as [w|]; cbn [left_made].
          + intros (v2 & w2 & e1 & e2 & H1 & H2 & H3). exists v2, w2, e1, e2. split; [econstructor; eauto|auto].
          + intros [(v2 & H1 & H2)|(v2 & e1 & e2 & H1 & H2)]; [left|right].
            * exists v2. split; [now apply (copied_more cl v v1 v2 e e')|exact H2].
            * exists v2, e1, e2. split; [econstructor; eauto|auto].
        - intros v [w|] w' z H; [apply once_some in H as (w1 & -> & e & e' & H)|apply once_none' in H as ->; auto].
          destruct v as [v|]; cbn [left_made]; [|auto].
          intros (v2 & w2 & e1 & e2 & H1 & H2 & H3). exists v2, w2, e1, e2. split; [auto|]. split; [econstructor; eauto|auto].
        - intros _ [v|] v' H; [apply once_some in H as (v1 & -> & e & e' & H)|apply once_none' in H as ->; reflexivity].
          cbn [left_made]. left. exists v1. split; [now apply copied_one in H|reflexivity].
        - discriminate.
        - intros _ w. reflexivity.
      Qed.
      Notation made := (made (kcmp := kcmp) q R).
      Lemma umat_all_law (l : list (rtree K V)) : forall e e' l', umat_all cl l e = Some (e', Ret l') -> Forall2 (recopied (kcmp := kcmp) cl) l l'.
      Proof using.
        induction l as [|x l IH]; intros e e' l'; cbn [umat_all]; [intros [= _ <-]; constructor|].
        intros H. destruct (umat cl x 0 e) as [[e1 [x'|]]|] eqn:Q1; cbn [then_] in H; [|discriminate..].
        destruct (umat_all cl l e1) as [[e2 [l1|]]|] eqn:Q2; cbn [then_] in H; [|discriminate..]. injection H as <- <-.
        constructor; [now apply (umat0_law (kcmp := kcmp)) in Q1|now apply (IH e1 e2)].
      Qed.
      Lemma uleft_made fuel : forall (a : rtree K V) (b : rtree K X) e e' t, wf q a -> wf qb b -> uleft u strat cl cx f fuel a b e = Some (e', Ret t) -> made a b t.
      Proof using L EQ AN.
        induction fuel as [|fuel IH]; intros a b e e' t Wa Wb; [discriminate|]. cbn [uleft].
        assert (QA : true = true -> q = true \/ q = false) by (destruct q; auto).
        destruct a as [p v ca], b as [p2 w cb]. cbn [t_prefix t_value t_children] in *.
        pose proof (wf_wfc _ _ Wa) as Ca. pose proof (wf_wfc _ _ Wb) as Cb. cbn [t_children] in Ca, Cb.
        intros H. apply common_then in H as [e1 H]. revert H.
        cases p p2.
        - intros H. destruct (uval_left f v w e1) as [[e2 [o|]]|] eqn:Qu; cbn [then_] in H; [|discriminate..].
          assert (HV : R v w o).
          { unfold uval_left in Qu. destruct v as [v|]; cbn [left_made]; [|congruence]. destruct w as [w|].
            - exists v, w, e1, e2. split; [constructor|]. split; [constructor|]. congruence.
            - right. exists v, e1, e2. split; [constructor|]. congruence. }
          eapply (node_made L EQ u AN strat cl cx q q qb true false _ R left_made_laws _ QA (no_conv_b R) IH); [exact Ca|exact Cb|exact HV|exact H].
        - intros H. apply mat_then in H as (e2 & y' & R0 & H). apply clone_then in H as (e3 & v' & Ov & H). cbn [t_prefix t_value t_children] in R0. rewrite skipn_app_exact in R0.
          eapply (made_left L EQ u AN strat cl cx q q qb true false _ R left_made_laws _ QA (no_conv_b R) IH); [exact Ca|exact Wb|exact R0| |exact H].
          now apply (ml_a _ _ _ _ _ left_made_laws).
        - intros H. apply mat_then in H as (e2 & x' & R0 & H). cbn [t_prefix t_value t_children] in R0. rewrite skipn_app_exact in R0.
          eapply (made_right L EQ u AN strat cl cx q q qb true false _ R left_made_laws _ QA (no_conv_b R) IH); [exact Wa|exact Cb|exact R0| |exact H].
          reflexivity.
        - intros H. apply clone_then in H as (e3 & v' & Ov & H). unfold ubuilt in H.
          destruct (umat_all cl ca e3) as [[e4 [l|]]|] eqn:Q; cbn [then_] in H; [|discriminate..].
          assert (Qt : t = t_unsplit (Node (s ++ x :: r) v' l)) by congruence. subst t. clear H. apply umat_all_law in Q.
          assert (Wl : wfc q l) by (now apply (recopied_list cl q ca l)). split; [|split; [now apply unsplit_wf|]].
          + intros k. rewrite (unsplit_lk (kcmp := kcmp) q) by exact Wl.
            pose proof (proj2 (proj2 (proj2 (recopied_node (kcmp := kcmp) cl (s ++ x :: r) v v' ca l Ov Q))) k) as O1.
            destruct (apart EQ s x r y r2 v ca w cb k Hxy) as [D|D]; rewrite D in *.
            * apply once_none' in O1. rewrite O1. reflexivity.
            * now apply (ml_a _ _ _ _ _ left_made_laws).
          + intros h H1 H2 Ne. apply unsplit_hd; [|exact Ne]. exact H1.
      Qed.
    End Left.
  End InnerLeft.
End LawMade.
