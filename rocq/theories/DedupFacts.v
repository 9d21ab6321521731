From Verif Require Export DedupModel StdFacts.

(** ** Specification of deduplication: the representative of the class of [z] *)
Section Pick.
  Context {T : Type} (cmp : T -> T -> comparison).

  Definition pick (kp : keep) (z : T) (l : list T) : option T :=
    match kp with
    | KeepFirst => find (eqb_of cmp z) l
    | KeepLast => find (eqb_of cmp z) (rev l)
    end.
End Pick.

Lemma swap_at_split {T} (l1 l2 l3 : list T) x y :
  swap_at (length l1 + S (length l2)) (length l1) (l1 ++ x :: l2 ++ y :: l3) =
  Some (l1 ++ y :: l2 ++ x :: l3).
Proof.
  unfold swap_at.
  assert (E1 : nth_error (l1 ++ x :: l2 ++ y :: l3) (length l1 + S (length l2)) = Some y).
  { rewrite nth_error_app2 by lia.
    replace (length l1 + S (length l2) - length l1) with (S (length l2)) by lia. simpl.
    rewrite nth_error_app2 by lia. now rewrite Nat.sub_diag. }
  assert (E2 : nth_error (l1 ++ x :: l2 ++ y :: l3) (length l1) = Some x).
  { rewrite nth_error_app2 by lia. now rewrite Nat.sub_diag. }
  rewrite E1, E2, set_at_app. f_equal.
  replace (l1 ++ y :: l2 ++ y :: l3) with ((l1 ++ y :: l2) ++ y :: l3)
    by now rewrite <- app_assoc.
  replace (length l1 + S (length l2)) with (length (l1 ++ y :: l2))
    by (rewrite app_length; reflexivity).
  rewrite set_at_app. now rewrite <- app_assoc.
Qed.

Section DedupBy.
  Context {T : Type} (same : T -> T -> bool) (kp : keep).

  (** functional reading of the loop *)
  Fixpoint dk_from (cur : T) (l : list T) : list T :=
    match l with
    | [] => [cur]
    | y :: l' => if same y cur
                 then dk_from (match kp with KeepFirst => cur | KeepLast => y end) l'
                 else cur :: dk_from y l'
    end.
  Definition dk (l : list T) : list T := match l with [] => [] | x :: l' => dk_from x l' end.

  Lemma dk_from_len cur l : 0 < length (dk_from cur l).
  Proof.
    revert cur. induction l as [|y l IH]; intros cur; simpl; [lia|].
    destruct (same y cur); [apply IH|simpl; lia].
  Qed.

  Lemma dedup_loop_spec rest : forall dn cur mid,
    exists junk,
      dedup_loop same kp (seq (length dn + S (length mid)) (length rest))
        (dn ++ cur :: mid ++ rest) (length dn)
      = Some (dn ++ dk_from cur rest ++ junk, length dn + length (dk_from cur rest) - 1) /\
      Permutation (dk_from cur rest ++ junk) (cur :: mid ++ rest).
  Proof.
    induction rest as [|y rest IH]; intros dn cur mid.
    - simpl. rewrite app_nil_r. exists mid. split; [|reflexivity].
      do 2 f_equal. lia.
    - cbn [length seq dedup_loop].
      assert (E1 : nth_error (dn ++ cur :: mid ++ y :: rest) (length dn + S (length mid)) = Some y).
      { rewrite nth_error_app2 by lia.
        replace (length dn + S (length mid) - length dn) with (S (length mid)) by lia. simpl.
        rewrite nth_error_app2 by lia. now rewrite Nat.sub_diag. }
      assert (E2 : nth_error (dn ++ cur :: mid ++ y :: rest) (length dn) = Some cur).
      { rewrite nth_error_app2 by lia. now rewrite Nat.sub_diag. }
      rewrite E1, E2. cbn [dk_from]. destruct (same y cur); cbn [negb].
      + destruct kp.
        * destruct (IH dn cur (mid ++ [y])) as (junk & E & P).
          rewrite app_length in E. cbn [length] in E. rewrite <- app_assoc in E, P.
          replace (length dn + S (length mid + 1)) with (S (length dn + S (length mid))) in E by lia.
          exists junk. split; assumption.
        * rewrite swap_at_split.
          destruct (IH dn y (mid ++ [cur])) as (junk & E & P).
          rewrite app_length in E. cbn [length] in E. rewrite <- app_assoc in E, P.
          replace (length dn + S (length mid + 1)) with (S (length dn + S (length mid))) in E by lia.
          exists junk. split; [assumption|].
          etransitivity; [exact P|]. simpl.
          replace (cur :: mid ++ y :: rest) with ((cur :: mid) ++ y :: rest) by reflexivity.
          replace (y :: mid ++ cur :: rest) with ((y :: mid) ++ cur :: rest) by reflexivity.
          rewrite <- !Permutation_middle. simpl. apply perm_swap.
      + destruct mid as [|m mid].
        * cbn [length app].
          replace (length dn + 1 =? length dn + 1) with true by (symmetry; apply Nat.eqb_refl).
          cbn [negb].
          destruct (IH (dn ++ [cur]) y []) as (junk & E & P).
          rewrite app_length in E. cbn [length app] in E. rewrite <- app_assoc in E.
          replace (length dn + 1 + 1) with (S (length dn + 1)) in E by lia.
          exists junk. split.
          -- simpl app in E. rewrite E. rewrite <- app_assoc. simpl. do 2 f_equal.
             pose proof (dk_from_len y rest). simpl. lia.
          -- simpl. now apply perm_skip.
        * destruct (Nat.eqb_spec (length dn + S (length (m :: mid))) (length dn + 1)) as [Q|Q];
            [simpl in Q; lia|]. cbn [negb].
          replace (dn ++ cur :: (m :: mid) ++ y :: rest) with ((dn ++ [cur]) ++ m :: mid ++ y :: rest)
            by (rewrite <- app_assoc; reflexivity).
          replace (length dn + S (length (m :: mid))) with (length (dn ++ [cur]) + S (length mid))
            by (rewrite app_length; simpl; lia).
          replace (length dn + 1) with (length (dn ++ [cur])) by (rewrite app_length; simpl; lia).
          rewrite swap_at_split.
          destruct (IH (dn ++ [cur]) y (mid ++ [m])) as (junk & E & P).
          rewrite (app_length mid) in E. cbn [length] in E. rewrite <- (app_assoc mid) in E, P.
          cbn [app] in E, P.
          replace (length (dn ++ [cur]) + S (length mid + 1))
            with (S (length (dn ++ [cur]) + S (length mid))) in E by lia.
          rewrite E. exists junk. split.
          -- rewrite <- app_assoc. simpl. do 2 f_equal. rewrite app_length. simpl.
             pose proof (dk_from_len y rest). simpl. lia.
          -- simpl. apply perm_skip. etransitivity; [exact P|].
             replace (y :: mid ++ m :: rest) with ((y :: mid) ++ m :: rest) by reflexivity.
             replace (m :: mid ++ y :: rest) with ((m :: mid) ++ y :: rest) by reflexivity.
             rewrite <- !Permutation_middle. simpl. apply perm_swap.
  Qed.

  Lemma dedup_by_spec d :
    exists junk, dedup_by d same kp = Some (dk d ++ junk, length (dk d)) /\
                 Permutation (dk d ++ junk) d.
  Proof.
    destruct d as [|x d]; [exists []; split; auto|].
    destruct (dedup_loop_spec d [] x []) as (junk & E & P). simpl in E, P.
    unfold dedup_by. cbn [length]. rewrite Nat.sub_succ, Nat.sub_0_r, E.
    exists junk. split; [|assumption]. do 2 f_equal. simpl.
    pose proof (dk_from_len x d). lia.
  Qed.

  Lemma dk_from_In cur l y : In y (dk_from cur l) -> y = cur \/ In y l.
  Proof.
    revert cur. induction l as [|z l IH]; simpl; intros cur H; [destruct H as [->|[]]; auto|].
    destruct (same z cur).
    - apply IH in H as [->|H]; auto. destruct kp; auto.
    - destruct H as [->|H]; auto. apply IH in H as [->|H]; auto.
  Qed.
End DedupBy.

Section SortDedup.
  Context {T : Type} {cmp : T -> T -> comparison} (L : OrdLaws cmp).

  Definition clsd (l : list T) := wsorted (cmp := cmp) l.

  Lemma dk_from_sorted kp cur l :
    wsorted (cmp := cmp) (cur :: l) -> sorted cmp (dk_from (fun a b => eqb_of cmp a b) kp cur l).
  Proof.
    revert cur. induction l as [|y l IH]; simpl; intros x H; [apply sorted_single|].
    apply wsorted_cons in H as [H1 H2]. pose proof H1 as H1'.
    apply wsorted_cons in H1' as [H3 H4].
    unfold eqb_of at 1. destruct (cmp y x) eqn:E.
    - apply IH. destruct kp.
      + apply wsorted_cons. split; auto. intros z Hz. apply H2. now right.
      + assumption.
    - exfalso. apply (H2 y); [now left|]. now apply (cmp_lt_gt L).
    - apply sorted_cons; auto. intros z Hz. apply dk_from_In in Hz.
      apply (cmp_gt_lt L) in E. destruct Hz as [->|Hz]; [assumption|].
      eapply (cmp_lt_le L); eauto.
  Qed.

  Lemma pick_nil kp z : pick cmp kp z [] = None.
  Proof. destruct kp; reflexivity. Qed.

  Lemma find_app {X} (f : X -> bool) l1 l2 :
    find f (l1 ++ l2) = match find f l1 with Some x => Some x | None => find f l2 end.
  Proof.
    induction l1 as [|x l1 IH]; simpl; [reflexivity|]. destruct (f x); auto.
  Qed.

  Lemma pick_app kp z l1 l2 :
    pick cmp kp z (l1 ++ l2) =
    match kp with
    | KeepFirst => match pick cmp kp z l1 with Some x => Some x | None => pick cmp kp z l2 end
    | KeepLast => match pick cmp kp z l2 with Some x => Some x | None => pick cmp kp z l1 end
    end.
  Proof. destruct kp; simpl; rewrite ?rev_app_distr; apply find_app. Qed.

  Lemma pick_single kp z x : pick cmp kp z [x] = if eqb_of cmp z x then Some x else None.
  Proof. destruct kp; simpl; destruct (eqb_of cmp z x); reflexivity. Qed.

  Lemma pick_Some_In kp z l x : pick cmp kp z l = Some x -> In x l /\ cmp z x = Eq.
  Proof.
    destruct kp; simpl; intros H; apply find_some in H as [H1 H2];
      (split; [rewrite <- ?in_rev in H1; auto | unfold eqb_of in H2; destruct (cmp z x); congruence]).
  Qed.

  Lemma pick_None kp z l : pick cmp kp z l = None <-> ~ mem cmp z l.
  Proof.
    rewrite <- memb_false.
    assert (Q : forall l, find (eqb_of cmp z) l = None <-> memb cmp z l = false).
    { clear. intros l. unfold memb. induction l as [|x l IH]; simpl; [tauto|].
      unfold eqb_of at 1. destruct (cmp z x); simpl; auto; split; congruence. }
    destruct kp; simpl; rewrite Q; [tauto|].
    unfold memb. assert (E : existsb (fun y => match cmp z y with Eq => true | _ => false end) (rev l)
       = existsb (fun y => match cmp z y with Eq => true | _ => false end) l).
    { apply eq_true_iff_eq. rewrite !existsb_exists.
      split; intros (y & H1 & H2); exists y; (split; [|assumption]);
        [now apply in_rev|now apply in_rev; rewrite rev_involutive]. }
    now rewrite E.
  Qed.

  (** on strictly sorted lists both picks are the same *)
  Lemma pick_sorted kp z l : sorted cmp l -> pick cmp kp z l = find (eqb_of cmp z) l.
  Proof.
    destruct kp; [reflexivity|]. simpl. intros Hs.
    destruct (find (eqb_of cmp z) (rev l)) as [x|] eqn:E.
    - apply find_some in E as [E1 E2]. apply in_rev in E1.
      assert (Q : cmp z x = Eq) by (unfold eqb_of in E2; destruct (cmp z x); congruence).
      symmetry. exact (first_of_sorted L _ _ _ Hs E1 Q).
    - pose proof (proj1 (pick_None KeepLast z l) E) as Q.
      symmetry. now apply (pick_None KeepFirst z l).
  Qed.

  Lemma eqb_of_true x y : eqb_of cmp x y = true <-> cmp x y = Eq.
  Proof. unfold eqb_of. destruct (cmp x y); split; congruence. Qed.

  Lemma eqb_of_eq_r x y z : cmp x y = Eq -> eqb_of cmp z x = eqb_of cmp z y.
  Proof. intros E. unfold eqb_of. now rewrite (cmp_eq_r L _ _ z E). Qed.

  Lemma dk_from_pick kp z cur l :
    wsorted (cmp := cmp) (cur :: l) ->
    find (eqb_of cmp z) (dk_from (fun a b => eqb_of cmp a b) kp cur l) = pick cmp kp z (cur :: l).
  Proof.
    revert cur. induction l as [|y l IH]; intros x H.
    - destruct kp; reflexivity.
    - pose proof H as H0. apply wsorted_cons in H as [H1 H2]. pose proof H1 as H1'.
      apply wsorted_cons in H1' as [H3 H4]. cbn [dk_from].
      unfold eqb_of at 2. destruct (cmp y x) eqn:E.
      + destruct kp.
        * rewrite IH by (apply wsorted_cons; split; auto; intros w Hw; apply H2; now right).
          simpl. rewrite (eqb_of_eq_r y x z E). destruct (eqb_of cmp z x); reflexivity.
        * rewrite IH by assumption.
          change (x :: y :: l) with ([x] ++ (y :: l)). rewrite (pick_app KeepLast z [x] (y :: l)).
          destruct (pick cmp KeepLast z (y :: l)) eqn:Q; [reflexivity|].
          rewrite pick_single. destruct (eqb_of cmp z x) eqn:Ex; [|reflexivity].
          exfalso. apply pick_None in Q. apply Q. apply mem_cons. left.
          apply eqb_of_true. now rewrite (eqb_of_eq_r y x z E).
      + exfalso. apply (H2 y); [now left|]. now apply (cmp_lt_gt L).
      + cbn [find]. rewrite IH by assumption.
        change (x :: y :: l) with ([x] ++ (y :: l)). rewrite pick_app, pick_single.
        destruct (eqb_of cmp z x) eqn:Ex; destruct kp; auto.
        * destruct (pick cmp KeepLast z (y :: l)) as [w|] eqn:Q; [|reflexivity]. exfalso.
          apply pick_Some_In in Q as [Q1 Q2]. apply eqb_of_true in Ex.
          rewrite (cmp_eq_l L _ _ w Ex) in Q2.
          apply (cmp_gt_lt L) in E. destruct Q1 as [->|Q1]; [congruence|].
          apply H4 in Q1. rewrite (cmp_lt_le L _ _ _ E Q1) in Q2. discriminate.
        * now destruct (pick cmp KeepLast z (y :: l)).
  Qed.

  Lemma pick_sort kp z l : pick cmp kp z (sort_by cmp l) = pick cmp kp z l.
  Proof.
    assert (Q : forall l, find (eqb_of cmp z) l = hd_error (eqclass (cmp := cmp) z l)).
    { intros l0. exact (first_of_eqclass z l0). }
    assert (R : forall l, eqclass (cmp := cmp) z (rev l) = rev (eqclass (cmp := cmp) z l)).
    { clear. intros l. unfold eqclass. induction l as [|x l IH]; simpl; [reflexivity|].
      rewrite filter_app, IH. simpl. destruct (eqb_of cmp z x); simpl; [reflexivity|].
      apply app_nil_r. }
    destruct kp; simpl; rewrite !Q, ?R, (sort_by_eqclass L); reflexivity.
  Qed.

  (** specification of a deduplicated, sorted list *)
  Definition is_dedup (kp : keep) (inp out : list T) : Prop :=
    sorted cmp out /\ forall z, find (eqb_of cmp z) out = pick cmp kp z inp.

  Lemma is_dedup_unique kp inp o1 o2 : is_dedup kp inp o1 -> is_dedup kp inp o2 -> o1 = o2.
  Proof.
    intros [S1 F1] [S2 F2]. apply (sorted_first_ext L); auto.
    intros z. unfold first_of. now rewrite F1, F2.
  Qed.

  Lemma is_dedup_mem kp inp o z : is_dedup kp inp o -> mem cmp z o <-> mem cmp z inp.
  Proof.
    intros [S F]. specialize (F z).
    pose proof (pick_None kp z inp) as N1. pose proof (pick_None KeepFirst z o) as N2.
    simpl in N2. rewrite F in N2.
    destruct (mem_dec (cmp := cmp) z o), (mem_dec (cmp := cmp) z inp); tauto.
  Qed.

  Lemma dk_sorted kp l : wsorted (cmp := cmp) l -> sorted cmp (dk (fun a b => eqb_of cmp a b) kp l).
  Proof. destruct l; [intros; apply sorted_nil|apply dk_from_sorted]. Qed.

  Lemma dk_pick kp z l : wsorted (cmp := cmp) l ->
    find (eqb_of cmp z) (dk (fun a b => eqb_of cmp a b) kp l) = pick cmp kp z l.
  Proof. destruct l; [intros; now rewrite pick_nil|apply dk_from_pick]. Qed.

  Lemma compact_dedup kp l :
    is_dedup kp l (dk (fun a b => eqb_of cmp a b) kp (sort_by cmp l)).
  Proof.
    split; [apply dk_sorted, (sort_by_wsorted L)|].
    intros z. rewrite dk_pick by apply (sort_by_wsorted L). apply pick_sort.
  Qed.

  (** the specification in terms of occurrences *)
  Lemma pick_first x l : pick cmp KeepFirst x l = Some x <-> first_occ cmp x l.
  Proof.
    simpl. unfold first_occ. induction l as [|y l IH]; simpl.
    - split; [discriminate|]. intros (l1 & l2 & E & _). destruct l1; discriminate.
    - unfold eqb_of at 1. destruct (cmp x y) eqn:E.
      + split.
        * intros [= ->]. exists [], l. split; [reflexivity|apply mem_nil].
        * intros ([|z l1] & l2 & Q & Hn); simpl in Q; injection Q as -> ->; [reflexivity|].
          exfalso. apply Hn, mem_cons. auto.
      + rewrite IH. split.
        * intros (l1 & l2 & -> & Hn). exists (y :: l1), l2. split; [reflexivity|].
          rewrite mem_cons. intros [Q|Q]; auto. congruence.
        * intros ([|z l1] & l2 & Q & Hn); simpl in Q; injection Q as -> ->;
            [rewrite (cmp_refl L) in E; discriminate|].
          exists l1, l2. split; [reflexivity|]. intros Q. apply Hn, mem_cons. auto.
      + rewrite IH. split.
        * intros (l1 & l2 & -> & Hn). exists (y :: l1), l2. split; [reflexivity|].
          rewrite mem_cons. intros [Q|Q]; auto. congruence.
        * intros ([|z l1] & l2 & Q & Hn); simpl in Q; injection Q as -> ->;
            [rewrite (cmp_refl L) in E; discriminate|].
          exists l1, l2. split; [reflexivity|]. intros Q. apply Hn, mem_cons. auto.
  Qed.

  Lemma mem_rev x l : mem cmp x (rev l) <-> mem cmp x l.
  Proof. unfold mem. split; intros (y & H & E); exists y; split; auto; now apply in_rev; rewrite ?rev_involutive. Qed.

  Lemma pick_last x l : pick cmp KeepLast x l = Some x <-> last_occ cmp x l.
  Proof.
    change (pick cmp KeepLast x l) with (pick cmp KeepFirst x (rev l)). rewrite pick_first.
    unfold first_occ, last_occ. split.
    - intros (l1 & l2 & E & Hn). exists (rev l2), (rev l1). split.
      + rewrite <- (rev_involutive l), E, rev_app_distr. simpl. now rewrite <- app_assoc.
      + now rewrite mem_rev.
    - intros (l1 & l2 & -> & Hn). exists (rev l2), (rev l1). split.
      + rewrite rev_app_distr. simpl. now rewrite <- app_assoc.
      + now rewrite mem_rev.
  Qed.

  Lemma is_dedup_In kp inp o x : is_dedup kp inp o ->
    (In x o <-> match kp with KeepFirst => first_occ cmp x inp | KeepLast => last_occ cmp x inp end).
  Proof.
    intros [S F]. specialize (F x).
    assert (Q : In x o <-> find (eqb_of cmp x) o = Some x).
    { split; intros H.
      - exact (first_of_sorted L x x o S H (cmp_refl L x)).
      - now apply find_some in H as [? _]. }
    rewrite Q, F. destruct kp; [apply pick_first|apply pick_last].
  Qed.

  (** the aggregator's invariant: [inp] is what has been pushed so far *)
  Record sd_inv (kp : keep) (inp : list T) (s : sad (T := T)) : Prop := {
    si_keep : sd_keep s = kp;
    si_le : sd_sorted s <= length (sd_data s);
    si_sorted : sorted cmp (firstn (sd_sorted s) (sd_data s));
    si_pick : forall z, pick cmp kp z (sd_data s) = pick cmp kp z inp
  }.

  Lemma sd_init_inv kp : sd_inv kp [] (sd_init kp).
  Proof. constructor; cbn [sd_keep sd_data sd_sorted]; auto. apply sorted_nil. Qed.

  Lemma sd_compact_spec kp inp s :
    sd_inv kp inp s ->
    exists s', sd_compact cmp s = Some s' /\ sd_inv kp inp s' /\
               sd_sorted s' = length (sd_data s') /\ is_dedup kp inp (sd_data s').
  Proof.
    intros [Hk Hle Hs Hp]. unfold sd_compact.
    destruct (Nat.ltb_spec (sd_sorted s) (length (sd_data s))) as [Hlt|Hge].
    - destruct (dedup_by_spec (fun a b => eqb_of cmp a b) (sd_keep s) (sort_by cmp (sd_data s)))
        as (junk & E & P).
      rewrite E, firstn_app_exact. eexists. split; [reflexivity|].
      pose proof (compact_dedup kp (sd_data s)) as [D1 D2]. rewrite Hk.
      set (o := dk _ _ _) in *. simpl. split; [|split; [reflexivity|]].
      + constructor; cbn [sd_keep sd_data sd_sorted]; auto.
        * now rewrite firstn_all.
        * intros z. rewrite pick_sorted by assumption. rewrite D2. apply Hp.
      + split; [assumption|]. intros z. rewrite D2. apply Hp.
    - assert (E : sd_sorted s = length (sd_data s)) by lia.
      exists s. rewrite E, firstn_all in Hs. split; [reflexivity|].
      split; [constructor; auto; rewrite E, firstn_all; assumption|]. split; [assumption|].
      split; [assumption|]. intros z. rewrite <- pick_sorted with (kp := kp); auto.
  Qed.

  Lemma rev_last (l : list T) x r : rev l = x :: r -> l = rev r ++ [x].
  Proof. intros H. rewrite <- (rev_involutive l), H. reflexivity. Qed.

  Lemma firstn_app_le {X} n (l1 l2 : list X) : n <= length l1 -> firstn n (l1 ++ l2) = firstn n l1.
  Proof.
    intros H. rewrite firstn_app. replace (n - length l1) with 0 by lia. simpl. apply app_nil_r.
  Qed.

  Lemma sd_push_raw_inv kp inp s x :
    sd_inv kp inp s -> sd_inv kp (inp ++ [x]) (sd_push_raw cmp s x).
  Proof.
    intros [Hk Hle Hs Hp].
    assert (Hpush : forall z, pick cmp kp z (sd_data s ++ [x]) = pick cmp kp z (inp ++ [x]))
      by (intros z; rewrite !pick_app, Hp; reflexivity).
    assert (Hgen : sd_inv kp (inp ++ [x]) (MkSad (sd_data s ++ [x]) (sd_sorted s) (sd_keep s))).
    { constructor; cbn [sd_keep sd_data sd_sorted]; auto.
      - rewrite app_length. lia.
      - now rewrite firstn_app_le. }
    unfold sd_push_raw. destruct (Nat.eqb_spec (sd_sorted s) (length (sd_data s))) as [E|E];
      [|assumption].
    rewrite E, firstn_all in Hs.
    destruct (rev (sd_data s)) as [|lst fr] eqn:Er.
    - assert (Ed : sd_data s = []) by (rewrite <- (rev_involutive (sd_data s)), Er; reflexivity).
      constructor; cbn [sd_keep sd_data sd_sorted]; auto.
      + rewrite app_length. simpl. lia.
      + rewrite E, Ed. simpl. apply sorted_single.
    - apply rev_last in Er. pose proof Hs as Hs'. rewrite Er in Hs'.
      apply sorted_app in Hs' as (S1 & _ & S2).
      destruct (cmp lst x) eqn:Ex.
      + rewrite Hk. destruct kp.
        * constructor; auto.
          -- now rewrite E, firstn_all.
          -- intros z. rewrite pick_app. rewrite Hp.
             destruct (pick cmp KeepFirst z inp) eqn:Q; [reflexivity|].
             rewrite pick_single. destruct (eqb_of cmp z x) eqn:Qx; [|reflexivity].
             exfalso. rewrite <- Hp in Q. apply pick_None in Q. apply Q.
             exists lst. split; [rewrite Er; apply in_or_app; right; now left|].
             apply eqb_of_true. now rewrite (eqb_of_eq_r lst x z Ex).
        * constructor; cbn [sd_keep sd_data sd_sorted]; auto.
          -- rewrite E, Er, !app_length. simpl. lia.
          -- replace (sd_sorted s) with (length (rev fr ++ [x]))
               by (rewrite E, Er, !app_length; reflexivity).
             rewrite firstn_all. apply sorted_app. repeat split; auto using sorted_single.
             intros u v Hu [<-|[]]. rewrite <- (cmp_eq_r L _ _ u Ex). apply S2; auto. now left.
          -- intros z. rewrite <- Hpush, Er. rewrite <- app_assoc.
             rewrite !(pick_app KeepLast z (rev fr)).
             rewrite (pick_app KeepLast z [lst] [x]). rewrite !pick_single.
             rewrite (eqb_of_eq_r lst x z Ex). destruct (eqb_of cmp z x); reflexivity.
      + constructor; cbn [sd_keep sd_data sd_sorted]; auto.
        * rewrite app_length. simpl. lia.
        * replace (sd_sorted s + 1) with (length (sd_data s ++ [x]))
            by (rewrite app_length; simpl; lia).
          rewrite firstn_all. apply sorted_app. repeat split; auto using sorted_single.
          intros u v Hu [<-|[]]. rewrite Er in Hu. apply in_app_or in Hu as [Hu|[<-|[]]]; auto.
          apply (cmp_lt_trans L _ lst); auto. apply S2; auto. now left.
      + assumption.
  Qed.

  Lemma sd_push_spec kp inp s x :
    sd_inv kp inp s -> exists s', sd_push cmp s x = Some s' /\ sd_inv kp (inp ++ [x]) s'.
  Proof.
    intros H. pose proof (sd_push_raw_inv _ _ _ x H) as H1. unfold sd_push.
    destruct (16 <=? length (sd_data (sd_push_raw cmp s x))); [|eauto].
    destruct (sd_sorted (sd_push_raw cmp s x) <? _); [|eauto].
    destruct (sd_compact_spec _ _ _ H1) as (s' & E & I & _). eauto.
  Qed.

  Lemma sd_push_all_spec kp l : forall inp s,
    sd_inv kp inp s -> exists s', sd_push_all cmp s l = Some s' /\ sd_inv kp (inp ++ l) s'.
  Proof.
    induction l as [|x l IH]; intros inp s H; simpl.
    - exists s. rewrite app_nil_r. auto.
    - destruct (sd_push_spec _ _ _ x H) as (s1 & E1 & I1). rewrite E1.
      destruct (IH _ _ I1) as (s2 & E2 & I2). exists s2. split; auto.
      now rewrite <- app_assoc in I2.
  Qed.

  (** sort_dedup_by never panics and returns the deduplicated, sorted input *)
  Theorem sort_dedup_by_spec l kp :
    exists o, sort_dedup_by cmp l kp = Some o /\ is_dedup kp l o.
  Proof.
    unfold sort_dedup_by, sd_into_inner.
    destruct (sd_push_all_spec kp l [] (sd_init kp) (sd_init_inv kp)) as (s & E & I).
    rewrite E. destruct (sd_compact_spec _ _ _ I) as (s' & E' & _ & _ & D). rewrite E'.
    eauto.
  Qed.

  (** std's sort + dedup meets the same specification with KeepFirst *)
  Lemma std_sort_dedup l : is_dedup KeepFirst l (dedup (fun a b => eqb_of cmp a b) (sort_by cmp l)).
  Proof.
    split; [exact (sort_dedup_sorted L l)|]. intros z. exact (sort_dedup_first L z l).
  Qed.

  (** a strictly sorted list is its own deduplication *)
  Lemma is_dedup_sorted kp l : sorted cmp l -> is_dedup kp l l.
  Proof. intros H. split; auto. intros z. symmetry. now apply pick_sorted. Qed.

  (** *** storage bound *)
  Definition distinct (l : list T) : list T := dedup (fun a b => eqb_of cmp a b) (sort_by cmp l).

  (** A strictly sorted list with members among those of [l2] is no longer than sorted [l2]. *)
  Lemma sorted_incl_length l1 : forall l2,
    sorted cmp l1 -> sorted cmp l2 -> (forall z, mem cmp z l1 -> mem cmp z l2) ->
    length l1 <= length l2.
  Proof.
    induction l1 as [|x l1 IH]; intros l2 S1 S2 H; [simpl; lia|].
    apply sorted_cons_inv in S1 as [S1 Hx].
    assert (Hm : mem cmp x l2) by (apply H, mem_cons; left; apply (cmp_refl L)).
    destruct Hm as (y & Hy & E). apply in_split in Hy as (la & lb & ->).
    apply sorted_app in S2 as (Sa & Sb & Hab). pose proof Sb as Sb'.
    apply sorted_cons_inv in Sb' as [Sb' Hyb].
    specialize (IH (la ++ lb)). rewrite app_length in *. simpl in *.
    assert (Q : length l1 <= length la + length lb); [|lia].
    apply IH; auto.
    - apply sorted_app. split; [auto|split; [auto|]]. intros u v Hu Hv. apply Hab; auto; now right.
    - intros z Hz. assert (Hz' : mem cmp z (x :: l1)) by (apply mem_cons; auto).
      apply H in Hz'. apply mem_app in Hz' as [Q|Q]; [apply mem_app; auto|].
      apply mem_cons in Q as [Q|Q]; [|apply mem_app; auto].
      exfalso. destruct Hz as (w & Hw & Ew). apply Hx in Hw.
      rewrite <- (cmp_eq_r L _ _ x Ew), (cmp_eq_l L _ _ z E) in Hw.
      apply (cmp_sym L) in Q. congruence.
  Qed.

  Lemma sd_sorted_bound kp inp s : sd_inv kp inp s -> sd_sorted s <= length (distinct inp).
  Proof.
    intros [Hk Hle Hs Hp].
    replace (sd_sorted s) with (length (firstn (sd_sorted s) (sd_data s)))
      by (rewrite firstn_length; lia).
    apply sorted_incl_length; auto.
    - exact (sort_dedup_sorted L inp).
    - intros z Hz. apply (is_dedup_mem KeepFirst inp (distinct inp) z (std_sort_dedup inp)).
      assert (Hz' : mem cmp z (sd_data s)).
      { rewrite <- (firstn_skipn (sd_sorted s) (sd_data s)). apply mem_app. auto. }
      pose proof (pick_None kp z inp) as N1. pose proof (pick_None kp z (sd_data s)) as N2.
      rewrite Hp in N2. destruct (mem_dec (cmp := cmp) z inp); tauto.
  Qed.

  Definition sd_small (s : sad (T := T)) : Prop :=
    length (sd_data s) < 16 \/ length (sd_data s) <= 2 * sd_sorted s.

  Lemma sd_push_small kp inp s x s' :
    sd_inv kp inp s -> sd_push cmp s x = Some s' -> sd_small s'.
  Proof.
    intros H. pose proof (sd_push_raw_inv _ _ _ x H) as H1. unfold sd_push.
    destruct (Nat.leb_spec 16 (length (sd_data (sd_push_raw cmp s x)))) as [Q|Q].
    - destruct (Nat.ltb_spec (sd_sorted (sd_push_raw cmp s x))
        (length (sd_data (sd_push_raw cmp s x)) - sd_sorted (sd_push_raw cmp s x))) as [R|R].
      + destruct (sd_compact_spec _ _ _ H1) as (s2 & E & I & E2 & _). rewrite E.
        intros [= <-]. right. lia.
      + intros [= <-]. right. lia.
    - intros [= <-]. left. assumption.
  Qed.

  Lemma sd_push_raw_len s x : length (sd_data (sd_push_raw cmp s x)) <= S (length (sd_data s)).
  Proof.
    unfold sd_push_raw. destruct (sd_sorted s =? _).
    - destruct (rev (sd_data s)) as [|lst fr] eqn:Er.
      + simpl. rewrite app_length. simpl. lia.
      + apply rev_last in Er.
        destruct (cmp lst x); simpl; try (rewrite app_length; simpl; lia).
        destruct (sd_keep s); [lia|]. simpl. rewrite Er, !app_length. simpl. lia.
    - simpl. rewrite app_length. simpl. lia.
  Qed.

  Lemma sd_push_all_small kp l : forall inp s s',
    sd_inv kp inp s -> sd_small s -> sd_push_all cmp s l = Some s' -> sd_small s'.
  Proof.
    induction l as [|x l IH]; intros inp s s' H Hs; simpl.
    - intros [= <-]. assumption.
    - destruct (sd_push_spec _ _ _ x H) as (s1 & E1 & I1). rewrite E1. intros E.
      apply (IH (inp ++ [x]) s1 s' I1); [|exact E]. exact (sd_push_small kp inp s x s1 H E1).
  Qed.

  Theorem sd_storage kp l x s :
    sd_push_all cmp (sd_init kp) l = Some s ->
    length (sd_data s) <= Nat.max 16 (2 * length (distinct l) + 1) /\
    length (sd_data (sd_push_raw cmp s x)) <= Nat.max 16 (2 * length (distinct l) + 1).
  Proof.
    intros E.
    destruct (sd_push_all_spec kp l [] (sd_init kp) (sd_init_inv kp)) as (s2 & E2 & I).
    assert (s2 = s) as -> by congruence. simpl in I.
    assert (Hsm : sd_small s).
    { eapply sd_push_all_small; [apply sd_init_inv| |exact E]. left. simpl. lia. }
    pose proof (sd_sorted_bound _ _ _ I) as Hb.
    pose proof (sd_push_raw_len s x) as Hl.
    destruct Hsm as [Q|Q]; lia.
  Qed.
End SortDedup.
