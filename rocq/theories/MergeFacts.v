(** Any merge run is a run of a conforming schedule; results of pointwise operations. *)
From Verif Require Export Merge StdFacts.

(** ** Schedules *)
Inductive ev := EvA (n : nat) | EvB (n : nat) | EvC.

Section Run.
  Context {St A B : Type} (O : mop St A B).

  Definition step (e : ev) (s : St) : out St :=
    match e with
    | EvA n => mo_from_a O s n
    | EvB n => mo_from_b O s n
    | EvC => mo_coll O s
    end.

  Fixpoint run (evs : list ev) (s : St) : out St :=
    match evs with
    | [] => Cont s
    | e :: evs' => obind (step e s) (run evs')
    end.

  Lemma obind_assoc (o : out St) f g : obind (obind o f) g = obind o (fun s => obind (f s) g).
  Proof. destruct o; reflexivity. Qed.

  Lemma run_app e1 e2 s : run (e1 ++ e2) s = obind (run e1 s) (run e2).
  Proof.
    revert s. induction e1 as [|e e1 IH]; intros s; simpl; [reflexivity|].
    destruct (step e s); simpl; auto.
  Qed.

  (** The handlers consume what the algorithm asked them to consume. *)
  Record advancing : Prop := {
    ad_a : forall s n s', n <= length (mo_a O s) -> mo_from_a O s n = Cont s' ->
           mo_a O s' = skipn n (mo_a O s) /\ mo_b O s' = mo_b O s;
    ad_b : forall s n s', n <= length (mo_b O s) -> mo_from_b O s n = Cont s' ->
           mo_a O s' = mo_a O s /\ mo_b O s' = skipn n (mo_b O s);
    ad_c : forall s x a y b s', mo_a O s = x :: a -> mo_b O s = y :: b ->
           mo_coll O s = Cont s' -> mo_a O s' = a /\ mo_b O s' = b
  }.
End Run.

Section Sched.
  Context {K : Type} {kcmp : K -> K -> comparison} (L : OrdLaws kcmp).
  Context {A B : Type} (kA : A -> K) (kB : B -> K).

  (** A conforming schedule for merging [a] and [b]: every event consumes the next smallest keys. *)
  Inductive ok_sched : list A -> list B -> list ev -> Prop :=
  | ok_nil : ok_sched [] [] []
  | ok_A : forall a1 a2 b evs, a1 <> [] ->
      (forall x y, In x a1 -> In y b -> kcmp (kA x) (kB y) = Lt) ->
      ok_sched a2 b evs -> ok_sched (a1 ++ a2) b (EvA (length a1) :: evs)
  | ok_B : forall a b1 b2 evs, b1 <> [] ->
      (forall x y, In x a -> In y b1 -> kcmp (kA x) (kB y) = Gt) ->
      ok_sched a b2 evs -> ok_sched a (b1 ++ b2) (EvB (length b1) :: evs)
  | ok_C : forall x a y b evs, kcmp (kA x) (kB y) = Eq ->
      ok_sched a b evs -> ok_sched (x :: a) (y :: b) (EvC :: evs).

  Lemma ok_sched_app a1 b1 e1 a2 b2 e2 :
    ok_sched a1 b1 e1 -> ok_sched a2 b2 e2 ->
    (forall x y, In x a1 -> In y b2 -> kcmp (kA x) (kB y) = Lt) ->
    (forall x y, In x a2 -> In y b1 -> kcmp (kA x) (kB y) = Gt) ->
    ok_sched (a1 ++ a2) (b1 ++ b2) (e1 ++ e2).
  Proof.
    intros H H2. induction H as [|a0 a1 b evs Hne Hlt H IH|a b0 b1 evs Hne Hgt H IH|x a y b evs E H IH];
      intros Hab Hba; simpl.
    - assumption.
    - rewrite <- app_assoc. apply ok_A; auto.
      + intros x y Hx Hy. apply in_app_or in Hy as [Hy|Hy]; auto.
        apply Hab; auto. apply in_or_app; auto.
      + apply IH; auto. intros x y Hx Hy. apply Hab; auto. apply in_or_app; auto.
    - rewrite <- app_assoc. apply ok_B; auto.
      + intros x y Hx Hy. apply in_app_or in Hx as [Hx|Hx]; auto.
        apply Hba; auto. apply in_or_app; auto.
      + apply IH; auto. intros x y Hx Hy. apply Hba; auto. apply in_or_app; auto.
    - apply ok_C; auto. apply IH.
      + intros x' y' Hx Hy. apply Hab; auto. now right.
      + intros x' y' Hx Hy. apply Hba; auto. now right.
  Qed.

  Lemma ok_sched_all_a a : ok_sched a [] (match a with [] => [] | _ => [EvA (length a)] end).
  Proof.
    destruct a as [|x a]; [constructor|].
    rewrite <- (app_nil_r (x :: a)) at 1. apply ok_A; [discriminate| |constructor].
    intros ? ? _ [].
  Qed.

  Lemma ok_sched_all_b b : ok_sched [] b (match b with [] => [] | _ => [EvB (length b)] end).
  Proof.
    destruct b as [|x b]; [constructor|].
    rewrite <- (app_nil_r (x :: b)) at 1. apply ok_B; [discriminate| |constructor].
    intros ? ? [].
  Qed.

  Section WithOp.
    Context {St : Type} (O : mop St A B) (AD : advancing O).

    Lemma run_adv a1 b1 evs :
      ok_sched a1 b1 evs ->
      forall s s' a2 b2, mo_a O s = a1 ++ a2 -> mo_b O s = b1 ++ b2 ->
      run O evs s = Cont s' -> mo_a O s' = a2 /\ mo_b O s' = b2.
    Proof.
      induction 1 as [|a0 a1 b evs Hne Hlt H IH|a b0 b1 evs Hne Hgt H IH|x a y b evs E H IH];
        intros s s' a2 b2 Ha Hb Hr; simpl in Hr.
      - injection Hr as <-. auto.
      - destruct (mo_from_a O s (length a0)) as [s1|s1|s1|] eqn:E; simpl in Hr; try discriminate.
        apply (ad_a _ AD) in E as [E1 E2];
          [|rewrite Ha, !app_length; lia].
        eapply IH; [| |exact Hr].
        + rewrite E1, Ha, <- app_assoc, skipn_app_exact. reflexivity.
        + now rewrite E2.
      - destruct (mo_from_b O s (length b0)) as [s1|s1|s1|] eqn:E; simpl in Hr; try discriminate.
        apply (ad_b _ AD) in E as [E1 E2];
          [|rewrite Hb, !app_length; lia].
        eapply IH; [| |exact Hr].
        + now rewrite E1.
        + rewrite E2, Hb, <- app_assoc, skipn_app_exact. reflexivity.
      - destruct (mo_coll O s) as [s1|s1|s1|] eqn:E1; simpl in Hr; try discriminate.
        apply (ad_c _ AD _ x (a ++ a2) y (b ++ b2)) in E1 as [E1 E2]; auto.
        eapply IH; eauto.
    Qed.

    Definition cmp_agrees (a : list A) (b : list B) : Prop :=
      forall x y, In x a -> In y b -> mo_cmp O x y = Some (kcmp (kA x) (kB y)).

    Lemma obind_ext (o : out St) f g : (forall s, o = Cont s -> f s = g s) -> obind o f = obind o g.
    Proof. intros H. destruct o; simpl; auto. Qed.

    Lemma binary_merge_sched fuel a1 b1 :
      length a1 < fuel -> ksorted (cmp := kcmp) kA a1 -> ksorted (cmp := kcmp) kB b1 ->
      cmp_agrees a1 b1 ->
      exists evs, ok_sched a1 b1 evs /\
        forall s a2 b2, mo_a O s = a1 ++ a2 -> mo_b O s = b1 ++ b2 ->
        binary_merge O fuel s (length a1) (length b1) = run O evs s.
    Proof.
      revert a1 b1. induction fuel as [|fuel IH]; intros a1 b1 Hf Sa Sb HC; [lia|].
      destruct a1 as [|x0 a1'].
      { exists (match b1 with [] => [] | _ => [EvB (length b1)] end).
        split; [apply ok_sched_all_b|]. intros s a2 b2 Ha Hb. destruct b1; simpl; [reflexivity|].
        destruct (mo_from_b O s _); reflexivity. }
      destruct b1 as [|y0 b1'].
      { exists [EvA (length (x0 :: a1'))].
        split; [apply (ok_sched_all_a (x0 :: a1'))|]. intros s a2 b2 Ha Hb. simpl.
        destruct (mo_from_a O s _); reflexivity. }
      remember (x0 :: a1') as a1 eqn:Ea1. remember (y0 :: b1') as b1 eqn:Eb1.
      assert (Hla : 0 < length a1) by (subst; simpl; lia).
      assert (Hlb : 0 < length b1) by (subst; simpl; lia).
      clear Ea1 Eb1 x0 a1' y0 b1'.
      set (am := length a1 / 2) in *.
      assert (Ham : am < length a1) by (apply div2_lt; lia).
      destruct (nth_error_split_lt a1 am Ham) as [x Hx].
      destruct (nth_error_split a1 am Hx) as (al & ar & Ea & Hal).
      pose proof Sa as Sa'. rewrite Ea in Sa'.
      apply ksorted_app in Sa' as (Sal & Sxr & Halr).
      apply ksorted_cons in Sxr as [Sar Hxr].
      assert (Hxin : In x a1) by (rewrite Ea; apply in_or_app; right; now left).
      destruct (ksorted_split L kB (kA x) b1 Sb) as (bl & br & Hbl & Hbr & Hsplit).
      assert (Hlen : length a1 = am + S (length ar)) by (rewrite Ea, app_length; simpl; lia).
      destruct Hsplit as [Hb1|(y & Hb1 & Hy)].
      - (* not found *)
        pose proof Sb as Sb'. rewrite Hb1 in Sb'. apply ksorted_app in Sb' as (Sbl & Sbr & _).
        assert (HbIn1 : forall y, In y bl -> In y b1) by (intros; rewrite Hb1; apply in_or_app; auto).
        assert (HbIn2 : forall y, In y br -> In y b1) by (intros; rewrite Hb1; apply in_or_app; auto).
        assert (HaIn1 : forall y, In y al -> In y a1) by (intros; rewrite Ea; apply in_or_app; auto).
        assert (HaIn2 : forall y, In y ar -> In y a1)
          by (intros; rewrite Ea; apply in_or_app; right; right; auto).
        destruct (IH al bl) as (e1 & Ok1 & R1);
          [rewrite Hal; lia|auto|auto|intros u v Hu Hv; apply HC; auto|].
        destruct (IH ar br) as (e2 & Ok2 & R2);
          [lia|auto|auto|intros u v Hu Hv; apply HC; auto|].
        exists (e1 ++ EvA 1 :: e2). split.
        { rewrite Ea, Hb1. apply ok_sched_app; auto.
          - apply (ok_A [x] ar br e2); [discriminate| |assumption].
            intros u v [<-|[]] Hv. apply (cmp_lt_gt L). auto.
          - intros u v Hu Hv. apply (cmp_lt_trans L _ (kA x)).
            + apply Halr; auto. now left.
            + apply (cmp_lt_gt L). auto.
          - intros u v [<-|Hu] Hv; [apply (cmp_gt_lt L); auto|].
            apply (cmp_gt_lt L). apply (cmp_lt_trans L _ (kA x)); auto. }
        intros s a2 b2 Ha Hb. cbn [binary_merge].
        destruct (Nat.eqb_spec (length a1) 0); [lia|].
        destruct (Nat.eqb_spec (length b1) 0); [lia|].
        fold am. rewrite Ha, nth_error_app1 by assumption. rewrite Hx, Hb, firstn_app_exact.
        rewrite Hb1 at 1.
        rewrite (bsearch_err _ bl br).
        2:{ apply Forall_forall. intros v Hv. rewrite HC by auto. simpl.
            now rewrite <- (ord_opp L), (Hbl v Hv). }
        2:{ apply Forall_forall. intros v Hv. rewrite HC by auto. simpl.
            now rewrite <- (ord_opp L), (Hbr v Hv). }
        rewrite run_app. rewrite <- (R1 s (x :: ar ++ a2) (br ++ b2)).
        2:{ rewrite Ha, Ea, <- app_assoc. reflexivity. }
        2:{ rewrite Hb, Hb1, <- app_assoc. reflexivity. }
        rewrite Hal. apply obind_ext. intros s1 Hs1. simpl. apply obind_ext. intros s2 Hs2.
        assert (Hs1r : run O e1 s = Cont s1).
        { rewrite <- (R1 s (x :: ar ++ a2) (br ++ b2)), Hal; auto.
          - rewrite Ha, Ea, <- app_assoc. reflexivity.
          - rewrite Hb, Hb1, <- app_assoc. reflexivity. }
        destruct (run_adv _ _ _ Ok1 s s1 (x :: ar ++ a2) (br ++ b2)) as [Q1 Q2]; auto.
        { rewrite Ha, Ea, <- app_assoc. reflexivity. }
        { rewrite Hb, Hb1, <- app_assoc. reflexivity. }
        apply (ad_a _ AD) in Hs2 as [Q3 Q4]; [|rewrite Q1; simpl; lia].
        rewrite Q1 in Q3. simpl in Q3. rewrite Q2 in Q4.
        replace (length a1 - am - 1) with (length ar) by lia.
        replace (length b1 - length bl) with (length br) by (rewrite Hb1, app_length; lia).
        eapply R2; eauto.
      - (* found *)
        pose proof Sb as Sb'. rewrite Hb1 in Sb'. apply ksorted_app in Sb' as (Sbl & Sbr & _).
        apply ksorted_cons in Sbr as [Sbr _].
        assert (HbIn1 : forall y, In y bl -> In y b1) by (intros; rewrite Hb1; apply in_or_app; auto).
        assert (HbIn2 : forall y, In y br -> In y b1)
          by (intros; rewrite Hb1; apply in_or_app; right; right; auto).
        assert (HbIn3 : In y b1) by (rewrite Hb1; apply in_or_app; right; now left).
        assert (HaIn1 : forall y, In y al -> In y a1) by (intros; rewrite Ea; apply in_or_app; auto).
        assert (HaIn2 : forall y, In y ar -> In y a1)
          by (intros; rewrite Ea; apply in_or_app; right; right; auto).
        destruct (IH al bl) as (e1 & Ok1 & R1);
          [rewrite Hal; lia|auto|auto|intros u v Hu Hv; apply HC; auto|].
        destruct (IH ar br) as (e2 & Ok2 & R2);
          [lia|auto|auto|intros u v Hu Hv; apply HC; auto|].
        exists (e1 ++ EvC :: e2). split.
        { rewrite Ea, Hb1. apply ok_sched_app; auto.
          - apply ok_C; auto. now apply (cmp_sym L).
          - intros u v Hu [<-|Hv].
            + rewrite (cmp_eq_r L _ _ (kA u) Hy). apply Halr; auto. now left.
            + apply (cmp_lt_trans L _ (kA x)).
              * apply Halr; auto. now left.
              * apply (cmp_lt_gt L). auto.
          - intros u v [<-|Hu] Hv; [apply (cmp_gt_lt L); auto|].
            apply (cmp_gt_lt L). apply (cmp_lt_trans L _ (kA x)); auto. }
        intros s a2 b2 Ha Hb. cbn [binary_merge].
        destruct (Nat.eqb_spec (length a1) 0); [lia|].
        destruct (Nat.eqb_spec (length b1) 0); [lia|].
        fold am. rewrite Ha, nth_error_app1 by assumption. rewrite Hx, Hb, firstn_app_exact.
        rewrite Hb1 at 1.
        rewrite (bsearch_ok _ bl y br).
        2:{ apply Forall_forall. intros v Hv. rewrite HC by auto. simpl.
            now rewrite <- (ord_opp L), (Hbl v Hv). }
        2:{ apply Forall_forall. intros v Hv. rewrite HC by auto. simpl.
            now rewrite <- (ord_opp L), (Hbr v Hv). }
        2:{ rewrite HC by auto. simpl. now rewrite <- (ord_opp L), Hy. }
        rewrite run_app. rewrite <- (R1 s (x :: ar ++ a2) (y :: br ++ b2)).
        2:{ rewrite Ha, Ea, <- app_assoc. reflexivity. }
        2:{ rewrite Hb, Hb1, <- app_assoc. reflexivity. }
        rewrite Hal. apply obind_ext. intros s1 Hs1. simpl. apply obind_ext. intros s2 Hs2.
        assert (Hs1r : run O e1 s = Cont s1).
        { rewrite <- (R1 s (x :: ar ++ a2) (y :: br ++ b2)), Hal; auto.
          - rewrite Ha, Ea, <- app_assoc. reflexivity.
          - rewrite Hb, Hb1, <- app_assoc. reflexivity. }
        destruct (run_adv _ _ _ Ok1 s s1 (x :: ar ++ a2) (y :: br ++ b2)) as [Q1 Q2]; auto.
        { rewrite Ha, Ea, <- app_assoc. reflexivity. }
        { rewrite Hb, Hb1, <- app_assoc. reflexivity. }
        destruct (ad_c _ AD _ _ _ _ _ _ Q1 Q2 Hs2) as [Q3 Q4].
        replace (length a1 - am - 1) with (length ar) by lia.
        replace (length b1 - length bl - 1) with (length br)
          by (rewrite Hb1, app_length; simpl; lia).
        eapply R2; eauto.
    Qed.

    Lemma tape_merge_sched fuel a b :
      length a + length b < fuel -> ksorted (cmp := kcmp) kA a -> ksorted (cmp := kcmp) kB b ->
      cmp_agrees a b ->
      exists evs, ok_sched a b evs /\
        forall s, mo_a O s = a -> mo_b O s = b -> tape_merge O fuel s = run O evs s.
    Proof.
      revert a b. induction fuel as [|fuel IH]; intros a b Hf Sa Sb HC; [lia|].
      destruct a as [|x a].
      { exists (match b with [] => [] | _ => [EvB (length b)] end).
        split; [apply ok_sched_all_b|]. intros s Ha Hb. cbn [tape_merge]. rewrite Ha, Hb.
        destruct b; simpl; [reflexivity|]. destruct (mo_from_b O s _); reflexivity. }
      destruct b as [|y b].
      { exists [EvA (length (x :: a))].
        split; [apply (ok_sched_all_a (x :: a))|]. intros s Ha Hb. cbn [tape_merge].
        rewrite Ha, Hb. simpl. destruct (mo_from_a O s _); reflexivity. }
      pose proof Sa as Sa'. pose proof Sb as Sb'.
      apply ksorted_cons in Sa' as [Sa2 Hxa]. apply ksorted_cons in Sb' as [Sb2 Hyb].
      simpl in Hf. pose proof (HC x y (or_introl eq_refl) (or_introl eq_refl)) as Hc.
      destruct (kcmp (kA x) (kB y)) eqn:E.
      - destruct (IH a b) as (evs & Ok & R); [lia|auto|auto|intros u v Hu Hv; apply HC; now right|].
        exists (EvC :: evs). split; [now apply ok_C|]. intros s Ha Hb.
        cbn [tape_merge]. rewrite Ha, Hb, Hc. cbn [run step]. apply obind_ext. intros s1 Hs1.
        destruct (ad_c _ AD _ _ _ _ _ _ Ha Hb Hs1) as [Q1 Q2]. now apply R.
      - destruct (IH a (y :: b)) as (evs & Ok & R);
          [simpl; lia|auto|auto|intros u v Hu Hv; apply HC; auto; now right|].
        exists (EvA 1 :: evs). split.
        { apply (ok_A [x] a (y :: b) evs); [discriminate| |assumption].
          intros u v [<-|[]] [<-|Hv]; auto. apply (cmp_lt_trans L _ (kB y)); auto. }
        intros s Ha Hb. cbn [tape_merge]. rewrite Ha, Hb, Hc. cbn [run step].
        apply obind_ext. intros s1 Hs1.
        apply (ad_a _ AD) in Hs1 as [Q1 Q2]; [|rewrite Ha; simpl; lia].
        rewrite Ha in Q1. rewrite Hb in Q2. now apply R.
      - destruct (IH (x :: a) b) as (evs & Ok & R);
          [simpl; lia|auto|auto|intros u v Hu Hv; apply HC; auto; now right|].
        exists (EvB 1 :: evs). split.
        { apply (ok_B (x :: a) [y] b evs); [discriminate| |assumption].
          intros u v [<-|Hu] [<-|[]]; auto. apply (cmp_gt_lt L). apply (cmp_gt_lt L) in E.
          apply (cmp_lt_trans L _ (kA x)); auto. }
        intros s Ha Hb. cbn [tape_merge]. rewrite Ha, Hb, Hc. cbn [run step].
        apply obind_ext. intros s1 Hs1.
        apply (ad_b _ AD) in Hs1 as [Q1 Q2]; [|rewrite Hb; simpl; lia].
        rewrite Ha in Q1. rewrite Hb in Q2. now apply R.
    Qed.

    (** Every run of [merge], with any strategy, is a run of a conforming schedule. *)
    Theorem merge_sched strat s :
      ksorted (cmp := kcmp) kA (mo_a O s) -> ksorted (cmp := kcmp) kB (mo_b O s) ->
      cmp_agrees (mo_a O s) (mo_b O s) ->
      exists evs, ok_sched (mo_a O s) (mo_b O s) evs /\ merge O strat s = run O evs s.
    Proof.
      intros Sa Sb HC. unfold merge.
      destruct (strat (length (mo_a O s)) (length (mo_b O s))).
      - destruct (tape_merge_sched (S (length (mo_a O s) + length (mo_b O s))) (mo_a O s) (mo_b O s))
          as (evs & Ok & R); auto. eauto.
      - destruct (binary_merge_sched (S (length (mo_a O s))) (mo_a O s) (mo_b O s))
          as (evs & Ok & R); auto. exists evs. split; auto.
        apply (R s [] []); now rewrite app_nil_r.
    Qed.
  End WithOp.

  (** ** The reference merge *)
  Definition o2l {X} (o : option X) : list X := match o with Some x => [x] | None => [] end.
  Definition omap {X Y} (h : X -> option Y) (l : list X) : list Y := flat_map (fun x => o2l (h x)) l.

  Lemma omap_app {X Y} (h : X -> option Y) l1 l2 : omap h (l1 ++ l2) = omap h l1 ++ omap h l2.
  Proof. apply flat_map_app. Qed.

  Lemma omap_In {X Y} (h : X -> option Y) l y : In y (omap h l) <-> exists x, In x l /\ h x = Some y.
  Proof.
    unfold omap. rewrite in_flat_map. split; intros (x & H & E); exists x; split; auto.
    - destruct (h x); simpl in E; [destruct E as [->|[]]; auto|destruct E].
    - rewrite E. now left.
  Qed.

  Section Ref.
    Context {R : Type} (ha : A -> option R) (hb : B -> option R) (hc : A -> B -> option R).

    Fixpoint tape_ref (a : list A) : list B -> list R :=
      match a with
      | [] => fun b => omap hb b
      | x :: a' =>
          fix go (b : list B) : list R :=
            match b with
            | [] => omap ha (x :: a')
            | y :: b' =>
                match kcmp (kA x) (kB y) with
                | Lt => o2l (ha x) ++ tape_ref a' b
                | Gt => o2l (hb y) ++ go b'
                | Eq => o2l (hc x y) ++ tape_ref a' b'
                end
            end
      end.

    Lemma tape_ref_nil_r a : tape_ref a [] = omap ha a.
    Proof. destruct a; reflexivity. Qed.

    Lemma tape_ref_cons x a y b :
      tape_ref (x :: a) (y :: b) =
      match kcmp (kA x) (kB y) with
      | Lt => o2l (ha x) ++ tape_ref a (y :: b)
      | Gt => o2l (hb y) ++ tape_ref (x :: a) b
      | Eq => o2l (hc x y) ++ tape_ref a b
      end.
    Proof. reflexivity. Qed.

    Lemma tape_ref_app_a a1 a2 b :
      (forall x y, In x a1 -> In y b -> kcmp (kA x) (kB y) = Lt) ->
      tape_ref (a1 ++ a2) b = omap ha a1 ++ tape_ref a2 b.
    Proof.
      induction a1 as [|x a1 IH]; intros H; [reflexivity|].
      rewrite <- app_comm_cons. destruct b as [|y b].
      - rewrite !tape_ref_nil_r, app_comm_cons. apply omap_app.
      - rewrite tape_ref_cons, (H x y) by now left.
        rewrite IH by (intros; apply H; auto; now right).
        simpl. now rewrite app_assoc.
    Qed.

    Lemma tape_ref_app_b a b1 b2 :
      (forall x y, In x a -> In y b1 -> kcmp (kA x) (kB y) = Gt) ->
      tape_ref a (b1 ++ b2) = omap hb b1 ++ tape_ref a b2.
    Proof.
      induction b1 as [|y b1 IH]; intros H; [reflexivity|].
      rewrite <- app_comm_cons. destruct a as [|x a].
      - simpl. rewrite omap_app. now rewrite app_assoc.
      - rewrite tape_ref_cons, (H x y) by now left.
        rewrite IH by (intros; apply H; auto; now right).
        simpl. now rewrite app_assoc.
    Qed.

    (** [O] acts pointwise on states whose slices lie in a0, b0. *)
    Record pointwise {St} (O : mop St A B) (tgt : St -> list R) (a0 : list A) (b0 : list B) : Prop := {
      pw_a : forall s n, incl (mo_a O s) a0 -> incl (mo_b O s) b0 -> n <= length (mo_a O s) ->
        exists s', mo_from_a O s n = Cont s' /\ tgt s' = tgt s ++ omap ha (firstn n (mo_a O s));
      pw_b : forall s n, incl (mo_a O s) a0 -> incl (mo_b O s) b0 -> n <= length (mo_b O s) ->
        exists s', mo_from_b O s n = Cont s' /\ tgt s' = tgt s ++ omap hb (firstn n (mo_b O s));
      pw_c : forall s x a y b, incl (mo_a O s) a0 -> incl (mo_b O s) b0 ->
        mo_a O s = x :: a -> mo_b O s = y :: b -> kcmp (kA x) (kB y) = Eq ->
        exists s', mo_coll O s = Cont s' /\ tgt s' = tgt s ++ o2l (hc x y)
    }.

    Lemma run_pointwise {St} (O : mop St A B) tgt a0 b0 (AD : advancing O)
          (PW : pointwise O tgt a0 b0) a b evs :
      ok_sched a b evs -> incl a a0 -> incl b b0 ->
      forall s, mo_a O s = a -> mo_b O s = b ->
      exists s', run O evs s = Cont s' /\ tgt s' = tgt s ++ tape_ref a b /\
                 mo_a O s' = [] /\ mo_b O s' = [].
    Proof.
      induction 1 as [|a0' a1 b evs Hne Hlt H IH|a b0' b1 evs Hne Hgt H IH|x a y b evs E H IH];
        intros Ia Ib s Ha Hb; cbn [run step obind].
      - exists s. cbn. rewrite app_nil_r. auto.
      - destruct (pw_a _ _ _ _ PW s (length a0')) as (s1 & E1 & T1);
          [now rewrite Ha|now rewrite Hb|rewrite Ha, app_length; lia|].
        rewrite E1. cbn [run step obind]. pose proof E1 as E1'.
        apply (ad_a _ AD) in E1' as [Q1 Q2]; [|rewrite Ha, app_length; lia].
        rewrite Ha, skipn_app_exact in Q1. rewrite Hb in Q2.
        destruct (IH (fun z Hz => Ia z (in_or_app _ _ _ (or_intror Hz))) Ib s1 Q1 Q2)
          as (s' & Es & Et & Fa & Fb).
        exists s'. repeat split; auto. rewrite Et, T1, Ha, firstn_app_exact, tape_ref_app_a by auto.
        now rewrite app_assoc.
      - destruct (pw_b _ _ _ _ PW s (length b0')) as (s1 & E1 & T1);
          [now rewrite Ha|now rewrite Hb|rewrite Hb, app_length; lia|].
        rewrite E1. cbn [run step obind]. pose proof E1 as E1'.
        apply (ad_b _ AD) in E1' as [Q1 Q2]; [|rewrite Hb, app_length; lia].
        rewrite Hb, skipn_app_exact in Q2. rewrite Ha in Q1.
        destruct (IH Ia (fun z Hz => Ib z (in_or_app _ _ _ (or_intror Hz))) s1 Q1 Q2)
          as (s' & Es & Et & Fa & Fb).
        exists s'. repeat split; auto. rewrite Et, T1, Hb, firstn_app_exact, tape_ref_app_b by auto.
        now rewrite app_assoc.
      - destruct (pw_c _ _ _ _ PW s x a y b) as (s1 & E1 & T1);
          [now rewrite Ha|now rewrite Hb|auto|auto|auto|].
        rewrite E1. cbn [run step obind]. destruct (ad_c _ AD _ _ _ _ _ _ Ha Hb E1) as [Q1 Q2].
        destruct (IH (fun z Hz => Ia z (or_intror Hz)) (fun z Hz => Ib z (or_intror Hz)) s1 Q1 Q2)
          as (s' & Es & Et & Fa & Fb).
        exists s'. repeat split; auto. rewrite Et, T1, tape_ref_cons, E. now rewrite app_assoc.
    Qed.

    Theorem merge_pointwise {St} (O : mop St A B) tgt (AD : advancing O) strat s
      (PW : pointwise O tgt (mo_a O s) (mo_b O s)) :
      ksorted (cmp := kcmp) kA (mo_a O s) -> ksorted (cmp := kcmp) kB (mo_b O s) ->
      cmp_agrees O (mo_a O s) (mo_b O s) ->
      exists s', merge O strat s = Cont s' /\ tgt s' = tgt s ++ tape_ref (mo_a O s) (mo_b O s) /\
                 mo_a O s' = [] /\ mo_b O s' = [].
    Proof.
      intros Sa Sb HC. destruct (merge_sched O AD strat s Sa Sb HC) as (evs & Ok & E).
      rewrite E. eapply run_pointwise; eauto using incl_refl.
    Qed.

    (** *** Elements of the reference merge *)
    Lemma tape_ref_In a b r :
      ksorted (cmp := kcmp) kA a -> ksorted (cmp := kcmp) kB b ->
      (In r (tape_ref a b) <->
        (exists x, In x a /\ (forall y, In y b -> kcmp (kA x) (kB y) <> Eq) /\ ha x = Some r) \/
        (exists y, In y b /\ (forall x, In x a -> kcmp (kA x) (kB y) <> Eq) /\ hb y = Some r) \/
        (exists x y, In x a /\ In y b /\ kcmp (kA x) (kB y) = Eq /\ hc x y = Some r)).
    Proof.
      revert b. induction a as [|x a IHa]; intros b Sa Sb.
      { simpl. rewrite omap_In. split.
        - intros (y & Hy & E). right. left. exists y. repeat split; auto.
        - intros [(x & [] & _)|[(y & Hy & _ & E)|(x & y & [] & _)]]. exists y. auto. }
      induction b as [|y b IHb].
      { rewrite tape_ref_nil_r, omap_In. split.
        - intros (z & Hz & E). left. exists z. repeat split; auto.
        - intros [(z & Hz & _ & E)|[(y & [] & _)|(x' & y & _ & [] & _)]]. exists z. auto. }
      pose proof Sa as Sa'. pose proof Sb as Sb'.
      apply ksorted_cons in Sa' as [Sa2 Hxa]. apply ksorted_cons in Sb' as [Sb2 Hyb].
      rewrite tape_ref_cons. destruct (kcmp (kA x) (kB y)) eqn:E.
      - (* Eq *)
        rewrite in_app_iff, IHa by auto.
        assert (Hxb : forall y', In y' b -> kcmp (kA x) (kB y') = Lt)
          by (intros; rewrite (cmp_eq_l L _ _ _ E); auto).
        assert (Hay : forall x', In x' a -> kcmp (kA x') (kB y) = Gt)
          by (intros; rewrite <- (cmp_eq_r L _ _ _ E); apply (cmp_gt_lt L); auto).
        assert (Hh : In r (o2l (hc x y)) <-> hc x y = Some r).
        { destruct (hc x y) as [r0|]; simpl; split; intros Q; try tauto; try discriminate.
          - destruct Q as [->|[]]; auto. - injection Q as ->; auto. }
        rewrite Hh. split.
        + intros [Q|[(u & Hu & Hn & Hr)|[(v & Hv & Hn & Hr)|(u & v & Hu & Hv & Huv & Hr)]]].
          * right. right. exists x, y. simpl. auto.
          * left. exists u. repeat split; auto; [now right|].
            intros v [<-|Hv]; auto. rewrite Hay by auto. discriminate.
          * right. left. exists v. repeat split; auto; [now right|].
            intros u [<-|Hu]; auto. rewrite Hxb by auto. discriminate.
          * right. right. exists u, v. simpl. auto.
        + intros [(u & [<-|Hu] & Hn & Hr)|[(v & [<-|Hv] & Hn & Hr)|
                  (u & v & [<-|Hu] & [<-|Hv] & Huv & Hr)]].
          * exfalso. apply (Hn y); auto. now left.
          * right. left. exists u. repeat split; auto. intros v Hv. apply Hn. now right.
          * exfalso. apply (Hn x); auto. now left.
          * right. right. left. exists v. repeat split; auto. intros u Hu. apply Hn. now right.
          * now left.
          * rewrite Hxb in Huv by auto. discriminate.
          * rewrite Hay in Huv by auto. discriminate.
          * right. right. right. exists u, v. auto.
      - (* Lt *)
        rewrite in_app_iff, IHa by auto.
        assert (Hxb : forall y', In y' (y :: b) -> kcmp (kA x) (kB y') = Lt)
          by (intros y' [<-|Hy']; auto; apply (cmp_lt_trans L _ (kB y)); auto).
        assert (Hh : In r (o2l (ha x)) <-> ha x = Some r).
        { destruct (ha x) as [r0|]; simpl; split; intros Q; try tauto; try discriminate.
          - destruct Q as [->|[]]; auto. - injection Q as ->; auto. }
        rewrite Hh. split.
        + intros [Q|[(u & Hu & Hn & Hr)|[(v & Hv & Hn & Hr)|(u & v & Hu & Hv & Huv & Hr)]]].
          * left. exists x. repeat split; auto; [now left|].
            intros v Hv. rewrite Hxb by auto. discriminate.
          * left. exists u. repeat split; auto. now right.
          * right. left. exists v. repeat split; auto.
            intros u [<-|Hu]; auto. rewrite Hxb by auto. discriminate.
          * right. right. exists u, v. repeat split; auto. now right.
        + intros [(u & [<-|Hu] & Hn & Hr)|[(v & Hv & Hn & Hr)|(u & v & [<-|Hu] & Hv & Huv & Hr)]].
          * now left.
          * right. left. exists u. auto.
          * right. right. left. exists v. repeat split; auto. intros u Hu. apply Hn. now right.
          * rewrite Hxb in Huv by auto. discriminate.
          * right. right. right. exists u, v. auto.
      - (* Gt *)
        rewrite in_app_iff, IHb by auto.
        assert (Hay : forall x', In x' (x :: a) -> kcmp (kA x') (kB y) = Gt).
        { intros x' [<-|Hx']; auto. apply (cmp_gt_lt L). apply (cmp_gt_lt L) in E.
          apply (cmp_lt_trans L _ (kA x)); auto. }
        assert (Hh : In r (o2l (hb y)) <-> hb y = Some r).
        { destruct (hb y) as [r0|]; simpl; split; intros Q; try tauto; try discriminate.
          - destruct Q as [->|[]]; auto. - injection Q as ->; auto. }
        rewrite Hh. split.
        + intros [Q|[(u & Hu & Hn & Hr)|[(v & Hv & Hn & Hr)|(u & v & Hu & Hv & Huv & Hr)]]].
          * right. left. exists y. repeat split; auto; [now left|].
            intros v Hv. rewrite Hay by auto. discriminate.
          * left. exists u. repeat split; auto. intros v [<-|Hv]; auto.
            rewrite Hay by auto. discriminate.
          * right. left. exists v. repeat split; auto. now right.
          * right. right. exists u, v. repeat split; auto. now right.
        + intros [(u & Hu & Hn & Hr)|[(v & [<-|Hv] & Hn & Hr)|(u & v & Hu & [<-|Hv] & Huv & Hr)]].
          * right. left. exists u. repeat split; auto. intros v Hv. apply Hn. now right.
          * now left.
          * right. right. left. exists v. auto.
          * rewrite Hay in Huv by auto. discriminate.
          * right. right. right. exists u, v. auto.
    Qed.

    (** *** Sortedness of the reference merge *)
    Section Sorted.
      Context (kR : R -> K).
      Context (ka : forall x r, ha x = Some r -> kcmp (kR r) (kA x) = Eq).
      Context (kb : forall y r, hb y = Some r -> kcmp (kR r) (kB y) = Eq).
      Context (kc : forall x y r, kcmp (kA x) (kB y) = Eq -> hc x y = Some r ->
                                  kcmp (kR r) (kA x) = Eq).

      Lemma omap_sorted {X} (h : X -> option R) (kX : X -> K) l :
        (forall x r, h x = Some r -> kcmp (kR r) (kX x) = Eq) ->
        ksorted (cmp := kcmp) kX l -> ksorted (cmp := kcmp) kR (omap h l).
      Proof.
        intros Hk. induction l as [|x l IH]; intros S; [apply ksorted_nil|].
        apply ksorted_cons in S as [S Hx]. simpl. destruct (h x) as [r|] eqn:E; simpl; auto.
        apply ksorted_cons. split; auto. intros r' Hr'.
        apply omap_In in Hr' as (x' & Hx' & E').
        rewrite (cmp_eq_l L _ _ _ (Hk _ _ E)), (cmp_eq_r L _ _ _ (Hk _ _ E')). auto.
      Qed.

      (** every result key is the key of some input *)
      Lemma tape_ref_keys a b r :
        In r (tape_ref a b) ->
        (exists x, In x a /\ kcmp (kR r) (kA x) = Eq) \/ (exists y, In y b /\ kcmp (kR r) (kB y) = Eq).
      Proof.
        revert b. induction a as [|x a IHa]; intros b.
        { simpl. rewrite omap_In. intros (y & Hy & E). right. exists y. eauto. }
        induction b as [|y b IHb].
        { rewrite tape_ref_nil_r, omap_In. intros (y & Hy & E). left. exists y. eauto. }
        rewrite tape_ref_cons. destruct (kcmp (kA x) (kB y)) eqn:E; rewrite in_app_iff.
        - intros [Q|Q].
          + destruct (hc x y) as [r0|] eqn:E2; [|destruct Q]. destruct Q as [<-|[]].
            left. exists x. split; [now left|eauto].
          + destruct (IHa _ Q) as [(u & Hu & Eu)|(v & Hv & Ev)];
              [left; exists u|right; exists v]; simpl; auto.
        - intros [Q|Q].
          + destruct (ha x) as [r0|] eqn:E2; [|destruct Q]. destruct Q as [<-|[]].
            left. exists x. split; [now left|eauto].
          + destruct (IHa _ Q) as [(u & Hu & Eu)|(v & Hv & Ev)];
              [left; exists u|right; exists v]; simpl; auto.
        - intros [Q|Q].
          + destruct (hb y) as [r0|] eqn:E2; [|destruct Q]. destruct Q as [<-|[]].
            right. exists y. split; [now left|eauto].
          + destruct (IHb Q) as [(u & Hu & Eu)|(v & Hv & Ev)];
              [left; exists u|right; exists v]; simpl; auto.
      Qed.

      Lemma tape_ref_sorted a b :
        ksorted (cmp := kcmp) kA a -> ksorted (cmp := kcmp) kB b ->
        ksorted (cmp := kcmp) kR (tape_ref a b).
      Proof.
        assert (Hcons : forall (o : option R) k l,
          (forall r, o = Some r -> kcmp (kR r) k = Eq) ->
          ksorted (cmp := kcmp) kR l -> (forall r, In r l -> kcmp k (kR r) = Lt) ->
          ksorted (cmp := kcmp) kR (o2l o ++ l)).
        { intros [r|] k l Ho Sl Hl; simpl; auto. apply ksorted_cons. split; auto.
          intros r' Hr'. rewrite (cmp_eq_l L _ _ _ (Ho r eq_refl)). auto. }
        revert b. induction a as [|x a IHa]; intros b Sa Sb.
        { simpl. eapply omap_sorted; eauto. }
        induction b as [|y b IHb].
        { rewrite tape_ref_nil_r. eapply omap_sorted; eauto. }
        pose proof Sa as Sa'. pose proof Sb as Sb'.
        apply ksorted_cons in Sa' as [Sa2 Hxa]. apply ksorted_cons in Sb' as [Sb2 Hyb].
        rewrite tape_ref_cons. destruct (kcmp (kA x) (kB y)) eqn:E.
        - apply (Hcons _ (kA x)); eauto. intros r Hr.
          apply tape_ref_keys in Hr as [(u & Hu & Eu)|(v & Hv & Ev)].
          + rewrite (cmp_eq_r L _ _ _ Eu). auto.
          + rewrite (cmp_eq_r L _ _ _ Ev), (cmp_eq_l L _ _ _ E). auto.
        - apply (Hcons _ (kA x)); eauto. intros r Hr.
          apply tape_ref_keys in Hr as [(u & Hu & Eu)|(v & [<-|Hv] & Ev)].
          + rewrite (cmp_eq_r L _ _ _ Eu). auto.
          + rewrite (cmp_eq_r L _ _ _ Ev). auto.
          + rewrite (cmp_eq_r L _ _ _ Ev). apply (cmp_lt_trans L _ (kB y)); auto.
        - apply (cmp_gt_lt L) in E. apply (Hcons _ (kB y)); eauto. intros r Hr.
          apply tape_ref_keys in Hr as [(u & [<-|Hu] & Eu)|(v & Hv & Ev)].
          + rewrite (cmp_eq_r L _ _ _ Eu). auto.
          + rewrite (cmp_eq_r L _ _ _ Eu). apply (cmp_lt_trans L _ (kA x)); auto.
          + rewrite (cmp_eq_r L _ _ _ Ev). auto.
      Qed.
    End Sorted.
  End Ref.
End Sched.
