(** The operations of VecUserModel.v when the comparison answers like an order: what the result has for each key. *)
From Verif Require Export VecUserFacts VecMapSpec.

Section Points.
  Context {C : Type} {kcmp : C -> C -> comparison} (L : OrdLaws kcmp).
  Context {A B R : Type} (kA : A -> C) (kB : B -> C) (kR : R -> C).
  Context (FA : A -> option R -> Prop) (FB : B -> option R -> Prop) (FC : A -> B -> option R -> Prop).
  Definition lawful_a (x : A) (b : list B) (o : option R) : Prop := FA x o /\ forall y, In y b -> kcmp (kA x) (kB y) = Lt.
  Definition lawful_b (y : B) (a : list A) (o : option R) : Prop := FB y o /\ forall x, In x a -> kcmp (kA x) (kB y) = Gt.
  Definition lawful_c (x : A) (y : B) (o : option R) : Prop := kcmp (kA x) (kB y) = Eq /\ FC x y o.
  Notation W := (woven lawful_a lawful_b lawful_c).
  Notation point := (VecUserSpec.point FA FB FC).
  Context (HA : forall x z, FA x (Some z) -> kcmp (kR z) (kA x) = Eq) (HB : forall y z, FB y (Some z) -> kcmp (kR z) (kB y) = Eq).
  Context (HC : forall x y z, FC x y (Some z) -> kcmp (kR z) (kA x) = Eq).
  Notation fa := (kfind kcmp kA). Notation fb := (kfind kcmp kB). Notation fr := (kfind kcmp kR).
  Lemma kfind_cons {X} (kX : X -> C) k x l : kfind kcmp kX k (x :: l) = if eqb_of kcmp k (kX x) then Some x else kfind kcmp kX k l.
  Proof using. reflexivity. Qed.
  Lemma eqb_eq k c : eqb_of kcmp k c = true <-> kcmp k c = Eq.
  Proof using. unfold eqb_of. destruct (kcmp k c); split; congruence. Qed.
  Lemma eqb_no k c : kcmp k c <> Eq -> eqb_of kcmp k c = false.
  Proof using. unfold eqb_of. destruct (kcmp k c); congruence. Qed.
  Lemma kfind_above {X} (kX : X -> C) k l : (forall x, In x l -> kcmp k (kX x) = Lt) -> kfind kcmp kX k l = None.
  Proof using. intros H. apply kfind_None. intros x Hx E. rewrite (H x Hx) in E. discriminate. Qed.
  Lemma kfind_olist k c o r : (forall z, o = Some z -> kcmp (kR z) c = Eq) -> (forall z, In z r -> kcmp c (kR z) = Lt) ->
    fr k (olist o ++ r) = if eqb_of kcmp k c then o else fr k r.
  Proof using L.
    intros Ho Hr. assert (Habove : kcmp k c = Eq -> fr k r = None).
    { intros E. apply kfind_above. intros z Hz. rewrite (cmp_eq_l L _ _ _ E). auto. }
    destruct o as [z|]; cbn [olist app].
    - rewrite kfind_cons. specialize (Ho z eq_refl). destruct (eqb_of kcmp k (kR z)) eqn:Q.
      + apply eqb_eq in Q. replace (eqb_of kcmp k c) with true; [reflexivity|]. symmetry. apply eqb_eq.
        rewrite (cmp_eq_l L _ _ _ Q). exact Ho.
      + rewrite eqb_no; [reflexivity|]. intros E. assert (eqb_of kcmp k (kR z) = true); [|congruence]. apply eqb_eq.
        rewrite (cmp_eq_l L _ _ _ E). now apply (cmp_sym L).
    - destruct (eqb_of kcmp k c) eqn:Q; [|reflexivity]. apply eqb_eq in Q. auto.
  Qed.
  Lemma ksorted_olist c o r : (forall z, o = Some z -> kcmp (kR z) c = Eq) -> (forall z, In z r -> kcmp c (kR z) = Lt) ->
    ksorted (cmp := kcmp) kR r -> ksorted (cmp := kcmp) kR (olist o ++ r).
  Proof using L.
    intros Ho Hr Sr. destruct o as [z|]; [|exact Sr]. cbn [olist app]. apply ksorted_cons. split; [exact Sr|].
    intros z' Hz'. rewrite (cmp_eq_l L _ _ _ (Ho z eq_refl)). auto.
  Qed.

  Lemma woven_points a b r a' b' : W a b r a' b' -> ksorted (cmp := kcmp) kA a -> ksorted (cmp := kcmp) kB b ->
    exists a1 b1, a = a1 ++ a' /\ b = b1 ++ b' /\ ksorted (cmp := kcmp) kR r /\
      (forall x y, In x a1 -> In y b' -> kcmp (kA x) (kB y) = Lt) /\ (forall x y, In x a' -> In y b1 -> kcmp (kA x) (kB y) = Gt) /\
      (forall k, point (fa k a1) (fb k b1) (fr k r)) /\
      (forall z, In z r -> (exists x, In x a1 /\ kcmp (kR z) (kA x) = Eq) \/ (exists y, In y b1 /\ kcmp (kR z) (kB y) = Eq)).
  Proof using L HA HB HC.
    induction 1 as [a b|x a b o r a' b' [Fx Lx] H IH|y a b o r a' b' [Fy Ly] H IH|x y a b o r a' b' [Exy Fxy] H IH]; intros Sa Sb.
    - exists [], []. split; [reflexivity|]. split; [reflexivity|]. split; [constructor|]. split; [intros ? ? []|].
      split; [intros ? ? _ []|]. split; [intros k; reflexivity|]. intros z [].
    - apply ksorted_cons in Sa as [Sa Hx]. destruct (IH Sa Sb) as (a1 & b1 & -> & -> & Sr & H1 & H2 & H3 & H4).
      assert (Ho : forall z, o = Some z -> kcmp (kR z) (kA x) = Eq) by (intros z ->; now apply HA).
      assert (Hr : forall z, In z r -> kcmp (kA x) (kR z) = Lt).
      { intros z Hz. destruct (H4 z Hz) as [(x' & I' & E')|(y' & I' & E')]; rewrite (cmp_eq_r L _ _ _ E').
        - apply Hx. apply in_or_app. now left.
        - apply Lx. apply in_or_app. now left. }
      exists (x :: a1), b1. split; [reflexivity|]. split; [reflexivity|]. split; [now apply (ksorted_olist (kA x))|]. split; [|split; [exact H2|split]].
      + intros u v [<-|Hu] Hv; [apply Lx; apply in_or_app; now right|auto].
      + intros k. rewrite (kfind_olist k (kA x)), kfind_cons by assumption. destruct (eqb_of kcmp k (kA x)) eqn:Q; [|apply H3].
        apply eqb_eq in Q. rewrite (kfind_above kB k b1); [exact Fx|]. intros v Hv. rewrite (cmp_eq_l L _ _ _ Q). apply Lx. apply in_or_app. now left.
      + intros z Hz. apply in_app_or in Hz as [Hz|Hz].
        * destruct o as [z'|]; cbn in Hz; [|contradiction]. destruct Hz as [<-|[]]. left. exists x. split; [now left|auto].
        * destruct (H4 z Hz) as [(x' & I' & E')|G]; [left; exists x'; split; [now right|exact E']|now right].
    - apply ksorted_cons in Sb as [Sb Hy]. destruct (IH Sa Sb) as (a1 & b1 & -> & -> & Sr & H1 & H2 & H3 & H4).
      assert (Ho : forall z, o = Some z -> kcmp (kR z) (kB y) = Eq) by (intros z ->; now apply HB).
      assert (Hr : forall z, In z r -> kcmp (kB y) (kR z) = Lt).
      { intros z Hz. destruct (H4 z Hz) as [(x' & I' & E')|(y' & I' & E')]; rewrite (cmp_eq_r L _ _ _ E').
        - apply (cmp_gt_lt L). apply Ly. apply in_or_app. now left.
        - apply Hy. apply in_or_app. now left. }
      exists a1, (y :: b1). split; [reflexivity|]. split; [reflexivity|]. split; [now apply (ksorted_olist (kB y))|]. split; [exact H1|split; [|split]].
      + intros u v Hu [<-|Hv]; [apply Ly; apply in_or_app; now right|auto].
      + intros k. rewrite (kfind_olist k (kB y)), kfind_cons by assumption. destruct (eqb_of kcmp k (kB y)) eqn:Q; [|apply H3].
        apply eqb_eq in Q. rewrite (kfind_above kA k a1); [exact Fy|]. intros u Hu. rewrite (cmp_eq_l L _ _ _ Q).
        apply (cmp_gt_lt L). apply Ly. apply in_or_app. now left.
      + intros z Hz. apply in_app_or in Hz as [Hz|Hz].
        * destruct o as [z'|]; cbn in Hz; [|contradiction]. destruct Hz as [<-|[]]. right. exists y. split; [now left|auto].
        * destruct (H4 z Hz) as [G|(y' & I' & E')]; [now left|right; exists y'; split; [now right|exact E']].
    - apply ksorted_cons in Sa as [Sa Hx]. apply ksorted_cons in Sb as [Sb Hy].
      destruct (IH Sa Sb) as (a1 & b1 & -> & -> & Sr & H1 & H2 & H3 & H4).
      assert (Hxy : forall v, In v (b1 ++ b') -> kcmp (kA x) (kB v) = Lt) by (intros v Hv; rewrite (cmp_eq_l L _ _ _ Exy); auto).
      assert (Ho : forall z, o = Some z -> kcmp (kR z) (kA x) = Eq) by (intros z ->; now apply (HC x y)).
      assert (Hr : forall z, In z r -> kcmp (kA x) (kR z) = Lt).
      { intros z Hz. destruct (H4 z Hz) as [(x' & I' & E')|(y' & I' & E')]; rewrite (cmp_eq_r L _ _ _ E').
        - apply Hx. apply in_or_app. now left.
        - apply Hxy. apply in_or_app. now left. }
      exists (x :: a1), (y :: b1). split; [reflexivity|]. split; [reflexivity|]. split; [now apply (ksorted_olist (kA x))|]. split; [|split; [|split]].
      + intros u v [<-|Hu] Hv; [apply Hxy; apply in_or_app; now right|auto].
      + intros u v Hu [<-|Hv]; [|auto]. apply (cmp_gt_lt L). rewrite <- (cmp_eq_l L _ _ _ Exy). apply Hx. apply in_or_app. now right.
      + intros k. rewrite (kfind_olist k (kA x)), !kfind_cons by assumption.
        replace (eqb_of kcmp k (kB y)) with (eqb_of kcmp k (kA x)) by (unfold eqb_of; now rewrite (cmp_eq_r L _ _ _ Exy)).
        destruct (eqb_of kcmp k (kA x)); [exact Fxy|apply H3].
      + intros z Hz. apply in_app_or in Hz as [Hz|Hz].
        * destruct o as [z'|]; cbn in Hz; [|contradiction]. destruct Hz as [<-|[]]. left. exists x. split; [now left|auto].
        * destruct (H4 z Hz) as [(x' & I' & E')|(y' & I' & E')]; [left; exists x'|right; exists y']; (split; [now right|exact E']).
  Qed.
End Points.

(** ** A lawful comparison *)
Section Law.
  Context {E C S A B R : Type} {kcmp : C -> C -> comparison} (L : OrdLaws kcmp).
  Context (cmp : clos E (C * C) comparison) (AL : forall e x y e' q, cmp e (x, y) = (e', Ret q) -> q = kcmp x y) (kA : A -> C) (kB : B -> C).
  Context (O : mop (S * E) A B) (vr : S * E -> list R).
  Context (FA : A -> option R -> Prop) (FB : B -> option R -> Prop) (FC : A -> B -> option R -> Prop) (OB : obeys O vr FA FB FC).
  Context (still : forall m e e', mo_a O (m, e) = mo_a O (m, e') /\ mo_b O (m, e) = mo_b O (m, e') /\ vr (m, e) = vr (m, e')).
  Notation W := (woven (lawful_a (kcmp := kcmp) kA kB FA) (lawful_b (kcmp := kcmp) kA kB FB) (lawful_c (kcmp := kcmp) kA kB FC)).
  Context (a0 : list A) (b0 : list B).
  Definition linv (s : S * E) : Prop :=
    W a0 b0 (vr s) (mo_a O s) (mo_b O s) /\ ksorted (cmp := kcmp) kA (mo_a O s) /\ ksorted (cmp := kcmp) kB (mo_b O s).
  Definition lend (s : S * E) : Prop := exists a' b', W a0 b0 (vr s) a' b'.
  Lemma law_steps : lawful_steps (kcmp := kcmp) kA kB (wcmp cmp kA kB) O linv (fun _ => False) lend.
  Proof using OB still AL.
    constructor.
    - intros s (_ & H). exact H.
    - intros s a1 a2 (HW & Sa & Sb) Ha _ Hlt. pose proof (ob_a _ _ _ _ _ OB s a1 a2 Ha) as H.
      assert (K : forall a3 a4 r, a1 = a3 ++ a4 -> fated FA a3 r -> W (mo_a O s) (mo_b O s) r (a4 ++ a2) (mo_b O s)).
      { intros a3 a4 r Q F. rewrite Ha, Q, <- app_assoc. apply woven_fa. apply (fated_imp FA); [exact F|].
        intros x o Hx Fx. split; [exact Fx|]. intros y Hy. apply Hlt; [rewrite Q; apply in_or_app; now left|exact Hy]. }
      destruct (mo_from_a O s (length a1)) as [s'|s'|s'|]; cbn [lpost]; try contradiction.
      + destruct H as (r & H1 & H2 & H3 & H4). split; [|now split]. unfold linv. rewrite H2, H3, H4. split; [|split; [|exact Sb]].
        * eapply woven_trans; [exact HW|]. specialize (K a1 [] r). rewrite app_nil_r in K. apply K; auto.
        * rewrite Ha in Sa. apply ksorted_app in Sa. apply Sa.
      + destruct H as (a3 & a4 & r & H1 & H2 & H3). exists (a4 ++ a2), (mo_b O s). rewrite H3. eapply woven_trans; [exact HW|]. now apply (K a3).
    - intros s b1 b2 (HW & Sa & Sb) Hb _ Hgt. pose proof (ob_b _ _ _ _ _ OB s b1 b2 Hb) as H.
      assert (K : forall b3 b4 r, b1 = b3 ++ b4 -> fated FB b3 r -> W (mo_a O s) (mo_b O s) r (mo_a O s) (b4 ++ b2)).
      { intros b3 b4 r Q F. rewrite Hb, Q, <- app_assoc. apply woven_fb. apply (fated_imp FB); [exact F|].
        intros y o Hy Fy. split; [exact Fy|]. intros x Hx. apply Hgt; [exact Hx|rewrite Q; apply in_or_app; now left]. }
      destruct (mo_from_b O s (length b1)) as [s'|s'|s'|]; cbn [lpost]; try contradiction.
      + destruct H as (r & H1 & H2 & H3 & H4). split; [|now split]. unfold linv. rewrite H2, H3, H4. split; [|split; [exact Sa|]].
        * eapply woven_trans; [exact HW|]. specialize (K b1 [] r). rewrite app_nil_r in K. apply K; auto.
        * rewrite Hb in Sb. apply ksorted_app in Sb. apply Sb.
      + destruct H as (a3 & a4 & r & H1 & H2 & H3). exists (mo_a O s), (a4 ++ b2). rewrite H3. eapply woven_trans; [exact HW|]. now apply (K a3).
    - intros s x a y b (HW & Sa & Sb) Ha Hb Exy. pose proof (ob_c _ _ _ _ _ OB s x a y b Ha Hb) as H.
      destruct (mo_coll O s) as [s'|s'|s'|]; cbn [lpost]; try contradiction.
      + destruct H as (o & H1 & H2 & H3 & H4). split; [|now split]. unfold linv. rewrite H2, H3, H4. split; [|split].
        * eapply woven_trans; [exact HW|]. rewrite Ha, Hb. rewrite <- (app_nil_r (olist o)). apply woven_c; [now split|constructor].
        * rewrite Ha in Sa. apply ksorted_cons in Sa. apply Sa.
        * rewrite Hb in Sb. apply ksorted_cons in Sb. apply Sb.
      + unfold lend. rewrite H. now exists (mo_a O s), (mo_b O s).
    - intros [m e] x y s' q (HW & Sa & Sb) _ _. unfold wcmp. cbn [fst snd]. destruct (cmp e (kA x, kB y)) as [e' r] eqn:Q. intros [= <- <-].
      destruct (still m e e') as (H1 & H2 & H3). destruct r as [q|].
      + split; [unfold linv; rewrite <- H1, <- H2, <- H3; now split|]. split; [now rewrite H1|]. split; [now rewrite H2|]. exact (AL _ _ _ _ _ Q).
      + unfold lend. rewrite <- H3. now exists (mo_a O (m, e)), (mo_b O (m, e)).
  Qed.
  Lemma law_merges strat m e : vr (m, e) = [] -> mo_a O (m, e) = a0 -> mo_b O (m, e) = b0 ->
    ksorted (cmp := kcmp) kA a0 -> ksorted (cmp := kcmp) kB b0 ->
    merges (E := E) W a0 b0 (to_done (fun s => (vr s, snd s)) (gmerge (wcmp cmp kA kB) O strat (m, e))).
  Proof using OB still AL L.
    intros Hr Ha Hb Sa Sb. pose proof (wrun_merges cmp kA kB O vr FA FB FC OB still strat m e Hr) as G.
    pose proof (gmerge_law L kA kB _ O linv (fun _ => False) lend law_steps strat (m, e)) as H.
    assert (I0 : linv (m, e)) by (unfold linv; rewrite Hr, Ha, Hb; split; [constructor|now split]).
    specialize (H I0). destruct (gmerge _ _ _ _) as [s'|s'|s'|]; cbn [lpost to_done merges] in *.
    - destruct H as ((H1 & _) & H2 & H3). now rewrite H2, H3 in H1.
    - destruct H.
    - exact H.
    - exact G.
  Qed.
End Law.

Section LawPoints.
  Context {E C S A B R : Type} {kcmp : C -> C -> comparison} (L : OrdLaws kcmp).
  Context (cmp : clos E (C * C) comparison) (AL : answers_like kcmp cmp) (kA : A -> C) (kB : B -> C) (kR : R -> C).
  Context (O : mop (S * E) A B) (vr : S * E -> list R).
  Context (FA : A -> option R -> Prop) (FB : B -> option R -> Prop) (FC : A -> B -> option R -> Prop) (OB : obeys O vr FA FB FC).
  Context (still : forall m e e', mo_a O (m, e) = mo_a O (m, e') /\ mo_b O (m, e) = mo_b O (m, e') /\ vr (m, e) = vr (m, e')).
  Context (HA : forall x z, FA x (Some z) -> kcmp (kR z) (kA x) = Eq) (HB : forall y z, FB y (Some z) -> kcmp (kR z) (kB y) = Eq).
  Context (HC : forall x y z, FC x y (Some z) -> kcmp (kR z) (kA x) = Eq).
  Lemma law_points strat m e a b : vr (m, e) = [] -> mo_a O (m, e) = a -> mo_b O (m, e) = b ->
    ksorted (cmp := kcmp) kA a -> ksorted (cmp := kcmp) kB b ->
    merges_keys (kcmp := kcmp) kA kB kR (point FA FB FC) a b (to_done (fun s => (vr s, snd s)) (gmerge (wcmp cmp kA kB) O strat (m, e))).
  Proof using L AL OB still HA HB HC.
    intros Hr Ha Hb Sa Sb. pose proof (law_merges L cmp AL kA kB O vr FA FB FC OB still a b strat m e Hr Ha Hb Sa Sb) as H.
    destruct (to_done _ _) as [[r e']|[r e']|]; cbn [merges merges_keys] in *.
    - apply (woven_points L kA kB kR FA FB FC HA HB HC) in H as (a1 & b1 & -> & -> & H1 & _ & _ & H2 & _); auto. rewrite !app_nil_r. now split.
    - destruct H as (a' & b' & H). apply (woven_points L kA kB kR FA FB FC HA HB HC) in H as (a1 & b1 & -> & -> & H1 & H2 & H3 & H4 & _); auto.
      exists a1, a', b1, b'. split; [reflexivity|]. split; [reflexivity|]. split; [exact H2|]. split; [exact H3|]. now split.
    - exact H.
  Qed.
End LawPoints.
