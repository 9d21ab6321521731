(** The merge engine of RadixUserModel.v when the comparison, whatever its effects, answers like an order (or panics). *)
From Verif Require Export RadixUserModel.
From Verif Require Import MergeFacts.

(** ** Binary search: if it does not panic, it is that of the order *)
Section Search.
  Context {T S : Type} (f : S -> T -> S * option comparison) (g : T -> comparison) (l : list T) (I J : S -> Prop).
  Context (step : forall s y s' q, I s -> In y l -> f s y = (s', q) ->
             match q with Some r => I s' /\ r = g y | None => J s' end).
  Lemma wbs_loop_law : forall fuel i j s r s', j <= length l -> I s ->
    wbs_loop f l fuel i j s = (r, s') ->
    (r = BsPanic /\ J s') \/ (I s' /\ forall cnt, fst (bs_loop (fun y => Some (g y)) l fuel i j cnt) = r).
  Proof using step.
    induction fuel as [|fuel IH]; intros i j s r s' Hj Is; cbn [wbs_loop bs_loop].
    - intros [= <- <-]. right. now split.
    - destruct (Nat.ltb_spec i j) as [LT|GE]; [|intros [= <- <-]; right; now split].
      pose proof (Nat.div_lt (j - i) 2 ltac:(lia) ltac:(lia)) as D. set (mid := i + (j - i) / 2) in *.
      destruct (nth_error l mid) as [x|] eqn:N.
      2:{ apply nth_error_None in N. lia. }
      destruct (f s x) as [s1 q] eqn:Q. pose proof (step s x s1 q Is (nth_error_In _ _ N) Q) as H.
      destruct q as [q|]; [|intros [= <- <-]; now left].
      destruct H as [H ->]. destruct (g x).
      + intros [= <- <-]. right. now split.
      + intros R. apply IH in R; [|lia|exact H]. destruct R as [R|[R1 R2]]; [now left|]. right. split; auto.
      + intros R. apply IH in R; [|lia|exact H]. destruct R as [R|[R1 R2]]; [now left|]. right. split; auto.
  Qed.
  Lemma wbsearch_law s r s' : I s -> wbsearch f l s = (r, s') ->
    (r = BsPanic /\ J s') \/ (I s' /\ bsearch (fun y => Some (g y)) l = r).
  Proof using step.
    intros Is H. apply wbs_loop_law in H; [|lia|exact Is]. destruct H as [H|[H1 H2]]; [now left|]. right. split; auto.
    unfold bsearch, bs_count. apply H2.
  Qed.
End Search.

(** ** The merge *)
(** [post o Q St J]: what holds of the final state if the run ends, was stopped, panicked *)
Definition lpost {S} (Q St J : S -> Prop) (o : out S) : Prop :=
  match o with Cont s => Q s | Stop s => St s | Panic s => J s | NoFuel => True end.

Section Law.
  Context {C : Type} {kcmp : C -> C -> comparison} (L : OrdLaws kcmp).
  Context {S A B : Type} (kA : A -> C) (kB : B -> C).
  Context (c : S -> A -> B -> S * option comparison) (O : mop S A B) (I St J : S -> Prop).
  Notation post := (fun Q o => lpost Q St J o).
  Record lawful_steps : Prop := {
    la_sorted : forall s, I s -> ksorted (cmp := kcmp) kA (mo_a O s) /\ ksorted (cmp := kcmp) kB (mo_b O s);
    la_a : forall s a1 a2, I s -> mo_a O s = a1 ++ a2 -> a1 <> [] ->
           (forall x y, In x a1 -> In y (mo_b O s) -> kcmp (kA x) (kB y) = Lt) ->
           post (fun s' => I s' /\ mo_a O s' = a2 /\ mo_b O s' = mo_b O s) (mo_from_a O s (length a1));
    la_b : forall s b1 b2, I s -> mo_b O s = b1 ++ b2 -> b1 <> [] ->
           (forall x y, In x (mo_a O s) -> In y b1 -> kcmp (kA x) (kB y) = Gt) ->
           post (fun s' => I s' /\ mo_a O s' = mo_a O s /\ mo_b O s' = b2) (mo_from_b O s (length b1));
    la_c : forall s x a y b, I s -> mo_a O s = x :: a -> mo_b O s = y :: b -> kcmp (kA x) (kB y) = Eq ->
           post (fun s' => I s' /\ mo_a O s' = a /\ mo_b O s' = b) (mo_coll O s);
    la_cmp : forall s x y s' q, I s -> In x (mo_a O s) -> In y (mo_b O s) -> c s x y = (s', q) ->
           match q with
           | Some r => I s' /\ mo_a O s' = mo_a O s /\ mo_b O s' = mo_b O s /\ r = kcmp (kA x) (kB y)
           | None => J s'
           end
  }.
  Context (LS : lawful_steps).
  Lemma post_bind (Q Q' : S -> Prop) o k : post Q o -> (forall s, Q s -> post Q' (k s)) -> post Q' (obind o k).
  Proof. intros H K. destruct o; cbn [obind lpost] in *; auto. Qed.

  Lemma post_weaken (Q Q' : S -> Prop) o : post Q o -> (forall s, Q s -> Q' s) -> post Q' o.
  Proof. intros H K. destruct o; cbn [lpost] in *; auto. Qed.

  Lemma gbinary_law : forall fuel a1 b1 a2 b2 s, length a1 < fuel -> I s -> mo_a O s = a1 ++ a2 -> mo_b O s = b1 ++ b2 ->
    (forall x y, In x a1 -> In y b2 -> kcmp (kA x) (kB y) = Lt) ->
    (forall x y, In x a2 -> In y b1 -> kcmp (kA x) (kB y) = Gt) ->
    post (fun s' => I s' /\ mo_a O s' = a2 /\ mo_b O s' = b2) (gbinary c O fuel s (length a1) (length b1)).
  Proof using LS L.
    induction fuel as [|fuel IH]; intros a1 b1 a2 b2 s F Is Ha Hb Hab Hba; [lia|]. cbn [gbinary].
    destruct (Nat.eqb_spec (length a1) 0) as [Za|Na].
    { apply length_zero_iff_nil in Za as ->. destruct (Nat.eqb_spec (length b1) 0) as [Zb|Nb].
      - apply length_zero_iff_nil in Zb as ->. cbn [lpost]. auto.
      - eapply post_weaken; [apply (la_b LS s b1 b2 Is Hb)|].
        + intros ->. cbn in Nb. lia.
        + intros x y Hx Hy. apply Hba; [now rewrite Ha in Hx|exact Hy].
        + intros s' (H1 & H2 & H3). rewrite H2. auto. }
    destruct (Nat.eqb_spec (length b1) 0) as [Zb|Nb].
    { apply length_zero_iff_nil in Zb as ->. eapply post_weaken; [apply (la_a LS s a1 a2 Is Ha)|].
      + intros ->. cbn in Na. lia.
      + intros x y Hx Hy. apply Hab; [exact Hx|now rewrite Hb in Hy].
      + intros s' (H1 & H2 & H3). rewrite H3. auto. }
    pose proof (la_sorted LS s Is) as [Sa Sb]. rewrite Ha in Sa. rewrite Hb in Sb.
    apply ksorted_app in Sa as (Sa & _ & Haa). apply ksorted_app in Sb as (Sb & _ & Hbb).
    set (am := length a1 / 2). assert (Ham : am < length a1) by (apply div2_lt; lia).
    destruct (nth_error_split_lt a1 am Ham) as [x Hx].
    rewrite Ha, nth_error_app1 by assumption. rewrite Hx.
    destruct (nth_error_split a1 am Hx) as (al & ar & Ea & Hal).
    rewrite Hb, firstn_app_exact.
    assert (Hxin : In x a1) by (rewrite Ea; apply in_or_app; right; now left).
    destruct (wbsearch _ _ _) as [r s0] eqn:Q.
    apply (wbsearch_law _ (fun y => CompOpp (kcmp (kA x) (kB y))) _
             (fun s' => I s' /\ mo_a O s' = mo_a O s /\ mo_b O s' = mo_b O s) J) in Q.
    3:{ auto. }
    2:{ intros s1 y s2 q (H1 & H2 & H3) Iy Qc. destruct (c s1 x y) as [s3 q'] eqn:Qc'.
        apply (la_cmp LS) in Qc'; [|exact H1|rewrite H2, Ha; apply in_or_app; now left|rewrite H3, Hb; apply in_or_app; now left].
        destruct q' as [q'|]; injection Qc as [= <- <-]; cbn [option_map]; [|exact Qc'].
        destruct Qc' as (G1 & G2 & G3 & ->). split; [|reflexivity]. split; [exact G1|]. split; congruence. }
    destruct Q as [[-> HJ]|[(I0 & A0 & B0) Q]]; [exact HJ|].
    rewrite Ea in Sa. apply ksorted_app in Sa as (Sal & Sxr & Halr). apply ksorted_cons in Sxr as [Sar Hxr].
    destruct (ksorted_split L kB (kA x) b1 Sb) as (bl & br & Hbl & Hbr & Hsplit).
    assert (Hlen : length a1 = am + Datatypes.S (length ar)) by (rewrite Ea, app_length; simpl; lia).
    destruct Hsplit as [Hb1|(y & Hb1 & Hy)].
    - rewrite Hb1 in Q. rewrite (bsearch_err _ bl br) in Q.
      2:{ apply Forall_forall. intros v Hv. now rewrite <- (ord_opp L), (Hbl v Hv). }
      2:{ apply Forall_forall. intros v Hv. now rewrite <- (ord_opp L), (Hbr v Hv). }
      subst r.
      eapply post_bind.
      { rewrite <- Hal. apply (IH al bl (x :: ar ++ a2) (br ++ b2) s0); [lia|exact I0| | | |].
        - rewrite A0, Ha, Ea, <- app_assoc. reflexivity.
        - rewrite B0, Hb, Hb1, <- app_assoc. reflexivity.
        - intros u v Hu Hv. apply in_app_or in Hv as [Hv|Hv].
          + apply (cmp_lt_trans L _ (kA x)); [apply Halr; auto; now left|]. apply (cmp_lt_gt L). auto.
          + apply Hab; auto. rewrite Ea. apply in_or_app; now left.
        - intros u v Hu Hv. cbn [In] in Hu. apply (cmp_gt_lt L). destruct Hu as [<-|Hu]; [auto|].
          apply in_app_or in Hu as [Hu|Hu]; [apply (cmp_lt_trans L _ (kA x)); auto|].
          apply (cmp_gt_lt L). apply Hba; auto. rewrite Hb1. apply in_or_app; now left. }
      intros s1 (I1 & A1 & B1). eapply post_bind.
      { apply (la_a LS s1 [x] (ar ++ a2) I1 A1); [discriminate|]. intros u v [<-|[]] Hv. rewrite B1 in Hv.
        apply in_app_or in Hv as [Hv|Hv]; [apply (cmp_lt_gt L); auto|]. now apply Hab. }
      intros s2 (I2 & A2 & B2). rewrite B1 in B2.
      replace (length a1 - am - 1) with (length ar) by lia.
      replace (length b1 - length bl) with (length br) by (rewrite Hb1, app_length; lia).
      apply IH; auto; [lia| |].
      + intros u v Hu Hv. apply Hab; auto. rewrite Ea. apply in_or_app; right; now right.
      + intros u v Hu Hv. apply Hba; auto. rewrite Hb1. apply in_or_app; now right.
    - rewrite Hb1 in Q. rewrite (bsearch_ok _ bl y br) in Q.
      2:{ apply Forall_forall. intros v Hv. now rewrite <- (ord_opp L), (Hbl v Hv). }
      2:{ apply Forall_forall. intros v Hv. now rewrite <- (ord_opp L), (Hbr v Hv). }
      2:{ now rewrite <- (ord_opp L), Hy. }
      subst r. eapply post_bind.
      { rewrite <- Hal. apply (IH al bl (x :: ar ++ a2) (y :: br ++ b2) s0); [lia|exact I0| | | |].
        - rewrite A0, Ha, Ea, <- app_assoc. reflexivity.
        - rewrite B0, Hb, Hb1, <- app_assoc. reflexivity.
        - intros u v Hu Hv. cbn [In] in Hv. destruct Hv as [<-|Hv].
          + rewrite (cmp_eq_r L _ _ (kA u) Hy). apply Halr; auto. now left.
          + apply in_app_or in Hv as [Hv|Hv].
            * apply (cmp_lt_trans L _ (kA x)); [apply Halr; auto; now left|]. apply (cmp_lt_gt L). auto.
            * apply Hab; auto. rewrite Ea. apply in_or_app; now left.
        - intros u v Hu Hv. cbn [In] in Hu. apply (cmp_gt_lt L). destruct Hu as [<-|Hu]; [auto|].
          apply in_app_or in Hu as [Hu|Hu]; [apply (cmp_lt_trans L _ (kA x)); auto|].
          apply (cmp_gt_lt L). apply Hba; auto. rewrite Hb1. apply in_or_app; now left. }
      intros s1 (I1 & A1 & B1). eapply post_bind.
      { apply (la_c LS s1 x (ar ++ a2) y (br ++ b2) I1 A1 B1). now apply (cmp_sym L). }
      intros s2 (I2 & A2 & B2).
      replace (length a1 - am - 1) with (length ar) by lia.
      replace (length b1 - length bl - 1) with (length br) by (rewrite Hb1, app_length; cbn [length]; lia).
      apply IH; auto; [lia| |].
      + intros u v Hu Hv. apply Hab; auto. rewrite Ea. apply in_or_app; right; now right.
      + intros u v Hu Hv. apply Hba; auto. rewrite Hb1. apply in_or_app; right; now right.
  Qed.

  Definition spent (s : S) : Prop := I s /\ mo_a O s = [] /\ mo_b O s = [].
  Lemma gtape_law : forall fuel s, length (mo_a O s) + length (mo_b O s) < fuel -> I s -> post spent (gtape c O fuel s).
  Proof using LS L.
    induction fuel as [|fuel IH]; intros s F Is; [lia|]. cbn [gtape].
    pose proof (la_sorted LS s Is) as [Sa Sb].
    pose proof (la_a LS s) as SA. pose proof (la_b LS s) as SB. pose proof (la_cmp LS s) as SC.
    destruct (mo_a O s) as [|x a] eqn:QA, (mo_b O s) as [|y b] eqn:QB.
    - cbn [lpost]. split; auto.
    - specialize (SB (y :: b) [] Is). rewrite app_nil_r in SB. specialize (SB eq_refl ltac:(discriminate) ltac:(intros ? ? [])).
      exact SB.
    - specialize (SA (x :: a) [] Is). rewrite app_nil_r in SA. specialize (SA eq_refl ltac:(discriminate) ltac:(intros ? ? ? [])).
      exact SA.
    - destruct (c s x y) as [s0 q] eqn:Q. specialize (SC x y s0 q Is (or_introl eq_refl) (or_introl eq_refl) Q).
      destruct q as [q|]; [|exact SC]. destruct SC as (I0 & A0 & B0 & ->).
      apply ksorted_cons in Sa as [_ Sa]. apply ksorted_cons in Sb as [_ Sb].
      destruct (kcmp (kA x) (kB y)) eqn:Qk.
      + eapply post_bind; [apply (la_c LS s0 _ _ _ _ I0 A0 B0 Qk)|]. intros s1 (I1 & A1 & B1). apply IH; [|exact I1].
        rewrite A1, B1. cbn [length] in F. lia.
      + eapply post_bind.
        { apply (la_a LS s0 [x] a I0 A0 ltac:(discriminate)). intros u v [<-|[]]. rewrite B0. intros [<-|Hv]; [exact Qk|].
          apply (cmp_lt_trans L _ (kB y)); auto. }
        intros s1 (I1 & A1 & B1). apply IH; [|exact I1]. rewrite A1, B1, B0. cbn [length] in *. lia.
      + eapply post_bind.
        { apply (la_b LS s0 [y] b I0 B0 ltac:(discriminate)). intros u v Hu [<-|[]]. rewrite A0 in Hu. destruct Hu as [<-|Hu]; [exact Qk|].
          apply (cmp_gt_lt L). apply (cmp_lt_trans L _ (kA x)); auto. now apply (cmp_gt_lt L). }
        intros s1 (I1 & A1 & B1). apply IH; [|exact I1]. rewrite A1, B1, A0. cbn [length] in *. lia.
  Qed.

  Lemma gmerge_law strat s : I s -> post spent (gmerge c O strat s).
  Proof using LS L.
    intros Is. unfold gmerge. destruct (strat _ _); [apply gtape_law; [lia|exact Is]|].
    apply (gbinary_law _ (mo_a O s) (mo_b O s) [] []); rewrite ?app_nil_r; auto; try (intros ? ? _ []); try (intros ? ? []).
  Qed.
End Law.
