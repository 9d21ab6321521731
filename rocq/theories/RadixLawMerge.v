(** Merging lists of children with comparisons that answer like an order: what ends up in the slot of every key component,
    when the merge ends and when it panics. *)
From Verif Require Export RadixLawEngine RadixMerge.
From Verif Require Import RadixEffMerge.

Section LawMerge.
  Context {K : Type} {kcmp : K -> K -> comparison} (L : OrdLaws kcmp) (EQ : OrdEq kcmp).
  Notation wf := (wf kcmp).
  Notation wfc := (wfc (kcmp := kcmp)).
  Notation hord := (hord (kcmp := kcmp)).
  Notation child := (child (kcmp := kcmp)).

  Lemma child_app {V} c (l1 l2 : list (rtree K V)) : child c (l1 ++ l2) = match child c l1 with Some t => Some t | None => child c l2 end.
  Proof. unfold RadixFacts.child. induction l1 as [|x l1 IH]; [reflexivity|]. cbn [app List.find]. now destruct (heads_with c x). Qed.
  Lemma child_one {V} c (t : rtree K V) : hd_of t = Some c -> child c [t] = Some t.
  Proof. intros H. apply (heads_with_eq EQ) in H. unfold RadixFacts.child. cbn [List.find]. now rewrite H. Qed.
  Lemma child_one_no {V} c (t : rtree K V) : hd_of t <> Some c -> child c [t] = None.
  Proof. intros H. apply (child_None EQ). now intros t' [<-|[]]. Qed.

  Section Slots.
    Context {V X : Type}.
    Notation A := (rtree K V). Notation B := (rtree K X).
    Context (ta tb : bool) (ca : A -> A -> Prop) (cb : B -> A -> Prop) (Q : A -> B -> A -> Prop) (q : bool) (a0 : list A) (b0 : list B).
    (** what a merge makes of the subtree [x] of one side and [y] of the other *)
    Definition slot (x : option A) (y : option B) (r : option A) : Prop :=
      match x, y with
      | None, None => r = None
      | Some x, None => if ta then exists t, ca x t /\ r = Some t else r = None
      | None, Some y => if tb then exists t, cb y t /\ r = Some t else r = None
      | Some x, Some y => exists t, Q x y t /\ r = if t_is_empty t then None else Some t
      end.
    (** a complete result, and a part of it *)
    Definition all_slots (l : list A) : Prop := wfc q l /\ forall c, slot (child c a0) (child c b0) (child c l).
    Definition some_slots (l : list A) : Prop :=
      wfc q l /\ forall c t, child c l = Some t -> slot (child c a0) (child c b0) (Some t).

    Definition heads {Y} (l : list (rtree K Y)) : list (option K) := map hd_of l.
    Definition minv (a : list A) (b : list B) (l : list A) : Prop := exists a1 b1,
      a0 = a1 ++ a /\ b0 = b1 ++ b /\
      (forall z z', In z (heads a1 ++ heads b1) -> In z' (heads a ++ heads b) -> hord z z' = Lt) /\
      (forall t, In t l -> In (hd_of t) (heads a1 ++ heads b1)) /\
      wfc q l /\ forall c, slot (child c a1) (child c b1) (child c l).

    Lemma hord_irr z : hord z z <> Lt.
    Proof using EQ. destruct z as [x|]; cbn; [rewrite (kcmp_refl EQ)|]; discriminate. Qed.
    Lemma minv_start : minv a0 b0 [].
    Proof.
      exists [], []. split; [reflexivity|]. split; [reflexivity|]. split; [intros ? ? []|]. split; [intros ? []|].
      split; [apply wfc_nil|]. intros c. reflexivity.
    Qed.
    Lemma minv_final l : minv [] [] l -> all_slots l.
    Proof.
      intros (a1 & b1 & Ea & Eb & _ & _ & W & H). rewrite app_nil_r in Ea, Eb. split; [exact W|]. intros c. now rewrite Ea, Eb.
    Qed.
    Lemma head_none {Y} c (l : list (rtree K Y)) : ~ In (Some c) (heads l) -> child c l = None.
    Proof using EQ. intros H. apply (child_None EQ). intros t Ht Q'. apply H. rewrite <- Q'. now apply in_map. Qed.
    Lemma minv_part a b l : minv a b l -> some_slots l.
    Proof using EQ.
      intros (a1 & b1 & Ea & Eb & Ho & Hl & W & H). split; [exact W|]. rewrite Ea, Eb. intros c t Ht. specialize (H c). rewrite Ht in H.
      apply (child_Some_In EQ) in Ht as [Ht Hc]. apply Hl in Ht. rewrite Hc in Ht.
      assert (Na : ~ In (Some c) (heads a)).
      { intros I. apply (hord_irr (Some c)). apply Ho; auto. apply in_or_app. now left. }
      assert (Nb : ~ In (Some c) (heads b)).
      { intros I. apply (hord_irr (Some c)). apply Ho; auto. apply in_or_app. now right. }
      rewrite !child_app, (head_none c a Na), (head_none c b Nb).
      destruct (child c a1), (child c b1); exact H.
    Qed.
    Lemma minv_sorted a b l : ksorted (cmp := hord) hd_of a0 -> ksorted (cmp := hord) hd_of b0 -> minv a b l ->
      ksorted (cmp := hord) hd_of a /\ ksorted (cmp := hord) hd_of b.
    Proof.
      intros Sa Sb (a1 & b1 & Ea & Eb & _). rewrite Ea in Sa. rewrite Eb in Sb. apply ksorted_app in Sa as (_ & Sa & _).
      apply ksorted_app in Sb as (_ & Sb & _). now split.
    Qed.
    Lemma minv_incl a b l : minv a b l -> incl a a0 /\ incl b b0.
    Proof.
      intros (a1 & b1 & Ea & Eb & _). rewrite Ea, Eb. split; intros z Hz; apply in_or_app; now right.
    Qed.

    (** one step: the trees [xa], [yb] (at most one each) with the first component [c] are used up, [r] is added *)
    Lemma minv_step c xa yb r a b l :
      minv (xa ++ a) (yb ++ b) l ->
      (xa = [] \/ exists x, xa = [x] /\ hd_of x = Some c) -> (yb = [] \/ exists y, yb = [y] /\ hd_of y = Some c) -> (xa <> [] \/ yb <> []) ->
      (r = [] \/ exists t, r = [t] /\ hd_of t = Some c /\ wf q t /\ (q = true -> t_is_empty t = false)) ->
      (forall z, In z (heads a ++ heads b) -> hord (Some c) z = Lt) ->
      slot (hd_error xa) (hd_error yb) (hd_error r) -> minv a b (l ++ r).
    Proof using EQ.
      intros (a1 & b1 & Ea & Eb & Ho & Hl & W & H) Xa Yb Ne R Lt_ SL.
      assert (Hin : forall z, In z (heads (a1 ++ xa) ++ heads (b1 ++ yb)) <-> In z (heads a1 ++ heads b1) \/ z = Some c).
      { intros z. unfold heads. rewrite !map_app, !in_app_iff.
        destruct Xa as [->|(x & -> & Hx)], Yb as [->|(y & -> & Hy)]; cbn [map In]; rewrite ?Hx, ?Hy; [|intuition..].
        destruct Ne; congruence. }
      assert (Cin : In (Some c) (heads (xa ++ a) ++ heads (yb ++ b))).
      { unfold heads. rewrite !map_app, !in_app_iff.
        destruct Xa as [->|(x & -> & Hx)], Yb as [->|(y & -> & Hy)]; cbn [map In]; rewrite ?Hx, ?Hy; try (now intuition).
      }
      assert (Fresh : ~ In (Some c) (heads a1 ++ heads b1)).
      { intros I. apply (hord_irr (Some c)). now apply Ho. }
      exists (a1 ++ xa), (b1 ++ yb). split; [now rewrite <- app_assoc|]. split; [now rewrite <- app_assoc|]. split; [|split; [|split]].
      - intros z z' Hz Hz'. apply Hin in Hz as [Hz| ->]; [|now apply Lt_]. apply Ho; auto.
        unfold heads. rewrite !map_app, !in_app_iff. apply in_app_or in Hz'. unfold heads in Hz'. tauto.
      - intros t Ht. apply Hin. apply in_app_or in Ht as [Ht|Ht]; [left; now apply Hl|right].
        destruct R as [->|(t' & -> & Hd & _)]; [destruct Ht|]. now destruct Ht as [<-|[]].
      - destruct R as [->|(t & -> & Hd & Wt & Nt)]; [now rewrite app_nil_r|]. apply wfc_app; auto.
        + apply wfc_single; auto. unfold hd_of in Hd. now destruct (t_prefix t).
        + intros x y Hx [<-|[]]. rewrite Hd. apply Ho; auto.
      - intros c'. rewrite !child_app. specialize (H c').
        assert (Dec : c' = c \/ c' <> c).
        { destruct (kcmp c' c) eqn:Qc; [left; now apply EQ|right; intros ->; rewrite (kcmp_refl EQ) in Qc; discriminate..]. }
        destruct Dec as [->|N].
        + rewrite (head_none c a1), (head_none c b1), (head_none c l).
          * assert (G : forall Y (z : list (rtree K Y)), (z = [] \/ exists x, z = [x] /\ hd_of x = Some c) -> child c z = hd_error z).
            { intros Y z [->|(x & -> & Hx)]; [reflexivity|]. now rewrite (child_one c x Hx). }
            rewrite (G _ xa Xa), (G _ yb Yb), (G _ r); [exact SL|]. destruct R as [->|(t & -> & Hd & _)]; eauto.
          * intros I. unfold heads in I. apply in_map_iff in I as (t & Q1 & Q2). apply Hl in Q2. rewrite Q1 in Q2. auto.
          * intros I. apply Fresh. apply in_or_app. now right.
          * intros I. apply Fresh. apply in_or_app. now left.
        + assert (G : forall Y (z : list (rtree K Y)), (z = [] \/ exists x, z = [x] /\ hd_of x = Some c) -> child c' z = None).
          { intros Y z [->|(x & -> & Hx)]; [reflexivity|]. apply child_one_no. congruence. }
          rewrite (G _ xa Xa), (G _ yb Yb), (G _ r).
          2:{ destruct R as [->|(t & -> & Hd & _)]; eauto. }
          destruct (child c' a1), (child c' b1), (child c' l); exact H.
    Qed.

    Context (Sa : ksorted (cmp := hord) hd_of a0) (Sb : ksorted (cmp := hord) hd_of b0).
    Context (Na : forall x, In x a0 -> t_prefix x <> []) (Nb : forall y, In y b0 -> t_prefix y <> []).
    Lemma minv_a x a b l t : minv (x :: a) b l -> (forall y, In y b -> hord (hd_of x) (hd_of y) = Lt) ->
      (if ta then ca x t /\ hd_of t = hd_of x /\ wf q t /\ (q = true -> t_is_empty t = false) else True) ->
      minv a b (l ++ if ta then [t] else []).
    Proof using EQ Sa Sb Na.
      intros M Lb T. assert (Px : t_prefix x <> []) by (apply Na, (proj1 (minv_incl _ _ _ M)); now left).
      destruct (ne_hd x Px) as [c Hc]. pose proof (minv_sorted _ _ _ Sa Sb M) as [S1 _]. apply ksorted_cons in S1 as [_ S1].
      apply (minv_step c [x] [] (if ta then [t] else []) a b l); auto.
      - right. eauto.
      - left. discriminate.
      - destruct ta; [|now left]. right. exists t. rewrite <- Hc. tauto.
      - intros z Hz. rewrite <- Hc. apply in_app_or in Hz as [Hz|Hz]; apply in_map_iff in Hz as (y & <- & Hy); auto.
      - cbn [hd_error slot]. destruct ta; [|reflexivity]. exists t. split; [tauto|reflexivity].
    Qed.
    Lemma minv_b y a b l t : minv a (y :: b) l -> (forall x, In x a -> hord (hd_of x) (hd_of y) = Gt) ->
      (if tb then cb y t /\ hd_of t = hd_of y /\ wf q t /\ (q = true -> t_is_empty t = false) else True) ->
      minv a b (l ++ if tb then [t] else []).
    Proof using L EQ Sa Sb Nb.
      intros M Lb T. assert (Py : t_prefix y <> []) by (apply Nb, (proj2 (minv_incl _ _ _ M)); now left).
      destruct (ne_hd y Py) as [c Hc]. pose proof (minv_sorted _ _ _ Sa Sb M) as [_ S1]. apply ksorted_cons in S1 as [_ S1].
      apply (minv_step c [] [y] (if tb then [t] else []) a b l); auto.
      - right. eauto.
      - right. discriminate.
      - destruct tb; [|now left]. right. exists t. rewrite <- Hc. tauto.
      - intros z Hz. rewrite <- Hc. apply in_app_or in Hz as [Hz|Hz]; apply in_map_iff in Hz as (x & <- & Hx); auto.
        apply (cmp_gt_lt (hord_laws L)). auto.
      - cbn [hd_error slot]. destruct tb; [|reflexivity]. exists t. split; [tauto|reflexivity].
    Qed.
    Lemma minv_c x y a b l t : minv (x :: a) (y :: b) l -> hord (hd_of x) (hd_of y) = Eq ->
      Q x y t -> wf q t -> (t_is_empty t = false -> hd_of t = hd_of x) ->
      minv a b (l ++ if t_is_empty t then [] else [t]).
    Proof using EQ Sa Sb Na.
      intros M E T W Hd. apply (hord_eq EQ) in E. assert (Px : t_prefix x <> []) by (apply Na, (proj1 (minv_incl _ _ _ M)); now left).
      destruct (ne_hd x Px) as [c Hc]. pose proof (minv_sorted _ _ _ Sa Sb M) as [S1 S2].
      apply ksorted_cons in S1 as [_ S1]. apply ksorted_cons in S2 as [_ S2].
      apply (minv_step c [x] [y] (if t_is_empty t then [] else [t]) a b l); auto.
      - right. eauto.
      - right. exists y. split; [reflexivity|congruence].
      - left. discriminate.
      - destruct (t_is_empty t) eqn:Qe; [now left|]. right. exists t. split; [reflexivity|]. split; [rewrite Hd; auto|]. auto.
      - intros z Hz. apply in_app_or in Hz as [Hz|Hz]; apply in_map_iff in Hz as (y' & <- & Hy); rewrite <- Hc; [auto|rewrite E; auto].
      - cbn [hd_error slot]. exists t. split; [exact T|]. now destruct (t_is_empty t).
    Qed.
  End Slots.
End LawMerge.
