(** Two runs of the same merge on related states stay related, also when they panic; and what every step
    of a merge preserves holds at its end. *)
From Verif Require Export HeapFrame.

Section MergeSimP.
  Context {S1 A1 B1 S2 A2 B2 : Type} (O1 : mop S1 A1 B1) (O2 : mop S2 A2 B2) (R RP : S1 -> S2 -> Prop).
  Definition osimp (o1 : out S1) (o2 : out S2) : Prop :=
    match o1 with
    | Cont s1 => exists s2, o2 = Cont s2 /\ R s1 s2
    | Stop s1 => exists s2, o2 = Stop s2 /\ R s1 s2
    | Panic s1 => exists s2, o2 = Panic s2 /\ RP s1 s2
    | NoFuel => True
    end.
  Record msimp : Prop := {
    mp_rp : forall s1 s2, R s1 s2 -> RP s1 s2;
    mp_len_a : forall s1 s2, R s1 s2 -> length (mo_a O1 s1) = length (mo_a O2 s2);
    mp_len_b : forall s1 s2, R s1 s2 -> length (mo_b O1 s1) = length (mo_b O2 s2);
    mp_cmp : forall s1 s2 i j x1 x2 y1 y2, R s1 s2 -> nth_error (mo_a O1 s1) i = Some x1 -> nth_error (mo_a O2 s2) i = Some x2 ->
             nth_error (mo_b O1 s1) j = Some y1 -> nth_error (mo_b O2 s2) j = Some y2 -> mo_cmp O1 x1 y1 = mo_cmp O2 x2 y2;
    mp_fa : forall s1 s2 n, R s1 s2 -> osimp (mo_from_a O1 s1 n) (mo_from_a O2 s2 n);
    mp_fb : forall s1 s2 n, R s1 s2 -> osimp (mo_from_b O1 s1 n) (mo_from_b O2 s2 n);
    mp_co : forall s1 s2, R s1 s2 -> osimp (mo_coll O1 s1) (mo_coll O2 s2) }.
  Hypothesis H : msimp.

  Lemma osimp_bind o1 o2 k1 k2 : osimp o1 o2 -> (forall s1 s2, R s1 s2 -> osimp (k1 s1) (k2 s2)) -> osimp (obind o1 k1) (obind o2 k2).
  Proof. intros A B. destruct o1; simpl in *; auto; destruct A as (s2 & -> & Rs); simpl; eauto. Qed.
  Lemma osimp_panic s1 s2 : R s1 s2 -> osimp (Panic s1) (Panic s2).
  Proof. intros Rs. exists s2. split; auto. now apply (mp_rp H). Qed.

  Lemma binary_simp fuel : forall s1 s2 an bn, R s1 s2 -> osimp (binary_merge O1 fuel s1 an bn) (binary_merge O2 fuel s2 an bn).
  Proof.
    induction fuel as [|fuel IH]; intros s1 s2 an bn Rs; cbn [binary_merge]; [exact I|].
    destruct (an =? 0); [destruct (bn =? 0)|].
    - simpl. eauto.
    - now apply mp_fb.
    - destruct (bn =? 0); [now apply mp_fa|].
      destruct (nth_error (mo_a O1 s1) (an / 2)) as [x1|] eqn:Q1.
      2:{ assert (Q2 : nth_error (mo_a O2 s2) (an / 2) = None).
          { apply nth_error_None. rewrite <- (mp_len_a H _ _ Rs). now apply nth_error_None. }
          rewrite Q2. now apply osimp_panic. }
      destruct (nth_len _ (mo_a O2 s2) _ _ (mp_len_a H _ _ Rs) Q1) as (x2 & Q2). rewrite Q2.
      rewrite (bsearch_sim (fun y => option_map CompOpp (mo_cmp O1 x1 y)) (fun y => option_map CompOpp (mo_cmp O2 x2 y))
                 (firstn bn (mo_b O1 s1)) (firstn bn (mo_b O2 s2))).
      + destruct (bsearch _ _) as [bm|bi| |]; try exact I.
        * apply osimp_bind; auto. intros t1 t2 Rt. apply osimp_bind; [now apply mp_co|]. auto.
        * apply osimp_bind; auto. intros t1 t2 Rt. apply osimp_bind; [now apply mp_fa|]. auto.
        * now apply osimp_panic.
      + intros i. rewrite !nth_firstn. destruct (i <? bn); auto.
        destruct (nth_error (mo_b O1 s1) i) as [y1|] eqn:R1.
        * destruct (nth_len _ (mo_b O2 s2) _ _ (mp_len_b H _ _ Rs) R1) as (y2 & R2). rewrite R2. f_equal. eapply mp_cmp; eauto.
        * destruct (nth_error (mo_b O2 s2) i) as [y2|] eqn:R2; auto.
          destruct (nth_len _ (mo_b O1 s1) _ _ (eq_sym (mp_len_b H _ _ Rs)) R2). congruence.
      + rewrite !firstn_length. now rewrite (mp_len_b H _ _ Rs).
  Qed.
  Lemma tape_simp fuel : forall s1 s2, R s1 s2 -> osimp (tape_merge O1 fuel s1) (tape_merge O2 fuel s2).
  Proof.
    induction fuel as [|fuel IH]; intros s1 s2 Rs; cbn [tape_merge]; [exact I|].
    pose proof (mp_len_a H _ _ Rs) as La. pose proof (mp_len_b H _ _ Rs) as Lb.
    destruct (mo_a O1 s1) as [|x1 l1] eqn:D1, (mo_a O2 s2) as [|x2 l2] eqn:D2; try discriminate;
    destruct (mo_b O1 s1) as [|y1 m1] eqn:E1, (mo_b O2 s2) as [|y2 m2] eqn:E2; try discriminate.
    - simpl. eauto.
    - rewrite Lb. now apply mp_fb.
    - rewrite La. now apply mp_fa.
    - rewrite (mp_cmp H s1 s2 0 0 x1 x2 y1 y2 Rs); try (rewrite ?D1, ?D2, ?E1, ?E2; reflexivity).
      destruct (mo_cmp O2 x2 y2) as [[]|]; [| | |now apply osimp_panic]; apply osimp_bind; auto.
      + now apply mp_co.
      + now apply mp_fa.
      + now apply mp_fb.
  Qed.
  Lemma merge_simp strat s1 s2 : R s1 s2 -> osimp (merge O1 strat s1) (merge O2 strat s2).
  Proof.
    intros Rs. unfold merge. rewrite (mp_len_a H _ _ Rs), (mp_len_b H _ _ Rs).
    destruct (strat _ _); [now apply tape_simp|now apply binary_simp].
  Qed.
End MergeSimP.

Section MergeInv.
  Context {S A B : Type} (O : mop S A B) (P PP : S -> Prop).
  Definition oinv (o : out S) : Prop :=
    match o with Cont s | Stop s => P s | Panic s => PP s | NoFuel => True end.
  Hypothesis HP : forall s, P s -> PP s.
  Hypothesis Ha : forall s n, P s -> oinv (mo_from_a O s n).
  Hypothesis Hb : forall s n, P s -> oinv (mo_from_b O s n).
  Hypothesis Hc : forall s, P s -> oinv (mo_coll O s).
  Lemma oinv_bind o k : oinv o -> (forall s, P s -> oinv (k s)) -> oinv (obind o k).
  Proof. intros X Y. destruct o; simpl in *; auto. Qed.
  Lemma merge_inv strat s : P s -> oinv (merge O strat s).
  Proof.
    intros Ps. unfold merge. destruct (strat _ _).
    - generalize (Datatypes.S (length (mo_a O s) + length (mo_b O s))). intros fuel. revert s Ps.
      induction fuel as [|fuel IH]; intros s Ps; cbn [tape_merge]; [exact I|].
      destruct (mo_a O s) as [|x l], (mo_b O s) as [|y m].
      + exact Ps.
      + now apply Hb.
      + now apply Ha.
      + destruct (mo_cmp O x y) as [[]|]; [| | |now apply HP]; apply oinv_bind; auto.
    - generalize (length (mo_b O s)). generalize (length (mo_a O s)) at 2. generalize (Datatypes.S (length (mo_a O s))). intros fuel. revert s Ps.
      induction fuel as [|fuel IH]; intros s Ps an bn; cbn [binary_merge]; [exact I|].
      destruct (an =? 0); [destruct (bn =? 0); auto; exact Ps|]. destruct (bn =? 0); auto.
      destruct (nth_error _ _); [|now apply HP]. destruct (bsearch _ _); try exact I; [| |now apply HP]; (apply oinv_bind; [auto|]; intros; apply oinv_bind; auto).
  Qed.
End MergeInv.
