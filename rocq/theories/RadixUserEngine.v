(** Facts about the merge engine of RadixUserModel.v under a comparison that may do anything. *)
From Verif Require Export RadixUserModel OracleFacts.

Lemma skipn_nth_error_cons {X} (l : list X) : forall n x, nth_error l n = Some x -> skipn n l = x :: skipn (S n) l.
Proof.
  induction l as [|y l IH]; intros [|n] x H; try discriminate; cbn in *.
  - now injection H as [= ->].
  - now apply IH.
Qed.

(** ** Binary search: what holds of every run *)
Section Search.
  Context {T S : Type} (f : S -> T -> S * option comparison) (l : list T) (I : S -> Prop).
  Context (step : forall s y s' q, I s -> In y l -> f s y = (s', Some q) -> I s').
  Lemma wbs_loop_run : forall fuel left right s r s',
    right < fuel + left -> left <= right -> right <= length l -> I s ->
    wbs_loop f l fuel left right s = (r, s') ->
    match r with
    | BsOk i => left <= i < right /\ I s' /\ exists y s1 s2, nth_error l i = Some y /\ f s1 y = (s2, Some Eq)
    | BsErr i => left <= i <= right /\ I s'
    | BsPanic => exists s1 y, I s1 /\ In y l /\ f s1 y = (s', None)
    | BsNoFuel => False
    end.
  Proof using step.
    induction fuel as [|fuel IH]; intros left right s r s' F LR RL Is; cbn [wbs_loop]; [lia|].
    destruct (Nat.ltb_spec left right) as [LT|GE].
    - pose proof (Nat.div_lt (right - left) 2 ltac:(lia) ltac:(lia)) as D.
      set (mid := left + (right - left) / 2) in *.
      destruct (nth_error l mid) as [x|] eqn:N.
      2:{ apply nth_error_None in N. lia. }
      pose proof (fun s' q => step s x s' q Is (nth_error_In _ _ N)) as I1.
      destruct (f s x) as [s1 [q|]] eqn:Q.
      specialize (I1 s1 q eq_refl). destruct q.
      + intros [= <- <-]. split; [lia|]. split; [exact I1|]. now exists x, s, s1.
      + intros H. apply IH in H; [|lia|lia|lia|exact I1]. destruct r; try assumption.
        * destruct H as (H1 & H2 & H3). split; [lia|now split].
        * destruct H as (H1 & H2). split; [lia|assumption].
      + intros H. apply IH in H; [|lia|lia|lia|exact I1]. destruct r; try assumption.
        * destruct H as (H1 & H2 & H3). split; [lia|now split].
        * destruct H as (H1 & H2). split; [lia|assumption].
      + intros [= <- <-]. exists s, x. split; [assumption|]. split; [exact (nth_error_In _ _ N)|assumption].
    - intros [= <- <-]. split; [lia|assumption].
  Qed.
  Lemma wbsearch_run s r s' : I s -> wbsearch f l s = (r, s') ->
    match r with
    | BsOk i => i < length l /\ I s' /\ exists y s1 s2, nth_error l i = Some y /\ f s1 y = (s2, Some Eq)
    | BsErr i => i <= length l /\ I s'
    | BsPanic => exists s1 y, I s1 /\ In y l /\ f s1 y = (s', None)
    | BsNoFuel => False
    end.
  Proof using step.
    intros Is H. apply wbs_loop_run in H; [|lia|lia|lia|exact Is]. destruct r; try assumption.
    - destruct H as ((_ & H) & H2). now split.
    - destruct H as ((_ & H) & H2). now split.
  Qed.
End Search.

(** ** The merge *)
Section GRun.
  Context {S A B : Type} (c : S -> A -> B -> S * option comparison) (O : mop S A B).
  (** [R s s']: how a state may evolve; [RP s s']: the same when a step panics *)
  Context (R RP : S -> S -> Prop) (RN : S -> Prop).
  (** [RN s]: a step from [s] may run out of fuel *)
  Definition gstepok (s : S) (da db : nat) (o : out S) : Prop :=
    match o with
    | Cont s' => R s s' /\ mo_a O s' = skipn da (mo_a O s) /\ mo_b O s' = skipn db (mo_b O s)
    | Stop s' => R s s'
    | Panic s' => RP s s'
    | NoFuel => RN s
    end.
  Notation stepok := gstepok.
  Record gsteps : Prop := {
    gs_refl : forall s, R s s;
    gs_trans : forall s1 s2 s3, R s1 s2 -> R s2 s3 -> R s1 s3;
    gs_transP : forall s1 s2 s3, R s1 s2 -> RP s2 s3 -> RP s1 s3;
    gs_transN : forall s1 s2, R s1 s2 -> RN s2 -> RN s1;
    gs_a : forall s n, n <= length (mo_a O s) -> stepok s n 0 (mo_from_a O s n);
    gs_b : forall s n, n <= length (mo_b O s) -> stepok s 0 n (mo_from_b O s n);
    gs_c : forall s x a y b, mo_a O s = x :: a -> mo_b O s = y :: b ->
           (exists s1 s2, c s1 x y = (s2, Some Eq)) -> stepok s 1 1 (mo_coll O s);
    gs_cmp : forall s x y s' q, In x (mo_a O s) -> In y (mo_b O s) -> c s x y = (s', q) ->
           mo_a O s' = mo_a O s /\ mo_b O s' = mo_b O s /\ match q with Some _ => R s s' | None => RP s s' end
  }.
  Context (ST : gsteps).

  Lemma gstepok_trans s s1 da db da' db' o :
    stepok s da db (Cont s1) -> stepok s1 da' db' o -> stepok s (da + da') (db + db') o.
  Proof using ST.
    intros (H1 & H2 & H3). destruct o as [s2|s2|s2|]; cbn [gstepok].
    - intros (G1 & G2 & G3). split; [exact (gs_trans ST _ _ _ H1 G1)|]. rewrite G2, G3, H2, H3.
      split; apply skipn_skipn'.
    - intros G. exact (gs_trans ST _ _ _ H1 G).
    - intros G. exact (gs_transP ST _ _ _ H1 G).
    - intros G. exact (gs_transN ST _ _ H1 G).
  Qed.
  Lemma gbind_ok s da db da' db' o k :
    stepok s da db o ->
    (forall s1, stepok s da db (Cont s1) -> stepok s1 da' db' (k s1)) ->
    stepok s (da + da') (db + db') (obind o k).
  Proof using ST.
    intros H K. destruct o as [s1|s1|s1|]; cbn [obind]; try exact H.
    exact (gstepok_trans _ _ _ _ _ _ _ H (K s1 H)).
  Qed.

  Lemma shift s da db da' db' o : stepok s da' db' o -> da' = da -> db' = db -> stepok s da db o.
  Proof. now intros H <- <-. Qed.
  Lemma gbinary_ok : forall fuel s an bn,
    an < fuel -> an <= length (mo_a O s) -> bn <= length (mo_b O s) -> stepok s an bn (gbinary c O fuel s an bn).
  Proof using ST.
    induction fuel as [|fuel IH]; intros s an bn F LA LB; [lia|]. cbn [gbinary].
    destruct (Nat.eqb_spec an 0) as [->|NA].
    { destruct (Nat.eqb_spec bn 0) as [->|NB].
      - cbn [gstepok]. split; [apply (gs_refl ST)|]. now rewrite !skipn_O.
      - now apply (gs_b ST). }
    destruct (Nat.eqb_spec bn 0) as [->|NB]; [now apply (gs_a ST)|].
    pose proof (Nat.div_lt an 2 ltac:(lia) ltac:(lia)) as D. set (am := an / 2) in *.
    destruct (nth_error (mo_a O s) am) as [x|] eqn:N.
    2:{ apply nth_error_None in N. lia. }
    destruct (wbsearch _ _ _) as [r s0] eqn:Q.
    apply (wbsearch_run _ _ (fun s' => R s s' /\ mo_a O s' = mo_a O s /\ mo_b O s' = mo_b O s)) in Q.
    2:{ intros s1 y s2 q (H1 & H2 & H3) Iy Qc. destruct (c s1 x y) as [s3 q'] eqn:Qc'. destruct q' as [q'|]; [|discriminate].
        injection Qc as [= -> _].
        apply (gs_cmp ST) in Qc'; [|rewrite H2; exact (nth_error_In _ _ N)|].
        2:{ rewrite H3. rewrite <- (firstn_skipn bn (mo_b O s)). apply in_or_app. now left. }
        destruct Qc' as (G1 & G2 & G3). split; [exact (gs_trans ST _ _ _ H1 G3)|]. split; congruence. }
    2:{ split; [apply (gs_refl ST)|now split]. }
    rewrite firstn_length_le in Q by assumption.
    destruct r as [bm|bi| |].
    - destruct Q as (Lbm & (R0 & A0 & B0) & (y & s1 & s2 & Ny & Qy)).
      assert (H0 : stepok s 0 0 (Cont s0)) by (cbn [gstepok]; rewrite !skipn_O; now split).
      assert (Ny' : nth_error (mo_b O s) bm = Some y).
      { rewrite <- (firstn_skipn bn (mo_b O s)). rewrite nth_error_app1; [exact Ny|]. rewrite firstn_length_le; assumption. }
      refine (shift s an bn (0 + (am + (1 + (an - am - 1)))) (0 + (bm + (1 + (bn - bm - 1)))) _ _ _ _); [|lia|lia].
      apply (gstepok_trans _ _ _ _ _ _ _ H0).
      apply gbind_ok; [apply IH; rewrite ?A0, ?B0; lia|].
      intros s3 (_ & A3 & B3). apply gbind_ok.
      + rewrite A0 in A3. rewrite B0 in B3.
        pose proof (skipn_nth_error_cons _ _ _ N) as CA. pose proof (skipn_nth_error_cons _ _ _ Ny') as CB.
        rewrite CA in A3. rewrite CB in B3.
        apply (gs_c ST s3 _ _ _ _ A3 B3).
        destruct (c s1 x y) as [s4 [q|]] eqn:Qc; [|discriminate]. exists s1, s4. destruct q; try discriminate. exact Qc.
      + intros s4 (_ & A4 & B4). rewrite A0 in A3. rewrite B0 in B3. rewrite A3 in A4. rewrite B3 in B4.
        apply IH; [lia| |].
        * rewrite A4, !skipn_length. lia.
        * rewrite B4, !skipn_length. lia.
    - destruct Q as (Lbi & (R0 & A0 & B0)).
      assert (H0 : stepok s 0 0 (Cont s0)) by (cbn [gstepok]; rewrite !skipn_O; now split).
      refine (shift s an bn (0 + (am + (1 + (an - am - 1)))) (0 + (bi + (0 + (bn - bi)))) _ _ _ _); [|lia|lia].
      apply (gstepok_trans _ _ _ _ _ _ _ H0).
      apply gbind_ok; [apply IH; rewrite ?A0, ?B0; lia|].
      intros s3 (_ & A3 & B3). rewrite A0 in A3. rewrite B0 in B3. apply gbind_ok.
      + apply (gs_a ST). rewrite A3, skipn_length. lia.
      + intros s4 (_ & A4 & B4). rewrite A3 in A4. rewrite B3 in B4.
        apply IH; [lia| |].
        * rewrite A4, !skipn_length. lia.
        * rewrite B4, !skipn_length. lia.
    - destruct Q as (s1 & y & (R1 & A1 & B1) & Iy & Qy). cbn [gstepok].
      destruct (c s1 x y) as [s3 q'] eqn:Qc'. destruct q' as [q'|]; [discriminate|]. injection Qy as [= ->].
      apply (gs_cmp ST) in Qc'; [|rewrite A1; exact (nth_error_In _ _ N)|].
      2:{ rewrite B1. rewrite <- (firstn_skipn bn (mo_b O s)). apply in_or_app. now left. }
      destruct Qc' as (_ & _ & G3). exact (gs_transP ST _ _ _ R1 G3).
    - destruct Q.
  Qed.

  Lemma gtape_ok : forall fuel s,
    length (mo_a O s) + length (mo_b O s) < fuel ->
    stepok s (length (mo_a O s)) (length (mo_b O s)) (gtape c O fuel s).
  Proof using ST.
    induction fuel as [|fuel IH]; intros s F; [lia|]. cbn [gtape].
    pose proof (gs_a ST s) as SA. pose proof (gs_b ST s) as SB.
    destruct (mo_a O s) as [|x a] eqn:QA, (mo_b O s) as [|y b] eqn:QB.
    - cbn [gstepok]. rewrite QA, QB. split; [apply (gs_refl ST)|]. now split.
    - apply SB. cbn [length]. lia.
    - apply SA. cbn [length]. lia.
    - destruct (c s x y) as [s0 q] eqn:Q. pose proof Q as Qc.
      apply (gs_cmp ST) in Qc; [|rewrite QA; now left|rewrite QB; now left].
      destruct Qc as (A0 & B0 & R0). rewrite QA in A0. rewrite QB in B0.
      destruct q as [q|]; [|exact R0].
      assert (H0 : stepok s 0 0 (Cont s0)).
      { cbn [gstepok]. rewrite !skipn_O, QA, QB. now split. }
      assert (GO : forall da db o, da <= 1 -> db <= 1 -> 1 <= da + db -> stepok s0 da db o ->
        stepok s (length (x :: a)) (length (y :: b)) (obind o (gtape c O fuel))).
      { intros da db o D1 D2 D3 H.
        replace (length (x :: a)) with (0 + (da + (length (x :: a) - da))) by (cbn [length]; lia).
        replace (length (y :: b)) with (0 + (db + (length (y :: b) - db))) by (cbn [length]; lia).
        apply (gstepok_trans _ _ _ _ _ _ _ H0). apply gbind_ok; [exact H|].
        intros s1 (_ & A1 & B1). rewrite A0 in A1. rewrite B0 in B1.
        assert (LA : length (mo_a O s1) = length (x :: a) - da) by (rewrite A1; apply skipn_length).
        assert (LB : length (mo_b O s1) = length (y :: b) - db) by (rewrite B1; apply skipn_length).
        rewrite <- LA, <- LB. apply IH. cbn [length] in LA, LB, F. lia. }
      destruct q.
      + refine (GO 1 1 _ _ _ _ _); try lia. apply (gs_c ST s0 _ _ _ _ A0 B0). now exists s, s0.
      + refine (GO 1 0 _ _ _ _ _); try lia. apply (gs_a ST). rewrite A0. cbn [length]. lia.
      + refine (GO 0 1 _ _ _ _ _); try lia. apply (gs_b ST). rewrite B0. cbn [length]. lia.
  Qed.

  Lemma gmerge_ok strat s :
    stepok s (length (mo_a O s)) (length (mo_b O s)) (gmerge c O strat s).
  Proof using ST. unfold gmerge. destruct (strat _ _); [apply gtape_ok|apply gbinary_ok]; lia. Qed.
End GRun.
Arguments gstepok {S A B} O R RP RN s da db o.
Arguments gsteps {S A B} c O R RP RN.

(** a comparison without effects: the engine of Merge.v *)
Section GPure.
  Context {S A B : Type} (O O' : mop S A B) (c : S -> A -> B -> S * option comparison).
  Context (C : forall s x y, c s x y = (s, mo_cmp O x y)).
  Context (Ea : mo_a O' = mo_a O) (Eb : mo_b O' = mo_b O).
  Context (Fa : forall s n, mo_from_a O' s n = mo_from_a O s n) (Fb : forall s n, mo_from_b O' s n = mo_from_b O s n)
          (Fc : forall s, mo_coll O' s = mo_coll O s).
  Lemma obind_ext (o : out S) (k k' : S -> out S) : (forall s, k s = k' s) -> obind o k = obind o k'.
  Proof. intros H. destruct o; [apply H|reflexivity..]. Qed.
  Lemma gbinary_pure : forall fuel s an bn, gbinary c O' fuel s an bn = binary_merge O fuel s an bn.
  Proof using All.
    induction fuel as [|fuel IH]; intros s an bn; [reflexivity|]. cbn [gbinary binary_merge]. rewrite Ea, Eb, Fa, Fb.
    destruct (an =? 0); [reflexivity|]. destruct (bn =? 0); [reflexivity|].
    destruct (nth_error (mo_a O s) (an / 2)) as [x|]; [|reflexivity].
    rewrite (wbsearch_pure (fun y => option_map CompOpp (mo_cmp O x y))) by (intros; now rewrite C).
    destruct (bsearch _ _); try reflexivity; rewrite IH; apply obind_ext; intros s1; rewrite ?Fc, ?Fa;
      apply obind_ext; intros s2; apply IH.
  Qed.
  Lemma gtape_pure : forall fuel s, gtape c O' fuel s = tape_merge O fuel s.
  Proof using All.
    induction fuel as [|fuel IH]; intros s; [reflexivity|]. cbn [gtape tape_merge]. rewrite Ea, Eb.
    destruct (mo_a O s) as [|x a], (mo_b O s) as [|y b]; rewrite ?Fa, ?Fb; try reflexivity.
    rewrite C. destruct (mo_cmp O x y) as [[]|]; rewrite ?Fa, ?Fb, ?Fc; try reflexivity; apply obind_ext; exact IH.
  Qed.
  Lemma gmerge_pure strat s : gmerge c O' strat s = merge O strat s.
  Proof using All.
    unfold gmerge, merge. rewrite Ea, Eb. destruct (strat _ _); [apply gtape_pure|apply gbinary_pure].
  Qed.
End GPure.
