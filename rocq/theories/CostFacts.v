(** Bounds on the number of comparisons. *)
From Verif Require Import CollectModel CollectFacts DedupFacts OracleFacts StdFacts.

(** number of binary digits: comparisons of a binary search among n elements *)
Definition digits (n : nat) : nat := match n with 0 => 0 | _ => Nat.log2 n + 1 end.
Lemma digits_mono a b : a <= b -> digits a <= digits b.
Proof.
  intros H. destruct a as [|a]; [cbn; lia|]. destruct b as [|b]; [lia|]. unfold digits.
  pose proof (Nat.log2_le_mono (S a) (S b) H). lia.
Qed.
Lemma digits_half n : 1 <= n -> S (digits (n / 2)) = digits n.
Proof.
  intros H. destruct (Nat.eq_dec n 1) as [->|N]; [reflexivity|].
  pose proof (Nat.div_le_lower_bound n 2 1 ltac:(lia) ltac:(lia)) as H2.
  destruct (n / 2) as [|k] eqn:E; [lia|]. destruct n as [|m]; [lia|]. unfold digits.
  pose proof (Nat.shiftr_spec' (S m) 1 0) as _.
  assert (L : Nat.log2 (S k) = Nat.log2 (S m) - 1).
  { rewrite <- E. rewrite <- Nat.log2_shiftr. rewrite Nat.shiftr_div_pow2. reflexivity. }
  assert (1 <= Nat.log2 (S m)) by (apply (Nat.log2_le_mono 2 (S m)); lia). lia.
Qed.
Lemma digits_le h m : digits m <= h + m / 2 ^ h.
Proof.
  assert (P : 2 ^ h <> 0) by now apply Nat.pow_nonzero.
  destruct m as [|m]; [cbn; lia|]. unfold digits.
  assert (L : Nat.log2 (S m / 2 ^ h) = Nat.log2 (S m) - h).
  { rewrite <- Nat.log2_shiftr, Nat.shiftr_div_pow2. reflexivity. }
  destruct (S m / 2 ^ h) as [|q] eqn:E.
  - apply Nat.div_small_iff in E; [|assumption]. apply Nat.log2_lt_pow2 in E; lia.
  - pose proof (Nat.log2_lt_lin (S q) ltac:(lia)). lia.
Qed.

(** the potential: comparisons of a binary merge of fewer than 2^h with m elements *)
Definition pot (h m : nat) : nat := (3 * 2 ^ h - h - 3) + (m - m / 2 ^ h).
Lemma pow_ge h : h + 3 <= 3 * 2 ^ h.
Proof. induction h as [|h IH]; cbn [Nat.pow]; lia. Qed.
Lemma sub_div_mono P a b : 0 < P -> a <= b -> a - a / P <= b - b / P.
Proof.
  intros HP H. pose proof (Nat.div_mod a P ltac:(lia)). pose proof (Nat.div_mod b P ltac:(lia)).
  pose proof (Nat.mod_upper_bound a P ltac:(lia)). pose proof (Nat.mod_upper_bound b P ltac:(lia)).
  pose proof (Nat.div_le_mono a b P ltac:(lia) H).
  set (qa := a / P) in *. set (qb := b / P) in *. destruct (Nat.eq_dec qa qb) as [E|NE]; [lia|].
  assert (qa + 1 <= qb) by lia. nia.
Qed.
Lemma pot_step h m i i' : i + i' <= m -> digits m + pot h i + pot h i' <= pot (S h) m.
Proof.
  intros H. unfold pot. set (P := 2 ^ h) in *. cbn [Nat.pow]. fold P.
  assert (HP : 0 < P) by (unfold P; pose proof (Nat.pow_nonzero 2 h); lia).
  pose proof (pow_ge h) as G. fold P in G.
  pose proof (digits_le (S h) m) as D. cbn [Nat.pow] in D. fold P in D.
  pose proof (sub_div_mono P (i + i') m HP H) as M.
  assert (A : (i + i') / P <= i / P + i' / P + 1).
  { pose proof (Nat.div_mod i P ltac:(lia)). pose proof (Nat.div_mod i' P ltac:(lia)).
    pose proof (Nat.mod_upper_bound i P ltac:(lia)). pose proof (Nat.mod_upper_bound i' P ltac:(lia)).
    apply Nat.lt_succ_r. apply Nat.div_lt_upper_bound; [lia|]. nia. }
  assert (B : 2 * (m / (2 * P)) <= m / P).
  { rewrite (Nat.mul_comm 2 P), <- Nat.div_div by lia. pose proof (Nat.div_mod (m / P) 2 ltac:(lia)). lia. }
  pose proof (Nat.div_le_upper_bound i P i ltac:(lia) ltac:(nia)).
  pose proof (Nat.div_le_upper_bound i' P i' ltac:(lia) ltac:(nia)).
  pose proof (Nat.div_le_upper_bound m P m ltac:(lia) ltac:(nia)).
  pose proof (Nat.div_le_upper_bound (i + i') P (i + i') ltac:(lia) ltac:(nia)).
  replace (P + (P + 0)) with (2 * P) in * by lia. lia.
Qed.

Section BsCost.
  Context {T W : Type} (f : W -> T -> W * option comparison) (cnt : W -> nat).
  Context (FC : forall w x, cnt (fst (f w x)) <= S (cnt w)).
  Lemma wbs_loop_cost (l : list T) : forall fuel lo hi w,
    cnt (snd (wbs_loop f l fuel lo hi w)) <= cnt w + digits (hi - lo).
  Proof.
    induction fuel as [|fuel IH]; intros lo hi w; cbn [wbs_loop]; [cbn; lia|].
    destruct (Nat.ltb_spec lo hi) as [LT|GE]; [|cbn; lia].
    pose proof (digits_half (hi - lo) ltac:(lia)) as DH.
    pose proof (Nat.div_mod (hi - lo) 2 ltac:(lia)) as DM.
    pose proof (Nat.mod_upper_bound (hi - lo) 2 ltac:(lia)) as MB.
    set (n := hi - lo) in *. set (hf := n / 2) in *.
    destruct (nth_error l (lo + hf)) as [x|]; [|cbn; lia].
    pose proof (FC w x) as Q. destruct (f w x) as [w' [[]|]]; cbn [fst] in Q.
    - cbn; lia.
    - pose proof (IH (lo + hf + 1) hi w') as H. pose proof (digits_mono (hi - (lo + hf + 1)) hf ltac:(lia)). lia.
    - pose proof (IH lo (lo + hf) w') as H. pose proof (digits_mono (lo + hf - lo) hf ltac:(lia)). lia.
    - cbn; lia.
  Qed.
  Lemma wbsearch_cost (l : list T) w : cnt (snd (wbsearch f l w)) <= cnt w + digits (length l).
  Proof. unfold wbsearch. pose proof (wbs_loop_cost l (S (length l)) 0 (length l) w) as H. now rewrite Nat.sub_0_r in H. Qed.
End BsCost.

Section MergeCost.
  Context {W S A B : Type} (O : mop S A B) (c : W -> A -> B -> W * option comparison) (cnt : W -> nat).
  Context (CC : forall w x y, cnt (fst (c w x y)) <= Datatypes.S (cnt w)).

  (** for every potential: [F an bn] bounds the comparisons of a binary merge *)
  Lemma wbinary_cost (X : Type) (F : X -> nat -> nat) (ok : X -> nat -> Prop) (half : X -> X) :
    (forall x an, ok x an -> 1 <= an -> ok (half x) (an / 2) /\ ok (half x) (an - an / 2 - 1)) ->
    (forall x an m i i', ok x an -> 1 <= an -> i + i' <= m -> digits m + F (half x) i + F (half x) i' <= F x m) ->
    forall fuel s an bn w x, ok x an -> cnt (snd (wbinary_merge c O fuel s an bn w)) <= cnt w + F x bn.
  Proof.
    intros HO HF. induction fuel as [|fuel IH]; intros s an bn w x OK; cbn [wbinary_merge]; [cbn; lia|].
    destruct (Nat.eqb_spec an 0) as [->|NA]; [cbn; lia|]. destruct (Nat.eqb_spec bn 0) as [->|NB]; [cbn; lia|].
    destruct (HO x an OK ltac:(lia)) as [OK1 OK2].
    destruct (nth_error (mo_a O s) (an / 2)) as [y|]; [|cbn; lia].
    set (f := fun w0 y0 => let (w', q) := c w0 y y0 in (w', option_map CompOpp q)).
    assert (FC : forall w x, cnt (fst (f w x)) <= Datatypes.S (cnt w)).
    { intros w0 x0. unfold f. pose proof (CC w0 y x0). destruct (c w0 y x0). exact H. }
    pose proof (wbsearch_cost f cnt FC (firstn bn (mo_b O s)) w) as Q1.
    pose proof (digits_mono (length (firstn bn (mo_b O s))) bn ltac:(rewrite firstn_length; lia)) as Q2.
    destruct (wbsearch f (firstn bn (mo_b O s)) w) as [r w1] eqn:Q. cbn [snd] in Q1.
    apply wbsearch_bound in Q.
    assert (LB : length (firstn bn (mo_b O s)) <= bn) by (rewrite firstn_length; lia).
    destruct r as [bm|bi| |]; [| |cbn [snd]; pose proof (HF x an bn 0 0 OK ltac:(lia) ltac:(lia)); lia..].
    - pose proof (HF x an bn bm (bn - bm - 1) OK ltac:(lia) ltac:(lia)) as HS.
      pose proof (IH s (an / 2) bm w1 (half x) OK1) as H1.
      destruct (wbinary_merge c O fuel s (an / 2) bm w1) as [[s1|s1|s1|] w2]; cbn [snd] in *; try lia.
      destruct (mo_coll O s1) as [s2|s2|s2|]; cbn [snd]; try lia.
      pose proof (IH s2 (an - an / 2 - 1) (bn - bm - 1) w2 (half x) OK2) as H2. lia.
    - pose proof (HF x an bn bi (bn - bi) OK ltac:(lia) ltac:(lia)) as HS.
      pose proof (IH s (an / 2) bi w1 (half x) OK1) as H1.
      destruct (wbinary_merge c O fuel s (an / 2) bi w1) as [[s1|s1|s1|] w2]; cbn [snd] in *; try lia.
      destruct (mo_from_a O s1 1) as [s2|s2|s2|]; cbn [snd]; try lia.
      pose proof (IH s2 (an - an / 2 - 1) (bn - bi) w2 (half x) OK2) as H2. lia.
  Qed.

  Lemma halves an : 1 <= an -> an / 2 + (an - an / 2 - 1) = an - 1 /\ an / 2 < an.
  Proof. intros H. pose proof (Nat.div_lt an 2 ltac:(lia) ltac:(lia)). lia. Qed.

  Lemma wbinary_linear fuel s an bn w :
    cnt (snd (wbinary_merge c O fuel s an bn w)) <= cnt w + (6 * an + bn).
  Proof.
    assert (H : cnt (snd (wbinary_merge c O fuel s an bn w)) <= cnt w + pot (digits an) bn).
    { apply (wbinary_cost nat pot (fun h an => an < 2 ^ h) pred).
      - intros [|h] a H1 H2; [cbn in H1; lia|]. cbn [pred].
        cbn [Nat.pow] in H1. pose proof (Nat.div_mod a 2 ltac:(lia)). pose proof (Nat.mod_upper_bound a 2 ltac:(lia)).
        lia.
      - intros [|h] a m i i' H1 H2 H3; [cbn in H1; lia|]. now apply pot_step.
      - destruct an as [|an]; [cbn; lia|]. unfold digits. rewrite Nat.add_1_r. apply (Nat.log2_spec (Datatypes.S an)). lia. }
    assert (G : pot (digits an) bn <= 6 * an + bn).
    { unfold pot. destruct an as [|an]; [cbn; lia|]. unfold digits.
      pose proof (proj1 (Nat.log2_spec (Datatypes.S an) ltac:(lia))) as P.
      rewrite Nat.add_1_r. cbn [Nat.pow].
      assert (Z : bn - bn / (2 * 2 ^ Nat.log2 (Datatypes.S an)) <= bn) by lia. lia. }
    lia.
  Qed.
  Lemma wbinary_log fuel s an bn w :
    cnt (snd (wbinary_merge c O fuel s an bn w)) <= cnt w + an * digits bn.
  Proof.
    revert s an bn w. induction fuel as [|fuel IH]; intros s an bn w; cbn [wbinary_merge]; [cbn; lia|].
    destruct (Nat.eqb_spec an 0) as [->|NA]; [cbn; lia|]. destruct (Nat.eqb_spec bn 0) as [->|NB]; [cbn; lia|].
    destruct (halves an ltac:(lia)) as [HH _].
    destruct (nth_error (mo_a O s) (an / 2)) as [y|]; [|cbn; lia].
    set (f := fun w0 y0 => let (w', q) := c w0 y y0 in (w', option_map CompOpp q)).
    assert (FC : forall w x, cnt (fst (f w x)) <= Datatypes.S (cnt w)).
    { intros w0 x0. unfold f. pose proof (CC w0 y x0). destruct (c w0 y x0). exact H. }
    pose proof (wbsearch_cost f cnt FC (firstn bn (mo_b O s)) w) as Q1.
    pose proof (digits_mono (length (firstn bn (mo_b O s))) bn ltac:(rewrite firstn_length; lia)) as Q2.
    destruct (wbsearch f (firstn bn (mo_b O s)) w) as [r w1] eqn:Q. cbn [snd] in Q1.
    apply wbsearch_bound in Q.
    assert (LB : length (firstn bn (mo_b O s)) <= bn) by (rewrite firstn_length; lia).
    set (am := an / 2) in *. set (D := digits bn) in *.
    set (ar := an - am - 1) in *.
    assert (E : an * D = am * D + ar * D + D) by (unfold ar; nia).
    set (X := an * D) in *. set (X1 := am * D) in *. set (X2 := ar * D) in *.
    destruct r as [bm|bi| |]; [| |cbn [snd]; lia..].
    - pose proof (IH s am bm w1) as H1. pose proof (digits_mono bm bn ltac:(lia)) as M1.
      assert (Y1 : am * digits bm <= X1) by (apply Nat.mul_le_mono_l; exact M1).
      set (y1 := am * digits bm) in *.
      destruct (wbinary_merge c O fuel s am bm w1) as [[s1|s1|s1|] w2]; cbn [snd] in *; [|lia..].
      destruct (mo_coll O s1) as [s2|s2|s2|]; cbn [snd]; [|lia..].
      pose proof (IH s2 ar (bn - bm - 1) w2) as H2.
      pose proof (digits_mono (bn - bm - 1) bn ltac:(lia)) as M2.
      assert (Y2 : ar * digits (bn - bm - 1) <= X2) by (apply Nat.mul_le_mono_l; exact M2).
      set (y2 := ar * digits (bn - bm - 1)) in *. lia.
    - pose proof (IH s am bi w1) as H1. pose proof (digits_mono bi bn ltac:(lia)) as M1.
      assert (Y1 : am * digits bi <= X1) by (apply Nat.mul_le_mono_l; exact M1).
      set (y1 := am * digits bi) in *.
      destruct (wbinary_merge c O fuel s am bi w1) as [[s1|s1|s1|] w2]; cbn [snd] in *; [|lia..].
      destruct (mo_from_a O s1 1) as [s2|s2|s2|]; cbn [snd]; [|lia..].
      pose proof (IH s2 ar (bn - bi) w2) as H2.
      pose proof (digits_mono (bn - bi) bn ltac:(lia)) as M2.
      assert (Y2 : ar * digits (bn - bi) <= X2) by (apply Nat.mul_le_mono_l; exact M2).
      set (y2 := ar * digits (bn - bi)) in *. lia.
  Qed.

  Context (R RP : S -> S -> Prop) (ST : steps O R RP).
  Lemma wtape_cost : forall fuel s w,
    cnt (snd (wtape_merge c O fuel s w)) <= cnt w + (length (mo_a O s) + length (mo_b O s)).
  Proof.
    induction fuel as [|fuel IH]; intros s w; cbn [wtape_merge]; [cbn; lia|].
    pose proof (st_a _ _ _ ST s) as SA. pose proof (st_b _ _ _ ST s) as SB. pose proof (st_c _ _ _ ST s) as SC.
    destruct (mo_a O s) as [|x a] eqn:QA, (mo_b O s) as [|y b] eqn:QB; cbn [snd]; try lia.
    pose proof (CC w x y) as CQ. destruct (c w x y) as [w' [q|]]; cbn [fst] in CQ; [|cbn [snd length]; lia].
    assert (GO : forall da db o, da <= 1 -> db <= 1 -> 1 <= da + db -> stepok O R RP s da db o ->
        cnt (snd (match o with Cont s' => wtape_merge c O fuel s' w' | Stop s0 => (Stop s0, w')
                 | Panic s0 => (Panic s0, w') | NoFuel => (NoFuel, w') end)) <= cnt w + (length (x :: a) + length (y :: b))).
    { intros da db o D1 D2 D3 H. destruct o as [s1|s1|s1|]; cbn [snd length]; try lia.
      destruct H as (_ & A1 & B1). pose proof (IH s1 w') as H1. rewrite A1, B1, QA, QB, !skipn_length in H1.
      cbn [length] in H1. lia. }
    destruct q.
    - refine (GO 1 1 (mo_coll O s) _ _ _ _); try lia. apply SC; cbn [length]; lia.
    - refine (GO 1 0 (mo_from_a O s 1) _ _ _ _); try lia. apply SA; cbn [length]; lia.
    - refine (GO 0 1 (mo_from_b O s 1) _ _ _ _); try lia. apply SB; cbn [length]; lia.
  Qed.
  Lemma wmerge_linear strat s w :
    cnt (snd (wmerge c O strat s w)) <= cnt w + (6 * length (mo_a O s) + length (mo_b O s)).
  Proof.
    unfold wmerge. destruct (strat _ _).
    - pose proof (wtape_cost (Datatypes.S (length (mo_a O s) + length (mo_b O s))) s w). lia.
    - apply wbinary_linear.
  Qed.
End MergeCost.

(** ** Collecting something already sorted *)
Section Sorted.
  Context {T W : Type} {cmp : T -> T -> comparison}.
  Lemma run_sorted kp : forall l d drop (w : W) n,
    (forall x y, In x d -> In y l -> cmp x y <> Gt) -> wsorted (cmp := cmp) l ->
    exists r drop', forall srt, wsd_run (counted (plain cmp)) srt (MkWsad d (length d) kp drop) l (w, n)
      = (Done (r, drop', []), (w, n + match d with [] => length l - 1 | _ => length l end)).
  Proof.
    induction l as [|x l IH]; intros d drop w n HD HL; cbn [wsd_run].
    - exists d, drop. intros srt. unfold wsd_compact. cbn [wd_sorted wd_data]. rewrite Nat.ltb_irrefl. f_equal. f_equal.
      destruct d; cbn; lia.
    - apply wsorted_cons in HL as [HL HX].
      assert (NC : forall d' drop' n', (forall z, In z d' -> In z d \/ z = x) -> d' <> [] ->
        n' = n + match d with [] => 0 | _ => 1 end ->
        wsd_push_raw (counted (plain cmp)) (MkWsad d (length d) kp drop) x (w, n) =
          (Done (MkWsad d' (length d') kp drop'), (w, n')) ->
        exists r drop'', forall srt,
          match wsd_push (counted (plain cmp)) srt (MkWsad d (length d) kp drop) x (w, n) with
          | (Done s', w') => wsd_run (counted (plain cmp)) srt s' l w'
          | (Unwound s', w') => (Unwound (wd_data s', wd_drop s', l), w')
          | (DoneNoFuel, w') => (DoneNoFuel, w')
          end = (Done (r, drop'', []), (w, n + match d with [] => length (x :: l) - 1 | _ => length (x :: l) end))).
      { intros d' drop' n' SUB NE EN E.
        destruct (IH d' drop' w n') as (r & dr & E2); [|exact HL|].
        - intros z y Hz Hy. destruct (SUB z Hz) as [Hz'| ->]; [apply HD; [exact Hz'|now right]|now apply HX].
        - exists r, dr. intros srt. unfold wsd_push. rewrite E. cbn [wd_data wd_sorted]. cbv zeta. rewrite Nat.sub_diag.
          assert (Q : (if 16 <=? length d' then if length d' <? 0
                       then wsd_compact (counted (plain cmp)) srt (MkWsad d' (length d') kp drop') (w, n')
                       else (Done (MkWsad d' (length d') kp drop'), (w, n'))
                      else (Done (MkWsad d' (length d') kp drop'), (w, n')))
                      = (Done (MkWsad d' (length d') kp drop'), (w, n'))).
          { destruct (16 <=? length d'); [|reflexivity]. destruct (Nat.ltb_spec (length d') 0); [lia|reflexivity]. }
          rewrite Q, E2. f_equal. f_equal. subst n'. destruct d' as [|]; [easy|]. destruct d; cbn [length]; lia. }
      unfold wsd_push_raw in NC. cbn [wd_sorted wd_data wd_keep wd_drop] in NC. rewrite Nat.eqb_refl in NC.
      destruct (rev d) as [|lst fr] eqn:RV.
      + assert (d = []) as -> by (rewrite <- (rev_involutive d), RV; reflexivity).
        apply (NC [x] drop n); [intros z [<-|[]]; now right|discriminate|lia|reflexivity].
      + assert (DE : d = rev fr ++ [lst]) by (rewrite <- (rev_involutive d), RV; reflexivity).
        assert (DN : d <> []) by (rewrite DE; destruct (rev fr); discriminate).
        unfold counted at 1, plain at 1 in NC. cbn [fst snd] in NC.
        pose proof (HD lst x ltac:(rewrite DE; apply in_or_app; right; now left) ltac:(now left)) as NG.
        assert (EN : S n = n + match d with [] => 0 | _ => 1 end) by (destruct d; [easy|lia]).
        destruct (cmp lst x) eqn:CQ; [| |easy].
        * destruct kp.
          -- apply (NC d (drop ++ [x]) (S n)); [intros z Hz; now left|exact DN|exact EN|reflexivity].
          -- apply (NC (rev fr ++ [x]) (drop ++ [lst]) (S n)); [|destruct (rev fr); discriminate|exact EN|].
             ++ intros z Hz. apply in_app_or in Hz as [Hz|[<-|[]]]; [left|now right].
                rewrite DE. apply in_or_app. now left.
             ++ do 3 f_equal. rewrite DE, !app_length. reflexivity.
        * apply (NC (d ++ [x]) drop (S n)); [|destruct d; discriminate|exact EN|].
          -- intros z Hz. apply in_app_or in Hz as [Hz|[<-|[]]]; [now left|now right].
          -- do 3 f_equal. rewrite app_length. reflexivity.
  Qed.
End Sorted.
