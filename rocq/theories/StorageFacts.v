(** Facts about StorageModel. *)
From Verif Require Export StorageModel VecSetFacts VecSetHist.

(** ** A property kept by every step of a merge is kept by the merge *)
Section MergeInv.
  Context {S A B : Type} (O : mop S A B) (P : S -> Prop).
  Context (Pa : forall s n s', P s -> mo_from_a O s n = Cont s' -> P s')
          (Pb : forall s n s', P s -> mo_from_b O s n = Cont s' -> P s')
          (Pc : forall s s', P s -> mo_coll O s = Cont s' -> P s').

  Lemma binary_merge_inv : forall fuel s an bn s', P s -> binary_merge O fuel s an bn = Cont s' -> P s'.
  Proof using Pa Pb Pc.
    induction fuel as [|fuel IH]; intros s an bn s' Ps; cbn [binary_merge]; [discriminate|].
    destruct (an =? 0).
    { destruct (bn =? 0); [intros [= <-]; exact Ps|]. now apply Pb. }
    destruct (bn =? 0); [now apply Pa|].
    destruct (nth_error (mo_a O s) (an / 2)) as [x|]; [|discriminate].
    destruct (bsearch _ _) as [i|i| |]; try discriminate.
    - destruct (binary_merge O fuel s (an / 2) i) as [s1| | |] eqn:E1; try discriminate. cbn [obind].
      destruct (mo_coll O s1) as [s2| | |] eqn:E2; try discriminate. cbn [obind].
      apply IH. apply (Pc s1); [|exact E2]. now apply (IH s (an / 2) i).
    - destruct (binary_merge O fuel s (an / 2) i) as [s1| | |] eqn:E1; try discriminate. cbn [obind].
      destruct (mo_from_a O s1 1) as [s2| | |] eqn:E2; try discriminate. cbn [obind].
      apply IH. apply (Pa s1 1); [|exact E2]. now apply (IH s (an / 2) i).
  Qed.
  Lemma tape_merge_inv : forall fuel s s', P s -> tape_merge O fuel s = Cont s' -> P s'.
  Proof using Pa Pb Pc.
    induction fuel as [|fuel IH]; intros s s' Ps; cbn [tape_merge]; [discriminate|].
    destruct (mo_a O s) as [|x a]; destruct (mo_b O s) as [|y b].
    - intros [= <-]. exact Ps.
    - now apply Pb.
    - now apply Pa.
    - destruct (mo_cmp O x y) as [[| |]|]; try discriminate.
      + destruct (mo_coll O s) as [s1| | |] eqn:E; try discriminate. cbn [obind]. apply IH. now apply (Pc s).
      + destruct (mo_from_a O s 1) as [s1| | |] eqn:E; try discriminate. cbn [obind]. apply IH. now apply (Pa s 1).
      + destruct (mo_from_b O s 1) as [s1| | |] eqn:E; try discriminate. cbn [obind]. apply IH. now apply (Pb s 1).
  Qed.
  Lemma merge_inv strat s s' : P s -> merge O strat s = Cont s' -> P s'.
  Proof using Pa Pb Pc.
    unfold merge. destruct (strat _ _); [apply tape_merge_inv|apply binary_merge_inv].
  Qed.
End MergeInv.

Section SvFacts.
  Context {T : Type} (N : nat) (grow : nat -> nat) (G : forall n, n <= grow n).
  Implicit Types (s : sv T).

  Definition sv_ok s : Prop := sv_len s <= sv_cap s /\ N <= sv_cap s.

  Lemma sv_reserve_fits s k : sv_len s + k <= sv_cap s -> sv_reserve N grow s k = s.
  Proof using. intros H. unfold sv_reserve. apply Nat.leb_le in H. now rewrite H. Qed.
  Lemma sv_reserve_grows s k : sv_ok s -> sv_cap s < sv_len s + k ->
    sv_items (sv_reserve N grow s k) = sv_items s /\
    sv_len s + k <= sv_cap (sv_reserve N grow s k) /\ N < sv_cap (sv_reserve N grow s k) /\
    sv_allocs (sv_reserve N grow s k) = S (sv_allocs s).
  Proof using G.
    intros [H1 H2] H. unfold sv_reserve. destruct (Nat.leb_spec (sv_len s + k) (sv_cap s)); [lia|].
    unfold sv_grow. pose proof (G (sv_len s + k)).
    destruct (Nat.leb_spec (grow (sv_len s + k)) N); [lia|].
    destruct (Nat.eqb_spec (grow (sv_len s + k)) (sv_cap s)); [lia|].
    cbn [sv_items sv_cap sv_allocs]. repeat split; lia.
  Qed.
  Lemma sv_reserve_items s k : sv_items (sv_reserve N grow s k) = sv_items s.
  Proof using.
    unfold sv_reserve, sv_grow. destruct (_ <=? _); [reflexivity|]. destruct (_ <=? _); [reflexivity|].
    destruct (_ =? _); reflexivity.
  Qed.
  Lemma sv_reserve_ok s k : sv_ok s -> sv_ok (sv_reserve N grow s k).
  Proof using G.
    intros O. destruct (Nat.le_gt_cases (sv_len s + k) (sv_cap s)) as [H|H].
    - now rewrite sv_reserve_fits.
    - destruct (sv_reserve_grows s k O H) as (E & C & C' & _). unfold sv_ok, sv_len in *. rewrite E. lia.
  Qed.

  Lemma sv_push_items s x : sv_items (sv_push N grow s x) = sv_items s ++ [x].
  Proof using. unfold sv_push, sv_slice. cbn [sv_items]. now rewrite sv_reserve_items. Qed.
  Lemma sv_push_fits s x : sv_len s < sv_cap s ->
    sv_cap (sv_push N grow s x) = sv_cap s /\ sv_allocs (sv_push N grow s x) = sv_allocs s.
  Proof using.
    intros H. unfold sv_push, sv_slice. cbn [sv_cap sv_allocs]. rewrite sv_reserve_fits by lia. auto.
  Qed.
  Lemma sv_push_grows s x : sv_ok s -> sv_len s = sv_cap s ->
    N < sv_cap (sv_push N grow s x) /\ sv_allocs (sv_push N grow s x) = S (sv_allocs s).
  Proof using G.
    intros O H. unfold sv_push, sv_slice. cbn [sv_cap sv_allocs].
    destruct (sv_reserve_grows s 1 O) as (_ & _ & C & A); [lia|]. auto.
  Qed.
  Lemma sv_push_ok s x : sv_ok s -> sv_ok (sv_push N grow s x).
  Proof using G.
    intros O. unfold sv_ok, sv_push, sv_slice, sv_len. cbn [sv_items sv_cap]. rewrite app_length. cbn [length].
    pose proof (sv_reserve_ok s 1 O) as [R1 R2]. split; [|exact R2].
    destruct (Nat.le_gt_cases (sv_len s + 1) (sv_cap s)) as [H|H].
    - rewrite sv_reserve_fits by lia. unfold sv_len in H. lia.
    - destruct (sv_reserve_grows s 1 O H) as (E & C & _). rewrite E. unfold sv_len in *. lia.
  Qed.

  Lemma sv_pushes_items : forall l s, sv_items (fold_left (sv_push N grow) l s) = sv_items s ++ l.
  Proof using.
    induction l as [|x l IH]; intros s; cbn [fold_left]; [now rewrite app_nil_r|].
    rewrite IH, sv_push_items, <- app_assoc. reflexivity.
  Qed.
  Lemma sv_pushes_ok : forall l s, sv_ok s -> sv_ok (fold_left (sv_push N grow) l s).
  Proof using G. induction l as [|x l IH]; intros s O; cbn [fold_left]; [exact O|]. now apply IH, sv_push_ok. Qed.
  Lemma sv_push_len s x : sv_len (sv_push N grow s x) = S (sv_len s).
  Proof using. unfold sv_len. rewrite sv_push_items, app_length. cbn. lia. Qed.
  Lemma sv_push_mono s x : sv_ok s ->
    sv_allocs s <= sv_allocs (sv_push N grow s x) /\ (N < sv_cap s -> N < sv_cap (sv_push N grow s x)).
  Proof using G.
    intros O. destruct (Nat.eq_dec (sv_len s) (sv_cap s)) as [E|E].
    - destruct (sv_push_grows s x O E). lia.
    - destruct (sv_push_fits s x) as [E1 E2]; [destruct O; lia|]. rewrite E1, E2. auto.
  Qed.
  Lemma sv_pushes_mono : forall l s, sv_ok s ->
    sv_allocs s <= sv_allocs (fold_left (sv_push N grow) l s) /\
    (N < sv_cap s -> N < sv_cap (fold_left (sv_push N grow) l s)).
  Proof using G.
    induction l as [|x l IH]; intros s O; cbn [fold_left]; [auto|].
    destruct (sv_push_mono s x O) as [M1 M2]. destruct (IH _ (sv_push_ok s x O)) as [I1 I2].
    split; [lia|auto].
  Qed.
  Lemma sv_pushes_fits : forall l s, sv_len s + length l <= sv_cap s ->
    sv_cap (fold_left (sv_push N grow) l s) = sv_cap s /\
    sv_allocs (fold_left (sv_push N grow) l s) = sv_allocs s.
  Proof using.
    induction l as [|x l IH]; intros s H; cbn [fold_left]; [auto|]. cbn [length] in H.
    destruct (sv_push_fits s x) as [E1 E2]; [lia|].
    destruct (IH (sv_push N grow s x)) as [E3 E4]; [rewrite sv_push_len; lia|]. split; congruence.
  Qed.
  Lemma sv_pushes_grows : forall l s, sv_ok s -> sv_cap s < sv_len s + length l ->
    N < sv_cap (fold_left (sv_push N grow) l s) /\
    sv_allocs s < sv_allocs (fold_left (sv_push N grow) l s).
  Proof using G.
    induction l as [|x l IH]; intros s O H; cbn [fold_left length] in *; [destruct O; lia|].
    pose proof (sv_push_ok s x O) as O'. destruct (Nat.eq_dec (sv_len s) (sv_cap s)) as [E|E].
    - destruct (sv_push_grows s x O E) as [C A]. destruct (sv_pushes_mono l _ O') as [M1 M2]. split; [auto|lia].
    - destruct (sv_push_fits s x) as [E1 E2]; [destruct O; lia|].
      destruct (IH _ O') as [C A]; [rewrite sv_push_len; lia|]. split; [exact C|lia].
  Qed.

  (** a vector that was only filled: no allocation while the elements fit inline *)
  Definition filled s : Prop :=
    sv_ok s /\ (sv_allocs s = 0 /\ sv_cap s = N \/ 0 < sv_allocs s /\ N < sv_cap s /\ N < sv_len s).
  Lemma filled_new : filled (sv_new N).
  Proof using. unfold filled, sv_ok, sv_new, sv_len. cbn. lia. Qed.
  Lemma filled_iff s : filled s -> (sv_allocs s = 0 <-> sv_len s <= N) /\ (sv_spilled N s = true <-> N < sv_len s).
  Proof using.
    intros [[O1 O2] H]. unfold sv_spilled. rewrite Nat.ltb_lt. split; split; intros; lia.
  Qed.
  Lemma filled_batch s h : filled s ->
    filled (fold_left (sv_push N grow) h (sv_reserve N grow s (length h))).
  Proof using G.
    intros [O H]. pose proof (sv_reserve_ok s (length h) O) as O1.
    pose proof (sv_pushes_ok h _ O1) as O2. split; [exact O2|].
    set (r := sv_reserve N grow s (length h)) in *.
    assert (Lr : sv_len r = sv_len s) by (unfold sv_len, r; now rewrite sv_reserve_items).
    assert (Lf : sv_len (fold_left (sv_push N grow) h r) = sv_len s + length h)
      by (unfold sv_len in *; rewrite sv_pushes_items, app_length; lia).
    assert (Fit : sv_len r + length h <= sv_cap r).
    { unfold r at 2. destruct (Nat.le_gt_cases (sv_len s + length h) (sv_cap s)) as [Q|Q].
      - rewrite sv_reserve_fits by exact Q. lia.
      - destruct (sv_reserve_grows s (length h) O Q) as (_ & C & _). lia. }
    destruct (sv_pushes_fits h r Fit) as [E1 E2]. rewrite E1, E2, Lf.
    destruct (Nat.le_gt_cases (sv_len s + length h) (sv_cap s)) as [Q|Q].
    - unfold r. rewrite sv_reserve_fits by exact Q. destruct H as [H|H]; [left; exact H|right; lia].
    - destruct (sv_reserve_grows s (length h) O Q) as (_ & C & C' & A). fold r in C, C', A.
      right. rewrite A. destruct O. lia.
  Qed.

  Lemma sv_shrink_spec s : sv_ok s ->
    sv_items (sv_shrink_to_fit N s) = sv_items s /\ sv_ok (sv_shrink_to_fit N s) /\
    sv_cap (sv_shrink_to_fit N s) = Nat.max N (sv_len s) /\
    sv_allocs (sv_shrink_to_fit N s) =
      sv_allocs s + (if (N <? sv_len s) && (sv_len s <? sv_cap s) then 1 else 0).
  Proof using.
    intros [O1 O2]. unfold sv_shrink_to_fit, sv_spilled.
    destruct (Nat.ltb_spec N (sv_cap s)) as [C|C].
    - destruct (Nat.leb_spec (sv_len s) N) as [Q|Q].
      + assert (E : N <? sv_len s = false) by (apply Nat.ltb_ge; lia).
        rewrite E. unfold sv_ok, sv_len in *. cbn [sv_items sv_cap sv_allocs andb]. repeat split; lia.
      + assert (E : N <? sv_len s = true) by (apply Nat.ltb_lt; lia). rewrite E. cbn [andb].
        destruct (Nat.ltb_spec (sv_len s) (sv_cap s)) as [R|R].
        * unfold sv_grow. destruct (Nat.leb_spec (sv_len s) N); [lia|].
          destruct (Nat.eqb_spec (sv_len s) (sv_cap s)); [lia|].
          unfold sv_ok, sv_len in *. cbn [sv_items sv_cap sv_allocs]. repeat split; lia.
        * unfold sv_ok. repeat split; lia.
    - assert (E : N <? sv_len s = false) by (apply Nat.ltb_ge; lia). rewrite E. unfold sv_ok. cbn [andb].
      repeat split; lia.
  Qed.
End SvFacts.

Section CollectFacts.
  Context {T : Type} (N : nat) (grow : nat -> nat) (G : forall n, n <= grow n)
          (cmp : T -> T -> comparison).

  Definition forget (s : ssad (T := T)) : sad := MkSad (sv_items (ss_data s)) (ss_sorted s) (ss_keep s).

  Lemma ss_compact_forget s :
    match ss_compact cmp s with
    | Some s' => sd_compact cmp (forget s) = Some (forget s') /\
                 sv_cap (ss_data s') = sv_cap (ss_data s) /\ sv_allocs (ss_data s') = sv_allocs (ss_data s)
    | None => sd_compact cmp (forget s) = None
    end.
  Proof using.
    unfold ss_compact, sd_compact, sv_len, forget. cbn [sd_sorted sd_data sd_keep].
    destruct (ss_sorted s <? _); [|auto].
    destruct (dedup_by _ _ _) as [[sl u]|]; [|reflexivity].
    unfold sv_truncate, sv_slice, sv_len. cbn. auto.
  Qed.
  Lemma ss_push_raw_forget s x : sv_ok N (ss_data s) ->
    forget (ss_push_raw N grow cmp s x) = sd_push_raw cmp (forget s) x /\
    sv_ok N (ss_data (ss_push_raw N grow cmp s x)) /\
    let n := length (sd_data (sd_push_raw cmp (forget s) x)) in
    (n <= sv_cap (ss_data s) ->
       sv_cap (ss_data (ss_push_raw N grow cmp s x)) = sv_cap (ss_data s) /\
       sv_allocs (ss_data (ss_push_raw N grow cmp s x)) = sv_allocs (ss_data s)) /\
    (sv_cap (ss_data s) < n ->
       N < sv_cap (ss_data (ss_push_raw N grow cmp s x)) /\
       sv_allocs (ss_data (ss_push_raw N grow cmp s x)) = S (sv_allocs (ss_data s))).
  Proof using G.
    intros O.
    assert (P : let s' := sv_push N grow (ss_data s) x in
      sv_items s' = sv_items (ss_data s) ++ [x] /\ sv_ok N s' /\
      (length (sv_items (ss_data s) ++ [x]) <= sv_cap (ss_data s) ->
         sv_cap s' = sv_cap (ss_data s) /\ sv_allocs s' = sv_allocs (ss_data s)) /\
      (sv_cap (ss_data s) < length (sv_items (ss_data s) ++ [x]) ->
         N < sv_cap s' /\ sv_allocs s' = S (sv_allocs (ss_data s)))).
    { cbn zeta. split; [apply sv_push_items|]. split; [now apply sv_push_ok|].
      rewrite app_length. cbn [length]. split; intros H.
      - apply sv_push_fits. unfold sv_len. lia.
      - apply sv_push_grows; auto. destruct O as [O _]. unfold sv_len in *. lia. }
    cbn zeta in P. destruct P as (P1 & P2 & P3 & P4).
    assert (Same : forall l, length l = length (sv_items (ss_data s)) ->
      sv_ok N (sv_slice (fun _ => l) (ss_data s)) /\ length l <= sv_cap (ss_data s)).
    { intros l E. destruct O as [O1 O2]. unfold sv_ok, sv_slice, sv_len in *. cbn [sv_items sv_cap]. lia. }
    unfold ss_push_raw, sd_push_raw, forget. cbn [sd_sorted sd_data sd_keep]. unfold sv_len.
    destruct (ss_sorted s =? length (sv_items (ss_data s))); [destruct (rev (sv_items (ss_data s))) as [|lst fr] eqn:Er; [|destruct (cmp lst x) eqn:C]|].
    2:{ destruct (ss_keep s) eqn:Ek; cbn [ss_data ss_sorted ss_keep sd_data].
        - rewrite Ek. split; [reflexivity|]. split; [exact O|]. split; [auto|].
          destruct O as [O1 _]. unfold sv_len in O1. lia.
        - apply rev_last in Er.
          destruct (Same (rev fr ++ [x])) as [S1 S2]; [rewrite Er, !app_length; reflexivity|].
          cbn [sv_slice sv_items sv_cap sv_allocs]. split; [reflexivity|]. split; [exact S1|].
          split; [auto|lia]. }
    all: cbn [ss_data ss_sorted ss_keep sd_data]; rewrite P1; auto.
  Qed.

  Lemma ss_ok_shrinks (s s' : ssad (T := T)) : sv_ok N (ss_data s) ->
    sv_cap (ss_data s') = sv_cap (ss_data s) -> length (sv_items (ss_data s')) <= length (sv_items (ss_data s)) ->
    sv_ok N (ss_data s').
  Proof using. intros [O1 O2] E H. unfold sv_ok, sv_len in *. lia. Qed.

  Lemma sd_compact_len (s s' : sad (T := T)) : sd_compact cmp s = Some s' ->
    length (sd_data s') <= length (sd_data s).
  Proof using.
    intros E. unfold sd_compact in E. destruct (_ <? _); [|injection E as <-; lia].
    destruct (dedup_by_spec (fun a b => eqb_of cmp a b) (sd_keep s) (sort_by cmp (sd_data s)))
      as (junk & Q & P). rewrite Q in E. injection E as <-. cbn [sd_data].
    rewrite firstn_length. apply Permutation_length in P. rewrite P, (Permutation_length (sort_by_perm _)). lia.
  Qed.

  (** what [push] does to the storage *)
  Lemma ss_push_forget s x s' : sv_ok N (ss_data s) -> ss_push N grow cmp s x = Some s' ->
    sd_push cmp (forget s) x = Some (forget s') /\ sv_ok N (ss_data s') /\
    let n := length (sd_data (sd_push_raw cmp (forget s) x)) in
    (n <= sv_cap (ss_data s) ->
       sv_cap (ss_data s') = sv_cap (ss_data s) /\ sv_allocs (ss_data s') = sv_allocs (ss_data s)) /\
    (sv_cap (ss_data s) < n ->
       N < sv_cap (ss_data s') /\ sv_allocs (ss_data s') = S (sv_allocs (ss_data s))).
  Proof using G.
    intros O. destruct (ss_push_raw_forget s x O) as (F & O1 & H). cbn zeta in *.
    unfold ss_push, sd_push. rewrite <- F in *. cbn [forget sd_data sd_sorted] in *.
    set (r := ss_push_raw N grow cmp s x) in *. unfold sv_len.
    destruct (16 <=? _).
    - destruct (ss_sorted r <? _).
      + pose proof (ss_compact_forget r) as C. intros E. rewrite E in C.
        destruct C as (C1 & C2 & C3). rewrite C2, C3.
        split; [exact C1|]. split; [|exact H].
        apply (ss_ok_shrinks r); auto. apply sd_compact_len in C1. exact C1.
      + intros [= <-]. auto.
    - intros [= <-]. auto.
  Qed.
  Lemma ss_push_total s x : (exists r, sd_push cmp (forget s) x = Some r) -> sv_ok N (ss_data s) ->
    exists s', ss_push N grow cmp s x = Some s'.
  Proof using G.
    intros [r E] O. destruct (ss_push_raw_forget s x O) as (F & _).
    unfold ss_push, sd_push in *. rewrite <- F in E. cbn [forget sd_data sd_sorted] in E.
    set (q := ss_push_raw N grow cmp s x) in *. unfold sv_len.
    destruct (16 <=? _); [|eauto]. destruct (ss_sorted q <? _); [|eauto].
    pose proof (ss_compact_forget q) as C. destruct (ss_compact cmp q); [eauto|].
    change (sd_compact cmp (forget q) = Some r) in E. congruence.
  Qed.

  (** the buffer, after the first half of pushing any element of [l], fits in [c] *)
  Definition fits_all (s : sad (T := T)) (l : list T) (c : nat) : Prop :=
    forall l1 x l2 s1, l = l1 ++ x :: l2 -> sd_push_all cmp s l1 = Some s1 ->
      length (sd_data (sd_push_raw cmp s1 x)) <= c.

  Lemma ss_push_all_forget : forall l s r, sv_ok N (ss_data s) -> sd_push_all cmp (forget s) l = Some r ->
    exists s', ss_push_all N grow cmp s l = Some s' /\ forget s' = r /\ sv_ok N (ss_data s') /\
      sv_allocs (ss_data s) <= sv_allocs (ss_data s') /\
      (N < sv_cap (ss_data s) -> N < sv_cap (ss_data s')) /\
      (fits_all (forget s) l (sv_cap (ss_data s)) ->
         sv_cap (ss_data s') = sv_cap (ss_data s) /\ sv_allocs (ss_data s') = sv_allocs (ss_data s)) /\
      (~ fits_all (forget s) l (sv_cap (ss_data s)) ->
         N < sv_cap (ss_data s') /\ sv_allocs (ss_data s) < sv_allocs (ss_data s')).
  Proof using G.
    induction l as [|x l IH]; intros s r O; cbn [sd_push_all ss_push_all].
    - intros [= <-]. exists s. split; [reflexivity|]. split; [reflexivity|]. split; [exact O|].
      split; [lia|]. split; [auto|]. split; [auto|]. intros H. exfalso. apply H.
      intros l1 y l2 s1 E. destruct l1; discriminate.
    - destruct (sd_push cmp (forget s) x) as [r1|] eqn:E1; [|discriminate]. intros E2.
      destruct (ss_push_total s x) as [s1 P1]; [eauto|exact O|].
      destruct (ss_push_forget s x s1 O P1) as (F1 & O1 & Fit & Ovf). cbn zeta in *.
      rewrite P1. rewrite F1 in E1. injection E1 as <-.
      destruct (IH s1 r O1 E2) as (s' & Q & F2 & O2 & Mo & Cm & A1 & A2).
      exists s'. split; [exact Q|]. split; [exact F2|]. split; [exact O2|].
      set (n := length (sd_data (sd_push_raw cmp (forget s) x))) in *.
      assert (Tail : fits_all (forget s) (x :: l) (sv_cap (ss_data s)) <->
        n <= sv_cap (ss_data s) /\ fits_all (forget s1) l (sv_cap (ss_data s))).
      { split.
        - intros H. split; [apply (H [] x l (forget s)); reflexivity|].
          intros l1 y l2 t E Hp. apply (H (x :: l1) y l2 t); [now rewrite E|].
          cbn [sd_push_all]. now rewrite F1.
        - intros [H1 H2] l1 y l2 t E Hp. destruct l1 as [|z l1]; cbn [app] in E; injection E as <- E.
          + cbn in Hp. injection Hp as <-. exact H1.
          + cbn [sd_push_all] in Hp. rewrite F1 in Hp. now apply (H2 l1 y l2 t). }
      destruct (Nat.le_gt_cases n (sv_cap (ss_data s))) as [Hn|Hn].
      + destruct (Fit Hn) as [C1 A0]. rewrite C1, A0 in *.
        split; [exact Mo|]. split; [exact Cm|]. split; intros H.
        * apply Tail in H as [_ H]. now apply A1.
        * apply A2. intros H'. apply H, Tail. auto.
      + destruct (Ovf Hn) as [C1 A0]. split; [lia|]. split; [auto|]. split; intros H.
        * apply Tail in H as [H _]. lia.
        * split; [auto|lia].
  Qed.

  Context (L : OrdLaws cmp).

  (** the collecting constructors *)
  Lemma ss_sort_dedup_spec hint l kp : exists v,
    ss_sort_dedup_by N grow cmp hint l kp = Some v /\ sort_dedup_by cmp l kp = Some (sv_items v) /\
    sv_ok N v /\ (sv_allocs v = 0 <-> Nat.min hint 16 <= N /\ fits_all (sd_init kp) l N) /\
    (sv_allocs v = 0 -> sv_cap v = N) /\ (0 < sv_allocs v -> N < sv_cap v).
  Proof using G L.
    unfold ss_sort_dedup_by, sort_dedup_by.
    destruct (sd_push_all_spec L kp l [] (sd_init kp) (sd_init_inv kp)) as (r & Er & Ir). rewrite Er.
    set (s0 := MkSsad (sv_with_capacity N (Nat.min hint 16)) 0 kp).
    assert (F0 : forget s0 = sd_init kp)
      by (unfold forget, s0, sv_with_capacity; cbn [ss_data ss_sorted ss_keep]; destruct (_ <=? _); reflexivity).
    assert (O0 : sv_ok N (ss_data s0)).
    { unfold s0, sv_with_capacity, sv_ok, sv_len. cbn [ss_data].
      destruct (Nat.leb_spec (Nat.min hint 16) N); cbn [sv_items sv_cap length]; lia. }
    rewrite <- F0 in Er.
    destruct (ss_push_all_forget l s0 r O0 Er) as (s & Es & Fs & Os & Mo & Cm & A1 & A2). rewrite Es.
    destruct (sd_compact_spec L kp l r Ir) as (r' & Er' & _).
    pose proof (ss_compact_forget s) as C. rewrite Fs, Er' in C.
    destruct (ss_compact cmp s) as [s'|]; [|discriminate].
    destruct C as (C1 & C2 & C3). injection C1 as ->.
    exists (ss_data s'). split; [reflexivity|]. split; [unfold sd_into_inner; now rewrite Er'|].
    split. { apply (ss_ok_shrinks s); auto. rewrite <- Fs in Er'. apply sd_compact_len in Er'. exact Er'. }
    rewrite C2, C3. rewrite F0 in A1, A2.
    assert (H0 : (Nat.min hint 16 <= N /\ sv_cap (ss_data s0) = N /\ sv_allocs (ss_data s0) = 0) \/
                 (N < Nat.min hint 16 /\ N < sv_cap (ss_data s0) /\ sv_allocs (ss_data s0) = 1)).
    { unfold s0, sv_with_capacity. cbn [ss_data].
      destruct (Nat.leb_spec (Nat.min hint 16) N); cbn [sv_cap sv_allocs]; [left|right]; auto. }
    destruct H0 as [(H1 & H2 & H3)|(H1 & H2 & H3)].
    - rewrite H2, H3 in *.
      assert (D : fits_all (sd_init kp) l N \/ ~ fits_all (sd_init kp) l N).
      { destruct (Nat.eq_dec (sv_allocs (ss_data s)) 0) as [Q|Q].
        - left. intros l1 x l2 s1 E Hp.
          destruct (Nat.le_gt_cases (length (sd_data (sd_push_raw cmp s1 x))) N) as [|Gt]; [assumption|].
          destruct A2 as [_ A2]; [|lia]. intros H. specialize (H l1 x l2 s1 E Hp). lia.
        - right. intros H. apply A1 in H as [_ H]. lia. }
      destruct D as [D|D].
      + destruct (A1 D) as [E1 E2]. rewrite E1, E2. split; [split; auto|]. split; [auto|lia].
      + destruct (A2 D) as [E1 E2]. split; [split; [lia|intros [_ H]; contradiction]|]. split; [lia|auto].
    - split; [split; [lia|intros [H _]; lia]|]. split; [lia|auto].
  Qed.

  (** when the buffer never exceeds the inline size *)
  Lemma sd_push_len (s s' : sad (T := T)) x : sd_push cmp s x = Some s' ->
    length (sd_data s') <= S (length (sd_data s)).
  Proof using.
    unfold sd_push. pose proof (sd_push_raw_len (cmp := cmp) s x) as H.
    destruct (16 <=? _); [destruct (_ <? _)|]; intros E.
    - apply sd_compact_len in E. lia.
    - injection E as <-. exact H.
    - injection E as <-. exact H.
  Qed.
  Lemma sd_push_all_len : forall l (s s' : sad (T := T)), sd_push_all cmp s l = Some s' ->
    length (sd_data s') <= length (sd_data s) + length l.
  Proof using.
    induction l as [|x l IH]; intros s s'; cbn [sd_push_all].
    - intros [= <-]. lia.
    - destruct (sd_push cmp s x) as [s1|] eqn:E; [|discriminate]. intros H. apply IH in H.
      apply sd_push_len in E. cbn [length]. lia.
  Qed.
  Lemma fits_few kp l : length l <= N -> fits_all (sd_init kp) l N.
  Proof using.
    intros H l1 x l2 s1 E Hp. apply sd_push_all_len in Hp. cbn in Hp.
    pose proof (sd_push_raw_len (cmp := cmp) s1 x) as R. subst l. rewrite app_length in H. cbn [length] in H. lia.
  Qed.
  Lemma distinct_prefix_len l1 l2 : length (distinct (cmp := cmp) l1) <= length (distinct (cmp := cmp) (l1 ++ l2)).
  Proof using L.
    apply (sorted_incl_length L); try apply (std_sort_dedup L).
    intros z Hz. apply (is_dedup_mem KeepFirst _ _ z (std_sort_dedup L (l1 ++ l2))), mem_app. left.
    apply (is_dedup_mem KeepFirst _ _ z (std_sort_dedup L l1)), Hz.
  Qed.
  Lemma fits_general kp l : Nat.max 16 (2 * length (distinct (cmp := cmp) l) + 1) <= N ->
    fits_all (sd_init kp) l N.
  Proof using L.
    intros H l1 x l2 s1 E Hp. destruct (sd_storage L kp l1 x s1 Hp) as [_ B].
    pose proof (distinct_prefix_len l1 (x :: l2)) as D. rewrite <- E in D. lia.
  Qed.

  (** items arriving in (weakly) increasing order *)
  Lemma sd_push_raw_inorder kp inp (s : sad (T := T)) x :
    sd_inv (cmp := cmp) kp inp s -> sd_sorted s = length (sd_data s) ->
    (forall y, In y inp -> cmp y x <> Gt) ->
    sd_sorted (sd_push_raw cmp s x) = length (sd_data (sd_push_raw cmp s x)).
  Proof using L.
    intros I E H. unfold sd_push_raw. rewrite E, Nat.eqb_refl.
    destruct (rev (sd_data s)) as [|lst fr] eqn:Er.
    - cbn. rewrite app_length. cbn. lia.
    - apply rev_last in Er.
      assert (Hl : cmp lst x <> Gt).
      { assert (Hm : mem cmp lst (sd_data s)).
        { apply (mem_In L). rewrite Er. apply in_or_app. right. now left. }
        assert (Hm' : mem cmp lst inp).
        { pose proof (pick_None (cmp := cmp) kp lst inp) as P1.
          pose proof (pick_None (cmp := cmp) kp lst (sd_data s)) as P2.
          rewrite (si_pick _ _ _ I) in P2. destruct (mem_dec (cmp := cmp) lst inp); tauto. }
        destruct Hm' as (y & Hy & Ey). specialize (H y Hy). now rewrite (cmp_eq_l L _ _ x Ey). }
      destruct (cmp lst x); [|cbn; rewrite app_length; cbn; lia|congruence].
      destruct (sd_keep s); [exact E|]. cbn. rewrite Er, !app_length. reflexivity.
  Qed.
  Lemma sd_push_all_inorder kp : forall l inp (s s' : sad (T := T)),
    sd_inv (cmp := cmp) kp inp s -> sd_sorted s = length (sd_data s) ->
    wsorted (cmp := cmp) l -> (forall y z, In y inp -> In z l -> cmp y z <> Gt) ->
    sd_push_all cmp s l = Some s' -> sd_sorted s' = length (sd_data s').
  Proof using L.
    induction l as [|x l IH]; intros inp s s' I E W H; cbn [sd_push_all].
    - intros [= <-]. exact E.
    - apply wsorted_cons in W as [W Hx].
      assert (R : sd_sorted (sd_push_raw cmp s x) = length (sd_data (sd_push_raw cmp s x))).
      { apply (sd_push_raw_inorder kp inp); auto. intros y Hy. apply H; auto. now left. }
      destruct (sd_push_spec L kp inp s x I) as (s1 & E1 & I1). rewrite E1.
      assert (s1 = sd_push_raw cmp s x) as ->.
      { unfold sd_push in E1. rewrite R, Nat.sub_diag in E1.
        destruct (16 <=? _); [|congruence]. now injection E1. }
      apply (IH (inp ++ [x])); auto. intros y z Hy Hz. apply in_app_or in Hy as [Hy|[<-|[]]].
      + apply H; auto. now right.
      + now apply Hx.
  Qed.
  Lemma fits_inorder kp l : wsorted (cmp := cmp) l -> length (distinct (cmp := cmp) l) <= N ->
    fits_all (sd_init kp) l N.
  Proof using L.
    intros W H l1 x l2 s1 E Hp. subst l.
    destruct (sd_push_all_spec L kp l1 [] (sd_init kp) (sd_init_inv kp)) as (s2 & E2 & I2).
    assert (s2 = s1) as -> by congruence. cbn [app] in I2.
    assert (W1 : wsorted (cmp := cmp) l1).
    { clear - W. induction l1 as [|y l1 IH]; [constructor|]. cbn [app] in W. apply wsorted_cons in W as [W H].
      apply wsorted_cons. split; [now apply IH|]. intros z Hz. apply H, in_or_app. now left. }
    assert (W12 : forall y z, In y l1 -> In z (x :: l2) -> cmp y z <> Gt).
    { clear - W. induction l1 as [|y l1 IH]; [intros ? ? []|]. cbn [app] in W. apply wsorted_cons in W as [W H].
      intros u v [<-|Hu] Hv; [apply H, in_or_app; now right|now apply IH]. }
    assert (A : sd_sorted s1 = length (sd_data s1)).
    { apply (sd_push_all_inorder kp l1 [] (sd_init kp)); auto using sd_init_inv. }
    assert (R : sd_sorted (sd_push_raw cmp s1 x) = length (sd_data (sd_push_raw cmp s1 x))).
    { apply (sd_push_raw_inorder kp l1); auto. intros y Hy. apply W12; auto. now left. }
    pose proof (sd_sorted_bound L _ _ _ (sd_push_raw_inv L kp l1 s1 x I2)) as B.
    pose proof (distinct_prefix_len (l1 ++ [x]) l2) as D. rewrite <- app_assoc in D. cbn [app] in D. lia.
  Qed.
End CollectFacts.

Section PureFacts.
  Context {T : Type} (N : nat) (grow : nat -> nat) (G : forall n, n <= grow n)
          {cmp : T -> T -> comparison} (L : OrdLaws cmp).
  Local Notation id := (fun x : T => x).
  Local Notation M := (svs_msm (T := T) N grow).

  Lemma svs_adv_a_ok (s : svstate T T T) n ta : n <= length (svs_a s) ->
    exists r, svs_adv_a N grow s n ta = Cont (MkSvs (skipn n (svs_a s)) (svs_b s) r) /\
      sv_items r = sv_items (svs_r s) ++ (if ta then firstn n (svs_a s) else []).
  Proof using.
    intros H. unfold svs_adv_a, si_take_front, si_drop_front. apply Nat.leb_le in H. rewrite H.
    destruct ta; eexists; (split; [reflexivity|]).
    - now rewrite sv_pushes_items, sv_reserve_items.
    - now rewrite app_nil_r.
  Qed.
  Lemma svs_adv_b_ok (s : svstate T T T) n tb : n <= length (svs_b s) ->
    exists r, svs_adv_b N grow s n tb = Cont (MkSvs (svs_a s) (skipn n (svs_b s)) r) /\
      sv_items r = sv_items (svs_r s) ++ (if tb then firstn n (svs_b s) else []).
  Proof using.
    intros H. unfold svs_adv_b, si_take_front, si_drop_front. apply Nat.leb_le in H. rewrite H.
    destruct tb; eexists; (split; [reflexivity|]).
    - now rewrite sv_pushes_items, sv_reserve_items.
    - now rewrite app_nil_r.
  Qed.
  Lemma svs_coll ta tb tc (s : svstate T T T) x a y b : svs_a s = x :: a -> svs_b s = y :: b ->
    exists r, mo_coll (setop (cmp := cmp) ta tb tc M) s = Cont (MkSvs a b r) /\
      sv_items r = sv_items (svs_r s) ++ (if tc then [x] else []).
  Proof using.
    intros Ha Hb. cbn [setop mo_coll adv_a adv_b svs_msm].
    destruct (svs_adv_a_ok s 1 tc) as (r & E & I); [rewrite Ha; cbn; lia|]. rewrite E. cbn [obind].
    destruct (svs_adv_b_ok (MkSvs (skipn 1 (svs_a s)) (svs_b s) r) 1 false) as (r' & E' & I');
      [cbn [svs_b]; rewrite Hb; cbn; lia|]. rewrite E'. exists r'. cbn [svs_r] in I'.
    rewrite app_nil_r in I'. rewrite I', I. rewrite Ha, Hb. cbn. split; [reflexivity|]. destruct tc; reflexivity.
  Qed.
  Lemma svs_advancing ta tb tc : advancing (setop (cmp := cmp) ta tb tc M).
  Proof using.
    constructor.
    - intros s n s' Hn. cbn in Hn |- *. destruct (svs_adv_a_ok s n ta Hn) as (r & E & _). rewrite E.
      intros [= <-]. auto.
    - intros s n s' Hn. cbn in Hn |- *. destruct (svs_adv_b_ok s n tb Hn) as (r & E & _). rewrite E.
      intros [= <-]. auto.
    - intros s x a y b s' Ha Hb. destruct (svs_coll ta tb tc s x a y b Ha Hb) as (r & E & _). rewrite E.
      intros [= <-]. auto.
  Qed.
  Lemma svs_pointwise ta tb tc a0 b0 :
    pointwise (kcmp := cmp) id id (sel ta) (sel tb) (fun x _ => sel tc x)
      (setop (cmp := cmp) ta tb tc M) (fun s => sv_items (svs_r s)) a0 b0.
  Proof using.
    constructor.
    - intros s n _ _ Hn. cbn in Hn |- *. destruct (svs_adv_a_ok s n ta Hn) as (r & E & I). rewrite E.
      eexists. split; [reflexivity|]. cbn [svs_r]. now rewrite omap_sel.
    - intros s n _ _ Hn. cbn in Hn |- *. destruct (svs_adv_b_ok s n tb Hn) as (r & E & I). rewrite E.
      eexists. split; [reflexivity|]. cbn [svs_r]. now rewrite omap_sel.
    - intros s x a y b _ _ Ha Hb _. destruct (svs_coll ta tb tc s x a y b Ha Hb) as (r & E & I). rewrite E.
      eexists. split; [reflexivity|]. cbn [svs_r]. rewrite I. destruct tc; reflexivity.
  Qed.

  Lemma svs_adv_filled (s : svstate T T T) n t s' : filled N (svs_r s) ->
    svs_adv_a N grow s n t = Cont s' \/ svs_adv_b N grow s n t = Cont s' -> filled N (svs_r s').
  Proof using G.
    intros F. unfold svs_adv_a, svs_adv_b, si_take_front, si_drop_front.
    intros [H|H]; destruct t; destruct (Nat.leb_spec n (length (svs_a s))); destruct (Nat.leb_spec n (length (svs_b s)));
      try discriminate; injection H as <-; cbn [svs_r]; try exact F.
    all: match goal with |- context [fold_left _ ?h _] =>
           let E := fresh in assert (E : length h = n) by (apply firstn_length_le; lia); rewrite <- E at 2; now apply filled_batch end.
  Qed.
  Lemma svs_merge_spec strat ta tb tc a b : sorted cmp a -> sorted cmp b ->
    exists r, svs_merge N strat (setop (cmp := cmp) ta tb tc M) a b = Ok r /\
      sv_items r = set_ref (cmp := cmp) ta tb tc a b /\ filled N r.
  Proof using G L.
    intros Sa Sb. unfold svs_merge.
    destruct (merge_pointwise L id id (sel ta) (sel tb) (fun x _ => sel tc x)
       (setop (cmp := cmp) ta tb tc M) (fun s => sv_items (svs_r s)) (svs_advancing ta tb tc) strat (MkSvs a b (sv_new N)))
      as (s' & E & Et & _); auto using svs_pointwise, cmp_agrees_setop.
    - now apply ksorted_id.
    - now apply ksorted_id.
    - rewrite E. cbn [to_res]. exists (svs_r s'). split; [reflexivity|]. split; [exact Et|].
      apply (merge_inv (setop (cmp := cmp) ta tb tc M) (fun s => filled N (svs_r s))) with (strat := strat) (s := MkSvs a b (sv_new N)); auto.
      + intros s n s1 F H. apply (svs_adv_filled s n ta s1 F). left. exact H.
      + intros s n s1 F H. apply (svs_adv_filled s n tb s1 F). right. exact H.
      + intros s s1 F H. cbn [setop mo_coll adv_a adv_b svs_msm] in H.
        destruct (svs_adv_a N grow s 1 tc) as [s2| | |] eqn:E1; try discriminate. cbn [obind] in H.
        apply (svs_adv_filled s2 1 false s1); [|right; exact H].
        apply (svs_adv_filled s 1 tc s2 F). now left.
      + apply filled_new.
  Qed.
End PureFacts.

Section InPlaceFacts.
  Context {T : Type} {cmp : T -> T -> comparison} (L : OrdLaws cmp).
  Local Notation id := (fun x : T => x).

  Definition lift {S} (k : nat) (o : out S) : out (S * nat) :=
    match o with
    | Cont s => Cont (s, k) | Stop s => Stop (s, k) | Panic s => Panic (s, k) | NoFuel => NoFuel
    end.
  Lemma lift_cont {S} k (o : out S) s' : lift k o = Cont s' <-> o = Cont (fst s') /\ snd s' = k.
  Proof using.
    destruct o; cbn [lift]; split; try discriminate; try (intros [? ?]; discriminate).
    - intros [= <-]. auto.
    - destruct s' as [u v]. cbn [fst snd]. intros [[= ->] ->]. reflexivity.
  Qed.
  Lemma asked_a {S} ta tb tc (M : msm S T T) s n :
    mo_from_a (setop (cmp := cmp) ta tb tc (asked M)) s n = lift (snd s) (mo_from_a (setop (cmp := cmp) ta tb tc M) (fst s) n).
  Proof using. reflexivity. Qed.
  Lemma asked_b {S} ta tb tc (M : msm S T T) s n :
    mo_from_b (setop (cmp := cmp) ta tb tc (asked M)) s n =
    lift (if tb then snd s + n else snd s) (mo_from_b (setop (cmp := cmp) ta tb tc M) (fst s) n).
  Proof using. reflexivity. Qed.
  Lemma asked_c {S} ta tb tc (M : msm S T T) s :
    mo_coll (setop (cmp := cmp) ta tb tc (asked M)) s = lift (snd s) (mo_coll (setop (cmp := cmp) ta tb tc M) (fst s)).
  Proof using.
    cbn [setop mo_coll asked adv_a adv_b]. destruct (adv_a M (fst s) 1 tc); reflexivity.
  Qed.

  Section Gen.
    Context {S : Type} (M : msm S T T) (ta tb tc : bool) (tgt : S -> list T).
    Context (AD : advancing (setop (cmp := cmp) ta tb tc M))
            (PW : forall a0 b0, pointwise (kcmp := cmp) id id (sel ta) (sel tb) (fun x _ => sel tc x)
                    (setop (cmp := cmp) ta tb tc M) tgt a0 b0).
    Local Notation O := (setop (cmp := cmp) ta tb tc (asked M)).

    Lemma asked_advancing : advancing O.
    Proof using AD.
      constructor.
      - intros s n s' Hn H. rewrite asked_a in H. apply lift_cont in H as [H _]. exact (ad_a _ AD _ _ _ Hn H).
      - intros s n s' Hn H. rewrite asked_b in H. apply lift_cont in H as [H _]. exact (ad_b _ AD _ _ _ Hn H).
      - intros s x a y b s' Ha Hb H. rewrite asked_c in H. apply lift_cont in H as [H _].
        exact (ad_c _ AD _ _ _ _ _ _ Ha Hb H).
    Qed.
    Lemma asked_pointwise a0 b0 : pointwise (kcmp := cmp) id id (sel ta) (sel tb) (fun x _ => sel tc x)
      O (fun s => tgt (fst s)) a0 b0.
    Proof using AD PW.
      constructor.
      - intros s n Ia Ib Hn. destruct (pw_a _ _ _ _ _ _ _ _ _ (PW a0 b0) (fst s) n Ia Ib Hn) as (s' & E & Q).
        rewrite asked_a, E. eexists. split; [reflexivity|exact Q].
      - intros s n Ia Ib Hn. destruct (pw_b _ _ _ _ _ _ _ _ _ (PW a0 b0) (fst s) n Ia Ib Hn) as (s' & E & Q).
        rewrite asked_b, E. eexists. split; [reflexivity|exact Q].
      - intros s x a y b Ia Ib Ha Hb C.
        destruct (pw_c _ _ _ _ _ _ _ _ _ (PW a0 b0) (fst s) x a y b Ia Ib Ha Hb C) as (s' & E & Q).
        rewrite asked_c, E. eexists. split; [reflexivity|exact Q].
    Qed.
    Lemma asked_count a0 b0 : pointwise (kcmp := cmp) id id (fun _ => None)
      (fun _ : T => if tb then Some tt else None) (fun _ _ => None)
      O (fun s => repeat tt (snd s)) a0 b0.
    Proof using AD PW.
      assert (Nil : forall l : list T, omap (fun _ : T => @None unit) l = []).
      { induction l as [|x l IH]; [reflexivity|exact IH]. }
      assert (One : forall l : list T, omap (fun _ : T => Some tt) l = repeat tt (length l)).
      { induction l as [|x l IH]; [reflexivity|]. cbn. f_equal. exact IH. }
      constructor.
      - intros s n Ia Ib Hn. destruct (pw_a _ _ _ _ _ _ _ _ _ (PW a0 b0) (fst s) n Ia Ib Hn) as (s' & E & Q).
        rewrite asked_a, E. eexists. split; [reflexivity|]. cbn [snd]. now rewrite Nil, app_nil_r.
      - intros s n Ia Ib Hn. destruct (pw_b _ _ _ _ _ _ _ _ _ (PW a0 b0) (fst s) n Ia Ib Hn) as (s' & E & Q).
        rewrite asked_b, E. eexists. split; [reflexivity|]. cbn [snd]. destruct tb.
        + rewrite One, firstn_length_le by exact Hn. apply repeat_app.
        + now rewrite Nil, app_nil_r.
      - intros s x a y b Ia Ib Ha Hb C.
        destruct (pw_c _ _ _ _ _ _ _ _ _ (PW a0 b0) (fst s) x a y b Ia Ib Ha Hb C) as (s' & E & Q).
        rewrite asked_c, E. eexists. split; [reflexivity|]. cbn [snd o2l]. now rewrite app_nil_r.
    Qed.

    Lemma asked_merge strat s : sorted cmp (ms_a M s) -> sorted cmp (ms_b M s) ->
      exists s', merge O strat (s, 0) = Cont s' /\
        tgt (fst s') = tgt s ++ set_ref (cmp := cmp) ta tb tc (ms_a M s) (ms_b M s) /\
        snd s' = length (set_ref (cmp := cmp) false tb false (ms_a M s) (ms_b M s)).
    Proof using L AD PW.
      intros Sa Sb.
      assert (Ka : ksorted (cmp := cmp) id (mo_a O (s, 0))) by now apply ksorted_id.
      assert (Kb : ksorted (cmp := cmp) id (mo_b O (s, 0))) by now apply ksorted_id.
      destruct (merge_pointwise L id id _ _ _ O (fun s => tgt (fst s)) asked_advancing strat (s, 0)
        (asked_pointwise _ _) Ka Kb (cmp_agrees_setop _ _ _ _ _ _)) as (s1 & E1 & T1 & _).
      destruct (merge_pointwise L id id _ _ _ O (fun s => repeat tt (snd s)) asked_advancing strat (s, 0)
        (asked_count _ _) Ka Kb (cmp_agrees_setop _ _ _ _ _ _)) as (s2 & E2 & T2 & _).
      assert (s2 = s1) as -> by congruence. exists s1. split; [exact E1|]. split; [exact T1|].
      rewrite <- (repeat_length tt (snd s1)), T2. cbn [snd repeat app].
      change (mo_a O (s, 0)) with (ms_a M s). change (mo_b O (s, 0)) with (ms_b M s).
      unfold set_ref. generalize (ms_a M s) as a. generalize (ms_b M s) as b. clear.
      assert (Ob : forall l : list T, length (omap (fun _ : T => if tb then Some tt else None) l) = length (omap (sel tb) l)).
      { induction l as [|x l IH]; [reflexivity|]. unfold omap in *. cbn [flat_map]. rewrite !app_length, IH.
        destruct tb; reflexivity. }
      assert (Oa : forall l : list T, length (omap (fun _ : T => @None unit) l) = length (omap (sel false) l)).
      { induction l as [|x l IH]; [reflexivity|exact IH]. }
      intros b a. revert b. induction a as [|x a IHa]; intros b; [apply Ob|].
      induction b as [|y b IHb]; [rewrite !tape_ref_nil_r; apply Oa|].
      rewrite !tape_ref_cons. destruct (cmp x y); rewrite !app_length.
      - cbn [sel o2l length]. f_equal. apply IHa.
      - cbn [sel o2l length]. f_equal. apply IHa.
      - rewrite IHb. f_equal. destruct tb; reflexivity.
    Qed.
  End Gen.

  Lemma room_ip_spec strat ta tb tc a b : sorted cmp a -> sorted cmp b ->
    room_ip strat (setop (cmp := cmp) ta tb tc (asked (ip_msm IdConverter))) a b =
    Done (set_ref (cmp := cmp) ta tb tc a b, length (set_ref (cmp := cmp) false tb false a b)).
  Proof using L.
    intros Sa Sb. unfold room_ip.
    assert (Hc : total_conv tb (@IdConverter T)) by (unfold total_conv; destruct tb; auto).
    destruct (asked_merge (ip_msm IdConverter) ta tb tc (fun s => bd_tgt (ip_a s)) (ip_advancing ta tb tc _ Hc)
      (fun a0 b0 => ip_pointwise ta tb tc _ a0 b0 Hc) strat (ip_new a b) Sa Sb) as (s' & E & E1 & E2).
    rewrite E. cbn [to_done]. rewrite E1, E2. reflexivity.
  Qed.
  Lemma room_ipr_spec strat ta tb tc conv a b : total_conv tb conv -> sorted cmp a -> sorted cmp b ->
    room_ipr strat (setop (cmp := cmp) ta tb tc (asked (ipr_msm conv))) a b =
    Done (set_ref (cmp := cmp) ta tb tc a b, length (set_ref (cmp := cmp) false tb false a b)).
  Proof using L.
    intros Hc Sa Sb. unfold room_ipr.
    destruct (asked_merge (ipr_msm conv) ta tb tc (fun s => bd_tgt (ipr_a s)) (ipr_advancing ta tb tc _ Hc)
      (fun a0 b0 => ipr_pointwise ta tb tc _ a0 b0 Hc) strat (ipr_new a b) Sa Sb) as (s' & E & E1 & E2).
    rewrite E. cbn [to_done]. rewrite E1, E2. reflexivity.
  Qed.
End InPlaceFacts.
