(** Facts about validation, reading and writing of archives as memory (ArchiveModel.v). *)
From Verif Require Export ArchiveModel RadixReach VecSetFacts.

Lemma mbind_got {X Y} (x : mout X) (f : X -> mout Y) y : mbind x f = Got y -> exists a, x = Got a /\ f a = Got y.
Proof. destruct x; cbn; try discriminate. intros H. now exists x. Qed.
Lemma rd_got b i w : rd b i = Got w <-> nth_error b i = Some w.
Proof. unfold rd. destruct (nth_error b i); split; congruence. Qed.
Lemma rd_in b i : i < length b -> exists w, rd b i = Got w.
Proof. intros H. unfold rd. destruct (nth_error b i) eqn:E; [now exists n|]. apply nth_error_None in E. lia. Qed.
Lemma rd_slice_in b n : forall p, p + n <= length b -> exists l, rd_slice b p n = Got l /\ length l = n.
Proof.
  induction n as [|n IH]; intros p H; [now exists []|]. cbn [rd_slice].
  destruct (rd_in b p) as [w ->]; [lia|]. cbn [mbind]. destruct (IH (S p)) as (l & -> & Q); [lia|].
  exists (w :: l). cbn. now rewrite Q.
Qed.
Lemma rd_slice_len b n : forall p l, rd_slice b p n = Got l -> length l = n.
Proof.
  induction n as [|n IH]; intros p l H; cbn [rd_slice] in H; [now injection H as <-|].
  apply mbind_got in H as (w & _ & H). apply mbind_got in H as (ws & H & Q). injection Q as <-. cbn. f_equal. eauto.
Qed.
Lemma in_range_ok lo hi p n : in_range lo hi p n = true <-> lo <= p /\ p + n <= hi.
Proof. unfold in_range. rewrite andb_true_iff, !Nat.leb_le. tauto. Qed.

(** a checker is safe with [lo, hi) available: no wild access, no recursion too deep, and it only
    narrows what is available *)
Definition safe (o : mout nat) (lo hi : nat) : Prop :=
  match o with Ub => False | TooDeep => False | Reject => True | Got l => lo <= l <= hi end.

Lemma check_elems_safe elem sz n : forall p lo hi,
  lo <= hi ->
  (forall i lo', i < n -> lo <= lo' <= hi -> safe (elem (p + sz * i) lo' hi) lo' hi) ->
  safe (check_elems elem sz p n lo hi) lo hi.
Proof.
  induction n as [|n IH]; intros p lo hi R H; cbn [check_elems]; [cbn; lia|].
  pose proof (H 0 lo ltac:(lia) ltac:(lia)) as H0. replace (p + sz * 0) with p in H0 by lia.
  destruct (elem p lo hi) as [| | |l]; cbn [mbind safe] in *; auto.
  assert (S1 : safe (check_elems elem sz (p + sz) n l hi) l hi).
  { apply IH; [lia|]. intros i lo' Hi Hl. replace (p + sz + sz * i) with (p + sz * S i) by lia. apply H; lia. }
  destruct (check_elems elem sz (p + sz) n l hi); cbn in *; auto. lia.
Qed.
Lemma check_vec_safe b elem sz pos lo hi :
  S pos < length b ->
  (forall p n i lo', rd b pos = Got p -> rd b (S pos) = Got n -> lo <= p -> p + sz * n <= hi -> i < n -> lo <= lo' <= p -> safe (elem (p + sz * i) lo' p) lo' p) ->
  safe (check_vec b elem sz pos lo hi) lo hi.
Proof.
  intros Hp H. unfold check_vec. destruct (rd_in b pos) as [p E]; [lia|]. destruct (rd_in b (S pos)) as [n E2]; [lia|].
  rewrite E, E2. cbn [mbind]. destruct (in_range lo hi p (sz * n)) eqn:R; [|exact I]. apply in_range_ok in R.
  assert (S1 : safe (check_elems elem sz p n lo p) lo p).
  { apply check_elems_safe; [lia|]. intros i lo' Hi Hl. apply (H p n i lo'); auto; lia. }
  destruct (check_elems elem sz p n lo p); cbn [mbind safe] in *; auto. lia.
Qed.
Lemma check_word_safe b p lo hi : p < length b -> lo <= hi -> safe (check_word b p lo hi) lo hi.
Proof. intros H R. unfold check_word. destruct (rd_in b p) as [w ->]; auto. cbn. lia. Qed.
Lemma check_words_safe b pos lo hi : S pos < length b -> hi <= length b -> safe (check_vec b (check_word b) 1 pos lo hi) lo hi.
Proof. intros H H2. apply check_vec_safe; auto. intros p n i lo' _ _ H3 H4 H5 H6. apply check_word_safe; lia. Qed.
Lemma check_vec_got b elem sz pos lo hi l : check_vec b elem sz pos lo hi = Got l ->
  exists p n l', rd b pos = Got p /\ rd b (S pos) = Got n /\ lo <= p /\ p + sz * n <= hi /\ l = p + sz * n /\ check_elems elem sz p n lo p = Got l'.
Proof.
  unfold check_vec. intros H. apply mbind_got in H as (p & E & H). apply mbind_got in H as (n & E2 & H).
  destruct (in_range lo hi p (sz * n)) eqn:R; [|discriminate]. apply in_range_ok in R. apply mbind_got in H as (l' & E3 & H).
  injection H as <-. exists p, n, l'. repeat split; auto; lia.
Qed.
(** the elements of an accepted vector were accepted, each with only earlier memory available *)
Lemma check_elems_each elem sz n : forall p lo hi l,
  (forall i lo' l', i < n -> elem (p + sz * i) lo' hi = Got l' -> lo <= lo' <= hi -> lo' <= l' <= hi) ->
  lo <= hi -> check_elems elem sz p n lo hi = Got l ->
  forall i, i < n -> exists lo' l', lo <= lo' <= hi /\ elem (p + sz * i) lo' hi = Got l'.
Proof.
  induction n as [|n IH]; intros p lo hi l M R H i Hi; [lia|]. cbn [check_elems] in H.
  apply mbind_got in H as (l1 & E & H). destruct i as [|i].
  - exists lo, l1. replace (p + sz * 0) with p by lia. split; auto; lia.
  - assert (B : lo <= l1 <= hi). { apply (M 0 lo l1); try lia. replace (p + sz * 0) with p by lia. auto. }
    destruct (IH (p + sz) l1 hi l) with (i := i) as (lo' & l' & Q & Q2); auto; try lia.
    + intros j lo' l' Hj Ej Hl. apply (M (S j) lo' l'); try lia. now replace (p + sz * S j) with (p + sz + sz * j) by lia.
    + exists lo', l'. split; [lia|]. now replace (p + sz * S i) with (p + sz + sz * i) by lia.
Qed.

Lemma rd_elems_in {X} (elem : nat -> mout X) sz n : forall p,
  (forall i, i < n -> exists x, elem (p + sz * i) = Got x) -> exists l, rd_elems elem sz p n = Got l /\ length l = n.
Proof.
  induction n as [|n IH]; intros p H; [now exists []|]. cbn [rd_elems].
  destruct (H 0) as [x E]; [lia|]. replace (p + sz * 0) with p in E by lia. rewrite E. cbn [mbind].
  destruct (IH (p + sz)) as (l & -> & Q). { intros i Hi. destruct (H (S i)) as [y Ey]; [lia|]. exists y. now replace (p + sz + sz * i) with (p + sz * S i) by lia. }
  exists (x :: l). cbn. now rewrite Q.
Qed.
Lemma rd_elems_nth {X} (elem : nat -> mout X) sz n : forall p l, rd_elems elem sz p n = Got l ->
  length l = n /\ forall i, i < n -> exists x, nth_error l i = Some x /\ elem (p + sz * i) = Got x.
Proof.
  induction n as [|n IH]; intros p l H; cbn [rd_elems] in H.
  - injection H as <-. split; auto. intros i Hi; lia.
  - apply mbind_got in H as (x & E & H). apply mbind_got in H as (xs & E2 & H). injection H as <-.
    destruct (IH _ _ E2) as [Q Q2]. split; [cbn; lia|]. intros [|i] Hi.
    + exists x. replace (p + sz * 0) with p by lia. auto.
    + destruct (Q2 i) as (y & A & B); [lia|]. exists y. replace (p + sz * S i) with (p + sz + sz * i) by lia. auto.
Qed.
Lemma rd_elems_cons {X} (elem : nat -> mout X) sz n p x l :
  rd_elems elem sz p (S n) = Got (x :: l) -> elem p = Got x /\ rd_elems elem sz (p + sz) n = Got l.
Proof.
  cbn [rd_elems]. intros H. apply mbind_got in H as (y & E & H). apply mbind_got in H as (ys & E2 & H). now injection H as <- <-.
Qed.

(** ** Collections *)
Section Colls.
  Context (kcmp : nat -> nat -> comparison) (b : buf).
  Lemma string_safe p lo hi : S p < length b -> hi <= length b -> safe (check_string b p lo hi) lo hi.
  Proof. apply check_words_safe. Qed.
  Lemma string_read p lo hi l : check_string b p lo hi = Got l -> hi <= length b -> exists s, rd_string b p = Got s.
  Proof.
    intros H Hb. apply check_vec_got in H as (q & n & l' & E & E2 & A & B & -> & _). unfold rd_string. rewrite E, E2. cbn [mbind].
    destruct (rd_slice_in b n q) as (s & -> & _); [lia|]. now exists s.
  Qed.
  Lemma entry_safe p lo hi : S (S p) < length b -> hi <= length b -> safe (check_entry b p lo hi) lo hi.
  Proof.
    intros H Hb. unfold check_entry. pose proof (string_safe p lo hi ltac:(lia) Hb) as Q.
    destruct (check_string b p lo hi); cbn [mbind]; auto. destruct (rd_in b (p + 2)) as [w ->]; [lia|]. exact Q.
  Qed.
  Lemma entry_string p lo hi l : check_entry b p lo hi = Got l -> check_string b p lo hi = Got l /\ exists v, rd b (p + 2) = Got v.
  Proof.
    unfold check_entry. intros H. apply mbind_got in H as (l' & E & H). apply mbind_got in H as (v & E2 & H). injection H as <-. eauto.
  Qed.
  Lemma all_lt_ok sz n : forall p ks,
    rd_elems (rd_string b) sz p n = Got ks ->
    exists r, all_lt kcmp b sz p n = Got r /\ r = vset_check_order (lex kcmp) ks.
  Proof.
    induction n as [|n IH]; intros p ks H; [injection H as <-; now exists true|].
    destruct ks as [|k ks]. { apply rd_elems_nth in H as [H _]. discriminate. }
    apply rd_elems_cons in H as [E H]. destruct n as [|n]; [injection H as <-; now exists true|].
    destruct ks as [|k2 ks]. { apply rd_elems_nth in H as [H _]. discriminate. }
    pose proof H as H'. apply rd_elems_cons in H as [E2 H].
    cbn [all_lt]. rewrite E, E2. cbn [mbind].
    destruct (IH _ _ H') as (r & Q & Qr). cbn [all_lt] in Q. rewrite E2 in Q. cbn [mbind] in Q.
    unfold vset_check_order in *. cbn [skipn combine forallb] in *.
    cbn [fst snd]. destruct (lex kcmp k k2); [exists false|exists r|exists false]; (split; [first [reflexivity|exact Q]|cbn; auto]).
  Qed.

  (** a vector of elements that start with a string *)
  Section Gen.
  Context (elem : nat -> nat -> nat -> mout nat) (sz : nat).
  Context (EL : forall p lo hi, p + sz <= length b -> hi <= length b -> safe (elem p lo hi) lo hi).
  Context (ER : forall p lo hi l, elem p lo hi = Got l -> hi <= length b -> exists s, rd_string b p = Got s).
  Definition gen_check (pos lo hi : nat) : mout nat :=
    lo' <~ check_vec b elem sz pos lo hi ;;
    p <~ rd b pos ;; n <~ rd b (S pos) ;;
    ok <~ all_lt kcmp b sz p n ;; if ok then Got lo' else Reject.
  Lemma idx_le i n : i < n -> sz * i + sz <= sz * n.
  Proof. intros H. rewrite <- Nat.mul_succ_r. apply Nat.mul_le_mono_l. lia. Qed.
  Lemma gen_keys pos lo hi l : hi <= length b -> check_vec b elem sz pos lo hi = Got l ->
    exists p n ks, rd b pos = Got p /\ rd b (S pos) = Got n /\ l = p + sz * n /\ rd_elems (rd_string b) sz p n = Got ks /\
      forall i, i < n -> exists lo' l', lo' <= p /\ p <= length b /\ elem (p + sz * i) lo' p = Got l'.
  Proof.
    intros Hb H. apply check_vec_got in H as (p & n & l' & E & E2 & A & B & -> & C).
    assert (EA : forall i, i < n -> exists lo' l', lo' <= p /\ p <= length b /\ elem (p + sz * i) lo' p = Got l').
    { intros i Hi. destruct (check_elems_each elem sz n p lo p l') with (i := i) as (lo' & l2 & Q & Q2); auto.
      - intros j lo2 l3 Hj Ej Hl. pose proof (idx_le j n Hj). pose proof (EL (p + sz * j) lo2 p ltac:(lia) ltac:(lia)) as S. rewrite Ej in S. exact S.
      - exists lo', l2. repeat split; auto; lia. }
    destruct (rd_elems_in (rd_string b) sz n p) as (ks & R & _).
    { intros i Hi. destruct (EA i Hi) as (lo' & l2 & Q & Q1 & Q2). eapply ER; eauto. }
    exists p, n, ks. repeat split; auto.
  Qed.
  Lemma gen_safe pos lo hi : S pos < length b -> hi <= length b -> safe (gen_check pos lo hi) lo hi.
  Proof.
    intros Hp Hb. unfold gen_check. assert (S1 : safe (check_vec b elem sz pos lo hi) lo hi).
    { apply check_vec_safe; auto. intros p n i lo' E E2 A B Hi Hl. pose proof (idx_le i n Hi). apply EL; lia. }
    destruct (check_vec b elem sz pos lo hi) as [| | |l] eqn:C; cbn [mbind safe] in *; auto.
    destruct (gen_keys _ _ _ _ Hb C) as (p & n & ks & E & E2 & _ & R & _). rewrite E, E2. cbn [mbind].
    destruct (all_lt_ok sz n p ks R) as (r & -> & _). cbn [mbind]. destruct r; cbn; auto.
  Qed.
  Lemma gen_accept pos lo hi l : hi <= length b -> gen_check pos lo hi = Got l ->
    exists p n ks, rd b pos = Got p /\ rd b (S pos) = Got n /\ rd_elems (rd_string b) sz p n = Got ks /\ vset_check_order (lex kcmp) ks = true /\
      forall i, i < n -> exists lo' l', lo' <= p /\ p <= length b /\ elem (p + sz * i) lo' p = Got l'.
  Proof.
    intros Hb. unfold gen_check. intros H. apply mbind_got in H as (l' & C & H).
    destruct (gen_keys _ _ _ _ Hb C) as (p & n & ks & E & E2 & _ & R & Q). exists p, n, ks. rewrite E, E2 in H. cbn [mbind] in H.
    destruct (all_lt_ok sz n p ks R) as (r & Er & Qr). rewrite Er in H. cbn [mbind] in H. destruct r; [|discriminate]. repeat split; auto.
  Qed.
  End Gen.
End Colls.

Lemma rd_elems_map {X Y} (f : nat -> mout X) (g : nat -> mout Y) (h : Y -> X) sz n : forall p l,
  (forall q y, g q = Got y -> f q = Got (h y)) -> rd_elems g sz p n = Got l -> rd_elems f sz p n = Got (map h l).
Proof.
  induction n as [|n IH]; intros p l F H; cbn [rd_elems] in *; [now injection H as <-|].
  apply mbind_got in H as (y & E & H). apply mbind_got in H as (ys & E2 & H). injection H as <-.
  rewrite (F _ _ E). cbn [mbind]. rewrite (IH _ _ F E2). reflexivity.
Qed.
